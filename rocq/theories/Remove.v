(** removeVertex / removeHalfedge / removeFace on a consistent element list. *)
From Coq Require Import List ZArith Arith Lia Bool.
From Verif Require Import Num Vec Heap Mesh Spec Orbit Rings Exec.
Import ListNotations.
Local Open Scope mesh_scope.

(** An element list whose objects are live and know their position. *)
Definition ListOk (l : list nat) (live : nat -> bool) (idx : nat -> Z) : Prop :=
  NoDup l /\ forall i y, nth_error l i = Some y -> live y = true /\ idx y = Z.of_nat i.

Lemma upd_list_app {X} (a : list X) x y t : upd_list (a ++ x :: t) (length a) y = a ++ y :: t.
Proof.
  unfold upd_list. rewrite firstn_app, Nat.sub_diag, firstn_all, firstn_O, app_nil_r.
  rewrite skipn_app, Nat.sub_diag, skipn_all. reflexivity.
Qed.
Lemma nth_mid {X} (a : list X) x t : nth_error (a ++ x :: t) (length a) = Some x.
Proof. rewrite nth_error_app2 by lia. rewrite Nat.sub_diag; reflexivity. Qed.
Lemma nth_last {X} (a : list X) x b z : nth_error (a ++ x :: b ++ [z]) (length (a ++ x :: b ++ [z]) - 1) = Some z.
Proof.
  replace (a ++ x :: b ++ [z]) with ((a ++ x :: b) ++ [z]) by (rewrite <- app_assoc; reflexivity).
  rewrite app_length. simpl. replace (length (a ++ x :: b) + 1 - 1) with (length (a ++ x :: b)) by lia. apply nth_mid.
Qed.

Lemma swap_last a x b z : swap_list (a ++ x :: b ++ [z]) (length a) (length (a ++ x :: b ++ [z]) - 1) = a ++ z :: b ++ [x].
Proof.
  unfold swap_list. rewrite nth_mid, nth_last, upd_list_app.
  replace (a ++ z :: b ++ [z]) with ((a ++ z :: b) ++ z :: []) by (rewrite <- app_assoc; reflexivity).
  replace (length (a ++ x :: b ++ [z]) - 1) with (length (a ++ z :: b)).
  - rewrite upd_list_app, <- app_assoc. reflexivity.
  - rewrite !app_length. simpl. rewrite app_length. simpl. lia.
Qed.

Lemma removelast_mid {X} (a : list X) x : removelast (a ++ [x]) = a.
Proof. apply removelast_last. Qed.

Section Remove.
Context {N : Num}.

(** The state after the removal: only the list, the indices and the liveness change. *)
Definition upd_h (l : list nat) (ix : nat -> Z) (lv : nat -> bool) (m : mesh N) : mesh N :=
  mkMesh (m_verts m) l (m_faces m) (m_indices m) (m_fresh m) (v_live m) (v_pos m) (v_he m) (v_idx m) (v_lock m)
    lv (h_src m) (h_next m) (h_rev m) (h_face m) ix (h_bd m) (f_live m) (f_he m) (f_idx m).
Definition upd_v (l : list nat) (ix : nat -> Z) (lv : nat -> bool) (m : mesh N) : mesh N :=
  mkMesh l (m_hes m) (m_faces m) (m_indices m) (m_fresh m) lv (v_pos m) (v_he m) ix (v_lock m)
    (h_live m) (h_src m) (h_next m) (h_rev m) (h_face m) (h_idx m) (h_bd m) (f_live m) (f_he m) (f_idx m).
Definition upd_f (l : list nat) (ix : nat -> Z) (lv : nat -> bool) (m : mesh N) : mesh N :=
  mkMesh (m_verts m) (m_hes m) l (m_indices m) (m_fresh m) (v_live m) (v_pos m) (v_he m) (v_idx m) (v_lock m)
    (h_live m) (h_src m) (h_next m) (h_rev m) (h_face m) (h_idx m) (h_bd m) lv (f_he m) ix.

(** What removing [x] from the list [l] leaves. *)
Definition Removed (l : list nat) (live : nat -> bool) (x : nat) (l' : list nat) (ix : nat -> Z) : Prop :=
  ListOk l' (fupd live x false) ix /\ (forall y, In y l' <-> In y l /\ y <> x) /\ S (length l') = length l.

Lemma removed_last a x live idx : ListOk (a ++ [x]) live idx -> Removed (a ++ [x]) live x a idx.
Proof.
  intros [Hnd Hi]. pose proof (NoDup_remove_2 _ _ _ Hnd) as Hx. rewrite app_nil_r in Hx.
  pose proof (NoDup_remove_1 _ _ _ Hnd) as Ha. rewrite app_nil_r in Ha.
  split; [split; [exact Ha|]|split].
  - intros i y Hy. rewrite fupd_other; [|intros ->; apply Hx; eapply nth_error_In; exact Hy].
    apply Hi. rewrite nth_error_app1; [exact Hy|]. apply nth_error_Some. congruence.
  - intros y; rewrite in_app_iff. simpl. split; [intros Hy; split; [auto|intros ->; contradiction]|].
    intros [[H|[H|[]]] Hne]; [exact H|congruence].
  - rewrite app_length; simpl; lia.
Qed.

Lemma removed_mid a x b z live idx : ListOk (a ++ x :: b ++ [z]) live idx ->
  Removed (a ++ x :: b ++ [z]) live x (a ++ z :: b) (fupd (fupd (fupd idx z (idx x)) x (idx z)) x (-1)%Z).
Proof.
  intros [Hnd Hi].
  assert (Hnd' : NoDup (a ++ z :: b ++ [x])).
  { eapply NoDup_incl_NoDup; [exact Hnd|rewrite !app_length; simpl; rewrite !app_length; simpl; lia|].
    intros y. rewrite !in_app_iff; simpl; rewrite !in_app_iff; simpl. tauto. }
  replace (a ++ z :: b ++ [x]) with ((a ++ z :: b) ++ [x]) in Hnd' by (rewrite <- app_assoc; reflexivity).
  pose proof (NoDup_remove_2 _ _ _ Hnd') as Hx. rewrite app_nil_r in Hx.
  pose proof (NoDup_remove_1 _ _ _ Hnd') as Ha. rewrite app_nil_r in Ha.
  assert (Hzx : z <> x) by (intros ->; apply Hx, in_or_app; right; left; reflexivity).
  split; [split; [exact Ha|]|split].
  - intros i y Hy. assert (Hyx : y <> x) by (intros ->; apply Hx; eapply nth_error_In; exact Hy).
    rewrite !(fupd_other _ x) by exact Hyx.
    destruct (Nat.eq_dec i (length a)) as [->|Hia].
    + rewrite nth_mid in Hy. injection Hy as <-. rewrite fupd_same. split.
      * apply (Hi (length (a ++ x :: b ++ [z]) - 1)), nth_last.
      * apply Hi, nth_mid.
    + assert (Hyz : y <> z).
      { intros ->. apply Hia. eapply NoDup_nth_error; [exact Ha|apply nth_error_Some; congruence|]. rewrite Hy, nth_mid; reflexivity. }
      rewrite fupd_other by exact Hyz. apply Hi.
      destruct (Nat.lt_ge_cases i (length a)) as [C|C].
      * rewrite nth_error_app1 in * by exact C. exact Hy.
      * rewrite nth_error_app2 in * by exact C. destruct (i - length a) as [|k] eqn:E; [lia|]. simpl in *.
        rewrite nth_error_app1; [exact Hy|]. apply nth_error_Some. congruence.
  - intros y. rewrite !in_app_iff; simpl; rewrite !in_app_iff; simpl. split.
    + intros Hy. assert (y <> x) by (intros ->; apply Hx, in_or_app; simpl; tauto). tauto.
    + intros [Hy Hne]. intuition congruence.
  - rewrite !app_length; simpl; rewrite !app_length; simpl; lia.
Qed.

Lemma split_at (l : list nat) x : In x l -> exists a t, l = a ++ x :: t /\ (t = [] \/ exists b z, t = b ++ [z]).
Proof.
  intros H. destruct (in_split _ _ H) as (a & t & ->). exists a, t; split; [reflexivity|].
  destruct t as [|y t]; [left; reflexivity|right]. destruct (exists_last (l := y :: t)) as (b & z & E); [discriminate|]. eauto.
Qed.

Lemma vec_at_idx (l : list nat) (i : nat) x (m : mesh N) z : nth_error l i = Some x -> z = Z.of_nat i -> vec_at l z m = Ok (Some x, m).
Proof. intros H ->; apply vec_at_ok; exact H. Qed.

Ltac sx := repeat first [rewrite bind_assoc | rewrite bind_get | rewrite bind_modify | rewrite bind_ret].

Lemma removeHalfedge_ok (m : mesh N) x : ListOk (m_hes m) (h_live m) (h_idx m) -> In x (m_hes m) ->
  exists l' ix, removeHalfedge (Some x) m = Ok (tt, upd_h l' ix (fupd (h_live m) x false) m) /\
    Removed (m_hes m) (h_live m) x l' ix.
Proof.
  intros HL Hx. destruct (split_at _ _ Hx) as (a & t & El & Ht).
  assert (Ex : nth_error (m_hes m) (length a) = Some x) by (rewrite El; apply nth_mid).
  destruct (proj2 HL _ _ Ex) as [Lx Ix].
  assert (Ln : length (m_hes m) = length a + S (length t)) by (rewrite El, app_length; reflexivity).
  assert (EQ : halfedge_eqb (Some x) (Some x) m = Ok (true, m)).
  { unfold halfedge_eqb. repeat mstep. rewrite !ptr_eqb_refl, Z.eqb_refl. reflexivity. }
  unfold removeHalfedge. sx. rewrite (bind_ok _ _ _ _ _ (r_hidx m x Lx)). rewrite (bind_ok _ _ _ _ _ (vec_at_idx _ _ _ _ _ Ex Ix)).
  rewrite (bind_ok _ _ _ _ _ EQ), bind_assert by reflexivity. rewrite bind_assert by (apply Z.ltb_lt; rewrite Ix; lia).
  destruct Ht as [->|(b & z & ->)].
  - exists a, (h_idx m). split; [|rewrite El in *; apply removed_last; exact HL].
    replace (h_idx m x <? Z.of_nat (length (m_hes m)) - 1)%Z with false by (symmetry; apply Z.ltb_ge; rewrite Ix, Ln; simpl; lia).
    sx. rewrite (bind_ok _ _ _ _ _ (vec_at_idx (m_hes m) (length a) x _ (Z.of_nat (length (m_hes m)) - 1)%Z Ex ltac:(rewrite Ln; simpl; lia))).
    sx. unfold free_h, modify. rewrite El, removelast_mid. reflexivity.
  - exists (a ++ z :: b), (fupd (fupd (fupd (h_idx m) z (h_idx m x)) x (h_idx m z)) x (-1)%Z).
    split; [|rewrite El in *; apply removed_mid; exact HL].
    rewrite app_length in Ln; simpl in Ln.
    replace (h_idx m x <? Z.of_nat (length (m_hes m)) - 1)%Z with true by (symmetry; apply Z.ltb_lt; rewrite Ix; lia).
    assert (Ez : nth_error (m_hes m) (length (m_hes m) - 1) = Some z) by (rewrite El; apply nth_last).
    destruct (proj2 HL _ _ Ez) as [Lz Iz].
    assert (Hzx : z <> x).
    { intros ->. enough (length a = length (m_hes m) - 1) by lia.
      eapply NoDup_nth_error; [apply (proj1 HL)|lia|congruence]. }
    replace (Z.to_nat (h_idx m x)) with (length a) by (rewrite Ix; lia).
    replace (Z.to_nat (Z.of_nat (length (m_hes m)) - 1)) with (length (m_hes m) - 1) by lia.
    assert (Esw : swap_list (m_hes m) (length a) (length (m_hes m) - 1) = a ++ z :: b ++ [x]) by (rewrite El; apply swap_last).
    rewrite Esw. sx. flds.
    assert (E1 : nth_error (a ++ z :: b ++ [x]) (length a) = Some z) by apply nth_mid.
    assert (E2 : nth_error (a ++ z :: b ++ [x]) (length (m_hes m) - 1) = Some x).
    { replace (length (m_hes m) - 1) with (length (a ++ z :: b ++ [x]) - 1); [apply nth_last|].
      rewrite Ln, !app_length; simpl; rewrite app_length; simpl. lia. }
    rewrite (bind_ok _ _ _ _ _ (vec_at_idx _ _ _ _ _ E1 Ix)).
    sx. rewrite (bind_ok _ _ _ _ _ (vec_at_idx _ _ _ _ (Z.of_nat (length (m_hes m)) - 1)%Z E2 ltac:(lia))).
    repeat mstep. flds. rewrite (bind_ok _ _ _ _ _ (vec_at_idx _ _ _ _ (Z.of_nat (length (m_hes m)) - 1)%Z E2 ltac:(lia))).
    sx. unfold free_h, modify. replace (a ++ z :: b ++ [x]) with ((a ++ z :: b) ++ [x]) by (rewrite <- app_assoc; reflexivity).
    rewrite removelast_mid. reflexivity.
Qed.

Lemma removeFace_ok (m : mesh N) x : ListOk (m_faces m) (f_live m) (f_idx m) -> In x (m_faces m) ->
  exists l' ix, removeFace (Some x) m = Ok (tt, upd_f l' ix (fupd (f_live m) x false) m) /\
    Removed (m_faces m) (f_live m) x l' ix.
Proof.
  intros HL Hx. destruct (split_at _ _ Hx) as (a & t & El & Ht).
  assert (Ex : nth_error (m_faces m) (length a) = Some x) by (rewrite El; apply nth_mid).
  destruct (proj2 HL _ _ Ex) as [Lx Ix].
  assert (Ln : length (m_faces m) = length a + S (length t)) by (rewrite El, app_length; reflexivity).
  assert (EQ : face_eqb (Some x) (Some x) m = Ok (true, m)).
  { unfold face_eqb. repeat mstep. rewrite !ptr_eqb_refl, Z.eqb_refl. reflexivity. }
  unfold removeFace. sx. rewrite (bind_ok _ _ _ _ _ (r_fidx m x Lx)). rewrite (bind_ok _ _ _ _ _ (vec_at_idx _ _ _ _ _ Ex Ix)).
  rewrite (bind_ok _ _ _ _ _ EQ), bind_assert by reflexivity. rewrite bind_assert by (apply Z.ltb_lt; rewrite Ix; lia).
  destruct Ht as [->|(b & z & ->)].
  - exists a, (f_idx m). split; [|rewrite El in *; apply removed_last; exact HL].
    replace (f_idx m x <? Z.of_nat (length (m_faces m)) - 1)%Z with false by (symmetry; apply Z.ltb_ge; rewrite Ix, Ln; simpl; lia).
    sx. rewrite (bind_ok _ _ _ _ _ (vec_at_idx (m_faces m) (length a) x _ (Z.of_nat (length (m_faces m)) - 1)%Z Ex ltac:(rewrite Ln; simpl; lia))).
    sx. unfold free_f, modify. rewrite El, removelast_mid. reflexivity.
  - exists (a ++ z :: b), (fupd (fupd (fupd (f_idx m) z (f_idx m x)) x (f_idx m z)) x (-1)%Z).
    split; [|rewrite El in *; apply removed_mid; exact HL].
    rewrite app_length in Ln; simpl in Ln.
    replace (f_idx m x <? Z.of_nat (length (m_faces m)) - 1)%Z with true by (symmetry; apply Z.ltb_lt; rewrite Ix; lia).
    assert (Ez : nth_error (m_faces m) (length (m_faces m) - 1) = Some z) by (rewrite El; apply nth_last).
    destruct (proj2 HL _ _ Ez) as [Lz Iz].
    assert (Hzx : z <> x).
    { intros ->. enough (length a = length (m_faces m) - 1) by lia.
      eapply NoDup_nth_error; [apply (proj1 HL)|lia|congruence]. }
    replace (Z.to_nat (f_idx m x)) with (length a) by (rewrite Ix; lia).
    replace (Z.to_nat (Z.of_nat (length (m_faces m)) - 1)) with (length (m_faces m) - 1) by lia.
    assert (Esw : swap_list (m_faces m) (length a) (length (m_faces m) - 1) = a ++ z :: b ++ [x]) by (rewrite El; apply swap_last).
    rewrite Esw. sx. flds.
    assert (E1 : nth_error (a ++ z :: b ++ [x]) (length a) = Some z) by apply nth_mid.
    assert (E2 : nth_error (a ++ z :: b ++ [x]) (length (m_faces m) - 1) = Some x).
    { replace (length (m_faces m) - 1) with (length (a ++ z :: b ++ [x]) - 1); [apply nth_last|].
      rewrite Ln, !app_length; simpl; rewrite app_length; simpl. lia. }
    rewrite (bind_ok _ _ _ _ _ (vec_at_idx _ _ _ _ _ E1 Ix)).
    sx. rewrite (bind_ok _ _ _ _ _ (vec_at_idx _ _ _ _ (Z.of_nat (length (m_faces m)) - 1)%Z E2 ltac:(lia))).
    repeat mstep. flds. rewrite (bind_ok _ _ _ _ _ (vec_at_idx _ _ _ _ (Z.of_nat (length (m_faces m)) - 1)%Z E2 ltac:(lia))).
    sx. unfold free_f, modify. replace (a ++ z :: b ++ [x]) with ((a ++ z :: b) ++ [x]) by (rewrite <- app_assoc; reflexivity).
    rewrite removelast_mid. reflexivity.
Qed.

(** removeVertex also compares the position with itself: a NaN coordinate makes its assertion fail. *)
Lemma removeVertex_ok (m : mesh N) x : ListOk (m_verts m) (v_live m) (v_idx m) -> In x (m_verts m) ->
  veqb (v_pos m x) (v_pos m x) = true ->
  exists l' ix, removeVertex (Some x) m = Ok (tt, upd_v l' ix (fupd (v_live m) x false) m) /\
    Removed (m_verts m) (v_live m) x l' ix.
Proof.
  intros HL Hx Hp. destruct (split_at _ _ Hx) as (a & t & El & Ht).
  assert (Ex : nth_error (m_verts m) (length a) = Some x) by (rewrite El; apply nth_mid).
  destruct (proj2 HL _ _ Ex) as [Lx Ix].
  assert (Ln : length (m_verts m) = length a + S (length t)) by (rewrite El, app_length; reflexivity).
  assert (EQ : vertex_eqb (Some x) (Some x) m = Ok (true, m)).
  { unfold vertex_eqb. repeat mstep. rewrite Hp, !ptr_eqb_refl, Z.eqb_refl. reflexivity. }
  unfold removeVertex. sx. rewrite (bind_ok _ _ _ _ _ (r_vidx m x Lx)). rewrite (bind_ok _ _ _ _ _ (vec_at_idx _ _ _ _ _ Ex Ix)).
  rewrite (bind_ok _ _ _ _ _ EQ), bind_assert by reflexivity. rewrite bind_assert by (apply Z.ltb_lt; rewrite Ix; lia).
  destruct Ht as [->|(b & z & ->)].
  - exists a, (v_idx m). split; [|rewrite El in *; apply removed_last; exact HL].
    replace (v_idx m x <? Z.of_nat (length (m_verts m)) - 1)%Z with false by (symmetry; apply Z.ltb_ge; rewrite Ix, Ln; simpl; lia).
    sx. rewrite (bind_ok _ _ _ _ _ (vec_at_idx (m_verts m) (length a) x _ (Z.of_nat (length (m_verts m)) - 1)%Z Ex ltac:(rewrite Ln; simpl; lia))).
    sx. unfold free_v, modify. rewrite El, removelast_mid. reflexivity.
  - exists (a ++ z :: b), (fupd (fupd (fupd (v_idx m) z (v_idx m x)) x (v_idx m z)) x (-1)%Z).
    split; [|rewrite El in *; apply removed_mid; exact HL].
    rewrite app_length in Ln; simpl in Ln.
    replace (v_idx m x <? Z.of_nat (length (m_verts m)) - 1)%Z with true by (symmetry; apply Z.ltb_lt; rewrite Ix; lia).
    assert (Ez : nth_error (m_verts m) (length (m_verts m) - 1) = Some z) by (rewrite El; apply nth_last).
    destruct (proj2 HL _ _ Ez) as [Lz Iz].
    assert (Hzx : z <> x).
    { intros ->. enough (length a = length (m_verts m) - 1) by lia.
      eapply NoDup_nth_error; [apply (proj1 HL)|lia|congruence]. }
    replace (Z.to_nat (v_idx m x)) with (length a) by (rewrite Ix; lia).
    replace (Z.to_nat (Z.of_nat (length (m_verts m)) - 1)) with (length (m_verts m) - 1) by lia.
    assert (Esw : swap_list (m_verts m) (length a) (length (m_verts m) - 1) = a ++ z :: b ++ [x]) by (rewrite El; apply swap_last).
    rewrite Esw. sx. flds.
    assert (E1 : nth_error (a ++ z :: b ++ [x]) (length a) = Some z) by apply nth_mid.
    assert (E2 : nth_error (a ++ z :: b ++ [x]) (length (m_verts m) - 1) = Some x).
    { replace (length (m_verts m) - 1) with (length (a ++ z :: b ++ [x]) - 1); [apply nth_last|].
      rewrite Ln, !app_length; simpl; rewrite app_length; simpl. lia. }
    rewrite (bind_ok _ _ _ _ _ (vec_at_idx _ _ _ _ _ E1 Ix)).
    sx. rewrite (bind_ok _ _ _ _ _ (vec_at_idx _ _ _ _ (Z.of_nat (length (m_verts m)) - 1)%Z E2 ltac:(lia))).
    repeat mstep. flds. rewrite (bind_ok _ _ _ _ _ (vec_at_idx _ _ _ _ (Z.of_nat (length (m_verts m)) - 1)%Z E2 ltac:(lia))).
    sx. unfold free_v, modify. replace (a ++ z :: b ++ [x]) with ((a ++ z :: b) ++ [x]) by (rewrite <- app_assoc; reflexivity).
    rewrite removelast_mid. reflexivity.
Qed.

Lemma removeVertex_nan (m : mesh N) x : ListOk (m_verts m) (v_live m) (v_idx m) -> In x (m_verts m) ->
  veqb (v_pos m x) (v_pos m x) = false -> removeVertex (Some x) m = Abort AAssert.
Proof.
  intros HL Hx Hp. destruct (split_at _ _ Hx) as (a & t & El & Ht).
  assert (Ex : nth_error (m_verts m) (length a) = Some x) by (rewrite El; apply nth_mid).
  destruct (proj2 HL _ _ Ex) as [Lx Ix].
  assert (EQ : vertex_eqb (Some x) (Some x) m = Ok (false, m)).
  { unfold vertex_eqb. repeat mstep. rewrite Hp. reflexivity. }
  unfold removeVertex. sx. rewrite (bind_ok _ _ _ _ _ (r_vidx m x Lx)). rewrite (bind_ok _ _ _ _ _ (vec_at_idx _ _ _ _ _ Ex Ix)).
  rewrite (bind_ok _ _ _ _ _ EQ). reflexivity.
Qed.

End Remove.
