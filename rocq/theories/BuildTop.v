(** Mesh::construct: preparation of the index list, welding of positions, and
    the outcome of the whole construction. *)
From Coq Require Import List ZArith Arith Lia Bool Relations Permutation.
From Verif Require Import Num Vec Heap Mesh Construct Spec BuildSpec Orbit Rings Exec Split BuildTri BuildOpen BuildClose BuildRing BuildFan.
From Verif Require Remove.
Import ListNotations.
Local Open Scope mesh_scope.

(** ** Degenerate triangles: mesh.cpp 186-195 *)
Fixpoint flat (T : list tri) : list nat :=
  match T with [] => [] | (a, b, c) :: T' => a :: b :: c :: flat T' end.
Lemma flat_app T U : flat (T ++ U) = flat T ++ flat U.
Proof. induction T as [|[[a b] c] T IH]; cbn [flat app]; [reflexivity|]. rewrite IH. reflexivity. Qed.
Lemma flat_length T : length (flat T) = 3 * length T.
Proof. induction T as [|[[a b] c] T IH]; cbn [flat length]; lia. Qed.
Lemma triples_flat T : triples (flat T) = T.
Proof. induction T as [|[[a b] c] T IH]; cbn [flat triples]; [reflexivity|]. rewrite IH. reflexivity. Qed.
Lemma flat_triples l : Nat.divide 3 (length l) -> flat (triples l) = l.
Proof.
  remember (length l) as n eqn:Hn. revert l Hn. induction n as [n IH] using lt_wf_ind. intros l -> D.
  destruct l as [|a [|b [|c l]]]; [reflexivity| | |].
  - exfalso. destruct D as [k Hk]. cbn [length] in Hk. lia.
  - exfalso. destruct D as [k Hk]. cbn [length] in Hk. lia.
  - cbn [triples flat]. rewrite (IH (length l)); [reflexivity|cbn [length]; lia|reflexivity|].
    destruct D as [k Hk]. exists (k - 1). cbn [length] in Hk. lia.
Qed.

Lemma degb_spec t : degb t = true <-> degenerate t.
Proof. destruct t as [[a b] c]. cbn [degb degenerate]. rewrite !orb_true_iff, !Nat.eqb_eq. tauto. Qed.
Lemma degb_false t : degb t = false <-> ~ degenerate t.
Proof. rewrite <- degb_spec. destruct (degb t); split; intros; congruence. Qed.

Lemma swap_mid a x b z d : swap_list (a ++ x :: b ++ z :: d) (length a) (length a + S (length b)) = a ++ z :: b ++ x :: d.
Proof.
  unfold swap_list.
  assert (E1 : nth_error (a ++ x :: b ++ z :: d) (length a) = Some x) by (rewrite nth_error_app2, Nat.sub_diag by lia; reflexivity).
  assert (E2 : nth_error (a ++ x :: b ++ z :: d) (length a + S (length b)) = Some z).
  { rewrite nth_error_app2 by lia. replace (length a + S (length b) - length a) with (S (length b)) by lia. cbn [nth_error].
    rewrite nth_error_app2, Nat.sub_diag by lia. reflexivity. }
  rewrite E1, E2. rewrite Remove.upd_list_app.
  replace (a ++ z :: b ++ z :: d) with ((a ++ z :: b) ++ z :: d) by (rewrite <- app_assoc; reflexivity).
  replace (length a + S (length b)) with (length (a ++ z :: b)) by (rewrite app_length; cbn [length]; lia).
  rewrite Remove.upd_list_app, <- app_assoc. reflexivity.
Qed.
Lemma swap_self l i : swap_list l i i = l.
Proof.
  unfold swap_list. destruct (nth_error l i) as [x|] eqn:E; [|reflexivity].
  apply nth_error_split in E as (a & b & -> & <-). rewrite !Remove.upd_list_app. reflexivity.
Qed.

Ltac appn := repeat (progress (rewrite <- ?app_assoc; cbn [app])); reflexivity.
Lemma nth_flat pre t rest k : k < 3 -> nth_error (flat (pre ++ t :: rest)) (3 * length pre + k) = nth_error (flat [t]) k.
Proof.
  intros H. rewrite flat_app, nth_error_app2 by (rewrite flat_length; lia). rewrite flat_length.
  replace (3 * length pre + k - 3 * length pre) with k by lia. destruct t as [[a b] c]. cbn [flat].
  destruct k as [|[|[|k]]]; try reflexivity. lia.
Qed.

Lemma drop_step fuel pre t rest : drop_degenerate (S fuel) (3 * length pre) (flat (pre ++ t :: rest)) =
  if degb t then
    match rev rest with
    | [] => drop_degenerate fuel (3 * length (pre ++ [t])) (flat pre)
    | z :: r => drop_degenerate fuel (3 * length (pre ++ [z])) (flat ((pre ++ [z]) ++ rev r))
    end
  else drop_degenerate fuel (3 * length (pre ++ [t])) (flat ((pre ++ [t]) ++ rest)).
Proof.
  cbn [drop_degenerate].
  assert (Hlt : (3 * length pre <? length (flat (pre ++ t :: rest))) = true).
  { apply Nat.ltb_lt. rewrite flat_length, app_length. cbn [length]. lia. }
  rewrite Hlt. pose proof (nth_flat pre t rest 0) as E0. pose proof (nth_flat pre t rest 1) as E1. pose proof (nth_flat pre t rest 2) as E2.
  rewrite Nat.add_0_r in E0. rewrite E0, E1, E2 by lia. destruct t as [[a b] c]. cbn [flat nth_error degb].
  assert (E3 : 3 * length pre + 3 = 3 * length (pre ++ [(a, b, c)])) by (rewrite app_length; cbn [length]; lia).
  destruct ((a =? b) || (b =? c) || (c =? a)).
  - destruct (rev rest) as [|z r] eqn:R.
    + assert (rest = []) by (rewrite <- (rev_involutive rest), R; reflexivity). subst rest.
      assert (Sz : length (flat (pre ++ [(a, b, c)])) = 3 * length pre + 3) by (rewrite flat_length, app_length; cbn [length]; lia).
      match goal with |- context [length (flat ?x)] => replace (length (flat x)) with (3 * length pre + 3) by (symmetry; exact Sz) end.
      replace (3 * length pre + 3 - 3) with (3 * length pre) by lia. replace (3 * length pre + 3 - 2) with (3 * length pre + 1) by lia.
      replace (3 * length pre + 3 - 1) with (3 * length pre + 2) by lia.
      rewrite !swap_self. rewrite flat_app, <- flat_length, firstn_app, Nat.sub_diag, firstn_O, app_nil_r, firstn_all, flat_length.
      rewrite E3. reflexivity.
    + assert (Er : rest = rev r ++ [z]) by (rewrite <- (rev_involutive rest), R; reflexivity). rewrite Er. destruct z as [[x y] w].
      assert (El : flat (pre ++ (a, b, c) :: rev r ++ [(x, y, w)]) = flat pre ++ a :: b :: c :: flat (rev r) ++ [x; y; w]).
      { rewrite flat_app. cbn [flat]. rewrite flat_app. reflexivity. }
      match goal with |- context [length (flat ?u)] => replace (flat u) with (flat pre ++ a :: b :: c :: flat (rev r) ++ [x; y; w]) by (symmetry; exact El) end.
      set (p := flat pre). set (q := flat (rev r)).
      assert (Lp : 3 * length pre = length p) by (unfold p; rewrite flat_length; reflexivity).
      assert (Ll : length (p ++ a :: b :: c :: q ++ [x; y; w]) = length p + 3 + length q + 3) by (rewrite app_length; cbn [length]; rewrite app_length; cbn [length]; lia).
      rewrite Ll, Lp.
      replace (length p + 3 + length q + 3 - 3) with (length p + S (length (b :: c :: q))) by (cbn [length]; lia).
      change (p ++ a :: b :: c :: q ++ [x; y; w]) with (p ++ a :: (b :: c :: q) ++ x :: [y; w]). rewrite swap_mid.
      replace (p ++ x :: (b :: c :: q) ++ a :: [y; w]) with ((p ++ [x]) ++ b :: (c :: q ++ [a]) ++ y :: [w]) by appn.
      replace (length p + 1) with (length (p ++ [x])) by (rewrite app_length; reflexivity).
      replace (length p + 3 + length q + 3 - 2) with (length (p ++ [x]) + S (length (c :: q ++ [a]))) by (rewrite app_length; cbn [length]; rewrite app_length; cbn [length]; lia).
      rewrite swap_mid.
      replace ((p ++ [x]) ++ y :: (c :: q ++ [a]) ++ b :: [w]) with ((p ++ [x; y]) ++ c :: (q ++ [a; b]) ++ w :: []) by appn.
      replace (length p + 2) with (length (p ++ [x; y])) by (rewrite app_length; reflexivity).
      replace (length p + 3 + length q + 3 - 1) with (length (p ++ [x; y]) + S (length (q ++ [a; b]))) by (rewrite !app_length; cbn [length]; lia).
      rewrite swap_mid.
      assert (Ef : flat ((pre ++ [(x, y, w)]) ++ rev r) = p ++ x :: y :: w :: q) by (rewrite <- app_assoc, flat_app; reflexivity).
      match goal with |- _ = drop_degenerate _ _ ?u => replace u with (p ++ x :: y :: w :: q) by (symmetry; exact Ef) end.
      f_equal; [rewrite <- Lp, app_length; cbn [length]; lia|].
      replace ((p ++ [x; y]) ++ w :: (q ++ [a; b]) ++ [c]) with ((p ++ x :: y :: w :: q) ++ [a; b; c]) by appn.
      assert (Lq : length p + S (length (b :: c :: q)) = length (p ++ x :: y :: w :: q)) by (rewrite app_length; cbn [length]; lia).
      rewrite Lq, firstn_app, Nat.sub_diag, firstn_O, app_nil_r, firstn_all. reflexivity.
  - rewrite E3. f_equal. rewrite <- app_assoc. reflexivity.
Qed.

Lemma drop_done fuel pre : drop_degenerate fuel (3 * length pre) (flat pre) = Ok (flat pre).
Proof.
  assert ((3 * length pre <? length (flat pre)) = false) by (apply Nat.ltb_ge; rewrite flat_length; lia).
  destruct fuel; cbn [drop_degenerate]; rewrite H; reflexivity.
Qed.
Lemma drop_done' fuel k pre : length pre <= k -> drop_degenerate fuel (3 * k) (flat pre) = Ok (flat pre).
Proof.
  intros L. assert ((3 * k <? length (flat pre)) = false) by (apply Nat.ltb_ge; rewrite flat_length; lia).
  destruct fuel; cbn [drop_degenerate]; rewrite H; reflexivity.
Qed.

Lemma drop_loop n : forall rest pre fuel, length rest = n -> n <= fuel -> exists out rem,
  drop_degenerate fuel (3 * length pre) (flat (pre ++ rest)) = Ok (flat out) /\
  Permutation (pre ++ rest) (out ++ rem) /\ Forall degenerate rem /\
  ((forall t, In t rest -> ~ degenerate t) -> out = pre ++ rest /\ rem = []) /\
  (length (filter degb rest) <= 1 -> forall t, In t out -> In t pre \/ ~ degenerate t).
Proof.
  induction n as [n IH] using lt_wf_ind. intros rest pre fuel Hn Hf. destruct rest as [|t rest].
  - exists pre, []. rewrite !app_nil_r, drop_done. split; [reflexivity|]. split; [reflexivity|]. split; [constructor|]. split; [auto|]. intros _ t Ht. auto.
  - destruct fuel as [|fuel]; [cbn [length] in Hn; lia|]. rewrite drop_step. destruct (degb t) eqn:D.
    + assert (Dt : degenerate t) by (apply degb_spec, D). destruct (rev rest) as [|z r] eqn:R.
      * assert (rest = []) by (rewrite <- (rev_involutive rest), R; reflexivity). subst rest.
        exists pre, [t]. rewrite drop_done' by (rewrite app_length; lia). split; [reflexivity|]. split; [reflexivity|]. split; [constructor; [exact Dt|constructor]|].
        split; [intros H; exfalso; exact (H t (or_introl eq_refl) Dt)|]. intros _ u Hu. auto.
      * assert (Er : rest = rev r ++ [z]) by (rewrite <- (rev_involutive rest), R; reflexivity).
        assert (Lr : length rest = S (length (rev r))) by (rewrite Er, app_length; cbn [length]; lia).
        cbn [length] in Hn. destruct (IH (length (rev r)) ltac:(lia) (rev r) (pre ++ [z]) fuel eq_refl ltac:(lia)) as (out & rem & E & Pm & Fd & H0 & H1).
        exists out, (t :: rem). split; [exact E|]. split.
        { rewrite Er. transitivity (t :: (pre ++ [z]) ++ rev r).
          - rewrite <- app_assoc. cbn [app]. transitivity (pre ++ t :: z :: rev r); [apply Permutation_app_head; constructor; symmetry; apply Permutation_cons_append|].
            symmetry. apply Permutation_middle.
          - transitivity (t :: out ++ rem); [constructor; exact Pm|apply Permutation_middle]. }
        split; [constructor; assumption|]. split; [intros H; exfalso; exact (H t (or_introl eq_refl) Dt)|].
        cbn [filter]. rewrite D. cbn [length]. intros Hc.
        assert (Fn : filter degb rest = []) by (apply length_zero_iff_nil; lia).
        assert (Nd : forall u, In u rest -> ~ degenerate u).
        { intros u Hu. apply degb_false. destruct (degb u) eqn:X; [|reflexivity]. assert (In u (filter degb rest)) by (apply filter_In; auto). rewrite Fn in H. destruct H. }
        destruct H0 as [Eo _]; [intros u Hu; apply Nd; rewrite Er; apply in_or_app; left; exact Hu|]. intros u Hu. rewrite Eo in Hu.
        rewrite <- app_assoc in Hu. apply in_app_iff in Hu as [Hu|[<-|Hu]]; [auto|right; apply Nd; rewrite Er; apply in_or_app; right; left; reflexivity|].
        right. apply Nd. rewrite Er. apply in_or_app. left; exact Hu.
    + assert (Dt : ~ degenerate t) by (apply degb_false, D). cbn [length] in Hn.
      destruct (IH (length rest) ltac:(lia) rest (pre ++ [t]) fuel eq_refl ltac:(lia)) as (out & rem & E & Pm & Fd & H0 & H1).
      rewrite <- app_assoc in Pm. cbn [app] in Pm.
      exists out, rem. split; [exact E|]. split; [exact Pm|]. split; [exact Fd|]. split.
      * intros H. destruct H0 as [-> ->]; [intros u Hu; apply H; right; exact Hu|]. rewrite <- app_assoc. auto.
      * cbn [filter]. rewrite D. intros Hc u Hu. destruct (H1 Hc u Hu) as [Hp|Hp]; [|auto].
        apply in_app_iff in Hp as [Hp|[<-|[]]]; auto.
Qed.

(** What remains of the list: some degenerate triangles are gone, nothing else. *)
Lemma drop_ok l : Nat.divide 3 (length l) -> exists out rem,
  drop_degenerate (length l) 0 l = Ok (flat out) /\ Permutation (triples l) (out ++ rem) /\ Forall degenerate rem /\
  ((forall t, In t (triples l) -> ~ degenerate t) -> flat out = l) /\
  (length (filter degb (triples l)) <= 1 -> forall t, In t out -> ~ degenerate t).
Proof.
  intros D. pose proof (flat_triples l D) as El. assert (Ll : length l = 3 * length (triples l)) by (rewrite <- El at 1; apply flat_length).
  destruct (drop_loop (length (triples l)) (triples l) [] (length l) eq_refl) as (out & rem & E & Pm & Fd & H0 & H1); [lia|].
  cbn [app length] in *. rewrite El in E. exists out, rem. split; [exact E|]. split; [exact Pm|]. split; [exact Fd|]. split.
  - intros H. destruct (H0 H) as [-> _]. exact El.
  - intros Hc t Ht. destruct (H1 Hc t Ht) as [[]|X]; exact X.
Qed.

(** Arrays whose length is not a multiple of three. *)
Lemma upd_list_length {X} (l : list X) i x : i < length l -> length (upd_list l i x) = length l.
Proof.
  intros H. unfold upd_list. rewrite app_length, firstn_length. assert (L := skipn_length i l).
  destruct (skipn i l); cbn [length] in *; lia.
Qed.
Lemma swap_list_length (l : list nat) i j : length (swap_list l i j) = length l.
Proof.
  unfold swap_list. destruct (nth_error l i) eqn:A; [|reflexivity]. destruct (nth_error l j) eqn:B; [|reflexivity].
  assert (i < length l) by (apply nth_error_Some; congruence). assert (j < length l) by (apply nth_error_Some; congruence).
  rewrite (upd_list_length (upd_list l i _)), upd_list_length; try assumption; [reflexivity|]. rewrite upd_list_length; assumption.
Qed.
Lemma drop_length fuel : forall i l, length l <= fuel + i ->
  drop_degenerate fuel i l = UB OutOfBounds \/ exists l' k, drop_degenerate fuel i l = Ok l' /\ length l = length l' + 3 * k.
Proof.
  induction fuel as [|fuel IH]; intros i l H; cbn [drop_degenerate].
  - assert (E : (i <? length l) = false) by (apply Nat.ltb_ge; lia). rewrite E. right. exists l, 0. split; [reflexivity|lia].
  - destruct (i <? length l) eqn:E; [|right; exists l, 0; split; [reflexivity|lia]].
    destruct (nth_error l i) as [a|]; [|left; reflexivity]. destruct (nth_error l (i + 1)) as [b|]; [|left; reflexivity].
    destruct (nth_error l (i + 2)) as [c|] eqn:C; [|left; reflexivity].
    assert (L : i + 2 < length l) by (apply nth_error_Some; congruence).
    destruct ((a =? b) || (b =? c) || (c =? a)).
    + match goal with |- drop_degenerate _ _ ?u = _ \/ _ => set (l3 := u) end.
      assert (L3 : length l3 = length l - 3) by (unfold l3; rewrite firstn_length, !swap_list_length; lia). clearbody l3.
      destruct (IH (i + 3) l3) as [X|(l' & k & X & Y)]; [lia|left; exact X|right]. exists l', (S k). split; [exact X|lia].
    + destruct (IH (i + 3) l) as [X|(l' & k & X & Y)]; [lia|left; exact X|right]. exists l', k. auto.
Qed.

Section BuildTop.
Context {N : Num}.
Implicit Types m : mesh N.

Lemma bind_ub {A B} (p : M N A) (k : A -> M N B) m u : p m = UB u -> bind p k m = UB u.
Proof. intros H. unfold bind. rewrite H. reflexivity. Qed.
Lemma bind_abort {A B} (p : M N A) (k : A -> M N B) m u : p m = Abort u -> bind p k m = Abort u.
Proof. intros H. unfold bind. rewrite H. reflexivity. Qed.

Lemma check_distinct_ok T m : (forall t, In t T -> ~ degenerate t) -> check_distinct (flat T) m = Ok (tt, m).
Proof.
  induction T as [|[[a b] c] T IH]; intros H; [reflexivity|]. cbn [flat check_distinct].
  assert (D : degb (a, b, c) = false) by (apply degb_false, H; left; reflexivity). cbn [degb] in D. rewrite D.
  apply IH. intros t Ht. apply H. right; exact Ht.
Qed.
Lemma check_distinct_err T m : (exists t, In t T /\ degenerate t) -> check_distinct (flat T) m = Abort AError.
Proof.
  induction T as [|[[a b] c] T IH]; intros (t & Ht & D); [destruct Ht|]. cbn [flat check_distinct].
  destruct ((a =? b) || (b =? c) || (c =? a)) eqn:X; [reflexivity|]. apply IH. exists t. split; [|exact D].
  destruct Ht as [<-|Ht]; [|exact Ht]. exfalso. apply degb_spec in D. cbn [degb] in D. congruence.
Qed.

Lemma check_distinct_odd l m : ~ Nat.divide 3 (length l) -> check_distinct l m = UB OutOfBounds \/ check_distinct l m = Abort AError.
Proof.
  remember (length l) as n eqn:Hn. revert l Hn. induction n as [n IH] using lt_wf_ind. intros l -> D.
  destruct l as [|a [|b [|c l]]]; [exfalso; apply D; exists 0; reflexivity|left; reflexivity|left; reflexivity|]. cbn [check_distinct].
  destruct ((a =? b) || (b =? c) || (c =? a)); [right; reflexivity|]. apply (IH (length l)); [cbn [length]; lia|reflexivity|].
  intros [k Hk]. apply D. exists (S k). cbn [length]. lia.
Qed.

(** ** mesh.cpp 198-200 *)
Definition with_vidx (g : nat -> Z) m : mesh N :=
  mkMesh (m_verts m) (m_hes m) (m_faces m) (m_indices m) (m_fresh m)
    (v_live m) (v_pos m) (v_he m) g (v_lock m)
    (h_live m) (h_src m) (h_next m) (h_rev m) (h_face m) (h_idx m) (h_bd m)
    (f_live m) (f_he m) (f_idx m).

Lemma put_ok l : forall i m, NoDup l -> (forall v, In v l -> v_live m v = true) ->
  exists g, put_vertex_indices i l m = Ok (tt, with_vidx g m) /\
    (forall k v, nth_error l k = Some v -> g v = Z.of_nat (i + k)) /\ (forall v, ~ In v l -> g v = v_idx m v).
Proof.
  induction l as [|a l IH]; intros i m ND L.
  - exists (v_idx m). split; [destruct m; reflexivity|]. split; [intros [|k] v; discriminate|reflexivity].
  - inversion ND as [|? ? Na ND']; subst. cbn [put_vertex_indices]. rewrite (bind_ok _ _ _ _ _ (ww_vidx m a _ (L a (or_introl eq_refl)))).
    destruct (IH (S i) (set_v_idx a (Z.of_nat i) m) ND') as (g & E & G1 & G2); [intros v Hv; apply L; right; exact Hv|].
    exists g. split; [exact E|]. split.
    + intros [|k] v Hk; cbn [nth_error] in Hk.
      * injection Hk as <-. rewrite (G2 a Na). flds. rewrite fupd_same. f_equal. lia.
      * rewrite (G1 k v Hk). f_equal. lia.
    + intros v Hv. rewrite G2 by (intros H; apply Hv; right; exact H). flds. apply fupd_other. intros ->. apply Hv. left; reflexivity.
Qed.

(** ** construct() on a mesh with vertices and indices only *)
Record Bare m : Prop := {
  ba_nd : NoDup (m_verts m);
  ba_live : forall v, In v (m_verts m) -> v_live m v = true /\ v < m_fresh m /\ v_he m v = None;
  ba_h : m_hes m = [];
  ba_f : m_faces m = []
}.

Lemma TInv_start m : VList m -> Bare m -> TInv m [] m (mkC (fun _ _ => None) (fun _ => 0)).
Proof.
  intros V B. split.
  - split; try (cbn [c_em c_deg]; intros; discriminate || congruence || reflexivity).
    + apply VSame_refl.
    + constructor.
    + split; [rewrite (ba_h m B); constructor|]. intros i h Hi. rewrite (ba_h m B) in Hi. destruct i; discriminate.
    + rewrite (ba_h m B). reflexivity.
    + rewrite (ba_h m B). intros h [].
    + intros a v Hv. destruct (ba_live m B v (nth_error_In _ _ Hv)) as (_ & _ & ->). reflexivity.
  - split; [rewrite (ba_f m B); constructor|]. intros i h Hi. rewrite (ba_f m B) in Hi. destruct i; discriminate.
  - rewrite (ba_f m B). constructor.
  - intros t [].
Qed.

(** What construct() keeps. *)
Record Kept m m' : Prop := {
  kp_verts : m_verts m' = m_verts m;
  kp_pos : v_pos m' = v_pos m;
  kp_lock : v_lock m' = v_lock m
}.

Lemma check_all m0 T m cs c P FS : VList m0 -> TInv m0 T m cs -> GInv m c P FS -> GClosed m c P FS ->
  (forall h, In h (m_hes m) -> h_rev m h = None -> In h (map fst P)) -> (forall v, In v (m_verts m) -> v_he m v <> None) ->
  forall g, WF0 (with_vhe g c) -> forall l, (forall v, In v l -> In v (m_verts m)) ->
  (mfor l (check_manifold (c_deg cs)) (with_vhe g c) = Ok (tt, with_vhe g c) /\ forall a v, nth_error (m_verts m) a = Some v -> In v l -> Fan T a) \/
  (mfor l (check_manifold (c_deg cs)) (with_vhe g c) = Abort AError /\ exists a, a < length (m_verts m) /\ ~ Fan T a).
Proof.
  intros V0 TI G C All Vhe g W l. induction l as [|v l IH]; intros Hl.
  - left. split; [reflexivity|]. intros a v _ [].
  - assert (Hv := Hl v (or_introl eq_refl)). apply In_nth_error in Hv as (a & Ha).
    destruct (check_fan m0 T m cs c P FS V0 TI G C All Vhe g a v Ha W) as ([|] & E & Hr).
    + destruct IH as [[E2 F2]|[E2 F2]]; [intros u Hu; apply Hl; right; exact Hu| |].
      * left. split; [cbn [mfor]; rewrite (bind_ok _ _ _ _ _ E); exact E2|]. intros b u Hb [->|Hu]; [|exact (F2 b u Hb Hu)].
        assert (b = a) by (eapply vnth_inj; [exact (CInv_VList _ _ _ _ V0 (ti_c _ _ _ _ TI))|exact Hb|exact Ha]). subst b. apply Hr. reflexivity.
      * right. split; [cbn [mfor]; rewrite (bind_ok _ _ _ _ _ E); exact E2|exact F2].
    + right. split; [cbn [mfor]; unfold bind; rewrite E; reflexivity|]. exists a. split; [apply nth_error_Some; congruence|].
      intros F. apply Hr in F. discriminate.
Qed.

(** A number without a vertex: mesh.cpp 252. *)
Lemma add_corner_oob m cs a b face : c_em cs a b = None -> length (m_verts m) <= a -> add_corner face a b cs m = UB OutOfBounds.
Proof.
  intros E L. unfold add_corner. rewrite E. destruct (new_he_all m) as (ma & Ema & NH). rewrite (bind_ok _ _ _ _ _ Ema).
  destruct NH as [B1 (B2 & B3 & B4 & B5) _ _ _ [Lh Bbd]].
  rewrite (bind_ok _ _ _ _ _ (x_addHalfedge ma (m_fresh m) (m_hes m) Lh B2)). rewrite bind_get. set (m1 := set_m_hes _ _).
  assert (V : m_verts m1 = m_verts m) by (unfold m1; flds; exact B3). rewrite V. clearbody m1.
  unfold bind at 1, vec_at. assert (X : (Z.of_nat a <? 0)%Z = false) by (apply Z.ltb_ge, Nat2Z.is_nonneg). rewrite X, Nat2Z.id.
  destruct (nth_error (m_verts m) a) eqn:Y; [|reflexivity]. exfalso. assert (a < length (m_verts m)) by (apply nth_error_Some; congruence). lia.
Qed.

Lemma add_triangle_oob m0 T m cs a b c :
  VList m0 -> TInv m0 T m cs -> ~ degenerate (a, b, c) -> ~ in_range (length (m_verts m)) (a, b, c) ->
  (forall e, In e (tedges (a, b, c)) -> ~ In e (edges T)) -> add_triangle a b c cs m = UB OutOfBounds.
Proof.
  intros V0 TI Hd Hr Hnew.
  assert (C := ti_c _ _ _ _ TI).
  assert (Hab : a <> b) by (intros ->; apply Hd; left; reflexivity).
  assert (Hbc : b <> c) by (intros ->; apply Hd; right; left; reflexivity).
  assert (Hca : c <> a) by (intros ->; apply Hd; right; right; reflexivity).
  assert (Nab : ~ In (a, b) (edges T)) by (apply Hnew; left; reflexivity).
  assert (Nbc : ~ In (b, c) (edges T)) by (apply Hnew; right; left; reflexivity).
  assert (Nca : ~ In (c, a) (edges T)) by (apply Hnew; right; right; left; reflexivity).
  assert (Em : forall x y, ~ In (x, y) (edges T) -> c_em cs x y = None).
  { intros x y H. destruct (c_em cs x y) eqn:X; [|reflexivity]. exfalso. apply H, (ci_dom _ _ _ _ C). congruence. }
  unfold add_triangle. rewrite (Em _ _ Nab), (Em _ _ Nbc), (Em _ _ Nca).
  destruct (new_face_all m) as (m1 & E1 & NF). rewrite (bind_ok _ _ _ _ _ E1). clear E1. set (f := m_fresh m) in *.
  assert (C1 := CInv_new_face _ _ _ _ _ NF C).
  assert (Vs1 : m_verts m1 = m_verts m) by apply NF.
  assert (Fl1 : f_live m1 f = true) by apply NF.
  destruct (nth_error (m_verts m1) a) as [va|] eqn:Va; cycle 1.
  { apply nth_error_None in Va. unfold bind at 1. rewrite (add_corner_oob m1 cs a b _ (Em _ _ Nab) Va). reflexivity. }
  destruct (add_corner_ok _ _ m1 cs a b f va C1 (CInv_VList _ _ _ _ V0 C1) Nab Hab Va Fl1) as (m2 & cs2 & E2 & C2 & F2 & Z2 & Zo2).
  rewrite (bind_ok _ _ _ _ _ E2). clear E2. cbn [fst snd].
  assert (Vs2 : m_verts m2 = m_verts m1) by (rewrite (vs_verts _ _ (ci_v _ _ _ _ C2)), (vs_verts _ _ (ci_v _ _ _ _ C1)); reflexivity).
  assert (N2 : ~ In (b, c) (edges T ++ [(a, b)])) by (rewrite in_app_iff; intros [H|[[= H1 H2]|[]]]; [exact (Nbc H)|congruence]).
  assert (Fl2 : f_live m2 f = true) by (rewrite (cf_flive _ _ _ _ F2); exact Fl1).
  destruct (nth_error (m_verts m2) b) as [vb|] eqn:Vb; cycle 1.
  { apply nth_error_None in Vb. unfold bind at 1. rewrite (add_corner_oob m2 cs2 b c); [reflexivity| |exact Vb]. rewrite Zo2 by congruence. exact (Em _ _ Nbc). }
  destruct (add_corner_ok _ _ m2 cs2 b c f vb C2 (CInv_VList _ _ _ _ V0 C2) N2 Hbc Vb Fl2) as (m3 & cs3 & E3 & C3 & F3 & Z3 & Zo3).
  rewrite (bind_ok _ _ _ _ _ E3). clear E3. cbn [fst snd].
  assert (Vs3 : m_verts m3 = m_verts m2) by (rewrite (vs_verts _ _ (ci_v _ _ _ _ C3)), (vs_verts _ _ (ci_v _ _ _ _ C2)); reflexivity).
  destruct (nth_error (m_verts m3) c) as [vc|] eqn:Vc; cycle 1.
  { apply nth_error_None in Vc. unfold bind at 1. rewrite (add_corner_oob m3 cs3 c a); [reflexivity| |exact Vc]. rewrite Zo3, Zo2 by congruence. exact (Em _ _ Nca). }
  exfalso. apply Hr. rewrite Vs3, Vs2, Vs1 in *. repeat split; apply nth_error_Some; congruence.
Qed.

Lemma range_dec n t : in_range n t \/ ~ in_range n t.
Proof. destruct t as [[a b] c]. cbn [in_range]. lia. Qed.

Lemma Accepted_incl T A : Accepted T A -> forall t, In t A -> In t T.
Proof.
  induction 1; intros u Hu; [exact Hu| |]; apply in_or_app; [apply in_app_iff in Hu as [Hu|Hu]; auto|auto].
Qed.

Lemma add_triangles_any m0 : VList m0 -> forall l T A m cs,
  TInv m0 A m cs -> Accepted T A -> Nat.divide 3 (length l) ->
  (forall t, In t (triples l) -> ~ degenerate t) -> (forall t, In t A -> in_range (length (m_verts m0)) t) ->
  ((exists t, In t (triples l) /\ ~ in_range (length (m_verts m0)) t) /\ add_triangles l cs m = UB OutOfBounds) \/
  exists A' m' cs', add_triangles l cs m = Ok (cs', m') /\ TInv m0 A' m' cs' /\ Accepted (T ++ triples l) A' /\
     (forall t, In t A' -> in_range (length (m_verts m0)) t).
Proof.
  intros V0 l. remember (length l) as n eqn:Hn. revert l Hn. induction n as [n IH] using lt_wf_ind. intros l -> T A m cs TI HA Hd Ht HR.
  destruct l as [|a [|b [|c l]]].
  - right. exists A, m, cs. cbn [add_triangles triples]. rewrite app_nil_r. auto.
  - exfalso. destruct Hd as [k Hk]. cbn [length] in Hk. lia.
  - exfalso. destruct Hd as [k Hk]. cbn [length] in Hk. lia.
  - cbn [add_triangles triples].
    assert (Hd' : Nat.divide 3 (length l)). { destruct Hd as [k Hk]. exists (k - 1). cbn [length] in Hk. lia. }
    assert (Ht' : forall t, In t (triples l) -> ~ degenerate t) by (intros t H; apply Ht; right; exact H).
    assert (D1 := Ht (a, b, c) (or_introl eq_refl)).
    assert (Vs : m_verts m = m_verts m0) by (apply (vs_verts _ _ (ci_v _ _ _ _ (ti_c _ _ _ _ TI)))).
    destruct (take_or_skip A (a, b, c)) as [TK|(e & S1 & S2)].
    + destruct (range_dec (length (m_verts m0)) (a, b, c)) as [R|R]; rewrite <- Vs in R.
      * destruct (add_triangle_take m0 A m cs a b c V0 TI D1 R TK) as (m1 & cs1 & E1 & TI1).
        rewrite (bind_ok _ _ _ _ _ E1).
        destruct (IH (length l) ltac:(cbn [length]; lia) l eq_refl (T ++ [(a, b, c)]) (A ++ [(a, b, c)]) m1 cs1 TI1 (acc_take _ _ _ HA TK) Hd' Ht') as [((t & It & Rt) & E)|(A' & m' & cs' & E & TI' & HA' & HR')].
        { intros t H. apply in_app_iff in H as [H|[<-|[]]]; [exact (HR t H)|rewrite <- Vs; exact R]. }
        { left. split; [exists t; split; [right; exact It|exact Rt]|exact E]. }
        right. exists A', m', cs'. rewrite <- app_assoc in HA'. auto.
      * left. split; [exists (a, b, c); rewrite <- Vs; split; [left; reflexivity|exact R]|].
        unfold bind at 1. rewrite (add_triangle_oob m0 A m cs a b c V0 TI D1 R TK). reflexivity.
    + rewrite (bind_ok _ _ _ _ _ (add_triangle_skip m0 A m cs a b c e TI S1 S2)).
      destruct (IH (length l) ltac:(cbn [length]; lia) l eq_refl (T ++ [(a, b, c)]) A m cs TI (acc_skip _ _ _ _ HA S1 S2) Hd' Ht' HR) as [((t & It & Rt) & E)|(A' & m' & cs' & E & TI' & HA' & HR')].
      { left. split; [exists t; split; [right; exact It|exact Rt]|exact E]. }
      right. exists A', m', cs'. rewrite <- app_assoc in HA'. auto.
Qed.

Theorem construct0_outcome m : Bare m -> Nat.divide 3 (length (m_indices m)) ->
  exists out rem, drop_degenerate (length (m_indices m)) 0 (m_indices m) = Ok (flat out) /\
    Permutation (triples (m_indices m)) (out ++ rem) /\ Forall degenerate rem /\
    ((forall t, In t (triples (m_indices m)) -> ~ degenerate t) -> out = triples (m_indices m)) /\
    (length (filter degb (triples (m_indices m))) <= 1 -> forall t, In t out -> ~ degenerate t) /\
    (* a degenerate triangle is left over *)
    ((exists t, In t out /\ degenerate t) /\ construct0 m = Abort AError \/
     (exists t, In t out /\ ~ in_range (length (m_verts m)) t) /\ construct0 m = UB OutOfBounds \/
     (forall t, In t out -> ~ degenerate t) /\ exists A, Accepted out A /\ (forall t, In t A -> in_range (length (m_verts m)) t) /\
       ((exists a, a < length (m_verts m) /\ ~ used A a) /\ construct0 m = UB NullDeref \/
        (forall a, a < length (m_verts m) -> used A a) /\
          ((exists a, a < length (m_verts m) /\ ~ Fan A a) /\ construct0 m = Abort AError \/
           (forall a, a < length (m_verts m) -> Fan A a) /\ exists m', construct0 m = Ok (tt, m') /\ SurfaceOf m' A /\ Kept m m' /\ m_indices m' = flat out))).
Proof.
  intros B D. destruct (drop_ok (m_indices m) D) as (out & rem & E & Pm & Fd & H0 & H1).
  exists out, rem. split; [exact E|]. split; [exact Pm|]. split; [exact Fd|]. split; [intros H; rewrite <- (triples_flat out), (H0 H); reflexivity|]. split; [exact H1|].
  set (l1 := flat out) in *. set (m1 := set_m_indices l1 m).
  destruct (put_ok (m_verts m) 0 m1 (ba_nd m B)) as (g & Eg & G1 & _); [intros v Hv; apply (ba_live m B v Hv)|].
  set (m2 := with_vidx g m1) in *.
  assert (X0 : forall k : unit -> M N unit, True) by auto. clear X0.
  assert (Step : construct0 m = bind (check_distinct l1) (fun _ =>
     bind (add_triangles l1 (mkC (fun _ _ => None) (fun _ => 0))) (fun cs =>
     bind (mfor (m_verts m) adv) (fun _ => bind (get m_hes) (fun hs => bind (mfor hs close_hole) (fun _ => bind (mfor (m_verts m) bump_vertex) (fun _ => mfor (m_verts m) (check_manifold (c_deg cs)))))))) m2).
  { unfold construct0. rewrite bind_get. unfold bind at 1. rewrite E. rewrite bind_modify, bind_get. fold m1. cbn [m1 set_m_indices m_verts].
    rewrite (bind_ok _ _ _ _ _ Eg). reflexivity. }
  assert (Dec : (exists t, In t out /\ degenerate t) \/ (forall t, In t out -> ~ degenerate t)).
  { destruct (existsb degb out) eqn:X.
    - left. apply existsb_exists in X as (t & Ht & Xt). exists t. split; [exact Ht|apply degb_spec, Xt].
    - right. intros t Ht Dt. apply degb_spec in Dt. assert (existsb degb out = true) by (apply existsb_exists; exists t; auto). congruence. }
  destruct Dec as [Dg|Dg].
  { left. split; [exact Dg|]. assert (Cd := check_distinct_err out m2 Dg). fold l1 in Cd. rewrite Step. unfold bind at 1. rewrite Cd. reflexivity. }
  right. assert (Cd := check_distinct_ok out m2 Dg). fold l1 in Cd. rewrite Step, (bind_ok _ _ _ _ _ Cd).
  assert (B2 : Bare m2) by (destruct B; split; assumption).
  assert (V2 : VList m2).
  { split; [exact (ba_nd m B)|]. intros i v Hi. destruct (ba_live m B v (nth_error_In _ _ Hi)) as (L1 & L2 & _). split; [exact L1|]. split; [exact (G1 i v Hi)|exact L2]. }
  assert (Ht : forall t, In t (triples l1) -> ~ degenerate t).
  { unfold l1. rewrite triples_flat. exact Dg. }
  assert (D1 : Nat.divide 3 (length l1)) by (unfold l1; rewrite flat_length; exists (length out); lia).
  destruct (add_triangles_any m2 V2 l1 [] [] m2 _ (TInv_start m2 V2 B2) acc_nil D1 Ht) as [((t & It & Rt) & Ea)|(A & m3 & cs & Ea & TI & Acc & HR)]; [intros ? []| |].
  { left. unfold l1 in It. rewrite triples_flat in It. split; [exists t; split; [exact It|exact Rt]|]. unfold bind at 1. rewrite Ea. reflexivity. }
  right. split; [exact Dg|].
  rewrite (bind_ok _ _ _ _ _ Ea). cbn [app] in Acc. unfold l1 in Acc. rewrite triples_flat in Acc. exists A. split; [exact Acc|]. split; [exact HR|].
  assert (V3 : m_verts m3 = m_verts m) by (rewrite (vs_verts _ _ (ci_v _ _ _ _ (ti_c _ _ _ _ TI))); reflexivity).
  assert (Hl : forall v, In v (m_verts m) -> In v (m_verts m3)) by (rewrite V3; auto).
  assert (Us : forall a v, nth_error (m_verts m3) a = Some v -> (v_he m3 v <> None <-> used A a)).
  { intros a v Hv. assert (K := ci_vhe _ _ _ _ (ti_c _ _ _ _ TI) a v Hv). destruct (v_he m3 v) as [h|].
    - split; [|discriminate]. intros _. destruct K as (b & Eb). exists b. apply (em_hes _ _ _ _ (ti_c _ _ _ _ TI) _ _ _ Eb).
    - split; [congruence|]. intros (b & Ib). destruct (em_in _ _ _ _ (ti_c _ _ _ _ TI) _ _ Ib) as (h & Eh & _). congruence. }
  assert (DecU : (exists v, In v (m_verts m) /\ v_he m3 v = None) \/ (forall v, In v (m_verts m) -> v_he m3 v <> None)).
  { clear. induction (m_verts m) as [|v l IH]; [right; intros v []|]. destruct (v_he m3 v) as [h|] eqn:X.
    - destruct IH as [(u & Hu & Eu)|IH]; [left; exists u; split; [right; exact Hu|exact Eu]|right]. intros u [<-|Hu]; [congruence|exact (IH u Hu)].
    - left. exists v. split; [left; reflexivity|exact X]. }
  destruct DecU as [(v & Hv & Ev)|Hn].
  { left. split.
    - assert (Hv3 := Hl v Hv). apply In_nth_error in Hv3 as (a & Ha). exists a. rewrite <- V3. split; [apply nth_error_Some; congruence|].
      intros U. apply (Us a v Ha) in U. exact (U Ev).
    - unfold bind at 1. rewrite (adv_ub m2 A cs V2 (m_verts m) m3 TI Hl); [reflexivity|]. exists v. auto. }
  right. split.
  { intros a La. rewrite <- V3 in La. destruct (nth_error (m_verts m3) a) as [v|] eqn:Ha; [|apply nth_error_None in Ha; lia].
    apply (Us a v Ha), Hn. rewrite <- V3. eapply nth_error_In; exact Ha. }
  destruct (adv_all m2 A cs V2 (m_verts m) m3 TI Hl Hn) as (m4 & E4 & TI4 & V4 & K4).
  rewrite (bind_ok _ _ _ _ _ E4), bind_get.
  assert (O := TInv_Open _ _ _ _ V2 TI4).
  destruct (close_all m4 O (m_hes m4) m4 [] [] (GInv_start m4 O) (GClosed_start m4)) as (c & P & FS & E5 & G & C & All); [auto|].
  cbn [app] in G, C, All. rewrite (bind_ok _ _ _ _ _ E5).
  assert (Vhe : forall v, In v (m_verts m4) -> v_he m4 v <> None) by (intros v Hv; apply K4, Hn; rewrite <- V3, <- V4; exact Hv).
  assert (W := cl_WF0 m4 c P FS O G C All Vhe).
  assert (Vc : m_verts c = m_verts m) by (rewrite (g_verts _ _ _ _ G), V4, V3; reflexivity).
  destruct (bump_all (m_verts m) c W) as (g' & E6 & W'); [rewrite Vc; auto|].
  rewrite (bind_ok _ _ _ _ _ E6).
  assert (L4 : length (m_verts m4) = length (m_verts m)) by (rewrite V4, V3; reflexivity).
  destruct (check_all m2 A m4 cs c P FS V2 TI4 G C All Vhe g' W' (m_verts m)) as [[E7 F]|[E7 F]]; [rewrite V4, V3; auto| |].
  - right. assert (F' : forall a, a < length (m_verts m) -> Fan A a).
    { intros a La. rewrite <- L4 in La. destruct (nth_error (m_verts m4) a) as [v|] eqn:Ha; [|apply nth_error_None in Ha; lia].
      apply (F a v Ha). rewrite <- V3, <- V4. eapply nth_error_In; exact Ha. }
    split; [exact F'|]. eexists. split; [exact E7|]. split; [apply (fans_valid m2 A m4 cs c P FS V2 TI4 G C All Vhe g' W'); rewrite L4; exact F'|].
    assert (VS := ci_v _ _ _ _ (ti_c _ _ _ _ TI4)).
    split; [split|].
    + exact Vc.
    + cbn [with_vhe v_pos]. rewrite (g_vpos _ _ _ _ G), (vs_pos _ _ VS). reflexivity.
    + cbn [with_vhe v_lock]. rewrite (g_vlock _ _ _ _ G), (vs_lock _ _ VS). reflexivity.
    + cbn [with_vhe m_indices]. rewrite (g_ix _ _ _ _ G), (ci_ix _ _ _ _ (ti_c _ _ _ _ TI4)). reflexivity.
  - left. split; [|exact E7]. rewrite <- L4. exact F.
Qed.

Lemma construct0_odd m : Bare m -> ~ Nat.divide 3 (length (m_indices m)) ->
  construct0 m = UB OutOfBounds \/ construct0 m = Abort AError.
Proof.
  intros B D. destruct (drop_length (length (m_indices m)) 0 (m_indices m)) as [E|(l1 & k & E & L)]; [lia| |].
  - left. unfold construct0. rewrite bind_get. unfold bind at 1. rewrite E. reflexivity.
  - set (m1 := set_m_indices l1 m).
    destruct (put_ok (m_verts m1) 0 m1 (ba_nd m B)) as (g & Eg & _); [intros v Hv; apply (ba_live m B v Hv)|].
    assert (St : exists K : unit -> M N unit, construct0 m = bind (check_distinct l1) K (with_vidx g m1)).
    { eexists. unfold construct0. rewrite bind_get. unfold bind at 1. rewrite E, bind_modify, bind_get. fold m1.
      rewrite (bind_ok _ _ _ _ _ Eg). reflexivity. }
    destruct St as [K ->].
    assert (D1 : ~ Nat.divide 3 (length l1)).
    { intros [j Hj]. apply D. exists (j + k). lia. }
    destruct (check_distinct_odd l1 (with_vidx g m1) D1) as [X|X]; [left; exact (bind_ub _ _ _ _ X)|right; exact (bind_abort _ _ _ _ X)].
Qed.

End BuildTop.
