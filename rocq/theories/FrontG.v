(** holeFillAdvancingFront: what merging two neighbours on the front does. *)
From Coq Require Import List ZArith Arith Lia Bool.
From Verif Require Import Num Vec Heap Mesh Spec Orbit Rings Exec Wp Remove Collapse Fill Front FrontF FrontM.
Import ListNotations.
Local Open Scope mesh_scope.

(** Elements before [x] stay where they are. *)
Definition Keeps (l : list nat) (x : nat) (l' : list nat) : Prop :=
  forall i y, nth_error l i = Some y -> (forall j, nth_error l j = Some x -> i < j) -> nth_error l' i = Some y.
Lemma keeps_app a x t t' : Keeps (a ++ x :: t) x (a ++ t').
Proof.
  intros i y E L. assert (K := L (length a) (nth_mid a x t)). rewrite nth_error_app1 in * by exact K. exact E.
Qed.
Lemma keeps_last a x : Keeps (a ++ [x]) x a.
Proof. intros i y E L. rewrite <- (app_nil_r a). exact (keeps_app a x [] [] i y E L). Qed.
Lemma keeps_mid a x b z : Keeps (a ++ x :: b ++ [z]) x (a ++ z :: b).
Proof. exact (keeps_app a x (b ++ [z]) (z :: b)). Qed.

Section G.
Context {N : Num}.
Implicit Types m : mesh N.
Ltac sx := repeat first [rewrite bind_assoc | rewrite bind_get | rewrite bind_modify | rewrite bind_ret].

Lemma removeFace_at (m : mesh N) x : ListOk (m_faces m) (f_live m) (f_idx m) -> In x (m_faces m) ->
  exists l' ix, removeFace (Some x) m = Ok (tt, upd_f l' ix (fupd (f_live m) x false) m) /\
    Removed (m_faces m) (f_live m) x l' ix /\ Keeps (m_faces m) x l'.
Proof.
  intros HL Hx. destruct (split_at _ _ Hx) as (a & t & El & Ht).
  assert (Ex : nth_error (m_faces m) (length a) = Some x) by (rewrite El; apply nth_mid).
  destruct (proj2 HL _ _ Ex) as [Lx Ix].
  assert (Ln : length (m_faces m) = length a + S (length t)) by (rewrite El, app_length; reflexivity).
  assert (EQ : face_eqb (Some x) (Some x) m = Ok (true, m)).
  { unfold face_eqb. repeat mstep. rewrite !ptr_eqb_refl, Z.eqb_refl. reflexivity. }
  unfold removeFace. sx. rewrite (bind_ok _ _ _ _ _ (r_fidx m x Lx)). rewrite (bind_ok _ _ _ _ _ (vec_at_idx _ _ _ _ _ Ex Ix)).
  rewrite (bind_ok _ _ _ _ _ EQ), bind_assert by reflexivity. rewrite bind_assert by (apply Z.ltb_lt; rewrite Ix; lia).
  destruct Ht as [->|(b & z & ->)].
  - exists a, (f_idx m). split; [|rewrite El in *; split; [apply removed_last; exact HL|apply keeps_last]].
    replace (f_idx m x <? Z.of_nat (length (m_faces m)) - 1)%Z with false by (symmetry; apply Z.ltb_ge; rewrite Ix, Ln; simpl; lia).
    sx. rewrite (bind_ok _ _ _ _ _ (vec_at_idx (m_faces m) (length a) x _ (Z.of_nat (length (m_faces m)) - 1)%Z Ex ltac:(rewrite Ln; simpl; lia))).
    sx. unfold free_f, modify. rewrite El, removelast_mid. reflexivity.
  - exists (a ++ z :: b), (fupd (fupd (fupd (f_idx m) z (f_idx m x)) x (f_idx m z)) x (-1)%Z).
    split; [|rewrite El in *; split; [apply removed_mid; exact HL|apply keeps_mid]].
    rewrite app_length in Ln; simpl in Ln.
    replace (f_idx m x <? Z.of_nat (length (m_faces m)) - 1)%Z with true by (symmetry; apply Z.ltb_lt; rewrite Ix; lia).
    assert (Ez : nth_error (m_faces m) (length (m_faces m) - 1) = Some z) by (rewrite El; apply nth_last).
    destruct (proj2 HL _ _ Ez) as [Lz Iz].
    assert (Hzx : z <> x).
    { intros ->. enough (length a = length (m_faces m) - 1) by lia.
      eapply NoDup_nth_error; [apply (proj1 HL)|lia|congruence]. }
    replace (Z.to_nat (f_idx m x)) with (length a) by (rewrite Ix; lia).
    replace (Z.to_nat (Z.of_nat (length (m_faces m)) - 1)) with (length (m_faces m) - 1) by lia.
    assert (Esw : swap_list (m_faces m) (length a) (length (m_faces m) - 1) = a ++ z :: b ++ [x]) by (rewrite El; apply swap_last).
    rewrite Esw. sx. flds.
    assert (E1 : nth_error (a ++ z :: b ++ [x]) (length a) = Some z) by apply nth_mid.
    assert (E2 : nth_error (a ++ z :: b ++ [x]) (length (m_faces m) - 1) = Some x).
    { replace (length (m_faces m) - 1) with (length (a ++ z :: b ++ [x]) - 1); [apply nth_last|].
      rewrite Ln, !app_length; simpl; rewrite app_length; simpl. lia. }
    rewrite (bind_ok _ _ _ _ _ (vec_at_idx _ _ _ _ _ E1 Ix)).
    sx. rewrite (bind_ok _ _ _ _ _ (vec_at_idx _ _ _ _ (Z.of_nat (length (m_faces m)) - 1)%Z E2 ltac:(lia))).
    repeat mstep. flds. rewrite (bind_ok _ _ _ _ _ (vec_at_idx _ _ _ _ (Z.of_nat (length (m_faces m)) - 1)%Z E2 ltac:(lia))).
    sx. unfold free_f, modify. replace (a ++ z :: b ++ [x]) with ((a ++ z :: b) ++ [x]) by (rewrite <- app_assoc; reflexivity).
    rewrite removelast_mid. reflexivity.
Qed.
Lemma removeVertex_at (m : mesh N) x : ListOk (m_verts m) (v_live m) (v_idx m) -> In x (m_verts m) ->
  veqb (v_pos m x) (v_pos m x) = true ->
  exists l' ix, removeVertex (Some x) m = Ok (tt, upd_v l' ix (fupd (v_live m) x false) m) /\
    Removed (m_verts m) (v_live m) x l' ix /\ Keeps (m_verts m) x l'.
Proof.
  intros HL Hx Hp. destruct (split_at _ _ Hx) as (a & t & El & Ht).
  assert (Ex : nth_error (m_verts m) (length a) = Some x) by (rewrite El; apply nth_mid).
  destruct (proj2 HL _ _ Ex) as [Lx Ix].
  assert (Ln : length (m_verts m) = length a + S (length t)) by (rewrite El, app_length; reflexivity).
  assert (EQ : vertex_eqb (Some x) (Some x) m = Ok (true, m)).
  { unfold vertex_eqb. repeat mstep. rewrite Hp, !ptr_eqb_refl, Z.eqb_refl. reflexivity. }
  unfold removeVertex. sx. rewrite (bind_ok _ _ _ _ _ (r_vidx m x Lx)). rewrite (bind_ok _ _ _ _ _ (vec_at_idx _ _ _ _ _ Ex Ix)).
  rewrite (bind_ok _ _ _ _ _ EQ), bind_assert by reflexivity. rewrite bind_assert by (apply Z.ltb_lt; rewrite Ix; lia).
  destruct Ht as [->|(b & z & ->)].
  - exists a, (v_idx m). split; [|rewrite El in *; split; [apply removed_last; exact HL|apply keeps_last]].
    replace (v_idx m x <? Z.of_nat (length (m_verts m)) - 1)%Z with false by (symmetry; apply Z.ltb_ge; rewrite Ix, Ln; simpl; lia).
    sx. rewrite (bind_ok _ _ _ _ _ (vec_at_idx (m_verts m) (length a) x _ (Z.of_nat (length (m_verts m)) - 1)%Z Ex ltac:(rewrite Ln; simpl; lia))).
    sx. unfold free_v, modify. rewrite El, removelast_mid. reflexivity.
  - exists (a ++ z :: b), (fupd (fupd (fupd (v_idx m) z (v_idx m x)) x (v_idx m z)) x (-1)%Z).
    split; [|rewrite El in *; split; [apply removed_mid; exact HL|apply keeps_mid]].
    rewrite app_length in Ln; simpl in Ln.
    replace (v_idx m x <? Z.of_nat (length (m_verts m)) - 1)%Z with true by (symmetry; apply Z.ltb_lt; rewrite Ix; lia).
    assert (Ez : nth_error (m_verts m) (length (m_verts m) - 1) = Some z) by (rewrite El; apply nth_last).
    destruct (proj2 HL _ _ Ez) as [Lz Iz].
    assert (Hzx : z <> x).
    { intros ->. enough (length a = length (m_verts m) - 1) by lia.
      eapply NoDup_nth_error; [apply (proj1 HL)|lia|congruence]. }
    replace (Z.to_nat (v_idx m x)) with (length a) by (rewrite Ix; lia).
    replace (Z.to_nat (Z.of_nat (length (m_verts m)) - 1)) with (length (m_verts m) - 1) by lia.
    assert (Esw : swap_list (m_verts m) (length a) (length (m_verts m) - 1) = a ++ z :: b ++ [x]) by (rewrite El; apply swap_last).
    rewrite Esw. sx. flds.
    assert (E1 : nth_error (a ++ z :: b ++ [x]) (length a) = Some z) by apply nth_mid.
    assert (E2 : nth_error (a ++ z :: b ++ [x]) (length (m_verts m) - 1) = Some x).
    { replace (length (m_verts m) - 1) with (length (a ++ z :: b ++ [x]) - 1); [apply nth_last|].
      rewrite Ln, !app_length; simpl; rewrite app_length; simpl. lia. }
    rewrite (bind_ok _ _ _ _ _ (vec_at_idx _ _ _ _ _ E1 Ix)).
    sx. rewrite (bind_ok _ _ _ _ _ (vec_at_idx _ _ _ _ (Z.of_nat (length (m_verts m)) - 1)%Z E2 ltac:(lia))).
    repeat mstep. flds. rewrite (bind_ok _ _ _ _ _ (vec_at_idx _ _ _ _ (Z.of_nat (length (m_verts m)) - 1)%Z E2 ltac:(lia))).
    sx. unfold free_v, modify. replace (a ++ z :: b ++ [x]) with ((a ++ z :: b) ++ [x]) by (rewrite <- app_assoc; reflexivity).
    rewrite removelast_mid. reflexivity.
Qed.

(** ** The removals *)
Record Dropped m m' (g he h0 h1 h2 v0 : nat) : Prop := {
  dp_lists : Lists m';
  dp_verts : (forall v, In v (m_verts m') <-> In v (m_verts m) /\ v <> v0) /\ S (length (m_verts m')) = length (m_verts m);
  dp_hes : (forall h, In h (m_hes m') <-> In h (m_hes m) /\ h <> he /\ h <> h0 /\ h <> h1 /\ h <> h2) /\ 4 + length (m_hes m') = length (m_hes m);
  dp_faces : (forall g', In g' (m_faces m') <-> In g' (m_faces m) /\ g' <> g) /\ S (length (m_faces m')) = length (m_faces m);
  dp_vfix : Keeps (m_verts m) v0 (m_verts m');
  dp_ffix : Keeps (m_faces m) g (m_faces m');
  dp_v : v_pos m' = v_pos m /\ v_he m' = v_he m /\ v_lock m' = v_lock m;
  dp_h : h_src m' = h_src m /\ h_next m' = h_next m /\ h_rev m' = h_rev m /\ h_face m' = h_face m /\ h_bd m' = h_bd m;
  dp_f : f_he m' = f_he m;
  dp_misc : m_indices m' = m_indices m /\ m_fresh m' = m_fresh m }.

Lemma merge_remove_ok m g he h0 h1 h2 v0 : Lists m -> In he (m_hes m) -> In h0 (m_hes m) -> In h1 (m_hes m) -> In h2 (m_hes m) -> NoDup [he; h0; h1; h2] ->
  In g (m_faces m) -> h_face m h0 = Some g -> In v0 (m_verts m) ->
  merge_remove (Some he) (Some h0) (Some h1) (Some h2) (Some v0) m = Abort AAssert \/
  exists m', merge_remove (Some he) (Some h0) (Some h1) (Some h2) (Some v0) m = Ok (tt, m') /\ Dropped m m' g he h0 h1 h2 v0.
Proof.
  intros ((LV & LH & LF) & BV & BH & BF) I I0 I1 I2 ND Ig Fg Iv.
  assert (Lh0 : h_live m h0 = true) by (apply In_nth_error in I0 as (i & E); apply (proj2 LH i h0 E)).
  unfold merge_remove. rewrite (bind_ok _ _ _ _ _ (r_face m h0 Lh0)), Fg.
  destruct (removeFace_at m g LF Ig) as (lf & ixf & X & (RF & RFi & RFl) & KF). rewrite (bind_ok _ _ _ _ _ X). clear X.
  set (ma := upd_f lf ixf (fupd (f_live m) g false) m).
  inversion ND as [|? ? N1 ND1]; subst. inversion ND1 as [|? ? N2 ND2]; subst. inversion ND2 as [|? ? N3 _]; subst. cbn [In] in N1, N2, N3.
  destruct (removeHalfedge_ok ma he LH I) as (l1 & ix1 & X & (RA & RAi & RAl)). rewrite (bind_ok _ _ _ _ _ X). clear X.
  set (mb := upd_h l1 ix1 (fupd (h_live ma) he false) ma).
  assert (J0 : In h0 (m_hes mb)) by (apply RAi; split; [exact I0|intros E; apply N1; auto]).
  assert (J1 : In h1 (m_hes mb)) by (apply RAi; split; [exact I1|intros E; apply N1; auto]).
  assert (J2 : In h2 (m_hes mb)) by (apply RAi; split; [exact I2|intros E; apply N1; auto]).
  destruct (removeHalfedge_ok mb h0 RA J0) as (l2 & ix2 & X & (RB & RBi & RBl)). rewrite (bind_ok _ _ _ _ _ X). clear X.
  set (mc := upd_h l2 ix2 (fupd (h_live mb) h0 false) mb).
  assert (K1 : In h1 (m_hes mc)) by (apply RBi; split; [exact J1|intros E; apply N2; auto]).
  assert (K2 : In h2 (m_hes mc)) by (apply RBi; split; [exact J2|intros E; apply N2; auto]).
  destruct (removeHalfedge_ok mc h1 RB K1) as (l3 & ix3 & X & (RC & RCi & RCl)). rewrite (bind_ok _ _ _ _ _ X). clear X.
  set (md := upd_h l3 ix3 (fupd (h_live mc) h1 false) mc).
  assert (L2 : In h2 (m_hes md)) by (apply RCi; split; [exact K2|intros E; apply N3; auto]).
  destruct (removeHalfedge_ok md h2 RC L2) as (l4 & ix4 & X & (RD & RDi & RDl)). rewrite (bind_ok _ _ _ _ _ X). clear X.
  set (me := upd_h l4 ix4 (fupd (h_live md) h2 false) md).
  destruct (veqb (v_pos m v0) (v_pos m v0)) eqn:EV; [right|left; exact (removeVertex_nan me v0 LV Iv EV)].
  destruct (removeVertex_at me v0 LV Iv EV) as (lv & ixv & X & (RV & RVi & RVl) & KV). exists (upd_v lv ixv (fupd (v_live me) v0 false) me). split; [exact X|].
  constructor; [| | | |exact KV|exact KF|repeat split; reflexivity|repeat split; reflexivity|reflexivity|split; reflexivity].
  - split; [split; [exact RV|split; [exact RD|exact RF]]|]. split; [|split].
    + intros y Iy. apply RVi in Iy as [Iy _]. exact (BV y Iy).
    + intros y Iy. apply RDi in Iy as [Iy _]. apply RCi in Iy as [Iy _]. apply RBi in Iy as [Iy _]. apply RAi in Iy as [Iy _]. exact (BH y Iy).
    + intros y Iy. apply RFi in Iy as [Iy _]. exact (BF y Iy).
  - split; [exact RVi|exact RVl].
  - split.
    + intros y. assert (Q1 : In y l4 <-> In y l3 /\ y <> h2) by exact (RDi y). assert (Q2 : In y l3 <-> In y l2 /\ y <> h1) by exact (RCi y).
      assert (Q3 : In y l2 <-> In y l1 /\ y <> h0) by exact (RBi y). assert (Q4 : In y l1 <-> In y (m_hes m) /\ y <> he) by exact (RAi y).
      change (In y l4 <-> In y (m_hes m) /\ y <> he /\ y <> h0 /\ y <> h1 /\ y <> h2). rewrite Q1, Q2, Q3, Q4. tauto.
    + assert (Q1 : S (length l4) = length l3) by exact RDl. assert (Q2 : S (length l3) = length l2) by exact RCl. assert (Q3 : S (length l2) = length l1) by exact RBl.
      assert (Q4 : S (length l1) = length (m_hes m)) by exact RAl. change (4 + length l4 = length (m_hes m)). clear - Q1 Q2 Q3 Q4. lia.
  - split; [exact RFi|exact RFl].
Qed.

(** ** merge *)
Lemma mfor_src v : forall (l : list nat) m, (forall h, In h l -> h_live m h = true) -> mfor (map Some l) (fun h => w_src h v) m = Ok (tt, with_src (wr_src l v (h_src m)) m).
Proof.
  induction l as [|h l IH]; intros m L; cbn [map mfor]; [destruct m; reflexivity|].
  rewrite (bind_ok _ _ _ _ _ (ww_src m h v (L h (or_introl eq_refl)))), IH; [reflexivity|]. intros y Iy. flds. apply L. right. exact Iy.
Qed.

Section M.
Variables (m : mesh N) (f g he hp hn h0 h1 h2 r1 r2 v0 v1 v2 : nat) (vs hes : list ptr) (n i : nat).
Hypothesis W : WF m.
Hypothesis NL : NoLoops m.
Hypothesis Ihe : In he (m_hes m).
Hypothesis Ihp : In hp (m_hes m).
Hypothesis Fhe : h_face m he = Some f.
Hypothesis Nhe : h_next m he = Some hn.
Hypothesis Nhp : h_next m hp = Some he.
Hypothesis Rhe : h_rev m he = Some h0.
Hypothesis N0 : h_next m h0 = Some h1.
Hypothesis N1 : h_next m h1 = Some h2.
Hypothesis N2 : h_next m h2 = Some h0.
Hypothesis F0 : h_face m h0 = Some g.
Hypothesis Dfg : g <> f.
Hypothesis R1 : h_rev m h1 = Some r1.
Hypothesis R2 : h_rev m h2 = Some r2.
Hypothesis S0 : h_src m he = Some v0.
Hypothesis S1 : h_src m h0 = Some v1.
Hypothesis S2 : h_src m h2 = Some v2.
Hypothesis Hi : nth_error hes i = Some (Some he).
Hypothesis Hp : nth_error hes (before_ n i) = Some (Some hp).
Hypothesis Hn : nth_error hes (after_ n i) = Some (Some hn).
Hypothesis Vi : nth_error vs i = Some (Some v0).
Hypothesis Vn : nth_error vs (after_ n i) = Some (Some v1).

Lemma merge_ok : merge (Some f) vs hes n i m = Abort AAssert \/
  exists m', merge (Some f) vs hes n i m = Ok (tt, m') /\ Joined m m' f g he hp hn h0 h1 h2 r1 r2 v0 v1 v2.
Proof.
  assert (AL := h_alive m W). assert (I0 := i0 m he h0 W Ihe Rhe). assert (I1 := i1 m he h0 h1 W Ihe Rhe N0). assert (I2 := i2 m he h0 h1 h2 W Ihe Rhe N0 N1).
  assert (IR1 := ir1 m he h0 h1 r1 W Ihe Rhe N0 R1). assert (IR2 := ir2 m he h0 h1 h2 r2 W Ihe Rhe N0 N1 R2).
  assert (IV0 := in_v0 m he v0 W Ihe S0). assert (IV1 := in_v1 m he h0 v1 W Ihe Rhe S1). assert (IV2 := in_v2 m he h0 h1 h2 v2 W Ihe Rhe N0 N1 S2).
  assert (IF := in_f m f he W Ihe Fhe). assert (IG := in_g m g he h0 W Ihe Rhe F0).
  assert (D01 := d01 m he h0 v0 v1 NL Ihe Rhe S0 S1). assert (D02 := d02 m he h0 h1 h2 r1 v0 v2 W NL Ihe Rhe N0 N1 R1 S0 S2). assert (D12 := d12 m he h0 h1 h2 r2 v1 v2 W NL Ihe Rhe N0 N1 N2 R2 S1 S2).
  assert (FP := fp m f he hp W Ihp Fhe Nhp).
  assert (F1 := f1 m g he h0 h1 W Ihe Rhe N0 F0). assert (F2 := f2 m g he h0 h1 h2 W Ihe Rhe N0 N1 F0).
  assert (SH1 := s1 m he h0 h1 v0 W Ihe Rhe N0 S0).
  destruct (vring m W v0 IV0) as (hv & lv & Ehv & VR).
  assert (at_ok : forall (l : list ptr) k x mm, nth_error l k = Some x -> at_ l k mm = Ok (x, mm)) by (intros l k x mm E; unfold at_; rewrite E; reflexivity).
  unfold merge. rewrite (bind_ok _ _ _ _ _ (at_ok _ _ _ m Hi)), (bind_ok _ _ _ _ _ (at_ok _ _ _ m Vi)), (bind_ok _ _ _ _ _ (at_ok _ _ _ m Vn)).
  rewrite (bind_ok _ _ _ _ _ (v_halfedges_ok m W v0 hv lv IV0 Ehv VR)).
  rewrite (bind_ok _ _ _ _ _ (at_ok _ _ _ m Hp)), (bind_ok _ _ _ _ _ (at_ok _ _ _ m Hn)).
  rewrite (bind_ok _ _ _ _ _ (r_next m hp (AL _ Ihp))), Nhp, bind_assert by apply ptr_eqb_refl.
  rewrite (bind_ok _ _ _ _ _ (r_next m he (AL _ Ihe))), Nhe, bind_assert by apply ptr_eqb_refl.
  rewrite (bind_ok _ _ _ _ _ (ww_next m hp (Some hn) (AL _ Ihp))). set (ma := set_h_next hp (Some hn) m).
  assert (A1 : h_live ma = h_live m /\ h_rev ma = h_rev m /\ h_src ma = h_src m /\ h_face ma = h_face m /\ v_live ma = v_live m /\ f_live ma = f_live m) by (unfold ma; flds; repeat split; reflexivity).
  destruct A1 as (A1 & A2 & A3 & A4 & A5 & A6). assert (A7 : forall h, h_next ma h = if h =? hp then Some hn else h_next m h).
  { intros h. unfold ma. flds. destruct (Nat.eqb_spec h hp) as [->|D]; fu; reflexivity. }
  assert (D0p : h0 <> hp) by congruence. assert (D1p : h1 <> hp) by congruence. assert (D2p : h2 <> hp) by congruence.
  assert (AX : forall h, h <> hp -> h_next ma h = h_next m h) by (intros h D; rewrite A7; destruct (Nat.eqb_spec h hp); [contradiction|reflexivity]).
  assert (LA : forall h, In h (m_hes m) -> h_live ma h = true) by (intros h I; rewrite A1; exact (AL h I)).
  rewrite (bind_ok _ _ _ _ _ (r_rev ma he (LA _ Ihe))), A2, Rhe.
  rewrite (bind_ok _ _ _ _ _ (r_next ma h0 (LA _ I0))), (AX h0 D0p), N0.
  rewrite (bind_ok _ _ _ _ _ (r_next ma h1 (LA _ I1))), (AX h1 D1p), N1.
  rewrite (bind_ok _ _ _ _ _ (r_next ma h2 (LA _ I2))), (AX h2 D2p), N2, bind_assert by apply ptr_eqb_refl.
  unfold merge_wire.
  rewrite (bind_ok _ _ _ _ _ (r_src ma h0 (LA _ I0))), A3, S1. rewrite (bind_ok _ _ _ _ _ (r_src ma h1 (LA _ I1))), A3, SH1. rewrite (bind_ok _ _ _ _ _ (r_src ma h2 (LA _ I2))), A3, S2.
  rewrite (bind_ok _ _ _ _ _ (r_rev ma h1 (LA _ I1))), A2, R1. rewrite (bind_ok _ _ _ _ _ (r_rev ma h2 (LA _ I2))), A2, R2.
  rewrite (bind_ok _ _ _ _ _ (ww_rev ma r1 (Some r2) (LA _ IR1))). rewrite (bind_ok _ _ _ _ _ (ww_rev (set_h_rev r1 (Some r2) ma) r2 (Some r1) (LA _ IR2))).
  assert (LV0 : forall h, In h (hv :: lv) -> h_live ma h = true) by (intros h I; apply LA, VR, I).
  rewrite (bind_ok _ _ _ _ _ (mfor_src (Some v1) (hv :: lv) (set_h_rev r2 (Some r1) (set_h_rev r1 (Some r2) ma)) LV0)).
  set (mb := with_src _ _). assert (VL : forall v, In v (m_verts m) -> v_live mb v = true) by (intros v I; exact (v_alive m W v I)).
  rewrite (bind_ok _ _ _ _ _ (ww_vhe mb v1 (Some r2) (VL _ IV1))). rewrite (bind_ok _ _ _ _ _ (ww_vhe (set_v_he v1 (Some r2) mb) v2 (Some r1) (VL _ IV2))).
  set (mb2 := set_v_he v2 _ _). rewrite (bind_ok _ _ _ _ _ (ww_fhe mb2 f (Some hn) (f_alive m W f IF))). set (mb3 := set_f_he _ _ _).
  rewrite (bind_ok _ _ _ _ _ (r_pos mb3 v0 (VL _ IV0))), (bind_ok _ _ _ _ _ (r_pos mb3 v1 (VL _ IV1))).
  rewrite (bind_ok _ _ _ _ _ (ww_pos mb3 v1 _ (VL _ IV1))). change (v_pos mb3) with (v_pos m). set (mc := set_v_pos v1 _ _).
  assert (C1 : m_verts mc = m_verts m /\ m_hes mc = m_hes m /\ m_faces mc = m_faces m /\ m_indices mc = m_indices m /\ m_fresh mc = m_fresh m /\ v_live mc = v_live m /\ v_idx mc = v_idx m /\ v_lock mc = v_lock m /\ h_live mc = h_live m /\ h_idx mc = h_idx m /\
    h_face mc = h_face m /\ h_bd mc = h_bd m /\ f_live mc = f_live m /\ f_idx mc = f_idx m) by (unfold mc, mb3, mb2, mb, ma; flds; repeat split; reflexivity).
  destruct C1 as (C1 & C2 & C3 & C4 & C5 & C6 & C7 & C8 & C9 & C10 & C11 & C12 & C13 & C14).
  assert (CN : h_next mc = h_next ma) by reflexivity.
  assert (CS : h_src mc = wr_src (hv :: lv) (Some v1) (h_src m)) by reflexivity.
  assert (CR : h_rev mc r1 = Some r2 /\ h_rev mc r2 = Some r1 /\ forall h, h <> r1 -> h <> r2 -> h_rev mc h = h_rev m h).
  { assert (DR := d12r m he h0 h1 h2 r1 r2 v1 v2 W NL Ihe Rhe N0 N1 N2 R1 R2 S1 S2). change (h_rev mc) with (fupd (fupd (h_rev m) r1 (Some r2)) r2 (Some r1)). split; [fu; reflexivity|]. split; [fu; reflexivity|]. intros h Q1 Q2. fu. reflexivity. }
  assert (CV : v_he mc v1 = Some r2 /\ v_he mc v2 = Some r1 /\ forall v, v <> v1 -> v <> v2 -> v_he mc v = v_he m v).
  { change (v_he mc) with (fupd (fupd (v_he m) v1 (Some r2)) v2 (Some r1)). split; [fu; reflexivity|]. split; [fu; reflexivity|]. intros v Q1 Q2. fu. reflexivity. }
  assert (CF : f_he mc f = Some hn /\ forall g', g' <> f -> f_he mc g' = f_he m g').
  { change (f_he mc) with (fupd (f_he m) f (Some hn)). split; [fu; reflexivity|]. intros v Q1. fu. reflexivity. }
  assert (CP : v_pos mc v1 = vscale nhalf (vadd (v_pos m v0) (v_pos m v1)) /\ forall v, v <> v1 -> v_pos mc v = v_pos m v).
  { change (v_pos mc) with (fupd (v_pos m) v1 (vscale nhalf (vadd (v_pos m v0) (v_pos m v1)))). split; [fu; reflexivity|]. intros v Q1. fu. reflexivity. }
  clearbody mc. clear mb3 mb2 mb VL LV0.
  assert (LM : Lists mc) by (unfold Lists; rewrite C1, C2, C3, C5, C6, C7, C9, C10, C13, C14; exact (wf_lists m W)).
  assert (ND : NoDup [he; h0; h1; h2]).
  { assert (Q1 : h0 <> h1) by (intros E; congruence). assert (Q2 : h0 <> h2) by (intros E; congruence). assert (Q3 : h1 <> h2) by (intros E; congruence).
    repeat constructor; cbn [In]; intuition congruence. }
  destruct (merge_remove_ok mc g he h0 h1 h2 v0 LM) as [X | (m' & X & D)]; try (rewrite ?C2, ?C3, ?C1; assumption); [rewrite C11; exact F0|left; exact X|right].
  exists m'. split; [exact X|]. destruct D as [DL DV DH DF DVF DFF (DP1 & DP2 & DP3) (DH1 & DH2 & DH3 & DH4 & DH5) DFH (DM1 & DM2)].
  rewrite C1 in DV, DVF. rewrite C2 in DH. rewrite C3 in DF, DFF. constructor.
  - exact DL. - rewrite DM2; exact C5. - exact DV. - exact DH. - exact DF.
  - intros h I. rewrite DH1, CS, wr_src_spec. destruct (in_dec Nat.eq_dec h (hv :: lv)) as [Q | Q].
    + apply VR in Q as [_ Q]. rewrite Q, ptr_eqb_refl. reflexivity.
    + destruct (ptr_eqb (h_src m h) (Some v0)) eqn:E; [|reflexivity]. exfalso. apply Q, VR. split; [exact I|apply ptr_eqb_eq; exact E].
  - intros h. rewrite DH2, CN. apply A7.
  - rewrite DH3. exact CR.
  - intros h. rewrite DH4, C11. reflexivity.
  - intros h. rewrite DH5, C12. reflexivity.
  - intros v. rewrite DP3, C8. reflexivity.
  - rewrite DP1. exact (proj2 CP).
  - rewrite DP1. exact (proj1 CP).
  - rewrite DP2. exact CV.
  - rewrite DFH. exact CF.
  - exact DVF.
  - exact DFF.
  - rewrite DM1. exact C4.
Qed.
End M.
End G.
