(** Implicit fairing on moved meshes. *)
From Coq Require Import Reals List ZArith Arith Bool Lia Lra Permutation.
From Verif Require Import Num NumInst Vec Heap Mesh Spec Rings MeasureM Smooth SmoothSpec SmoothP SmoothD Lapl LaplSpec LaplP LaplM SmoothF Fair FrontE WholeSpec RigidSpec RigidM RigidE RigidF RigidQ RigidI.
Import ListNotations.

Lemma v_halfedges_ring (m : mesh NumR) i : WF m -> (i < length (m_verts m))%nat -> v_halfedges (Some (vat m i)) m = Ok (map Some (vert_ring m i), m).
Proof. intros W Hi. destruct (ring_head m W i Hi) as (h & l & Eh & Hr & El). rewrite El. apply (v_halfedges_ok m W (vat m i) h l); [apply vat_in, Hi|exact Eh|exact Hr]. Qed.
Lemma row_one (m : mesh NumR) eps : WF m -> weights_add m -> forall i, (i < length (m_verts m))%nat -> sum_to (length (m_verts m)) (famat m eps i) = 1%R.
Proof.
  intros W A i Hi. assert (E : sum_to (length (m_verts m)) (famat m eps i) = sum_to (length (m_verts m)) (fun j => famat m eps i j * 1)%R) by (apply sum_to_ext; intros j _; ring).
  rewrite E, (fair_sum m W eps (fun _ => 1%R) i Hi). clear E. destruct (ring_head m W i Hi) as (h & l & _ & _ & El).
  assert (N0 : rsum (map (w_cot m) (vert_ring m i)) <> 0%R).
  { refine (A (vat m i) _ _ (vat_in m i Hi) (v_halfedges_ring m i W Hi) _). assert (X : mmap he_cotWeight (map Some (vert_ring m i)) m = Ok (map (fun p => match p with Some y => w_cot m y | None => 0%R end) (map Some (vert_ring m i)), m)); [|rewrite map_map in X; exact X]. apply mmap_all. intros p Ip. apply in_map_iff in Ip. destruct Ip as (y & <- & Iy). apply (cot_ok m W). apply (Permutation_in _ (ring_out m W i Hi)) in Iy. apply out_in in Iy. apply Iy. }
  assert (S1 : rsum (map (fun y => fw m i y * at_ m (fun _ => 1%R) (dst_of m y))%R (out m (vat m i))) = 1%R); [|rewrite S1; ring].
  rewrite <- (rsum_perm _ _ (Permutation_map _ (ring_out m W i Hi))). rewrite (rsum_ext _ (fun y => / rsum (map (w_cot m) (vert_ring m i)) * w_cot m y)%R); [rewrite rsum_scal; field; exact N0|].
  intros y Iy. apply (Permutation_in _ (ring_out m W i Hi)) in Iy. apply out_in in Iy as [Iy _]. destruct (dst_some m W y Iy) as (d & Ed & _). rewrite Ed. cbn [at_]. unfold fw. field. exact N0.
Qed.

Section Rigid.
Variables (Q : vecR -> vecR) (t : vecR).
Hypothesis HQ : Rotation Q.
Notation T := (motion Q t).
Notation MV := (move Q t).
Notation MR := (move_res Q t).
Notation mv := (mv Q t).
Notation mvs x := (mv same x x).
Ltac go := mvt HQ.
Lemma mv_fair_row i : mvs (@fair_row NumR i). Proof. unfold fair_row. go. Qed.
Hint Resolve mv_fair_row : mvh.
Lemma mv_fair_matrix e : mvs (@fair_matrix NumR e). Proof. unfold fair_matrix. go. Qed.
Lemma mv_fair_write X : mv same (@fair_write NumR X) (fair_write (map T X)).
Proof.
  unfold fair_write. apply mv_binds; [go|intros l]. assert (G : forall k, mv same (mfold (fun _ i => bind (mesh_vertex (N := NumR) (Z.of_nat i)) (fun v => match nth_error X i with Some x => w_pos v x | None => ub OutOfBounds end)) tt k)
    (mfold (fun _ i => bind (mesh_vertex (N := NumR) (Z.of_nat i)) (fun v => match nth_error (map T X) i with Some x => w_pos v x | None => ub OutOfBounds end)) tt k)).
  { intros k. apply (mv_mfold Q t same); intros [] i. apply mv_binds; [go|intros v]. rewrite nth_error_map. destruct (nth_error X i); cbn [option_map]; [apply mv_w_pos|apply mv_ub]. }
  apply G.
Qed.
Lemma solution_move n A X X' : (t = vzero \/ forall i, (i < n)%nat -> sum_to n (A i) = 1%R) -> solution n A X X' -> solution n A (map T X) (map T X').
Proof.
  intros H (L & L' & S1). split; [rewrite map_length; exact L|]. split; [rewrite map_length; exact L'|]. intros i Hi. destruct (S1 i Hi) as (E1 & E2 & E3).
  assert (Nx : forall l j, (j < length l)%nat -> nth j (map T l) vzero = T (nth j l vzero)). { intros l j Hj. rewrite (nth_indep (map T l) vzero (T vzero)) by (rewrite map_length; exact Hj). apply map_nth. }
  assert (G : forall f : vecR -> R, f = vx \/ f = vy \/ f = vz -> sum_to n (fun j => A i j * f (nth j (map T X') vzero))%R = f (nth i (map T X) vzero)).
  { intros f Hf. rewrite (Nx X i) by lia.
    assert (Ff : forall v, f (T v) = (vx v * f (Q e1) + vy v * f (Q e2) + vz v * f (Q e3) + f t)%R). { intros v. unfold motion. rewrite (q_basis Q HQ v) at 1. destruct Hf as [-> | [-> | ->]]; rring. }
    rewrite (sum_to_ext n _ (fun j => A i j * vx (nth j X' vzero) * f (Q e1) + A i j * vy (nth j X' vzero) * f (Q e2) + A i j * vz (nth j X' vzero) * f (Q e3) + A i j * f t)%R) by (intros j Hj; rewrite (Nx X' j) by lia; rewrite Ff; rring).
    rewrite !sum_to_plus, !LinR.sum_to_scalr, E1, E2, E3, Ff. f_equal. destruct H as [-> | H]; [|rewrite (H i Hi); rring]. replace (f vzero) with 0%R by (destruct Hf as [-> | [-> | ->]]; reflexivity). rring. }
  split; [apply G; tauto|]. split; apply G; tauto.
Qed.
Lemma fair_step_move e m o : WF m -> t = vzero \/ weights_add m -> fair_step (N := NumR) solution e m o -> fair_step (N := NumR) solution e (MV m) (MR o).
Proof.
  intros W H S1. inversion S1 as [A m1 X X' m2 m' E1 E2 E3 E4]; subst o. assert (E := fair_matrix_ok m W e). assert (K : A = famat m e /\ m1 = m) by (split; congruence). destruct K as [-> ->]. clear E.
  assert (E2' : m2 = m). { rewrite (read_pos m W) in E2. congruence. } subst m2.
  apply (fair_ok (N := NumR) solution e (MV m) (famat m e) (MV m) (map T X) (map T X') (MV m) (MV m')).
  - rewrite (mv_fair_matrix e m), E1. reflexivity.
  - assert (P := mv_mmap Q t T (m_verts m) (fun v => ve_pos (Some v)) (fun v => ve_pos (Some v)) (fun v => mv_pos Q t (Some v)) m). rewrite E2 in P. exact P.
  - apply solution_move; [|exact E3]. destruct H as [H | H]; [left; exact H|right]. intros i Hi. exact (row_one m e W H i Hi).
  - rewrite (mv_fair_write X' m), E4. reflexivity.
Qed.
Lemma weights_move m : weights_add m -> weights_add (MV m).
Proof.
  intros H v hs ws Iv E1 E2. rewrite (mv_halfedges Q t (Some v) m) in E1. destruct (v_halfedges (Some v) m) as [[hs' m']| | |] eqn:F1; try discriminate. assert (X1 := f_equal (fun r => match r with Ok (_, x) => x | _ => m end) E1). assert (Y1 := f_equal (fun r => match r with Ok (x, _) => x | _ => [] end) E1). cbn [move_out] in X1, Y1. unfold same in Y1. clear E1. subst hs'.
  assert (m' = m) as ->. { transitivity (move (unturn Q) (untr Q t) (MV m')); [symmetry; apply (undo_mesh Q t HQ)|]. rewrite X1. apply (undo_mesh Q t HQ). }
  rewrite (mv_mmap_s Q t hs he_cotWeight he_cotWeight (mv_cotWeight Q t HQ) m) in E2. destruct (mmap he_cotWeight hs m) as [[ws' m']| | |] eqn:F2; try discriminate. assert (X2 := f_equal (fun r => match r with Ok (_, x) => x | _ => m end) E2). assert (Y2 := f_equal (fun r => match r with Ok (x, _) => x | _ => [] end) E2). cbn [move_out] in X2, Y2. unfold same in Y2. clear E2. subst ws'.
  assert (m' = m) as ->. { transitivity (move (unturn Q) (untr Q t) (MV m')); [symmetry; apply (undo_mesh Q t HQ)|]. rewrite X2. apply (undo_mesh Q t HQ). }
  exact (H v hs ws Iv F1 F2).
Qed.
End Rigid.

Section Iff.
Variables (Q : vecR -> vecR) (t : vecR).
Hypothesis HQ : Rotation Q.
Lemma fair_step_iff e m o : WF m -> t = vzero \/ weights_add m -> (fair_step (N := NumR) solution e (move Q t m) (move_res Q t o) <-> fair_step (N := NumR) solution e m o).
Proof.
  intros W H. split; [|apply fair_step_move; assumption]. intros S1. apply (fair_step_move (unturn Q) (untr Q t) (unturn_rotation Q HQ)) in S1.
  - rewrite (undo_mesh Q t HQ), (undo_res Q t HQ) in S1. exact S1.
  - apply wf_move, W.
  - destruct H as [-> | H]; [left|right; apply weights_move; assumption]. unfold untr. replace (unturn Q vzero) with (vzero : vecR) by (symmetry; apply (q_zero _ (unturn_rotation Q HQ))). apply vec_ext; rring.
Qed.
Lemma step_wf e (m m1 : mesh NumR) : WF m -> fair_step (N := NumR) solution e m (Ok m1) -> WF m1.
Proof.
  intros W S1. inversion S1 as [A m0 X X' m2 m' E1 E2 E3 E4]; subst. assert (m0 = m) as -> by (rewrite (fair_matrix_ok m W e) in E1; congruence). assert (m2 = m) as -> by (rewrite (read_pos m W) in E2; congruence).
  destruct (fair_write_ok m W X' m1 E4) as [P _]. exact (posonly_wf m m1 W P).
Qed.
Theorem fairing_iff e n : forall m o, WF m -> t = vzero \/ (forall k mk, (k < n)%nat -> implicitFairing (N := NumR) solution e k m (Ok mk) -> weights_add mk) ->
  (implicitFairing (N := NumR) solution e n (move Q t m) (move_res Q t o) <-> implicitFairing (N := NumR) solution e n m o).
Proof.
  induction n as [|n IH]; intros m o W H.
  - split; intros R1; inversion R1; subst.
    + match goal with X : Ok _ = move_res _ _ _ |- _ => rename X into E | X : move_res _ _ _ = Ok _ |- _ => rename X into E end. assert (o = Ok m) as -> by (rewrite <- (undo_res Q t HQ o), <- E; cbn; rewrite (undo_mesh Q t HQ); reflexivity). apply if_0.
    + cbn. apply if_0.
  - assert (W1 : t = vzero \/ weights_add m). { destruct H as [H | H]; [left; exact H|right; apply (H 0%nat m); [lia|apply if_0]]. }
    assert (Hn : forall m1, fair_step (N := NumR) solution e m (Ok m1) -> t = vzero \/ (forall k mk, (k < n)%nat -> implicitFairing (N := NumR) solution e k m1 (Ok mk) -> weights_add mk)).
    { intros m1 S1. destruct H as [H | H]; [left; exact H|right]. intros k mk Hk R1. apply (H (S k) mk); [lia|]. apply if_S with m1; assumption. }
    split; intros R1; inversion R1 as [|? ? m1 ? S1 R2]; subst.
    + destruct (res_onto Q t HQ (Ok m1)) as (o1 & E). destruct o1 as [m0| | |]; try discriminate. injection E as ->. change (Ok (move Q t m0)) with (move_res Q t (Ok m0)) in S1. apply (fair_step_iff e m (Ok m0) W W1) in S1.
      apply if_S with m0; [exact S1|]. apply (IH m0 o); [exact (step_wf e m m0 W S1)|exact (Hn m0 S1)|exact R2].
    + apply if_S with (move Q t m1); [apply (fair_step_iff e m (Ok m1) W W1), S1|]. apply (IH m1 o); [exact (step_wf e m m1 W S1)|exact (Hn m1 S1)|exact R2].
Qed.
End Iff.
