(** Every motion can be undone, so that moved meshes have no other outcomes. *)
From Coq Require Import Reals List ZArith Arith Bool Lia Lra FunctionalExtensionality.
From Verif Require Import Num NumInst Vec Heap Mesh Spec Prog Smooth SmoothD Simplify Remesh Qem QemSpec FrontE WholeSpec RigidSpec RigidM RigidE RigidF RigidS RigidP RigidR RigidQ.
Import ListNotations.

Section Rigid.
Variables (Q : vecR -> vecR) (t : vecR).
Hypothesis HQ : Rotation Q.
Notation T := (motion Q t).
Notation MV := (move Q t).
Notation MR := (move_res Q t).
Definition untr : vecR := vneg (unturn Q t).
Lemma unturn_q v : unturn Q (Q v) = v. Proof. apply (q_inj Q HQ). apply (q_unturn Q HQ). Qed.
Lemma unturn_rotation : Rotation (unturn Q).
Proof.
  constructor.
  - intros a b. apply (q_inj Q HQ). rewrite (rot_add Q HQ), !(q_unturn Q HQ). reflexivity.
  - intros s a. apply (q_inj Q HQ). rewrite (rot_scale Q HQ), !(q_unturn Q HQ). reflexivity.
  - intros a b. rewrite <- (rot_dot Q HQ), !(q_unturn Q HQ). reflexivity.
  - intros a b. apply (q_inj Q HQ). rewrite <- (rot_cross Q HQ), !(q_unturn Q HQ). reflexivity.
Qed.
Lemma undo p : motion (unturn Q) untr (T p) = p.
Proof. unfold motion, untr. rewrite (rot_add _ unturn_rotation), unturn_q. generalize (unturn Q t). intros u. apply vec_ext; rring. Qed.
Lemma redo p : T (motion (unturn Q) untr p) = p.
Proof. unfold motion, untr. rewrite (rot_add Q HQ), (q_unturn Q HQ), <- (q_neg Q HQ), (q_unturn Q HQ). apply vec_ext; rring. Qed.
Lemma undo_mesh m : move (unturn Q) untr (MV m) = m.
Proof. destruct m. unfold move, at_positions. cbn. f_equal. apply functional_extensionality. intros v. apply undo. Qed.
Lemma redo_mesh m : MV (move (unturn Q) untr m) = m.
Proof. destruct m. unfold move, at_positions. cbn. f_equal. apply functional_extensionality. intros v. apply redo. Qed.
Lemma undo_res o : move_res (unturn Q) untr (MR o) = o.
Proof. destruct o; cbn; try reflexivity. rewrite undo_mesh. reflexivity. Qed.
Lemma res_onto o : exists o', o = MR o'.
Proof. exists (move_res (unturn Q) untr o). destruct o; cbn; try reflexivity. rewrite redo_mesh. reflexivity. Qed.
Lemma wf_move m : WF m -> WF (MV m).
Proof. intros W. exact (FrontE.wf_pos (fun v => T (v_pos m v)) m W). Qed.
Lemma move_iff (P : mesh NumR -> Prop) (run : mesh NumR -> res (mesh NumR) -> Prop) : (forall Q' t', Rotation Q' -> forall m, P m -> P (move Q' t' m)) ->
  (forall Q' t', Rotation Q' -> forall m o, P m -> run m o -> run (move Q' t' m) (move_res Q' t' o)) -> forall m o, P m -> (run (MV m) (MR o) <-> run m o).
Proof.
  intros HP H m o Pm. split; [|apply H; assumption]. intros R1. apply (H _ untr unturn_rotation) in R1; [|apply HP; assumption]. rewrite undo_mesh, undo_res in R1. exact R1.
Qed.
End Rigid.

Section All.
Variables (Q : vecR -> vecR) (t : vecR).
Hypothesis HQ : Rotation Q.
Lemma smoothing_iff (m : mesh NumR) o : WF m -> forall (eps shrink inflate : R) (cot : bool) n,
  (smoothLaplacian (N := NumR) eps cot n (move Q t m) (move_res Q t o) <-> smoothLaplacian (N := NumR) eps cot n m o) /\
  (smoothTaubin (N := NumR) shrink inflate n (move Q t m) (move_res Q t o) <-> smoothTaubin (N := NumR) shrink inflate n m o).
Proof.
  intros W eps a b cot n. split.
  - apply (move_iff Q t HQ WF (smoothLaplacian (N := NumR) eps cot n)); [intros; apply wf_move; assumption|intros; apply laplacian_move; assumption|exact W].
  - apply (move_iff Q t HQ WF (smoothTaubin (N := NumR) a b n)); [intros; apply wf_move; assumption|intros; apply taubin_move; assumption|exact W].
Qed.
Lemma denoising_iff (m : mesh NumR) o : WF m -> forall (sigma sc sn : R) n,
  (denoiseNormalGaussian (N := NumR) sigma n (move Q t m) (move_res Q t o) <-> denoiseNormalGaussian (N := NumR) sigma n m o) /\
  (denoiseNormalBilateral (N := NumR) sc sn n (move Q t m) (move_res Q t o) <-> denoiseNormalBilateral (N := NumR) sc sn n m o).
Proof.
  intros W s a b n. split.
  - apply (move_iff Q t HQ WF (denoiseNormalGaussian (N := NumR) s n)); [intros; apply wf_move; assumption|intros; apply gauss_move; assumption|exact W].
  - apply (move_iff Q t HQ WF (denoiseNormalBilateral (N := NumR) a b n)); [intros; apply wf_move; assumption|intros; apply bilateral_move; assumption|exact W].
Qed.
Lemma remeshing_iff (m : mesh NumR) o : Valid m -> forall (short long keep : R) n,
  remeshTriangular (N := NumR) short long keep n (move Q t m) (move_res Q t o) <-> remeshTriangular (N := NumR) short long keep n m o.
Proof.
  intros V a b c n. apply (move_iff Q t HQ Valid (remeshTriangular (N := NumR) a b c n)); [intros; apply valid_move; assumption|intros; apply remesh_move; assumption|exact V].
Qed.
Lemma simplifying_iff (m : mesh NumR) o : Valid m -> forall nt mt fuel,
  simplifyQueue (N := NumR) solution4 nt mt fuel (move Q t m) (move_res Q t o) <-> simplifyQueue (N := NumR) solution4 nt mt fuel m o.
Proof.
  intros V nt mt fuel. apply (move_iff Q t HQ Valid (simplifyQueue (N := NumR) solution4 nt mt fuel)); [intros; apply valid_move; assumption|intros; apply simplify_move; assumption|exact V].
Qed.
End All.
