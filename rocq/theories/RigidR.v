(** Remeshing on moved meshes. *)
From Coq Require Import Reals List ZArith Arith Bool Lia Permutation.
From Verif Require Import Num NumInst Vec Heap Mesh Construct Measure Lapl Fill Front Bounds Spec Smooth SmoothD Simplify SimplifyT Remesh RemeshSpec Wp RemeshP WholeSpec RigidSpec RigidM RigidE RigidF RigidS RigidP.
Import ListNotations.

Section Rigid.
Variables (Q : vecR -> vecR) (t : vecR).
Hypothesis HQ : Rotation Q.
Notation MV := (move Q t).
Notation MR := (move_res Q t).
Notation mvs x := (mv Q t same x x).

Lemma failed_move {A} (x : M NumR A) m (o : res (mesh NumR)) : mvs x -> failed (x m) o -> failed (x (MV m)) (MR o).
Proof. intros H F. rewrite H. destruct (x m) as [[a m']| | |]; cbn in F |- *; [contradiction|subst o; reflexivity|subst o; reflexivity|subst o; reflexivity]. Qed.
Lemma ok_move {A} (x : M NumR A) m a m' : mvs x -> x m = Ok (a, m') -> x (MV m) = Ok (a, MV m').
Proof. intros H E. rewrite H, E. reflexivity. Qed.
Lemma wp_ok {A} (x : M NumR A) m (P : A -> mesh NumR -> Prop) a m' : Wp.wp (fun _ => True) x m P -> x m = Ok (a, m') -> P a m'.
Proof. unfold Wp.wp. intros H E. rewrite E in H. exact H. Qed.
Lemma remesh_step_move short long : forall m o, Valid m -> remesh_step short long m o -> remesh_step short long (MV m) (MR o).
Proof.
  intros m o V H. inversion H as [p o1 P F|p m1 q o1 P E P2 F|p m1 q m2 o1 P E P2 E2 F|p m1 q m2 m3 o1 P E P2 E2 E3 F]; subst o1.
  - apply rs_split with p; [exact P|]. apply failed_move; [apply mv_split_pass, HQ|exact F].
  - apply rs_collapse with p (MV m1) q; [exact P|apply ok_move; [apply mv_split_pass, HQ|exact E]|exact P2|]. apply failed_move; [apply mv_collapse_pass, HQ|exact F].
  - apply rs_flip with p (MV m1) q (MV m2); [exact P|apply ok_move; [apply mv_split_pass, HQ|exact E]|exact P2|apply ok_move; [apply mv_collapse_pass, HQ|exact E2]|].
    apply (failed_move (he_loop remesh_flip (length (m_hes m2)) 0)); [apply mv_he_loop; [intros i; apply mv_remesh_flip]|exact F].
  - apply rs_smooth with p (MV m1) q (MV m2) (MV m3); [exact P|apply ok_move; [apply mv_split_pass, HQ|exact E]|exact P2|apply ok_move; [apply mv_collapse_pass, HQ|exact E2]| |].
    + apply (ok_move (he_loop remesh_flip (length (m_hes m2)) 0)); [apply mv_he_loop; [intros i; apply mv_remesh_flip]|exact E3].
    + apply taubin_move; [exact HQ| |exact F]. assert (R1 := wp_ok _ _ _ _ _ (split_pass_ok (fun _ => True) long p m m (rm_refl m V)) E). assert (R2 := wp_ok _ _ _ _ _ (collapse_pass_ok (fun _ => True) (fun _ _ => I) short long q m m1 R1) E2).
      assert (R3 := wp_ok _ _ _ _ _ (remesh_flips_ok (fun _ => True) m2 (rm_valid _ _ R2)) E3). apply valid_wf, (rm_valid _ _ R3).
Qed.
Lemma remesh_repeats_move short long : forall n it m o, Valid m -> repeats (fun _ => remesh_step short long) it n m o -> repeats (fun _ => remesh_step short long) it n (MV m) (MR o).
Proof.
  intros n. induction n as [|n IH]; intros it m o V H; inversion H as [|? ? ? m1 ? A B|? ? ? ? A B]; subst.
  - apply rep_0.
  - apply rep_S with (MV m1); [apply (remesh_step_move short long m (Ok m1) V A)|]. apply IH; [|exact B]. destruct (remesh_step_ok (fun _ => True) (fun _ _ => I) (fun _ _ _ => I) short long m (Ok m1) A V) as [Bd | (m' & [= <-] & R)]; [destruct Bd as (kk & Bk & _); discriminate|apply (rm_valid _ _ R)].
  - apply rep_fail; [apply remesh_step_move; assumption|]. intros m1 E. destruct o as [m2| | |]; try discriminate. apply (B m2 eq_refl).
Qed.
Lemma remesh_move short long keep n m o : Valid m -> remeshTriangular short long keep n m o -> remeshTriangular short long keep n (MV m) (MR o).
Proof.
  intros V H. inversion H as [o1 F|l m1 o1 E R]; subst o1.
  - apply rt_fail. apply failed_move; [apply mv_remesh_prepare, HQ|exact F].
  - apply rt_run with l (MV m1); [apply ok_move; [apply mv_remesh_prepare, HQ|exact E]|]. apply remesh_repeats_move; [|exact R].
    destruct (wp_ok _ _ _ _ _ (prepare_ok (fun _ => True) (fun _ _ _ => I) keep m (valid_wf m V)) E) as [Lo _]. apply (rm_valid _ _ (lo_rm m m1 Lo V)).
Qed.
End Rigid.

(** Remeshing always has an outcome. *)
Lemma remesh_step_exists short long (m : mesh NumR) : Valid m -> exists o, remesh_step short long m o.
Proof.
  intros V. assert (P := Permutation_refl (seq 0 (length (m_hes m)))). destruct (split_pass long (seq 0 (length (m_hes m))) m) as [[[] m1]|u|u|] eqn:E1.
  2:{ exists (UB u). apply rs_split with (1 := P). rewrite E1. reflexivity. } 2:{ exists (Abort u). apply rs_split with (1 := P). rewrite E1. reflexivity. } 2:{ exists NoFuel. apply rs_split with (1 := P). rewrite E1. reflexivity. }
  assert (P1 := Permutation_refl (seq 0 (length (m_hes m1)))). destruct (collapse_pass short long (seq 0 (length (m_hes m1))) m1) as [[[] m2]|u|u|] eqn:E2.
  2:{ exists (UB u). apply rs_collapse with (1 := P) (2 := E1) (3 := P1). rewrite E2. reflexivity. } 2:{ exists (Abort u). apply rs_collapse with (1 := P) (2 := E1) (3 := P1). rewrite E2. reflexivity. } 2:{ exists NoFuel. apply rs_collapse with (1 := P) (2 := E1) (3 := P1). rewrite E2. reflexivity. }
  destruct (he_loop remesh_flip (length (m_hes m2)) 0 m2) as [[[] m3]|u|u|] eqn:E3.
  2:{ exists (UB u). apply rs_flip with (1 := P) (2 := E1) (3 := P1) (4 := E2). rewrite E3. reflexivity. } 2:{ exists (Abort u). apply rs_flip with (1 := P) (2 := E1) (3 := P1) (4 := E2). rewrite E3. reflexivity. } 2:{ exists NoFuel. apply rs_flip with (1 := P) (2 := E1) (3 := P1) (4 := E2). rewrite E3. reflexivity. }
  assert (R1 := wp_ok _ _ _ _ _ (split_pass_ok (fun _ => True) long _ m m (rm_refl m V)) E1). assert (R2 := wp_ok _ _ _ _ _ (collapse_pass_ok (fun _ => True) (fun _ _ => I) short long _ m m1 R1) E2).
  assert (R3 := wp_ok _ _ _ _ _ (remesh_flips_ok (fun _ => True) m2 (rm_valid _ _ R2)) E3).
  destruct (taubin_det nhalf (ndiv (nofZ 53) (nofZ 100)) 3 m3 (valid_wf _ (rm_valid _ _ R3))) as (o & Ho & _). exists o. apply rs_smooth with (1 := P) (2 := E1) (3 := P1) (4 := E2) (5 := E3). exact Ho.
Qed.
Lemma remesh_exists short long keep n (m : mesh NumR) : Valid m -> exists o, remeshTriangular short long keep n m o.
Proof.
  intros V. destruct (remesh_prepare keep m) as [[l m1]|u|u|] eqn:E.
  2:{ exists (UB u). apply rt_fail. rewrite E. reflexivity. } 2:{ exists (Abort u). apply rt_fail. rewrite E. reflexivity. } 2:{ exists NoFuel. apply rt_fail. rewrite E. reflexivity. }
  destruct (wp_ok _ _ _ _ _ (prepare_ok (fun _ => True) (fun _ _ _ => I) keep m (valid_wf m V)) E) as [Lo _]. assert (V1 := rm_valid _ _ (lo_rm m m1 Lo V)).
  enough (H : forall k it m2, Valid m2 -> exists o, repeats (fun _ => remesh_step (nmul l short) (nmul l long)) it k m2 o) by (destruct (H n 0 m1 V1) as [o Ho]; exists o; apply rt_run with l m1; assumption).
  clear. induction k as [|k IH]; intros it m V; [exists (Ok m); apply rep_0|]. destruct (remesh_step_exists (nmul l short) (nmul l long) m V) as [o Ho]. destruct o as [m1|u|u|].
  - destruct (remesh_step_ok (fun _ => True) (fun _ _ => I) (fun _ _ _ => I) _ _ m (Ok m1) Ho V) as [Bd | (m' & [= <-] & R)]; [destruct Bd as (kk & Bk & _); discriminate|]. destruct (IH (S it) m1 (rm_valid _ _ R)) as [o2 H2]. exists o2. apply rep_S with m1; assumption.
  - exists (UB u). apply rep_fail; [exact Ho|discriminate].
  - exists (Abort u). apply rep_fail; [exact Ho|discriminate].
  - exists NoFuel. apply rep_fail; [exact Ho|discriminate].
Qed.

(** ** Together *)
Section All.
Variables (Q : vecR -> vecR) (t : vecR).
Hypothesis HQ : Rotation Q.
Lemma edits_move (m : mesh NumR) (p : ptr) :
  splitHE p (move Q t m) = move_out Q t same (splitHE p m) /\ flipHE p (move Q t m) = move_out Q t same (flipHE p m) /\
  collapseHE p (move Q t m) = move_out Q t same (collapseHE p m) /\ collapseFace p (move Q t m) = move_out Q t same (collapseFace p m) /\
  verify (move Q t m) = move_out Q t same (verify m).
Proof. split; [apply mv_split, HQ|]. split; [apply mv_flip|]. split; [apply mv_collapse, HQ|]. split; [apply mv_collapseFace, HQ|apply mv_verify]. Qed.
Lemma filling_move (cabs : R -> R) (m : mesh NumR) (face : ptr) :
  triangulate (N := NumR) cabs face (move Q t m) = move_out Q t same (triangulate (N := NumR) cabs face m) /\ fillHoles (N := NumR) cabs (move Q t m) = move_out Q t same (fillHoles (N := NumR) cabs m).
Proof. split; [apply mv_triangulate, HQ|apply mv_fillHoles, HQ]. Qed.
Lemma front_moves (m : mesh NumR) (fuel : nat) (face : ptr) (avg : R) : front_loop (N := NumR) fuel face avg (move Q t m) = move_out Q t same (front_loop (N := NumR) fuel face avg m).
Proof. apply mv_front_loop, HQ. Qed.
Lemma positions_move (m : mesh NumR) :
  getVertices (move Q t m) = move_out Q t (map (motion Q t)) (getVertices m) /\ getVertexIndices (move Q t m) = move_out Q t same (getVertexIndices m).
Proof. split; [apply mv_getVertices|apply mv_getVertexIndices]. Qed.
Lemma normals_move (m : mesh NumR) (p : ptr) : f_normal p (move Q t m) = move_out Q t Q (f_normal p m) /\ v_normal p (move Q t m) = move_out Q t Q (v_normal p m).
Proof. split; [apply mv_fnormal, HQ|apply mv_vnormal, HQ]. Qed.
Lemma measures_move (m : mesh NumR) (p q : ptr) (k : lap_type) :
  he_length p (move Q t m) = move_out Q t same (he_length p m) /\ he_dihedral p (move Q t m) = move_out Q t same (he_dihedral p m) /\ he_cotWeight p (move Q t m) = move_out Q t same (he_cotWeight p m) /\
  f_area p (move Q t m) = move_out Q t same (f_area p m) /\ v_volonoi p (move Q t m) = move_out Q t same (v_volonoi p m) /\ v_volonoiIn p q (move Q t m) = move_out Q t same (v_volonoiIn p q m) /\
  v_K p (move Q t m) = move_out Q t same (v_K p m) /\ v_H p (move Q t m) = move_out Q t same (v_H p m) /\
  getMeanEdgeLength (move Q t m) = move_out Q t same (getMeanEdgeLength m) /\ getMeanDihedralAngle (move Q t m) = move_out Q t same (getMeanDihedralAngle m) /\ getMeanFaceArea (move Q t m) = move_out Q t same (getMeanFaceArea m) /\
  getMeshLaplacian k (move Q t m) = move_out Q t same (getMeshLaplacian k m).
Proof.
  split; [apply mv_length, HQ|]. split; [apply mv_dihedral, HQ|]. split; [apply mv_cotWeight, HQ|]. split; [apply mv_farea, HQ|]. split; [apply mv_volonoi, HQ|]. split; [apply mv_volonoiIn, HQ|].
  split; [apply mv_K, HQ|]. split; [apply mv_H, HQ|]. split; [apply mv_meanEdge, HQ|]. split; [apply mv_meanDihedral, HQ|]. split; [apply mv_meanArea, HQ|apply mv_laplacian, HQ].
Qed.
Lemma smoothing_moves (m : mesh NumR) o : WF m -> forall (eps shrink inflate : R) (cot : bool) n,
  (smoothLaplacian (N := NumR) eps cot n m o -> smoothLaplacian (N := NumR) eps cot n (move Q t m) (move_res Q t o)) /\
  (smoothTaubin (N := NumR) shrink inflate n m o -> smoothTaubin (N := NumR) shrink inflate n (move Q t m) (move_res Q t o)).
Proof. intros W eps a b cot n. split; [apply laplacian_move; assumption|apply taubin_move; assumption]. Qed.
Lemma denoising_moves (m : mesh NumR) o : WF m -> forall (sigma sc sn : R) n,
  (denoiseNormalGaussian (N := NumR) sigma n m o -> denoiseNormalGaussian (N := NumR) sigma n (move Q t m) (move_res Q t o)) /\
  (denoiseNormalBilateral (N := NumR) sc sn n m o -> denoiseNormalBilateral (N := NumR) sc sn n (move Q t m) (move_res Q t o)).
Proof. intros W s a b n. split; [apply gauss_move; assumption|apply bilateral_move; assumption]. Qed.
Lemma remeshing_moves (m : mesh NumR) o : Valid m -> forall (short long keep : R) n,
  remeshTriangular (N := NumR) short long keep n m o -> remeshTriangular (N := NumR) short long keep n (move Q t m) (move_res Q t o).
Proof. intros V a b c n. apply remesh_move; assumption. Qed.
End All.
