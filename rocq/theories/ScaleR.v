(** Remeshing on scaled meshes. *)
From Coq Require Import Reals List ZArith Arith Bool Lia Permutation.
From Verif Require Import Num NumInst Vec Heap Mesh Construct Measure Lapl Fill Front Bounds Spec Smooth SmoothD Simplify SimplifyT Remesh RemeshSpec Wp RemeshP WholeSpec RigidSpec ScaleSpec ScaleM ScaleE ScaleF ScaleG ScaleH ScaleS ScaleP.
Import ListNotations.

Lemma wp_ok {A} (x : M NumR A) m (P : A -> mesh NumR -> Prop) a m' : Wp.wp (fun _ => True) x m P -> x m = Ok (a, m') -> P a m'.
Proof. unfold Wp.wp. intros H E. rewrite E in H. exact H. Qed.
Section Scale.
Variable c : R.
Hypothesis Hc : (0 < c)%R.
Notation MV := (scaled c).
Notation MR := (scaled_res c).

Lemma failed_move {A} (g : A -> A) (x x' : M NumR A) m (o : res (mesh NumR)) : mv c g x x' -> failed (x m) o -> failed (x' (MV m)) (MR o).
Proof. intros H F. rewrite H. destruct (x m) as [[a m']| | |]; cbn in F |- *; [contradiction|subst o; reflexivity|subst o; reflexivity|subst o; reflexivity]. Qed.
Lemma ok_move {A} (g : A -> A) (x x' : M NumR A) m a m' : mv c g x x' -> x m = Ok (a, m') -> x' (MV m) = Ok (g a, MV m').
Proof. intros H E. rewrite H, E. reflexivity. Qed.
Lemma flips_move n i : mv c same (@he_loop NumR remesh_flip n i) (he_loop remesh_flip n i).
Proof. apply mv_he_loop. intros k. apply mv_remesh_flip. Qed.
Lemma remesh_step_move (short long : R) : forall m o, Valid m -> @remesh_step NumR short long m o -> @remesh_step NumR (c * short)%R (c * long)%R (MV m) (MR o).
Proof.
  intros m o V H. inversion H as [p o1 P F|p m1 q o1 P E P2 F|p m1 q m2 o1 P E P2 E2 F|p m1 q m2 m3 o1 P E P2 E2 E3 F]; subst o1.
  - apply rs_split with p; [exact P|]. apply (failed_move _ _ _ _ _ (mv_split_pass c Hc long p) F).
  - apply rs_collapse with p (MV m1) q; [exact P|exact (ok_move _ _ _ _ _ _ (mv_split_pass c Hc long p) E)|exact P2|]. apply (failed_move _ _ _ _ _ (mv_collapse_pass c Hc short long q) F).
  - apply rs_flip with p (MV m1) q (MV m2); [exact P|exact (ok_move _ _ _ _ _ _ (mv_split_pass c Hc long p) E)|exact P2|exact (ok_move _ _ _ _ _ _ (mv_collapse_pass c Hc short long q) E2)|].
    apply (failed_move _ _ _ _ _ (flips_move _ 0) F).
  - apply rs_smooth with p (MV m1) q (MV m2) (MV m3); [exact P|exact (ok_move _ _ _ _ _ _ (mv_split_pass c Hc long p) E)|exact P2|exact (ok_move _ _ _ _ _ _ (mv_collapse_pass c Hc short long q) E2)| |].
    + exact (ok_move _ _ _ _ _ _ (flips_move _ 0) E3).
    + apply taubin_move; [|exact F]. assert (R1 := wp_ok _ _ _ _ _ (@split_pass_ok NumR (fun _ => True) long p m m (rm_refl m V)) E). assert (R2 := wp_ok _ _ _ _ _ (@collapse_pass_ok NumR (fun _ => True) (fun _ _ => I) short long q m m1 R1) E2).
      assert (R3 := wp_ok _ _ _ _ _ (remesh_flips_ok (fun _ => True) m2 (rm_valid _ _ R2)) E3). apply valid_wf, (rm_valid _ _ R3).
Qed.
Lemma remesh_repeats_move (short long : R) : forall n it m o, Valid m -> repeats (fun _ => @remesh_step NumR short long) it n m o -> repeats (fun _ => @remesh_step NumR (c * short)%R (c * long)%R) it n (MV m) (MR o).
Proof.
  intros n. induction n as [|n IH]; intros it m o V H; inversion H as [|? ? ? m1 ? A B|? ? ? ? A B]; subst.
  - apply rep_0.
  - apply rep_S with (MV m1); [apply (remesh_step_move short long m (Ok m1) V A)|]. apply IH; [|exact B]. destruct (@remesh_step_ok NumR (fun _ => True) (fun _ _ => I) (fun _ _ _ => I) short long m (Ok m1) A V) as [Bd | (m' & [= <-] & R)]; [destruct Bd as (kk & Bk & _); discriminate|apply (rm_valid _ _ R)].
  - apply rep_fail; [apply remesh_step_move; assumption|]. intros m1 E. destruct o as [m2| | |]; try discriminate. apply (B m2 eq_refl).
Qed.
Lemma remesh_move short long keep n m o : Valid m -> remeshTriangular short long keep n m o -> remeshTriangular short long keep n (MV m) (MR o).
Proof.
  intros V H. inversion H as [o1 F|l m1 o1 E R]; subst o1.
  - apply rt_fail. apply (failed_move _ _ _ _ _ (mv_remesh_prepare c Hc keep) F).
  - apply rt_run with (times c l) (MV m1); [exact (ok_move _ _ _ _ _ _ (mv_remesh_prepare c Hc keep) E)|].
    replace (@nmul NumR (times c l) short) with (c * (@nmul NumR l short))%R by (unfold times; cbn; ring). replace (@nmul NumR (times c l) long) with (c * (@nmul NumR l long))%R by (unfold times; cbn; ring). apply remesh_repeats_move; [|exact R].
    destruct (wp_ok _ _ _ _ _ (prepare_ok (fun _ => True) (fun _ _ _ => I) keep m (valid_wf m V)) E) as [Lo _]. apply (rm_valid _ _ (lo_rm m m1 Lo V)).
Qed.
End Scale.


(** ** Together *)
Section All.
Variable c : R.
Hypothesis Hc : (0 < c)%R.
Lemma edits_scale (m : mesh NumR) (p : ptr) :
  splitHE p (scaled c m) = scaled_out c same (splitHE p m) /\ flipHE p (scaled c m) = scaled_out c same (flipHE p m) /\
  collapseHE p (scaled c m) = scaled_out c same (collapseHE p m) /\ collapseFace p (scaled c m) = scaled_out c same (collapseFace p m) /\
  verify (scaled c m) = scaled_out c same (verify m).
Proof. split; [solve [apply mv_split; try exact Hc]|]. split; [apply mv_flip|]. split; [solve [apply mv_collapse; try exact Hc]|]. split; [solve [apply mv_collapseFace; try exact Hc]|apply mv_verify]. Qed.
Lemma filling_scale (cabs : R -> R) (m : mesh NumR) (face : ptr) :
  triangulate (N := NumR) cabs face (scaled c m) = scaled_out c same (triangulate (N := NumR) cabs face m) /\ fillHoles (N := NumR) cabs (scaled c m) = scaled_out c same (fillHoles (N := NumR) cabs m).
Proof. split; [solve [apply mv_triangulate; try exact Hc]|solve [apply mv_fillHoles; try exact Hc]]. Qed.
Lemma front_scale (m : mesh NumR) (fuel : nat) (face : ptr) (avg : R) : front_loop (N := NumR) fuel face (c * avg)%R (scaled c m) = scaled_out c same (front_loop (N := NumR) fuel face avg m).
Proof. apply (mv_front_loop c Hc). Qed.
Lemma positions_scale (m : mesh NumR) :
  getVertices (scaled c m) = scaled_out c (map (grow c)) (getVertices m) /\ getVertexIndices (scaled c m) = scaled_out c same (getVertexIndices m).
Proof. split; [apply mv_getVertices|apply mv_getVertexIndices]. Qed.
Lemma normals_scale (m : mesh NumR) (p : ptr) : f_normal p (scaled c m) = scaled_out c same (f_normal p m) /\ v_normal p (scaled c m) = scaled_out c same (v_normal p m) /\ he_dihedral p (scaled c m) = scaled_out c same (he_dihedral p m) /\
  getMeanDihedralAngle (scaled c m) = scaled_out c same (getMeanDihedralAngle m).
Proof. split; [solve [apply mv_fnormal; try exact Hc]|]. split; [solve [apply mv_vnormal; try exact Hc]|]. split; [solve [apply mv_dihedral; try exact Hc]|solve [apply mv_meanDihedral; try exact Hc]]. Qed.
Lemma measures_scale (m : mesh NumR) (p : ptr) :
  he_length p (scaled c m) = scaled_out c (times c) (he_length p m) /\ getMeanEdgeLength (scaled c m) = scaled_out c (times c) (getMeanEdgeLength m) /\
  f_area p (scaled c m) = scaled_out c (times (c * c)%R) (f_area p m) /\ getMeanFaceArea (scaled c m) = scaled_out c (times (c * c)%R) (getMeanFaceArea m).
Proof. split; [solve [apply mv_length; try exact Hc]|]. split; [solve [apply mv_meanEdge; try exact Hc]|]. split; [solve [apply mv_farea; try exact Hc]|solve [apply mv_meanArea; try exact Hc]]. Qed.
End All.
Lemma scaled_back c (m : mesh NumR) : (0 < c)%R -> scaled (/ c)%R (scaled c m) = m.
Proof.
  intros H. unfold scaled, at_positions. destruct m. cbn. f_equal. apply FunctionalExtensionality.functional_extensionality. intros v. rewrite grow_grow. replace (/ c * c)%R with 1%R by (field; intros ->; exact (Rlt_irrefl 0 H)). unfold grow. apply vec_ext; cbn; ring.
Qed.
Lemma scaled_res_back c o : (0 < c)%R -> scaled_res (/ c)%R (scaled_res c o) = o.
Proof. intros H. destruct o as [m| | |]; cbn; [rewrite (scaled_back c m H)|..]; reflexivity. Qed.
Lemma both_ways (F : mesh NumR -> res (mesh NumR) -> Prop) (P : mesh NumR -> Prop) : (forall c m o, (0 < c)%R -> P m -> F m o -> F (scaled c m) (scaled_res c o)) -> (forall c m, P m -> P (scaled c m)) ->
  forall c m o, (0 < c)%R -> P m -> (F m o <-> F (scaled c m) (scaled_res c o)).
Proof.
  intros H K c m o Hc Hm. split; [apply H; assumption|]. intros X. apply (H (/ c)%R) in X; [|apply Rinv_0_lt_compat, Hc|apply K, Hm]. rewrite scaled_back, scaled_res_back in X by exact Hc. exact X.
Qed.
Lemma smoothing_scale c (m : mesh NumR) o : (0 < c)%R -> WF m -> forall (eps shrink inflate : R) n,
  (smoothLaplacian (N := NumR) eps false n m o <-> smoothLaplacian (N := NumR) eps false n (scaled c m) (scaled_res c o)) /\
  (smoothTaubin (N := NumR) shrink inflate n m o <-> smoothTaubin (N := NumR) shrink inflate n (scaled c m) (scaled_res c o)).
Proof.
  intros Hc W eps a b n. split.
  - apply (both_ways (smoothLaplacian (N := NumR) eps false n) WF); [|intros; apply move_wf; assumption|exact Hc|exact W]. intros c0 m0 o0 H0 W0. apply laplacian_move; assumption.
  - apply (both_ways (smoothTaubin (N := NumR) a b n) WF); [|intros; apply move_wf; assumption|exact Hc|exact W]. intros c0 m0 o0 H0 W0. apply taubin_move; assumption.
Qed.
Lemma denoising_scale c (m : mesh NumR) o : (0 < c)%R -> WF m -> forall (sigma sc sn : R) n,
  (denoiseNormalGaussian (N := NumR) sigma n m o <-> denoiseNormalGaussian (N := NumR) sigma n (scaled c m) (scaled_res c o)) /\
  (denoiseNormalBilateral (N := NumR) sc sn n m o <-> denoiseNormalBilateral (N := NumR) sc sn n (scaled c m) (scaled_res c o)).
Proof.
  intros Hc W s a b n. split.
  - apply (both_ways (denoiseNormalGaussian (N := NumR) s n) WF); [|intros; apply move_wf; assumption|exact Hc|exact W]. intros c0 m0 o0 H0 W0. apply gauss_move; assumption.
  - apply (both_ways (denoiseNormalBilateral (N := NumR) a b n) WF); [|intros; apply move_wf; assumption|exact Hc|exact W]. intros c0 m0 o0 H0 W0. apply bilateral_move; assumption.
Qed.
Lemma scaled_valid c (m : mesh NumR) : Valid m -> Valid (scaled c m).
Proof.
  intros V. destruct V. constructor; try assumption. apply move_wf; assumption.
Qed.
Lemma remeshing_scale c (m : mesh NumR) o : (0 < c)%R -> Valid m -> forall (short long keep : R) n,
  remeshTriangular (N := NumR) short long keep n m o <-> remeshTriangular (N := NumR) short long keep n (scaled c m) (scaled_res c o).
Proof.
  intros Hc V a b k n. apply (both_ways (remeshTriangular (N := NumR) a b k n) Valid); [|intros; apply scaled_valid; assumption|exact Hc|exact V]. intros c0 m0 o0 H0 V0. apply remesh_move; assumption.
Qed.
Lemma scaled_onto c (o : res (mesh NumR)) : (0 < c)%R -> exists o', o = scaled_res c o'.
Proof.
  intros H. exists (scaled_res (/ c)%R o). rewrite <- (scaled_res_back (/ c)%R o) at 1 by (apply Rinv_0_lt_compat, H). rewrite Rinv_inv. reflexivity.
Qed.
