(** Properties of the filters and operators: C30-C34, C57, C58.  Vocabulary: SmoothSpec.v,
    LaplSpec.v, FilterSpec.v, Spec.v.  A filter is the relation between a mesh and what a run can end with:
    [Ok m'], undefined behaviour [UB], an exception [Abort AThrow], ...; the iterations of
    its parallel loops are interleaved access by access in any way (Prog.v). *)
From Coq Require Import Reals List ZArith Floats Arith.
From Verif Require Import Num NumInst Vec Heap Mesh Construct Spec BuildSpec Witness GeomSpec MeasureM Prog SmoothSpec Smooth SmoothD SmoothDn SmoothR SmoothW ExamplesR SmoothEx Lapl LaplSpec LaplM FilterSpec SmoothF RegTet Fair FairW.
Import ListNotations.
Notation libm1 := (float -> float).
Notation libm2 := (float -> float -> float).

(** ** C30: smoothing changes nothing but positions, and not those of locked and boundary
    vertices; it can also end with the exception of a division by zero. *)
Theorem C30_smoothing : forall (N : Num) (m : mesh N) n o, WF m ->
  ((exists eps cot, smoothLaplacian eps cot n m o) \/ (exists a b, smoothTaubin a b n m o)) ->
  (exists m', o = Ok m' /\ posonly m m' /\ kept m m') \/ o = Abort AThrow.
Proof. exact @smoothing_ok. Qed.
Print Assumptions C30_smoothing.
Theorem C30_stays_valid : forall (N : Num) (m m' : mesh N), Valid m -> posonly m m' -> Valid m'.
Proof. exact @posonly_valid. Qed.
Print Assumptions C30_stays_valid.
Example C30_C31_case : forall (a e : libm1) (t : libm2), exists m m' : mesh (NumF a e t), mesh_of (ps_two a e t) ix_two = Ok m /\ WF m /\ (exists v, on_boundary m v) /\
  smoothLaplacian (N := NumF a e t) 0.5%float false 2 m (Ok m') /\ exists v, In v (m_verts m) /\ v_pos m' v <> v_pos m v.
Proof. exact lap_case. Qed.

(** ** C31: the result does not depend on the schedule. *)
Theorem C31_deterministic : forall (N : Num) (m : mesh N) n, WF m ->
  (forall eps cot, exists r, smoothLaplacian eps cot n m r /\ forall o, smoothLaplacian eps cot n m o -> o = r) /\
  (forall a b, exists r, smoothTaubin a b n m r /\ forall o, smoothTaubin a b n m o -> o = r).
Proof. exact @smoothing_det. Qed.
Print Assumptions C31_deterministic.
(** The normal filters: all schedules give the same mesh, or all end with an exception or error. *)
Theorem C31_denoise_deterministic : forall (N : Num) (m : mesh N) n o1 o2, WF m ->
  ((exists s, denoiseNormalGaussian s n m o1 /\ denoiseNormalGaussian s n m o2) \/
   (exists s t, denoiseNormalBilateral s t n m o1 /\ denoiseNormalBilateral s t n m o2)) ->
  (exists m', o1 = Ok m' /\ o2 = Ok m' /\ posonly m m') \/ (exists k1 k2, o1 = Abort k1 /\ o2 = Abort k2).
Proof. exact @denoise_det. Qed.
Print Assumptions C31_denoise_deterministic.

(** ** C32: uniform Laplacian smoothing stays in the bounding box (and never fails). *)
Theorem C32_bounding_box : forall (lo hi : vec NumR) (eps : R) n (m : mesh NumR), (0 <= eps <= 1)%R -> WF m ->
  (forall v, In v (m_verts m) -> inside lo hi (v_pos m v)) ->
  (exists m', smoothLaplacian (N := NumR) eps false n m (Ok m')) /\
  forall o, smoothLaplacian (N := NumR) eps false n m o -> exists m', o = Ok m' /\ posonly m m' /\ forall v, In v (m_verts m') -> inside lo hi (v_pos m' v).
Proof. exact box_ok. Qed.
Print Assumptions C32_bounding_box.
Example C32_case : exists m : mesh NumR, WF m /\ length (m_verts m) = 4 /\ (forall v, In v (m_verts m) -> inside (V3 (N := NumR) 0%R 0%R 0%R) (V3 (N := NumR) 1%R 1%R 1%R) (v_pos m v)).
Proof. exact box_ex. Qed.

(** ** C33: smoothing does not move locked vertices.  Missing: denoising and implicit fairing do not either. *)
Theorem C33_locked_partial : forall (N : Num) (m m' : mesh N) n v, WF m -> v_lock m v = true ->
  ((exists eps cot, smoothLaplacian eps cot n m (Ok m')) \/ (exists a b, smoothTaubin a b n m (Ok m'))) -> v_pos m' v = v_pos m v.
Proof. exact @locked_kept. Qed.
Print Assumptions C33_locked_partial.
(** That is false: a tetrahedron with all vertices locked (for any exp with the double nearest to e^2 at 2). *)
Theorem C33_denoise_refuted : forall (a e : libm1) (t : libm2), e 2%float = 0x1.d8e64b8d4ddaep+2%float ->
  exists m0 m m' : mesh (NumF a e t), mesh_of (ps_tetra a e t) ix_tetra = Ok m0 /\ m = lock_all a e t m0 /\ (forall v, In v (m_verts m) -> v_lock m v = true) /\
    denoiseNormalGaussian (N := NumF a e t) 0x1.51eb851eb851fp-4%float 1 m (Ok m') /\ exists v, In v (m_verts m) /\ v_pos m' v <> v_pos m v.
Proof. exact dn_refuted. Qed.
Print Assumptions C33_denoise_refuted.
(** Implicit fairing moves all vertices of a regular tetrahedron, locked or not (even with an exact solver). *)
Theorem C33_fairing_refuted : forall eps : R, (0 < eps)%R -> exists m m' : mesh NumR, Valid m /\ Closed m /\ positions m = regR /\ (forall v, In v (m_verts m) -> v_lock m v = true) /\
  implicitFairing (N := NumR) solution eps 1 m (Ok m') /\ forall v, In v (m_verts m) -> v_pos m' v <> v_pos m v.
Proof. exact fairing_refuted. Qed.
Print Assumptions C33_fairing_refuted.

(** ** C34: the mesh Laplacians in exact arithmetic. *)
Theorem C34_adjacent : forall m : mesh NumR, Valid m -> exists ts, getMeshLaplacian Adjacent m = Ok (ts, m) /\
  symmetric (length (m_verts m)) (@entry NumR ts) /\ rows_vanish (length (m_verts m)) (@entry NumR ts) /\ psd (length (m_verts m)) (@entry NumR ts) /\
  (forall i u, nth_error (m_verts m) i = Some u -> @entry NumR ts i i = INR (deg_of m u)) /\
  (forall i j u v, i <> j -> nth_error (m_verts m) i = Some u -> nth_error (m_verts m) j = Some v ->
     (adj m u v -> @entry NumR ts i j = -1)%R /\ (~ adj m u v -> @entry NumR ts i j = 0)%R).
Proof. exact lap_adjacent_ok. Qed.
Print Assumptions C34_adjacent.
(** The weights: [cotangent_weight] is half the sum of the cotangents opposite to the edge. *)
Theorem C34_cotangent : forall m : mesh NumR, Valid m -> exists ts, getMeshLaplacian Cotangent m = Ok (ts, m) /\
  symmetric (length (m_verts m)) (@entry NumR ts) /\ rows_vanish (length (m_verts m)) (@entry NumR ts) /\ off_diagonal cotangent_weight m (@entry NumR ts).
Proof. exact cotangent_entries. Qed.
Print Assumptions C34_cotangent.
(** The operator of Belkin et al., with the mean edge length [h]. *)
Theorem C34_belkin : forall m : mesh NumR, Valid m -> exists h ts, getMeanEdgeLength m = Ok (h, m) /\ getMeshLaplacian Belkin08 m = Ok (ts, m) /\
  symmetric (length (m_verts m)) (@entry NumR ts) /\ rows_vanish (length (m_verts m)) (@entry NumR ts) /\ (0 < h -> psd (length (m_verts m)) (@entry NumR ts))%R /\ off_diagonal (heat_weight h) m (@entry NumR ts).
Proof. exact belkin_entries. Qed.
Print Assumptions C34_belkin.
Example C34_case : exists m : mesh NumR, mesh_of tetraR ix_tetra = Ok m /\ Valid m /\ Closed m /\ positions m = tetraR /\ length (m_faces m) = 4.
Proof. exact lap_ex. Qed.
Example C34_weights_case : exists m : mesh NumR, mesh_of regR ix_tetra = Ok m /\ Valid m /\ (exists u v, adj m u v) /\ forall u v, adj m u v -> cotangent_weight m u v kappa.
Proof. exact weights_ex. Qed.

(** ** C57: what the smoothing filters compute. *)
Theorem C57_laplacian : forall (eps : R) (cot : bool) n (m m' : mesh NumR), Valid m -> smoothLaplacian (N := NumR) eps cot n m (Ok m') ->
  smoothing_passes (if cot then cotangent_weight else uniform_weight) (fun _ => eps) n m m'.
Proof. exact laplacian_computes. Qed.
Print Assumptions C57_laplacian.
(** Taubin: passes with the factors [shrink] and -[inflate] in turn. *)
Theorem C57_taubin : forall (shrink inflate : R) n (m m' : mesh NumR), Valid m -> smoothTaubin (N := NumR) shrink inflate n m (Ok m') ->
  smoothing_passes uniform_weight (fun i => if Nat.even i then shrink else (- inflate)%R) (n * 2) m m'.
Proof. exact taubin_computes. Qed.
Print Assumptions C57_taubin.
Example C57_case : exists m m1 m2 : mesh NumR, mesh_of regR ix_tetra = Ok m /\ Valid m /\ length (m_verts m) = 4 /\ (forall v, In v (m_verts m) -> v_lock m v = false /\ ~ on_boundary m v) /\
  smoothLaplacian (N := NumR) (/ 2)%R true 1 m (Ok m1) /\ smoothTaubin (N := NumR) (/ 2)%R (/ 3)%R 4 m (Ok m2).
Proof. exact smoothing_ex. Qed.

(** ** C58: what implicit fairing computes, if the linear systems are solved exactly. *)
Theorem C58_fairing : forall (eps : R) n (m m' : mesh NumR), Valid m -> implicitFairing (N := NumR) solution eps n m (Ok m') -> fairing_steps eps n m m'.
Proof. exact fairing_computes. Qed.
Print Assumptions C58_fairing.
Example C58_case : forall eps : R, (0 < eps)%R -> exists m m' : mesh NumR, Valid m /\ Closed m /\ positions m = regR /\ (forall v, In v (m_verts m) -> v_lock m v = true) /\
  implicitFairing (N := NumR) solution eps 1 m (Ok m') /\ forall v, In v (m_verts m) -> v_pos m' v <> v_pos m v.
Proof. exact fairing_refuted. Qed.
