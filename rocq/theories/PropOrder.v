(** What is built does not depend on the order of the input: C113-C116.  Vocabulary: OrderSpec.v. *)
From Coq Require Import List Permutation Floats Arith.
From Coq Require Import Reals.
From Verif Require Import Num NumInst Vec Heap Mesh Construct Spec BuildSpec GeomSpec Measure SmoothSpec Curv Witness RegTet OrderSpec Order OrderE OrderM OrderX Smooth OrderS OrderT MeasureM FairW OrderD OrderY OrderO OrderN.
Import ListNotations.
Notation libm1 := (float -> float).
Notation libm2 := (float -> float -> float).

(** ** C113: two inputs with the same triangles in space, in any order, begun at any corner,
    with any numbering of the points and with points listed twice or not used at all, are
    both refused or give the same surface.  Missing: inputs with degenerate triangles or
    repeated edges. *)
Theorem C113_order_partial : forall (N : Num) (NE : NumEq N) (ps qs : list (vec N)) ix jx us vs l k, Welded ps ix us l -> Welded qs jx vs k ->
  Nat.divide 3 (length ix) -> Nat.divide 3 (length jx) -> SameTriangles ps (triples ix) qs (triples jx) ->
  (forall t, In t (triples l) -> ~ degenerate t) -> NoDup (edges (triples l)) ->
  (exists m m', mesh_of ps ix = Ok m /\ mesh_of qs jx = Ok m' /\ SameSurface m m') \/ (mesh_of ps ix = Abort AError /\ mesh_of qs jx = Abort AError).
Proof. exact @order_free. Qed.
Print Assumptions C113_order_partial.
Example C113_case : forall (a e : libm1) (t : libm2), exists (ps qs : list (vec (NumF a e t))) ix jx us vs l k m, Welded ps ix us l /\ Welded qs jx vs k /\ Nat.divide 3 (length ix) /\ Nat.divide 3 (length jx) /\
  SameTriangles ps (triples ix) qs (triples jx) /\ (forall t, In t (triples l) -> ~ degenerate t) /\ NoDup (edges (triples l)) /\
  mesh_of ps ix = Ok m /\ length (m_faces m) = 3 /\ length (triples ix) = 2 /\ length ps = 4 /\ length qs = 5.
Proof. exact ex_order. Qed.
(** With a repeated edge the order decides whether a mesh is built or a null pointer is followed. *)
Theorem C113_order_refuted : forall (a e : libm1) (t : libm2), exists (ps : list (vec (NumF a e t))) ix jx m, NoNaN ps ix /\ (forall i, In i ix -> i < length ps) /\ PosDistinct ps /\
  (forall t, In t (triples ix) -> ~ degenerate t) /\ Permutation (triples ix) (triples jx) /\ Nat.divide 3 (length ix) /\ Nat.divide 3 (length jx) /\
  mesh_of ps ix = Ok m /\ mesh_of ps jx = UB NullDeref.
Proof. exact order_refuted. Qed.
Print Assumptions C113_order_refuted.

(** ** C114: the measurements at a vertex inside the surface, none of whose triangles is
    degenerate, are the same in both meshes (exact arithmetic). *)
Theorem C114_measured : forall (m m' : mesh NumR), SameSurface (N := NumR) m m' -> forall v v', In v (m_verts m) -> In v' (m_verts m') -> v_pos m v = v_pos m' v' ->
  ~ on_boundary m v -> NonDegenerateAt m v ->
  (exists d, degree (Some v) m = Ok (d, m) /\ degree (Some v') m' = Ok (d, m')) /\
  (exists A, v_volonoi (Some v) m = Ok (A, m) /\ v_volonoi (Some v') m' = Ok (A, m')) /\
  (exists K, v_K (Some v) m = Ok (K, m) /\ v_K (Some v') m' = Ok (K, m')) /\
  (v_normal (Some v) m = Abort AThrow /\ v_normal (Some v') m' = Abort AThrow \/
   exists n H, v_normal (Some v) m = Ok (n, m) /\ v_normal (Some v') m' = Ok (n, m') /\ v_H (Some v) m = Ok (H, m) /\ v_H (Some v') m' = Ok (H, m')).
Proof. exact measured. Qed.
Print Assumptions C114_measured.
(** So are the number of edges and the mean edge length, with or without boundary. *)
Theorem C114_whole : forall m m' : mesh NumR, SameSurface (N := NumR) m m' ->
  (exists n, numEdges m = Ok (n, m) /\ numEdges m' = Ok (n, m')) /\ (exists a, getMeanEdgeLength m = Ok (a, m) /\ getMeanEdgeLength m' = Ok (a, m')).
Proof. exact whole_same. Qed.
Print Assumptions C114_whole.
Example C114_case : exists (m m' : mesh NumR) v v', mesh_of regR ix_tetra = Ok m /\ mesh_of regB ix_tetra = Ok m' /\ SameSurface (N := NumR) m m' /\ In v (m_verts m) /\ In v' (m_verts m') /\
  v_pos m v = v_pos m' v' /\ ~ on_boundary m v /\ NonDegenerateAt m v /\ nth_error (m_verts m) 0 = Some v /\ nth_error (m_verts m') 1 = Some v'.
Proof. exact measured_ex. Qed.

(** ** C115: smoothing moves a vertex to the same point whatever the order of the input
    (exact arithmetic; any number of iterations, any schedule of the threads). *)
Theorem C115_smoothing : forall (m m' : mesh NumR), SameSurface (N := NumR) m m' -> (forall v v', In v (m_verts m) -> In v' (m_verts m') -> v_pos m v = v_pos m' v' -> v_lock m v = v_lock m' v') ->
  forall v v', In v (m_verts m) -> In v' (m_verts m') -> v_pos m v = v_pos m' v' ->
  (forall eps cot n m1 m1', smoothLaplacian (N := NumR) eps cot n m (Ok m1) -> smoothLaplacian (N := NumR) eps cot n m' (Ok m1') -> v_pos m1 v = v_pos m1' v') /\
  (forall a b n m1 m1', smoothTaubin (N := NumR) a b n m (Ok m1) -> smoothTaubin (N := NumR) a b n m' (Ok m1') -> v_pos m1 v = v_pos m1' v').
Proof. exact smoothing_order. Qed.
Print Assumptions C115_smoothing.
(** On closed meshes both runs of smoothLaplacian return or neither does. *)
Theorem C115_returns : forall (m m' : mesh NumR), SameSurface (N := NumR) m m' -> Closed m -> (forall v v', In v (m_verts m) -> In v' (m_verts m') -> v_pos m v = v_pos m' v' -> v_lock m v = v_lock m' v') ->
  forall eps cot n, ((exists m1, smoothLaplacian (N := NumR) eps cot n m (Ok m1)) <-> (exists m1', smoothLaplacian (N := NumR) eps cot n m' (Ok m1'))).
Proof. exact smoothing_throws. Qed.
Print Assumptions C115_returns.
Example C115_case : exists (m m' : mesh NumR) v v' m1 m1' m2 m2', mesh_of regR ix_tetra = Ok m /\ mesh_of regB ix_tetra = Ok m' /\ SameSurface (N := NumR) m m' /\ Closed m /\
  (forall u u', In u (m_verts m) -> In u' (m_verts m') -> v_pos m u = v_pos m' u' -> v_lock m u = v_lock m' u') /\ (forall u, In u (m_verts m) -> v_lock m u = false) /\ In v (m_verts m) /\ In v' (m_verts m') /\ v_pos m v = v_pos m' v' /\
  nth_error (m_verts m) 0 = Some v /\ nth_error (m_verts m') 1 = Some v' /\
  smoothLaplacian (N := NumR) (/ 2)%R true 1 m (Ok m1) /\ smoothLaplacian (N := NumR) (/ 2)%R true 1 m' (Ok m1') /\ smoothTaubin (N := NumR) (/ 2)%R (/ 3)%R 4 m (Ok m2) /\ smoothTaubin (N := NumR) (/ 2)%R (/ 3)%R 4 m' (Ok m2').
Proof. exact smoothing_order_ex. Qed.

(** ** C116: denoising a closed mesh moves a vertex to the same point whatever the order of
    the input (exact arithmetic; any parameters, number of iterations and schedule). *)
Theorem C116_denoising : forall (m m' : mesh NumR), SameSurface (N := NumR) m m' -> Closed m -> (forall v v', In v (m_verts m) -> In v' (m_verts m') -> v_pos m v = v_pos m' v' -> v_lock m v = v_lock m' v') ->
  forall v v', In v (m_verts m) -> In v' (m_verts m') -> v_pos m v = v_pos m' v' ->
  (forall sigma n m1 m1', denoiseNormalGaussian (N := NumR) sigma n m (Ok m1) -> denoiseNormalGaussian (N := NumR) sigma n m' (Ok m1') -> v_pos m1 v = v_pos m1' v') /\
  (forall sc sn n m1 m1', denoiseNormalBilateral (N := NumR) sc sn n m (Ok m1) -> denoiseNormalBilateral (N := NumR) sc sn n m' (Ok m1') -> v_pos m1 v = v_pos m1' v').
Proof. exact denoising_order. Qed.
Print Assumptions C116_denoising.
Example C116_case : forall sigma sc sn : R, exists (m0 m0' : mesh NumR) v v' m1 m1' m2 m2', let m := locked m0 in let m' := locked m0' in
  mesh_of regR ix_tetra = Ok m0 /\ mesh_of regR ix_tetra2 = Ok m0' /\ SameSurface (N := NumR) m m' /\ Closed m /\
  (forall u u', In u (m_verts m) -> In u' (m_verts m') -> v_pos m u = v_pos m' u' -> v_lock m u = v_lock m' u') /\ In v (m_verts m) /\ In v' (m_verts m') /\ v_pos m v = v_pos m' v' /\
  denoiseNormalGaussian (N := NumR) sigma 1 m (Ok m1) /\ denoiseNormalGaussian (N := NumR) sigma 1 m' (Ok m1') /\ denoiseNormalBilateral (N := NumR) sc sn 1 m (Ok m2) /\ denoiseNormalBilateral (N := NumR) sc sn 1 m' (Ok m2').
Proof. exact denoising_order_ex. Qed.
