(** C109-C112: what the library does to a mesh does not depend on the unit of length, if arithmetic is exact; cotangent weights do. *)
From Coq Require Import Reals List ZArith.
From Verif Require Import Num NumInst Vec Bounds Heap Mesh Construct Spec BuildSpec GeomSpec Measure MeasureR MeasureM Lapl Fill Front Smooth Remesh SmoothSpec ExamplesR Witness RegTet DenoiseT WholeSpec Curv RigidSpec RigidX ScaleSpec ScaleF ScaleR ScaleC.
Import ListNotations.

(** ** C109: building, editing and filling. *)
Theorem C109_construct : forall c, (0 < c)%R -> forall vs is (m : mesh NumR), construct (map (grow c) vs) is (scaled c m) = scaled_out c same (construct vs is m).
Proof. exact (fun c H vs is => mv_construct c H vs is). Qed.
Print Assumptions C109_construct.
Theorem C109_edits : forall c, (0 < c)%R -> forall (m : mesh NumR) (p : ptr),
  splitHE p (scaled c m) = scaled_out c same (splitHE p m) /\ flipHE p (scaled c m) = scaled_out c same (flipHE p m) /\
  collapseHE p (scaled c m) = scaled_out c same (collapseHE p m) /\ collapseFace p (scaled c m) = scaled_out c same (collapseFace p m) /\
  verify (scaled c m) = scaled_out c same (verify m).
Proof. exact edits_scale. Qed.
Print Assumptions C109_edits.
Theorem C109_filling : forall c, (0 < c)%R -> forall (cabs : R -> R) (m : mesh NumR) (face : ptr),
  triangulate (N := NumR) cabs face (scaled c m) = scaled_out c same (triangulate (N := NumR) cabs face m) /\ fillHoles (N := NumR) cabs (scaled c m) = scaled_out c same (fillHoles (N := NumR) cabs m).
Proof. exact filling_scale. Qed.
Print Assumptions C109_filling.
(** The advancing front; the target length is given in the same unit as the mesh. *)
Theorem C109_front : forall c, (0 < c)%R -> forall (m : mesh NumR) (fuel : nat) (face : ptr) (avg : R), front_loop (N := NumR) fuel face (c * avg)%R (scaled c m) = scaled_out c same (front_loop (N := NumR) fuel face avg m).
Proof. exact front_scale. Qed.
Print Assumptions C109_front.
(** From metres to millimetres. *)
Example C109_grow : grow 1000%R (V3 (N := NumR) 1%R 2%R 3%R) = V3 (N := NumR) 1000%R 2000%R 3000%R.
Proof. exact grow_ex. Qed.

(** ** C110: lengths scale with the unit, areas with its square; normals and angles stay. *)
Theorem C110_positions : forall c (m : mesh NumR), getVertices (scaled c m) = scaled_out c (map (grow c)) (getVertices m) /\ getVertexIndices (scaled c m) = scaled_out c same (getVertexIndices m).
Proof. exact positions_scale. Qed.
Print Assumptions C110_positions.
Theorem C110_lengths_areas : forall c, (0 < c)%R -> forall (m : mesh NumR) (p : ptr),
  he_length p (scaled c m) = scaled_out c (times c) (he_length p m) /\ getMeanEdgeLength (scaled c m) = scaled_out c (times c) (getMeanEdgeLength m) /\
  f_area p (scaled c m) = scaled_out c (times (c * c)%R) (f_area p m) /\ getMeanFaceArea (scaled c m) = scaled_out c (times (c * c)%R) (getMeanFaceArea m).
Proof. exact measures_scale. Qed.
Print Assumptions C110_lengths_areas.
Theorem C110_normals_angles : forall c, (0 < c)%R -> forall (m : mesh NumR) (p : ptr),
  f_normal p (scaled c m) = scaled_out c same (f_normal p m) /\ v_normal p (scaled c m) = scaled_out c same (v_normal p m) /\ he_dihedral p (scaled c m) = scaled_out c same (he_dihedral p m) /\
  getMeanDihedralAngle (scaled c m) = scaled_out c same (getMeanDihedralAngle m).
Proof. exact normals_scale. Qed.
Print Assumptions C110_normals_angles.

(** ** C111: smoothing, denoising and remeshing, in every order in which their loops can run. *)
Theorem C111_smoothing : forall c (m : mesh NumR) o, (0 < c)%R -> WF m -> forall (eps shrink inflate : R) n,
  (smoothLaplacian (N := NumR) eps false n m o <-> smoothLaplacian (N := NumR) eps false n (scaled c m) (scaled_res c o)) /\
  (smoothTaubin (N := NumR) shrink inflate n m o <-> smoothTaubin (N := NumR) shrink inflate n (scaled c m) (scaled_res c o)).
Proof. exact smoothing_scale. Qed.
Print Assumptions C111_smoothing.
Theorem C111_denoising : forall c (m : mesh NumR) o, (0 < c)%R -> WF m -> forall (sigma sc sn : R) n,
  (denoiseNormalGaussian (N := NumR) sigma n m o <-> denoiseNormalGaussian (N := NumR) sigma n (scaled c m) (scaled_res c o)) /\
  (denoiseNormalBilateral (N := NumR) sc sn n m o <-> denoiseNormalBilateral (N := NumR) sc sn n (scaled c m) (scaled_res c o)).
Proof. exact denoising_scale. Qed.
Print Assumptions C111_denoising.
Theorem C111_remeshing : forall c (m : mesh NumR) o, (0 < c)%R -> Valid m -> forall (short long keep : R) n,
  remeshTriangular (N := NumR) short long keep n m o <-> remeshTriangular (N := NumR) short long keep n (scaled c m) (scaled_res c o).
Proof. exact remeshing_scale. Qed.
Print Assumptions C111_remeshing.
(** Every outcome is a scaled outcome: the equivalences speak about all runs on the scaled mesh. *)
Theorem C111_onto : forall c (o : res (mesh NumR)), (0 < c)%R -> exists o', o = scaled_res c o'.
Proof. exact scaled_onto. Qed.
Print Assumptions C111_onto.
Example C111_case : forall (short long keep : R) (n : nat), exists (m m1 m2 : mesh NumR) o, mesh_of regR ix_tetra = Ok m /\ Valid m /\
  smoothLaplacian (N := NumR) (/ 2)%R true 1 m (Ok m1) /\ smoothTaubin (N := NumR) (/ 2)%R (/ 3)%R 4 m (Ok m2) /\ remeshTriangular (N := NumR) short long keep n m o.
Proof. exact rigid_ex. Qed.
Example C111_denoising_case : forall sigma sc sn : R, exists m m1 m2 : mesh NumR, Valid m /\ Closed m /\ positions m = regR /\
  denoiseNormalGaussian (N := NumR) sigma 1 m (Ok m1) /\ denoiseNormalBilateral (N := NumR) sc sn 1 m (Ok m2).
Proof. exact denoise_ex. Qed.

(** ** C112: cotangent weights do not depend on the unit if no triangle is tiny in either unit; otherwise they do. *)
Theorem C112_cotangent_partial : forall c, (0 < c)%R -> forall m : mesh NumR, Valid m -> Closed m ->
  (forall f x y z, In f (m_faces m) -> Spec.Tri m f x y z -> (/ 10 ^ 6 <= 2 * tri_area (v_pos m x) (v_pos m y) (v_pos m z))%R /\ (/ 10 ^ 6 <= 2 * tri_area (grow c (v_pos m x)) (grow c (v_pos m y)) (grow c (v_pos m z)))%R) ->
  (forall h, In h (m_hes m) -> he_cotWeight (Some h) (scaled c m) = scaled_out c same (he_cotWeight (Some h) m)) /\
  getMeshLaplacian (N := NumR) Cotangent (scaled c m) = scaled_out c same (getMeshLaplacian (N := NumR) Cotangent m) /\
  forall (eps : R) o, smoothLaplacian (N := NumR) eps true 1 m o -> smoothLaplacian (N := NumR) eps true 1 (scaled c m) (scaled_res c o).
Proof. exact cot_scale. Qed.
Print Assumptions C112_cotangent_partial.
(** The tetrahedron with corners at (1,1,1) and so on: every weight exceeds 1/2; in a unit that is 10000 times larger every weight is 1/25. *)
Theorem C112_unit_refuted : exists (m : mesh NumR) (c : R), Valid m /\ Closed m /\ NonDegenerate m /\ (0 < c)%R /\
  (forall h, In h (m_hes m) -> exists w, he_cotWeight (Some h) m = Ok (w, m) /\ (/ 2 < w)%R /\ he_cotWeight (Some h) (scaled c m) = Ok ((/ 25)%R, scaled c m)) /\
  getMeshLaplacian (N := NumR) Cotangent (scaled c m) <> scaled_out c same (getMeshLaplacian (N := NumR) Cotangent m).
Proof. exact unit_refuted. Qed.
Print Assumptions C112_unit_refuted.
Example C112_case : exists m : mesh NumR, Valid m /\ Closed m /\ length (m_verts m) = 4%nat /\
  forall c f x y z, (/ 1000 <= c)%R -> In f (m_faces m) -> Spec.Tri m f x y z ->
  (/ 10 ^ 6 <= 2 * tri_area (v_pos m x) (v_pos m y) (v_pos m z))%R /\ (/ 10 ^ 6 <= 2 * tri_area (grow c (v_pos m x)) (grow c (v_pos m y)) (grow c (v_pos m z)))%R.
Proof. exact unit_case. Qed.
