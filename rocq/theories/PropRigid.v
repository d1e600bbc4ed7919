(** C100-C105: what the library does to a mesh does not depend on where the mesh lies and how it is turned, if arithmetic is exact. *)
From Coq Require Import Reals List ZArith.
From Verif Require Import Num NumInst Vec Bounds Heap Mesh Construct Spec BuildSpec GeomSpec Measure MeasureM Lapl Fill Front Smooth Simplify Remesh SmoothSpec ExamplesR Witness RegTet DenoiseT WholeSpec RigidSpec RigidM RigidE RigidF RigidS RigidP RigidR RigidX GeomW Bvh BvhSpec Indices Hausdorff Qem QemSpec QemW LaplSpec RigidQ RigidI RigidG RigidH RigidY.
Import ListNotations.

(** ** C100: building, editing and filling. *)
Theorem C100_construct : forall Q t, Rotation Q -> forall vs is (m : mesh NumR), construct (map (motion Q t) vs) is (move Q t m) = move_out Q t same (construct vs is m).
Proof. exact (fun Q t H vs is => mv_construct Q t H vs is). Qed.
Print Assumptions C100_construct.
Theorem C100_edits : forall Q t, Rotation Q -> forall (m : mesh NumR) (p : ptr),
  splitHE p (move Q t m) = move_out Q t same (splitHE p m) /\ flipHE p (move Q t m) = move_out Q t same (flipHE p m) /\
  collapseHE p (move Q t m) = move_out Q t same (collapseHE p m) /\ collapseFace p (move Q t m) = move_out Q t same (collapseFace p m) /\
  verify (move Q t m) = move_out Q t same (verify m).
Proof. exact edits_move. Qed.
Print Assumptions C100_edits.
(** [cabs] is the abs function that fills holes; see C25. *)
Theorem C100_filling : forall Q t, Rotation Q -> forall (cabs : R -> R) (m : mesh NumR) (face : ptr),
  triangulate (N := NumR) cabs face (move Q t m) = move_out Q t same (triangulate (N := NumR) cabs face m) /\ fillHoles (N := NumR) cabs (move Q t m) = move_out Q t same (fillHoles (N := NumR) cabs m).
Proof. exact filling_move. Qed.
Print Assumptions C100_filling.
(** The advancing front, before it relaxes the new vertices; [avg] is the mean length of the edges. *)
Theorem C100_front : forall Q t, Rotation Q -> forall (m : mesh NumR) (fuel : nat) (face : ptr) (avg : R), front_loop (N := NumR) fuel face avg (move Q t m) = move_out Q t same (front_loop (N := NumR) fuel face avg m).
Proof. exact front_moves. Qed.
Print Assumptions C100_front.
Example C100_case : forall c s : R, (c * c + s * s = 1)%R -> Rotation (turn c s).
Proof. exact turn_rotation. Qed.
Example C100_turn : Rotation (turn 0%R 1%R) /\ motion (turn 0%R 1%R) (V3 (N := NumR) 0%R 0%R 5%R) (V3 (N := NumR) 1%R 2%R 3%R) = V3 (N := NumR) (-2)%R 1%R 8%R.
Proof. exact turn_ex. Qed.

(** ** C101: measuring. *)
Theorem C101_positions : forall Q t, Rotation Q -> forall m : mesh NumR,
  getVertices (move Q t m) = move_out Q t (map (motion Q t)) (getVertices m) /\ getVertexIndices (move Q t m) = move_out Q t same (getVertexIndices m).
Proof. exact (fun Q t _ => positions_move Q t). Qed.
Print Assumptions C101_positions.
Theorem C101_normals : forall Q t, Rotation Q -> forall (m : mesh NumR) (p : ptr), f_normal p (move Q t m) = move_out Q t Q (f_normal p m) /\ v_normal p (move Q t m) = move_out Q t Q (v_normal p m).
Proof. exact normals_move. Qed.
Print Assumptions C101_normals.
Theorem C101_measures : forall Q t, Rotation Q -> forall (m : mesh NumR) (p q : ptr) (k : lap_type),
  he_length p (move Q t m) = move_out Q t same (he_length p m) /\ he_dihedral p (move Q t m) = move_out Q t same (he_dihedral p m) /\ he_cotWeight p (move Q t m) = move_out Q t same (he_cotWeight p m) /\
  f_area p (move Q t m) = move_out Q t same (f_area p m) /\ v_volonoi p (move Q t m) = move_out Q t same (v_volonoi p m) /\ v_volonoiIn p q (move Q t m) = move_out Q t same (v_volonoiIn p q m) /\
  v_K p (move Q t m) = move_out Q t same (v_K p m) /\ v_H p (move Q t m) = move_out Q t same (v_H p m) /\
  getMeanEdgeLength (move Q t m) = move_out Q t same (getMeanEdgeLength m) /\ getMeanDihedralAngle (move Q t m) = move_out Q t same (getMeanDihedralAngle m) /\ getMeanFaceArea (move Q t m) = move_out Q t same (getMeanFaceArea m) /\
  getMeshLaplacian k (move Q t m) = move_out Q t same (getMeshLaplacian k m).
Proof. exact measures_move. Qed.
Print Assumptions C101_measures.

(** ** C102: filters and remeshing, whatever the order of the threads and of the random choices is. *)
Theorem C102_smoothing : forall Q t, Rotation Q -> forall (m : mesh NumR) o, WF m -> forall (eps shrink inflate : R) (cot : bool) n,
  (smoothLaplacian (N := NumR) eps cot n (move Q t m) (move_res Q t o) <-> smoothLaplacian (N := NumR) eps cot n m o) /\
  (smoothTaubin (N := NumR) shrink inflate n (move Q t m) (move_res Q t o) <-> smoothTaubin (N := NumR) shrink inflate n m o).
Proof. exact smoothing_iff. Qed.
Print Assumptions C102_smoothing.
Theorem C102_denoising : forall Q t, Rotation Q -> forall (m : mesh NumR) o, WF m -> forall (sigma sc sn : R) n,
  (denoiseNormalGaussian (N := NumR) sigma n (move Q t m) (move_res Q t o) <-> denoiseNormalGaussian (N := NumR) sigma n m o) /\
  (denoiseNormalBilateral (N := NumR) sc sn n (move Q t m) (move_res Q t o) <-> denoiseNormalBilateral (N := NumR) sc sn n m o).
Proof. exact denoising_iff. Qed.
Print Assumptions C102_denoising.
Theorem C102_remeshing : forall Q t, Rotation Q -> forall (m : mesh NumR) o, Valid m -> forall (short long keep : R) n,
  remeshTriangular (N := NumR) short long keep n (move Q t m) (move_res Q t o) <-> remeshTriangular (N := NumR) short long keep n m o.
Proof. exact remeshing_iff. Qed.
Print Assumptions C102_remeshing.
(** Every outcome is a moved outcome: the equivalences speak about all runs on the moved mesh. *)
Theorem C102_onto : forall Q t, Rotation Q -> forall o : res (mesh NumR), exists o', o = move_res Q t o'.
Proof. exact res_onto. Qed.
Print Assumptions C102_onto.
Example C102_case : forall (short long keep : R) (n : nat), exists (m m1 m2 : mesh NumR) o, mesh_of regR ix_tetra = Ok m /\ Valid m /\
  smoothLaplacian (N := NumR) (/ 2)%R true 1 m (Ok m1) /\ smoothTaubin (N := NumR) (/ 2)%R (/ 3)%R 4 m (Ok m2) /\ remeshTriangular (N := NumR) short long keep n m o.
Proof. exact rigid_ex. Qed.
Example C102_denoising_case : forall sigma sc sn : R, exists m m1 m2 : mesh NumR, Valid m /\ Closed m /\ positions m = regR /\
  denoiseNormalGaussian (N := NumR) sigma 1 m (Ok m1) /\ denoiseNormalBilateral (N := NumR) sc sn 1 m (Ok m2).
Proof. exact denoise_ex. Qed.

(** ** C103: distances between meshes. Each mesh has its own tree of boxes, of any shape. *)
Theorem C103_distances_partial : forall Q t, Rotation Q -> forall trunc trunc' alg alg', truncates trunc -> truncates trunc' -> algos_ok alg -> algos_ok alg' -> forall src dst : mesh NumR,
  Valid src -> Valid dst -> surface_faces dst <> [] -> (forall ts, surface_of dst ts -> close_by src ts) ->
  exists ds, @shortest_distances NumR trunc alg src dst = Ok ds /\ @shortest_distances NumR trunc' alg' (move Q t src) (move Q t dst) = Ok ds.
Proof. exact (fun Q t H tr tr' al al' => shortest_move Q t H tr tr' al al'). Qed.
Print Assumptions C103_distances_partial.
Theorem C103_hausdorff_partial : forall Q t, Rotation Q -> forall trunc trunc' alg alg', truncates trunc -> truncates trunc' -> algos_ok alg -> algos_ok alg' -> forall m0 m1 : mesh NumR,
  Valid m0 -> Valid m1 -> surface_faces m0 <> [] -> surface_faces m1 <> [] -> (forall ts, surface_of m1 ts -> close_by m0 ts) -> (forall ts, surface_of m0 ts -> close_by m1 ts) ->
  exists d, @hausdorff NumR trunc alg m0 m1 = Ok d /\ @hausdorff NumR trunc' alg' (move Q t m0) (move Q t m1) = Ok d.
Proof. exact (fun Q t H tr tr' al al' => hausdorff_move Q t H tr tr' al al'). Qed.
Print Assumptions C103_hausdorff_partial.
(** Farther than 1e20 away the closest point is taken to be the origin, so the distance depends on the place: here one triangle and one point, shifted together. *)
Theorem C103_far_refuted : forall trunc alg, truncates trunc -> algos_ok alg -> exists (tr : triangle NumR) (q t : vec NumR) b b' d d',
  @bvh_of_tris NumR trunc alg [tr] = Ok b /\ bvh_distance b q = Ok d /\
  @bvh_of_tris NumR trunc alg [Bounds.Tri (N := NumR) (motion (fun p => p) t (tp0 tr)) (motion (fun p => p) t (tp1 tr)) (motion (fun p => p) t (tp2 tr))] = Ok b' /\ bvh_distance b' (motion (fun p => p) t q) = Ok d' /\ (d = 10 ^ 21 /\ d' = 0)%R.
Proof. exact far_refuted. Qed.
Print Assumptions C103_far_refuted.
Example C103_case : exists m : mesh NumR, Valid m /\ surface_faces m <> [] /\ (forall ts, surface_of m ts -> close_by m ts) /\ length (m_faces m) = 4%nat.
Proof. exact tetraR_close. Qed.

(** ** C104: simplification with its queue. *)
Theorem C104_simplification : forall Q t, Rotation Q -> forall (m : mesh NumR) o, Valid m -> forall nt mt fuel,
  simplifyQueue (N := NumR) solution4 nt mt fuel (move Q t m) (move_res Q t o) <-> simplifyQueue (N := NumR) solution4 nt mt fuel m o.
Proof. exact simplifying_iff. Qed.
Print Assumptions C104_simplification.
Example C104_case : exists m m' : mesh NumR, Valid m /\ map (v_pos m) (m_verts m) = [v3 1 0 0; v3 0 1 0; v3 0 0 1; v3 (-1) 0 0; v3 0 (-1) 0; v3 0 0 (-1)]%R /\
  simplifyQueue (N := NumR) solution4 4 2 ((length (m_faces m) + 1) * 2) m (Ok m').
Proof. exact simplify_ex. Qed.

(** ** C105: implicit fairing. A translation needs cotangent weights that do not add up to 0. *)
Theorem C105_fairing : forall Q t, Rotation Q -> forall (eps : R) n (m : mesh NumR) o, WF m ->
  t = vzero \/ (forall k mk, (k < n)%nat -> implicitFairing (N := NumR) solution eps k m (Ok mk) -> weights_add mk) ->
  (implicitFairing (N := NumR) solution eps n (move Q t m) (move_res Q t o) <-> implicitFairing (N := NumR) solution eps n m o).
Proof. exact fairing_iff. Qed.
Print Assumptions C105_fairing.
Example C105_case : forall eps : R, (0 < eps)%R -> exists m m' : mesh NumR, Valid m /\ Closed m /\ positions m = regR /\ implicitFairing (N := NumR) solution eps 1 m (Ok m') /\
  (forall k mk, (k < 1)%nat -> implicitFairing (N := NumR) solution eps k m (Ok mk) -> weights_add mk) /\ forall v, In v (m_verts m) -> v_pos m' v <> v_pos m v.
Proof. exact fairing_ex. Qed.
