(** Properties of getCurvatureTensors and getPrincipalCurvatures: C74 to C76.
    Vocabulary: TensorSpec.v (exact solvers, frames, forms, best fits, rotations, spheres), Spec.v, MeasureM.v (Closed),
    Curv.v (NonDegenerate).  v_normal, v_neighbors and v_volonoiIn are Vertex::normal, Vertex's neighbours and
    Vertex::volonoiArea for one face (C60, C43). *)
From Coq Require Import Reals List.
From Verif Require Import Num NumInst Vec GeomSpec VecR Heap Mesh Construct Spec BuildSpec Measure MeasureM Curv LinR Features Tensor TensorSpec TensorR TensorM TensorS TensorW ExamplesR Examples Witness RegTet.
Import ListNotations.
Local Open Scope R_scope.

(** ** C74: what getCurvatureTensors computes, in exact arithmetic. *)
Theorem C74_tensors : forall solve (m : mesh NumR), ExactSolver solve -> Valid m -> Closed m -> NonDegenerate m ->
  (exists L n T G, getCurvatureTensors (N := NumR) cos sin solve m = Ok (L, m) /\ CurvTensors m n T G L) \/ getCurvatureTensors (N := NumR) cos sin solve m = Abort AThrow.
Proof. exact tensors_ok. Qed.
Print Assumptions C74_tensors.
Theorem C74_total : forall solve (m : mesh NumR) n, ExactSolver solve -> Valid m -> Closed m -> NonDegenerate m -> Gentle m n ->
  exists L n T G, getCurvatureTensors (N := NumR) cos sin solve m = Ok (L, m) /\ CurvTensors m n T G L.
Proof. exact tensors_total. Qed.
Print Assumptions C74_total.
(** The rotation between two unit vectors. *)
Theorem C74_rotation : forall (a b : vecR) Q, vlength a = 1 -> vlength b = 1 -> rotationFromTwoVectors (N := NumR) cos sin a b = Some Q -> Carries (mapp (N := NumR) Q) a b.
Proof. exact rot_ok. Qed.
Print Assumptions C74_rotation.
Example C74_case : exists (m : mesh NumR) n, mesh_of regR ix_tetra = Ok m /\ Valid m /\ Closed m /\ NonDegenerate m /\ Gentle m n /\ ExactSolver solveR.
Proof. exact tensor_case. Qed.

(** ** C75: surfaces inscribed in a sphere.  The full statement would give 1 / r for both
    principal curvatures.  The smaller one is too small, by an amount that depends on the
    length of one edge. *)
Theorem C75_sphere_partial : forall (m : mesh NumR) (o : vecR) (r : R), Valid m -> Closed m -> Spherical m o r ->
  (forall v w, adj m v w -> 2 * (/ 10 ^ 12) * r <= vlength (vsub (v_pos m w) (v_pos m v))) ->
  forall solve, ExactSolver solve ->
  (exists K, getPrincipalCurvatures (N := NumR) cos sin solve false m = Ok (K, m) /\ Forall2 (SphereCurv m o r) (m_verts m) K) \/ getPrincipalCurvatures (N := NumR) cos sin solve false m = Abort AThrow.
Proof. exact sphere_curv. Qed.
Print Assumptions C75_sphere_partial.
Theorem C75_sphere_total_partial : forall (m : mesh NumR) (o : vecR) (r : R), Valid m -> Closed m -> Spherical m o r ->
  (forall v w, adj m v w -> 2 * (/ 10 ^ 12) * r <= vlength (vsub (v_pos m w) (v_pos m v))) ->
  forall solve, ExactSolver solve ->
  (forall v l w, In v (m_verts m) -> v_neighbors (Some v) m = Ok (l, m) -> In (Some w) l ->
     - (r * r) <= INR (length l) * dot (vsub (v_pos m v) o) (vsub (v_pos m w) o) /\ vlength (vsub (v_pos m w) (v_pos m v)) < 2 * r) ->
  exists K, getPrincipalCurvatures (N := NumR) cos sin solve false m = Ok (K, m) /\ Forall2 (SphereCurv m o r) (m_verts m) K.
Proof. exact sphere_total. Qed.
Print Assumptions C75_sphere_total_partial.
Example C75_case : exists (m : mesh NumR), mesh_of regR ix_tetra = Ok m /\ Valid m /\ Closed m /\ Spherical m vzero (sqrt 3) /\
  (forall v w, adj m v w -> 2 * (/ 10 ^ 12) * sqrt 3 <= vlength (vsub (v_pos m w) (v_pos m v))) /\
  (forall v l w, In v (m_verts m) -> v_neighbors (Some v) m = Ok (l, m) -> In (Some w) l -> - (sqrt 3 * sqrt 3) <= INR (length l) * dot (vsub (v_pos m v) vzero) (vsub (v_pos m w) vzero) /\ vlength (vsub (v_pos m w) (v_pos m v)) < 2 * sqrt 3) /\
  ExactSolver solveR.
Proof. exact sphere_case. Qed.
Theorem C75_sphere_refuted : forall solve, ExactSolver solve -> exists (m : mesh NumR) K, mesh_of regR ix_tetra = Ok m /\ Spherical m vzero (sqrt 3) /\ getPrincipalCurvatures (N := NumR) cos sin solve false m = Ok (K, m) /\
  length K = 4%nat /\ forall kM km tM tm, In (kM, km, tM, tm) K -> kM = 1 / sqrt 3 /\ km = 1 / 3 / sqrt 3 /\ km <> 1 / sqrt 3.
Proof. exact sphere_wrong. Qed.
Print Assumptions C75_sphere_refuted.

(** ** C76: principal curvatures of every mesh.  They exist on closed surfaces ([C74_total]); if
    a face, which may be a hole, is not a triangle, nothing is returned. *)
Theorem C76_every_mesh_partial : forall (N : Num) ncos nsin ldlt (m : mesh N) f vs, WF m -> In f (m_faces m) -> f_vertices (Some f) m = Ok (vs, m) -> length vs <> 3%nat ->
  (forall L m', getCurvatureTensors (N := N) ncos nsin ldlt m <> Ok (L, m')) /\ (forall b K m', getPrincipalCurvatures (N := N) ncos nsin ldlt b m <> Ok (K, m')).
Proof. exact @poly_never. Qed.
Print Assumptions C76_every_mesh_partial.
Theorem C76_every_mesh_refuted : forall acosF expF atan2F, exists ps ix (m : mesh (NumF acosF expF atan2F)), mesh_of ps ix = Ok m /\ length (m_verts m) = 4%nat /\ forall ncos nsin ldlt b,
  (forall L m', getCurvatureTensors ncos nsin ldlt m <> Ok (L, m')) /\ (forall K m', getPrincipalCurvatures ncos nsin ldlt b m <> Ok (K, m')).
Proof. exact open_never. Qed.
Print Assumptions C76_every_mesh_refuted.
