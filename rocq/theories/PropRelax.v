(** The relaxation of the vertices that were put into a hole. *)
From Coq Require Import Reals List ZArith.
From Verif Require Import Num NumInst Vec Heap Mesh Construct Spec GeomSpec VecR Measure MeasureR MeasureM BuildSpec SmoothSpec Curv Lapl LaplSpec TensorSpec TensorR RegTet Relax RelaxSpec RelaxA RelaxQ RelaxR RelaxW WholeSpec RelaxB.
Import ListNotations.
Local Open Scope R_scope.

(** ** C96: the new positions of the vertices in a filled hole solve the Poisson equation of the cotangent
    operator, whose right-hand side is the mean of the sides of the triangles, turned with the normals; the
    vertices around them stay.  There is one solution.  Nothing else happens, except that an exception is
    thrown if a normal cannot be computed. *)
Theorem C96_relaxation : forall (m : mesh NumR), Triangulated m -> NonDegenerate m -> forall l, Region m l -> forall sparse, ExactSolver sparse ->
  (exists x, relaxed (N := NumR) cos sin sparse l m = Ok (x, m) /\ Relaxed m l x) \/ relaxed (N := NumR) cos sin sparse l m = Abort AThrow.
Proof. exact relaxation_tri. Qed.
Print Assumptions C96_relaxation.
Theorem C96_unique : forall (m : mesh NumR), Triangulated m -> NonDegenerate m -> forall l, Region m l -> forall b x x', Poisson m l b x -> Poisson m l b x' ->
  forall v, In v (m_verts m) -> x v = x' v.
Proof. exact unique_tri. Qed.
Print Assumptions C96_unique.
(** A region that is flat stays as it is. *)
Theorem C96_flat : forall (m : mesh NumR), Triangulated m -> NonDegenerate m -> forall l, Region m l -> forall sparse, ExactSolver sparse ->
  forall n, l <> [] -> Flat m l n -> NotTiny m l -> GoodWeights m l ->
  exists x, relaxed (N := NumR) cos sin sparse l m = Ok (x, m) /\ forall v, In v l -> x v = v_pos m v.
Proof. exact flat_tri. Qed.
Print Assumptions C96_flat.
Example C96_case : exists (m : mesh NumR) v, Valid m /\ Closed m /\ NonDegenerate m /\ Region m [v] /\ GoodWeights m [v] /\ NotTiny m [v] /\ Flat m [v] (v3 0 0 1) /\ positions m = kisR.
Proof. exact flat_case. Qed.
Example C96_case_tri : forall m : mesh NumR, Valid m -> Closed m -> Triangulated m.
Proof. exact closed_triangulated. Qed.
Example C96_solver : ExactSolver solveR.
Proof. exact solveR_ok. Qed.

(** ** C97: the sides are turned by the rotation that takes the normal of the triangle to the mean of the
    normals of its corners, so that triangles that have their normals already stay where they are.  The turn
    takes the one to the other only if they agree or are orthogonal. *)
Theorem C97_turn_partial : forall n0 n1 : vecR, vlength n0 = 1 -> vlength n1 = 1 -> cross n0 n1 <> vzero -> (turned n0 n1 n0 = n1 <-> dot n0 n1 = 0).
Proof. exact turned_hits. Qed.
Print Assumptions C97_turn_partial.
Theorem C97_still_partial : forall n x : vecR, turned n n x = x.
Proof. exact turned_same. Qed.
Print Assumptions C97_still_partial.
Theorem C97_turn_refuted : exists n0 n1 : vecR, vlength n0 = 1 /\ vlength n1 = 1 /\ 0 < dot n0 n1 /\ turned n0 n1 n0 <> n1.
Proof. exact turn_misses. Qed.
Print Assumptions C97_turn_refuted.
Example C97_turn_case : vlength (v3 1 0 0) = 1 /\ vlength (v3 0 1 0) = 1 /\ cross (v3 1 0 0) (v3 0 1 0) <> (vzero : vecR).
Proof. exact turn_case. Qed.
(** When no triangle is turned, the vertices stay if and only if each of them is the weighted mean of its
    neighbours. *)
Theorem C97_rest_partial : forall (m : mesh NumR) l T b x, Valid m -> Closed m -> NonDegenerate m -> Region m l -> NotTiny m l -> (forall v, In v l -> Pull m T v (b v)) -> Poisson m l b x ->
  (forall f v b c n0 n1, In v l -> In f (m_faces m) -> Spec.Tri m f v b c -> Normal (v_pos m v) (v_pos m b) (v_pos m c) n0 -> Mean3 (T v) (T b) (T c) n1 -> n1 = n0) ->
  (forall v, In v l -> x v = v_pos m v) <-> Poisson m l (fun _ => vzero) (v_pos m).
Proof. exact rest_final. Qed.
Print Assumptions C97_rest_partial.
Example C97_rest_case : exists (m : mesh NumR) v T b x, Valid m /\ Closed m /\ NonDegenerate m /\ Region m [v] /\ NotTiny m [v] /\ (forall u, In u [v] -> Pull m T u (b u)) /\ Poisson m [v] b x /\
  (forall f u b c n0 n1, In u [v] -> In f (m_faces m) -> Spec.Tri m f u b c -> Normal (v_pos m u) (v_pos m b) (v_pos m c) n0 -> Mean3 (T u) (T b) (T c) n1 -> n1 = n0) /\ ExactSolver solveR.
Proof. exact rest_case. Qed.
(** A vertex over the plane of its neighbours is pushed through this plane to the other side, although its
    normal is not changed by smoothing; on a regular tetrahedron this happens. *)
Theorem C97_dome_partial : forall (m : mesh NumR) v n k sparse, Valid m -> Closed m -> NonDegenerate m -> Region m [v] -> GoodWeights m [v] -> Dome m v n k -> ExactSolver sparse ->
  exists x, relaxed (N := NumR) cos sin sparse [v] m = Ok (x, m) /\ dot (x v) n < k.
Proof. exact dome_through. Qed.
Print Assumptions C97_dome_partial.
Theorem C97_dome_refuted : forall sparse, ExactSolver sparse -> exists (m : mesh NumR) v n k x, Valid m /\ Closed m /\ NonDegenerate m /\ Region m [v] /\ (forall u, adj m v u -> dot (v_pos m u) n = k) /\ k < dot (v_pos m v) n /\
  v_normal (Some v) m = Ok (n, m) /\ relaxed (N := NumR) cos sin sparse [v] m = Ok (x, m) /\ dot (x v) n < k.
Proof. exact dome_final. Qed.
Print Assumptions C97_dome_refuted.
Example C97_dome_case : exists (m : mesh NumR) v n k, Valid m /\ Closed m /\ NonDegenerate m /\ Region m [v] /\ GoodWeights m [v] /\ Dome m v n k /\ v_pos m v = v3 1 1 1 /\ positions m = regR.
Proof. exact dome_case. Qed.
