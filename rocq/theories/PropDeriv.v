(** Properties of getPrincipalCurvaturesWithDerivatives: C82 and C83.
    Vocabulary: DerivSpec.v (trilinear forms, best fits, smoothed tensors), TensorSpec.v (exact solvers, frames, forms, rotations),
    Spec.v, MeasureM.v (Closed), Curv.v (NonDegenerate). *)
From Coq Require Import Reals List.
From Verif Require Import Num NumInst Vec GeomSpec VecR Heap Mesh Construct Spec BuildSpec Measure MeasureM Curv LinR Features Tensor TensorSpec TensorR TensorM TensorW Deriv DerivSpec DerivR DerivO DerivW ExamplesR Examples Witness RegTet.
Import ListNotations.
Local Open Scope R_scope.

(** ** C82: what getPrincipalCurvaturesWithDerivatives computes, in exact arithmetic. *)
Theorem C82_derivatives : forall solve smooth (m : mesh NumR), ExactSolver solve -> Valid m -> Closed m -> NonDegenerate m ->
  (exists out, getPrincipalCurvaturesWithDerivatives (N := NumR) cos sin solve smooth m = Ok (out, m) /\ Derivatives solve smooth m out) \/
  getPrincipalCurvaturesWithDerivatives (N := NumR) cos sin solve smooth m = Abort AThrow.
Proof. exact derivs_ok. Qed.
Print Assumptions C82_derivatives.
Theorem C82_total : forall solve smooth (m : mesh NumR) n, ExactSolver solve -> Valid m -> Closed m -> NonDegenerate m -> Gentle m n ->
  exists out, getPrincipalCurvaturesWithDerivatives (N := NumR) cos sin solve smooth m = Ok (out, m) /\ Derivatives solve smooth m out.
Proof. exact derivs_total. Qed.
Print Assumptions C82_total.
(** Smoothing the tensors that getCurvatureTensors returns. *)
Theorem C82_smoothing : forall solve (m : mesh NumR), ExactSolver solve -> Valid m -> Closed m -> NonDegenerate m ->
  forall L, getCurvatureTensors (N := NumR) cos sin solve m = Ok (L, m) -> exists n T G, CurvTensors m n T G L /\
  ((exists L', smoothingTensors (N := NumR) cos sin L m = Ok (L', m) /\ SmoothedTensors m n L L') \/ smoothingTensors (N := NumR) cos sin L m = Abort AThrow).
Proof. exact smoothing_ok. Qed.
Print Assumptions C82_smoothing.
(** In every arithmetic: nothing is returned if a face, which may be a hole, is not a triangle. *)
Theorem C82_holes : forall (N : Num) ncos nsin ldlt (m : mesh N) f vs, WF m -> In f (m_faces m) -> f_vertices (Some f) m = Ok (vs, m) -> length vs <> 3%nat ->
  forall b out m', getPrincipalCurvaturesWithDerivatives (N := N) ncos nsin ldlt b m <> Ok (out, m').
Proof. exact @deriv_never. Qed.
Print Assumptions C82_holes.
Example C82_case : exists (m : mesh NumR) n, mesh_of regR ix_tetra = Ok m /\ Valid m /\ Closed m /\ NonDegenerate m /\ Gentle m n /\ ExactSolver solveR.
Proof. exact tensor_case. Qed.

(** ** C83: the derivatives are those of the second fundamental form.  The form that is differentiated is made from the
    principal curvatures and directions.  At a vertex with an orthonormal frame it is zero when the curvatures are almost
    equal, and otherwise the second fundamental form with its two eigenvalues interchanged. *)
Theorem C83_form_partial : forall (F : frame NumR) (t : tensor NumR), Orthonormal F -> fr_n F = cross (fr_u F) (fr_v F) ->
  exists x, principal (N := NumR) (t00 t) (t01 t) (t11 t) (fr_u F) (fr_v F) (fr_n F) = Some x /\
   (k_max x - k_min x < / 10 ^ 6 -> forall y z, shape x y z = 0) /\
   (/ 10 ^ 6 <= k_max x - k_min x -> forall y z, shape x (in_plane F y) (in_plane F z) = (t00 t + t11 t) * dot (in_plane F y) (in_plane F z) - form F t (in_plane F y) (in_plane F z)).
Proof. exact shape_wrong. Qed.
Print Assumptions C83_form_partial.
(** On a regular tetrahedron the form of getCurvatureTensors and the form that is differentiated differ at every vertex. *)
Theorem C83_form_refuted : forall solve, ExactSolver solve -> exists (m : mesh NumR) n T G L K, mesh_of regR ix_tetra = Ok m /\
  getCurvatureTensors (N := NumR) cos sin solve m = Ok (L, m) /\ CurvTensors m n T G L /\
  getPrincipalCurvatures (N := NumR) cos sin solve false m = Ok (K, m) /\ length K = 4%nat /\
  forall i t F x, nth_error L i = Some (t, F) -> nth_error K i = Some x ->
    vlength (t_max x) = 1 /\ dot (t_max x) (t_min x) = 0 /\
    form F t (t_max x) (t_max x) = 1 / 3 / sqrt 3 /\ shape x (t_max x) (t_max x) = 1 / sqrt 3.
Proof. exact form_wrong. Qed.
Print Assumptions C83_form_refuted.
Example C83_case : ExactSolver solveR /\ exists (F : frame NumR) (t : tensor NumR), Orthonormal F /\ fr_n F = cross (fr_u F) (fr_v F) /\ t00 t <> t11 t.
Proof. exact (conj solveR_ok frame_case). Qed.
