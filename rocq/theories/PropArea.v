(** The cotangent operator and the area of the surface. *)
From Coq Require Import Reals List ZArith.
From Verif Require Import Num NumInst Vec Heap Mesh Spec GeomSpec VecR MeasureR MeasureM SmoothSpec Curv LaplSpec Lapl AreaSpec AreaGrad AreaW.
Import ListNotations.
Local Open Scope R_scope.

(** ** C98: a row of the cotangent operator, applied to the positions, is the gradient of the area of the surface
    with respect to the position of the vertex, provided that its triangles are not tiny. *)
Theorem C98_gradient_partial : forall m : mesh NumR, Valid m -> Closed m -> exists ts, Lapl.getMeshLaplacian (N := NumR) Lapl.Cotangent m = Ok (ts, m) /\
  forall i v, nth_error (m_verts m) i = Some v -> (forall f b c, In f (m_faces m) -> Spec.Tri m f v b c -> / 10 ^ 6 <= 2 * tri_area (v_pos m v) (v_pos m b) (v_pos m c)) ->
  forall d, derivable_pt_lim (fun t => surface_area (moved m v d t)) 0 (sum_to (length (m_verts m)) (fun j => entry (N := NumR) ts i j * dot (nth j (map (v_pos m) (m_verts m)) vzero) d)).
Proof. exact area_gradient. Qed.
Print Assumptions C98_gradient_partial.
(** The quadratic form at the positions is twice the area. *)
Theorem C98_energy_partial : forall m : mesh NumR, Valid m -> Closed m -> (forall f a b c, In f (m_faces m) -> Spec.Tri m f a b c -> / 10 ^ 6 <= 2 * tri_area (v_pos m a) (v_pos m b) (v_pos m c)) ->
  exists ts, Lapl.getMeshLaplacian (N := NumR) Lapl.Cotangent m = Ok (ts, m) /\
  let E c := qform (length (m_verts m)) (entry (N := NumR) ts) (fun i => c (nth i (map (v_pos m) (m_verts m)) vzero)) in E vx + E vy + E vz = 2 * surface_area m.
Proof. exact energy_is_area. Qed.
Print Assumptions C98_energy_partial.
Example C98_case : exists m : mesh NumR, Valid m /\ Closed m /\ length (m_verts m) = 4%nat /\ (forall f a b c, In f (m_faces m) -> Spec.Tri m f a b c -> / 10 ^ 6 <= 2 * tri_area (v_pos m a) (v_pos m b) (v_pos m c)).
Proof. exact big_case. Qed.
(** With tiny triangles it is not: a tetrahedron with corners at (1,1,1)/10000 and so on. *)
Theorem C98_tiny_refuted : exists (m : mesh NumR) v d ts l, Valid m /\ Closed m /\ NonDegenerate m /\ nth_error (m_verts m) 0 = Some v /\ Lapl.getMeshLaplacian (N := NumR) Lapl.Cotangent m = Ok (ts, m) /\
  derivable_pt_lim (fun t => surface_area (moved m v d t)) 0 l /\ l <> sum_to (length (m_verts m)) (fun j => entry (N := NumR) ts 0 j * dot (nth j (map (v_pos m) (m_verts m)) vzero) d).
Proof. exact tiny_gradient. Qed.
Print Assumptions C98_tiny_refuted.
