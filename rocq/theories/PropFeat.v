(** Properties C84 to C88: ridges, valleys and the field of directions between them
    (getFeatureLineField, getFeatureLineFieldWithFlags).  The vocabulary is in FeatSpec.v,
    TensorSpec.v and LaplSpec.v. *)
From Coq Require Import Reals List ZArith.
From Verif Require Import Num NumInst Vec Heap Mesh Construct Spec BuildSpec Witness Examples GeomSpec VecR Measure MeasureR MeasureM Curv RegTet LinR LaplSpec Features Tensor TensorSpec TensorR Deriv DerivSpec Feat FeatSpec FeatR FeatM FeatO FeatW.
Import ListNotations.
Local Open Scope R_scope.

(** ** C84: which edges are crossed by a ridge or a valley.  Neither the order of the ends nor the
    choice between the two opposite principal directions should matter. *)
Theorem C84_edges : forall (p q : vecR) (x y : sample NumR),
  (checkRV (N := NumR) p q x y = (-1)%Z <-> RidgeEdge p q x y) /\ (checkRV (N := NumR) p q x y = 1%Z <-> ValleyEdge p q x y) /\ In (checkRV (N := NumR) p q x y) [(-1)%Z; 0%Z; 1%Z].
Proof. exact check_spec. Qed.
Print Assumptions C84_edges.
Theorem C84_order : forall (p q : vecR) (x y : sample NumR), checkRV (N := NumR) q p y x = checkRV (N := NumR) p q x y.
Proof. exact check_sym. Qed.
Print Assumptions C84_order.
Theorem C84_sign_partial : forall (p q : vecR) (x y : sample NumR), dot (t_max (fst x)) (t_max (fst y)) <> 0 -> checkRV (N := NumR) p q (reversed x) y = checkRV (N := NumR) p q x y.
Proof. exact check_reversed. Qed.
Print Assumptions C84_sign_partial.
Theorem C84_sign_refuted : exists (p q : vecR) (x y : sample NumR), checkRV (N := NumR) p q x y = (-1)%Z /\ checkRV (N := NumR) p q (reversed x) y = 0%Z.
Proof. exact sign_matters. Qed.
Print Assumptions C84_sign_refuted.
Example C84_case : exists (p q : vecR) (x y : sample NumR), RidgeEdge p q x y /\ dot (t_max (fst x)) (t_max (fst y)) <> 0.
Proof. exact edge_case. Qed.

(** ** C85: the field of a closed surface.  Either it throws, or the flags mark the borders of the
    ridges and valleys, and if flagged vertices can be reached from everywhere, the other
    directions are those of the harmonic extension. *)
Theorem C85_field : forall solve sparse b (m : mesh NumR), Valid m -> Closed m -> NonDegenerate m -> ExactSolver solve -> ExactSolver sparse ->
  getFeatureLineFieldWithFlags (N := NumR) cos sin solve sparse b m = Abort AThrow \/
  exists S sg D, getPrincipalCurvaturesWithDerivatives (N := NumR) cos sin solve b m = Ok (map S (m_verts m), m) /\
    (forall f, In f (m_faces m) -> FaceSign m S f (sg f)) /\ length D = length (m_verts m) /\
    (forall i v, nth_error (m_verts m) i = Some v -> VertexMark m sg v (nth i D (vzero, 0))) /\
    (AllReached m D -> exists out x, getFeatureLineFieldWithFlags (N := NumR) cos sin solve sparse b m = Ok (out, m) /\ Harmonic m D x /\ Directions m D x out).
Proof. exact field_ok. Qed.
Print Assumptions C85_field.
(** The marks, whatever becomes of them. *)
Theorem C85_marks : forall solve sparse b (m : mesh NumR) X, Valid m -> Closed m -> NonDegenerate m -> length X = length (m_verts m) ->
  getPrincipalCurvaturesWithDerivatives (N := NumR) cos sin solve b m = Ok (X, m) ->
  exists S sg D, X = map S (m_verts m) /\ (forall f, In f (m_faces m) -> FaceSign m S f (sg f)) /\ length D = length (m_verts m) /\
    (forall i v, nth_error (m_verts m) i = Some v -> VertexMark m sg v (nth i D (vzero, 0))) /\
    getFeatureLineFieldWithFlags (N := NumR) cos sin solve sparse b m = extend_field (N := NumR) sparse D m.
Proof. exact feature_field. Qed.
Print Assumptions C85_marks.
Example C85_case : exists (m : mesh NumR) X, mesh_of bigR ix_tetra = Ok m /\ Valid m /\ Closed m /\ NonDegenerate m /\ length X = length (m_verts m) /\
  getPrincipalCurvaturesWithDerivatives (N := NumR) cos sin solveR false m = Ok (X, m) /\ ExactSolver solveR /\ forall n A c k, (forall i, c i = 0) -> solveR n A c k = 0.
Proof. exact field_case. Qed.

(** ** C86: the extension of marks to the other vertices: it is unique, and a row is made a unit
    vector unless it is zero. *)
Theorem C86_extension : forall sparse (m : mesh NumR) D, Valid m -> Closed m -> NonDegenerate m -> ExactSolver sparse -> length D = length (m_verts m) -> AllReached m D ->
  exists x, Harmonic m D x /\ (forall x', Harmonic m D x' -> forall i, (i < length (m_verts m))%nat -> x' i = x i) /\
    ((forall i, (i < length (m_verts m))%nat -> ~ flagged D i -> x i <> vzero) -> exists out, extend_field (N := NumR) sparse D m = Ok (out, m) /\ Directions m D x out) /\
    ((exists i, (i < length (m_verts m))%nat /\ ~ flagged D i /\ x i = vzero) -> extend_field (N := NumR) sparse D m = Abort AThrow).
Proof. exact extend_ok. Qed.
Print Assumptions C86_extension.
Example C86_case : exists (m : mesh NumR), mesh_of regR ix_tetra = Ok m /\ Valid m /\ Closed m /\ NonDegenerate m /\ length oneD = length (m_verts m) /\ AllReached m oneD /\
  flagged oneD 0 /\ (forall i, (0 < i)%nat -> ~ flagged oneD i) /\ ExactSolver solveR.
Proof. exact extend_case. Qed.

(** ** C87: every closed surface whose curvatures and derivatives are computed has a field of
    directions.  It has one if flagged vertices can be reached from everywhere and no extended
    direction vanishes.  Large spheres have none. *)
Theorem C87_works_partial : forall solve sparse b (m : mesh NumR) X, Valid m -> Closed m -> NonDegenerate m -> ExactSolver sparse -> length X = length (m_verts m) ->
  getPrincipalCurvaturesWithDerivatives (N := NumR) cos sin solve b m = Ok (X, m) ->
  exists S sg D, X = map S (m_verts m) /\ (forall f, In f (m_faces m) -> FaceSign m S f (sg f)) /\ length D = length (m_verts m) /\
    (forall i v, nth_error (m_verts m) i = Some v -> VertexMark m sg v (nth i D (vzero, 0))) /\
    (AllReached m D -> exists x, Harmonic m D x /\
      ((forall i, (i < length (m_verts m))%nat -> ~ flagged D i -> x i <> vzero) -> exists out, getFeatureLineFieldWithFlags (N := NumR) cos sin solve sparse b m = Ok (out, m) /\ Directions m D x out) /\
      ((exists i, (i < length (m_verts m))%nat /\ ~ flagged D i /\ x i = vzero) -> getFeatureLineFieldWithFlags (N := NumR) cos sin solve sparse b m = Abort AThrow)) /\
    ((forall i, ~ flagged D i) -> m_verts m <> [] -> (forall n A c k, (forall i, c i = 0) -> sparse n A c k = 0) -> getFeatureLineFieldWithFlags (N := NumR) cos sin solve sparse b m = Abort AThrow).
Proof. exact field_when. Qed.
Print Assumptions C87_works_partial.
Theorem C87_spheres_refuted : forall (m : mesh NumR) (o : vecR) (r : R) solve sparse, Valid m -> Closed m -> Spherical m o r -> m_verts m <> [] ->
  (forall v w, adj m v w -> 2 * (/ 10 ^ 12) * r <= vlength (vsub (v_pos m w) (v_pos m v))) ->
  (forall v l w, In v (m_verts m) -> v_neighbors (Some v) m = Ok (l, m) -> In (Some w) l ->
     - (r * r) <= INR (length l) * dot (vsub (v_pos m v) o) (vsub (v_pos m w) o) /\ vlength (vsub (v_pos m w) (v_pos m v)) < 2 * r) ->
  100 < r -> ExactSolver solve -> (forall n A c k, (forall i, c i = 0) -> sparse n A c k = 0) ->
  getFeatureLineFieldWithFlags (N := NumR) cos sin solve sparse false m = Abort AThrow.
Proof. exact sphere_no_field. Qed.
Print Assumptions C87_spheres_refuted.
Theorem C87_works_refuted : forall solve sparse, ExactSolver solve -> (forall n A c k, (forall i, c i = 0) -> sparse n A c k = 0) ->
  exists (m : mesh NumR) X, mesh_of bigR ix_tetra = Ok m /\ Valid m /\ Closed m /\ NonDegenerate m /\
    getPrincipalCurvaturesWithDerivatives (N := NumR) cos sin solve false m = Ok (X, m) /\
    getFeatureLineField (N := NumR) cos sin solve sparse false m = Abort AThrow.
Proof. exact no_field. Qed.
Print Assumptions C87_works_refuted.
Example C87_case : exists (m : mesh NumR), mesh_of bigR ix_tetra = Ok m /\ Valid m /\ Closed m /\ Spherical m vzero (sqrt 30000) /\ m_verts m <> [] /\
  (forall v w, adj m v w -> 2 * (/ 10 ^ 12) * sqrt 30000 <= vlength (vsub (v_pos m w) (v_pos m v))) /\
  (forall v l w, In v (m_verts m) -> v_neighbors (Some v) m = Ok (l, m) -> In (Some w) l ->
     - (sqrt 30000 * sqrt 30000) <= INR (length l) * dot (vsub (v_pos m v) vzero) (vsub (v_pos m w) vzero) /\ vlength (vsub (v_pos m w) (v_pos m v)) < 2 * sqrt 30000) /\ 100 < sqrt 30000.
Proof. exact big_case. Qed.

(** ** C88: the valleys of a surface are the ridges of the surface turned inside out.  The
    conditions on the curvatures agree; the conditions on the derivatives do not, since those of
    the minimal curvature are never looked at. *)
Theorem C88_inverted_partial : forall (p q : vecR) (x y : sample NumR), k_min (fst x) <= k_max (fst x) -> k_min (fst y) <= k_max (fst y) -> checkRV (N := NumR) p q x y = 1%Z ->
  let x' := inverted x in let y' := inverted y in ~ Umbilic x' /\ ~ Umbilic y' /\ Rabs (k_min (fst x')) < k_max (fst x') /\ Rabs (k_min (fst y')) < k_max (fst y').
Proof. exact inverted_partial. Qed.
Print Assumptions C88_inverted_partial.
Theorem C88_inverted_refuted : exists (p q : vecR) (x y : sample NumR), k_min (fst x) < k_max (fst x) /\ k_min (fst y) < k_max (fst y) /\
  checkRV (N := NumR) p q x y = 1%Z /\ checkRV (N := NumR) p q (inverted x) (inverted y) <> (-1)%Z.
Proof. exact inverted_wrong. Qed.
Print Assumptions C88_inverted_refuted.
Example C88_case : exists (p q : vecR) (x y : sample NumR), k_min (fst x) <= k_max (fst x) /\ k_min (fst y) <= k_max (fst y) /\ checkRV (N := NumR) p q x y = 1%Z.
Proof. destruct inverted_wrong as (p & q & x & y & A & B & C & _). exists p, q, x, y. exact (conj (Rlt_le _ _ A) (conj (Rlt_le _ _ B) C)). Qed.
