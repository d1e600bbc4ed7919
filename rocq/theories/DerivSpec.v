(** What the derivatives of the curvatures are: trilinear forms in the planes of the faces, fitted
    to the differences of the second fundamental forms of the vertices, and carried to the
    vertices by rotations. *)
From Coq Require Import Reals List.
From Verif Require Import Num NumInst Vec GeomSpec VecR Heap Mesh Spec Measure LaplSpec LinR Features Tensor TensorSpec Deriv.
Import ListNotations.
Local Open Scope R_scope.

(** The symmetric trilinear form with the coefficients [c] in the plane of [F]. *)
Definition cform (F : frame NumR) (c : cubic NumR) (x y z : vecR) : R :=
  let U a := dot a (fr_u F) in let V a := dot a (fr_v F) in
  c0 c * (U x * U y * U z) + c1 c * (V x * U y * U z + U x * V y * U z + U x * U y * V z) +
  c2 c * (U x * V y * V z + V x * U y * V z + V x * V y * U z) + c3 c * (V x * V y * V z).
(** The second fundamental form given by principal curvatures and directions. *)
Definition shape (x : pc NumR) (a b : vecR) : R :=
  k_max x * (dot a (t_max x) * dot b (t_max x)) + k_min x * (dot a (t_min x) * dot b (t_min x)).
(** How far the trilinear form is from giving the change [D] of the bilinear form along the edge [e]:
    the sum of the squares of the entries of a 2 x 2 matrix. *)
Definition misfit3 (F : frame NumR) (c : cubic NumR) (x : vecR * (vecR -> vecR -> R)) : R :=
  let d a b := cform F c (fst x) a b - snd x a b in
  d (fr_u F) (fr_u F) ^ 2 + d (fr_u F) (fr_v F) ^ 2 + d (fr_v F) (fr_u F) ^ 2 + d (fr_v F) (fr_v F) ^ 2.
Definition total_misfit3 (F : frame NumR) (c : cubic NumR) (l : list (vecR * (vecR -> vecR -> R))) : R := fold_right Rplus 0 (map (misfit3 F c) l).
Definition change (B B' : vecR -> vecR -> R) (x y : vecR) : R := B' x y - B x y.
(** The best trilinear form for the three edges of a triangle with the forms [Ba], [Bb] and [Bc] at its corners. *)
Definition BestFit3 (F : frame NumR) (k : cubic NumR) (a b c : vecR) (Ba Bb Bc : vecR -> vecR -> R) : Prop :=
  let l := [(vsub b a, change Ba Bb); (vsub c b, change Bb Bc); (vsub a c, change Bc Ba)] in
  forall k', k' <> k -> total_misfit3 F k l < total_misfit3 F k' l.
(** The form of a vertex with normal [n] in the plane of a face, carried over by a rotation. *)
Definition AtCorner (F : frame NumR) (n : vecR) (x : pc NumR) (B : vecR -> vecR -> R) : Prop :=
  exists Q, Carries Q (fr_n F) n /\ forall y z, B y z = shape x (Q y) (Q z).
(** The part of [x] in the plane of the first two vectors of a frame. *)
Definition in_plane (F : frame NumR) (x : vecR) : vecR := vadd (vscale (dot x (fr_u F)) (fr_u F)) (vscale (dot x (fr_v F)) (fr_v F)).

(** Smoothed tensors: the mean of a vertex's own form (weight 1) and those of its neighbours,
    carried over by rotations and weighted with their distances relative to the mean edge length. *)
Definition Smoothed (m : mesh NumR) (avg : R) (n : nat -> vecR) (at_ : nat -> tensor NumR * frame NumR) (v : nat) (t : tensor NumR) : Prop :=
  exists l (K : list (nat * (vecR -> vecR))), v_neighbors (Some v) m = Ok (l, m) /\ map (fun k => Some (fst k)) K = l /\
    (forall w Q, In (w, Q) K -> Carries Q (n v) (n w)) /\
    let F := snd (at_ v) in
    let wt w := exp (- (1 / 2) * (vlength (vsub (v_pos m v) (v_pos m w)) / avg) ^ 2) in
    let total := 1 + fold_right Rplus 0 (map (fun k => wt (fst k)) K) in
    let sum (t0 : R) (x y : vecR) := t0 + fold_right Rplus 0 (map (fun k => wt (fst k) * form (snd (at_ (fst k))) (fst (at_ (fst k))) (snd k x) (snd k y)) K) in
    t00 t = sum (t00 (fst (at_ v))) (fr_u F) (fr_u F) / total /\ t01 t = sum (t01 (fst (at_ v))) (fr_u F) (fr_v F) / total /\ t11 t = sum (t11 (fst (at_ v))) (fr_v F) (fr_v F) / total.

(** What is computed: [n] are the normals and [F] the frames of the vertices, [P] their principal
    curvatures and directions, [C] and [G] the trilinear forms and frames of the faces. *)
Definition VertexDeriv (m : mesh NumR) (n : nat -> vecR) (F : frame NumR) (x : pc NumR) (C : nat -> cubic NumR) (G : nat -> frame NumR) (v : nat) (e : R * R) : Prop :=
  exists K : list (nat * (R * (vecR -> vecR))),
    NoDup (map fst K) /\ (forall f, In f (map fst K) <-> In f (m_faces m) /\ exists b c, Spec.Tri m f v b c) /\
    (forall f w Q, In (f, (w, Q)) K -> v_volonoiIn (Some v) (Some f) m = Ok (w, m) /\ 0 < w /\ Carries Q (n v) (fr_n (G f))) /\
    let mean (y : vecR) := fold_right Rplus 0 (map (fun k => fst (snd k) * cform (G (fst k)) (C (fst k)) (snd (snd k) y) (snd (snd k) y) (snd (snd k) y)) K) / fold_right Rplus 0 (map (fun k => fst (snd k)) K) in
    fst e = mean (t_max x) /\ snd e = mean (in_plane F (t_min x)).
Record CurvDerivs (m : mesh NumR) (n : nat -> vecR) (F : nat -> frame NumR) (P : nat -> pc NumR) (C : nat -> cubic NumR) (G : nat -> frame NumR) (E : nat -> R * R) : Prop := {
  cd_face : forall f a b c, In f (m_faces m) -> Spec.Tri m f a b c -> FaceFrame (G f) (v_pos m a) (v_pos m b) (v_pos m c) /\
    exists Ba Bb Bc, AtCorner (G f) (n a) (P a) Ba /\ AtCorner (G f) (n b) (P b) Bb /\ AtCorner (G f) (n c) (P c) Bc /\
      BestFit3 (G f) (C f) (v_pos m a) (v_pos m b) (v_pos m c) Ba Bb Bc;
  cd_vertex : forall v, In v (m_verts m) -> fr_n (F v) = n v /\ VertexDeriv m n (F v) (P v) C G v (E v) }.
(** What getPrincipalCurvaturesWithDerivatives returns: the principal curvatures that
    getPrincipalCurvatures returns, and the derivatives along the principal directions. *)
Definition Derivatives (solve : nat -> (nat -> nat -> R) -> (nat -> R) -> nat -> R) (smooth : bool) (m : mesh NumR) (out : list (pc NumR * (R * R))) : Prop :=
  exists L n T G0 F P C G E, getCurvatureTensors (N := NumR) cos sin solve m = Ok (L, m) /\ CurvTensors m n T G0 L /\ map F (m_verts m) = map snd L /\
    getPrincipalCurvatures (N := NumR) cos sin solve smooth m = Ok (map P (m_verts m), m) /\ out = map (fun v => (P v, E v)) (m_verts m) /\ CurvDerivs m n F P C G E.
(** What smoothing the tensors [at_] of the vertices gives. *)
Definition SmoothedTensors (m : mesh NumR) (n : nat -> vecR) (L L' : list (tensor NumR * frame NumR)) : Prop :=
  exists avg at_ at', getMeanEdgeLength m = Ok (avg, m) /\ map at_ (m_verts m) = L /\ map at' (m_verts m) = L' /\
    forall v, In v (m_verts m) -> snd (at' v) = snd (at_ v) /\ Smoothed m avg n at_ v (fst (at' v)).
