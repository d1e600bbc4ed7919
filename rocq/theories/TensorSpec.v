(** What curvature tensors are: bilinear forms in the planes of the faces, fitted to the
    differences of the vertex normals and carried to the vertices by rotations. *)
From Coq Require Import Reals List.
From Verif Require Import Num NumInst Vec GeomSpec VecR Heap Mesh Spec Measure LaplSpec LinR Tensor.
Import ListNotations.
Local Open Scope R_scope.

(** A solver that solves every symmetric positive definite system exactly. *)
Definition ExactSolver (solve : nat -> (nat -> nat -> R) -> (nat -> R) -> nat -> R) : Prop :=
  forall n A b, symmetric n A -> posdef n A -> forall i, (i < n)%nat -> sum_to n (fun j => A i j * solve n A b j) = b i.

(** A linear map that keeps lengths, angles and orientation. *)
Record Rotation (R : vecR -> vecR) : Prop := {
  rt_add : forall x y, R (vadd x y) = vadd (R x) (R y);
  rt_scale : forall s x, R (vscale s x) = vscale s (R x);
  rt_dot : forall x y, dot (R x) (R y) = dot x y;
  rt_cross : forall x y, R (cross x y) = cross (R x) (R y) }.
(** The rotation about a x b that takes a to b; nothing is done if a and b are equal up to 1e-12. *)
Record Carries (R : vecR -> vecR) (a b : vecR) : Prop := {
  ca_rot : Rotation R;
  ca_axis : R (cross a b) = cross a b;
  ca_to : R a = b \/ (vlength (cross a b) < / 10 ^ 12 /\ 0 < dot a b /\ forall x, R x = x) }.

(** Three orthonormal vectors. *)
Record Orthonormal (F : frame NumR) : Prop := {
  on_u : dot (fr_u F) (fr_u F) = 1; on_v : dot (fr_v F) (fr_v F) = 1; on_n : dot (fr_n F) (fr_n F) = 1;
  on_uv : dot (fr_u F) (fr_v F) = 0; on_un : dot (fr_u F) (fr_n F) = 0; on_vn : dot (fr_v F) (fr_n F) = 0 }.
(** The frame of a triangle: its last vector is the unit normal. *)
Definition FaceFrame (F : frame NumR) (a b c : vecR) : Prop :=
  Orthonormal F /\ vscale (vlength (cross (vsub b a) (vsub c a))) (fr_n F) = cross (vsub b a) (vsub c a).

(** The bilinear form with the matrix [t] in the plane of [F]. *)
Definition form (F : frame NumR) (t : tensor NumR) (x y : vecR) : R :=
  t00 t * (dot x (fr_u F) * dot y (fr_u F)) + t01 t * (dot x (fr_u F) * dot y (fr_v F) + dot x (fr_v F) * dot y (fr_u F)) + t11 t * (dot x (fr_v F) * dot y (fr_v F)).
(** How far the form is from giving the change [dn] of the normal along the edge [e]. *)
Definition misfit (F : frame NumR) (t : tensor NumR) (x : vecR * vecR) : R :=
  (form F t (fst x) (fr_u F) - dot (snd x) (fr_u F)) ^ 2 + (form F t (fst x) (fr_v F) - dot (snd x) (fr_v F)) ^ 2.
Definition total_misfit (F : frame NumR) (t : tensor NumR) (l : list (vecR * vecR)) : R := fold_right Rplus 0 (map (misfit F t) l).
(** The best form for the three edges of a triangle. *)
Definition BestFit (F : frame NumR) (t : tensor NumR) (a b c na nb nc : vecR) : Prop :=
  let l := [(vsub b a, vsub nb na); (vsub c b, vsub nc nb); (vsub a c, vsub na nc)] in
  forall t', t' <> t -> total_misfit F t l < total_misfit F t' l.

(** A closed surface all of whose vertices lie on a sphere with centre [o] and radius [r], and
    whose triangles are turned outwards. *)
Record Spherical (m : mesh NumR) (o : vecR) (r : R) : Prop := {
  sp_r : 0 < r;
  sp_on : forall v, In v (m_verts m) -> vlength (vsub (v_pos m v) o) = r;
  sp_out : forall f a b c, In f (m_faces m) -> Spec.Tri m f a b c ->
    0 < dot (cross (vsub (v_pos m b) (v_pos m a)) (vsub (v_pos m c) (v_pos m a))) (vsub (v_pos m a) o) }.

(** What the tensors of a surface are: [n] are the normals of the vertices, [T] and [G] the
    tensors and frames of the faces, and [L] the tensors and frames of the vertices in order. *)
Record AtVertex (m : mesh NumR) (n : nat -> vecR) (T : nat -> tensor NumR) (G : nat -> frame NumR) (v : nat) (t : tensor NumR) (F : frame NumR) : Prop := {
  (** The frame: the direction to the first neighbour, a normal to it, and the normal. *)
  av_frame : fr_n F = n v /\ exists d l, v_neighbors (Some v) m = Ok (Some d :: l, m) /\
    vlength (fr_u F) = 1 /\ vscale (vlength (vsub (v_pos m d) (v_pos m v))) (fr_u F) = vsub (v_pos m d) (v_pos m v) /\
    cross (n v) (fr_u F) <> vzero /\ vlength (fr_v F) = 1 /\ vscale (vlength (cross (n v) (fr_u F))) (fr_v F) = cross (n v) (fr_u F);
  (** The tensor: the mean of the forms of the faces around the vertex, carried over by
      rotations and weighted with the parts of the faces that belong to the vertex. *)
  av_mean : exists K : list (nat * (R * (vecR -> vecR))),
    NoDup (map fst K) /\ (forall f, In f (map fst K) <-> In f (m_faces m) /\ exists b c, Spec.Tri m f v b c) /\
    (forall f w Q, In (f, (w, Q)) K -> v_volonoiIn (Some v) (Some f) m = Ok (w, m) /\ 0 < w /\ Carries Q (n v) (fr_n (G f))) /\
    let mean (x y : vecR) := fold_right Rplus 0 (map (fun k => fst (snd k) * form (G (fst k)) (T (fst k)) (snd (snd k) x) (snd (snd k) y)) K) / fold_right Rplus 0 (map (fun k => fst (snd k)) K) in
    t00 t = mean (fr_u F) (fr_u F) /\ t01 t = mean (fr_u F) (fr_v F) /\ t11 t = mean (fr_v F) (fr_v F) }.
Record CurvTensors (m : mesh NumR) (n : nat -> vecR) (T : nat -> tensor NumR) (G : nat -> frame NumR) (L : list (tensor NumR * frame NumR)) : Prop := {
  ct_length : length L = length (m_verts m);
  ct_normal : forall v, In v (m_verts m) -> v_normal (Some v) m = Ok (n v, m) /\ vlength (n v) = 1;
  ct_face : forall f a b c, In f (m_faces m) -> Spec.Tri m f a b c ->
    FaceFrame (G f) (v_pos m a) (v_pos m b) (v_pos m c) /\ BestFit (G f) (T f) (v_pos m a) (v_pos m b) (v_pos m c) (n a) (n b) (n c);
  ct_vertex : forall i v t F, nth_error (m_verts m) i = Some v -> nth_error L i = Some (t, F) -> AtVertex m n T G v t F }.

(** Nothing to be divided by is zero: every normal is on the front side of the triangles at its
    vertex, is not the direction of an edge, and the normals of the neighbours do not point the
    other way too much. *)
Record Gentle (m : mesh NumR) (n : nat -> vecR) : Prop := {
  ge_normal : forall v, In v (m_verts m) -> v_normal (Some v) m = Ok (n v, m);
  ge_front : forall f v b c, In f (m_faces m) -> Spec.Tri m f v b c -> 0 < dot (n v) (cross (vsub (v_pos m b) (v_pos m v)) (vsub (v_pos m c) (v_pos m v)));
  ge_edge : forall v w, adj m v w -> cross (n v) (vsub (v_pos m w) (v_pos m v)) <> vzero;
  ge_near : forall v l w, In v (m_verts m) -> v_neighbors (Some v) m = Ok (l, m) -> In (Some w) l -> -1 <= INR (length l) * dot (n v) (n w) }.

(** The principal curvatures of a vertex [v] on the sphere as they are computed: [d] is its
    first neighbour. *)
Definition SphereCurv (m : mesh NumR) (o : vecR) (r : R) (v : nat) (x : R * R * vecR * vecR) : Prop :=
  let '(kM, km, tM, tm) := x in
  exists d l, v_neighbors (Some v) m = Ok (Some d :: l, m) /\
    let e := vsub (v_pos m d) (v_pos m v) in
    kM = 1 / r /\ km = (1 - (vlength e / (2 * r)) ^ 2) / r /\
    (kM - km < / 10 ^ 6 -> tM = vzero /\ tm = vzero) /\
    (/ 10 ^ 6 <= kM - km -> vscale (vlength e) tM = e /\ vlength tm = 1 /\ dot tm tM = 0 /\ dot tm (vsub (v_pos m v) o) = 0).
