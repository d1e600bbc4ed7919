(** What the costs and positions of simplifyQEM are, in exact arithmetic. *)
From Coq Require Import Reals List ZArith Arith Bool.
From Verif Require Import Num NumInst Vec Heap Spec SmoothSpec FilterSpec L0Spec.
Import ListNotations.
Local Open Scope R_scope.

(** The normal of the triangle a b c, as simplifyQEM takes it: the division by length + 10^-12
    makes it a little shorter than 1. *)
Definition qem_normal (a b c : vec NumR) : vec NumR :=
  let n := Vec.cross (Vec.vsub b a) (Vec.vsub c a) in Vec.vscale (N := NumR) (/ (Vec.vlength n + / 10 ^ 12)) n.
(** The squared distance of [p] to the plane of the triangle. *)
Definition plane_sq (a b c p : vec NumR) : R := Rsqr (Vec.dot (qem_normal a b c) (Vec.vsub p a)).

(** Triangle [f]: its corners, and whether [v] is one. *)
Definition face_normal (m : mesh NumR) (f : nat) : vec NumR :=
  let h := vid (f_he m f) in qem_normal (v_pos m (c1 m h)) (v_pos m (c3 m h)) (v_pos m (c2 m h)).
Definition face_sq (m : mesh NumR) (p : vec NumR) (f : nat) : R :=
  let h := vid (f_he m f) in plane_sq (v_pos m (c1 m h)) (v_pos m (c3 m h)) (v_pos m (c2 m h)) p.
Definition corner (m : mesh NumR) (v f : nat) : bool :=
  existsb (fun h => ptr_eqb (h_face m h) (Some f) && ptr_eqb (h_src m h) (Some v)) (m_hes m).
(** The faces none of whose half-edges is flagged as boundary. *)
Definition flagged (m : mesh NumR) (f : nat) : bool := existsb (fun h => ptr_eqb (h_face m h) (Some f) && h_bd m h) (m_hes m).
Definition inner_faces (m : mesh NumR) : list nat := filter (fun f => negb (flagged m f)) (m_faces m).
Definition faces_at (m : mesh NumR) (v : nat) : list nat := filter (corner m v) (inner_faces m).

(** The error of a point for the edge of [h]: the squared distances to the planes of the
    triangles at its two ends; the triangles at the edge count for both. *)
Definition edge_faces (m : mesh NumR) (h : nat) : list nat := faces_at m (c1 m h) ++ faces_at m (c3 m h).
Definition edge_error (m : mesh NumR) (h : nat) (p : vec NumR) : R := total (map (face_sq m p) (edge_faces m h)).
(** How far the normals are from being parallel to one plane: the determinant of the sum of
    their products with themselves. *)
Definition gram (ns : list (vec NumR)) (i j : vec NumR -> R) : R := total (map (fun n => i n * j n) ns).
Definition spread (ns : list (vec NumR)) : R :=
  gram ns vx vx * (gram ns vy vy * gram ns vz vz - gram ns vy vz * gram ns vy vz)
  - gram ns vx vy * (gram ns vx vy * gram ns vz vz - gram ns vy vz * gram ns vx vz)
  + gram ns vx vz * (gram ns vx vy * gram ns vy vz - gram ns vy vy * gram ns vx vz).
Definition edge_spread (m : mesh NumR) (h : nat) : R := spread (map (face_normal m) (edge_faces m h)).

(** The cost [c] and the position [p] for the edge of [h]. *)
Definition qem_entry (m : mesh NumR) (h : nat) (c : R) (p : vec NumR) : Prop :=
  c = edge_error m h p /\
  (/ 10 ^ 8 <= edge_spread m h -> forall q, q <> p -> edge_error m h p < edge_error m h q) /\
  (edge_spread m h < / 10 ^ 8 -> p = Vec.vscale (N := NumR) (/ 2) (Vec.vadd (v_pos m (c1 m h)) (v_pos m (c3 m h)))).

(** The cosine between the normal of the triangle [f] and its normal after its first corner
    that is [u] or [w] has gone to [p]; the corners are taken in the order in which the face
    is walked around. *)
Definition tilt (m : mesh NumR) (u w : nat) (p : vec NumR) (f : nat) : R :=
  let h := vid (f_he m f) in let a := v_pos m (c1 m h) in let b := v_pos m (c3 m h) in let c := v_pos m (c2 m h) in
  let first := (c1 m h =? u)%nat || (c1 m h =? w)%nat in
  let a' := if first then p else a in let b' := if first then b else p in
  let n := Vec.cross (Vec.vsub c a) (Vec.vsub b a) in let n' := Vec.cross (Vec.vsub c a') (Vec.vsub b' a') in
  Vec.dot n n' / (Vec.vlength n * Vec.vlength n').
(** simplifyQEM may contract the edge of [h] to [p] at the start of a trial: both ends lie inside and have
    degree at least four, so have their common neighbours, and neither of the two triangles
    at the edge is turned over. *)
Record contractible (m : mesh NumR) (h : nat) (p : vec NumR) : Prop := mkContractible {
  co_inside : ~ on_boundary m (c1 m h) /\ ~ on_boundary m (c3 m h);
  co_degree : (4 <= deg_of m (c1 m h) /\ 4 <= deg_of m (c3 m h))%nat;
  co_common : forall x, adj m (c1 m h) x -> adj m (c3 m h) x -> (4 <= deg_of m x)%nat;
  co_tilt : forall f k, In k (m_hes m) -> k = h \/ h_rev m h = Some k -> h_face m k = Some f -> / 10 ^ 12 < tilt m (c1 m h) (c3 m h) p f
}.

(** An exact solver for four equations. *)
Definition solution4 (Q : nat -> nat -> R) (b x : nat -> R) : Prop :=
  forall i, (i < 4)%nat -> Q i 0%nat * x 0%nat + Q i 1%nat * x 1%nat + Q i 2%nat * x 2%nat + Q i 3%nat * x 3%nat = b i.
