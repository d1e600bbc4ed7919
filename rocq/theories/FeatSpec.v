(** Ridges, valleys and the direction field they define. *)
From Coq Require Import Reals List ZArith.
From Verif Require Import Num NumInst Vec GeomSpec VecR Heap Mesh Spec Measure Lapl LaplSpec LinR Features Tensor TensorSpec Deriv DerivSpec Feat.
Import ListNotations.
Local Open Scope R_scope.

(** ** Edges.  A sample holds the principal curvatures and directions of a vertex and the derivatives of its curvatures. *)
Definition e_max (x : sample NumR) : R := fst (snd x).
(** The two curvatures are almost the same. *)
Definition Umbilic (x : sample NumR) : Prop := Rabs (k_max (fst x) - k_min (fst x)) < / 100.
(** The change of the maximal curvature from [p] towards [q], to first order. *)
Definition rise (p q : vecR) (x : sample NumR) : R := e_max x * dot (vsub q p) (t_max (fst x)).
(** When the directions point the same way, the derivatives have opposite signs. *)
Definition Opposed (x y : sample NumR) : Prop :=
  (0 <= dot (t_max (fst x)) (t_max (fst y)) -> e_max x * e_max y < 0) /\ (dot (t_max (fst x)) (t_max (fst y)) < 0 -> 0 < e_max x * e_max y).
(** A ridge crosses the edge from [p] to [q]: the maximal curvature dominates and rises from both ends. *)
Definition RidgeEdge (p q : vecR) (x y : sample NumR) : Prop :=
  ~ Umbilic x /\ ~ Umbilic y /\ Opposed x y /\ Rabs (k_min (fst x)) < k_max (fst x) /\ Rabs (k_min (fst y)) < k_max (fst y) /\ 0 < rise p q x /\ 0 < rise q p y.
(** A valley crosses the edge: the minimal curvature dominates and the maximal curvature falls from both ends. *)
Definition ValleyEdge (p q : vecR) (x y : sample NumR) : Prop :=
  ~ Umbilic x /\ ~ Umbilic y /\ Opposed x y /\ k_max (fst x) < Rabs (k_min (fst x)) /\ k_max (fst y) < Rabs (k_min (fst y)) /\ rise p q x < 0 /\ rise q p y < 0.
(** A sample with the maximal direction, and with it the derivative, reversed. *)
Definition reversed (x : sample NumR) : sample NumR :=
  (k_max (fst x), k_min (fst x), vneg (t_max (fst x)), t_min (fst x), (- fst (snd x), snd (snd x))).

(** A sample of the surface turned inside out: curvatures change sign and place. *)
Definition inverted (x : sample NumR) : sample NumR :=
  (- k_min (fst x), - k_max (fst x), t_min (fst x), t_max (fst x), (- snd (snd x), - fst (snd x))).

(** ** Faces: ridge faces have a ridge edge and no valley edge, and the other way round. *)
Section Field.
Variable m : mesh NumR.
Variable S : nat -> sample NumR.
Definition on_face (E : vecR -> vecR -> sample NumR -> sample NumR -> Prop) (f : nat) : Prop :=
  exists a b c, Spec.Tri m f a b c /\ E (v_pos m a) (v_pos m b) (S a) (S b).
Definition RidgeFace (f : nat) : Prop := on_face RidgeEdge f /\ ~ on_face ValleyEdge f.
Definition ValleyFace (f : nat) : Prop := on_face ValleyEdge f /\ ~ on_face RidgeEdge f.
(** The sign of a face: -1, 1 or 0. *)
Definition FaceSign (f : nat) (z : Z) : Prop :=
  (z = (-1)%Z /\ RidgeFace f) \/ (z = 1%Z /\ ValleyFace f) \/ (z = 0%Z /\ ~ RidgeFace f /\ ~ ValleyFace f).

(** ** Vertices on the border of the ridges and valleys. *)
Variable sg : nat -> Z.
(** The face behind a half-edge. *)
Definition behind (h g : nat) : Prop := exists r, h_rev m h = Some r /\ h_face m r = Some g.
(** The half-edge [h] belongs to a face without sign, the face [g] behind it has one, and no face behind another half-edge of the same face has one. *)
Definition Border (h g : nat) : Prop :=
  In h (m_hes m) /\ behind h g /\ sg g <> 0%Z /\
  exists f, In f (m_faces m) /\ h_face m h = Some f /\ sg f = 0%Z /\ forall h' g', In h' (m_hes m) -> h_face m h' = Some f -> behind h' g' -> h' <> h -> sg g' = 0%Z.
(** The unit vector in the plane of the triangle a, b, c that is perpendicular to a, b and points inside. *)
Definition Inward (a b c d : vecR) : Prop :=
  vlength d = 1 /\ dot d (vsub b a) = 0 /\ exists s t, d = vadd (vscale s (vsub b a)) (vscale t (vsub c a)) /\ 0 < t.
Definition HalfedgeInward (h : nat) (d : vecR) : Prop :=
  exists f a b c, h_face m h = Some f /\ h_src m h = Some a /\ Spec.Tri m f a b c /\ Inward (v_pos m a) (v_pos m b) (v_pos m c) d.
(** An end of a half-edge. *)
Definition touches (h v : nat) : Prop := h_src m h = Some v \/ dst_of m h = Some v.
Definition vsum (l : list vecR) : vecR := fold_right vadd vzero l.
(** What a vertex gets from the borders: a flag, and the mean of the inward directions, towards valleys or away from ridges, made a unit vector if it is not tiny. *)
Definition VertexMark (v : nat) (x : vecR * R) : Prop :=
  exists K : list (nat * vecR), NoDup (map fst K) /\
    (forall h, In h (map fst K) <-> (exists g, Border h g) /\ touches h v) /\
    (forall h d, In (h, d) K -> exists g d0, Border h g /\ HalfedgeInward h d0 /\ d = vscale (IZR (sg g)) d0) /\
    (K = [] -> x = (vzero, 0)) /\
    (K <> [] -> snd x = 1 /\ let mean := vscale (/ INR (length K)) (vsum (map snd K)) in
      (vlength mean <= / 10 ^ 8 -> fst x = mean) /\ (/ 10 ^ 8 < vlength mean -> vlength (fst x) = 1 /\ vscale (vlength mean) (fst x) = mean)).

(** ** The other vertices. *)
Variable D : list (vecR * R).
Definition flagged (i : nat) : Prop := snd (nth i D (vzero, 0)) <> 0.
(** The given directions, extended to the other vertices so that the cotangent operator gives zero there. *)
Definition Harmonic (x : nat -> vecR) : Prop :=
  exists ts, getMeshLaplacian Cotangent m = Ok (ts, m) /\
    (forall i, (i < length (m_verts m))%nat -> flagged i -> x i = fst (nth i D (vzero, 0))) /\
    (forall i, (i < length (m_verts m))%nat -> ~ flagged i ->
      sum_to (length (m_verts m)) (fun j => entry ts i j * vx (x j)) = 0 /\
      sum_to (length (m_verts m)) (fun j => entry ts i j * vy (x j)) = 0 /\
      sum_to (length (m_verts m)) (fun j => entry ts i j * vz (x j)) = 0).
(** The result: the rows of flagged vertices as they are, and the other rows made unit vectors. *)
Definition Directions (x : nat -> vecR) (out : list (vecR * R)) : Prop :=
  length out = length (m_verts m) /\
  forall i, (i < length (m_verts m))%nat ->
    snd (nth i out (vzero, 0)) = snd (nth i D (vzero, 0)) /\
    (flagged i -> nth i out (vzero, 0) = nth i D (vzero, 0)) /\
    (~ flagged i -> vlength (fst (nth i out (vzero, 0))) = 1 /\ vscale (vlength (x i)) (fst (nth i out (vzero, 0))) = x i).
(** Vertices that can be reached along edges. *)
Inductive reach (v : nat) : nat -> Prop :=
| reach_here : reach v v
| reach_edge w w' : reach v w -> adj m w w' -> reach v w'.
Definition AllReached : Prop := forall v, In v (m_verts m) -> exists i w, reach v w /\ nth_error (m_verts m) i = Some w /\ flagged i.
End Field.
