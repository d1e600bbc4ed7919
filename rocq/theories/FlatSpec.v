(** Vocabulary for holes in flat regions (C106). *)
From Coq Require Import Reals List Arith.
From Verif Require Import Num NumInst Vec Heap Mesh Spec FillSpec.
Import ListNotations.
Local Open Scope R_scope.

(** The triangle [a b c] lies in a plane with the normal [nrm] and turns counter-clockwise when seen from its tip. *)
Definition faces_up (nrm a b c : vec NumR) : Prop := exists s : R, 0 < s /\ cross (vsub b a) (vsub c a) = vscale (N := NumR) s nrm.
(** The polygon through the points [p i], ..., [p k] can be cut along diagonals into triangles that all face up: it can be triangulated without folds. *)
Inductive Unfolded (nrm : vec NumR) (p : nat -> vec NumR) : nat -> nat -> Prop :=
| uf_edge i : Unfolded nrm p i (S i)
| uf_cut i j k : (i < j < k)%nat -> faces_up nrm (p i) (p j) (p k) -> Unfolded nrm p i j -> Unfolded nrm p j k -> Unfolded nrm p i k.
(** On the other side of each edge of the face [f] there is a triangle that faces up, and no hole. *)
Definition FlatAround (nrm : vec NumR) (m : mesh NumR) (f : nat) : Prop :=
  forall h r u w, In h (m_hes m) -> h_face m h = Some f -> h_rev m h = Some r -> h_src m r = Some w -> h_src m h = Some u ->
    exists g a, h_face m r = Some g /\ ~ Hole m g /\ Tri m g w u a /\ faces_up nrm (v_pos m w) (v_pos m u) (v_pos m a).
(** The face [f] lies in a flat region with the unit normal [nrm], and its corners can be joined by triangles without folds. *)
Definition FlatHole (nrm : vec NumR) (m : mesh NumR) (f : nat) : Prop :=
  dot nrm nrm = 1 /\ FlatAround nrm m f /\ exists ring bs, Corners m f ring bs /\ Unfolded nrm (fun i => v_pos m (nth i bs 0%nat)) 0 (length bs - 1).
