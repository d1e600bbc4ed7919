(** When an edge can be collapsed (C18). *)
From Coq Require Import List ZArith Arith.
From Verif Require Import Num Vec Heap Spec EditSpec Orbit.
Import ListNotations.

Section CollapseSpec.
Context {N : Num}.

(** [ws] are the neighbours of [v] in the order of rotation, from the half-edge that [v] stores. *)
Definition Around (m : mesh N) (v : nat) (ws : list nat) : Prop :=
  exists h l, v_he m v = Some h /\ NoDup (h :: l) /\ cyc (rot m) (h :: l) /\
    (forall y, In y (h :: l) <-> In y (m_hes m) /\ h_src m y = Some v) /\ map (dst_of m) (h :: l) = map Some ws.

(** For each point and the one after it (the first one after the last): the normal of the triangle they form with [c]. *)
Definition wedges (c : vec N) (ps : list (vec N)) : list (vec N) :=
  map (fun pq => cross (vsub (fst pq) c) (vsub (snd pq) c)) (combine ps (tl ps ++ firstn 1 ps)).

(** The triangles around [u2] have a normal, and seen from it no two consecutive ones have opposite
    orientations once [u2] is moved to [u0]. *)
Definition NoFlip (m : mesh N) (u0 u2 : nat) : Prop :=
  exists ws, Around m u2 ws /\
    let ps := map (v_pos m) ws in
    exists d, normalize (fold_left vadd (wedges (v_pos m u2) ps) vzero) = Some d /\
      forall l1 a b l2, nzero :: map (dot d) (wedges (v_pos m u0) ps) = l1 ++ a :: b :: l2 -> nltb (nmul a b) nzero = false.

(** u0-u2 is the edge of [he], u0 the end point with the smaller degree, else where [he] starts. *)
Definition CollapsibleAt (m : mesh N) (he u0 u1 u2 u3 f0 f1 : nat) : Prop :=
  EdgeOf m he u0 u1 u2 u3 f0 f1 /\
  (deg_of m u0 < deg_of m u2 \/ deg_of m u0 = deg_of m u2 /\ h_src m he = Some u0) /\
  (forall h, In h (m_hes m) -> h_face m h = Some f0 \/ h_face m h = Some f1 -> h_bd m h = false) /\
  3 < deg_of m u0 /\ 4 < deg_of m u1 /\ 4 < deg_of m u3 /\
  (forall w, adj m u0 w -> adj m u2 w -> w = u1 \/ w = u3) /\
  NoFlip m u0 u2.
End CollapseSpec.
