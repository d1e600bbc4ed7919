(** Vocabulary for the choice between the two ways to fill a hole with four corners (C107). *)
From Coq Require Import Reals List.
From Verif Require Import Num NumInst Vec GeomSpec VecR MeasureR Heap Mesh Spec FillSpec.
Import ListNotations.
Local Open Scope R_scope.

(** By how much the surface bends along the edge [u w] between a triangle with the third corner [a] and its neighbour with the third corner [b]: 0 if both lie in a plane, side by side, and PI if one is folded onto the other.  [dihedral] is the angle between them by C46. *)
Definition bend (u w a b : vecR) : R := PI - dihedral a u w b.
(** The greatest of some bends. *)
Definition sharpest (l : list R) : R := fold_right Rmax 0 l.
(** On the other side of the edge of [f] from [u] to [w] there is a triangle with the third corner [x]. *)
Definition Beside (m : mesh NumR) (f u w x : nat) : Prop :=
  exists h r g, In h (m_hes m) /\ h_face m h = Some f /\ h_src m h = Some u /\ h_rev m h = Some r /\ h_src m r = Some w /\ h_face m r = Some g /\ Tri m g w u x.
(** The bends, but for those along the edge from [d] to [a], when the hole [a b c d] is cut along [b d]
    or along [a c]; [x], [y] and [z] are the corners beside the edges [a b], [b c] and [c d]. *)
Definition bends_bd (a b c d x y z : vecR) : list R := [bend a b d x; bend b c d y; bend c d b z; bend b d a c].
Definition bends_ac (a b c d x y z : vecR) : list R := [bend a b c x; bend b c a y; bend c d a z; bend a c d b].
Definition area_bd (a b c d : vecR) : R := tri_area a b d + tri_area b c d.
Definition area_ac (a b c d : vecR) : R := tri_area a b c + tri_area a c d.
(** A way to fill the hole with the sharpest bend [A] and the area [S] may be taken instead of one with [A'] and [S']. *)
Definition may_take (bound A S A' S' : R) : Prop := A <= A' \/ Rabs (A - A') < bound /\ S < S'.
