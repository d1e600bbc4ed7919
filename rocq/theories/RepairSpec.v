(** What repairing the mesh may do to it. *)
From Coq Require Import Reals List ZArith.
From Verif Require Import Num NumInst Vec Heap Spec GeomSpec MeasureM.
Import ListNotations.
Local Open Scope R_scope.

(** [m'] is a closed triangle mesh with the Euler number of [m], and the vertices the two have in
    common are where they were. *)
Record Intact (m m' : mesh NumR) : Prop := {
  in_valid : Valid m';
  in_closed : Closed m';
  in_euler : euler m' = euler m;
  in_data : forall v, In v (m_verts m) -> In v (m_verts m') -> SameData m m' v }.
Definition gap (m : mesh NumR) (v w : nat) : R := edist (v_pos m v) (v_pos m w).
(** All edges at [v] are at most [T] long. *)
Definition ShortAt (T : R) (m : mesh NumR) (v : nat) : Prop := forall w, adj m v w -> gap m v w <= T.
(** All vertices have at least three neighbours. *)
Definition Ample (m : mesh NumR) : Prop := forall v, In v (m_verts m) -> (3 <= deg_of m v)%nat.
