(** What simplification and remeshing may do to a mesh. *)
From Coq Require Import List ZArith.
From Verif Require Import Num Vec Heap Spec SmoothSpec.

(** [m'] is a valid mesh that may come from [m] by interior edits: the Euler number is the
    same, and if the flags of [m] are symmetric, so are those of [m'] and the boundary
    vertices are where they were. *)
Record Evolves {N : Num} (m m' : mesh N) : Prop := {
  ev_valid : Valid m';
  ev_euler : euler m' = euler m;
  ev_bd : FlagsSym m -> FlagsSym m' /\ forall v, In v (m_verts m) -> on_boundary m v -> In v (m_verts m') /\ on_boundary m' v /\ v_pos m' v = v_pos m v }.

(** [m'] is a valid mesh with the topology class of [m] and its locked vertices. *)
Record Remeshed {N : Num} (m m' : mesh N) : Prop := {
  rm_valid : Valid m';
  rm_euler : euler m' = euler m;
  rm_flags : FlagsSym m -> FlagsSym m';
  rm_locked : forall v, In v (m_verts m) -> v_lock m v = true -> In v (m_verts m') /\ v_lock m' v = true /\ v_pos m' v = v_pos m v }.
