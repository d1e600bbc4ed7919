(** What a filter may do to a mesh. *)
From Coq Require Import Reals List ZArith.
From Verif Require Import Num NumInst Vec Heap Spec.
Import ListNotations.

Section SmoothSpec.
Context {N : Num}.

(** [m] differs from [m0] at most in the positions of its vertices. *)
Record posonly (m0 m : mesh N) : Prop := {
  po_pos : forall v, ~ In v (m_verts m0) -> v_pos m v = v_pos m0 v;
  po_eq : m = mkMesh (m_verts m0) (m_hes m0) (m_faces m0) (m_indices m0) (m_fresh m0) (v_live m0) (v_pos m) (v_he m0) (v_idx m0) (v_lock m0)
            (h_live m0) (h_src m0) (h_next m0) (h_rev m0) (h_face m0) (h_idx m0) (h_bd m0) (f_live m0) (f_he m0) (f_idx m0) }.

(** A half-edge leaving [v] is flagged as boundary. *)
Definition on_boundary (m : mesh N) (v : nat) : Prop := exists h, In h (m_hes m) /\ h_src m h = Some v /\ h_bd m h = true.

(** Locked and boundary vertices have not moved. *)
Definition kept (m0 m : mesh N) : Prop := forall v, v_lock m0 v = true \/ on_boundary m0 v -> v_pos m v = v_pos m0 v.

End SmoothSpec.

(** Every coordinate of [p] lies in the range given by [lo] and [hi]. *)
Definition inside (lo hi p : vec NumR) : Prop := (vx lo <= vx p <= vx hi /\ vy lo <= vy p <= vy hi /\ vz lo <= vz p <= vz hi)%R.
