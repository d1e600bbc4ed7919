(** Vocabulary of the statements about hole filling with an advancing front and its relaxation. *)
From Coq Require Import List ZArith Reals.
From Verif Require Import Num NumInst Vec Heap Mesh Spec FeatSpec.
Import ListNotations.

Section Spec.
Context {N : Num}.
Variable m : mesh N.
(** A surface without holes, whose faces all are triangles.  The boundary flags may say anything. *)
Record Triangulated : Prop := {
  tg_wf : WF m;
  tg_noloops : NoLoops m;
  tg_noparallel : NoParallel m;
  tg_tri : forall h, In h (m_hes m) -> piter (h_next m) 3 h = Some h
}.
(** A vertex that one gets to from a corner of the face [f] along edges, through unlocked vertices only. *)
Inductive FreeFrom (f : nat) : nat -> Prop :=
| ff_corner h v : In h (m_hes m) -> h_face m h = Some f -> h_src m h = Some v -> v_lock m v = false -> FreeFrom f v
| ff_edge v w : FreeFrom f v -> adj m v w -> v_lock m w = false -> FreeFrom f w.
(** The same mesh with other positions. *)
Definition at_positions (p : nat -> vec N) : mesh N :=
  mkMesh (m_verts m) (m_hes m) (m_faces m) (m_indices m) (m_fresh m) (v_live m) p (v_he m) (v_idx m) (v_lock m)
    (h_live m) (h_src m) (h_next m) (h_rev m) (h_face m) (h_idx m) (h_bd m) (f_live m) (f_he m) (f_idx m).
End Spec.
(** One gets from every vertex to every other along edges. *)
Definition Connected (m : mesh NumR) : Prop := forall v w, In v (m_verts m) -> In w (m_verts m) -> reach m v w.
