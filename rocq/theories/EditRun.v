(** Sequences of edits. *)
From Coq Require Import List Arith.
From Verif Require Import Num Vec Heap Mesh Spec.
Import ListNotations.
Local Open Scope mesh_scope.

Section EditRun.
Context {N : Num}.

Inductive edit := ESplit (he : nat) | EFlip (he : nat) | ECollapse (he : nat) | EFace (f : nat).

Definition run_edit (e : edit) : M N bool :=
  match e with
  | ESplit h => splitHE (Some h)
  | EFlip h => flipHE (Some h)
  | ECollapse h => collapseHE (Some h)
  | EFace f => collapseFace (Some f)
  end.

(** The argument is an element of the current mesh; flipHE is given an edge
    between two triangles, collapseFace a triangle. *)
Definition edit_arg (m : mesh N) (e : edit) : Prop :=
  match e with
  | ESplit h | ECollapse h => In h (m_hes m)
  | EFlip h => In h (m_hes m) /\ piter (h_next m) 3 h = Some h /\
      forall r, h_rev m h = Some r -> piter (h_next m) 3 r = Some r
  | EFace f => In f (m_faces m) /\ exists a b c, Tri m f a b c
  end.

Definition run_edits (es : list edit) : M N unit :=
  fold_right (fun e k => run_edit e ;; k) (ret tt) es.

(** Every edit of the list gets an argument of the mesh as it then is. *)
Inductive edit_args : mesh N -> list edit -> Prop :=
  | ea_nil m : edit_args m []
  | ea_cons m e es : edit_arg m e -> (forall b m', run_edit e m = Ok (b, m') -> edit_args m' es) -> edit_args m (e :: es).

End EditRun.
