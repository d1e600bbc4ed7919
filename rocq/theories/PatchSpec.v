(** The faces and vertices near a vertex. *)
From Coq Require Import List ZArith Permutation.
From Verif Require Import Num Heap Spec.
Import ListNotations.

Section PatchSpec.
Context {N : Num}.
(** The faces [f] and [g] have an edge in common. *)
Definition Across (m : mesh N) (f g : nat) : Prop :=
  exists h r, In h (m_hes m) /\ h_face m h = Some f /\ h_rev m h = Some r /\ h_face m r = Some g.
(** [f] is reached from a face at [v] by crossing [n] - 1 edges. *)
Inductive Ring (m : mesh N) (v : nat) : nat -> nat -> Prop :=
| ring_first h f : In h (m_hes m) -> h_src m h = Some v -> h_face m h = Some f -> Ring m v 1 f
| ring_next n f g : Ring m v n f -> Across m f g -> Ring m v (S n) g.
Definition InPatch (m : mesh N) (v : nat) (radius : Z) (f : nat) : Prop := exists n, Ring m v n f /\ (Z.of_nat n <= Z.max 1 radius)%Z.
(** [v] is a corner of the face [f]. *)
Definition Corner (m : mesh N) (f v : nat) : Prop := exists h, In h (m_hes m) /\ h_face m h = Some f /\ h_src m h = Some v.
(** [z] is the index of a corner of one of the faces [fs]. *)
Definition Listed (m : mesh N) (fs : list nat) (z : Z) : Prop := exists f v i, In f fs /\ Corner m f v /\ nth_error (m_verts m) i = Some v /\ z = Z.of_nat i.
End PatchSpec.
(** The order of a hash table is some order. *)
Definition Orders (horder : forall A : Type, list A -> list A) : Prop := forall A (l : list A), Permutation l (horder A l).
