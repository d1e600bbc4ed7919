(** src/tinymesh/restore/completion.cpp 97-110: the first part of holeFillContextCoherent. *)
From Coq Require Import Bool List ZArith Arith.
From Verif Require Import Num Vec Heap Mesh Construct Fill Front.
Import ListNotations.
Local Open Scope mesh_scope.

Section FrontC.
Context {N : Num}.
Notation M := (M N).
Variable relax : mesh N -> list nat -> option (nat -> vec N).

(** 99-101: lock every vertex. *)
Definition lock_all : M unit :=
  n <- get (fun m => length (m_verts m)) ;;
  mfor (seq 0 n) (fun i => v <- mesh_vertex (Z.of_nat i) ;; w_lock v true).
(** 105-110: the faces are counted anew at each step; [k] bounds the steps. *)
Fixpoint fronts (k fuel i : nat) : M unit :=
  match k with
  | O => nofuel
  | S k' =>
      n <- get (fun m => length (m_faces m)) ;;
      if i <? n then
        f <- mesh_face (Z.of_nat i) ;; b <- f_isHole f ;;
        (if b then holeFillAdvancingFront relax fuel f else ret tt) ;;
        fronts k' fuel (i + 1)
      else ret tt
  end.
(** 97-110. *)
Definition fill_fronts (k fuel : nat) : M unit := lock_all ;; fronts k fuel 0.
End FrontC.
