(** src/tinymesh/core/completion.cpp 230-702: hole filling with an advancing front, with the relaxation. *)
From Coq Require Import Bool List ZArith Arith.
From Verif Require Import Num Vec Heap Mesh Bounds Front Relax.
Import ListNotations.
Local Open Scope mesh_scope.

Section Whole.
Context {N : Num}.
Notation M := (M N).
(** std::cos, std::sin, and SimplicialLDLT(A).solve(b). *)
Variables (ncos nsin : num -> num).
Variable sparse : nat -> (nat -> nat -> num) -> (nat -> num) -> nat -> num.
(** 230-702.  In Front.v the relaxation is any function that gives new positions or fails; here it is the
    code of 548-701, and what it reads and where it fails are kept. *)
Definition fillAdvancingFront (fuel : nat) (face : ptr) : M unit :=
  avg <- getMeanEdgeLength ;;
  lock_front face ;;
  front_loop fuel face avg ;;
  l <- inside_verts face ;;
  q <- relaxed ncos nsin sparse (addresses l) ;;
  mfor (addresses l) (fun v => w_pos (Some v) (q v)).
End Whole.
