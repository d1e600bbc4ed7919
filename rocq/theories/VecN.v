(** The component constructor of Vec<Float, Dims>: src/tinymesh/core/vec.h 31-37. *)
From Coq Require Import List Arith.
From Verif Require Import Num Vec Heap.
Import ListNotations.

(** elems[i] = x on a std::array. *)
Fixpoint arr_set {A} (l : list A) (i : nat) (x : A) : list A :=
  match l, i with [], _ => [] | _ :: l', O => x :: l' | y :: l', S i' => y :: arr_set l' i' x end.
Definition arr_write {A} (l : list A) (i : nat) (x : A) : res (list A) :=
  if i <? length l then Ok (arr_set l i x) else UB OutOfBounds.
Definition rbind {A B} (r : res A) (k : A -> res B) : res B :=
  match r with Ok a => k a | UB u => UB u | Abort u => Abort u | NoFuel => NoFuel end.

(** explicit Vec(Float x, Float y, Float z = 0.0, Float w = 0.0). *)
Definition vec_ctor {A} (Dims : nat) (x y z w : A) : res (list A) :=
  rbind (arr_write (repeat w Dims) 0 x) (fun l =>
  rbind (if 1 <=? Dims then arr_write l 1 y else Ok l) (fun l =>
  if 2 <=? Dims then arr_write l 2 z else Ok l)).
