(** Vocabulary of the statements about mesh Laplacians: real matrices. *)
From Coq Require Import Reals List ZArith.
From Verif Require Import Num NumInst Vec Heap Spec.
Import ListNotations.
Local Open Scope R_scope.

Fixpoint sum_to (n : nat) (f : nat -> R) : R := match n with O => 0 | S n' => sum_to n' f + f n' end.

Definition symmetric (n : nat) (L : nat -> nat -> R) : Prop := forall i j, (i < n)%nat -> (j < n)%nat -> L i j = L j i.
(** The operator maps constant functions to zero. *)
Definition rows_vanish (n : nat) (L : nat -> nat -> R) : Prop := forall i, (i < n)%nat -> sum_to n (L i) = 0.
Definition qform (n : nat) (L : nat -> nat -> R) (x : nat -> R) : R := sum_to n (fun i => sum_to n (fun j => x i * L i j * x j)).
Definition psd (n : nat) (L : nat -> nat -> R) : Prop := forall x, 0 <= qform n L x.

(** [X'] solves A X' = X, coordinate by coordinate. *)
Definition solution (n : nat) (A : nat -> nat -> R) (X X' : list (vec NumR)) : Prop :=
  length X = n /\ length X' = n /\
  forall i, (i < n)%nat ->
    sum_to n (fun j => A i j * vx (nth j X' vzero)) = vx (nth i X vzero) /\
    sum_to n (fun j => A i j * vy (nth j X' vzero)) = vy (nth i X vzero) /\
    sum_to n (fun j => A i j * vz (nth j X' vzero)) = vz (nth i X vzero).
