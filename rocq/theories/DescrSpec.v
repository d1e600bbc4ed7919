(** Mean and deviation of the signatures of a patch. *)
From Coq Require Import Reals List.
Import ListNotations.
Local Open Scope R_scope.
(** The j-th entry of a signature. *)
Definition entry_of (f : list R) (j : nat) : R := nth j f 0.
Definition total (l : list R) : R := fold_right Rplus 0 l.
Definition Mean (fs : list (list R)) (j : nat) : R := total (map (fun f => entry_of f j) fs) / INR (length fs).
Definition MeanSquare (fs : list (list R)) (j : nat) : R := total (map (fun f => entry_of f j ^ 2) fs) / INR (length fs).
Definition Deviation (fs : list (list R)) (j : nat) : R := sqrt (MeanSquare fs j - Mean fs j ^ 2).
(** [j0] has the largest of the first [n] values. *)
Definition Largest (n : nat) (x : nat -> R) (j0 : nat) : Prop := (j0 < n)%nat /\ forall j, (j < n)%nat -> x j <= x j0.
(** The squared distance of two descriptors. *)
Definition Dist2 (a b : list R) : R := total (map (fun p => (fst p - snd p) ^ 2) (combine a b)).
