(** Vocabulary of the statements about heat kernel signatures. *)
From Coq Require Import Reals List ZArith.
From Verif Require Import LaplSpec.
Import ListNotations.
Local Open Scope R_scope.

(** The product of two functions on the vertices 0 .. n-1, and the operator applied to one. *)
Definition inner (n : nat) (f g : nat -> R) : R := sum_to n (fun x => f x * g x).
Definition applied (n : nat) (L : nat -> nat -> R) (f : nat -> R) (x : nat) : R := sum_to n (fun y => L x y * f y).
Definition Eigen (n : nat) (L : nat -> nat -> R) (l : R) (f : nat -> R) : Prop := forall x, (x < n)%nat -> applied n L f x = l * f x.
Definition nonzero (n : nat) (f : nat -> R) : Prop := exists x, (x < n)%nat /\ f x <> 0.

(** K eigenvalues of least magnitude, in this order, and unit eigenvectors that are orthogonal to
    each other: what an exact solver returns. *)
Record Spectrum (n : nat) (L : nat -> nat -> R) (K : nat) (lam : nat -> R) (U : nat -> nat -> R) : Prop := {
  sp_eigen : forall i, (i < K)%nat -> Eigen n L (lam i) (fun x => U x i);
  sp_unit : forall i, (i < K)%nat -> inner n (fun x => U x i) (fun x => U x i) = 1;
  sp_ortho : forall i j, (i < K)%nat -> (j < K)%nat -> i <> j -> inner n (fun x => U x i) (fun x => U x j) = 0;
  sp_sorted : forall i j, (i <= j < K)%nat -> Rabs (lam i) <= Rabs (lam j);
  sp_least : forall mu f, nonzero n f -> Eigen n L mu f -> (forall i, (i < K)%nat -> inner n (fun x => U x i) f = 0) -> forall i, (i < K)%nat -> Rabs (lam i) <= Rabs mu
}.
Definition ExactEigs (eigs : nat -> (nat -> nat -> R) -> nat -> option ((nat -> R) * (nat -> nat -> R))) (n : nat) (L : nat -> nat -> R) (K : nat) : Prop :=
  exists lam U, eigs n L K = Some (lam, U) /\ Spectrum n L K lam U.
(** The K-th and the next eigenvalue differ. *)
Definition Gap (n : nat) (L : nat -> nat -> R) (K : nat) (lam : nat -> R) (U : nat -> nat -> R) : Prop :=
  forall mu f, nonzero n f -> Eigen n L mu f -> (forall i, (i < K)%nat -> inner n (fun x => U x i) f = 0) -> forall i, (i < K)%nat -> Rabs (lam i) < Rabs mu.
Definition EigsGap (eigs : nat -> (nat -> nat -> R) -> nat -> option ((nat -> R) * (nat -> nat -> R))) (n : nat) (L : nat -> nat -> R) (K : nat) : Prop :=
  forall lam U, eigs n L K = Some (lam, U) -> Gap n L K lam U.

(** The truncated heat kernel at the vertex x and the time t. *)
Definition heat (K : nat) (lam : nat -> R) (U : nat -> nat -> R) (x : nat) (t : R) : R := sum_to K (fun i => exp (- (t * lam i)) * (U x i * U x i)).
(** 4 ln 10 / l, with l at least 1e-12. *)
Definition limit_time (l : R) : R := 4 * ln 10 / Rmax (/ 1000000000000) l.
(** [T] grows in equal ratios from [a] to [b]. *)
Definition Geometric (nTimes : nat) (a b : R) (T : nat -> R) : Prop :=
  T 0%nat = a /\ T (nTimes - 1)%nat = b /\ (forall j, (j < nTimes)%nat -> 0 < T j) /\ exists q, 0 < q /\ forall j, (S j < nTimes)%nat -> T (S j) = q * T j.
(** The entry of a matrix given by its rows. *)
Definition at2 (H : list (list R)) (x j : nat) : R := nth j (nth x H []) 0.
Definition dims (H : list (list R)) (n k : nat) : Prop := length H = n /\ forall x, (x < n)%nat -> length (nth x H []) = k.

(** A renumbering of 0 .. n-1. *)
Definition Renumbering (n : nat) (p : nat -> nat) : Prop :=
  (forall x, (x < n)%nat -> (p x < n)%nat) /\ (forall x y, (x < n)%nat -> (y < n)%nat -> p x = p y -> x = y).
