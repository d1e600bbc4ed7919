(** src/tinymesh/ops/features.cpp 131-176: heat kernel signatures. *)
From Coq Require Import Bool List ZArith Arith.
From Verif Require Import Num Heap.
Import ListNotations.

Section Hks.
Context {N : Num}.
(** std::log. *)
Variable nlog : num -> num.
(** Spectra::SymEigsShiftSolver (143-151) for the first [n] rows and columns of L and K eigenvalues:
    eigenvalues() and eigenvectors(), entry (row, column); [None]: info() is not Successful. *)
Variable eigs : nat -> (nat -> nat -> num) -> nat -> option ((nat -> num) * (nat -> nat -> num)).

(** 153-154: t_min and t_max, from lambda(K - 1) and lambda(1). *)
Definition hks_limit (l : num) : num := ndiv (nmul (nofZ 4) (nlog (nofZ 10))) (nmax neps12 l).
(** 156-162. *)
Definition hks_times (t_min t_max : num) (nTimes : nat) : list num :=
  let inc := ndiv (nsub (nlog t_max) (nlog t_min)) (nofZ (Z.of_nat nTimes - 1)) in
  map (fun i => nexp (nadd (nlog t_min) (nmul (nofZ (Z.of_nat i)) inc))) (seq 0 nTimes).
(** 165-170: one entry of HKS; the K matrices are added in the order of the loop. *)
Definition hks_entry (K : nat) (lam : nat -> num) (U : nat -> nat -> num) (x : nat) (t : num) : num :=
  fold_left (fun acc i => nadd acc (nmul (nmul (U x i) (U x i)) (nexp (nmul (nopp t) (lam i))))) (seq 0 K) nzero.

(** 131-173: the rows of HKS, for a matrix with [n] rows.  The constructor of the solver throws
    when K is below 1.  lambda(1) does not exist when K is 1.  nTimes is not negative. *)
Definition getHeatKernelSignatures (n : nat) (L : nat -> nat -> num) (K : Z) (nTimes : nat) : res (list (list num)) :=
  if negb (K <? Z.of_nat n)%Z then Abort AAssert else
  if (K <? 1)%Z then Abort AThrow else
  match eigs n L (Z.to_nat K) with
  | None => Abort AError
  | Some (lam, U) =>
      if (K <? 2)%Z then UB OutOfBounds else
      let ts := hks_times (hks_limit (lam (Z.to_nat K - 1)%nat)) (hks_limit (lam 1%nat)) nTimes in
      Ok (map (fun x => map (hks_entry (Z.to_nat K) lam U x) ts) (seq 0 n))
  end.
End Hks.
