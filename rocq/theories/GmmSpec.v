(** Mixtures of Gaussian densities over the reals. *)
From Coq Require Import Reals List ZArith.
From Verif Require Import Num NumInst MeasureM Gmm.
Import ListNotations.
Local Open Scope R_scope.

(** The density of the normal distribution with mean [mu] and variance [v]. *)
Definition normal (mu v x : R) : R := exp (- (x - mu) ^ 2 / (2 * v)) / sqrt (2 * PI * v).
Definition mixture (th : list (comp NumR)) (x : R) : R := rsum (map (fun c : comp NumR => c_pi c * normal (c_mu c) (c_var c) x) th).
(** The logarithm of the density of independent samples [xs]. *)
Definition log_likelihood (th : list (comp NumR)) (xs : list R) : R := rsum (map (fun x => ln (mixture th x)) xs).
(** A mixture: positive weights with sum one and positive variances. *)
Definition Proper (th : list (comp NumR)) : Prop :=
  (forall c, In c th -> 0 < c_pi c /\ 0 < c_var c) /\ rsum (map (fun c : comp NumR => c_pi c) th) = 1.
Definition mean (xs : list R) : R := rsum xs / INR (length xs).
(** Not all samples are equal. *)
Definition Varied (xs : list R) : Prop := exists x y, In x xs /\ In y xs /\ x <> y.
(** The mean and the mean square of a random number with the density [mixture th]. *)
Definition mixture_mean (th : list (comp NumR)) : R := rsum (map (fun c : comp NumR => c_pi c * c_mu c) th).
Definition mixture_square (th : list (comp NumR)) : R := rsum (map (fun c : comp NumR => c_pi c * (c_var c + c_mu c ^ 2)) th).
(** (int)std::ceil. *)
Definition Ceiling (nceil : R -> Z) : Prop := forall x, IZR (nceil x) - 1 < x <= IZR (nceil x).
