(** Rigid motions. *)
From Coq Require Import Reals List.
From Verif Require Import Num NumInst Vec GeomSpec MeasureM Tensor Icp.
Import ListNotations.
Local Open Scope R_scope.
Notation matR := (mat3 NumR).

Definition sqlen (a : vecR) : R := vx a ^ 2 + vy a ^ 2 + vz a ^ 2.
(** A linear map that keeps all lengths. *)
Definition Orthogonal (A : matR) : Prop := forall x, sqlen (mapp (N := NumR) A x) = sqlen x.
(** A rotation also keeps the orientation. *)
Definition Rotation (A : matR) : Prop := Orthogonal A /\ det3 (N := NumR) A = 1.
(** A singular value decomposition of A: U and V are orthogonal, A is U times the diagonal matrix of
    s times the transpose of V, and the singular values are ordered. *)
Definition SvdOf (A : matR) (usv : matR * vecR * matR) : Prop :=
  let '(U, s, V) := usv in Orthogonal U /\ Orthogonal V /\ A = mmul3 (N := NumR) (mdiag3 (N := NumR) U s) (mtr3 (N := NumR) V) /\ vy s <= vx s /\ vz s <= vy s /\ 0 <= vz s.
(** The mean squared distance between y and Q x + t over the pairs (x, y). *)
Definition misfit (l : list (vecR * vecR)) (Q : matR) (t : vecR) : R :=
  rsum (map (fun p => sqlen (vsub (snd p) (vadd (mapp (N := NumR) Q (fst p)) t))) l) / INR (length l).
(** The squared distance of two signatures. *)
Definition sig_dist (f g : list R) : R := rsum (map (fun p => (fst p - snd p) ^ 2) (combine f g)).
(** [p] pairs the point of [s] with the point of the entry of [tgt] whose signature is the closest. *)
Definition Paired (tgt : list (feature NumR)) (s : feature NumR) (p : vecR * vecR) : Prop :=
  fst p = fst s /\ exists g, In g tgt /\ snd p = fst g /\ sig_dist (snd s) (snd g) < 10 ^ 20 /\ forall g', In g' tgt -> sig_dist (snd s) (snd g) <= sig_dist (snd s) (snd g').
Definition middle (l : list vecR) : vecR := V3 (N := NumR) (rsum (map (fun a : vecR => vx a) l) / INR (length l)) (rsum (map (fun a : vecR => vy a) l) / INR (length l)) (rsum (map (fun a : vecR => vz a) l) / INR (length l)).
(** The sum of the matrices y x^T over the pairs, both relative to their means. *)
Definition cross_covariance (l : list (vecR * vecR)) : matR :=
  let x p := vsub (fst p) (middle (map fst l)) in let y p := vsub (snd p) (middle (map snd l)) in
  let e (a b : vecR * vecR -> R) := rsum (map (fun p => a p * b p) l) in
  let row (a : vecR * vecR -> R) := V3 (N := NumR) (e a (fun p => vx (x p))) (e a (fun p => vy (x p))) (e a (fun p => vz (x p))) in
  Mat (N := NumR) (row (fun p => vx (y p))) (row (fun p => vy (y p))) (row (fun p => vz (y p))).
