(** src/tinymesh/restore/completion.cpp 26-85: solveRigidICP. *)
From Coq Require Import Bool List ZArith Arith.
From Verif Require Import Num Vec Tensor.
Import ListNotations.

Section Icp.
Context {N : Num}.
Notation mat := (mat3 N).
(** eigenSVD (core/eigen.cpp 5-10): matrixU, singularValues, matrixV of a 3 x 3 matrix. *)
Variable svd : mat -> mat * vec N * mat.

Definition mtr3 (a : mat) : mat := Mat (mcol a vx) (mcol a vy) (mcol a vz).
Definition det3 (a : mat) : num := dot (mr0 a) (cross (mr1 a) (mr2 a)).
(** a * d.asDiagonal(). *)
Definition mdiag3 (a : mat) (d : vec N) : mat :=
  let f r := V3 (nmul (vx r) (vx d)) (nmul (vy r) (vy d)) (nmul (vz r) (vz d)) in Mat (f (mr0 a)) (f (mr1 a)) (f (mr2 a)).
Definition mzero3 : mat := Mat vzero vzero vzero.

(** 45, 316: (f - g).squaredNorm().  The order of the additions is Eigen's business; only results
    over the reals are used. *)
Definition sq_dist (f g : list num) : num := fold_left nadd (map (fun p => let d := nsub (fst p) (snd p) in nmul d d) (combine f g)) nzero.
(** A vertex of a patch: pos(), and its signature. *)
Definition feature : Type := vec N * list num.
(** 38-50: minDist and the vertex at minId. *)
Definition nearest (tgt : list feature) (f : list num) : num * option feature :=
  fold_left (fun best g => let dist := sq_dist f (snd g) in if nltb dist (fst best) then (dist, Some g) else best) tgt (nbig20, None).
(** 37-56: the rows of X and Y; [None]: minId is -1. *)
Fixpoint matches (tgt src : list feature) : option (list (vec N * vec N)) :=
  match src with
  | [] => Some []
  | s :: src' => match snd (nearest tgt (snd s)), matches tgt src' with
                 | Some g, Some l => Some ((fst s, fst g) :: l)
                 | _, _ => None
                 end
  end.
(** 59-60: colwise().mean(). *)
Definition vmean (l : list (vec N)) : vec N :=
  let s := fold_left vadd l vzero in let n := nofZ (Z.of_nat (length l)) in V3 (ndiv (vx s) n) (ndiv (vy s) n) (ndiv (vz s) n).
(** 64: Y.transpose() * X. *)
Definition covariance (l : list (vec N * vec N)) : mat :=
  fold_left (fun a p => madd3 a (Mat (vscale (vx (snd p)) (fst p)) (vscale (vy (snd p)) (fst p)) (vscale (vz (snd p)) (fst p)))) l mzero3.
(** 58-84: R, t and the error. *)
Definition rigid (l : list (vec N * vec N)) : mat * vec N * num :=
  let xMean := vmean (map fst l) in let yMean := vmean (map snd l) in
  let c := map (fun p => (vsub (fst p) xMean, vsub (snd p) yMean)) l in
  let '(U, sigma, V) := svd (covariance c) in
  let detVU := det3 (mmul3 U (mtr3 V)) in
  let R := mmul3 (mdiag3 U (V3 none_ none_ detVU)) (mtr3 V) in
  let t := vsub yMean (mapp R xMean) in
  let e := fold_left nadd (map (fun p => let d := vsub (snd p) (vadd (mapp R (fst p)) t) in dot d d) c) nzero in
  (R, t, ndiv e (nofZ (Z.of_nat (length l)))).
(** 26-85. *)
Definition solveRigidICP (tgt src : list feature) : option (mat * vec N * num) :=
  match matches tgt src with None => None | Some l => Some (rigid l) end.
End Icp.
Arguments feature N : clear implicits.
