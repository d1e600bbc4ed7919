(** src/tinymesh/restore/completion.cpp 118-181: the radius of the patches, from a mixture of
    three Gaussians fitted to the curvatures. *)
From Coq Require Import Bool List ZArith Arith.
From Verif Require Import Num Vec Deriv.
Import ListNotations.

Section Gmm.
Context {N : Num}.
(** (int)std::ceil of a double; any integer if the result does not fit. *)
Variable nceil : num -> Z.

(** pis[k], mus[k], vars[k]. *)
Record comp := Cp { c_pi : num; c_mu : num; c_var : num }.
(** 133. *)
Definition gauss (x v : num) : num :=
  ndiv (nexp (ndiv (nmul (nmul (nopp nhalf) x) x) v)) (nsqrt (nmul (nmul ntwo npi) v)).
(** 138-148: one row of gamma. *)
Definition weigh (th : list comp) (x : num) : list num := map (fun c => nmul (c_pi c) (gauss (nsub (c_mu c) x) (c_var c))) th.
Definition resp (th : list comp) (x : num) : list num :=
  let w := weigh th x in let s := fold_left nadd w nzero in map (fun y => ndiv y s) w.
(** 151-156, 158-164, 166-173, for one component, whose column of gamma is [g]. *)
Definition em_pi (n : num) (g : list num) : num := fold_left (fun a y => nadd a (ndiv y n)) g nzero.
Definition em_mu (Npi : num) (gx : list (num * num)) : num := fold_left (fun a p => nadd a (ndiv (nmul (fst p) (snd p)) Npi)) gx nzero.
Definition em_var (Npi mu : num) (gx : list (num * num)) : num :=
  fold_left (fun a p => let diff := nsub (snd p) mu in nadd a (ndiv (nmul (nmul (fst p) diff) diff) Npi)) gx nzero.
Definition em_comp (xs g : list num) : comp :=
  let n := nofZ (Z.of_nat (length xs)) in
  let p := em_pi n g in let Npi := nmul n p in
  let mu := em_mu Npi (combine g xs) in Cp p mu (em_var Npi mu (combine g xs)).
(** 135-174: one iteration. *)
Definition em_step (xs : list num) (th : list comp) : list comp :=
  let G := map (resp th) xs in map (fun k => em_comp xs (map (fun row => nth k row nzero) G)) (seq 0 (length th)).
(** 122-127: from k_max and k_min of the vertices. *)
Definition max_curve (x : pc N) : num := nmax (nabs (k_max x)) (nabs (k_min x)).
Definition max_all (xs : list num) : num := fold_left nmax xs nzero.
(** 129-131. *)
Definition em_start (maxK : num) : list comp :=
  let third := ndiv none_ (nofZ 3) in [Cp third nzero none_; Cp third (nmul nhalf maxK) none_; Cp third maxK none_].
(** 129-174: after [k] iterations; the code makes 20. *)
Definition em (k : nat) (xs : list num) : list comp := Nat.iter k (em_step xs) (em_start (max_all xs)).
(** 179-181. *)
Definition radius_of (avgLen mu1 : num) : Z :=
  let patchRadiusReal := nmul (nadd (ndiv none_ (nmul avgLen mu1)) none_) avgLen in
  nceil (ndiv patchRadiusReal avgLen).
Definition patch_radius (avgLen : num) (xs : list num) : Z :=
  radius_of avgLen (c_mu (nth 1 (em 20 xs) (Cp nzero nzero nzero))).
End Gmm.
Arguments comp N : clear implicits.
