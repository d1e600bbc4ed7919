(** Changing the unit of length. *)
From Coq Require Import Reals List ZArith.
From Verif Require Import Num NumInst Vec Heap Mesh WholeSpec RigidSpec.
Import ListNotations.
Local Open Scope R_scope.

(** A point in a unit that is [c] times smaller. *)
Definition grow (c : R) (p : vecR) : vecR := @vscale NumR c p.
(** The mesh with all its positions multiplied by [c]. *)
Definition scaled (c : R) (m : mesh NumR) : mesh NumR := at_positions m (fun v => grow c (v_pos m v)).
(** The outcome of a function on the scaled mesh; [g] is what scaling does to its value. *)
Definition scaled_out (c : R) {A} (g : A -> A) (o : res (A * mesh NumR)) : res (A * mesh NumR) :=
  match o with Ok (a, m) => Ok (g a, scaled c m) | UB k => UB k | Abort k => Abort k | NoFuel => NoFuel end.
Definition scaled_res (c : R) (o : res (mesh NumR)) : res (mesh NumR) :=
  match o with Ok m => Ok (scaled c m) | UB k => UB k | Abort k => Abort k | NoFuel => NoFuel end.
(** Lengths are multiplied by [c], areas by [c * c]. *)
Definition times (k x : R) : R := k * x.
