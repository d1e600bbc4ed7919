(** What saving and loading is compared with: the positions as the file holds them. *)
From Coq Require Import List.
From Verif Require Import Num Vec Io.
Import ListNotations.

Section IoSpec.
Context {N : Num}.
Variable C : codec N.

(** The effect of a file format on one number and on a position. *)
Definition through (e : ext) (x : num) : num := match e with EObj => c_parse C (c_print C x) | _ => c_narrow C x end.
Definition through3 (e : ext) (p : vec N) : vec N := V3 (through e (vx p)) (through e (vy p)) (through e (vz p)).

(** The format keeps the positions apart (and numbers). *)
Definition KeptApart (e : ext) (ps : list (vec N)) : Prop :=
  (forall i j p q, nth_error ps i = Some p -> nth_error ps j = Some q -> veqb (through3 e p) (through3 e q) = true -> i = j) /\
  (forall p, In p ps -> veqb (through3 e p) (through3 e p) = true).

End IoSpec.
