(** Vocabulary of the statements about the area of a surface. *)
From Coq Require Import Reals List ZArith.
From Verif Require Import Num NumInst Vec Heap Mesh Measure.
Import ListNotations.
Local Open Scope R_scope.

(** The area of the surface: the sum of what [Face::area] returns. *)
Definition face_area (m : mesh NumR) (f : nat) : R := match f_area (Some f) m with Ok (a, _) => a | _ => 0 end.
Definition surface_area (m : mesh NumR) : R := fold_right Rplus 0 (map (face_area m) (m_faces m)).
(** The surface with the vertex [v] moved by [t] times [d]. *)
Definition moved (m : mesh NumR) (v : nat) (d : vec NumR) (t : R) : mesh NumR := set_v_pos v (vadd (N := NumR) (v_pos m v) (vscale (N := NumR) t d)) m.
