(** src/tinymesh/core/bounds.h: Bounds<double, 3>; src/tinymesh/core/triangle.cpp. *)
From Coq Require Import Bool List ZArith.
From Verif Require Import Num Vec.
Import ListNotations.

Section Bounds.
Context {N : Num}.

(** bounds.h 13-22, 86-87. *)
Record box := Box { bmin : vec N; bmax : vec N }.
(** bounds.h 18 with the member initialisers of 86-87. *)
Definition box0 : box := Box (vfill nbig20) (vfill (nopp nbig20)).
(** bounds.h 25-28. *)
Definition box_add (b : box) (p : vec N) : box := Box (vmin (bmin b) p) (vmax (bmax b) p).
(** bounds.h 71-76. *)
Definition box_merge (a b : box) : box := Box (vmin (bmin a) (bmin b)) (vmax (bmax a) (bmax b)).
(** bounds.h 30-34. *)
Definition box_area (b : box) : num :=
  let d := vabs (vsub (bmax b) (bmin b)) in
  nmul ntwo (nadd (nadd (nmul (vx d) (vy d)) (nmul (vy d) (vz d))) (nmul (vz d) (vx d))).
(** p[d] for d = 0, 1, 2; the model's axes are 0, 1 and everything else. *)
Definition vget (a : vec N) (d : nat) : num := match d with 0 => vx a | 1 => vy a | _ => vz a end.
(** p[d] < posMin_[d] || posMax_[d] < p[d]: bounds.h 38, 63. *)
Definition off_slab (b : box) (p : vec N) (d : nat) : bool :=
  nltb (vget p d) (vget (bmin b) d) || nltb (vget (bmax b) d) (vget p d).
(** bounds.h 36-41. *)
Definition box_inside (b : box) (p : vec N) : bool := negb (off_slab b p 0 || off_slab b p 1 || off_slab b p 2).
(** bounds.h 43-56.  [None]: the assertion of line 54 fails. *)
Definition box_maxExtent (b : box) : option nat :=
  let v := vabs (vsub (bmax b) (bmin b)) in
  fst (fold_left (fun acc d => if nltb (snd acc) (vget v d) then (Some d, vget v d) else acc) [0; 1; 2] (None, nopp none_)).
(** bounds.h 58-69. *)
Definition box_distance (b : box) (p : vec N) : num :=
  let lo := vabs (vsub (bmin b) p) in
  let hi := vabs (vsub (bmax b) p) in
  nsqrt (fold_left (fun dist d =>
    if off_slab b p d then let gap := nmin (vget lo d) (vget hi d) in nadd dist (nmul gap gap) else dist) [0; 1; 2] nzero).

(** triangle.h 14-29. *)
Record triangle := Tri { tp0 : vec N; tp1 : vec N; tp2 : vec N }.

(** triangle.cpp 10-51.  Line 19 reads [bp = p - p2]. *)
Definition tri_closest (t : triangle) (p : vec N) : vec N :=
  let p0 := tp0 t in let p1 := tp1 t in let p2 := tp2 t in
  let ab := vsub p1 p0 in
  let ac := vsub p2 p0 in
  let ap := vsub p p0 in
  let d1 := dot ab ap in
  let d2 := dot ac ap in
  if nleb d1 nzero && nleb d2 nzero then p0 else
  let bp := vsub p p2 in
  let d3 := dot ab bp in
  let d4 := dot ac bp in
  if nleb nzero d3 && nleb d4 d3 then p1 else
  let cp := vsub p p2 in
  let d5 := dot ab cp in
  let d6 := dot ac cp in
  if nleb nzero d6 && nleb d5 d6 then p2 else
  let vc := nsub (nmul d1 d4) (nmul d3 d2) in
  if nleb vc nzero && nleb nzero d1 && nleb d3 nzero then vadd p0 (vscale (ndiv d1 (nsub d1 d3)) ab) else
  let vb := nsub (nmul d5 d2) (nmul d1 d6) in
  if nleb vb nzero && nleb nzero d2 && nleb d6 nzero then vadd p0 (vscale (ndiv d2 (nsub d2 d6)) ac) else
  let va := nsub (nmul d3 d6) (nmul d5 d4) in
  if nleb va nzero && nleb nzero (nsub d4 d3) && nleb nzero (nsub d5 d6) then
    vadd p1 (vscale (ndiv (nsub d4 d3) (nadd (nsub d4 d3) (nsub d5 d6))) (vsub p2 p1)) else
  let denom := ndiv none_ (nadd (nadd va vb) vc) in
  vadd (vadd p0 (vscale (nmul vb denom) ab)) (vscale (nmul vc denom) ac).

(** triangle.cpp 6-8. *)
Definition tri_distance (t : triangle) (p : vec N) : num := vlength (vsub p (tri_closest t p)).
(** triangle.cpp 53-59. *)
Definition tri_bounds (t : triangle) : box := box_add (box_add (box_add box0 (tp0 t)) (tp1 t)) (tp2 t).

End Bounds.
Arguments box N : clear implicits.
Arguments triangle N : clear implicits.
