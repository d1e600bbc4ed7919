(** src/tinymesh/core/vec.h, for Dims = 3. *)
From Coq Require Import Bool List.
From Verif Require Import Num.
Import ListNotations.

Section Vec.
Context {N : Num}.

(** vec.h 15-17, 187, 192: Vec<double,3>. *)
Record vec := V3 { vx : num; vy : num; vz : num }.

(** vec.h 27-29: explicit Vec(Float x). *)
Definition vfill (x : num) : vec := V3 x x x.
(** vec.h 23-25. *)
Definition vzero : vec := vfill nzero.

(** vec.h 69-81: operator==, component-wise != of doubles. *)
Definition veqb (a b : vec) : bool :=
  neqb (vx a) (vx b) && neqb (vy a) (vy b) && neqb (vz a) (vz b).

(** vec.h 87-97, 207-212: operator+= / operator+. *)
Definition vadd (a b : vec) : vec :=
  V3 (nadd (vx a) (vx b)) (nadd (vy a) (vy b)) (nadd (vz a) (vz b)).
(** vec.h 99-105: unary minus. *)
Definition vneg (a : vec) : vec := V3 (nopp (vx a)) (nopp (vy a)) (nopp (vz a)).
(** vec.h 107-109, 214-219: a - b is a += (-b). *)
Definition vsub (a b : vec) : vec := vadd a (vneg b).
(** vec.h 123-129, 241-253: scaling. *)
Definition vscale (s : num) (a : vec) : vec :=
  V3 (nmul (vx a) s) (nmul (vy a) s) (nmul (vz a) s).
(** vec.h 111-121, 234-239: component-wise product. *)
Definition vmulv (a b : vec) : vec :=
  V3 (nmul (vx a) (vx b)) (nmul (vy a) (vy b)) (nmul (vz a) (vz b)).
(** vec.h 221-226: operator-(Vec, Float).  The code multiplies. *)
Definition vsubs (a : vec) (s : num) : vec := vscale s a.
(** vec.h 228-233: operator-(Float, Vec).  The code multiplies. *)
Definition ssubv (s : num) (a : vec) : vec := vscale s a.
(** vec.h 146-156, 262-267: division by a scalar throws on zero ([None]). *)
Definition vdiv (a : vec) (s : num) : option vec :=
  if neqb s nzero then None
  else Some (V3 (ndiv (vx a) s) (ndiv (vy a) s) (ndiv (vz a) s)).
(** vec.h 131-144, 255-260: component-wise division, throws on a zero component. *)
Definition vdivv (a b : vec) : option vec :=
  if neqb (vx b) nzero || neqb (vy b) nzero || neqb (vz b) nzero then None
  else Some (V3 (ndiv (vx a) (vx b)) (ndiv (vy a) (vy b)) (ndiv (vz a) (vz b))).

(** vec.h 275-282: ret = 0.0; ret += v1[i] * v2[i]. *)
Definition dot (a b : vec) : num :=
  nadd (nadd (nadd nzero (nmul (vx a) (vx b))) (nmul (vy a) (vy b))) (nmul (vz a) (vz b)).
(** vec.h 284-291. *)
Definition cross (a b : vec) : vec :=
  V3 (nsub (nmul (vy a) (vz b)) (nmul (vz a) (vy b)))
     (nsub (nmul (vz a) (vx b)) (nmul (vx a) (vz b)))
     (nsub (nmul (vx a) (vy b)) (nmul (vy a) (vx b))).
(** vec.h 293-296. *)
Definition vlength (a : vec) : num := nsqrt (dot a a).
(** vec.h 298-301. *)
Definition normalize (a : vec) : option vec := vdiv a (vlength a).

(** vec.h 306-312: angle a-b-c. *)
Definition vangle (a b c : vec) : num :=
  let e0 := vsub a b in
  let e1 := vsub c b in
  natan2 (vlength (cross e0 e1)) (dot e0 e1).

(** vec.h 315-324: obtuse.  The three lengths are sorted with std::less; the
    model sorts by insertion, which gives the same array for non-NaN lengths. *)
Definition insert_sorted (x : num) (l : list num) : list num :=
  (fix ins (l : list num) := match l with
   | [] => [x]
   | y :: l' => if nltb x y then x :: y :: l' else y :: ins l'
   end) l.
Definition sort3 (a b c : num) : list num :=
  insert_sorted c (insert_sorted b (insert_sorted a [])).
Definition obtuse (a b c : vec) : bool :=
  let l0 := vlength (vsub b a) in
  let l1 := vlength (vsub c b) in
  let l2 := vlength (vsub a c) in
  match sort3 l0 l1 l2 with
  | [s0; s1; s2] => nltb (nadd (nmul s0 s0) (nmul s1 s1)) (nmul s2 s2)
  | _ => false
  end.

(** vec.h 327-333: cotangent of the angle a-b-c. *)
Definition cot (a b c : vec) : num :=
  let e0 := vsub a b in
  let e1 := vsub c b in
  ndiv (dot e0 e1) (nadd (vlength (cross e0 e1)) neps20).

(** vec.h 335-353. *)
Definition dihedral (v1 v2 v3 v1rev : vec) : num :=
  let e12 := vsub v2 v1 in
  let e13 := vsub v3 v1 in
  let n1 := cross e12 e13 in
  let l1 := vlength n1 in
  let e42 := vsub v2 v1rev in
  let e43 := vsub v3 v1rev in
  let n4 := cross e42 e43 in
  let l4 := vlength n4 in
  if neqb l1 nzero || neqb l4 nzero then nzero
  else
    let cosTheta := ndiv (dot n1 n4) (nmul l1 l4) in
    nacos (nmax (nopp none_) (nmin cosTheta none_)).

(** mesh.cpp 995-996: no component is inf or nan. *)
Definition vfinite (a : vec) : bool := nfinite (vx a) && nfinite (vy a) && nfinite (vz a).

(** vec.h 369-394: component-wise abs / min / max. *)
Definition vabs (a : vec) : vec := V3 (nabs (vx a)) (nabs (vy a)) (nabs (vz a)).
Definition vmin (a b : vec) : vec := V3 (nmin (vx a) (vx b)) (nmin (vy a) (vy b)) (nmin (vz a) (vz b)).
Definition vmax (a b : vec) : vec := V3 (nmax (vx a) (vx b)) (nmax (vy a) (vy b)) (nmax (vz a) (vz b)).

End Vec.
Arguments vec N : clear implicits.
