(** Model of getPrincipalCurvaturesFromTensors (src/tinymesh/ops/features.cpp 34-81),
    one iteration of its loop.  The estimation and smoothing of the tensors is in
    Tensor.v. *)
From Coq Require Import List Bool.
From Verif Require Import Num Vec.

Section Features.
Context {N : Num}.

(** features.cpp 53-58: the Jacobi rotation (t_, c, s) of the matrix [[m00, m01], [m01, m11]]. *)
Definition jacobi (m00 m01 m11 : num) : num * num * num :=
  if neqb m01 nzero then (nzero, none_, nzero) else
  let h := ndiv (nmul nhalf (nsub m11 m00)) m01 in
  let q := nsqrt (nadd none_ (nmul h h)) in
  let t_ := if nltb h nzero then ndiv none_ (nsub h q) else ndiv none_ (nadd h q) in
  let c := ndiv none_ (nsqrt (nadd none_ (nmul t_ t_))) in
  (t_, c, nmul t_ c).

(** features.cpp 45-79: (k_max, k_min, t_max, t_min); [None]: normalize throws. *)
Definition principal (m00 m01 m11 : num) (up vp np : vec N) : option (num * num * vec N * vec N) :=
  let '(t_, c, s) := jacobi m00 m01 m11 in
  let k_min := nsub m00 (nmul t_ m01) in
  let k_max := nadd m11 (nmul t_ m01) in
  let '(k_max, k_min, t_max) :=
    if nltb k_min k_max then (k_max, k_min, vsub (vscale c up) (vscale s vp))
    else (k_min, k_max, vadd (vscale s up) (vscale c vp)) in
  match normalize (cross np t_max) with
  | None => None
  | Some t_min =>
      if nltb (nabs (nsub k_min k_max)) neps6 then Some (k_max, k_min, vzero, vzero)
      else Some (k_max, k_min, t_max, t_min)
  end.
End Features.
