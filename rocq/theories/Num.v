(** Arithmetic used by tinymesh, as a record of operations.

    The C++ code computes in [double].  The model is written over an arbitrary
    [Num]; [NumF] below is binary64 (Coq's primitive floats) and [NumR] the
    real numbers.  The libm functions that Coq does not provide for floats
    (acos, atan2, exp) are parameters of [NumF]. *)
From Coq Require Import ZArith Floats Reals.

Class Num := mkNum {
  num   : Type;
  nzero : num;                     (* 0.0 *)
  none_ : num;                     (* 1.0 *)
  ntwo  : num;                     (* 2.0 *)
  nhalf : num;                     (* 0.5 *)
  nquarter : num;                  (* 0.25 *)
  neighth  : num;                  (* 0.125 *)
  neps6  : num;                    (* 1.0e-6 *)
  neps12 : num;                    (* 1.0e-12 *)
  neps20 : num;                    (* 1.0e-20 *)
  nbig12 : num;                    (* 1.0e12 *)
  nbig20 : num;                    (* 1.0e20 *)
  npi    : num;                    (* Pi *)
  nofZ   : Z -> num;               (* (double) of an int *)
  nadd : num -> num -> num;
  nsub : num -> num -> num;
  nmul : num -> num -> num;
  ndiv : num -> num -> num;
  nopp : num -> num;
  nabs : num -> num;
  nsqrt : num -> num;
  nltb : num -> num -> bool;
  nleb : num -> num -> bool;
  neqb : num -> num -> bool;
  nfinite : num -> bool;           (* not (isinf || isnan) *)
  nacos : num -> num;
  natan2 : num -> num -> num;
  nexp : num -> num
}.

(** std::max / std::min, with the comparison the C++ standard prescribes
    (max(a,b) = (a < b) ? b : a, min(a,b) = (b < a) ? b : a). *)
Definition nmax `{Num} (a b : num) : num := if nltb a b then b else a.
Definition nmin `{Num} (a b : num) : num := if nltb b a then b else a.

(** Equality of doubles: symmetric and transitive, not reflexive (NaN). *)
Class NumEq (N : Num) : Prop := {
  neqb_sym : forall a b : num, neqb a b = neqb b a;
  neqb_trans : forall a b c : num, neqb a b = true -> neqb b c = true -> neqb a c = true
}.

(** binary64 *)
Section FloatInstance.
  Variables (acosF expF : float -> float) (atan2F : float -> float -> float).

  Definition floatofZ (z : Z) : float :=
    match z with
    | Z0 => 0%float
    | Zpos p => PrimFloat.of_uint63 (Uint63.of_Z (Zpos p))
    | Zneg p => PrimFloat.opp (PrimFloat.of_uint63 (Uint63.of_Z (Zpos p)))
    end.

  Definition NumF : Num := {|
    num := float;
    nzero := 0%float; none_ := 1%float; ntwo := 2%float;
    nhalf := 0.5%float; nquarter := 0.25%float; neighth := 0.125%float;
    neps6 := 0x1.0c6f7a0b5ed8dp-20%float;     (* 1e-6  *)
    neps12 := 0x1.19799812dea11p-40%float;    (* 1e-12 *)
    neps20 := 0x1.79ca10c924223p-67%float;    (* 1e-20 *)
    nbig12 := 1000000000000%float;
    nbig20 := 100000000000000000000%float;
    npi := 0x1.921fb54442d18p+1%float;
    nofZ := floatofZ;
    nadd := PrimFloat.add; nsub := PrimFloat.sub; nmul := PrimFloat.mul;
    ndiv := PrimFloat.div; nopp := PrimFloat.opp; nabs := PrimFloat.abs;
    nsqrt := PrimFloat.sqrt;
    nltb := PrimFloat.ltb; nleb := PrimFloat.leb; neqb := PrimFloat.eqb;
    nfinite := fun x => negb (orb (PrimFloat.is_nan x) (PrimFloat.is_infinity x));
    nacos := acosF; natan2 := atan2F; nexp := expF
  |}.
End FloatInstance.

(** Real numbers ("exact arithmetic").  Comparisons are decided classically;
    this instance is reasoned about, not run. *)
Definition Rltb (a b : R) : bool := if Rlt_dec a b then true else false.
Definition Rleb (a b : R) : bool := if Rle_dec a b then true else false.
Definition Reqb (a b : R) : bool := if Req_EM_T a b then true else false.

Definition NumR : Num := {|
  num := R;
  nzero := 0%R; none_ := 1%R; ntwo := 2%R;
  nhalf := (/ 2)%R; nquarter := (/ 4)%R; neighth := (/ 8)%R;
  neps6 := (/ 10 ^ 6)%R; neps12 := (/ 10 ^ 12)%R; neps20 := (/ 10 ^ 20)%R;
  nbig12 := (10 ^ 12)%R; nbig20 := (10 ^ 20)%R;
  npi := PI;
  nofZ := IZR;
  nadd := Rplus; nsub := Rminus; nmul := Rmult; ndiv := Rdiv;
  nopp := Ropp; nabs := Rabs; nsqrt := R_sqrt.sqrt;
  nltb := Rltb; nleb := Rleb; neqb := Reqb;
  nfinite := fun _ => true;
  nacos := acos;
  natan2 := fun y x => if Rlt_dec 0 x then atan (y / x)
                       else if Rlt_dec x 0 then (if Rle_dec 0 y then atan (y / x) + PI else atan (y / x) - PI)
                       else if Rlt_dec 0 y then PI / 2 else if Rlt_dec y 0 then - PI / 2 else 0;
  nexp := exp
|}%R.
