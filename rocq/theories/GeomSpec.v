(** Vocabulary of the geometric properties, over the real numbers. *)
From Coq Require Import Reals List.
From Verif Require Import Num Vec Bounds.
Local Open Scope R_scope.

Notation vecR := (vec NumR).
(** a vector from three reals *)
Definition v3 (x y z : R) : vecR := @V3 NumR x y z.
Definition X (a : vecR) : R := vx a.
Definition Y (a : vecR) : R := vy a.
Definition Z_ (a : vecR) : R := vz a.

(** Euclidean distance of two points. *)
Definition edist (a b : vecR) : R :=
  sqrt ((X a - X b) * (X a - X b) + (Y a - Y b) * (Y a - Y b) + (Z_ a - Z_ b) * (Z_ a - Z_ b)).

(** [x] is a point of the (closed) triangle [t]. *)
Definition in_triangle (t : triangle NumR) (x : vecR) : Prop :=
  exists u v w, 0 <= u /\ 0 <= v /\ 0 <= w /\ u + v + w = 1 /\
    X x = u * X (tp0 t) + v * X (tp1 t) + w * X (tp2 t) /\
    Y x = u * Y (tp0 t) + v * Y (tp1 t) + w * Y (tp2 t) /\
    Z_ x = u * Z_ (tp0 t) + v * Z_ (tp1 t) + w * Z_ (tp2 t).

(** [x] is a point of the segment from [a] to [b]. *)
Definition on_segment (a b x : vecR) : Prop :=
  exists s, 0 <= s <= 1 /\ X x = (1 - s) * X a + s * X b /\ Y x = (1 - s) * Y a + s * Y b /\ Z_ x = (1 - s) * Z_ a + s * Z_ b.

(** [x] is a point of the box [b]. *)
Definition in_box (b : box NumR) (x : vecR) : Prop :=
  X (bmin b) <= X x <= X (bmax b) /\ Y (bmin b) <= Y x <= Y (bmax b) /\ Z_ (bmin b) <= Z_ x <= Z_ (bmax b).
(** Every point of [a] is a point of [b] (for boxes given by their corners). *)
Definition box_within (a b : box NumR) : Prop :=
  X (bmin b) <= X (bmin a) /\ X (bmax a) <= X (bmax b) /\
  Y (bmin b) <= Y (bmin a) /\ Y (bmax a) <= Y (bmax b) /\
  Z_ (bmin b) <= Z_ (bmin a) /\ Z_ (bmax a) <= Z_ (bmax b).
(** All coordinates are at most 1e20 in absolute value. *)
Definition moderate (p : vecR) : Prop :=
  Rabs (X p) <= 10 ^ 20 /\ Rabs (Y p) <= 10 ^ 20 /\ Rabs (Z_ p) <= 10 ^ 20.
