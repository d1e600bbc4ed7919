(** Rigid motions of space, and of a mesh. *)
From Coq Require Import Reals List ZArith.
From Verif Require Import Num NumInst Vec Heap Mesh WholeSpec.
Import ListNotations.
Local Open Scope R_scope.
Notation vecR := (vec NumR).

(** A rotation about the origin: a linear map that keeps dot and cross products. *)
Record Rotation (Q : vecR -> vecR) : Prop := {
  rot_add : forall a b, Q (vadd a b) = vadd (Q a) (Q b);
  rot_scale : forall s a, Q (vscale s a) = vscale s (Q a);
  rot_dot : forall a b, dot (Q a) (Q b) = dot a b;
  rot_cross : forall a b, cross (Q a) (Q b) = Q (cross a b) }.
(** A rotation, followed by a translation. *)
Definition motion (Q : vecR -> vecR) (t : vecR) (p : vecR) : vecR := vadd (Q p) t.
(** The mesh after the motion. *)
Definition move (Q : vecR -> vecR) (t : vecR) (m : mesh NumR) : mesh NumR := at_positions m (fun v => motion Q t (v_pos m v)).
(** The outcome of a function after the motion; [g] is what the motion does to its value. *)
Definition move_out (Q : vecR -> vecR) (t : vecR) {A} (g : A -> A) (o : res (A * mesh NumR)) : res (A * mesh NumR) :=
  match o with Ok (a, m) => Ok (g a, move Q t m) | UB k => UB k | Abort k => Abort k | NoFuel => NoFuel end.
(** Values that do not depend on positions do not change. *)
Definition same {A : Type} (a : A) : A := a.
Definition move_res (Q : vecR -> vecR) (t : vecR) (o : res (mesh NumR)) : res (mesh NumR) :=
  match o with Ok m => Ok (move Q t m) | UB k => UB k | Abort k => Abort k | NoFuel => NoFuel end.
(** The rotation about the third axis by the angle whose cosine and sine are [c] and [s]. *)
Definition turn (c s : R) (p : vecR) : vecR := V3 (N := NumR) (c * vx p - s * vy p) (s * vx p + c * vy p) (vz p).
(** At every vertex the cotangent weights of the half-edges that leave it do not add up to 0. *)
Definition weights_add (m : mesh NumR) : Prop := forall v hs ws, In v (m_verts m) -> v_halfedges (Some v) m = Ok (hs, m) -> mmap he_cotWeight hs m = Ok (ws, m) -> fold_right Rplus 0 ws <> 0.
