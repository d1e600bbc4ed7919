(** What a bounding volume hierarchy over a list of triangles is. *)
From Coq Require Import Reals List ZArith Permutation.
From Verif Require Import Num Vec Bounds Bvh GeomSpec.
Import ListNotations.
Local Open Scope R_scope.

(** static_cast<int> of a non-negative double that fits rounds down. *)
Definition truncates (trunc : R -> Z) : Prop := forall x, 0 <= x -> IZR (trunc x) <= x < IZR (trunc x) + 1.

(** What the C++ standard says about nth_element and partition, as far as it matters here. *)
Record algos_ok (alg : algos) : Prop := {
  nth_perm : forall A lt k (l : list A), Permutation l (a_nth alg A lt k l);
  part_perm : forall A f (l : list A), Permutation l (fst (a_part alg A f l) ++ snd (a_part alg A f l));
  part_true : forall A f (l : list A) x, In x (fst (a_part alg A f l)) -> f x = true;
  part_false : forall A f (l : list A) x, In x (snd (a_part alg A f l)) -> f x = false }.

(** The triangle numbers in the leaves. *)
Fixpoint leaves {N : Num} (t : node N) : list nat :=
  match t with
  | Leaf _ pid => [pid]
  | Fork _ l r _ => (match l with Some t => leaves t | None => [] end) ++ (match r with Some t => leaves t | None => [] end)
  end.

(** Every inner node has two children and a box around all its triangles. *)
Inductive boxed (ts : list (triangle NumR)) : node NumR -> Prop :=
| boxed_leaf b pid t : nth_error ts pid = Some t -> (forall x, in_triangle t x -> in_box b x) -> boxed ts (Leaf b pid)
| boxed_fork b l r ax : boxed ts l -> boxed ts r ->
    (forall pid t, In pid (leaves l ++ leaves r) -> nth_error ts pid = Some t -> forall x, in_triangle t x -> in_box b x) ->
    boxed ts (Fork b (Some l) (Some r) ax).
