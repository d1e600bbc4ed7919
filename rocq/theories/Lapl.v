(** src/tinymesh/ops/operators.cpp, and implicitFairing of filters/smooth.cpp. *)
From Coq Require Import Bool List ZArith Arith.
From Verif Require Import Num Vec Heap Mesh.
Import ListNotations.
Local Open Scope mesh_scope.

Section Lapl.
Context {N : Num}.
Notation M := (M N).

(** Eigen::Triplet: row, column, value. *)
Definition triplet : Type := Z * Z * num.
(** SparseMatrix::setFromTriplets: values with the same position are added up. *)
Definition entry (ts : list triplet) (i j : nat) : num :=
  fold_left nadd (map snd (filter (fun t => (fst (fst t) =? Z.of_nat i)%Z && (snd (fst t) =? Z.of_nat j)%Z) ts)) nzero.

(** operators.cpp 16-23: one row of the adjacency operator. *)
Definition adj_row (i : nat) : M (list triplet) :=
  v <- mesh_vertex (Z.of_nat i) ;;
  r <- circ_v v ([], 0%Z) (fun acc it =>
    d <- he_dst it ;; j <- ve_idx d ;;
    ret ((fst acc ++ [(Z.of_nat i, j, nopp none_)], (snd acc + 1)%Z), false)) ;;
  ret (fst r ++ [(Z.of_nat i, Z.of_nat i, nofZ (snd r))]).
(** 12-27. *)
Definition lap_adjacent : M (list triplet) :=
  l <- get m_verts ;; rows <- mmap adj_row (seq 0 (length l)) ;; ret (concat rows).

(** 33-41. *)
Definition cot_row (i : nat) : M (list triplet) :=
  v <- mesh_vertex (Z.of_nat i) ;;
  r <- circ_v v ([], nzero) (fun acc it =>
    d <- he_dst it ;; j <- ve_idx d ;; w <- he_cotWeight it ;;
    ret ((fst acc ++ [(Z.of_nat i, j, nopp w)], nadd (snd acc) w), false)) ;;
  ret (fst r ++ [(Z.of_nat i, Z.of_nat i, snd r)]).
(** 29-45. *)
Definition lap_cotangent : M (list triplet) :=
  l <- get m_verts ;; rows <- mmap cot_row (seq 0 (length l)) ;; ret (concat rows).

(** 66-68. *)
Definition belkin_weight (h : num) (pv pu : vec N) : num :=
  let norm := vlength (vsub pv pu) in
  ndiv (nexp (ndiv (nmul (nopp norm) norm) (nmul (nofZ 4) h))) (nmul (nmul (nofZ 4) npi) h).
(** 60-77; the areas are computed and not used. *)
Definition belkin_row (h : num) (i : nat) : M (list triplet) :=
  v <- mesh_vertex (Z.of_nat i) ;;
  r <- circ_v v (([], nzero), nzero) (fun acc it =>
    u <- he_dst it ;; pv <- ve_pos v ;; pu <- ve_pos u ;;
    let w := belkin_weight h pv pu in
    j <- ve_idx u ;;
    n <- he_next it ;; x <- he_dst n ;; pw <- ve_pos x ;;
    let area := nadd (snd acc) (ndiv (vlength (cross (vsub pu pv) (vsub pw pv))) (nofZ 6)) in
    ret (((fst (fst acc) ++ [(Z.of_nat i, j, nopp w)], nadd (snd (fst acc)) w), area), false)) ;;
  ret (fst (fst r) ++ [(Z.of_nat i, Z.of_nat i, snd (fst r))]).
(** 51-86. *)
Definition lap_belkin : M (list triplet) :=
  h <- getMeanEdgeLength ;;
  l <- get m_verts ;; rows <- mmap (belkin_row h) (seq 0 (length l)) ;; ret (concat rows).

(** ops.h: MeshLaplace; any other value of the enumeration is [OtherOp]. *)
Inductive lap_type := Adjacent | Cotangent | Belkin08 | OtherOp.
(** 88-100. *)
Definition getMeshLaplacian (t : lap_type) : M (list triplet) :=
  match t with
  | Adjacent => lap_adjacent
  | Cotangent => lap_cotangent
  | Belkin08 => lap_belkin
  | OtherOp => abort AError
  end.

(** ** implicitFairing: smooth.cpp 101-166 *)

(** 119-137: one row of the diffusion matrix K. *)
Definition fair_row (i : nat) : M (list triplet) :=
  v <- mesh_vertex (Z.of_nat i) ;;
  r <- circ_v v ([], nzero) (fun acc it =>
    w <- he_cotWeight it ;; d <- he_dst it ;; j <- ve_idx d ;;
    ret ((fst acc ++ [(Z.of_nat i, j, w)], nadd (snd acc) w), false)) ;;
  ret (map (fun t => (fst t, ndiv (snd t) (snd r))) (fst r) ++ [(Z.of_nat i, Z.of_nat i, nopp none_)]).
(** 145-151: A = I - epsilon * K. *)
Definition fair_matrix (eps : num) : M (nat -> nat -> num) :=
  l <- get m_verts ;; rows <- mmap fair_row (seq 0 (length l)) ;;
  ret (fun i j => nsub (if Nat.eqb i j then none_ else nzero) (nmul eps (entry (concat rows) i j))).
(** 161-164. *)
Definition fair_write (xs : list (vec N)) : M unit :=
  l <- get m_verts ;;
  mfold (fun _ i => v <- mesh_vertex (Z.of_nat i) ;; match nth_error xs i with Some x => w_pos v x | None => ub OutOfBounds end) tt (seq 0 (length l)).
(** 107-165: one iteration.  [solves n A X X'] : the solver (Eigen::BiCGSTAB, tolerance
    1e-6, at most 50 iterations) can return X' for A and X; the solver itself is not modelled. *)
Inductive fair_step (solves : nat -> (nat -> nat -> num) -> list (vec N) -> list (vec N) -> Prop) (eps : num) (m : mesh N) : res (mesh N) -> Prop :=
| fair_ok A m1 X X' m2 m' : fair_matrix eps m = Ok (A, m1) -> mmap (fun v => ve_pos (Some v)) (m_verts m1) m1 = Ok (X, m2) ->
    solves (length (m_verts m2)) A X X' -> fair_write X' m2 = Ok (tt, m') -> fair_step solves eps m (Ok m').
Inductive implicitFairing (solves : nat -> (nat -> nat -> num) -> list (vec N) -> list (vec N) -> Prop) (eps : num) : nat -> mesh N -> res (mesh N) -> Prop :=
| if_0 m : implicitFairing solves eps 0 m (Ok m)
| if_S n m m1 o : fair_step solves eps m (Ok m1) -> implicitFairing solves eps n m1 o -> implicitFairing solves eps (S n) m o.

End Lapl.
Arguments triplet N : clear implicits.
