(** src/tinymesh/filters/denoise.cpp 174-314: denoiseL0Smooth. *)
From Coq Require Import Bool List ZArith Arith Permutation.
From Verif Require Import Num Vec Heap Mesh Measure Smooth Lapl.
Import ListNotations.
Local Open Scope mesh_scope.

Section L0.
Context {N : Num}.
Notation M := (M N).

(** The indices i1, i2, i3, i4 of denoise.cpp 196-207 and 255-266, and the corners. *)
Definition l0_corners (he : ptr) : M (ptr * ptr * ptr * ptr) :=
  rev <- he_rev he ;; v1 <- he_src he ;; n <- he_next he ;; v2 <- he_dst n ;;
  v3 <- he_src rev ;; k <- he_next rev ;; v4 <- he_dst k ;; ret (v1, v2, v3, v4).
Definition l0_triplets (e : nat) (i : Z * Z * Z * Z) (c : num * num * num * num) : list (triplet N) :=
  let '(i1, i2, i3, i4) := i in let '(c1, c2, c3, c4) := c in
  [(Z.of_nat e, i1, c1); (Z.of_nat e, i2, c2); (Z.of_nat e, i3, c3); (Z.of_nat e, i4, c4)].
Definition l0_indices (vs : ptr * ptr * ptr * ptr) : M (Z * Z * Z * Z) :=
  let '(v1, v2, v3, v4) := vs in i1 <- ve_idx v1 ;; i2 <- ve_idx v2 ;; i3 <- ve_idx v3 ;; i4 <- ve_idx v4 ;; ret (i1, i2, i3, i4).
(** 192-212: one row of R. *)
Definition l0_row (e : nat) (he : ptr) : M (list (triplet N)) :=
  vs <- l0_corners he ;; i <- l0_indices vs ;; ret (l0_triplets e i (none_, nopp none_, none_, nopp none_)).
(** 273-282: the coefficients of D. *)
Definition l0_coef (p1 p2 p3 p4 : vec N) : num * num * num * num :=
  let S123 := nmul nhalf (vlength (cross (vsub p2 p1) (vsub p2 p3))) in
  let S134 := nmul nhalf (vlength (cross (vsub p4 p1) (vsub p4 p3))) in
  let l13 := vlength (vsub p1 p3) in
  let den := nmul (nmul l13 l13) (nadd S123 S134) in
  (ndiv (nadd (nmul S123 (dot (vsub p4 p3) (vsub p3 p1))) (nmul S134 (dot (vsub p1 p3) (vsub p3 p2)))) den,
   ndiv S134 (nadd S123 S134),
   ndiv (nadd (nmul S123 (dot (vsub p3 p1) (vsub p1 p4))) (nmul S134 (dot (vsub p2 p1) (vsub p1 p3)))) den,
   ndiv S123 (nadd S123 S134)).
(** 251-288: one row of D. *)
Definition l0_drow (e : nat) (he : ptr) : M (list (triplet N)) :=
  vs <- l0_corners he ;; i <- l0_indices vs ;;
  let '(v1, v2, v3, v4) := vs in
  p1 <- ve_pos v1 ;; p2 <- ve_pos v2 ;; p3 <- ve_pos v3 ;; p4 <- ve_pos v4 ;;
  ret (l0_triplets e i (l0_coef p1 p2 p3 p4)).
Definition l0_matrix (row : nat -> ptr -> M (list (triplet N))) (es : list ptr) : M (list (triplet N)) :=
  rows <- mmap (fun e => row (fst e) (snd e)) (combine (seq 0 (length es)) es) ;; ret (concat rows).

(** Sums of Eigen's products; they are taken in increasing order of the index. *)
Definition nsum (n : nat) (f : nat -> num) : num := fold_left (fun s j => nadd s (f j)) (seq 0 n) nzero.
Definition vlin (n : nat) (c : nat -> num) (X : nat -> vec N) : vec N :=
  V3 (nsum n (fun j => nmul (c j) (vx (X j)))) (nsum n (fun j => nmul (c j) (vy (X j)))) (nsum n (fun j => nmul (c j) (vz (X j)))).
Definition at_row (X : list (vec N)) (j : nat) : vec N := nth j X vzero.
(** 295-298: y = D pVec, and delta. *)
Definition l0_delta (nv : nat) (D : list (triplet N)) (P : list (vec N)) (thr : num) (e : nat) : vec N :=
  let y := vlin nv (entry D e) (at_row P) in
  if nltb (nadd (nadd (nmul (vx y) (vx y)) (nmul (vy y) (vy y))) (nmul (vz y) (vz y))) thr then vzero else y.
(** 301: A = I + alpha R^T R + beta D^T D. *)
Definition l0_A (ne : nat) (Rm D : list (triplet N)) (alpha beta : num) (i j : nat) : num :=
  nadd (nadd (if Nat.eqb i j then none_ else nzero) (nsum ne (fun e => nmul (nmul alpha (entry Rm e i)) (entry Rm e j))))
       (nsum ne (fun e => nmul (nmul beta (entry D e i)) (entry D e j))).
(** 302: bb = pVecInit + beta D^T delta. *)
Definition l0_bb (ne nv : nat) (D : list (triplet N)) (beta : num) (P0 : list (vec N)) (delta : nat -> vec N) : list (vec N) :=
  map (fun i => vadd (at_row P0 i) (vlin ne (fun e => nmul beta (entry D e i)) delta)) (seq 0 nv).
(** 249-314: the loop.  [solves] is the solver, as in Lapl.v; that it failed is only reported.
    [m] is the mesh after smoothing: the loop does not write it.  [l0_loop … P Q]: the loop
    started with pVec = P ends with pVec = Q. *)
Inductive l0_loop (solves : nat -> (nat -> nat -> num) -> list (vec N) -> list (vec N) -> Prop) (m : mesh N) (es : list ptr) (Rm : list (triplet N)) (P0 : list (vec N)) (bmax lambda : num) :
  num -> num -> list (vec N) -> list (vec N) -> Prop :=
| l0_stop alpha beta P : nltb beta bmax = false -> l0_loop solves m es Rm P0 bmax lambda alpha beta P P
| l0_next alpha beta P D P' Q : nltb beta bmax = true -> l0_matrix l0_drow es m = Ok (D, m) ->
    (let nv := length (m_verts m) in let ne := length es in
     solves nv (l0_A ne Rm D alpha beta) (l0_bb ne nv D beta P0 (l0_delta nv D P (ndiv lambda beta))) P') ->
    l0_loop solves m es Rm P0 bmax lambda (nmul alpha nhalf) (nmul beta (nsqrt (nofZ 2))) P' Q ->
    l0_loop solves m es Rm P0 bmax lambda alpha beta P Q.
(** 174-192: the edges, in the unspecified order of an unordered_set. *)
Definition l0_edges : M (list ptr) :=
  ne <- numEdges ;; l <- get m_hes ;; es <- edge_reps l [] ;; assertion (Nat.eqb (length es) ne) ;; ret es.
(** 174-314. *)
Inductive denoiseL0Smooth (solves : nat -> (nat -> nat -> num) -> list (vec N) -> list (vec N) -> Prop) (alpha beta : num) (m : mesh N) : res (mesh N) -> Prop :=
| l0_ok avgEdge avgDihed es0 es Rm P0 m1 Q m' :
    getMeanEdgeLength m = Ok (avgEdge, m) -> getMeanDihedralAngle m = Ok (avgDihed, m) ->
    l0_edges m = Ok (es0, m) -> Permutation es es0 -> l0_matrix l0_row es m = Ok (Rm, m) -> mmap (fun v => ve_pos (Some v)) (m_verts m) m = Ok (P0, m) ->
    taubin_default m (Ok m1) ->
    l0_loop solves m1 es Rm P0 (nmul (nofZ 1000) avgEdge) (nmul (nmul (nmul (ndiv (nofZ 2) (nofZ 100)) avgEdge) avgEdge) avgDihed) (nmul alpha avgEdge) (nmul beta avgEdge) P0 Q ->
    fair_write Q m1 = Ok (tt, m') -> denoiseL0Smooth solves alpha beta m (Ok m')
| l0_throw avgEdge avgDihed es0 es Rm P0 o :
    getMeanEdgeLength m = Ok (avgEdge, m) -> getMeanDihedralAngle m = Ok (avgDihed, m) ->
    l0_edges m = Ok (es0, m) -> Permutation es es0 -> l0_matrix l0_row es m = Ok (Rm, m) -> mmap (fun v => ve_pos (Some v)) (m_verts m) m = Ok (P0, m) ->
    taubin_default m o -> (forall m1, o <> Ok m1) -> denoiseL0Smooth solves alpha beta m o.
End L0.
