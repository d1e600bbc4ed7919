(** src/tinymesh/remesh/remesh.cpp 19-199: remeshTriangular (with verbose = false).  The
    random shuffles may give any permutation of the indices. *)
From Coq Require Import Bool List ZArith Arith Permutation.
From Verif Require Import Num Vec Heap Mesh Smooth Simplify.
Import ListNotations.
Local Open Scope mesh_scope.

Section Remesh.
Context {N : Num}.
Notation M := (M N).

(** 24-38: the mean length of the half-edges (Lvar, 39, is not used). *)
Definition mean_length : M num :=
  n <- get (fun m => length (m_hes m)) ;;
  s <- mfold (fun acc i => he <- mesh_halfedge (Z.of_nat i) ;; l <- he_length he ;; ret (nadd acc l)) nzero (seq 0 n) ;;
  ret (ndiv s (nofZ (Z.of_nat n))).

(** 50-61: the smallest dihedral angle of the edges at a vertex at [p0] with the
    neighbours [ps]. *)
Definition min_dihedral (p0 : vec N) (ps : list (vec N)) : num :=
  let nn := length ps in
  fold_left (fun a j =>
    let p1 := nth j ps vzero in
    let p2 := nth ((j + 1) mod nn) ps vzero in
    let p3 := nth ((j + nn - 1) mod nn) ps vzero in
    nmin (dihedral p2 p0 p1 p3) a) (seq 0 nn) npi.
(** 43-65. *)
Definition lock_feature (keep : num) (i : nat) : M unit :=
  v <- mesh_vertex (Z.of_nat i) ;;
  ns <- v_neighbors v ;;
  ps <- mmap ve_pos ns ;;
  p0 <- ve_pos v ;;
  if nltb (min_dihedral p0 ps) keep then w_lock v true else ret tt.

(** 90-99. *)
Definition split_long (limit : num) (i : nat) : M unit :=
  n <- get (fun m => length (m_hes m)) ;;
  if i <? n then
    he <- mesh_halfedge (Z.of_nat i) ;;
    s <- he_src he ;; p1 <- ve_pos s ;;
    d <- he_dst he ;; p2 <- ve_pos d ;;
    if nleb limit (vlength (vsub p1 p2)) then b <- splitHE he ;; ret tt else ret tt
  else ret tt.

(** 138-143. *)
Fixpoint no_long (a : ptr) (limit : num) (vs : list ptr) : M bool :=
  match vs with
  | [] => ret true
  | v :: vs' => pa <- ve_pos a ;; p <- ve_pos v ;; if nleb limit (vlength (vsub pa p)) then ret false else no_long a limit vs'
  end.
(** 119-150.  The neighbours are collected before the loop over them; the loop only reads. *)
Definition collapse_short (short long : num) (i : nat) : M unit :=
  n <- get (fun m => length (m_hes m)) ;;
  if i <? n then
    he <- mesh_halfedge (Z.of_nat i) ;;
    f <- he_face he ;; lf <- f_isLocked f ;;
    if lf then ret tt else
    r <- he_rev he ;; g <- he_face r ;; lg <- f_isLocked g ;;
    if lg then ret tt else
    s <- he_src he ;; ls <- ve_lock s ;;
    if ls then ret tt else
    d <- he_dst he ;; ld <- ve_lock d ;;
    if ld then ret tt else
    p1 <- ve_pos s ;; p2 <- ve_pos d ;;
    if nleb (vlength (vsub p1 p2)) short then
      ns <- v_neighbors d ;;
      ok <- no_long s long ns ;;
      if ok then b <- collapseHE he ;; ret tt else ret tt
    else ret tt
  else ret tt.

(** 161-193. *)
Definition target_degree (b : bool) : Z := if b then 4%Z else 6%Z.
Definition remesh_flip (i : nat) : M unit :=
  he <- mesh_halfedge (Z.of_nat i) ;;
  f <- he_face he ;; bf <- f_isBoundary f ;;
  if bf then ret tt else
  r <- he_rev he ;; g <- he_face r ;; bg <- f_isBoundary g ;;
  if bg then ret tt else
  lf <- f_isLocked f ;;
  if lf then ret tt else
  lg <- f_isLocked g ;;
  if lg then ret tt else
  v0 <- he_src he ;; v1 <- he_dst he ;; n <- he_next he ;; v2 <- he_dst n ;;
  rn <- he_next r ;; v3 <- he_dst rn ;;
  l0 <- ve_lock v0 ;;
  if l0 then ret tt else
  l1 <- ve_lock v1 ;;
  if l1 then ret tt else
  d0 <- degree v0 ;; d1 <- degree v1 ;; d2 <- degree v2 ;; d3 <- degree v3 ;;
  b0 <- v_isBoundary v0 ;; b1 <- v_isBoundary v1 ;; b2 <- v_isBoundary v2 ;; b3 <- v_isBoundary v3 ;;
  let t0 := target_degree b0 in let t1 := target_degree b1 in let t2 := target_degree b2 in let t3 := target_degree b3 in
  let score := (absdiff d0 t0 + absdiff d1 t1 + absdiff d2 t2 + absdiff d3 t3)%Z in
  let after := (absdiff (d0 - 1) t0 + absdiff (d1 - 1) t1 + absdiff (d2 + 1) t2 + absdiff (d3 + 1) t3)%Z in
  if (score >? after)%Z then b <- flipHE he ;; ret tt else ret tt.

(** 81-108 with the shuffle [p]. *)
Definition split_pass (limit : num) (p : list nat) : M unit :=
  mfold (fun _ i => split_long limit i) tt p ;; b <- verify ;; ret tt.
(** 118-151 with the shuffle [p]. *)
Definition collapse_pass (short long : num) (p : list nat) : M unit :=
  mfold (fun _ i => collapse_short short long i) tt p.

(** 74-198: one iteration. *)
Inductive remesh_step (short long : num) (m : mesh N) : res (mesh N) -> Prop :=
| rs_split p o : Permutation p (seq 0 (length (m_hes m))) -> failed (split_pass long p m) o -> remesh_step short long m o
| rs_collapse p m1 q o : Permutation p (seq 0 (length (m_hes m))) -> split_pass long p m = Ok (tt, m1) ->
    Permutation q (seq 0 (length (m_hes m1))) -> failed (collapse_pass short long q m1) o -> remesh_step short long m o
| rs_flip p m1 q m2 o : Permutation p (seq 0 (length (m_hes m))) -> split_pass long p m = Ok (tt, m1) ->
    Permutation q (seq 0 (length (m_hes m1))) -> collapse_pass short long q m1 = Ok (tt, m2) ->
    failed (he_loop remesh_flip (length (m_hes m2)) 0 m2) o -> remesh_step short long m o
| rs_smooth p m1 q m2 m3 o : Permutation p (seq 0 (length (m_hes m))) -> split_pass long p m = Ok (tt, m1) ->
    Permutation q (seq 0 (length (m_hes m1))) -> collapse_pass short long q m1 = Ok (tt, m2) ->
    he_loop remesh_flip (length (m_hes m2)) 0 m2 = Ok (tt, m3) -> taubin_default m3 o -> remesh_step short long m o.

(** 21-66: everything before the loop. *)
Definition remesh_prepare (keep : num) : M num :=
  b <- verify ;; assertion b ;;
  l <- mean_length ;;
  n <- get (fun m => length (m_verts m)) ;;
  mfold (fun _ i => lock_feature keep i) tt (seq 0 n) ;;
  ret l.

(** 19-199. *)
Inductive remeshTriangular (short long keep : num) (iterations : nat) (m : mesh N) : res (mesh N) -> Prop :=
| rt_fail o : failed (remesh_prepare keep m) o -> remeshTriangular short long keep iterations m o
| rt_run l m1 o : remesh_prepare keep m = Ok (l, m1) -> repeats (fun _ => remesh_step (nmul l short) (nmul l long)) 0 iterations m1 o ->
    remeshTriangular short long keep iterations m o.

End Remesh.
