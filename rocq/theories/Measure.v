(** src/tinymesh/core/{vertex,face,mesh}.cpp: areas, normals and curvatures. *)
From Coq Require Import Bool List ZArith Arith.
From Verif Require Import Num Vec Heap Mesh Bounds.
Import ListNotations.
Local Open Scope mesh_scope.

Section Measure.
Context {N : Num}.
Notation M := (M N).

(** face.cpp 24-27, 35-38, 54-57: the corners' positions. *)
Definition f_positions (f : ptr) : M (list (vec N)) :=
  circ_f f [] (fun acc it => s <- he_src it ;; p <- ve_pos s ;; ret (acc ++ [p], false)).
(** vs[i % N]; only used with 0 <= i, N = vs.size() > 0. *)
Definition cget (vs : list (vec N)) (i : nat) : vec N := nth (Nat.modulo i (length vs)) vs vzero.

(** face.cpp 23-32. *)
Definition f_toTriangle (f : ptr) : M (triangle N) :=
  vs <- f_positions f ;;
  match vs with [a; b; c] => ret (Tri a b c) | _ => abort AAssert end.

(** face.cpp 40-49. *)
Definition poly_normal (vs : list (vec N)) : vec N :=
  fold_left (fun norm i =>
    let p0 := cget vs (i + length vs - 1) in let p1 := cget vs i in let p2 := cget vs (i + 1) in
    vadd norm (cross (vsub p2 p1) (vsub p0 p1))) (seq 0 (length vs)) vzero.
(** face.cpp 34-51. *)
Definition f_normal (f : ptr) : M (vec N) := vs <- f_positions f ;; lift (normalize (poly_normal vs)).

(** face.cpp 59-66. *)
Definition poly_area (vs : list (vec N)) : num :=
  fold_left (fun area i =>
    let p0 := cget vs i in let p1 := cget vs (i - 1) in let p2 := cget vs (i + 1) in
    nadd area (nmul nhalf (vlength (cross (vsub p1 p0) (vsub p2 p0))))) (seq 1 (length vs - 2)) nzero.
(** face.cpp 53-68. *)
Definition f_area (f : ptr) : M num := vs <- f_positions f ;; ret (poly_area vs).

(** mesh.cpp 176-183. *)
Definition getMeanFaceArea : M num :=
  l <- get m_faces ;;
  s <- mfold (fun acc f => a <- f_area (Some f) ;; ret (nadd acc a)) nzero l ;;
  ret (ndiv s (nofZ (Z.of_nat (length l)))).

(** mesh.cpp 161-171: the angle of one edge. *)
Definition he_dihedral (p : ptr) : M num :=
  rev <- he_rev p ;;
  vh1 <- he_src p ;; n <- he_next p ;; vh2 <- he_dst n ;; vh3 <- he_src rev ;; rn <- he_next rev ;; vh4 <- he_dst rn ;;
  p1 <- ve_pos vh1 ;; p2 <- ve_pos vh2 ;; p3 <- ve_pos vh3 ;; p4 <- ve_pos vh4 ;;
  ret (dihedral p2 p1 p3 p4).
(** mesh.cpp 152-174. *)
Definition getMeanDihedralAngle : M num :=
  l <- get m_hes ;; s <- edge_reps l [] ;;
  sum <- mfold (fun acc h => x <- he_dihedral h ;; ret (nadd acc x)) nzero (List.rev s) ;;
  ret (ndiv sum (nofZ (Z.of_nat (length s)))).

(** vertex.cpp 45-60. *)
Definition v_normal (v : ptr) : M (vec N) :=
  norm <- circ_v v vzero (fun norm it =>
    p0 <- ve_pos v ;; d <- he_dst it ;; p1 <- ve_pos d ;; n <- he_next it ;; d2 <- he_dst n ;; p2 <- ve_pos d2 ;;
    let e1 := vsub p1 p0 in let e2 := vsub p2 p0 in
    let l1 := vlength e1 in let l2 := vlength e2 in
    q <- lift (vdiv (cross e1 e2) (nmul (nmul (nmul l1 l1) l2) l2)) ;;
    ret (vadd norm q, false)) ;;
  lift (normalize norm).

(** vertex.cpp 87-102 (also 128-143, 169-183, 216-230): the part of the triangle
    p0 p1 p2 that is attributed to p0. *)
Definition corner_area (p0 p1 p2 : vec N) : num :=
  let e1 := vsub p1 p0 in
  let e2 := vsub p2 p0 in
  if negb (obtuse p0 p1 p2) then
    let l1 := vlength e1 in
    let l2 := vlength e2 in
    nadd (nmul (nmul (nmul neighth l1) l1) (cot p0 p2 p1)) (nmul (nmul (nmul neighth l2) l2) (cot p0 p1 p2))
  else if nltb (dot e1 e2) nzero then nmul (nmul nhalf (vlength (cross e1 e2))) nhalf
  else nmul (nmul nhalf (vlength (cross e1 e2))) nquarter.

(** vertex.cpp 73-76: positions of the neighbours. *)
Definition v_positions (v : ptr) : M (list (vec N)) :=
  circ_v v [] (fun acc it => d <- he_dst it ;; p <- ve_pos d ;; ret (acc ++ [p], false)).
(** vertex.cpp 78-105. *)
Definition ring_area (p0 : vec N) (ps : list (vec N)) : num :=
  fold_left (fun sum i => nadd sum (corner_area p0 (cget ps i) (cget ps (i + 1)))) (seq 0 (length ps)) nzero.
(** vertex.cpp 72-106. *)
Definition v_volonoi (v : ptr) : M num :=
  ps <- v_positions v ;; p0 <- ve_pos v ;; ret (ring_area p0 ps).

(** vertex.cpp 108-145.  [index] is the last position at which the vertex occurs. *)
Fixpoint last_index (v : ptr) (l : list ptr) (i : nat) (acc : option nat) : option nat :=
  match l with [] => acc | p :: l' => last_index v l' (S i) (if ptr_eqb p v then Some i else acc) end.
Definition v_volonoiIn (v f : ptr) : M num :=
  vs <- f_vertices f ;;
  match last_index v vs 0 None with
  | None => abort AAssert
  | Some index =>
      assertion (length vs =? 3) ;;
      p0 <- ve_pos (nth index vs None) ;;
      p1 <- ve_pos (nth (Nat.modulo (index + 1) 3) vs None) ;;
      p2 <- ve_pos (nth (Nat.modulo (index + 2) 3) vs None) ;;
      ret (corner_area p0 p1 p2)
  end.

(** vertex.cpp 148-186. *)
Definition v_K (v : ptr) : M num :=
  ps <- v_positions v ;; p0 <- ve_pos v ;;
  let qs := List.rev ps in
  let sumAngles := fold_left (fun s i =>
    let e1 := vsub (cget qs i) p0 in let e2 := vsub (cget qs (i + 1)) p0 in
    nadd s (natan2 (vlength (cross e1 e2)) (dot e1 e2))) (seq 0 (length qs)) nzero in
  ret (ndiv (nsub (nmul ntwo npi) sumAngles) (ring_area p0 qs)).

(** vertex.cpp 188-233. *)
Definition v_H (v : ptr) : M num :=
  ps <- v_positions v ;; p0 <- ve_pos v ;;
  let qs := List.rev ps in
  let laplace := fold_left (fun s i =>
    let p1 := cget qs i in let p2 := cget qs (i + 1) in let p3 := cget qs (i + length qs - 1) in
    vadd s (vscale (nadd (cot p0 p2 p1) (cot p0 p3 p1)) (vsub p1 p0))) (seq 0 (length qs)) vzero in
  n <- v_normal v ;;
  ret (ndiv (nmul (nopp none_) (dot laplace n)) (nmul ntwo (ring_area p0 qs))).

End Measure.
