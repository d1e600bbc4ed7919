(** src/tinymesh/ops/features.cpp 501-736: ridges and valleys, and the direction field they define. *)
From Coq Require Import Bool List ZArith Arith.
From Verif Require Import Num Vec Heap Mesh Measure Lapl Features Tensor Deriv.
Import ListNotations.
Local Open Scope mesh_scope.

Section Feat.
Context {N : Num}.
Notation M := (M N).
(** std::cos, std::sin, A.ldlt().solve(b) for the small dense systems, and, for a sparse symmetric
    n x n matrix A, SimplicialLDLT(A).solve(b), for one column b. *)
Variables (ncos nsin : num -> num).
Variable ldlt : nat -> (nat -> nat -> num) -> (nat -> num) -> nat -> num.
Variable sparse : nat -> (nat -> nat -> num) -> (nat -> num) -> nat -> num.

(** What getPrincipalCurvaturesWithDerivatives returns for a vertex: (k_max, k_min, t_max, t_min), (e_max, e_min). *)
Definition sample : Type := pc N * (num * num).
(** 543: the literal 1.0e-2; 652: 1.0e-8.  Both are correctly rounded quotients. *)
Definition ncenti : num := ndiv none_ (nofZ 100).
Definition neps8 : num := ndiv none_ (nofZ 100000000).

(** 515-567.  NONE = 0, VALLEY = 1, RIDGE = -1. *)
Definition checkRV (p1 p2 : vec N) (x1 x2 : sample) : Z :=
  let k1_max := k_max (fst x1) in let k1_min := k_min (fst x1) in
  let k2_max := k_max (fst x2) in let k2_min := k_min (fst x2) in
  let t1 := t_max (fst x1) in let e1 := fst (snd x1) in
  let turn := nltb (dot t1 (t_max (fst x2))) nzero in
  let t2 := if turn then vscale (nopp none_) (t_max (fst x2)) else t_max (fst x2) in
  let e2 := if turn then nmul (nopp none_) (fst (snd x2)) else fst (snd x2) in
  if nltb (nabs (nsub k1_max k1_min)) ncenti || nltb (nabs (nsub k2_max k2_min)) ncenti then 0%Z else
  if nleb nzero (nmul e1 e2) then 0%Z else
  let c1 := nmul e1 (dot (vsub p2 p1) t1) in
  let c2 := nmul e2 (dot (vsub p1 p2) t2) in
  if (nltb (nabs k1_min) k1_max && nltb (nabs k2_min) k2_max) && (nltb nzero c1 && nltb nzero c2) then (-1)%Z else
  if (nltb k1_max (nabs k1_min) && nltb k2_max (nabs k2_min)) && (nltb c1 nzero && nltb c2 nzero) then 1%Z else 0%Z.
(** 520-523: the reads of checkRV. *)
Definition check (X : list sample) (v1 v2 : ptr) : M Z :=
  i1 <- ve_idx v1 ;; i2 <- ve_idx v2 ;; p1 <- ve_pos v1 ;; p2 <- ve_pos v2 ;;
  x1 <- tab_at X i1 ;; x2 <- tab_at X i2 ;; ret (checkRV p1 p2 x1 x2).
(** 582-590. *)
Definition rv_flag (r0 r1 r2 : Z) : Z :=
  if (r0 =? 0)%Z && (r1 =? 0)%Z && (r2 =? 0)%Z then 0%Z else
  let a := if (0 <=? r0)%Z && (0 <=? r1)%Z && (0 <=? r2)%Z then 1%Z else 0%Z in
  if (r0 <=? 0)%Z && (r1 <=? 0)%Z && (r2 <=? 0)%Z then (-1)%Z else a.
(** 572-590: one face. *)
Definition face_rv (X : list sample) (f : ptr) : M Z :=
  vs <- f_vertices f ;;
  match vs with
  | [v0; v1; v2] => r0 <- check X v0 v1 ;; r1 <- check X v1 v2 ;; r2 <- check X v2 v0 ;; ret (rv_flag r0 r1 r2)
  | _ => abort AAssert
  end.

(** rvDirections and ridgeValleyFlags, vertex by vertex. *)
Definition marks : Type := list (vec N * num).
Fixpoint upd {X} (l : list X) (i : nat) (g : X -> X) : option (list X) :=
  match l, i with
  | [], _ => None
  | x :: l', O => Some (g x :: l')
  | x :: l', S i' => match upd l' i' g with Some r => Some (x :: r) | None => None end
  end.
(** 635 and 637, 636 and 638. *)
Definition add_mark (D : marks) (i : Z) (d : vec N) : M marks :=
  if (i <? 0)%Z then ub OutOfBounds else
  match upd D (Z.to_nat i) (fun x => (vadd (fst x) d, nadd (snd x) none_)) with Some D' => ret D' | None => ub OutOfBounds end.
(** 605-610: how many of the faces around [f] have a flag, and the index of the last one. *)
Definition flagged_around (fl : list Z) (f : ptr) : M (Z * Z) :=
  circ_f f (0%Z, (-1)%Z) (fun acc it => r <- he_rev it ;; g <- he_face r ;; j <- fa_idx g ;; x <- tab_at fl j ;;
    ret (if (x =? 0)%Z then acc else ((fst acc + 1)%Z, j), false)).
(** 631-632. *)
Definition inward (p0 p1 p2 : vec N) : option (vec N) :=
  let e1 := vsub p1 p0 in let e2 := vsub p2 p0 in
  match normalize (cross e1 e2) with None => None | Some n => normalize (cross n e1) end.
(** 622-638: the edge between [f] and a flagged face. *)
Definition mark_edge (orient : Z) (D : marks) (it : ptr) : M marks :=
  v0 <- he_src it ;; v1 <- he_dst it ;; n <- he_next it ;; v2 <- he_dst n ;;
  p0 <- ve_pos v0 ;; p1 <- ve_pos v1 ;; p2 <- ve_pos v2 ;;
  d <- lift (inward p0 p1 p2) ;;
  i0 <- ve_idx v0 ;; i1 <- ve_idx v1 ;;
  D <- add_mark D i0 (vscale (nofZ orient) d) ;;
  add_mark D i1 (vscale (nofZ orient) d).
(** 598-645: one face. *)
Definition mark_face (fl : list Z) (D : marks) (f : ptr) : M marks :=
  i <- fa_idx f ;; own <- tab_at fl i ;;
  if negb (own =? 0)%Z then ret D else
  co <- flagged_around fl f ;;
  if negb (fst co =? 1)%Z then ret D else
  g <- mesh_face (snd co) ;;
  gi <- fa_idx g ;; orient <- tab_at fl gi ;;
  assertion (negb (orient =? 0)%Z) ;;
  r <- circ_f f (D, false) (fun acc it => r <- he_rev it ;; h <- he_face r ;;
    if ptr_eqb h g then D' <- mark_edge orient (fst acc) it ;; ret ((D', true), true) else ret (acc, false)) ;;
  assertion (snd r) ;; ret (fst r).
(** 649-655: one vertex. *)
Definition mean_mark (x : vec N * num) : option (vec N * num) :=
  if neqb (snd x) nzero then Some x else
  match vdiv (fst x) (snd x) with
  | None => None
  | Some d => if nltb neps8 (vlength d) then match normalize d with None => None | Some d' => Some (d', none_) end else Some (d, none_)
  end.

(** 661-664: std::unordered_map from indices of vertices to consecutive numbers; the number of an
    index is its position. *)
Fixpoint number_of (l : list Z) (i : Z) : option nat :=
  match l with [] => None | j :: l' => if (j =? i)%Z then Some O else option_map S (number_of l' i) end.
(** 669-673, 680-684, 688-692. *)
Definition number (l : list Z) (i : Z) : list Z * nat := match number_of l i with Some k => (l, k) | None => (l ++ [i], length l) end.
(** 659-664: uniqueNonRV, uniqueRV, tripNonRV, tripRV. *)
Record system := Sys { s_non : list Z; s_rv : list Z; s_LL : list (triplet N); s_SS : list (triplet N) }.
(** 675-696: one half-edge of the vertex with number [row]. *)
Definition field_edge (D : marks) (row : nat) (acc : system * num) (it : ptr) : M (system * num) :=
  let s := fst acc in
  u <- he_dst it ;; weight <- he_cotWeight it ;; j <- ve_idx u ;; x <- tab_at D j ;;
  let s' := if negb (neqb (snd x) nzero)
    then let nc := number (s_rv s) j in Sys (s_non s) (fst nc) (s_LL s) (s_SS s ++ [(Z.of_nat row, Z.of_nat (snd nc), nopp weight)])
    else let nc := number (s_non s) j in Sys (fst nc) (s_rv s) (s_LL s ++ [(Z.of_nat row, Z.of_nat (snd nc), nopp weight)]) (s_SS s) in
  ret (s', nadd (snd acc) weight).
(** 666-698: one vertex. *)
Definition field_row (D : marks) (s : system) (i : nat) : M system :=
  v <- mesh_vertex (Z.of_nat i) ;;
  x <- tab_at D (Z.of_nat i) ;;
  if negb (neqb (snd x) nzero) then ret s else
  let nc := number (s_non s) (Z.of_nat i) in
  r <- circ_v v (Sys (fst nc) (s_rv s) (s_LL s) (s_SS s), nzero) (fun acc it => a <- field_edge D (snd nc) acc it ;; ret (a, false)) ;;
  ret (Sys (s_non (fst r)) (s_rv (fst r)) (s_LL (fst r) ++ [(Z.of_nat (snd nc), Z.of_nat (snd nc), snd r)]) (s_SS (fst r))).
(** 665-699. *)
Definition field_system (D : marks) : M system :=
  l <- get m_verts ;; mfold (field_row D) (Sys [] [] [] []) (seq 0 (length l)).
(** 713-720: one column of -SS * xxRV; the products are added up in the order of the columns. *)
Definition field_rhs (D : marks) (s : system) (c : vec N -> num) (i : nat) : num :=
  fold_left nadd (map (fun kj => nmul (nopp (entry (s_SS s) i (fst kj))) (c (fst (nth (Z.to_nat (snd kj)) D (vzero, nzero))))) (combine (seq 0 (length (s_rv s))) (s_rv s))) nzero.
(** 701-722, 726: the solution for the vertex with number [k]. *)
Definition field_value (D : marks) (s : system) (k : nat) : vec N :=
  let x c := sparse (length (s_non s)) (entry (s_LL s)) (field_rhs D s c) k in V3 (x vx) (x vy) (x vz).
(** 724-734: the rows of the result; 724-727 write to different rows, so their order is immaterial. *)
Definition field_result (D : marks) (s : system) (i : nat) (x : vec N * num) : M (vec N * num) :=
  match number_of (s_non s) (Z.of_nat i) with
  | Some k => d <- lift (normalize (field_value D s k)) ;; ret (d, snd x)
  | None => ret x
  end.
(** 657-734: the rows of the other vertices. *)
Definition extend_field (D : marks) : M (list (vec N * num)) :=
  s <- field_system D ;;
  vs <- get m_verts ;;
  mmap (fun ix => field_result D s (fst ix) (snd ix)) (combine (seq 0 (length vs)) D).
(** 506-736: the rows of the direction field, each with its flag. *)
Definition getFeatureLineFieldWithFlags (smoothTensors : bool) : M (list (vec N * num)) :=
  X <- getPrincipalCurvaturesWithDerivatives ncos nsin ldlt smoothTensors ;;
  fs <- get m_faces ;;
  fl <- mmap (fun f => face_rv X (Some f)) fs ;;
  vs <- get m_verts ;;
  D <- mfold (fun D f => mark_face fl D (Some f)) (map (fun _ => (vzero, nzero)) vs) fs ;;
  D <- mmap (fun x => lift (mean_mark x)) D ;;
  extend_field D.
(** 501-504. *)
Definition getFeatureLineField (smoothTensors : bool) : M (list (vec N)) :=
  r <- getFeatureLineFieldWithFlags smoothTensors ;; ret (map fst r).
End Feat.
Arguments sample N : clear implicits.
Arguments marks N : clear implicits.
Arguments system N : clear implicits.
