(** src/tinymesh/core/completion.cpp 23-228 and mesh.cpp 934-951: fillHoles. *)
From Coq Require Import Bool List ZArith Arith.
From Verif Require Import Num Vec Heap Mesh Construct.
Import ListNotations.
Local Open Scope mesh_scope.

Section Fill.
Context {N : Num}.
Notation M := (M N).

(** The function that [abs] in completion.cpp 155 stands for: fabs, or the int version if only
    that is visible.  What it computes does not matter for the properties. *)
Variable cabs : num -> num.

(** std::vector<Vertex *>::operator[]. *)
Definition at_ (l : list ptr) (i : nat) : M ptr := match nth_error l i with Some p => ret p | None => ub OutOfBounds end.
Definition b_pos (bd : list ptr) (i : nat) : M (vec N) := v <- at_ bd i ;; ve_pos v.

(** unordered_map<IndexPair, Halfedge *> pair2he and unordered_map<Halfedge *, IndexPair> he2pair.
    Looking up a missing key gives the value that operator[] puts there. *)
Record maps := mkP { p_he : edge_map; p_of : nat -> nat * nat }.
Definition no_maps : maps := mkP (fun _ _ => None) (fun _ => (0, 0)).
Definition p_add (i j : nat) (h : nat) (p : maps) : maps := mkP (em_set (p_he p) i j (Some h)) (fupd (p_of p) h (i, j)).
(** 95-101.  The keys (count, next) are distinct, so insert always inserts. *)
Fixpoint ring_maps (n count : nat) (hes : list ptr) (p : maps) : maps :=
  match hes with
  | Some h :: hes' => ring_maps n (S count) hes' (p_add count ((count + 1) mod n) h p)
  | _ => p
  end.

(** ** The tables: 103-171 *)

(** Warea, Wangle and O; -1 in O is [None].  The indices are in range by the bounds of the loops. *)
Record tables := mkT { t_area : nat -> nat -> num; t_angle : nat -> nat -> num; t_o : nat -> nat -> option nat }.
Definition upd2 {X} (f : nat -> nat -> X) (a b : nat) (x : X) : nat -> nat -> X := fun i j => if (i =? a) && (j =? b) then x else f i j.
(** 103-108. *)
Definition tables0 : tables := mkT (fun _ _ => nbig12) (fun _ _ => nbig12) (fun _ _ => None).
Definition t_set (a b : nat) (area angle : num) (o : option nat) (t : tables) : tables :=
  mkT (upd2 (t_area t) a b area) (upd2 (t_angle t) a b angle) (upd2 (t_o t) a b o).

(** 122-123, 146, 153: he->rev()->next()->dst()->pos(). *)
Definition opposite (h : ptr) : M (vec N) := r <- he_rev h ;; n <- he_next r ;; d <- he_dst n ;; ve_pos d.
(** 117, 137. *)
Definition fill_area (v0 v1 v2 : vec N) : num := nmul nhalf (vlength (cross (vsub v1 v0) (vsub v2 v0))).
(** 124-126, 157-159. *)
Definition fill_angle (v0 v1 v2 v01rev v12rev : vec N) : num :=
  nmax (nsub npi (dihedral v2 v0 v1 v01rev)) (nsub npi (dihedral v0 v1 v2 v12rev)).
(** 109-130: one iteration. *)
Definition fill_start (bd : list ptr) (em : edge_map) (n : nat) (t : tables) (i : nat) : M tables :=
  let t := t_set i (i + 1) nzero nzero None t in
  if i <? n - 2 then
    v0 <- b_pos bd i ;; v1 <- b_pos bd (i + 1) ;; v2 <- b_pos bd (i + 2) ;;
    v01 <- opposite (em i (i + 1)) ;; v12 <- opposite (em (i + 1) (i + 2)) ;;
    ret (t_set i (i + 2) (fill_area v0 v1 v2) (fill_angle v0 v1 v2 v01 v12) (Some (i + 1)) t)
  else ret t.
(** 141-147, 149-155. *)
Definition beyond (bd : list ptr) (em : edge_map) (t : tables) (a b : nat) : M (vec N) :=
  if b =? a + 1 then opposite (em a b) else match t_o t a b with Some j => b_pos bd j | None => ub OutOfBounds end.
(** 135-168: one iteration of the innermost loop. *)
Definition fill_try (bd : list ptr) (em : edge_map) (bound : num) (i k : nat) (t : tables) (m : nat) : M tables :=
  v0 <- b_pos bd i ;; v1 <- b_pos bd m ;; v2 <- b_pos bd k ;;
  let area := nadd (nadd (t_area t i m) (t_area t m k)) (fill_area v0 v1 v2) in
  v01 <- beyond bd em t i m ;; v12 <- beyond bd em t m k ;;
  let angle := nmax (fill_angle v0 v1 v2 v01 v12) (nmax (t_angle t i m) (t_angle t m k)) in
  if nltb angle (t_angle t i k) || (nltb (cabs (nsub angle (t_angle t i k))) bound && nltb area (t_area t i k))
  then ret (t_set i k area angle (Some m) t) else ret t.
(** 134-169: the loops over m, i and j. *)
Definition fill_cell (bd : list ptr) (em : edge_map) (bound : num) (j : nat) (t : tables) (i : nat) : M tables :=
  mfold (fill_try bd em bound i (i + j)) t (seq (i + 1) (j - 1)).
Definition fill_row (bd : list ptr) (em : edge_map) (bound : num) (n : nat) (t : tables) (j : nat) : M tables :=
  mfold (fill_cell bd em bound j) t (seq 0 (n - j)).
Definition fill_tables (bd : list ptr) (em : edge_map) (bound : num) (n : nat) : M tables :=
  t <- mfold (fill_start bd em n) tables0 (seq 0 (n - 1)) ;;
  mfold (fill_row bd em bound n) t (seq 3 (n - 3)).

(** ** The triangles: 173-197 *)

(** O(i, k) = -1 would be followed by an access at index -1: to O in the next iteration, or to
    [boundary] in 60-62.  At most one iteration per triangle is needed, so [n] are enough. *)
Definition o_at (o : nat -> nat -> option nat) (n i k : nat) : M nat :=
  if (i <? n) && (k <? n) then match o i k with Some m => ret m | None => ub OutOfBounds end else ub OutOfBounds.
Definition later (i m k : nat) : list (nat * nat) :=
  if i + 2 =? k then [] else (if i + 1 =? m then [] else [(i, m)]) ++ (if m + 1 =? k then [] else [(m, k)]).
Fixpoint fill_queue (o : nat -> nat -> option nat) (n fuel : nat) (que : list (nat * nat)) (tris : list (nat * nat * nat)) : M (list (nat * nat * nat)) :=
  match que with
  | [] => ret tris
  | (i, k) :: que' =>
      match fuel with
      | O => nofuel
      | S fuel' => m <- o_at o n i k ;; fill_queue o n fuel' (que' ++ later i m k) (tris ++ [(i, m, k)])
      end
  end.

(** ** addNewTriangle: 23-81 *)

(** 30-38 and the like. *)
Definition find_or_add (i j : nat) (p : maps) : M (nat * maps) :=
  match p_he p i j with
  | Some h => ret (h, p)
  | None =>
      h <- new_he ;;
      addHalfedge h ;;
      match h with Some a => ret (a, p_add i j a p) | None => ub NullDeref end
  end.
(** 60-78. *)
Definition put_triangle (b0 b1 b2 : ptr) (h0 h1 h2 : nat) : M nat :=
  w_src (Some h0) b0 ;; w_src (Some h1) b1 ;; w_src (Some h2) b2 ;;
  w_next (Some h0) (Some h1) ;; w_next (Some h1) (Some h2) ;; w_next (Some h2) (Some h0) ;;
  w_bd (Some h0) false ;; w_bd (Some h1) false ;; w_bd (Some h2) false ;;
  f <- new_face ;;
  addFace f ;;
  w_face (Some h0) f ;; w_face (Some h1) f ;; w_face (Some h2) f ;;
  w_fhe f (Some h0) ;;
  match f with Some a => ret a | None => ub NullDeref end.
Definition addNewTriangle (bd : list ptr) (t : nat * nat * nat) (p : maps) : M (nat * maps) :=
  let '(i0, i1, i2) := t in
  r0 <- find_or_add i0 i1 p ;;
  r1 <- find_or_add i1 i2 (snd r0) ;;
  r2 <- find_or_add i2 i0 (snd r1) ;;
  b0 <- at_ bd i0 ;; b1 <- at_ bd i1 ;; b2 <- at_ bd i2 ;;
  f <- put_triangle b0 b1 b2 (fst r0) (fst r1) (fst r2) ;;
  ret (f, snd r2).

(** 199-203. *)
Fixpoint add_triangles (bd : list ptr) (ts : list (nat * nat * nat)) (p : maps) : M (list nat * maps) :=
  match ts with
  | [] => ret ([], p)
  | t :: ts' => r <- addNewTriangle bd t p ;; r' <- add_triangles bd ts' (snd r) ;; ret (fst r :: fst r', snd r')
  end.

(** 207-223. *)
Definition pair_up (p : maps) (h : ptr) : M unit :=
  r <- he_rev h ;;
  match r with
  | Some _ => ret tt
  | None =>
      match h with
      | None => ub NullDeref
      | Some a =>
          let '(i, j) := p_of p a in
          match p_he p j i with
          | Some rev => w_rev h (Some rev) ;; w_rev (Some rev) h ;; w_bd h false ;; w_bd (Some rev) false
          | None => ret tt
          end
      end
  end.
Fixpoint pair_faces (p : maps) (fs : list nat) : M unit :=
  match fs with
  | [] => ret tt
  | f :: fs' => circ_f (Some f) tt (fun _ h => pair_up p h ;; ret (tt, false)) ;; pair_faces p fs'
  end.

(** 83-228. *)
Definition holeFillMinDihedral (face : ptr) (bound : num) : M unit :=
  bd <- f_vertices face ;;
  hes <- f_halfedges face ;;
  let n := length bd in
  let p := ring_maps n 0 hes no_maps in
  t <- fill_tables bd (p_he p) bound n ;;
  ts <- fill_queue (t_o t) n n [(0, n - 1)] [] ;;
  r <- add_triangles bd ts p ;;
  pair_faces (snd r) (fst r) ;;
  removeFace face.

(** mesh.cpp 949-951 (with the default argument of mesh.h 97). *)
Definition triangulate (face : ptr) : M unit := holeFillMinDihedral face npi.

(** mesh.cpp 934-947. *)
Fixpoint hole_indices (is : list nat) : M (list nat) :=
  match is with
  | [] => ret []
  | i :: is' => f <- mesh_face (Z.of_nat i) ;; b <- f_isHole f ;; r <- hole_indices is' ;; ret (if b then i :: r else r)
  end.
Definition fillHoles : M unit :=
  n <- get (fun m => length (m_faces m)) ;;
  holes <- hole_indices (seq 0 n) ;;
  mfor holes (fun i => f <- mesh_face (Z.of_nat i) ;; triangulate f).

End Fill.
