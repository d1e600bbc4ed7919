(** src/tinymesh/core/completion.cpp 548-701: the relaxation of the vertices that were put into a hole. *)
From Coq Require Import Bool List ZArith Arith.
From Verif Require Import Num Vec Heap Mesh Measure Lapl Tensor Feat.
Import ListNotations.
Local Open Scope mesh_scope.

Section Relax.
Context {N : Num}.
Notation M := (M N).
(** std::cos, std::sin, and SimplicialLDLT(A).solve(b) for an n x n matrix A and one column b. *)
Variables (ncos nsin : num -> num).
Variable sparse : nat -> (nat -> nat -> num) -> (nat -> num) -> nat -> num.
(** insideVerts is a list in the order in which the unordered_set is traversed.  The unordered_maps
    newNormals and rotGrads are functions with the value of a new entry, a zero vector, elsewhere. *)
Definition field : Type := nat -> vec N.
Definition fzero : field := fun _ => vzero.
Definition fset (T : field) (v : nat) (x : vec N) : field := fun u => if u =? v then x else T u.
Definition fget (T : field) (p : ptr) : vec N := match p with Some v => T v | None => vzero end.
Definition inside (l : list nat) (p : ptr) : bool := match p with Some v => existsb (Nat.eqb v) l | None => false end.

(** ** Normals: 548-569 *)

(** 549-552. *)
Definition first_normals (l : list nat) : M field :=
  mfold (fun T v => n <- v_normal (Some v) ;; ret (fset T v n)) fzero l.
(** 556-567: one vertex. *)
Definition smooth_normal (T : field) (v : nat) : M field :=
  r <- circ_v (Some v) (vzero, nzero) (fun acc it =>
    d <- he_dst it ;; weight <- he_cotWeight it ;;
    ret ((vadd (fst acc) (vscale weight (fget T d)), nadd (snd acc) weight), false)) ;;
  q <- lift (vdiv (vscale nhalf (fst r)) (snd r)) ;;
  n <- lift (normalize (vadd (vscale nhalf (T v)) q)) ;;
  ret (fset T v n).
(** 554-569, with [k] sweeps. *)
Fixpoint smooth_normals (k : nat) (l : list nat) (T : field) : M field :=
  match k with O => ret T | S k' => T' <- mfold smooth_normal T l ;; smooth_normals k' l T' end.
(** 548-569. *)
Definition new_normals (l : list nat) : M field := T <- first_normals l ;; smooth_normals 1000 l T.

(** ** Rotations: 571-604 *)

(** 577-583. *)
Definition face_inside (l : list nat) (f : ptr) : M bool :=
  circ_f f true (fun b vit =>
    s <- he_src vit ;; lk <- f_isLocked f ;;
    ret (if negb (inside l s) && negb lk then (false, true) else (b, false))).
(** 573-589.  A face may be entered several times; the faces are visited in the order of the first entry. *)
Definition inside_faces (l : list nat) : M (list nat) :=
  mfold (fun acc v => fs <- v_faces (Some v) ;;
    mfold (fun acc f => b <- face_inside l f ;;
      ret (match f with Some a => if b && negb (existsb (Nat.eqb a) acc) then acc ++ [a] else acc | None => acc end)) acc fs) [] l.
(** 600-602. *)
Definition turn (n0 n1 : vec N) : mat3 N :=
  let axis := cross n0 n1 in
  rotationAxisAngle ncos nsin (natan2 (vlength axis) (dot n0 n1)) axis.
(** 593-603. *)
Definition rotation_of (T : field) (f : nat) : M (mat3 N) :=
  n0 <- f_normal (Some f) ;;
  n1 <- circ_f (Some f) vzero (fun acc it => s <- he_src it ;; ret (vadd acc (fget T s), false)) ;;
  n1 <- lift (normalize n1) ;;
  ret (turn n0 n1).
Definition rotations (T : field) (fs : list nat) : M (list (nat * mat3 N)) :=
  mmap (fun f => r <- rotation_of T f ;; ret (f, r)) fs.
Fixpoint rot_at (R : list (nat * mat3 N)) (f : nat) : option (mat3 N) :=
  match R with [] => None | (g, r) :: R' => if g =? f then Some r else rot_at R' f end.
(** 629: rotations[it->face()]; the matrix of a face that has no entry would be uninitialised. *)
Definition rotation_at (R : list (nat * mat3 N)) (f : ptr) : M (mat3 N) :=
  match f with
  | Some a => match rot_at R a with Some r => ret r | None => ub OutOfBounds end
  | None => ub OutOfBounds
  end.

(** ** Gradients: 606-634 *)

(** 618-622: half of e12_rot90 is applied in 629.  [None]: normalize throws. *)
Definition rot90 (p0 p1 p2 : vec N) : option (vec N) :=
  let l12 := vsub p2 p1 in
  match normalize (vsub p0 p1), normalize (vsub p2 p1) with
  | Some e10, Some e12 =>
      let perp := cross e12 e10 in
      match normalize (cross e12 perp) with Some x => Some (vscale (vlength l12) x) | None => None end
  | _, _ => None
  end.
(** 610-630: one half-edge. *)
Definition gradient_edge (R : list (nat * mat3 N)) (it : ptr) : M (vec N) :=
  n <- he_next it ;; nn <- he_next n ;; nnn <- he_next nn ;;
  assertion (ptr_eqb nnn it) ;;
  v0 <- he_src it ;; v1 <- he_src n ;; v2 <- he_src nn ;;
  p0 <- ve_pos v0 ;; p1 <- ve_pos v1 ;; p2 <- ve_pos v2 ;;
  e <- lift (rot90 p0 p1 p2) ;;
  f <- he_face it ;; r <- rotation_at R f ;;
  lift (vdiv (mapp r e) ntwo).
(** 607-633: one vertex. *)
Definition gradient (R : list (nat * mat3 N)) (v : nat) : M (vec N) :=
  r <- circ_v (Some v) (vzero, 0%Z) (fun acc it =>
    g <- gradient_edge R it ;; ret ((vadd (fst acc) g, snd acc + 1)%Z, false)) ;;
  lift (vdiv (fst r) (nofZ (snd r))).
Definition gradients (R : list (nat * mat3 N)) (l : list nat) : M field :=
  mfold (fun T v => g <- gradient R v ;; ret (fset T v g)) fzero l.

(** ** The Poisson equation: 636-701 *)

(** 644-670 is the loop of features.cpp 665-698 ([field_row]) over the vertices inside: a vertex is
    outer if it has a flag.  The maps uniqueInner and uniqueOuter have vertices for keys; here the
    keys are the indices of the vertices.  The position is the row of xxOuter (679-684). *)
Definition outer_marks (l : list nat) : M (marks N) :=
  vs <- get m_verts ;;
  mmap (fun v => p <- ve_pos (Some v) ;; ret (p, if inside l (Some v) then nzero else none_)) vs.
(** 636-670. *)
Definition poisson_system (D : marks N) (l : list nat) : M (system N) :=
  mfold (fun s v => i <- ve_idx (Some v) ;; field_row D s (Z.to_nat i)) (Sys [] [] [] []) l.
(** 672-677: the vector of the vertex with number [k]. *)
Definition grad_row (vs : list nat) (G : field) (s : system N) (k : nat) : vec N :=
  match nth_error (s_non s) k with
  | Some j => match nth_error vs (Z.to_nat j) with Some v => G v | None => vzero end
  | None => vzero
  end.
(** 692: one column of bbInner - SS * xxOuter. *)
Definition poisson_rhs (vs : list nat) (D : marks N) (G : field) (s : system N) (c : vec N -> num) (k : nat) : num :=
  nadd (c (grad_row vs G s k)) (field_rhs D s c k).
(** 686-694: the solution for the vertex with number [k]. *)
Definition poisson_value (vs : list nat) (D : marks N) (G : field) (s : system N) (k : nat) : vec N :=
  let x c := sparse (length (s_non s)) (entry (s_LL s)) (poisson_rhs vs D G s c) k in V3 (x vx) (x vy) (x vz).
(** 696-701: the new positions. *)
Definition poisson (G : field) (l : list nat) : M field :=
  D <- outer_marks l ;;
  s <- poisson_system D l ;;
  vs <- get m_verts ;;
  mfold (fun T v => i <- ve_idx (Some v) ;;
    match number_of (s_non s) i with
    | Some k => ret (fset T v (poisson_value vs D G s k))
    | None => ret T
    end) fzero l.

(** 548-701: the new positions of the vertices [l]. *)
Definition relaxed (l : list nat) : M field :=
  T <- new_normals l ;;
  fs <- inside_faces l ;;
  R <- rotations T fs ;;
  G <- gradients R l ;;
  poisson G l.
(** The function that the model of holeFillAdvancingFront takes. *)
Definition relaxation (m : mesh N) (l : list nat) : option field :=
  match relaxed l m with Ok (T, _) => Some T | _ => None end.
End Relax.
