(** Memory model: the heap of Vertex / Halfedge / Face objects owned by a Mesh,
    and the monad in which the C++ functions are transcribed. *)
From Coq Require Import Bool List ZArith Arith.
From Verif Require Import Num Vec.
Import ListNotations.

(** A raw pointer; [None] is [nullptr]. *)
Definition ptr := option nat.

Definition ptr_eqb (p q : ptr) : bool :=
  match p, q with
  | None, None => true
  | Some a, Some b => Nat.eqb a b
  | _, _ => false
  end.

Definition fupd {X} (f : nat -> X) (a : nat) (x : X) : nat -> X :=
  fun b => if Nat.eqb b a then x else f b.

(** Undefined behaviour and controlled failures are different outcomes. *)
Inductive ubkind := NullDeref | Dangling | OutOfBounds.
Inductive abkind :=
| AError        (* Error(...): debug.h 110-121, terminates (C++) or throws (Python) *)
| AAssert       (* failing Assertion(...): debug.h 123ff *)
| AThrow.       (* std::runtime_error out of Vec *)

Inductive res (A : Type) :=
| Ok (a : A)
| UB (k : ubkind)
| Abort (k : abkind)
| NoFuel.
Arguments Ok {A} _.
Arguments UB {A} _.
Arguments Abort {A} _.
Arguments NoFuel {A}.

Section Heap.
Context {N : Num}.

(** mesh.h 101-105 (the vectors), vertex.h / halfedge.h 66-71 / face.h (the data
    members).  One map per data member; [*_live a] says that [a] is the address
    of an object that has been allocated and not freed.  Addresses are never
    reused by the model. *)
Record mesh := mkMesh {
  m_verts : list nat;              (* vertices_  *)
  m_hes   : list nat;              (* halfedges_ *)
  m_faces : list nat;              (* faces_     *)
  m_indices : list nat;            (* indices_   *)
  m_fresh : nat;                   (* next unused address *)
  v_live : nat -> bool;
  v_pos  : nat -> vec N;           (* Vertex::pos_ *)
  v_he   : nat -> ptr;             (* Vertex::halfedge_ *)
  v_idx  : nat -> Z;               (* Vertex::index_ *)
  v_lock : nat -> bool;            (* Vertex::isLocked_ *)
  h_live : nat -> bool;
  h_src  : nat -> ptr;             (* Halfedge::src_ *)
  h_next : nat -> ptr;             (* Halfedge::next_ *)
  h_rev  : nat -> ptr;             (* Halfedge::rev_ *)
  h_face : nat -> ptr;             (* Halfedge::face_ *)
  h_idx  : nat -> Z;               (* Halfedge::index_ *)
  h_bd   : nat -> bool;            (* Halfedge::isBoundary_ *)
  f_live : nat -> bool;
  f_he   : nat -> ptr;             (* Face::halfedge_ *)
  f_idx  : nat -> Z                (* Face::index_ *)
}.

(** Mesh::Mesh(), mesh.cpp 36-37. *)
Definition empty_mesh : mesh :=
  mkMesh [] [] [] [] 0
    (fun _ => false) (fun _ => vzero) (fun _ => None) (fun _ => (-1)%Z) (fun _ => false)
    (fun _ => false) (fun _ => None) (fun _ => None) (fun _ => None) (fun _ => None) (fun _ => (-1)%Z) (fun _ => false)
    (fun _ => false) (fun _ => None) (fun _ => (-1)%Z).

(** Record updates. *)
Definition set_m_verts x m := mkMesh x (m_hes m) (m_faces m) (m_indices m) (m_fresh m) (v_live m) (v_pos m) (v_he m) (v_idx m) (v_lock m) (h_live m) (h_src m) (h_next m) (h_rev m) (h_face m) (h_idx m) (h_bd m) (f_live m) (f_he m) (f_idx m).
Definition set_m_hes x m := mkMesh (m_verts m) x (m_faces m) (m_indices m) (m_fresh m) (v_live m) (v_pos m) (v_he m) (v_idx m) (v_lock m) (h_live m) (h_src m) (h_next m) (h_rev m) (h_face m) (h_idx m) (h_bd m) (f_live m) (f_he m) (f_idx m).
Definition set_m_faces x m := mkMesh (m_verts m) (m_hes m) x (m_indices m) (m_fresh m) (v_live m) (v_pos m) (v_he m) (v_idx m) (v_lock m) (h_live m) (h_src m) (h_next m) (h_rev m) (h_face m) (h_idx m) (h_bd m) (f_live m) (f_he m) (f_idx m).
Definition set_m_indices x m := mkMesh (m_verts m) (m_hes m) (m_faces m) x (m_fresh m) (v_live m) (v_pos m) (v_he m) (v_idx m) (v_lock m) (h_live m) (h_src m) (h_next m) (h_rev m) (h_face m) (h_idx m) (h_bd m) (f_live m) (f_he m) (f_idx m).
Definition set_m_fresh x m := mkMesh (m_verts m) (m_hes m) (m_faces m) (m_indices m) x (v_live m) (v_pos m) (v_he m) (v_idx m) (v_lock m) (h_live m) (h_src m) (h_next m) (h_rev m) (h_face m) (h_idx m) (h_bd m) (f_live m) (f_he m) (f_idx m).
Definition set_v_live a x m := mkMesh (m_verts m) (m_hes m) (m_faces m) (m_indices m) (m_fresh m) (fupd (v_live m) a x) (v_pos m) (v_he m) (v_idx m) (v_lock m) (h_live m) (h_src m) (h_next m) (h_rev m) (h_face m) (h_idx m) (h_bd m) (f_live m) (f_he m) (f_idx m).
Definition set_v_pos a x m := mkMesh (m_verts m) (m_hes m) (m_faces m) (m_indices m) (m_fresh m) (v_live m) (fupd (v_pos m) a x) (v_he m) (v_idx m) (v_lock m) (h_live m) (h_src m) (h_next m) (h_rev m) (h_face m) (h_idx m) (h_bd m) (f_live m) (f_he m) (f_idx m).
Definition set_v_he a x m := mkMesh (m_verts m) (m_hes m) (m_faces m) (m_indices m) (m_fresh m) (v_live m) (v_pos m) (fupd (v_he m) a x) (v_idx m) (v_lock m) (h_live m) (h_src m) (h_next m) (h_rev m) (h_face m) (h_idx m) (h_bd m) (f_live m) (f_he m) (f_idx m).
Definition set_v_idx a x m := mkMesh (m_verts m) (m_hes m) (m_faces m) (m_indices m) (m_fresh m) (v_live m) (v_pos m) (v_he m) (fupd (v_idx m) a x) (v_lock m) (h_live m) (h_src m) (h_next m) (h_rev m) (h_face m) (h_idx m) (h_bd m) (f_live m) (f_he m) (f_idx m).
Definition set_v_lock a x m := mkMesh (m_verts m) (m_hes m) (m_faces m) (m_indices m) (m_fresh m) (v_live m) (v_pos m) (v_he m) (v_idx m) (fupd (v_lock m) a x) (h_live m) (h_src m) (h_next m) (h_rev m) (h_face m) (h_idx m) (h_bd m) (f_live m) (f_he m) (f_idx m).
Definition set_h_live a x m := mkMesh (m_verts m) (m_hes m) (m_faces m) (m_indices m) (m_fresh m) (v_live m) (v_pos m) (v_he m) (v_idx m) (v_lock m) (fupd (h_live m) a x) (h_src m) (h_next m) (h_rev m) (h_face m) (h_idx m) (h_bd m) (f_live m) (f_he m) (f_idx m).
Definition set_h_src a x m := mkMesh (m_verts m) (m_hes m) (m_faces m) (m_indices m) (m_fresh m) (v_live m) (v_pos m) (v_he m) (v_idx m) (v_lock m) (h_live m) (fupd (h_src m) a x) (h_next m) (h_rev m) (h_face m) (h_idx m) (h_bd m) (f_live m) (f_he m) (f_idx m).
Definition set_h_next a x m := mkMesh (m_verts m) (m_hes m) (m_faces m) (m_indices m) (m_fresh m) (v_live m) (v_pos m) (v_he m) (v_idx m) (v_lock m) (h_live m) (h_src m) (fupd (h_next m) a x) (h_rev m) (h_face m) (h_idx m) (h_bd m) (f_live m) (f_he m) (f_idx m).
Definition set_h_rev a x m := mkMesh (m_verts m) (m_hes m) (m_faces m) (m_indices m) (m_fresh m) (v_live m) (v_pos m) (v_he m) (v_idx m) (v_lock m) (h_live m) (h_src m) (h_next m) (fupd (h_rev m) a x) (h_face m) (h_idx m) (h_bd m) (f_live m) (f_he m) (f_idx m).
Definition set_h_face a x m := mkMesh (m_verts m) (m_hes m) (m_faces m) (m_indices m) (m_fresh m) (v_live m) (v_pos m) (v_he m) (v_idx m) (v_lock m) (h_live m) (h_src m) (h_next m) (h_rev m) (fupd (h_face m) a x) (h_idx m) (h_bd m) (f_live m) (f_he m) (f_idx m).
Definition set_h_idx a x m := mkMesh (m_verts m) (m_hes m) (m_faces m) (m_indices m) (m_fresh m) (v_live m) (v_pos m) (v_he m) (v_idx m) (v_lock m) (h_live m) (h_src m) (h_next m) (h_rev m) (h_face m) (fupd (h_idx m) a x) (h_bd m) (f_live m) (f_he m) (f_idx m).
Definition set_h_bd a x m := mkMesh (m_verts m) (m_hes m) (m_faces m) (m_indices m) (m_fresh m) (v_live m) (v_pos m) (v_he m) (v_idx m) (v_lock m) (h_live m) (h_src m) (h_next m) (h_rev m) (h_face m) (h_idx m) (fupd (h_bd m) a x) (f_live m) (f_he m) (f_idx m).
Definition set_f_live a x m := mkMesh (m_verts m) (m_hes m) (m_faces m) (m_indices m) (m_fresh m) (v_live m) (v_pos m) (v_he m) (v_idx m) (v_lock m) (h_live m) (h_src m) (h_next m) (h_rev m) (h_face m) (h_idx m) (h_bd m) (fupd (f_live m) a x) (f_he m) (f_idx m).
Definition set_f_he a x m := mkMesh (m_verts m) (m_hes m) (m_faces m) (m_indices m) (m_fresh m) (v_live m) (v_pos m) (v_he m) (v_idx m) (v_lock m) (h_live m) (h_src m) (h_next m) (h_rev m) (h_face m) (h_idx m) (h_bd m) (f_live m) (fupd (f_he m) a x) (f_idx m).
Definition set_f_idx a x m := mkMesh (m_verts m) (m_hes m) (m_faces m) (m_indices m) (m_fresh m) (v_live m) (v_pos m) (v_he m) (v_idx m) (v_lock m) (h_live m) (h_src m) (h_next m) (h_rev m) (h_face m) (h_idx m) (h_bd m) (f_live m) (f_he m) (fupd (f_idx m) a x).

(** State-and-error monad. *)
Definition M (A : Type) := mesh -> res (A * mesh).
Definition ret {A} (a : A) : M A := fun m => Ok (a, m).
Definition bind {A B} (x : M A) (k : A -> M B) : M B :=
  fun m => match x m with
           | Ok (a, m') => k a m'
           | UB u => UB u
           | Abort u => Abort u
           | NoFuel => NoFuel
           end.
Definition ub {A} (u : ubkind) : M A := fun _ => UB u.
Definition abort {A} (u : abkind) : M A := fun _ => Abort u.
Definition nofuel {A} : M A := fun _ => NoFuel.
Definition get {A} (f : mesh -> A) : M A := fun m => Ok (f m, m).
Definition modify (f : mesh -> mesh) : M unit := fun m => Ok (tt, f m).
(** debug.h: Assertion(pred, msg) in builds where it is active. *)
Definition assertion (b : bool) : M unit := if b then ret tt else abort AAssert.
(** A throwing Vec operation. *)
Definition lift {A} (o : option A) : M A := match o with Some a => ret a | None => abort AThrow end.

(** Reading and writing a data member through a pointer. *)
Definition vrd {X} (fld : mesh -> nat -> X) (p : ptr) : M X := fun m =>
  match p with
  | None => UB NullDeref
  | Some a => if v_live m a then Ok (fld m a, m) else UB Dangling
  end.
Definition vwr (upd : nat -> mesh -> mesh) (p : ptr) : M unit := fun m =>
  match p with
  | None => UB NullDeref
  | Some a => if v_live m a then Ok (tt, upd a m) else UB Dangling
  end.
Definition hrd {X} (fld : mesh -> nat -> X) (p : ptr) : M X := fun m =>
  match p with
  | None => UB NullDeref
  | Some a => if h_live m a then Ok (fld m a, m) else UB Dangling
  end.
Definition hwr (upd : nat -> mesh -> mesh) (p : ptr) : M unit := fun m =>
  match p with
  | None => UB NullDeref
  | Some a => if h_live m a then Ok (tt, upd a m) else UB Dangling
  end.
Definition frd {X} (fld : mesh -> nat -> X) (p : ptr) : M X := fun m =>
  match p with
  | None => UB NullDeref
  | Some a => if f_live m a then Ok (fld m a, m) else UB Dangling
  end.
Definition fwr (upd : nat -> mesh -> mesh) (p : ptr) : M unit := fun m =>
  match p with
  | None => UB NullDeref
  | Some a => if f_live m a then Ok (tt, upd a m) else UB Dangling
  end.

Definition he_src (p : ptr) : M ptr := hrd h_src p.
Definition he_next (p : ptr) : M ptr := hrd h_next p.
Definition he_rev (p : ptr) : M ptr := hrd h_rev p.
Definition he_face (p : ptr) : M ptr := hrd h_face p.
Definition he_idx (p : ptr) : M Z := hrd h_idx p.
Definition he_bd (p : ptr) : M bool := hrd h_bd p.
Definition ve_pos (p : ptr) : M (vec N) := vrd v_pos p.
Definition ve_he (p : ptr) : M ptr := vrd v_he p.
Definition ve_idx (p : ptr) : M Z := vrd v_idx p.
Definition ve_lock (p : ptr) : M bool := vrd v_lock p.
Definition fa_he (p : ptr) : M ptr := frd f_he p.
Definition fa_idx (p : ptr) : M Z := frd f_idx p.

Definition w_src (p : ptr) (x : ptr) : M unit := hwr (fun a => set_h_src a x) p.
Definition w_next (p : ptr) (x : ptr) : M unit := hwr (fun a => set_h_next a x) p.
Definition w_rev (p : ptr) (x : ptr) : M unit := hwr (fun a => set_h_rev a x) p.
Definition w_face (p : ptr) (x : ptr) : M unit := hwr (fun a => set_h_face a x) p.
Definition w_hidx (p : ptr) (x : Z) : M unit := hwr (fun a => set_h_idx a x) p.
Definition w_bd (p : ptr) (x : bool) : M unit := hwr (fun a => set_h_bd a x) p.
Definition w_pos (p : ptr) (x : vec N) : M unit := vwr (fun a => set_v_pos a x) p.
Definition w_vhe (p : ptr) (x : ptr) : M unit := vwr (fun a => set_v_he a x) p.
Definition w_vidx (p : ptr) (x : Z) : M unit := vwr (fun a => set_v_idx a x) p.
Definition w_lock (p : ptr) (x : bool) : M unit := vwr (fun a => set_v_lock a x) p.
Definition w_fhe (p : ptr) (x : ptr) : M unit := fwr (fun a => set_f_he a x) p.
Definition w_fidx (p : ptr) (x : Z) : M unit := fwr (fun a => set_f_idx a x) p.

(** new Halfedge(): halfedge.h 66-71 (default member initialisers). *)
Definition new_he : M ptr := fun m =>
  let a := m_fresh m in
  Ok (Some a,
      set_h_live a true (set_h_src a None (set_h_next a None (set_h_rev a None (set_h_face a None
        (set_h_idx a (-1)%Z (set_h_bd a false (set_m_fresh (S a) m)))))))).
(** new Vertex(pos): vertex.cpp 23-27. *)
Definition new_vertex (pos : vec N) : M ptr := fun m =>
  let a := m_fresh m in
  Ok (Some a,
      set_v_live a true (set_v_pos a pos (set_v_he a None (set_v_idx a (-1)%Z (set_v_lock a false
        (set_m_fresh (S a) m)))))).
(** new Face(): face.h (default member initialisers). *)
Definition new_face : M ptr := fun m =>
  let a := m_fresh m in
  Ok (Some a,
      set_f_live a true (set_f_he a None (set_f_idx a (-1)%Z (set_m_fresh (S a) m)))).

(** vector::operator[](i) for an [int] index: out of range is undefined behaviour. *)
Definition vec_at (l : list nat) (i : Z) : M ptr :=
  if (i <? 0)%Z then ub OutOfBounds
  else match nth_error l (Z.to_nat i) with
       | Some a => ret (Some a)
       | None => ub OutOfBounds
       end.

Definition upd_list {X} (l : list X) (i : nat) (x : X) : list X :=
  firstn i l ++ match skipn i l with [] => [] | _ :: t => x :: t end.

(** std::swap(v[i], v[j]). *)
Definition swap_list (l : list nat) (i j : nat) : list nat :=
  match nth_error l i, nth_error l j with
  | Some a, Some b => upd_list (upd_list l i b) j a
  | _, _ => l
  end.

(** Sequencing over a list / conditionals. *)
Fixpoint mfor {A} (l : list A) (body : A -> M unit) : M unit :=
  match l with
  | [] => ret tt
  | x :: l' => bind (body x) (fun _ => mfor l' body)
  end.
Fixpoint mmap {A B} (f : A -> M B) (l : list A) : M (list B) :=
  match l with
  | [] => ret []
  | x :: l' => bind (f x) (fun y => bind (mmap f l') (fun ys => ret (y :: ys)))
  end.
Fixpoint mfold {A B} (f : B -> A -> M B) (acc : B) (l : list A) : M B :=
  match l with
  | [] => ret acc
  | x :: l' => bind (f acc x) (fun acc' => mfold f acc' l')
  end.

End Heap.

Arguments mesh N : clear implicits.
Arguments M N A : clear implicits.

Declare Scope mesh_scope.
Delimit Scope mesh_scope with mesh.
Notation "x <- e ;; k" := (bind e (fun x => k)) (at level 61, e at next level, right associativity) : mesh_scope.
Notation "e ;; k" := (bind e (fun _ => k)) (at level 61, right associativity) : mesh_scope.
Notation "' p <- e ;; k" := (bind e (fun x => let p := x in k)) (at level 61, p pattern, e at next level, right associativity) : mesh_scope.
