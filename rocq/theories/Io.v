(** Mesh::save and Mesh::load: mesh.cpp 69-86 and 367-560.

    A file is modelled by what the writer puts into it: an OBJ file is its list of
    lines, a PLY file its vertex and face elements.  The libraries that read and
    write the bytes (tinyobjloader, tinyply) are not in the repository; of them only
    the behaviour on these lines and elements is modelled, see [obj_parse] and [loadPLY].
    Opening and reading the file always succeeds.  File name extensions: [FOther]
    stands for every extension but .obj and .ply. *)
From Coq Require Import List ZArith Bool Arith.
From Verif Require Import Num Vec Heap Mesh Construct.
Import ListNotations.
Local Open Scope mesh_scope.

(** How numbers pass through a file: [c_print] is operator<< (mesh.cpp 489, six
    significant digits), [c_parse] tinyobj's number parser (which gives a float) and
    the conversion to double (mesh.cpp 390), [c_narrow] the conversion to float
    (mesh.cpp 521-523) and back (mesh.cpp 459). *)
Record codec (N : Num) := mkCodec {
  c_text : Type;
  c_print : num -> c_text;
  c_parse : c_text -> num;
  c_narrow : num -> num
}.
Arguments c_text {N}. Arguments c_print {N}. Arguments c_parse {N}. Arguments c_narrow {N}.

Section Io.
Context {N : Num}.
Variable C : codec N.
Notation M := (Heap.M N).

(** The lines that saveOBJ writes: "v x y z" and "f i j k". *)
Inductive obj_line :=
| LV (x y z : c_text C)
| LF (i j k : Z).

Inductive file :=
| FObj (ls : list obj_line)
| FPly (vs : list (vec N)) (ix : list nat)
| FOther.

(** ** Writing *)

(** mesh.cpp 488-490. *)
Definition obj_vertex (a : nat) : M obj_line :=
  p <- ve_pos (Some a) ;; q <- ve_pos (Some a) ;; r <- ve_pos (Some a) ;;
  ret (LV (c_print C (vx p)) (c_print C (vy q)) (c_print C (vz r))).

(** mesh.cpp 493-504. *)
Fixpoint obj_faces (nv : Z) (l : list nat) : M (list obj_line) :=
  match l with
  | [] => ret []
  | f :: l' =>
      hole <- f_isHole (Some f) ;;
      if hole then obj_faces nv l'
      else
        h <- fa_he (Some f) ;; s0 <- he_src h ;; i0 <- ve_idx s0 ;;
        h <- fa_he (Some f) ;; n <- he_next h ;; s1 <- he_src n ;; i1 <- ve_idx s1 ;;
        h <- fa_he (Some f) ;; p <- he_prev h ;; s2 <- he_src p ;; i2 <- ve_idx s2 ;;
        r <- obj_faces nv l' ;;
        ret (if ((i0 <? nv) && (i1 <? nv) && (i2 <? nv))%Z then LF (i0 + 1) (i1 + 1) (i2 + 1) :: r else r)
  end.

(** mesh.cpp 482-507. *)
Definition saveOBJ : M file :=
  vs <- get m_verts ;;
  lv <- mmap obj_vertex vs ;;
  fs <- get m_faces ;;
  lf <- obj_faces (Z.of_nat (length vs)) fs ;;
  ret (FObj (lv ++ lf)).

(** mesh.cpp 519-524. *)
Definition ply_vertex (a : nat) : M (vec N) :=
  v <- ve_pos (Some a) ;;
  ret (V3 (c_narrow C (vx v)) (c_narrow C (vy v)) (c_narrow C (vz v))).

(** mesh.cpp 528-545.  The indices become uint32_t; those of vertices in a mesh are
    not negative, so that Z.to_nat is this conversion. *)
Fixpoint ply_faces (l : list nat) : M (list nat) :=
  match l with
  | [] => ret []
  | f :: l' =>
      hole <- f_isHole (Some f) ;;
      if hole then ply_faces l'
      else
        h0 <- fa_he (Some f) ;;
        match h0 with
        | None => ply_faces l'
        | Some _ =>
            h <- fa_he (Some f) ;; s0 <- he_src h ;; i0 <- ve_idx s0 ;;
            h <- fa_he (Some f) ;; n <- he_next h ;; s1 <- he_src n ;; i1 <- ve_idx s1 ;;
            h <- fa_he (Some f) ;; p <- he_prev h ;; s2 <- he_src p ;; i2 <- ve_idx s2 ;;
            r <- ply_faces l' ;;
            ret (Z.to_nat i0 :: Z.to_nat i1 :: Z.to_nat i2 :: r)
        end
  end.

(** mesh.cpp 509-560. *)
Definition savePLY : M file :=
  vs <- get m_verts ;;
  lv <- mmap ply_vertex vs ;;
  fs <- get m_faces ;;
  li <- ply_faces fs ;;
  ret (FPly lv li).

(** mesh.cpp 470-480. *)
Inductive ext := EObj | EPly | EOther.
Definition save (e : ext) : M file :=
  match e with EObj => saveOBJ | EPly => savePLY | EOther => abort AError end.

(** ** Reading *)

(** The index of a face line: from one upwards in the file; 0 is an error, negative
    ones count back from the vertices read so far. *)
Definition obj_index (nv : nat) (i : Z) : option Z :=
  (if (0 <? i) then Some (i - 1) else if (i =? 0) then None
   else let j := (Z.of_nat nv + i) in if (j <? 0) then None else Some j)%Z.

(** tinyobj::LoadObj on the lines: all vertices in order, the corners of all faces in
    order (the faces of a file without groups and objects form one shape). *)
Fixpoint obj_parse (ls : list obj_line) (vs : list (vec N)) (ix : list Z) : option (list (vec N) * list Z) :=
  match ls with
  | [] => Some (vs, ix)
  | LV x y z :: ls' => obj_parse ls' (vs ++ [V3 (c_parse C x) (c_parse C y) (c_parse C z)]) ix
  | LF i j k :: ls' =>
      match obj_index (length vs) i, obj_index (length vs) j, obj_index (length vs) k with
      | Some i', Some j', Some k' => obj_parse ls' vs (ix ++ [i'; j'; k'])
      | _, _, _ => None
      end
  end.

(** mesh.cpp 388-392: the position of a corner. *)
Definition obj_corner (vs : list (vec N)) (i : Z) : M (vec N) :=
  if (0 <=? i)%Z then match nth_error vs (Z.to_nat i) with Some p => ret p | None => ub OutOfBounds end
  else ret vzero.

(** mesh.cpp 386-401. *)
Fixpoint obj_loop (vs : list (vec N)) (ix : list Z) (um : list (vec N * nat)) : M unit :=
  match ix with
  | [] => ret tt
  | i :: ix' =>
      pos <- obj_corner vs i ;;
      um1 <- (match um_find um pos with
              | Some _ => ret um
              | None =>
                  l <- get m_verts ;;
                  v <- new_vertex pos ;;
                  match v with
                  | Some a => modify (set_m_verts (l ++ [a])) ;; ret (um ++ [(pos, length l)])
                  | None => ub NullDeref
                  end
              end) ;;
      let '(k, um2) := match um_find um1 pos with
                       | Some k => (k, um1)
                       | None => (0, um1 ++ [(pos, 0)])
                       end in
      modify (fun m => set_m_indices (m_indices m ++ [k]) m) ;;
      obj_loop vs ix' um2
  end.

(** mesh.cpp 367-404.  [vertices_.clear()] in line 384 does nothing: [load] has
    cleared the list before. *)
Definition loadOBJ (ls : list obj_line) : M unit :=
  match obj_parse ls [] [] with
  | None => abort AError
  | Some (vs, ix) =>
      modify (set_m_indices []) ;;
      obj_loop vs ix [] ;;
      l <- get m_indices ;;
      assertion (length l mod 3 =? 0)
  end.

(** mesh.cpp 406-468 on a file whose vertex coordinates are floats and whose face lists
    are unsigned ints of length three, as savePLY writes them.  Lines 457-467 are the
    loop of construct; [indices_] is not cleared. *)
Definition loadPLY (vs : list (vec N)) (ix : list nat) : M unit := dedup_loop vs ix [].

(** mesh.cpp 69-86. *)
Definition load (f : file) : M unit :=
  modify clear_elems ;;
  (match f with FObj ls => loadOBJ ls | FPly vs ix => loadPLY vs ix | FOther => abort AError end) ;;
  construct0.

(** Mesh(filename): mesh.cpp 39-41. *)
Definition mesh_from (f : file) : res (mesh N) :=
  match load f empty_mesh with
  | Ok (_, m) => Ok m
  | UB u => UB u
  | Abort u => Abort u
  | NoFuel => NoFuel
  end.

End Io.
Arguments LV {N C}. Arguments LF {N C}.
Arguments FObj {N C}. Arguments FPly {N C}. Arguments FOther {N C}.
Arguments obj_parse {N C}. Arguments loadOBJ {N C}. Arguments load {N C}. Arguments mesh_from {N C}.
