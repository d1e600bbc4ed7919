(** src/tinymesh/core/mesh.cpp 88-107 and 185-365: Mesh::construct, and clone. *)
From Coq Require Import Bool List ZArith Arith.
From Verif Require Import Num Vec Heap Mesh.
Import ListNotations.
Local Open Scope mesh_scope.

Section Construct.
Context {N : Num}.
Notation M := (M N).

(** ** construct(vertices, indices): mesh.cpp 88-107 *)

(** std::unordered_map<Vec3, uint32_t> as an association list.  Lookup goes by
    operator== (the hash of vec.h 358-367 is compatible with it). *)
Fixpoint um_find (um : list (vec N * nat)) (p : vec N) : option nat :=
  match um with
  | [] => None
  | (q, i) :: um' => if veqb q p then Some i else um_find um' p
  end.

(** vertices_.clear(); halfedges_.clear(); faces_.clear(): mesh.cpp 90-96 (also 71-73).
    The objects are destroyed; indices_ is not touched. *)
Definition clear_elems (m : mesh N) : mesh N :=
  mkMesh [] [] [] (m_indices m) (m_fresh m)
    (fun a => v_live m a && negb (existsb (Nat.eqb a) (m_verts m)))
    (v_pos m) (v_he m) (v_idx m) (v_lock m)
    (fun a => h_live m a && negb (existsb (Nat.eqb a) (m_hes m)))
    (h_src m) (h_next m) (h_rev m) (h_face m) (h_idx m) (h_bd m)
    (fun a => f_live m a && negb (existsb (Nat.eqb a) (m_faces m)))
    (f_he m) (f_idx m).

(** mesh.cpp 96-105: one pass over the indices.  [uniqueVertices[pos]] in line 103
    inserts 0 when [pos] is not found, which happens exactly if pos != pos (NaN). *)
Fixpoint dedup_loop (vertices : list (vec N)) (indices : list nat) (um : list (vec N * nat)) : M unit :=
  match indices with
  | [] => ret tt
  | i :: indices' =>
      match nth_error vertices i with
      | None => ub OutOfBounds
      | Some pos =>
          um1 <- (match um_find um pos with
                  | Some _ => ret um
                  | None =>
                      l <- get m_verts ;;
                      v <- new_vertex pos ;;
                      match v with
                      | Some a => modify (set_m_verts (l ++ [a])) ;; ret (um ++ [(pos, length l)])
                      | None => ub NullDeref
                      end
                  end) ;;
          let '(ix, um2) := match um_find um1 pos with
                            | Some k => (k, um1)
                            | None => (0, um1 ++ [(pos, 0)])
                            end in
          modify (fun m => set_m_indices (m_indices m ++ [ix]) m) ;;
          dedup_loop vertices indices' um2
      end
  end.

(** ** construct(): mesh.cpp 185-365 *)

(** mesh.cpp 186-195.  [i] advances by three whether or not a triangle was removed.
    One unit of fuel per iteration; [length l] many suffice. *)
Fixpoint drop_degenerate (fuel : nat) (i : nat) (l : list nat) : res (list nat) :=
  if i <? length l then
    match fuel with
    | O => NoFuel
    | S fuel' =>
        match nth_error l i, nth_error l (i + 1), nth_error l (i + 2) with
        | Some a, Some b, Some c =>
            if (a =? b) || (b =? c) || (c =? a) then
              let size := length l in
              let l1 := swap_list l i (size - 3) in
              let l2 := swap_list l1 (i + 1) (size - 2) in
              let l3 := swap_list l2 (i + 2) (size - 1) in
              drop_degenerate fuel' (i + 3) (firstn (size - 3) l3)
            else drop_degenerate fuel' (i + 3) l
        | _, _, _ => UB OutOfBounds
        end
    end
  else Ok l.

(** mesh.cpp 198-200. *)
Fixpoint put_vertex_indices (i : nat) (l : list nat) : M unit :=
  match l with
  | [] => ret tt
  | a :: l' => w_vidx (Some a) (Z.of_nat i) ;; put_vertex_indices (S i) l'
  end.

(** mesh.cpp 203-208. *)
Fixpoint check_distinct (l : list nat) : M unit :=
  match l with
  | [] => ret tt
  | a :: b :: c :: l' =>
      if (a =? b) || (b =? c) || (c =? a) then abort AError else check_distinct l'
  | _ => ub OutOfBounds
  end.

(** std::map<IndexPair, Halfedge*> and std::map<uint32_t, uint32_t> (default 0). *)
Definition edge_map := nat -> nat -> ptr.
Definition em_set (em : edge_map) (a b : nat) (p : ptr) : edge_map :=
  fun x y => if (x =? a) && (y =? b) then p else em x y.
Definition deg_map := nat -> nat.

Record cstate := mkC { c_em : edge_map; c_deg : deg_map }.

(** mesh.cpp 241-276: one corner of a face. *)
Definition add_corner (face : ptr) (a b : nat) (cs : cstate) : M (ptr * cstate) :=
  let deg := fupd (c_deg cs) a (S (c_deg cs a)) in
  match c_em cs a b with
  | Some _ => abort AError
  | None =>
      he <- new_he ;;
      addHalfedge he ;;
      let em := em_set (c_em cs) a b he in
      lv <- get m_verts ;;
      v <- vec_at lv (Z.of_nat a) ;;
      w_vhe v he ;;
      w_src he v ;;
      w_face he face ;;
      w_fhe face he ;;
      (match em b a with
       | Some r => w_rev he (Some r) ;; w_rev (Some r) he
       | None => w_rev he None
       end) ;;
      ret (he, mkC em deg)
  end.

(** mesh.cpp 214-285: one triangle. *)
Definition add_triangle (a b c : nat) (cs : cstate) : M cstate :=
  (* 216-234: an edge that is already present: Warn and skip the face *)
  match c_em cs a b, c_em cs b c, c_em cs c a with
  | None, None, None =>
      face <- new_face ;;
      r0 <- add_corner face a b cs ;;
      r1 <- add_corner face b c (snd r0) ;;
      r2 <- add_corner face c a (snd r1) ;;
      addFace face ;;
      w_next (fst r0) (fst r1) ;;
      w_next (fst r1) (fst r2) ;;
      w_next (fst r2) (fst r0) ;;
      ret (snd r2)
  | _, _, _ => ret cs
  end.

Fixpoint add_triangles (l : list nat) (cs : cstate) : M cstate :=
  match l with
  | [] => ret cs
  | a :: b :: c :: l' => cs' <- add_triangle a b c cs ;; add_triangles l' cs'
  | _ => ub OutOfBounds
  end.

(** mesh.cpp 288-298: do { ... } while (he != v->halfedge_). *)
Fixpoint advance_boundary (fuel : nat) (v he : ptr) : M unit :=
  r <- he_rev he ;;
  match r with
  | None => w_vhe v he
  | Some _ =>
      n <- he_next r ;;
      vh <- ve_he v ;;
      if ptr_eqb n vh then ret tt
      else match fuel with O => nofuel | S fuel' => advance_boundary fuel' v n end
  end.

(** mesh.cpp 325-328: while (it != he.get() && it->rev_ != nullptr) it = it->rev_->next_. *)
Fixpoint next_boundary (fuel : nat) (start it : ptr) : M ptr :=
  if ptr_eqb it start then ret it
  else
    r <- he_rev it ;;
    match r with
    | None => ret it
    | Some _ =>
        n <- he_next r ;;
        match fuel with O => nofuel | S fuel' => next_boundary fuel' start n end
    end.

(** mesh.cpp 309-329: the do-while loop; [acc] is boundaryHalfedges. *)
Fixpoint hole_loop (fuel : nat) (start face it : ptr) (acc : list ptr) : M (list ptr) :=
  rev <- new_he ;;
  addHalfedge rev ;;
  w_rev it rev ;;
  w_rev rev it ;;
  w_face rev face ;;
  nx <- he_next it ;; s <- he_src nx ;; w_src rev s ;;
  w_bd it true ;;
  w_bd rev true ;;
  it1 <- he_next it ;;
  fr <- get m_fresh ;;
  it2 <- next_boundary fr start it1 ;;
  let acc' := acc ++ [rev] in
  if ptr_eqb it2 start then ret acc'
  else match fuel with O => nofuel | S fuel' => hole_loop fuel' start face it2 acc' end.

(** mesh.cpp 334-337: boundaryHalfedges[j]->next_ = boundaryHalfedges[(j - 1 + degree) % degree]. *)
Definition link_hole (bs : list ptr) : M unit :=
  let d := length bs in
  mfor (seq 0 d) (fun j => w_next (nth j bs None) (nth (Nat.modulo (j + d - 1) d) bs None)).

(** mesh.cpp 303-339: for one half-edge. *)
Definition close_hole (h : nat) : M unit :=
  r <- he_rev (Some h) ;;
  match r with
  | Some _ => ret tt
  | None =>
      face <- new_face ;;
      addFace face ;;
      fr <- get m_fresh ;;
      bs <- hole_loop fr (Some h) face (Some h) [] ;;
      w_fhe face (nth 0 bs None) ;;
      link_hole bs
  end.

(** mesh.cpp 344-346. *)
Definition bump_vertex (v : nat) : M unit :=
  h <- ve_he (Some v) ;; r <- he_rev h ;; n <- he_next r ;; w_vhe (Some v) n.

(** mesh.cpp 349-364.  [count] starts at (uint32_t)-1 for boundary vertices; the model
    counts in Z. *)
Fixpoint count_ring (fuel : nat) (v he : ptr) (count : Z) : M Z :=
  let count := (count + 1)%Z in
  r <- he_rev he ;; n <- he_next r ;;
  vh <- ve_he v ;;
  if ptr_eqb n vh then ret count
  else match fuel with O => nofuel | S fuel' => count_ring fuel' v n count end.

Definition check_manifold (deg : deg_map) (v : nat) : M unit :=
  h <- ve_he (Some v) ;;
  match h with
  | None => abort AError
  | Some _ =>
      b <- v_isBoundary (Some v) ;;
      fr <- get m_fresh ;;
      count <- count_ring fr (Some v) h (if b then (-1)%Z else 0%Z) ;;
      i <- ve_idx (Some v) ;;
      if (count =? Z.of_nat (deg (Z.to_nat i)))%Z then ret tt else abort AError
  end.

(** construct(), the parts in order. *)
Definition construct0 : M unit :=
  l0 <- get m_indices ;;
  l1 <- (fun m => match drop_degenerate (length l0) 0 l0 with
                  | Ok l => Ok (l, m) | UB u => UB u | Abort u => Abort u | NoFuel => NoFuel end) ;;
  modify (set_m_indices l1) ;;
  vs <- get m_verts ;;
  put_vertex_indices 0 vs ;;
  check_distinct l1 ;;
  cs <- add_triangles l1 (mkC (fun _ _ => None) (fun _ => 0)) ;;
  mfor vs (fun v => h <- ve_he (Some v) ;; fr <- get m_fresh ;; advance_boundary fr (Some v) h) ;;
  hs <- get m_hes ;;
  mfor hs close_hole ;;
  mfor vs bump_vertex ;;
  mfor vs (check_manifold (c_deg cs)).

(** Mesh::construct(vertices, indices) on an object in state [m]. *)
Definition construct (vertices : list (vec N)) (indices : list nat) : M unit :=
  modify clear_elems ;;
  dedup_loop vertices indices [] ;;
  construct0.

(** Mesh(vertices, indices): mesh.cpp 43-45. *)
Definition mesh_of (vertices : list (vec N)) (indices : list nat) : res (mesh N) :=
  match construct vertices indices empty_mesh with
  | Ok (_, m) => Ok m
  | UB u => UB u
  | Abort u => Abort u
  | NoFuel => NoFuel
  end.

(** Mesh::clone: mesh.cpp 109-111.  The int vertex numbers are converted to uint32_t. *)
Definition clone (m : mesh N) : res (mesh N) :=
  match getVertices m with
  | Ok (ps, _) =>
      match getVertexIndices m with
      | Ok (ix, _) => mesh_of ps (map Z.to_nat ix)
      | UB u => UB u | Abort u => Abort u | NoFuel => NoFuel
      end
  | UB u => UB u | Abort u => Abort u | NoFuel => NoFuel
  end.

End Construct.
