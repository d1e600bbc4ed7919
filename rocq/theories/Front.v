(** src/tinymesh/core/completion.cpp 230-702: holeFillAdvancingFront. *)
From Coq Require Import Bool List ZArith Arith.
From Verif Require Import Num Vec Heap Mesh Construct Fill Measure.
Import ListNotations.
Local Open Scope mesh_scope.

Section Front.
Context {N : Num}.
Notation M := (M N).

(** 548-701: new positions for the vertices inside, from smoothed normals and a Poisson equation.
    Here an arbitrary function of the mesh and of these vertices; [None] is an exception.  The code is in Relax.v. *)
Variable relax : mesh N -> list nat -> option (nat -> vec N).

(** 234-239: the vertices of the hole are locked ([boundary] is not used later). *)
Definition lock_front (face : ptr) : M unit :=
  circ_f face tt (fun _ it => s <- he_src it ;; w_lock s true ;; ret (tt, false)).
(** 243-249: face_vs and face_hes. *)
Definition front_ring (face : ptr) : M (list ptr * list ptr) :=
  circ_f face ([], []) (fun acc it => s <- he_src it ;; ret ((fst acc ++ [s], snd acc ++ [it]), false)).
(** 252-255. *)
Definition close_front (face : ptr) : M unit :=
  circ_f face tt (fun _ it => w_bd it false ;; r <- he_rev it ;; w_bd r false ;; ret (tt, false)).

(** ** Merging: 259-316 *)

(** (i - 1 + N) % N and (i + 1) % N. *)
Definition before_ (n i : nat) : nat := (i + n - 1) mod n.
Definition after_ (n i : nat) : nat := (i + 1) mod n.

(** 264-265.  The code tests isLocked of the same vertex twice. *)
Definition too_close (avg : num) (vs : list ptr) (n i : nat) : M bool :=
  v <- at_ vs i ;; l <- ve_lock v ;;
  if l then ret false else
  p <- ve_pos v ;; w <- at_ vs (after_ n i) ;; q <- ve_pos w ;;
  ret (nltb (vlength (vsub p q)) (nmul nhalf avg)).
(** 261, 309: the first such i. *)
Fixpoint find_close (avg : num) (vs : list ptr) (n : nat) (is : list nat) : M (option nat) :=
  match is with
  | [] => ret None
  | i :: is' => b <- too_close avg vs n i ;; if b then ret (Some i) else find_close avg vs n is'
  end.
(** 301-306. *)
Definition merge_remove (he he0 he1 he2 v0 : ptr) : M unit :=
  f <- he_face he0 ;; removeFace f ;;
  removeHalfedge he ;; removeHalfedge he0 ;; removeHalfedge he1 ;; removeHalfedge he2 ;;
  removeVertex v0.
(** 283-306. *)
Definition merge_wire (face he he_next_ vnext he0 he1 he2 : ptr) (v_hes : list ptr) : M unit :=
  v1 <- he_src he0 ;; v0 <- he_src he1 ;; v2 <- he_src he2 ;;
  he1_rev <- he_rev he1 ;; he2_rev <- he_rev he2 ;;
  w_rev he1_rev he2_rev ;; w_rev he2_rev he1_rev ;;
  mfor v_hes (fun h => w_src h vnext) ;;
  w_vhe v1 he2_rev ;; w_vhe v2 he1_rev ;; w_fhe face he_next_ ;;
  p0 <- ve_pos v0 ;; p1 <- ve_pos v1 ;; w_pos v1 (vscale nhalf (vadd p0 p1)) ;;
  merge_remove he he0 he1 he2 v0.
(** 266-306. *)
Definition merge (face : ptr) (vs hes : list ptr) (n i : nat) : M unit :=
  he <- at_ hes i ;; vi <- at_ vs i ;; vnext <- at_ vs (after_ n i) ;;
  v_hes <- v_halfedges vi ;;
  he_prev_ <- at_ hes (before_ n i) ;; he_next_ <- at_ hes (after_ n i) ;;
  a <- he_next he_prev_ ;; assertion (ptr_eqb a he) ;;
  b <- he_next he ;; assertion (ptr_eqb b he_next_) ;;
  w_next he_prev_ he_next_ ;;
  he0 <- he_rev he ;; he1 <- he_next he0 ;; he2 <- he_next he1 ;;
  c <- he_next he2 ;; assertion (ptr_eqb c he0) ;;
  merge_wire face he he_next_ vnext he0 he1 he2 v_hes.

(** ** The angle at a vertex of the front: 329-353 *)

(** 345-347. *)
Definition wrap (theta : num) : num := if nltb theta nzero then nadd theta (nmul ntwo npi) else theta.
(** 339-347. *)
Definition open_angle (norm p0 p1 p2 : vec N) : num :=
  let e1 := vsub p0 p1 in let e2 := vsub p2 p1 in
  let outer := cross e2 e1 in
  let sign := if nleb nzero (dot outer norm) then none_ else nopp none_ in
  wrap (natan2 (nmul sign (vlength outer)) (dot e1 e2)).
(** 335-337: pair2he[...]->rev()->face()->normal(). *)
Definition outer_normal (h : ptr) : M (vec N) := r <- he_rev h ;; f <- he_face r ;; f_normal f.
(** 333-352: one iteration; minIndex = -1 is [None]. *)
Definition try_angle (vs : list ptr) (p : maps) (n : nat) (best : num * option nat) (i : nat) : M (num * option nat) :=
  norm1 <- outer_normal (p_he p (before_ n i) i) ;; norm2 <- outer_normal (p_he p i (after_ n i)) ;;
  norm <- lift (normalize (vadd norm1 norm2)) ;;
  p0 <- b_pos vs (before_ n i) ;; p1 <- b_pos vs i ;; p2 <- b_pos vs (after_ n i) ;;
  let theta := open_angle norm p0 p1 p2 in
  ret (if nltb theta (fst best) then (theta, Some i) else best).
(** 330-353. *)
Definition least_angle (vs : list ptr) (p : maps) (n : nat) : M (num * option nat) :=
  mfold (try_angle vs p n) (nbig20, None) (seq 0 n).

(** ** New triangles: 355-520 *)

(** 357, 379, 430: which vertices are added: none, one (383-389) or two (434-443). *)
Definition degrees (d : Z) : num := nmul npi (ndiv (nofZ d) (nofZ 180)).
Definition one_point (p0 p1 p2 : vec N) : option (vec N) :=
  let e1 := vsub p0 p1 in let e2 := vsub p2 p1 in
  let len := nmul (nadd (vlength e1) (vlength e2)) nhalf in
  match normalize (vadd e1 e2) with Some u => Some (vadd p1 (vscale len u)) | None => None end.
Definition two_points (p0 p1 p2 : vec N) : option (vec N * vec N) :=
  let e1 := vsub p0 p1 in let e2 := vsub p2 p1 in
  let len1 := ndiv (nadd (nmul (vlength e1) ntwo) (vlength e2)) (nofZ 3) in
  let len2 := ndiv (nadd (vlength e1) (nmul (vlength e2) ntwo)) (nofZ 3) in
  match normalize (vadd (vscale ntwo e1) e2), normalize (vadd e1 (vscale ntwo e2)) with
  | Some u1, Some u2 => Some (vadd p1 (vscale len1 u1), vadd p1 (vscale len2 u2))
  | _, _ => None
  end.
Definition new_points (angle : num) (vs : list ptr) (n i : nat) : M (list (vec N)) :=
  if nleb angle (degrees 75) then ret [] else
  p0 <- b_pos vs (before_ n i) ;; p1 <- b_pos vs i ;; p2 <- b_pos vs (after_ n i) ;;
  if nleb angle (degrees 135) then q <- lift (one_point p0 p1 p2) ;; ret [q]
  else q <- lift (two_points p0 p1 p2) ;; ret [fst q; snd q].

(** The three cases 357-377, 379-428, 430-499 differ only in the number of new vertices; the
    model has their common text for the list [news] of the new vertices' positions. *)
(** 361-362, 391-399, 445-458: new vertices and half-edges; the vertices' half-edges. *)
Definition front_new (news : list (vec N)) : M (list ptr * list ptr) :=
  nvs <- mmap new_vertex news ;; mfor nvs addVertex ;;
  nhs <- mmap (fun _ => new_he) (seq 0 (S (length news))) ;; mfor nhs addHalfedge ;;
  mfor (combine nvs (tl nhs)) (fun x => w_vhe (fst x) (snd x)) ;;
  ret (nvs, nhs).
(** 364-367, 401-408, 460-470: the new half-edges become part of the front. *)
Definition front_wire (vprev hprev hnext : ptr) (nvs nhs : list ptr) : M unit :=
  mfor (combine nhs (vprev :: nvs)) (fun x => w_src (fst x) (snd x)) ;;
  mfor nhs (fun h => w_bd h true) ;;
  w_next hprev (hd None nhs) ;;
  mfor (combine nhs (tl nhs ++ [hnext])) (fun x => w_next (fst x) (snd x)).
(** 369-370, 413-416, 477-482. *)
Fixpoint front_maps (idx : list nat) (nhs : list ptr) (p : maps) : maps :=
  match idx, nhs with
  | i :: (j :: _) as idx', Some h :: nhs' => front_maps idx' nhs' (p_add i j h p)
  | _, _ => p
  end.
(** 372, 418, 422, 484, 488, 492: the triangles between two neighbours in [idx] and [i]. *)
Fixpoint fan (i : nat) (idx : list nat) : list (nat * nat * nat) :=
  match idx with a :: (b :: _) as idx' => (a, i, b) :: fan i idx' | _ => [] end.
(** 502-520: unlike in [pair_up] the flag of the opposite half-edge is copied. *)
Definition join_up (p : maps) (h : ptr) : M unit :=
  r <- he_rev h ;;
  match r with
  | Some _ => ret tt
  | None =>
      match h with
      | None => ub NullDeref
      | Some a =>
          let '(i, j) := p_of p a in
          match p_he p j i with
          | Some rev => w_rev h (Some rev) ;; w_rev (Some rev) h ;; b <- he_bd (Some rev) ;; w_bd h b
          | None => ret tt
          end
      end
  end.
Fixpoint join_faces (p : maps) (fs : list nat) : M unit :=
  match fs with
  | [] => ret tt
  | f :: fs' => circ_f (Some f) tt (fun _ h => join_up p h ;; ret (tt, false)) ;; join_faces p fs'
  end.
(** 355-520. *)
Definition advance (face : ptr) (vs : list ptr) (p : maps) (n i : nat) (news : list (vec N)) : M unit :=
  let prev := before_ n i in let next := after_ n i in
  r <- front_new news ;;
  vprev <- at_ vs prev ;;
  front_wire vprev (p_he p (before_ n prev) prev) (p_he p next (after_ n next)) (fst r) (snd r) ;;
  let idx := prev :: seq n (length news) ++ [next] in
  t <- add_triangles (vs ++ fst r) (fan i idx) (front_maps idx (snd r) p) ;;
  w_fhe face (hd None (snd r)) ;;
  mfor (snd r) (fun h => w_face h face) ;;
  join_faces (snd t) (fst t).

(** ** The loop: 241-521 *)
Definition front_step (face : ptr) (avg : num) : M bool :=
  r <- front_ring face ;;
  let vs := fst r in let hes := snd r in let n := length vs in
  if n =? 3 then close_front face ;; ret true else
  c <- find_close avg vs n (seq 0 n) ;;
  match c with
  | Some i => merge face vs hes n i ;; b <- verify ;; ret false
  | None =>
      hes' <- f_halfedges face ;;
      let p := ring_maps n 0 hes' no_maps in
      a <- least_angle vs p n ;;
      match snd a with
      | None => ub OutOfBounds
      | Some i => news <- new_points (fst a) vs n i ;; advance face vs p n i news ;; ret false
      end
  end.
Fixpoint front_loop (fuel : nat) (face : ptr) (avg : num) : M unit :=
  match fuel with
  | O => nofuel
  | S fuel' => b <- front_step face avg ;; if b then ret tt else front_loop fuel' face avg
  end.

(** ** The vertices inside: 523-546 *)

(** 525-531. *)
Definition first_free (face : ptr) : M (list ptr) :=
  circ_f face [] (fun acc it => s <- he_src it ;; l <- ve_lock s ;; ret (if l then ([], false) else ([s], true))).
(** 541-545. *)
Definition free_neighbors (v : ptr) (inside : list ptr) : M (list ptr) :=
  circ_v v [] (fun acc it => d <- he_dst it ;; l <- ve_lock d ;;
    ret (if negb l && negb (pmem d inside) then acc ++ [d] else acc, false)).
(** 532-546.  Every vertex is entered once, so there are at most as many entries as half-edges. *)
Fixpoint inside_loop (fuel : nat) (que inside : list ptr) : M (list ptr) :=
  match que with
  | [] => ret inside
  | v :: que' =>
      match fuel with
      | O => nofuel
      | S fuel' =>
          if pmem v inside then inside_loop fuel' que' inside else
          l <- free_neighbors v (v :: inside) ;;
          inside_loop fuel' (que' ++ l) (v :: inside)
      end
  end.
Definition inside_verts (face : ptr) : M (list ptr) :=
  que <- first_free face ;;
  k <- get (fun m => length (m_hes m)) ;;
  inside_loop (S k) que [].
Fixpoint addresses (l : list ptr) : list nat := match l with Some a :: l' => a :: addresses l' | None :: l' => addresses l' | [] => [] end.

(** 230-702. *)
Definition holeFillAdvancingFront (fuel : nat) (face : ptr) : M unit :=
  avg <- getMeanEdgeLength ;;
  lock_front face ;;
  front_loop fuel face avg ;;
  l <- inside_verts face ;;
  r <- get (fun m => relax m (addresses l)) ;;
  q <- lift r ;;
  mfor (addresses l) (fun v => w_pos (Some v) (q v)).

End Front.
