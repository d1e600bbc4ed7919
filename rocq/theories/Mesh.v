(** src/tinymesh/core/{vertex,halfedge,face,mesh}.cpp: queries and local edits. *)
From Coq Require Import Bool List ZArith Arith.
From Verif Require Import Num Vec Heap.
Import ListNotations.
Local Open Scope mesh_scope.

Section Mesh.
Context {N : Num}.
Notation M := (M N).

(** ** Accessors *)

(** halfedge.h 35-37: dst() is next_->src_. *)
Definition he_dst (p : ptr) : M ptr := n <- he_next p ;; he_src n.

(** mesh.h 52-65: bounds-checked element access. *)
Definition mesh_vertex (i : Z) : M ptr :=
  l <- get m_verts ;; assertion ((0 <=? i) && (i <? Z.of_nat (length l)))%Z ;; vec_at l i.
Definition mesh_halfedge (i : Z) : M ptr :=
  l <- get m_hes ;; assertion ((0 <=? i) && (i <? Z.of_nat (length l)))%Z ;; vec_at l i.
Definition mesh_face (i : Z) : M ptr :=
  l <- get m_faces ;; assertion ((0 <=? i) && (i <? Z.of_nat (length l)))%Z ;; vec_at l i.

(** ** Circulation *)

(** The iterators of vertex.cpp 292-560 and face.cpp 149-420 hold the start
    half-edge [start] and the current one [it]; ++ moves to [step it], or to
    [nullptr] when that is the start again; the loop
      for (auto it = begin(); it != end(); ++it) body
    runs [body] while [it] is not [nullptr].  [body] returns the new accumulator
    and whether the loop is left ([break] / [return]).
    [fuel]: see [circ_v], [circ_f]. *)
Fixpoint circ {A} (step : ptr -> M ptr) (body : A -> ptr -> M (A * bool))
         (fuel : nat) (start it : ptr) (acc : A) : M A :=
  match it with
  | None => ret acc
  | Some _ =>
      match fuel with
      | O => nofuel
      | S fuel' =>
          r <- body acc it ;;
          if snd r then ret (fst r)
          else n <- step it ;;
               circ step body fuel' start (if ptr_eqb n start then None else n) (fst r)
      end
  end.

(** vertex.cpp 323-329: iter_ = iter_->rev()->next(). *)
Definition step_v (it : ptr) : M ptr := r <- he_rev it ;; he_next r.
(** face.cpp 182-188: iter_ = iter_->next(). *)
Definition step_f (it : ptr) : M ptr := he_next it.

(** All addresses are below [m_fresh], so a circulation that has not come back
    to its start after [m_fresh] steps never will. *)
Definition circ_v {A} (v : ptr) (acc : A) (body : A -> ptr -> M (A * bool)) : M A :=
  h <- ve_he v ;; fr <- get m_fresh ;; circ step_v body (S fr) h h acc.
Definition circ_f {A} (f : ptr) (acc : A) (body : A -> ptr -> M (A * bool)) : M A :=
  h <- fa_he f ;; fr <- get m_fresh ;; circ step_f body (S fr) h h acc.

(** Collect what the iterator points at. *)
Definition v_halfedges (v : ptr) : M (list ptr) :=
  circ_v v [] (fun acc it => ret (acc ++ [it], false)).
Definition v_neighbors (v : ptr) : M (list ptr) :=
  circ_v v [] (fun acc it => d <- he_dst it ;; ret (acc ++ [d], false)).
Definition v_faces (v : ptr) : M (list ptr) :=
  circ_v v [] (fun acc it => f <- he_face it ;; ret (acc ++ [f], false)).
Definition f_halfedges (f : ptr) : M (list ptr) :=
  circ_f f [] (fun acc it => ret (acc ++ [it], false)).
Definition f_vertices (f : ptr) : M (list ptr) :=
  circ_f f [] (fun acc it => s <- he_src it ;; ret (acc ++ [s], false)).

(** vertex.cpp 37-43. *)
Definition degree (v : ptr) : M Z := circ_v v 0%Z (fun d _ => ret (d + 1, false)%Z).
(** vertex.cpp 62-69. *)
Definition v_isBoundary (v : ptr) : M bool :=
  circ_v v false (fun _ it => b <- he_bd it ;; ret (if b then (true, true) else (false, false))).
(** face.cpp 70-76. *)
Definition numCorners (f : ptr) : M Z := circ_f f 0%Z (fun d _ => ret (d + 1, false)%Z).
(** face.cpp 78-86. *)
Definition f_isHole (f : ptr) : M bool :=
  circ_f f true (fun _ it => b <- he_bd it ;; ret (if b then (true, false) else (false, true))).
(** face.cpp 88-95. *)
Definition f_isBoundary (f : ptr) : M bool :=
  circ_f f false (fun _ it => b <- he_bd it ;; ret (if b then (true, true) else (false, false))).
(** face.cpp 97-104. *)
Definition f_isLocked (f : ptr) : M bool :=
  circ_f f false (fun _ it => s <- he_src it ;; b <- ve_lock s ;; ret (if b then (true, true) else (false, false))).

(** halfedge.h 41-47: while (iter->next_ != this) iter = iter->next_. *)
Fixpoint prev_loop (fuel : nat) (self it : ptr) : M ptr :=
  n <- he_next it ;;
  if ptr_eqb n self then ret it
  else match fuel with O => nofuel | S fuel' => prev_loop fuel' self n end.
Definition he_prev (p : ptr) : M ptr :=
  it <- he_next p ;; fr <- get m_fresh ;; prev_loop fr p it.

(** halfedge.cpp 24-26. *)
Definition he_length (p : ptr) : M num :=
  s <- he_src p ;; d <- he_dst p ;; ps <- ve_pos s ;; pd <- ve_pos d ;; ret (vlength (vsub ps pd)).

(** halfedge.cpp 28-44. *)
Definition he_cotWeight (p : ptr) : M num :=
  v0 <- he_src p ;;
  v1 <- he_dst p ;;
  n <- he_next p ;; v2 <- he_dst n ;;
  r <- he_rev p ;; rn <- he_next r ;; v3 <- he_dst rn ;;
  p0 <- ve_pos v0 ;; p1 <- ve_pos v1 ;; p2 <- ve_pos v2 ;; p3 <- ve_pos v3 ;;
  let sin_a := vlength (cross (vsub p0 p2) (vsub p1 p2)) in
  let cos_a := dot (vsub p0 p2) (vsub p1 p2) in
  let cot_a := ndiv cos_a (nmax sin_a neps6) in
  let sin_b := vlength (cross (vsub p0 p3) (vsub p1 p3)) in
  let cos_b := dot (vsub p0 p3) (vsub p1 p3) in
  let cot_b := ndiv cos_b (nmax sin_b neps6) in
  ret (nmul nhalf (nadd cot_a cot_b)).

(** ** Element lists *)

(** mesh.cpp 1012-1025. *)
Definition addVertex (v : ptr) : M unit :=
  l <- get m_verts ;;
  w_vidx v (Z.of_nat (length l)) ;;
  match v with Some a => modify (set_m_verts (l ++ [a])) | None => ub NullDeref end.
Definition addHalfedge (h : ptr) : M unit :=
  l <- get m_hes ;;
  w_hidx h (Z.of_nat (length l)) ;;
  match h with Some a => modify (set_m_hes (l ++ [a])) | None => ub NullDeref end.
Definition addFace (f : ptr) : M unit :=
  l <- get m_faces ;;
  w_fidx f (Z.of_nat (length l)) ;;
  match f with Some a => modify (set_m_faces (l ++ [a])) | None => ub NullDeref end.

(** vertex.cpp 29-35, halfedge.cpp 14-22, face.cpp 16-21: operator==. *)
Definition vertex_eqb (p q : ptr) : M bool :=
  pp <- ve_pos p ;; pq <- ve_pos q ;; hp <- ve_he p ;; hq <- ve_he q ;; ip <- ve_idx p ;; iq <- ve_idx q ;;
  ret (veqb pp pq && ptr_eqb hp hq && (ip =? iq)%Z).
Definition halfedge_eqb (p q : ptr) : M bool :=
  sp <- he_src p ;; sq <- he_src q ;; np <- he_next p ;; nq <- he_next q ;;
  rp <- he_rev p ;; rq <- he_rev q ;; fp <- he_face p ;; fq <- he_face q ;; ip <- he_idx p ;; iq <- he_idx q ;;
  ret (ptr_eqb sp sq && ptr_eqb np nq && ptr_eqb rp rq && ptr_eqb fp fq && (ip =? iq)%Z).
Definition face_eqb (p q : ptr) : M bool :=
  hp <- fa_he p ;; hq <- fa_he q ;; ip <- fa_idx p ;; iq <- fa_idx q ;;
  ret (ptr_eqb hp hq && (ip =? iq)%Z).

(** Freeing the last element when a vector is shortened by one. *)
Definition free_v (a : nat) : M unit := modify (set_v_live a false).
Definition free_h (a : nat) : M unit := modify (set_h_live a false).
Definition free_f (a : nat) : M unit := modify (set_f_live a false).

(** mesh.cpp 1027-1038: removeVertex. *)
Definition removeVertex (v : ptr) : M unit :=
  l <- get m_verts ;;
  let n := Z.of_nat (length l) in
  i <- ve_idx v ;;
  w <- vec_at l i ;;
  e <- vertex_eqb v w ;;
  assertion e ;;
  assertion (i <? n)%Z ;;
  (if (i <? n - 1)%Z then
     modify (set_m_verts (swap_list l (Z.to_nat i) (Z.to_nat (n - 1)))) ;;
     l1 <- get m_verts ;;
     p <- vec_at l1 i ;; q <- vec_at l1 (n - 1) ;;
     ip <- ve_idx p ;; iq <- ve_idx q ;;
     w_vidx p iq ;; w_vidx q ip ;;
     w_vidx q (-1)
   else ret tt) ;;
  l2 <- get m_verts ;;
  q <- vec_at l2 (n - 1) ;;
  match q with
  | Some a => modify (set_m_verts (removelast l2)) ;; free_v a
  | None => ub NullDeref
  end.

(** mesh.cpp 1040-1051: removeHalfedge. *)
Definition removeHalfedge (h : ptr) : M unit :=
  l <- get m_hes ;;
  let n := Z.of_nat (length l) in
  i <- he_idx h ;;
  w <- vec_at l i ;;
  e <- halfedge_eqb h w ;;
  assertion e ;;
  assertion (i <? n)%Z ;;
  (if (i <? n - 1)%Z then
     modify (set_m_hes (swap_list l (Z.to_nat i) (Z.to_nat (n - 1)))) ;;
     l1 <- get m_hes ;;
     p <- vec_at l1 i ;; q <- vec_at l1 (n - 1) ;;
     ip <- he_idx p ;; iq <- he_idx q ;;
     w_hidx p iq ;; w_hidx q ip ;;
     w_hidx q (-1)
   else ret tt) ;;
  l2 <- get m_hes ;;
  q <- vec_at l2 (n - 1) ;;
  match q with
  | Some a => modify (set_m_hes (removelast l2)) ;; free_h a
  | None => ub NullDeref
  end.

(** mesh.cpp 1053-1064: removeFace. *)
Definition removeFace (f : ptr) : M unit :=
  l <- get m_faces ;;
  let n := Z.of_nat (length l) in
  i <- fa_idx f ;;
  w <- vec_at l i ;;
  e <- face_eqb f w ;;
  assertion e ;;
  assertion (i <? n)%Z ;;
  (if (i <? n - 1)%Z then
     modify (set_m_faces (swap_list l (Z.to_nat i) (Z.to_nat (n - 1)))) ;;
     l1 <- get m_faces ;;
     p <- vec_at l1 i ;; q <- vec_at l1 (n - 1) ;;
     ip <- fa_idx p ;; iq <- fa_idx q ;;
     w_fidx p iq ;; w_fidx q ip ;;
     w_fidx q (-1)
   else ret tt) ;;
  l2 <- get m_faces ;;
  q <- vec_at l2 (n - 1) ;;
  match q with
  | Some a => modify (set_m_faces (removelast l2)) ;; free_f a
  | None => ub NullDeref
  end.

(** ** splitHE: mesh.cpp 562-692 *)
Definition splitHE (he : ptr) : M bool :=
  rev <- he_rev he ;;
  v0 <- he_src he ;;
  v1 <- he_src rev ;;
  d0 <- degree v0 ;;
  d1 <- degree v1 ;;
  let sw := (d0 <? d1)%Z in
  let he' := if sw then rev else he in
  let rev' := if sw then he else rev in
  let v0' := if sw then v1 else v0 in
  let v1' := if sw then v0 else v1 in
  let he := he' in let rev := rev' in let v0 := v0' in let v1 := v1' in
  d0 <- degree v0 ;;
  d1 <- degree v1 ;;
  if ((d0 <? 3) || (d1 <? 3))%Z then ret false else
  b0 <- he_bd he ;;
  hr <- he_rev he ;;
  b1 <- he_bd hr ;;
  if b0 || b1 then ret false else
  (* Prepare halfedge / face: 578-600 *)
  he_new <- new_he ;;
  he01 <- new_he ;;
  he02 <- new_he ;;
  rev_new <- new_he ;;
  he11 <- new_he ;;
  he12 <- new_he ;;
  he0 <- he_next he ;;
  he1 <- he_next he0 ;;
  he2 <- he_next rev ;;
  he3 <- he_next he2 ;;
  f0 <- he_face he ;;
  f1 <- he_face rev ;;
  f0_new <- new_face ;;
  f1_new <- new_face ;;
  v2 <- he_src he1 ;;
  v3 <- he_src he3 ;;
  (* Prepare new vertex: 602-604 *)
  sv <- he_src he ;;
  dv <- he_dst he ;;
  ps <- ve_pos sv ;;
  pd <- ve_pos dv ;;
  v_new <- new_vertex (vscale nhalf (vadd ps pd)) ;;
  (* Update next half-edges: 606-621 *)
  w_next he he0 ;; w_next he0 he01 ;; w_next he01 he ;;
  w_next he_new he02 ;; w_next he02 he1 ;; w_next he1 he_new ;;
  w_next rev he11 ;; w_next he11 he3 ;; w_next he3 rev ;;
  w_next rev_new he2 ;; w_next he2 he12 ;; w_next he12 rev_new ;;
  (* Update rev half-edges: 623-634 *)
  w_rev he rev ;; w_rev rev he ;;
  w_rev he_new rev_new ;; w_rev rev_new he_new ;;
  w_rev he01 he02 ;; w_rev he02 he01 ;;
  w_rev he11 he12 ;; w_rev he12 he11 ;;
  (* Update faces: 636-651 *)
  w_face he f0 ;; w_face he0 f0 ;; w_face he01 f0 ;;
  w_face he_new f0_new ;; w_face he02 f0_new ;; w_face he1 f0_new ;;
  w_face rev f1 ;; w_face he3 f1 ;; w_face he11 f1 ;;
  w_face rev_new f1_new ;; w_face he12 f1_new ;; w_face he2 f1_new ;;
  (* Update halfedge origins: 653-668 *)
  w_src he v_new ;; w_src he0 v1 ;; w_src he01 v2 ;;
  w_src he_new v0 ;; w_src he02 v_new ;; w_src he1 v2 ;;
  w_src rev v1 ;; w_src he11 v_new ;; w_src he3 v3 ;;
  w_src rev_new v_new ;; w_src he2 v0 ;; w_src he12 v3 ;;
  (* Update vertex halfedges: 670-673 *)
  w_vhe v0 he2 ;; w_vhe v1 he0 ;; w_vhe v_new he ;;
  (* Update face halfedges: 675-679 *)
  w_fhe f0 he ;; w_fhe f0_new he_new ;; w_fhe f1 rev ;; w_fhe f1_new rev_new ;;
  (* Add new components to the list: 681-690 *)
  addFace f0_new ;; addFace f1_new ;;
  addVertex v_new ;;
  addHalfedge he_new ;; addHalfedge rev_new ;;
  addHalfedge he01 ;; addHalfedge he02 ;; addHalfedge he11 ;; addHalfedge he12 ;;
  ret true.

(** ** flipHE: mesh.cpp 868-932 *)
Definition flipHE (he : ptr) : M bool :=
  rev <- he_rev he ;;
  match rev with None => abort AError | Some _ =>
  u0 <- he_src he ;;
  hp <- he_prev he ;; u1 <- he_src hp ;;
  u2 <- he_src rev ;;
  rp <- he_prev rev ;; u3 <- he_src rp ;;
  d0 <- degree u0 ;;
  d2 <- (if (d0 <=? 4)%Z then ret 0%Z else degree u2) ;;
  if ((d0 <=? 4) || (d2 <=? 4))%Z then ret false else
  (* 883-887 *)
  conn <- circ_v u1 false (fun _ it => d <- he_dst it ;; ret (if ptr_eqb d u3 then (true, true) else (false, false))) ;;
  if conn then ret false else
  (* 889-901 *)
  he0 <- he_next he ;;
  he1 <- he_next he0 ;;
  he2 <- he_next rev ;;
  he3 <- he_next he2 ;;
  v0 <- he_src he0 ;;
  v1 <- he_src he1 ;;
  v2 <- he_src he2 ;;
  v3 <- he_src he3 ;;
  f0 <- he_face he ;;
  f1 <- he_face rev ;;
  (* 903-909 *)
  w_vhe v0 he0 ;; w_vhe v2 he2 ;;
  w_src he v3 ;; w_src rev v1 ;;
  (* 911-917 *)
  w_next he he1 ;; w_next he1 he2 ;; w_next he2 he ;;
  w_next rev he3 ;; w_next he3 he0 ;; w_next he0 rev ;;
  (* 919-928 *)
  w_fhe f0 he ;; w_face he f0 ;; w_face he1 f0 ;; w_face he2 f0 ;;
  w_fhe f1 rev ;; w_face rev f1 ;; w_face he0 f1 ;; w_face he3 f1 ;;
  ret true
  end.

(** ** collapseHE: mesh.cpp 694-843 *)

(** mesh.cpp 761-767: sum of cross products of consecutive neighbours. *)
Definition ring_norm (c : vec N) (ps : list (vec N)) : vec N :=
  let n := length ps in
  fold_left (fun acc i =>
      let e1 := vsub (nth i ps vzero) c in
      let e2 := vsub (nth (Nat.modulo (i + 1) n) ps vzero) c in
      vadd acc (cross e1 e2)) (seq 0 n) vzero.

(** mesh.cpp 775-786: [true] when some consecutive pair of signs differs (return false). *)
Fixpoint ring_flips (norm c : vec N) (ps : list (vec N)) (n : nat) (is : list nat) (sign : num) : bool :=
  match is with
  | [] => false
  | i :: is' =>
      let e1 := vsub (nth i ps vzero) c in
      let e2 := vsub (nth (Nat.modulo (i + 1) n) ps vzero) c in
      let s := dot norm (cross e1 e2) in
      if nltb (nmul sign s) nzero then true
      else ring_flips norm c ps n is' s
  end.

(** std::set<Vertex*>::find, by address. *)
Definition pmem (p : ptr) (l : list ptr) : bool := existsb (ptr_eqb p) l.

Definition collapseHE (he : ptr) : M bool :=
  rev <- he_rev he ;;
  nh <- get (fun m => Z.of_nat (length (m_hes m))) ;;
  ih <- he_idx he ;; assertion (ih <? nh)%Z ;;
  ir <- he_idx rev ;; assertion (ir <? nh)%Z ;;
  (* 710-715 *)
  s0 <- he_src he ;; d0 <- degree s0 ;;
  s1 <- he_src rev ;; d1 <- degree s1 ;;
  let sw := (d0 >? d1)%Z in
  let he' := if sw then rev else he in
  let rev' := if sw then he else rev in
  let he := he' in let rev := rev' in
  (* 717-720 *)
  f0 <- he_face he ;; b0 <- f_isBoundary f0 ;;
  b1 <- (if b0 then ret true else hr <- he_rev he ;; f1 <- he_face hr ;; f_isBoundary f1) ;;
  if b0 || b1 then ret false else
  (* 722-726 *)
  v0 <- he_src he ;;
  hp <- he_prev he ;; v1 <- he_src hp ;;
  v2 <- he_src rev ;;
  rp <- he_prev rev ;; v3 <- he_src rp ;;
  (* 728-731 *)
  nv <- get (fun m => Z.of_nat (length (m_verts m))) ;;
  i0 <- ve_idx v0 ;; assertion (i0 <? nv)%Z ;;
  i1 <- ve_idx v1 ;; assertion (i1 <? nv)%Z ;;
  i2 <- ve_idx v2 ;; assertion (i2 <? nv)%Z ;;
  i3 <- ve_idx v3 ;; assertion (i3 <? nv)%Z ;;
  (* 733-735 *)
  e0 <- degree v0 ;; e1 <- degree v1 ;; e2 <- degree v2 ;; e3 <- degree v3 ;;
  if ((e0 <=? 3) || (e1 <=? 4) || (e2 <=? 3) || (e3 <=? 4))%Z then ret false else
  (* 737-744 *)
  neighbors <- circ_v v2 [] (fun acc it => d <- he_dst it ;; assertion (negb (ptr_eqb d None)) ;; ret (acc ++ [d], false)) ;;
  assertion (negb (Nat.eqb (length neighbors) 0)) ;;
  (* 746-758 *)
  numUnion <- circ_v v0 0%Z (fun acc it => d <- he_dst it ;; assertion (negb (ptr_eqb d None)) ;;
                             ret (if pmem d neighbors then acc + 1 else acc, false)%Z) ;;
  if negb (numUnion =? 2)%Z then ret false else
  (* 760-773 *)
  p2 <- ve_pos v2 ;;
  nps <- mmap ve_pos neighbors ;;
  let norm0 := ring_norm p2 nps in
  if neqb (vlength norm0) nzero then ret false else
  norm <- lift (normalize norm0) ;;
  (* 775-786 *)
  p0 <- ve_pos v0 ;;
  if ring_flips norm p0 nps (length nps) (seq 0 (length nps)) nzero then ret false else
  (* 788-801 *)
  let v_remove := v2 in
  let v_remain := v0 in
  ia <- ve_idx v_remain ;; assertion (ia <? nv)%Z ;;
  ib <- ve_idx v_remove ;; assertion (ib <? nv)%Z ;;
  assertion (negb (ptr_eqb v_remove v_remain)) ;;
  circ_v v_remove tt (fun _ it => s <- he_src it ;; assertion (ptr_eqb s v_remove) ;; w_src it v_remain ;; ret (tt, false)) ;;
  circ_v v_remain tt (fun _ it => s <- he_src it ;; assertion (ptr_eqb s v_remain) ;; ret (tt, false)) ;;
  (* 803-812 *)
  hn <- he_next he ;; hnn <- he_next hn ;; he0 <- he_rev hnn ;;
  hn' <- he_next he ;; he1 <- he_rev hn' ;;
  w_rev he0 he1 ;; w_rev he1 he0 ;;
  rn <- he_next rev ;; rnn <- he_next rn ;; he2 <- he_rev rnn ;;
  rn' <- he_next rev ;; he3 <- he_rev rn' ;;
  w_rev he2 he3 ;; w_rev he3 he2 ;;
  (* 814-821 *)
  w_vhe v_remain he0 ;;
  w_vhe v0 he0 ;; w_vhe v1 he1 ;; w_vhe v2 he2 ;; w_vhe v3 he3 ;;
  (* 823-827 *)
  f0 <- he_face he ;;
  f1 <- he_face rev ;;
  b0 <- f_isBoundary f0 ;; assertion (negb b0) ;;
  b1 <- f_isBoundary f1 ;; assertion (negb b1) ;;
  (* 829-834 *)
  x <- he_next he ;; y <- he_next x ;; removeHalfedge y ;;
  x <- he_next he ;; removeHalfedge x ;;
  removeHalfedge he ;;
  x <- he_next rev ;; y <- he_next x ;; removeHalfedge y ;;
  x <- he_next rev ;; removeHalfedge x ;;
  removeHalfedge rev ;;
  (* 836-841 *)
  removeFace f0 ;; removeFace f1 ;;
  removeVertex v_remove ;;
  ret true.

(** ** collapseFace: mesh.cpp 845-866 *)
Definition collapseFace (f : ptr) : M bool :=
  hes <- f_halfedges f ;;
  assertion (Nat.eqb (length hes) 3) ;;
  let he1 := nth 0 hes None in
  n <- he_next he1 ;; he2 <- he_rev n ;;
  r1 <- collapseHE he1 ;;
  i <- he_idx he2 ;;
  nh <- get (fun m => Z.of_nat (length (m_hes m))) ;;
  assertion ((0 <=? i) && (i <? nh))%Z ;;
  r2 <- collapseHE he2 ;;
  ret (r1 && r2).

(** ** verify: mesh.cpp 953-1010 *)
Definition verifyVertex (v : ptr) : M bool :=
  nv <- get (fun m => Z.of_nat (length (m_verts m))) ;;
  i <- ve_idx v ;;
  p <- ve_pos v ;;
  ring <- circ_v v true (fun ok it => s <- he_src it ;; ret (ok && ptr_eqb s v, false)) ;;
  ret (negb (nv <=? i)%Z && vfinite p && ring).

Fixpoint verify_vertices (i : nat) (l : list nat) : M bool :=
  match l with
  | [] => ret true
  | a :: l' =>
      ix <- ve_idx (Some a) ;;
      b <- verifyVertex (Some a) ;;
      r <- verify_vertices (S i) l' ;;
      ret ((ix =? Z.of_nat i)%Z && b && r)
  end.
Fixpoint verify_halfedges (i : nat) (l : list nat) : M bool :=
  match l with
  | [] => ret true
  | a :: l' =>
      ix <- he_idx (Some a) ;;
      r <- verify_halfedges (S i) l' ;;
      ret ((ix =? Z.of_nat i)%Z && r)
  end.
Fixpoint verify_faces (i : nat) (l : list nat) : M bool :=
  match l with
  | [] => ret true
  | a :: l' =>
      ix <- fa_idx (Some a) ;;
      h <- fa_he (Some a) ;;
      r <- verify_faces (S i) l' ;;
      ret ((ix =? Z.of_nat i)%Z && negb (ptr_eqb h None) && r)
  end.
Definition verify : M bool :=
  lv <- get m_verts ;; lh <- get m_hes ;; lf <- get m_faces ;;
  a <- verify_vertices 0 lv ;; b <- verify_halfedges 0 lh ;; c <- verify_faces 0 lf ;;
  ret (a && b && c).

(** ** Whole-mesh queries *)

(** mesh.cpp 47-67. *)
Definition numVertices (m : mesh N) : nat := length (m_verts m).
Definition numHalfedges (m : mesh N) : nat := length (m_hes m).
Definition numFaces (m : mesh N) : nat := length (m_faces m).

(** mesh.cpp 51-59: hes is the set of visited half-edges; returns it (latest first). *)
Fixpoint edge_reps (l : list nat) (seen : list ptr) : M (list ptr) :=
  match l with
  | [] => ret seen
  | a :: l' =>
      if pmem (Some a) seen then edge_reps l' seen
      else r <- he_rev (Some a) ;;
           if pmem r seen then edge_reps l' seen
           else edge_reps l' (Some a :: seen)
  end.
Definition numEdges : M nat :=
  l <- get m_hes ;; s <- edge_reps l [] ;; ret (length s).

(** mesh.cpp 138-150. *)
Definition getMeanEdgeLength : M num :=
  l <- get m_hes ;; s <- edge_reps l [] ;;
  sum <- mfold (fun acc h => x <- he_length h ;; ret (nadd acc x)) nzero (List.rev s) ;;
  ret (ndiv sum (nofZ (Z.of_nat (length s)))).

(** mesh.cpp 113-119. *)
Definition getVertices : M (list (vec N)) :=
  l <- get m_verts ;; mmap (fun a => ve_pos (Some a)) l.

(** mesh.cpp 121-136. *)
Fixpoint vertex_indices (l : list nat) : M (list Z) :=
  match l with
  | [] => ret []
  | f :: l' =>
      hole <- f_isHole (Some f) ;;
      if hole then vertex_indices l'
      else
        h <- fa_he (Some f) ;; s0 <- he_src h ;; i0 <- ve_idx s0 ;;
        h <- fa_he (Some f) ;; n <- he_next h ;; s1 <- he_src n ;; i1 <- ve_idx s1 ;;
        h <- fa_he (Some f) ;; p <- he_prev h ;; s2 <- he_src p ;; i2 <- ve_idx s2 ;;
        r <- vertex_indices l' ;;
        ret (i0 :: i1 :: i2 :: r)
  end.
Definition getVertexIndices : M (list Z) := l <- get m_faces ;; vertex_indices l.

End Mesh.
