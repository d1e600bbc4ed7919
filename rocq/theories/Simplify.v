(** src/tinymesh/remesh/simplify.cpp 115-371: simplifyQEM (with verbose = false).

    The quadrics and the costs are not modelled: the position that computeQEM proposes
    for an edge (88-113) is any vector, and the priority queue may deliver its entries in
    any order.  All accesses to the mesh and to the arrays are. *)
From Coq Require Import Bool List ZArith Arith.
From Verif Require Import Num Vec Heap Mesh Prog Smooth.
Import ListNotations.
Local Open Scope mesh_scope.

Section Simplify.
Context {N : Num}.
Notation M := (M N).

(** a[i] on an array with [n] elements whose values are not modelled. *)
Definition touch (n : nat) (i : Z) : M unit :=
  if ((0 <=? i) && (i <? Z.of_nat n))%Z then ret tt else ub OutOfBounds.
(** checked[i]. *)
Definition flag_at (l : list bool) (i : Z) : M bool :=
  if (i <? 0)%Z then ub OutOfBounds else match nth_error l (Z.to_nat i) with Some b => ret b | None => ub OutOfBounds end.
Definition flag_set (l : list bool) (i : Z) : M (list bool) :=
  b <- flag_at l i ;; ret (setnth l (Z.to_nat i) true).

(** 143-175: one face; [false]: the function returns (156).  [n] is the length of Qs. *)
Definition quad_face (n : nat) (i : nat) : M bool :=
  f <- mesh_face (Z.of_nat i) ;;
  b <- f_isBoundary f ;;
  if b then ret true else
  vs <- f_vertices f ;;
  match vs with
  | [v0; v1; v2] =>
      p1 <- ve_pos v1 ;; p0 <- ve_pos v0 ;; p2 <- ve_pos v2 ;;
      let norm := cross (vsub p1 p0) (vsub p2 p0) in
      q <- lift (vdiv norm (nadd (vlength norm) neps12)) ;;
      i0 <- ve_idx v0 ;; touch n i0 ;;
      i1 <- ve_idx v1 ;; touch n i1 ;;
      i2 <- ve_idx v2 ;; touch n i2 ;;
      ret true
  | _ => ret false
  end.
Fixpoint quad_faces (n : nat) (l : list nat) : M bool :=
  match l with
  | [] => ret true
  | i :: l' => b <- quad_face n i ;; if b then quad_faces n l' else ret false
  end.

(** 179-192: one half-edge is put into the queue; computeQEM reads both positions. *)
Definition quad_edge (n : nat) (i : nat) : M ptr :=
  he <- mesh_halfedge (Z.of_nat i) ;;
  v1 <- he_src he ;; v2 <- he_dst he ;;
  i1 <- ve_idx v1 ;; i2 <- ve_idx v2 ;;
  touch n i1 ;; touch n i2 ;;
  p1 <- ve_pos v1 ;; p2 <- ve_pos v2 ;;
  ret he.

(** 260-266: ps[i] = v_bar for the first of the two vertices that is found. *)
Fixpoint put_bar (vi vj : ptr) (vs : list ptr) (ps : list (vec N)) (v_bar : vec N) : list (vec N) :=
  match vs, ps with
  | v :: vs', p :: ps' => if ptr_eqb v vi || ptr_eqb v vj then v_bar :: ps' else p :: put_bar vi vj vs' ps' v_bar
  | _, _ => ps
  end.
(** 237-279: the loop over the faces, [isFlip] is the flag.  The break of 270 is not
    reached, because both vertices are known to be corners. *)
Fixpoint face_flips (vi vj : ptr) (v_bar : vec N) (fs : list ptr) (isFlip : bool) : M bool :=
  match fs with
  | [] => ret isFlip
  | f :: fs' =>
      vs <- f_vertices f ;;
      ps <- mmap ve_pos vs ;;
      if negb (existsb (ptr_eqb vi) vs) || negb (existsb (ptr_eqb vj) vs) then face_flips vi vj v_bar fs' isFlip
      else
        match ps, put_bar vi vj vs ps v_bar with
        | p0 :: p1 :: p2 :: _, r0 :: r1 :: r2 :: _ =>
            let n0 := cross (vsub p2 p0) (vsub p1 p0) in
            let n1 := cross (vsub r2 r0) (vsub r1 r0) in
            let cos := ndiv (dot n0 n1) (nmul (vlength n0) (vlength n1)) in
            face_flips vi vj v_bar fs' (if nleb cos neps12 then true else isFlip)
        | _, _ => ub OutOfBounds
        end
  end.
(** 299-304: some common neighbour has degree below four. *)
Fixpoint low_degree (vs : list ptr) : M bool :=
  match vs with
  | [] => ret false
  | v :: vs' => d <- degree v ;; if (d <? 4)%Z then ret true else low_degree vs'
  end.

(** 204-324: what is done with the edge taken from the queue.  [None]: continue;
    otherwise the half-edges put into removedHalfedges, the new [checked], and whether
    the edge has been collapsed. *)
Definition qem_edge (checked : list bool) (he : ptr) (v_bar : vec N) : M (option (list ptr * list bool * bool)) :=
  s <- he_src he ;; ii <- ve_idx s ;;
  d <- he_dst he ;; jj <- ve_idx d ;;
  vi <- mesh_vertex ii ;; vj <- mesh_vertex jj ;;
  ki <- ve_idx vi ;; ci <- flag_at checked ki ;;
  if ci then ret None else
  kj <- ve_idx vj ;; cj <- flag_at checked kj ;;
  if cj then ret None else
  bi <- v_isBoundary vi ;;
  if bi then ret None else
  bj <- v_isBoundary vj ;;
  if bj then ret None else
  di <- degree vi ;;
  if (di <=? 3)%Z then ret None else
  dj <- degree vj ;;
  if (dj <=? 3)%Z then ret None else
  fi <- v_faces vi ;; fj <- v_faces vj ;;
  flip <- face_flips vi vj v_bar (fi ++ fj) false ;;
  if flip then ret None else
  si <- v_neighbors vi ;; sj <- v_neighbors vj ;;
  low <- low_degree (filter (fun v => pmem v si) sj) ;;
  if low then ret None else
  n1 <- he_next he ;; n2 <- he_next n1 ;;
  r <- he_rev he ;; r1 <- he_next r ;; r2 <- he_next r1 ;;
  w_pos s v_bar ;;
  ks <- ve_idx s ;;
  checked' <- flag_set checked ks ;;
  ok <- collapseHE he ;;
  ret (Some ([he; n1; n2; r; r1; r2], checked', ok)).

(** The failures of a program that gave no result. *)
Definition failed {A B} (r : res A) (o : res B) : Prop :=
  match r with Ok _ => False | UB u => o = UB u | Abort k => o = Abort k | NoFuel => o = NoFuel end.

(** 196-329: the loop over the queue [que]; [rm] is removedHalfedges, [ck] checked and
    [nr] numRemoved.  Any entry may come out first. *)
Inductive qem_loop (target : Z) : list (ptr * vec N) -> list ptr -> list bool -> Z -> mesh N -> res (Z * mesh N) -> Prop :=
| ql_empty rm ck nr m : qem_loop target [] rm ck nr m (Ok (nr, m))
| ql_done que rm ck nr m : (target <= nr)%Z -> qem_loop target que rm ck nr m (Ok (nr, m))
| ql_skip q1 he v q2 rm ck nr m o : (nr < target)%Z -> pmem he rm = true ->
    qem_loop target (q1 ++ q2) rm ck nr m o -> qem_loop target (q1 ++ (he, v) :: q2) rm ck nr m o
| ql_next q1 he v q2 rm ck nr m m1 o : (nr < target)%Z -> pmem he rm = false -> qem_edge ck he v m = Ok (None, m1) ->
    qem_loop target (q1 ++ q2) rm ck nr m1 o -> qem_loop target (q1 ++ (he, v) :: q2) rm ck nr m o
| ql_edge q1 he v q2 rm ck nr m six ck' (ok : bool) m1 o : (nr < target)%Z -> pmem he rm = false -> qem_edge ck he v m = Ok (Some (six, ck', ok), m1) ->
    qem_loop target (q1 ++ q2) (six ++ rm) ck' (if ok then nr + 2 else nr)%Z m1 o -> qem_loop target (q1 ++ (he, v) :: q2) rm ck nr m o
| ql_fail q1 he v q2 rm ck nr m o : (nr < target)%Z -> pmem he rm = false -> failed (qem_edge ck he v m) o ->
    qem_loop target (q1 ++ (he, v) :: q2) rm ck nr m o.

(** 332-352: the i-th half-edge is flipped if that makes the degrees more even. *)
Definition absdiff (d t : Z) : Z := Z.abs (d - t).
Definition even_flip (i : nat) : M unit :=
  he <- mesh_halfedge (Z.of_nat i) ;;
  f <- he_face he ;; bf <- f_isBoundary f ;;
  if bf then ret tt else
  r <- he_rev he ;; g <- he_face r ;; bg <- f_isBoundary g ;;
  if bg then ret tt else
  v0 <- he_src he ;; v1 <- he_dst he ;; n <- he_next he ;; v2 <- he_dst n ;;
  rn <- he_next r ;; v3 <- he_dst rn ;;
  d0 <- degree v0 ;; d1 <- degree v1 ;; d2 <- degree v2 ;; d3 <- degree v3 ;;
  let score := (absdiff d0 6 + absdiff d1 6 + absdiff d2 6 + absdiff d3 6)%Z in
  let after := (absdiff (d0 - 1) 6 + absdiff (d1 - 1) 6 + absdiff (d2 + 1) 6 + absdiff (d3 + 1) 6)%Z in
  if (score >? after)%Z then b <- flipHE he ;; ret tt else ret tt.
(** for (i = 0; i < mesh.numHalfedges(); i++) body(i). *)
Fixpoint he_loop (body : nat -> M unit) (fuel : nat) (i : nat) : M unit :=
  n <- get (fun m => length (m_hes m)) ;;
  if i <? n then match fuel with O => nofuel | S fuel' => body i ;; he_loop body fuel' (S i) end else ret tt.

(** filters.h 16: smoothLaplacian(mesh, 1.0, false, 3). *)
Definition laplacian_default : mesh N -> res (mesh N) -> Prop := smoothLaplacian none_ false 3.

(** 136-355: one trial.  [None]: the function returns (156). *)
Inductive qem_trial (target nr : Z) (m : mesh N) : res (option Z * mesh N) -> Prop :=
| qt_fail0 o : failed (quad_faces (length (m_verts m)) (seq 0 (length (m_faces m))) m) o -> qem_trial target nr m o
| qt_return m1 : quad_faces (length (m_verts m)) (seq 0 (length (m_faces m))) m = Ok (false, m1) -> qem_trial target nr m (Ok (None, m1))
| qt_fail1 m1 o : quad_faces (length (m_verts m)) (seq 0 (length (m_faces m))) m = Ok (true, m1) ->
    failed (mmap (quad_edge (length (m_verts m))) (seq 0 (length (m_hes m))) m1) o -> qem_trial target nr m o
| qt_fail2 m1 hs m2 que r o : quad_faces (length (m_verts m)) (seq 0 (length (m_faces m))) m = Ok (true, m1) ->
    mmap (quad_edge (length (m_verts m))) (seq 0 (length (m_hes m))) m1 = Ok (hs, m2) -> map fst que = hs ->
    qem_loop target que [] (repeat false (length (m_verts m))) nr m2 r -> failed r o -> qem_trial target nr m o
| qt_fail3 m1 hs m2 que nr' m3 o : quad_faces (length (m_verts m)) (seq 0 (length (m_faces m))) m = Ok (true, m1) ->
    mmap (quad_edge (length (m_verts m))) (seq 0 (length (m_hes m))) m1 = Ok (hs, m2) -> map fst que = hs ->
    qem_loop target que [] (repeat false (length (m_verts m))) nr m2 (Ok (nr', m3)) ->
    failed (he_loop even_flip (length (m_hes m3)) 0 m3) o -> qem_trial target nr m o
| qt_fail4 m1 hs m2 que nr' m3 m4 r o : quad_faces (length (m_verts m)) (seq 0 (length (m_faces m))) m = Ok (true, m1) ->
    mmap (quad_edge (length (m_verts m))) (seq 0 (length (m_hes m))) m1 = Ok (hs, m2) -> map fst que = hs ->
    qem_loop target que [] (repeat false (length (m_verts m))) nr m2 (Ok (nr', m3)) ->
    he_loop even_flip (length (m_hes m3)) 0 m3 = Ok (tt, m4) -> taubin_default m4 r -> failed r o -> qem_trial target nr m o
| qt_ok m1 hs m2 que nr' m3 m4 m5 : quad_faces (length (m_verts m)) (seq 0 (length (m_faces m))) m = Ok (true, m1) ->
    mmap (quad_edge (length (m_verts m))) (seq 0 (length (m_hes m))) m1 = Ok (hs, m2) -> map fst que = hs ->
    qem_loop target que [] (repeat false (length (m_verts m))) nr m2 (Ok (nr', m3)) ->
    he_loop even_flip (length (m_hes m3)) 0 m3 = Ok (tt, m4) -> taubin_default m4 (Ok m5) -> qem_trial target nr m (Ok (Some nr', m5)).

(** 134-364: the loop over the trials; [fuel] bounds the number of its iterations. *)
Inductive qem_trials (target maxTrials : Z) : nat -> Z -> Z -> mesh N -> res (mesh N) -> Prop :=
| qo_end fuel trial nr m : (maxTrials <= trial)%Z -> qem_trials target maxTrials fuel trial nr m (Ok m)
| qo_fuel trial nr m : (trial < maxTrials)%Z -> qem_trials target maxTrials 0 trial nr m NoFuel
| qo_fail fuel trial nr m r o : (trial < maxTrials)%Z -> qem_trial target nr m r -> failed r o -> qem_trials target maxTrials (S fuel) trial nr m o
| qo_return fuel trial nr m m' : (trial < maxTrials)%Z -> qem_trial target nr m (Ok (None, m')) -> qem_trials target maxTrials (S fuel) trial nr m (Ok m')
| qo_break fuel trial nr m nr' m' : (trial < maxTrials)%Z -> qem_trial target nr m (Ok (Some nr', m')) -> (target <= nr')%Z ->
    qem_trials target maxTrials (S fuel) trial nr m (Ok m')
| qo_go fuel trial nr m nr' m' o : (trial < maxTrials)%Z -> qem_trial target nr m (Ok (Some nr', m')) -> (nr' < target)%Z ->
    qem_trials target maxTrials fuel ((if (length (m_faces m') <? length (m_faces m))%nat then 0 else trial) + 1)%Z nr' m' o ->
    qem_trials target maxTrials (S fuel) trial nr m o.

(** 115-371. *)
Inductive simplifyQEM (numTarget maxTrials : Z) (fuel : nat) (m : mesh N) : res (mesh N) -> Prop :=
| sq_zero : numTarget = 0%Z -> simplifyQEM numTarget maxTrials fuel m (Abort AAssert)
| sq_few : numTarget <> 0%Z -> (Z.of_nat (length (m_faces m)) <= numTarget)%Z -> simplifyQEM numTarget maxTrials fuel m (Ok m)
| sq_fail r o : numTarget <> 0%Z -> (numTarget < Z.of_nat (length (m_faces m)))%Z -> laplacian_default m r -> failed r o ->
    simplifyQEM numTarget maxTrials fuel m o
| sq_run m1 o : numTarget <> 0%Z -> (numTarget < Z.of_nat (length (m_faces m)))%Z -> laplacian_default m (Ok m1) ->
    qem_trials (Z.of_nat (length (m_faces m)) - numTarget)%Z maxTrials fuel 0 0 m1 o -> simplifyQEM numTarget maxTrials fuel m o.

End Simplify.
