(** src/tinymesh/filters/smooth.cpp and the normal filters of filters/denoise.cpp.
    The bodies of the omp_parallel_for loops (core/openmp.h 9-22) are threads: programs
    of single accesses to the heap and to the local arrays, see Prog.v. *)
From Coq Require Import Bool List ZArith Arith.
From Verif Require Import Num Vec Heap Mesh Prog.
Import ListNotations.
Local Open Scope prog_scope.

Section Smooth.
Context {N : Num}.
Notation M := (M N).

(** The shared memory of a parallel loop: the mesh and the arrays centroids, normals,
    newNormals (Vec3) and areas (double). *)
Record mem := mkMem { l_mesh : mesh N; l_cent : list (vec N); l_norm : list (vec N); l_new : list (vec N); l_area : list num }.
Definition mem0 (m : mesh N) (n : nat) : mem := mkMem m (repeat vzero n) (repeat vzero n) (repeat vzero n) (repeat nzero n).
Definition set_cent x s := mkMem (l_mesh s) x (l_norm s) (l_new s) (l_area s).
Definition set_norm x s := mkMem (l_mesh s) (l_cent s) x (l_new s) (l_area s).
Definition set_new x s := mkMem (l_mesh s) (l_cent s) (l_norm s) x (l_area s).
Definition set_area x s := mkMem (l_mesh s) (l_cent s) (l_norm s) (l_new s) x.
Notation P := (prog mem).

(** An operation of the mesh monad on the shared mesh.  Used for single accesses only. *)
Definition lift_mem {X} (x : M X) (s : mem) : res (X * mem) :=
  match x (l_mesh s) with
  | Ok (a, m') => Ok (a, mkMem m' (l_cent s) (l_norm s) (l_new s) (l_area s))
  | UB u => UB u
  | Abort u => Abort u
  | NoFuel => NoFuel
  end.
Definition onm {X} (x : M X) : P X := act (lift_mem x).
(** arr[i] and arr[i] = x. *)
Definition arr_get {X} (f : mem -> list X) (i : Z) : P X := act (fun s =>
  if (i <? 0)%Z then UB OutOfBounds else match nth_error (f s) (Z.to_nat i) with Some x => Ok (x, s) | None => UB OutOfBounds end).
Definition arr_set {X} (f : mem -> list X) (upd : list X -> mem -> mem) (i : nat) (x : X) : P unit := act (fun s =>
  if Nat.ltb i (length (f s)) then Ok (tt, upd (setnth (f s) i x) s) else UB OutOfBounds).

(** [circ], [circ_v], [circ_f], [he_dst], [v_isBoundary], [he_cotWeight] of Mesh.v, access by access. *)
Fixpoint pcirc {A} (step : ptr -> P ptr) (body : A -> ptr -> P (A * bool)) (fuel : nat) (start it : ptr) (acc : A) : P A :=
  match it with
  | None => PRet acc
  | Some _ =>
      match fuel with
      | O => onm nofuel
      | S fuel' =>
          r <- body acc it ;;
          if snd r then PRet (fst r)
          else n <- step it ;; pcirc step body fuel' start (if ptr_eqb n start then None else n) (fst r)
      end
  end.
Definition p_step_v (it : ptr) : P ptr := r <- onm (he_rev it) ;; onm (he_next r).
Definition p_step_f (it : ptr) : P ptr := onm (he_next it).
Definition p_circ_v {A} (v : ptr) (acc : A) (body : A -> ptr -> P (A * bool)) : P A :=
  h <- onm (ve_he v) ;; fr <- onm (get m_fresh) ;; pcirc p_step_v body (S fr) h h acc.
Definition p_circ_f {A} (f : ptr) (acc : A) (body : A -> ptr -> P (A * bool)) : P A :=
  h <- onm (fa_he f) ;; fr <- onm (get m_fresh) ;; pcirc p_step_f body (S fr) h h acc.
Definition p_dst (p : ptr) : P ptr := n <- onm (he_next p) ;; onm (he_src n).
Definition p_isBoundary (v : ptr) : P bool :=
  p_circ_v v false (fun _ it => b <- onm (he_bd it) ;; PRet (if b then (true, true) else (false, false))).
Definition cot_formula (p0 p1 p2 p3 : vec N) : num :=
  let sin_a := vlength (cross (vsub p0 p2) (vsub p1 p2)) in
  let cos_a := dot (vsub p0 p2) (vsub p1 p2) in
  let cot_a := ndiv cos_a (nmax sin_a neps6) in
  let sin_b := vlength (cross (vsub p0 p3) (vsub p1 p3)) in
  let cos_b := dot (vsub p0 p3) (vsub p1 p3) in
  let cot_b := ndiv cos_b (nmax sin_b neps6) in
  nmul nhalf (nadd cot_a cot_b).
Definition p_cotWeight (p : ptr) : P num :=
  v0 <- onm (he_src p) ;;
  v1 <- p_dst p ;;
  n <- onm (he_next p) ;; v2 <- p_dst n ;;
  r <- onm (he_rev p) ;; rn <- onm (he_next r) ;; v3 <- p_dst rn ;;
  p0 <- onm (ve_pos v0) ;; p1 <- onm (ve_pos v1) ;; p2 <- onm (ve_pos v2) ;; p3 <- onm (ve_pos v3) ;;
  PRet (cot_formula p0 p1 p2 p3).

(** ** smoothLaplacian: smooth.cpp 23-59 *)

(** 30-44: one iteration of the first loop. *)
Definition lap_centroid (cot : bool) (i : nat) : P unit :=
  v <- onm (mesh_vertex (Z.of_nat i)) ;;
  r <- p_circ_v v (vzero, nzero) (fun acc it =>
    w <- (if cot then p_cotWeight it else PRet none_) ;;
    d <- p_dst it ;; p <- onm (ve_pos d) ;;
    PRet ((vadd (fst acc) (vscale w p), nadd (snd acc) w), false)) ;;
  q <- onm (lift (vdiv (fst r) (snd r))) ;;
  arr_set l_cent set_cent i q.
(** 52-55, 91-94: the new position. *)
Definition moved (eps : num) (pt c : vec N) : vec N :=
  let e := vsub c pt in vadd (vscale (nsub none_ eps) pt) (vscale eps (vadd pt e)).
(** 47-57, 84-96: one iteration of the second loop. *)
Definition lap_update (eps : num) (i : nat) : P unit :=
  v <- onm (mesh_vertex (Z.of_nat i)) ;;
  b <- p_isBoundary v ;;
  if b then PRet tt else
  l <- onm (ve_lock v) ;;
  if l then PRet tt else
  pt <- onm (ve_pos v) ;;
  c <- arr_get l_cent (Z.of_nat i) ;;
  onm (w_pos v (moved eps pt c)).

(** 63-82: one iteration of the first loop of smoothTaubin. *)
Definition taubin_centroid (i : nat) : P unit :=
  v <- onm (mesh_vertex (Z.of_nat i)) ;;
  pts <- p_circ_v v [] (fun acc it => d <- p_dst it ;; p <- onm (ve_pos d) ;; PRet (acc ++ [p], false)) ;;
  let cent := fold_left vadd pts vzero in
  q <- onm (lift (vdiv cent (nofZ (Z.of_nat (length pts))))) ;;
  arr_set l_cent set_cent i q.

(** Two parallel loops, one after the other; [o] is one possible outcome. *)
Inductive two_loops (s : mem) (n : nat) (a b : nat -> P unit) : res mem -> Prop :=
| two_ok s1 o : outcome s (map a (seq 0 n)) (Ok s1) -> outcome s1 (map b (seq 0 n)) o -> two_loops s n a b o
| two_fail o : outcome s (map a (seq 0 n)) o -> (forall s1, o <> Ok s1) -> two_loops s n a b o.

(** The mesh a loop leaves behind. *)
Definition mesh_out (o : res mem) : res (mesh N) :=
  match o with Ok s => Ok (l_mesh s) | UB u => UB u | Abort u => Abort u | NoFuel => NoFuel end.

(** Sequential repetition of a step that may have several outcomes. *)
Inductive repeats (step : nat -> mesh N -> res (mesh N) -> Prop) : nat -> nat -> mesh N -> res (mesh N) -> Prop :=
| rep_0 it m : repeats step it 0 m (Ok m)
| rep_S it n m m1 o : step it m (Ok m1) -> repeats step (S it) n m1 o -> repeats step it (S n) m o
| rep_fail it n m o : step it m o -> (forall m1, o <> Ok m1) -> repeats step it (S n) m o.

(** smooth.cpp 24-58: smoothLaplacian(mesh, eps, cot, n) can end with [o]. *)
Definition lap_step (eps : num) (cot : bool) (m : mesh N) (o : res (mesh N)) : Prop :=
  exists o', two_loops (mem0 m (length (m_verts m))) (length (m_verts m)) (lap_centroid cot) (lap_update eps) o' /\ o = mesh_out o'.
Definition smoothLaplacian (eps : num) (cot : bool) (n : nat) : mesh N -> res (mesh N) -> Prop :=
  repeats (fun _ => lap_step eps cot) 0 n.

(** smooth.cpp 61-99. *)
Definition taubin_step (shrink inflate : num) (it : nat) (m : mesh N) (o : res (mesh N)) : Prop :=
  exists o', two_loops (mem0 m (length (m_verts m))) (length (m_verts m)) taubin_centroid (lap_update (if Nat.even it then shrink else nopp inflate)) o' /\ o = mesh_out o'.
Definition smoothTaubin (shrink inflate : num) (n : nat) : mesh N -> res (mesh N) -> Prop :=
  repeats (taubin_step shrink inflate) 0 (n * 2).

(** ** denoiseNormalGaussian, denoiseNormalBilateral: denoise.cpp 38-172 *)

(** denoise.cpp 19-32: the kernel. *)
Definition kern (x sigma : num) : num :=
  let sigma2 := nmul sigma sigma in
  let coef := ndiv none_ (nmul (nsqrt (nmul ntwo npi)) sigma) in
  if nltb x (nmul ntwo sigma) then nmul coef (nexp (ndiv (nmul (nopp x) x) sigma2))
  else if nltb x (nmul (nofZ 4) sigma) then
    let a := nsub (nofZ 4) (ndiv (nabs x) sigma) in
    nmul (nmul coef (ndiv none_ (nmul (nofZ 16) (nexp ntwo)))) (nmul (nmul (nmul a a) a) a)
  else nzero.

(** 51-66, 117-132: normal, centroid and area of one face. *)
Definition dn_face (i : nat) : P unit :=
  f <- onm (mesh_face (Z.of_nat i)) ;;
  vs <- p_circ_f f [] (fun acc it => s <- onm (he_src it) ;; p <- onm (ve_pos s) ;; PRet (acc ++ [p], false)) ;;
  match vs with
  | [v0; v1; v2] =>
      let outer := cross (vsub v1 v0) (vsub v2 v0) in
      n <- onm (lift (normalize outer)) ;;
      arr_set l_norm set_norm i n ;;
      c <- onm (lift (vdiv (vadd (vadd v0 v1) v2) (nofZ 3))) ;;
      arr_set l_cent set_cent i c ;;
      arr_set l_area set_area i (nmul nhalf (vlength outer))
  | _ => onm (abort AError)
  end.

(** 70-84, 136-154: filtered normal of one face; [wgt] is the weight of the neighbour. *)
Definition dn_filter (wgt : vec N -> vec N -> vec N -> vec N -> num -> num) (i : nat) : P unit :=
  f <- onm (mesh_face (Z.of_nat i)) ;;
  norm <- p_circ_f f vzero (fun norm it =>
    r <- onm (he_rev it) ;; g <- onm (he_face r) ;; j <- onm (fa_idx g) ;;
    ci <- arr_get l_cent (Z.of_nat i) ;; cj <- arr_get l_cent j ;;
    ni <- arr_get l_norm (Z.of_nat i) ;; nj <- arr_get l_norm j ;;
    aj <- arr_get l_area j ;;
    PRet (vadd norm (vscale (wgt ci cj ni nj aj) nj), false)) ;;
  let l := vlength norm in
  if negb (neqb l nzero) then
    n <- onm (lift (vdiv norm l)) ;; arr_set l_new set_new i n
  else PRet tt.
(** 75-76. *)
Definition wgt_gauss (s : num) (ci cj ni nj : vec N) (aj : num) : num := nmul (kern (vlength (vsub ci cj)) s) aj.
(** 141-146. *)
Definition wgt_bilateral (sc sn : num) (ci cj ni nj : vec N) (aj : num) : num :=
  nmul (nmul aj (kern (vlength (vsub ci cj)) sc)) (kern (vlength (vsub ni nj)) sn).

(** 88-100, 158-170: moving one vertex. *)
Definition dn_update (i : nat) : P unit :=
  v <- onm (mesh_vertex (Z.of_nat i)) ;;
  r <- p_circ_v v (nzero, vzero) (fun acc it =>
    g <- onm (he_face it) ;; j <- onm (fa_idx g) ;;
    aj <- arr_get l_area j ;; nj <- arr_get l_new j ;; cj <- arr_get l_cent j ;; p <- onm (ve_pos v) ;;
    PRet ((nadd (fst acc) aj, vadd (snd acc) (vscale (nmul aj (dot nj (vsub cj p))) nj)), false)) ;;
  incr <- onm (lift (vdiv (snd r) (fst r))) ;;
  p <- onm (ve_pos v) ;;
  onm (w_pos v (vadd p incr)).

(** The three parallel loops of one pass, after smoothTaubin. *)
Inductive dn_loops (wgt : vec N -> vec N -> vec N -> vec N -> num -> num) (m : mesh N) : res (mesh N) -> Prop :=
| dn_ok s o : two_loops (mem0 m (length (m_faces m))) (length (m_faces m)) dn_face (dn_filter wgt) (Ok s) ->
    outcome s (map dn_update (seq 0 (length (m_verts m)))) o -> dn_loops wgt m (mesh_out o)
| dn_fail o : two_loops (mem0 m (length (m_faces m))) (length (m_faces m)) dn_face (dn_filter wgt) o -> (forall s, o <> Ok s) ->
    dn_loops wgt m (mesh_out o).
(** The defaults of smoothTaubin, filters.h 21: 0.5, 0.53, 3. *)
Definition taubin_default : mesh N -> res (mesh N) -> Prop := smoothTaubin nhalf (ndiv (nofZ 53) (nofZ 100)) 3.
Inductive dn_step (wgt : vec N -> vec N -> vec N -> vec N -> num -> num) (m : mesh N) : res (mesh N) -> Prop :=
| dns_ok m1 o : taubin_default m (Ok m1) -> dn_loops wgt m1 o -> dn_step wgt m o
| dns_fail o : taubin_default m o -> (forall m1, o <> Ok m1) -> dn_step wgt m o.

(** 38-102. *)
Inductive denoiseNormalGaussian (sigma : num) (n : nat) (m : mesh N) : res (mesh N) -> Prop :=
| dng avg o : getMeanEdgeLength m = Ok (avg, m) -> repeats (fun _ => dn_step (wgt_gauss (nmul sigma avg))) 0 n m o -> denoiseNormalGaussian sigma n m o.
(** 104-172. *)
Inductive denoiseNormalBilateral (sc sn : num) (n : nat) (m : mesh N) : res (mesh N) -> Prop :=
| dnb avg o : getMeanEdgeLength m = Ok (avg, m) -> repeats (fun _ => dn_step (wgt_bilateral (nmul sc avg) sn)) 0 n m o -> denoiseNormalBilateral sc sn n m o.

End Smooth.
Arguments mem N : clear implicits.
