(** src/tinymesh/remesh/simplify.cpp 88-113, 115-371: simplifyQEM with its quadrics, its
    costs and its priority queue.  Simplify.v is the same program with any costs and any
    positions; QemP.v shows that every run of this one is a run of that one. *)
From Coq Require Import Bool List ZArith Arith.
From Verif Require Import Num Vec Heap Mesh Prog Smooth Simplify.
Import ListNotations.
Local Open Scope mesh_scope.

Section Qem.
Context {N : Num}.
Notation M := (M N).

(** Matrix4. *)
Definition mat4 : Type := nat -> nat -> num.
Definition mat0 : mat4 := fun _ _ => nzero.
Definition madd (A B : mat4) : mat4 := fun i j => nadd (A i j) (B i j).
Definition hom (v : vec N) (d : num) (i : nat) : num := match i with 0 => vx v | 1 => vy v | 2 => vz v | _ => d end.
Definition sum4 (f : nat -> num) : num := nadd (nadd (nadd (f 0) (f 1)) (f 2)) (f 3).
(** 164-171: Kp. *)
Definition quadric (norm p0 : vec N) : mat4 :=
  let d := nopp (dot norm p0) in fun i j => nmul (hom norm d i) (hom norm d j).
(** Qs[i], Qs[i] += K. *)
Definition mat_at (Qs : list mat4) (i : Z) : M mat4 :=
  if (i <? 0)%Z then ub OutOfBounds else match nth_error Qs (Z.to_nat i) with Some q => ret q | None => ub OutOfBounds end.
Definition mat_inc (Qs : list mat4) (i : Z) (K : mat4) : M (list mat4) :=
  q <- mat_at Qs i ;; ret (setnth Qs (Z.to_nat i) (madd q K)).

(** 143-176: one face; [None]: the function returns (156). *)
Definition face_quadric (Qs : list mat4) (i : nat) : M (option (list mat4)) :=
  f <- mesh_face (Z.of_nat i) ;;
  b <- f_isBoundary f ;;
  if b then ret (Some Qs) else
  vs <- f_vertices f ;;
  match vs with
  | [v0; v1; v2] =>
      p1 <- ve_pos v1 ;; p0 <- ve_pos v0 ;; p2 <- ve_pos v2 ;;
      let norm := cross (vsub p1 p0) (vsub p2 p0) in
      q <- lift (vdiv norm (nadd (vlength norm) neps12)) ;;
      let K := quadric q p0 in
      i0 <- ve_idx v0 ;; Qs <- mat_inc Qs i0 K ;;
      i1 <- ve_idx v1 ;; Qs <- mat_inc Qs i1 K ;;
      i2 <- ve_idx v2 ;; Qs <- mat_inc Qs i2 K ;;
      ret (Some Qs)
  | _ => ret None
  end.
(** 141-176. *)
Fixpoint face_quadrics (Qs : list mat4) (l : list nat) : M (option (list mat4)) :=
  match l with
  | [] => ret (Some Qs)
  | i :: l' => b <- face_quadric Qs i ;; match b with Some Qs' => face_quadrics Qs' l' | None => ret None end
  end.

(** 89-94: Q; 97: its determinant, here by cofactors (Eigen may add up in another order). *)
Definition qem_matrix (m1 m2 : mat4) : mat4 :=
  fun i j => if i <? 3 then nadd (m1 i j) (m2 i j) else if Nat.eqb j 3 then none_ else nzero.
Definition det3 (a b c d e f g h i : num) : num :=
  nadd (nsub (nmul a (nsub (nmul e i) (nmul f h))) (nmul b (nsub (nmul d i) (nmul f g)))) (nmul c (nsub (nmul d h) (nmul e g))).
Definition minor (Q : mat4) (a b c : nat) : num := det3 (Q 1 a) (Q 1 b) (Q 1 c) (Q 2 a) (Q 2 b) (Q 2 c) (Q 3 a) (Q 3 b) (Q 3 c).
Definition det4 (Q : mat4) : num :=
  nsub (nadd (nsub (nmul (Q 0 0) (minor Q 1 2 3)) (nmul (Q 0 1) (minor Q 0 2 3))) (nmul (Q 0 2) (minor Q 0 1 3))) (nmul (Q 0 3) (minor Q 0 1 2)).
(** 1.0e-8. *)
Definition eps8 : num := ndiv none_ (nofZ 100000000).
(** 108: the error. *)
Definition qem_value (m1 m2 : mat4) (x : nat -> num) : num :=
  sum4 (fun i => nmul (x i) (sum4 (fun j => nmul (madd m1 m2 i j) (x j)))).
(** 103-104: bb. *)
Definition qem_rhs (i : nat) : num := if Nat.eqb i 3 then none_ else nzero.
(** 88-113.  [lu Q b x]: Q.partialPivLu().solve(b) may be x. *)
Inductive computeQEM (lu : mat4 -> (nat -> num) -> (nat -> num) -> Prop) (m1 m2 : mat4) (p1 p2 : vec N) : num -> vec N -> Prop :=
| cq_mid : nltb (det4 (qem_matrix m1 m2)) eps8 = true ->
    let v := vscale nhalf (vadd p1 p2) in computeQEM lu m1 m2 p1 p2 (qem_value m1 m2 (hom v none_)) v
| cq_lu x : nltb (det4 (qem_matrix m1 m2)) eps8 = false -> lu (qem_matrix m1 m2) qem_rhs x ->
    computeQEM lu m1 m2 p1 p2 (qem_value m1 m2 x) (V3 (x 0) (x 1) (x 2)).

(** 180-191: what is read for the i-th half-edge. *)
Definition edge_data (Qs : list mat4) (i : nat) : M (ptr * (mat4 * mat4) * (vec N * vec N)) :=
  he <- mesh_halfedge (Z.of_nat i) ;;
  v1 <- he_src he ;; v2 <- he_dst he ;;
  i1 <- ve_idx v1 ;; i2 <- ve_idx v2 ;;
  q1 <- mat_at Qs i1 ;; q2 <- mat_at Qs i2 ;;
  p1 <- ve_pos v1 ;; p2 <- ve_pos v2 ;;
  ret (he, (q1, q2), (p1, p2)).
(** QEMNode. *)
Record node := Node { n_value : num; n_he : ptr; n_v : vec N }.
(** 189-191. *)
Definition is_node (lu : mat4 -> (nat -> num) -> (nat -> num) -> Prop) (d : ptr * (mat4 * mat4) * (vec N * vec N)) (e : node) : Prop :=
  let '(he, (q1, q2), (p1, p2)) := d in n_he e = he /\ computeQEM lu q1 q2 p1 p2 (n_value e) (n_v e).

(** que.top() (198): no node of the queue has a smaller value, provided that < is a strict
    weak order on the values (it is not if some are NaN; then any node may come). *)
Definition weak_order (q : list node) : Prop :=
  (forall a b, In a q -> In b q -> nltb (n_value a) (n_value b) = true -> nltb (n_value b) (n_value a) = false) /\
  (forall a b c, In a q -> In b q -> In c q -> nltb (n_value a) (n_value b) = false -> nltb (n_value b) (n_value c) = false -> nltb (n_value a) (n_value c) = false).
Definition is_top (q : list node) (e : node) : Prop := weak_order q -> forall e', In e' q -> nltb (n_value e') (n_value e) = false.

(** 196-329, as [qem_loop] of Simplify.v. *)
Inductive queue_loop (target : Z) : list node -> list ptr -> list bool -> Z -> mesh N -> res (Z * mesh N) -> Prop :=
| kl_empty rm ck nr m : queue_loop target [] rm ck nr m (Ok (nr, m))
| kl_done que rm ck nr m : (target <= nr)%Z -> queue_loop target que rm ck nr m (Ok (nr, m))
| kl_skip q1 e q2 rm ck nr m o : (nr < target)%Z -> is_top (q1 ++ e :: q2) e -> pmem (n_he e) rm = true ->
    queue_loop target (q1 ++ q2) rm ck nr m o -> queue_loop target (q1 ++ e :: q2) rm ck nr m o
| kl_next q1 e q2 rm ck nr m m1 o : (nr < target)%Z -> is_top (q1 ++ e :: q2) e -> pmem (n_he e) rm = false -> qem_edge ck (n_he e) (n_v e) m = Ok (None, m1) ->
    queue_loop target (q1 ++ q2) rm ck nr m1 o -> queue_loop target (q1 ++ e :: q2) rm ck nr m o
| kl_edge q1 e q2 rm ck nr m six ck' (ok : bool) m1 o : (nr < target)%Z -> is_top (q1 ++ e :: q2) e -> pmem (n_he e) rm = false -> qem_edge ck (n_he e) (n_v e) m = Ok (Some (six, ck', ok), m1) ->
    queue_loop target (q1 ++ q2) (six ++ rm) ck' (if ok then nr + 2 else nr)%Z m1 o -> queue_loop target (q1 ++ e :: q2) rm ck nr m o
| kl_fail q1 e q2 rm ck nr m o : (nr < target)%Z -> is_top (q1 ++ e :: q2) e -> pmem (n_he e) rm = false -> failed (qem_edge ck (n_he e) (n_v e) m) o ->
    queue_loop target (q1 ++ e :: q2) rm ck nr m o.

(** 139-176 and 178-192: the quadrics and the queue. *)
Definition all_quadrics (m : mesh N) : res (option (list mat4) * mesh N) :=
  face_quadrics (repeat mat0 (length (m_verts m))) (seq 0 (length (m_faces m))) m.
Definition all_edges (Qs : list mat4) (n : nat) (m : mesh N) : res (list (ptr * (mat4 * mat4) * (vec N * vec N)) * mesh N) :=
  mmap (edge_data Qs) (seq 0 n) m.

Section Lu.
Variable lu : mat4 -> (nat -> num) -> (nat -> num) -> Prop.
(** 136-355, as [qem_trial] of Simplify.v. *)
Inductive queue_trial (target nr : Z) (m : mesh N) : res (option Z * mesh N) -> Prop :=
| kt_fail0 o : failed (all_quadrics m) o -> queue_trial target nr m o
| kt_return m1 : all_quadrics m = Ok (None, m1) -> queue_trial target nr m (Ok (None, m1))
| kt_fail1 Qs m1 o : all_quadrics m = Ok (Some Qs, m1) -> failed (all_edges Qs (length (m_hes m)) m1) o -> queue_trial target nr m o
| kt_fail2 Qs m1 ds m2 que r o : all_quadrics m = Ok (Some Qs, m1) -> all_edges Qs (length (m_hes m)) m1 = Ok (ds, m2) -> Forall2 (is_node lu) ds que ->
    queue_loop target que [] (repeat false (length (m_verts m))) nr m2 r -> failed r o -> queue_trial target nr m o
| kt_fail3 Qs m1 ds m2 que nr' m3 o : all_quadrics m = Ok (Some Qs, m1) -> all_edges Qs (length (m_hes m)) m1 = Ok (ds, m2) -> Forall2 (is_node lu) ds que ->
    queue_loop target que [] (repeat false (length (m_verts m))) nr m2 (Ok (nr', m3)) ->
    failed (he_loop even_flip (length (m_hes m3)) 0 m3) o -> queue_trial target nr m o
| kt_fail4 Qs m1 ds m2 que nr' m3 m4 r o : all_quadrics m = Ok (Some Qs, m1) -> all_edges Qs (length (m_hes m)) m1 = Ok (ds, m2) -> Forall2 (is_node lu) ds que ->
    queue_loop target que [] (repeat false (length (m_verts m))) nr m2 (Ok (nr', m3)) ->
    he_loop even_flip (length (m_hes m3)) 0 m3 = Ok (tt, m4) -> taubin_default m4 r -> failed r o -> queue_trial target nr m o
| kt_ok Qs m1 ds m2 que nr' m3 m4 m5 : all_quadrics m = Ok (Some Qs, m1) -> all_edges Qs (length (m_hes m)) m1 = Ok (ds, m2) -> Forall2 (is_node lu) ds que ->
    queue_loop target que [] (repeat false (length (m_verts m))) nr m2 (Ok (nr', m3)) ->
    he_loop even_flip (length (m_hes m3)) 0 m3 = Ok (tt, m4) -> taubin_default m4 (Ok m5) -> queue_trial target nr m (Ok (Some nr', m5)).

(** 134-364, as [qem_trials] of Simplify.v. *)
Inductive queue_trials (target maxTrials : Z) : nat -> Z -> Z -> mesh N -> res (mesh N) -> Prop :=
| ko_end fuel trial nr m : (maxTrials <= trial)%Z -> queue_trials target maxTrials fuel trial nr m (Ok m)
| ko_fuel trial nr m : (trial < maxTrials)%Z -> queue_trials target maxTrials 0 trial nr m NoFuel
| ko_fail fuel trial nr m r o : (trial < maxTrials)%Z -> queue_trial target nr m r -> failed r o -> queue_trials target maxTrials (S fuel) trial nr m o
| ko_return fuel trial nr m m' : (trial < maxTrials)%Z -> queue_trial target nr m (Ok (None, m')) -> queue_trials target maxTrials (S fuel) trial nr m (Ok m')
| ko_break fuel trial nr m nr' m' : (trial < maxTrials)%Z -> queue_trial target nr m (Ok (Some nr', m')) -> (target <= nr')%Z ->
    queue_trials target maxTrials (S fuel) trial nr m (Ok m')
| ko_go fuel trial nr m nr' m' o : (trial < maxTrials)%Z -> queue_trial target nr m (Ok (Some nr', m')) -> (nr' < target)%Z ->
    queue_trials target maxTrials fuel ((if (length (m_faces m') <? length (m_faces m))%nat then 0 else trial) + 1)%Z nr' m' o ->
    queue_trials target maxTrials (S fuel) trial nr m o.

(** 115-371. *)
Inductive simplifyQueue (numTarget maxTrials : Z) (fuel : nat) (m : mesh N) : res (mesh N) -> Prop :=
| kq_zero : numTarget = 0%Z -> simplifyQueue numTarget maxTrials fuel m (Abort AAssert)
| kq_few : numTarget <> 0%Z -> (Z.of_nat (length (m_faces m)) <= numTarget)%Z -> simplifyQueue numTarget maxTrials fuel m (Ok m)
| kq_fail r o : numTarget <> 0%Z -> (numTarget < Z.of_nat (length (m_faces m)))%Z -> laplacian_default m r -> failed r o ->
    simplifyQueue numTarget maxTrials fuel m o
| kq_run m1 o : numTarget <> 0%Z -> (numTarget < Z.of_nat (length (m_faces m)))%Z -> laplacian_default m (Ok m1) ->
    queue_trials (Z.of_nat (length (m_faces m)) - numTarget)%Z maxTrials fuel 0 0 m1 o -> simplifyQueue numTarget maxTrials fuel m o.
End Lu.
End Qem.
Arguments node : clear implicits.
Arguments mat4 : clear implicits.
