(** Properties of the costs and of the order of contraction in simplifyQEM: C67, C68.
    Vocabulary: QemSpec.v, FilterSpec.v, SmoothSpec.v, RemeshSpec.v, Spec.v.  [solution4] is an exact solver. *)
From Coq Require Import Reals List ZArith Floats.
From Verif Require Import Num NumInst Vec VecR Heap Mesh Construct Spec BuildSpec GeomSpec MeasureM FilterSpec SmoothSpec RemeshSpec Simplify SimplifyT RemeshR Qem QemP L0Spec QemSpec QemR QemM QemT QemC CollapseFlipW QemW QemX.
Import ListNotations.

(** ** C67: what a trial puts into its queue, in exact arithmetic: for every half-edge in order, the
    error of [qem_entry] and the position that has it. *)
Theorem C67_queue : forall (m : mesh NumR), Valid m ->
  exists Qs ds, all_quadrics m = Ok (Some Qs, m) /\ all_edges Qs (length (m_hes m)) m = Ok (ds, m) /\
    (forall que, Forall2 (is_node (N := NumR) solution4) ds que -> Forall2 (fun h (e : node NumR) => n_he e = Some h /\ qem_entry m h (n_value e) (n_v e)) (m_hes m) que) /\
    exists que, Forall2 (is_node (N := NumR) solution4) ds que.
Proof. exact queue_ok. Qed.
Print Assumptions C67_queue.

(** ** C68: the first edge that a trial contracts. *)
Theorem C68_first : forall target nr (m : mesh NumR) que nr' m', Valid m -> (nr < target)%Z ->
  Forall2 (fun h (e : node NumR) => n_he e = Some h /\ qem_entry m h (n_value e) (n_v e)) (m_hes m) que ->
  queue_loop (N := NumR) target que [] (repeat false (length (m_verts m))) nr m (Ok (nr', m')) ->
  (nr' = nr /\ m' = m /\ forall e h, In e que -> n_he e = Some h -> ~ contractible m h (n_v e)) \/
  exists e h ok m1 rest six ck, In e que /\ n_he e = Some h /\ contractible m h (n_v e) /\
    (forall e' h', In e' que -> n_he e' = Some h' -> (n_value e' < n_value e)%R -> ~ contractible m h' (n_v e')) /\
    collapseHE (Some h) (set_v_pos (c1 m h) (n_v e) m) = Ok (ok, m1) /\
    queue_loop (N := NumR) target rest six ck (if ok then nr + 2 else nr)%Z m1 (Ok (nr', m')).
Proof. exact loop_first. Qed.
Print Assumptions C68_first.
(** simplifyQEM with this queue always returns a valid mesh, as C35 and C36 say, whatever the solver answers. *)
Theorem C68_returns : forall nt mt fuel (m : mesh NumR), Valid m -> nt <> 0%Z -> (length (m_faces m) + 1) * Z.to_nat mt <= fuel ->
  (exists m', simplifyQueue (N := NumR) solution4 nt mt fuel m (Ok m')) /\
  forall lu o, simplifyQueue (N := NumR) lu nt mt fuel m o -> exists m' k, o = Ok m' /\ Evolves m m' /\ length (m_faces m) = 2 * k + length (m_faces m') /\ (k = 0 \/ (nt - 1 <= Z.of_nat (length (m_faces m')))%Z).
Proof. exact simplify_queue_valid. Qed.
Print Assumptions C68_returns.
(** For any arithmetic: every run of simplifyQEM with its queue is a run of the model in which any order and any positions are allowed. *)
Theorem C68_refines : forall {N : Num} lu nt mt fuel (m : mesh N) o, simplifyQueue lu nt mt fuel m o -> simplifyQEM nt mt fuel m o.
Proof. exact @simplify_sim. Qed.
Print Assumptions C68_refines.
Example C67_C68_case : exists (m : mesh NumR) Qs ds que nr' m', Valid m /\ Closed m /\ map (v_pos m) (m_verts m) = [v3 1 0 0; v3 0 1 0; v3 0 0 1; v3 (-1) 0 0; v3 0 (-1) 0; v3 0 0 (-1)]%R /\
  all_quadrics m = Ok (Some Qs, m) /\ all_edges Qs (length (m_hes m)) m = Ok (ds, m) /\ Forall2 (is_node (N := NumR) solution4) ds que /\
  queue_loop (N := NumR) 1 que [] (repeat false (length (m_verts m))) 0 m (Ok (nr', m')) /\ exists e h, In e que /\ n_he e = Some h /\ contractible m h (n_v e) /\ (0 < n_value e)%R.
Proof. exact octa_case. Qed.

(** ** C69: no contraction of simplifyQEM turns a remaining triangle over: false. *)
Theorem C69_turned_refuted : forall acosF expF atan2F, exists ps ix (m : mesh (NumF acosF expF atan2F)) Qs ds, mesh_of ps ix = Ok m /\ Valid m /\ all_quadrics m = Ok (Some Qs, m) /\ all_edges Qs (length (m_hes m)) m = Ok (ds, m) /\
  forall lu, exists que e six ck m' h f a b c f' a' b' c', Forall2 (is_node lu) ds que /\ In e que /\ qem_edge (repeat false (length (m_verts m))) (n_he e) (n_v e) m = Ok (Some (six, ck, true), m') /\
    In h (m_hes m) /\ h_face m h = Some f /\ Spec.Tri m f a b c /\ h_src m h = Some a /\ In h (m_hes m') /\ h_face m' h = Some f' /\ Spec.Tri m' f' a' b' c' /\ h_src m' h = Some a' /\
    nltb (Vec.dot (tri_normal m a b c) (tri_normal m' a' b' c')) nzero = true.
Proof. exact qem_turned. Qed.
Print Assumptions C69_turned_refuted.
(** What the check for turned triangles does guarantee: it looks at the two triangles that vanish. *)
Theorem C69_checked_partial : forall (m : mesh NumR) h p, Valid m -> In h (m_hes m) ->
  (contractible m h p /\ exists six ck ok m1, collapseHE (Some h) (set_v_pos (c1 m h) p m) = Ok (ok, m1) /\ qem_edge (N := NumR) (repeat false (length (m_verts m))) (Some h) p m = Ok (Some (six, ck, ok), m1)) \/
  (~ contractible m h p /\ qem_edge (N := NumR) (repeat false (length (m_verts m))) (Some h) p m = Ok (None, m)).
Proof. exact (fun m h p V => qem_edge_exact m V h p). Qed.
Print Assumptions C69_checked_partial.
