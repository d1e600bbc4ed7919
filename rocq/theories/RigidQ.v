(** Simplification on moved meshes. *)
From Coq Require Import Reals List ZArith Arith Bool Lia Lra.
From Verif Require Import Num NumInst Vec Heap Mesh Spec Prog Smooth SmoothSpec FilterSpec SmoothD Simplify RemeshSpec SimplifyP SimplifyT Qem QemSpec QemP QemM QemT FrontE WholeSpec RigidSpec RigidM RigidE RigidF RigidS RigidR.
Import ListNotations.

(** ** Rotations are invertible, and keep determinants *)
Ltac rring := cbn; match goal with |- @eq _ ?a ?b => change (@eq R a b) end; first [ring | symmetry; ring].
Definition e1 : vecR := V3 (N := NumR) 1%R 0%R 0%R.
Definition e2 : vecR := V3 (N := NumR) 0%R 1%R 0%R.
Definition e3 : vecR := V3 (N := NumR) 0%R 0%R 1%R.
Section Rot.
Variable Q : vecR -> vecR.
Hypothesis HQ : Rotation Q.
Lemma q_basis v : Q v = vadd (@vscale NumR (vx v) (Q e1)) (vadd (@vscale NumR (vy v) (Q e2)) (@vscale NumR (vz v) (Q e3))).
Proof. rewrite <- !(rot_scale Q HQ), <- !(rot_add Q HQ). f_equal. unfold e1, e2, e3; apply vec_ext; rring. Qed.
Lemma q_e12 : cross (Q e1) (Q e2) = Q e3. Proof. rewrite (rot_cross Q HQ). f_equal. unfold e1, e2, e3; apply vec_ext; rring. Qed.
Lemma q_e23 : cross (Q e2) (Q e3) = Q e1. Proof. rewrite (rot_cross Q HQ). f_equal. unfold e1, e2, e3; apply vec_ext; rring. Qed.
Lemma q_e31 : cross (Q e3) (Q e1) = Q e2. Proof. rewrite (rot_cross Q HQ). f_equal. unfold e1, e2, e3; apply vec_ext; rring. Qed.
Lemma q_det : dot (Q e1) (cross (Q e2) (Q e3)) = 1%R. Proof. rewrite q_e23, (rot_dot Q HQ). rring. Qed.
Definition unturn (v : vecR) : vecR := V3 (N := NumR) (dot v (Q e1)) (dot v (Q e2)) (dot v (Q e3)).
Lemma q_unturn v : Q (unturn v) = v.
Proof.
  rewrite q_basis. assert (D := q_det). assert (A := q_e12). assert (B := q_e23). assert (C := q_e31). unfold unturn. cbn [vx vy vz].
  set (a := Q e1) in *. set (b := Q e2) in *. set (c := Q e3) in *.
  assert (G : forall f : vecR -> R, f = vx \/ f = vy \/ f = vz -> (dot v a * f (cross b c) + (dot v b * f (cross c a) + dot v c * f (cross a b)) = dot a (cross b c) * f v)%R).
  { intros f [-> | [-> | ->]]; rring. }
  rewrite B in D. rewrite A, B, C, D in G.
  apply vec_ext; [rewrite <- (Rmult_1_l (vx v)), <- (G vx) by tauto|rewrite <- (Rmult_1_l (vy v)), <- (G vy) by tauto|rewrite <- (Rmult_1_l (vz v)), <- (G vz) by tauto]; clear; rring.
Qed.
Lemma gram_cons n ns i j : gram (n :: ns) i j = (i n * j n + gram ns i j)%R.
Proof. reflexivity. Qed.
Lemma gram_turn ns (i j : vecR -> R) : i = vx \/ i = vy \/ i = vz -> j = vx \/ j = vy \/ j = vz ->
  gram (map Q ns) i j = (i (Q e1) * j (Q e1) * gram ns vx vx + i (Q e2) * j (Q e2) * gram ns vy vy + i (Q e3) * j (Q e3) * gram ns vz vz
   + (i (Q e1) * j (Q e2) + i (Q e2) * j (Q e1)) * gram ns vx vy + (i (Q e1) * j (Q e3) + i (Q e3) * j (Q e1)) * gram ns vx vz + (i (Q e2) * j (Q e3) + i (Q e3) * j (Q e2)) * gram ns vy vz)%R.
Proof.
  intros Hi Hj. assert (L : forall (f : vecR -> R) v, f = vx \/ f = vy \/ f = vz -> f (Q v) = (vx v * f (Q e1) + (vy v * f (Q e2) + vz v * f (Q e3)))%R).
  { intros f v Hf. rewrite (q_basis v) at 1. destruct Hf as [-> | [-> | ->]]; rring. }
  induction ns as [|n ns IH]; [unfold gram, total; rring|]. cbn [map]. rewrite !gram_cons, IH, (L i n Hi), (L j n Hj). rring.
Qed.
Lemma det_turn ns : spread (map Q ns) = spread ns.
Proof.
  unfold spread. rewrite !gram_turn by tauto. assert (D := q_det). set (a := Q e1) in *. set (b := Q e2) in *. set (c := Q e3) in *. clearbody a b c. destruct a as [a1 a2 a3], b as [b1 b2 b3], c as [c1 c2 c3]. cbn [vx vy vz dot cross] in D |- *.
  generalize (gram ns vx vx), (gram ns vy vy), (gram ns vz vz), (gram ns vx vy), (gram ns vx vz), (gram ns vy vz). intros A B C E F G.
  match type of D with ?d = _ => transitivity ((d * d) * (A * (B * C - G * G) - E * (E * C - G * F) + F * (E * G - B * F)))%R end; [rring|rewrite D; rring].
Qed.
End Rot.

Section Rigid.
Variables (Q : vecR -> vecR) (t : vecR).
Hypothesis HQ : Rotation Q.
Notation T := (motion Q t).
Notation MV := (move Q t).
Notation MR := (move_res Q t).
Notation mv := (mv Q t).
Notation mvs x := (mv same x x).
Ltac go := mvt HQ.

(** ** One edge *)
Lemma mv_flag_at l i : mvs (@flag_at NumR l i). Proof. unfold flag_at. destruct (i <? 0)%Z; [apply mv_ub|]. destruct (nth_error l (Z.to_nat i)); [apply mv_ret; reflexivity|apply mv_ub]. Qed.
Hint Resolve mv_flag_at : mvh.
Lemma mv_flag_set l i : mvs (@flag_set NumR l i). Proof. unfold flag_set. go. Qed.
Hint Resolve mv_flag_set : mvh.
Lemma put_bar_move vi vj b : forall vs ps, put_bar vi vj vs (map T ps) (T b) = map T (put_bar vi vj vs ps b).
Proof. induction vs as [|v vs IH]; intros [|p ps]; cbn [put_bar map]; try reflexivity. destruct (ptr_eqb v vi || ptr_eqb v vj); [reflexivity|]. cbn [map]. f_equal. apply IH. Qed.
Lemma mv_face_flips vi vj b : forall fs s, mv same (@face_flips NumR vi vj b fs s) (face_flips vi vj (T b) fs s).
Proof.
  induction fs as [|f fs IH]; intros s; cbn [face_flips]; [apply mv_ret; reflexivity|]. apply mv_binds; [go|intros vs]. apply (mv_bind Q t (map T)); [apply mv_mmap; intros a; apply mv_pos|intros ps; cbv beta].
  apply mv_if; [reflexivity|apply IH|]. destruct ps as [|p0 [|p1 [|p2 ps]]]; cbn [map]; try apply mv_ub.
  change (T p0 :: T p1 :: T p2 :: map T ps) with (map T (p0 :: p1 :: p2 :: ps)). rewrite put_bar_move.
  destruct (put_bar vi vj vs (p0 :: p1 :: p2 :: ps) b) as [|r0 [|r1 [|r2 rs]]]; cbn [map]; try apply mv_ub. cbv zeta. rg HQ. apply IH.
Qed.
Lemma mv_low_degree : forall vs, mvs (@low_degree NumR vs). Proof. induction vs as [|v vs IH]; cbn [low_degree]; go. Qed.
Hint Resolve mv_face_flips mv_low_degree : mvh.
Lemma mv_qem_edge ck he v : mv same (@qem_edge NumR ck he v) (qem_edge ck he (T v)). Proof. unfold qem_edge. go. Qed.
Lemma mv_even_flip i : mvs (@even_flip NumR i). Proof. unfold even_flip. go. Qed.

(** ** The queue *)
Lemma qem_normal_move a b c : qem_normal (T a) (T b) (T c) = Q (qem_normal a b c).
Proof. unfold qem_normal. cbv zeta. rg HQ. reflexivity. Qed.
Lemma face_sq_move m p f : face_sq (MV m) (T p) f = face_sq m p f.
Proof. unfold face_sq, plane_sq. cbv zeta. change (v_pos (MV m)) with (fun v => T (v_pos m v)). cbv beta. rewrite qem_normal_move. rg HQ. reflexivity. Qed.
Lemma edge_error_move m h p : edge_error (MV m) h (T p) = edge_error m h p.
Proof. unfold edge_error. f_equal. apply map_ext. intros f. apply face_sq_move. Qed.
Lemma edge_spread_move m h : edge_spread (MV m) h = edge_spread m h.
Proof.
  unfold edge_spread. rewrite <- (det_turn Q HQ (map (face_normal m) (edge_faces m h))). f_equal. rewrite map_map. apply map_ext. intros f. unfold face_normal. cbv zeta.
  change (v_pos (MV m)) with (fun v => T (v_pos m v)). cbv beta. apply qem_normal_move.
Qed.
Lemma entry_move m h c p : qem_entry m h c p -> qem_entry (MV m) h c (T p).
Proof.
  intros (A & B & C). split; [rewrite edge_error_move; exact A|]. rewrite edge_spread_move. split.
  - intros S' q Nq. assert (E : q = T (unturn Q (vsub q t))). { unfold motion. rewrite (q_unturn Q HQ). apply vec_ext; rring. }
    rewrite E, !edge_error_move. apply B; [exact S'|]. intros Ep. apply Nq. rewrite E, Ep. reflexivity.
  - intros S'. rewrite (C S'). change (v_pos (MV m)) with (fun v => T (v_pos m v)). cbv beta. symmetry. apply (t_mid Q t HQ).
Qed.
Lemma entry_unique m h c p c' p' : qem_entry m h c p -> qem_entry m h c' p' -> c' = c /\ p' = p.
Proof.
  intros (A & B & C) (A' & B' & C'). assert (E : p' = p).
  { destruct (Rle_lt_dec (/ 10 ^ 8) (edge_spread m h)) as [S'|S']; [|rewrite (C S'), (C' S'); reflexivity].
    assert (D : {p' = p} + {p' <> p}). { destruct p as [x y z], p' as [x' y' z']. destruct (Req_EM_T x' x) as [->|n1]; [destruct (Req_EM_T y' y) as [->|n2]; [destruct (Req_EM_T z' z) as [->|n3]; [left; reflexivity|]|]|]; right; congruence. }
    destruct D as [D|D]; [exact D|]. exfalso. assert (H1 := B S' p' D). assert (H2 := B' S' p (fun e => D (eq_sym e))). lra. }
  subst p'. split; [congruence|reflexivity].
Qed.
Lemma valid_move m : Valid m -> Valid (MV m).
Proof. intros [A B C D]. constructor; [exact (FrontE.wf_pos (fun v => T (v_pos m v)) m A)|exact B|exact C|exact D]. Qed.

(** ** The loops *)
Definition node_move (e : node NumR) : node NumR := Node (n_value e) (n_he e) (T (n_v e)).
Notation MO := (move_out Q t same).
Lemma top_move q e : is_top (N := NumR) q e -> is_top (N := NumR) (map node_move q) (node_move e).
Proof. intros H _ e' I'. apply in_map_iff in I'. destruct I' as (x & <- & Ix). exact (H (weak_order_R q) x Ix). Qed.
Lemma failed_mv {A B} (x x' : M NumR A) m (o : res (B * mesh NumR)) : mv same x x' -> failed (x m) o -> failed (x' (MV m)) (MO o).
Proof. intros H F. rewrite H. destruct (x m) as [[a m']| | |]; cbn in F |- *; [contradiction|subst o; reflexivity|subst o; reflexivity|subst o; reflexivity]. Qed.
Lemma failed_loop {A B} (r : res (A * mesh NumR)) (o : res (B * mesh NumR)) : failed r o -> failed (MO r) (MO o).
Proof. destruct r as [[a m]| | |]; cbn; [intros []|intros ->; reflexivity|intros ->; reflexivity|intros ->; reflexivity]. Qed.
Lemma failed_res {B} (r : res (mesh NumR)) (o : res (B * mesh NumR)) : failed r o -> failed (MR r) (MO o).
Proof. destruct r as [m| | |]; cbn; [intros []|intros ->; reflexivity|intros ->; reflexivity|intros ->; reflexivity]. Qed.
Lemma failed_end {A} (r : res (A * mesh NumR)) (o : res (mesh NumR)) : failed r o -> failed (MO r) (MR o).
Proof. destruct r as [[a m]| | |]; cbn; [intros []|intros ->; reflexivity|intros ->; reflexivity|intros ->; reflexivity]. Qed.
Lemma failed_both (r o : res (mesh NumR)) : failed r o -> failed (MR r) (MR o).
Proof. destruct r as [m| | |]; cbn; [intros []|intros ->; reflexivity|intros ->; reflexivity|intros ->; reflexivity]. Qed.
Lemma ok_mv {A} (x x' : M NumR A) m a m' : mv same x x' -> x m = Ok (a, m') -> x' (MV m) = Ok (a, MV m').
Proof. intros H E. rewrite H, E. reflexivity. Qed.
Lemma loop_move target que rm ck nr m o : queue_loop (N := NumR) target que rm ck nr m o -> queue_loop (N := NumR) target (map node_move que) rm ck nr (MV m) (MO o).
Proof.
  induction 1 as [rm ck nr m|que rm ck nr m H|q1 e q2 rm ck nr m o H1 H2 H3 H IH|q1 e q2 rm ck nr m m1 o H1 H2 H3 H4 H IH|q1 e q2 rm ck nr m six ck' ok m1 o H1 H2 H3 H4 H IH|q1 e q2 rm ck nr m o H1 H2 H3 H4].
  - apply kl_empty.
  - apply kl_done. exact H.
  - apply top_move in H2. rewrite map_app in *. cbn [map] in *. apply kl_skip; assumption.
  - apply top_move in H2. rewrite map_app in *. cbn [map] in *. apply kl_next with (MV m1); try assumption. exact (ok_mv _ _ _ _ _ (mv_qem_edge ck (n_he e) (n_v e)) H4).
  - apply top_move in H2. rewrite map_app in *. cbn [map] in *. apply kl_edge with six ck' ok (MV m1); try assumption. exact (ok_mv _ _ _ _ _ (mv_qem_edge ck (n_he e) (n_v e)) H4).
  - apply top_move in H2. rewrite map_app in *. cbn [map] in *. apply kl_fail; try assumption. exact (failed_mv _ _ _ _ (mv_qem_edge ck (n_he e) (n_v e)) H4).
Qed.
Lemma queue_move m : Valid m -> exists Qs ds Qs' ds', all_quadrics (N := NumR) m = Ok (Some Qs, m) /\ all_edges (N := NumR) Qs (length (m_hes m)) m = Ok (ds, m) /\
  all_quadrics (N := NumR) (MV m) = Ok (Some Qs', MV m) /\ all_edges (N := NumR) Qs' (length (m_hes m)) (MV m) = Ok (ds', MV m) /\
  forall que, Forall2 (is_node (N := NumR) solution4) ds que -> Forall2 (is_node (N := NumR) solution4) ds' (map node_move que) /\ Forall2 (entry_of m) (m_hes m) que.
Proof.
  intros V. destruct (queue_ok m V) as (Qs & ds & A & B & C & _). destruct (queue_ok (MV m) (valid_move m V)) as (Qs' & ds' & A' & B' & C' & que' & D'). exists Qs, ds, Qs', ds'.
  split; [exact A|]. split; [exact B|]. split; [exact A'|]. split; [exact B'|]. intros que F. assert (E := C que F). split; [|exact E].
  enough (que' = map node_move que) as <- by exact D'. assert (E' := C' que' D'). change (m_hes (MV m)) with (m_hes m) in E'. clear - E E' HQ. revert que' E'.
  induction E as [|h e hs que [He En] _ IH]; intros que' E'; inversion E' as [|? e' ? que2 [He' En'] E2]; subst; [reflexivity|]. cbn [map]. f_equal; [|apply IH; exact E2].
  destruct (entry_unique _ _ _ _ _ _ (entry_move m h _ _ En) En') as [X Y]. destruct e', e. cbn in *. unfold node_move. cbn. congruence.
Qed.
Lemma loop_valid target m que nr r m' : Valid m -> Forall2 (entry_of m) (m_hes m) que -> queue_loop (N := NumR) target que [] (repeat false (length (m_verts m))) nr m (Ok (r, m')) -> Valid m'.
Proof.
  intros V F H. apply loop_sim in H. destruct (qem_loop_ok (fun _ => True) (fun _ _ => I) _ _ _ _ _ _ _ H V) as [(k & E & _) | (nr' & m2 & k & E & EV & _)].
  - rewrite repeat_length. lia.
  - intros p v I'. apply in_map_iff in I'. destruct I' as (e & [= <- <-] & Ie). clear - F Ie. induction F as [|h e0 hs que [A _] _ IH]; [destruct Ie|]. destruct Ie as [<- | Ie]; [exists h; split; [exact A|left; left; reflexivity]|].
    destruct (IH Ie) as (h' & B & [C | C]); exists h'; (split; [exact B|]); [left; right; exact C|right; exact C].
  - discriminate.
  - injection E as <- <-. apply (ev_valid _ _ EV).
Qed.
Lemma flips_valid (m m' : mesh NumR) : Valid m -> he_loop even_flip (length (m_hes m)) 0 m = Ok (tt, m') -> Valid m'.
Proof. intros V H. destruct (wp_inv (fun _ => True) _ _ _ _ _ (flips_ok (fun _ => True) m V) H) as [EV _]. apply (ev_valid _ _ EV). Qed.
Lemma mv_flips n : mvs (@he_loop NumR even_flip n 0). Proof. apply mv_he_loop. exact mv_even_flip. Qed.
Lemma trial_move target nr m o : Valid m -> queue_trial (N := NumR) solution4 target nr m o -> queue_trial (N := NumR) solution4 target nr (MV m) (MO o).
Proof.
  intros V H. destruct (queue_move m V) as (Qs & ds & Qs' & ds' & EQ & ED & EQ' & ED' & HM).
  inversion H as [o1 F|m1 F|Qs1 m1 o1 F F1|Qs1 m1 ds1 m2 que r0 o1 F F1 F2 F3 F4|Qs1 m1 ds1 m2 que nr2 m3 o1 F F1 F2 F3 F4|Qs1 m1 ds1 m2 que nr2 m3 m4 r0 o1 F F1 F2 F3 F4 F5 F6|Qs1 m1 ds1 m2 que nr2 m3 m4 m5 F F1 F2 F3 F4 F5]; subst.
  - rewrite EQ in F. destruct F.
  - congruence.
  - rewrite EQ in F. injection F as <- <-. rewrite ED in F1. destruct F1.
  - rewrite EQ in F. injection F as <- <-. rewrite ED in F1. injection F1 as <- <-. destruct (HM que F2) as [G _]. apply (kt_fail2 _ _ _ _ Qs' (MV m) ds' (MV m) (map node_move que) (MO r0) _ EQ' ED' G); [exact (loop_move _ _ _ _ _ _ _ F3)|exact (failed_loop _ _ F4)].
  - rewrite EQ in F. injection F as <- <-. rewrite ED in F1. injection F1 as <- <-. destruct (HM que F2) as [G _]. apply (kt_fail3 _ _ _ _ Qs' (MV m) ds' (MV m) (map node_move que) nr2 (MV m3) _ EQ' ED' G); [exact (loop_move _ _ _ _ _ _ _ F3)|].
    exact (failed_mv _ _ _ _ (mv_flips (length (m_hes m3))) F4).
  - rewrite EQ in F. injection F as <- <-. rewrite ED in F1. injection F1 as <- <-. destruct (HM que F2) as [G E]. apply (kt_fail4 _ _ _ _ Qs' (MV m) ds' (MV m) (map node_move que) nr2 (MV m3) (MV m4) (MR r0) _ EQ' ED' G); [exact (loop_move _ _ _ _ _ _ _ F3)|exact (ok_mv _ _ _ _ _ (mv_flips (length (m_hes m3))) F4)| |exact (failed_res _ _ F6)].
    apply (taubin_move Q t HQ); [|exact F5]. apply valid_wf, (flips_valid m3 m4); [exact (loop_valid _ _ _ _ _ _ V E F3)|exact F4].
  - rewrite EQ in F. injection F as <- <-. rewrite ED in F1. injection F1 as <- <-. destruct (HM que F2) as [G E]. apply (kt_ok _ _ _ _ Qs' (MV m) ds' (MV m) (map node_move que) nr2 (MV m3) (MV m4) (MV m5) EQ' ED' G); [exact (loop_move _ _ _ _ _ _ _ F3)|exact (ok_mv _ _ _ _ _ (mv_flips (length (m_hes m3))) F4)|].
    apply (taubin_move Q t HQ) in F5; [exact F5|]. apply valid_wf, (flips_valid m3 m4); [exact (loop_valid _ _ _ _ _ _ V E F3)|exact F4].
Qed.
Lemma trial_valid target nr m r m' : Valid m -> queue_trial (N := NumR) solution4 target nr m (Ok (r, m')) -> Valid m'.
Proof.
  intros V H. destruct (qem_trial_ok (fun _ => True) (fun _ _ => I) (fun _ _ => I) (fun _ _ _ => I) target nr m _ (trial_sim _ _ _ _ _ H) V) as [(k & E & _) | (nr2 & m2 & k & E & EV & _)]; [discriminate|].
  injection E as _ <-. apply (ev_valid _ _ EV).
Qed.
Lemma trials_move target mt fuel : forall trial nr m o, Valid m -> queue_trials (N := NumR) solution4 target mt fuel trial nr m o -> queue_trials (N := NumR) solution4 target mt fuel trial nr (MV m) (MR o).
Proof.
  induction fuel as [|fuel IH]; intros trial nr m o V H; inversion H as [? ? ? ? H1|? ? ? H1|? ? ? ? r ? H1 H2 H3|? ? ? ? m' H1 H2|? ? ? ? nr' m' H1 H2 H3|? ? ? ? nr' m' ? H1 H2 H3 H4]; subst.
  - apply ko_end. exact H1.
  - apply ko_fuel. exact H1.
  - apply ko_end. exact H1.
  - apply ko_fail with (MO r); [exact H1|exact (trial_move _ _ _ _ V H2)|exact (failed_end _ _ H3)].
  - apply ko_return; [exact H1|exact (trial_move _ _ _ _ V H2)].
  - apply ko_break with nr'; [exact H1|exact (trial_move _ _ _ _ V H2)|exact H3].
  - apply ko_go with nr' (MV m'); [exact H1|exact (trial_move _ _ _ _ V H2)|exact H3|]. apply IH; [exact (trial_valid _ _ _ _ _ V H2)|exact H4].
Qed.
Theorem simplify_move nt mt fuel m o : Valid m -> simplifyQueue (N := NumR) solution4 nt mt fuel m o -> simplifyQueue (N := NumR) solution4 nt mt fuel (MV m) (MR o).
Proof.
  intros V H. inversion H as [H1|H1 H2|r o1 H1 H2 H3 H4|m1 o1 H1 H2 H3 H4]; subst.
  - apply kq_zero. reflexivity.
  - apply kq_few; assumption.
  - apply kq_fail with (MR r); [assumption|assumption|exact (laplacian_move Q t HQ _ _ _ _ _ (valid_wf m V) H3)|exact (failed_both _ _ H4)].
  - apply kq_run with (MV m1); [assumption|assumption|exact (laplacian_move Q t HQ _ _ _ _ _ (valid_wf m V) H3)|]. apply trials_move; [|exact H4].
    destruct (lap_ok (fun _ => True) (fun _ _ _ => I) m _ V H3) as [(k & E & _) | (m2 & [= <-] & EV & _)]; [discriminate|exact (ev_valid _ _ EV)].
Qed.
End Rigid.
