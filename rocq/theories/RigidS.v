(** The smoothing filters on moved meshes. *)
From Coq Require Import Reals List ZArith Arith Bool Lra Lia FunctionalExtensionality.
From Verif Require Import Num NumInst Vec Heap Mesh Bounds Spec Orbit Rings Prog ProgP Smooth SmoothSpec SmoothP SmoothD WholeSpec RigidSpec RigidM RigidE RigidF.
Import ListNotations.

Section Rigid.
Variables (Q : vecR -> vecR) (t : vecR).
Hypothesis HQ : Rotation Q.
Notation T := (motion Q t).
Notation MV := (move Q t).
Notation mvs x := (mv Q t same x x).

Lemma move_wf m : WF m -> WF (MV m).
Proof.
  intros W. constructor; [exact (wf_v_nodup m W)|exact (wf_h_nodup m W)|exact (wf_f_nodup m W)|exact (wf_v_elem m W)|exact (wf_h_elem m W)|exact (wf_f_elem m W)
   |exact (wf_src m W)|exact (wf_next m W)|exact (wf_rev m W)|exact (wf_face m W)|exact (wf_rev_invol m W)|exact (wf_dst m W)|exact (wf_vhe m W)|exact (wf_fhe m W)
   |exact (wf_face_next m W)|exact (wf_face_orbit m W)|exact (wf_vertex_orbit m W)].
Qed.
Lemma move_posonly m m' : posonly m m' -> posonly (MV m) (MV m').
Proof. intros [P E]. constructor; [intros v Nv; cbn; rewrite (P v Nv); reflexivity|]. rewrite E. reflexivity. Qed.

(** ** Weighted centres *)
Lemma pos_at_move m p : p <> None -> pos_at (MV m) p = T (pos_at m p).
Proof. destruct p; [reflexivity|congruence]. Qed.
Lemma wgt_move m cot y : wgt (MV m) cot y = wgt m cot y.
Proof. destruct cot; [|reflexivity]. unfold wgt. rewrite (mv_cotWeight Q t HQ (Some y) m). destruct (he_cotWeight (Some y) m) as [[w m']| | |]; reflexivity. Qed.
Lemma ring_move m i : vert_ring (MV m) i = vert_ring m i.
Proof.
  unfold vert_ring. change (m_verts (MV m)) with (m_verts m). destruct (nth_error (m_verts m) i) as [v|]; [|reflexivity]. unfold ring_of. rewrite (mv_halfedges Q t (Some v) m). destruct (v_halfedges (Some v) m) as [[l m']| | |]; reflexivity.
Qed.
Definition acc_move (x : vecR * @num NumR) : vecR * @num NumR := (vadd (Q (fst x)) (@vscale NumR (snd x) t), snd x).
Lemma acc_step (a : vecR) (w W : @num NumR) p : vadd (vadd (Q a) (@vscale NumR W t)) (@vscale NumR w (T p)) = vadd (Q (vadd a (@vscale NumR w p))) (@vscale NumR (nadd W w) t).
Proof. rewrite (rot_add Q HQ), (rot_scale Q HQ). unfold motion. destruct a as [a1 a2 a3], p as [p1 p2 p3], t as [t1 t2 t3]. set (x := Q _). set (y := Q _). destruct x, y. unfold vadd, vscale. cbn. f_equal; ring. Qed.
Lemma vdiv_acc a (W : @num NumR) : @vdiv NumR (vadd (Q a) (@vscale NumR W t)) W = option_map T (@vdiv NumR a W).
Proof.
  rewrite !vdiv_scale. destruct (@neqb NumR W nzero) eqn:E; [reflexivity|]. cbn [option_map]. f_equal. assert (N0 : W <> 0%R) by (intros Z; apply Reqb_eq in Z; cbn in E; congruence).
  unfold motion. rewrite (rot_scale Q HQ). destruct (Q a), t. unfold vadd, vscale. cbn. f_equal; field; exact N0.
Qed.
Lemma zero_t : @vadd NumR vzero (@vscale NumR nzero t) = vzero.
Proof. apply vec_ext; cbn; ring. Qed.
Section Mesh.
Variable m : mesh NumR.
Hypothesis W : WF m.
Lemma ring_dst i y : In y (vert_ring m i) -> dst_of m y <> None.
Proof.
  unfold vert_ring. destruct (nth_error (m_verts m) i) as [v|] eqn:E; [|intros []]. intros I. destruct (ring_of_ring m v W (nth_error_In _ _ E)) as [Hr _].
  destruct (dst_pos m W y) as (d & Ed & _); [|congruence]. apply Hr, I.
Qed.
Lemma wsum_move cot l : (forall y, In y l -> dst_of m y <> None) -> wsum (MV m) cot l = acc_move (wsum m cot l).
Proof.
  unfold wsum. assert (E : (vzero, nzero) = acc_move (vzero, @nzero NumR)) by (unfold acc_move; cbn [fst snd]; rewrite (q_zero Q HQ), zero_t; reflexivity).
  rewrite E at 1. clear E. generalize (@vzero NumR, @nzero NumR). induction l as [|y l IH]; intros [a w] D; [reflexivity|]. cbn [fold_left]. rewrite <- IH by (intros z I; apply D; right; exact I). f_equal.
  unfold acc_move. cbn [fst snd]. rewrite wgt_move. change (dst_of (MV m) y) with (dst_of m y). rewrite pos_at_move by (apply D; left; reflexivity). rewrite acc_step. reflexivity.
Qed.
Lemma lap_cv_move cot i : lap_cv (MV m) cot i = option_map T (lap_cv m cot i).
Proof. unfold lap_cv. rewrite ring_move, wsum_move by apply ring_dst. apply vdiv_acc. Qed.
Lemma sum_move l : (forall y, In y l -> dst_of m y <> None) -> forall a (k : @num NumR),
  fold_left vadd (map (fun y => pos_at (MV m) (dst_of (MV m) y)) l) (vadd (Q a) (@vscale NumR k t)) =
  vadd (Q (fold_left vadd (map (fun y => pos_at m (dst_of m y)) l) a)) (@vscale NumR (k + INR (length l))%R t).
Proof.
  induction l as [|y l IH]; intros D a k.
  - cbn. rewrite Rplus_0_r. reflexivity.
  - cbn [map fold_left]. change (dst_of (MV m) y) with (dst_of m y). rewrite pos_at_move by (apply D; left; reflexivity).
    replace (vadd (vadd (Q a) (@vscale NumR k t)) (T (pos_at m (dst_of m y)))) with (vadd (Q (vadd a (pos_at m (dst_of m y)))) (@vscale NumR (k + 1)%R t)).
    + rewrite IH by (intros z I; apply D; right; exact I). cbn [length]. rewrite S_INR. f_equal. f_equal. ring.
    + rewrite (rot_add Q HQ). unfold motion. destruct (Q a), (Q (pos_at m (dst_of m y))), t. unfold vadd, vscale. cbn. f_equal; ring.
Qed.
Lemma taubin_cv_move i : taubin_cv (MV m) i = option_map T (taubin_cv m i).
Proof.
  unfold taubin_cv. rewrite ring_move. assert (E := sum_move (vert_ring m i) (ring_dst i) vzero 0%R). 
  replace (vadd (Q vzero) (@vscale NumR 0%R t)) with (@vzero NumR) in E by (rewrite (q_zero Q HQ); symmetry; apply zero_t). rewrite E.
  rewrite Rplus_0_l. rewrite INR_IZR_INZ. apply vdiv_acc.
Qed.
Lemma moved_move (e : @num NumR) p c : @moved NumR e (T p) (T c) = T (moved e p c).
Proof.
  unfold moved. cbv zeta. rewrite (t_sub Q t HQ). unfold motion. rewrite (rot_add Q HQ), !(rot_scale Q HQ), (rot_add Q HQ). set (x := Q (vsub c p)). destruct x, (Q p), t. unfold vadd, vscale. cbn. f_equal; ring.
Qed.
Lemma newpos_move cv cv' e v : (forall i, cv' i = option_map T (cv i)) -> newpos (MV m) cv' e v = T (newpos m cv e v).
Proof.
  intros E. unfold newpos. change (fixedb (MV m) v) with (fixedb m v). change (v_idx (MV m) v) with (v_idx m v). change (v_pos (MV m) v) with (T (v_pos m v)). destruct (fixedb m v); [reflexivity|].
  rewrite E. destruct (cv (Z.to_nat (v_idx m v))); cbn [option_map]; [apply moved_move|reflexivity].
Qed.
End Mesh.

(** ** Passes *)
Notation move_res := (move_res Q t).
Definition mv_step (step : nat -> mesh NumR -> res (mesh NumR) -> Prop) : Prop := forall it m o, WF m -> step it m o -> step it (MV m) (move_res o).
Lemma pass_move m body body' cv cv' e : WF m ->
  (forall i, Local (IA m (length (m_verts m))) RA i (body i)) ->
  (forall i v s, nth_error (m_verts m) i = Some v -> l_mesh s = m -> i < length (l_cent s) -> solo (body i) s = cent_write s i (cv i)) ->
  (forall i, Local (IA (MV m) (length (m_verts m))) RA i (body' i)) ->
  (forall i v s, nth_error (m_verts m) i = Some v -> l_mesh s = MV m -> i < length (l_cent s) -> solo (body' i) s = cent_write s i (cv' i)) ->
  (forall i, cv' i = option_map T (cv i)) -> forall o,
  two_loops (mem0 m (length (m_verts m))) (length (m_verts m)) body (lap_update e) o ->
  exists o', two_loops (mem0 (MV m) (length (m_verts m))) (length (m_verts m)) body' (lap_update e) o' /\ move_res (mesh_out o) = mesh_out o'.
Proof.
  intros W L S L' S' Ec o Ho. destruct (pass m W body cv L S e) as (r & _ & U & C). destruct (pass (MV m) (move_wf m W) body' cv' L' S' e) as (r' & (o' & Ho' & Er') & _ & C').
  exists o'. split; [exact Ho'|]. rewrite (U o Ho). change (mesh_out o' = r') in Er'. rewrite Er'.
  destruct C as [(m1 & -> & P & Ac & Pos) | (-> & i & Li & Ei)], C' as [(m2 & -> & P' & Ac' & Pos') | (-> & j & Lj & Ej)].
  - cbn. f_equal. apply (posonly_eq (MV m)); [apply move_posonly, P|exact P'|]. intros v Iv. change (v_pos (MV m1) v) with (T (v_pos m1 v)). rewrite (Pos' v Iv), (newpos_move m cv cv' e v Ec), (Pos v Iv). reflexivity.
  - exfalso. rewrite Ec in Ej. destruct (cv j) eqn:E; [discriminate|]. apply (Ac j Lj E).
  - exfalso. apply (Ac' i Li). rewrite Ec, Ei. reflexivity.
  - reflexivity.
Qed.
Lemma lap_step_move e cot : mv_step (fun _ => lap_step e cot).
Proof.
  intros _ m o W (o' & Ho & ->). destruct (pass_move m _ _ _ _ e W (loc_lap_centroid m _ cot) (lap_solo m cot W) (loc_lap_centroid (MV m) _ cot) (lap_solo (MV m) cot (move_wf m W)) (lap_cv_move m W cot) o' Ho) as (o2 & H2 & E). exists o2. split; assumption.
Qed.
Lemma taubin_step_move a b : mv_step (taubin_step a b).
Proof.
  intros it m o W (o' & Ho & ->). destruct (pass_move m _ _ _ _ (if Nat.even it then a else nopp b) W (loc_taubin_centroid m _) (taubin_solo m W) (loc_taubin_centroid (MV m) _) (taubin_solo (MV m) (move_wf m W)) (taubin_cv_move m W) o' Ho) as (o2 & H2 & E). exists o2. split; assumption.
Qed.
Lemma repeats_move step : mv_step step -> (forall it m m', WF m -> step it m (Ok m') -> WF m') -> forall n it m o, WF m -> repeats step it n m o -> repeats step it n (MV m) (move_res o).
Proof.
  intros St Wf n. induction n as [|n IH]; intros it m o W H; inversion H as [|? ? ? m1 ? A B|? ? ? ? A B]; subst.
  - apply rep_0.
  - apply rep_S with (MV m1); [apply (St it m (Ok m1) W A)|]. apply IH; [apply (Wf it m m1 W A)|exact B].
  - apply rep_fail; [apply St; assumption|]. intros m1 E. destruct o as [m2| | |]; try discriminate. apply (B m2 eq_refl).
Qed.
Lemma good_wf (step : nat -> mesh NumR -> res (mesh NumR) -> Prop) : good_step step -> forall it m m', WF m -> step it m (Ok m') -> WF m'.
Proof. intros G it m m' W H. destruct (G it m W) as (r & _ & U & [(m1 & -> & P & _) | ->]); specialize (U _ H); [injection U as ->; apply (posonly_wf m m1 W P)|discriminate]. Qed.
Lemma laplacian_move e cot n m o : WF m -> smoothLaplacian e cot n m o -> smoothLaplacian e cot n (MV m) (move_res o).
Proof. apply repeats_move; [apply lap_step_move|apply (good_wf (fun _ => lap_step e cot)), lap_good]. Qed.
Lemma taubin_move a b n m o : WF m -> smoothTaubin a b n m o -> smoothTaubin a b n (MV m) (move_res o).
Proof. apply repeats_move; [apply taubin_step_move|apply good_wf, taubin_good]. Qed.
End Rigid.
