(** The smoothing filters on scaled meshes. *)
From Coq Require Import Reals List ZArith Arith Bool Lra Lia FunctionalExtensionality.
From Verif Require Import Num NumInst Vec Heap Mesh Bounds Spec Orbit Rings Prog ProgP Smooth SmoothSpec SmoothP SmoothD WholeSpec RigidSpec ScaleSpec ScaleM ScaleE ScaleF.
Import ListNotations.

Section Scale.
Variable c : R.
Hypothesis Hc : (0 < c)%R.
Notation T := (grow c).
Notation MV := (scaled c).

Lemma move_wf m : WF m -> WF (MV m).
Proof.
  intros W. constructor; [exact (wf_v_nodup m W)|exact (wf_h_nodup m W)|exact (wf_f_nodup m W)|exact (wf_v_elem m W)|exact (wf_h_elem m W)|exact (wf_f_elem m W)
   |exact (wf_src m W)|exact (wf_next m W)|exact (wf_rev m W)|exact (wf_face m W)|exact (wf_rev_invol m W)|exact (wf_dst m W)|exact (wf_vhe m W)|exact (wf_fhe m W)
   |exact (wf_face_next m W)|exact (wf_face_orbit m W)|exact (wf_vertex_orbit m W)].
Qed.
Lemma move_posonly m m' : posonly m m' -> posonly (MV m) (MV m').
Proof. intros [P E]. constructor; [intros v Nv; cbn; rewrite (P v Nv); reflexivity|]. rewrite E. reflexivity. Qed.

(** ** Weighted centres *)
Lemma pos_at_move m p : p <> None -> pos_at (MV m) p = T (pos_at m p).
Proof. destruct p; [reflexivity|congruence]. Qed.
Lemma ring_move m i : vert_ring (MV m) i = vert_ring m i.
Proof.
  unfold vert_ring. change (m_verts (MV m)) with (m_verts m). destruct (nth_error (m_verts m) i) as [v|]; [|reflexivity]. unfold ring_of. rewrite (mv_halfedges c (Some v) m). destruct (v_halfedges (Some v) m) as [[l m']| | |]; reflexivity.
Qed.
Definition acc_move (x : vecR * @num NumR) : vecR * @num NumR := (T (fst x), snd x).
Lemma vdiv_acc a (W : @num NumR) : @vdiv NumR (T a) W = option_map T (@vdiv NumR a W).
Proof. apply grow_div. Qed.
Lemma grow_0 : T vzero = vzero. Proof. apply vec_ext; cbn; ring. Qed.
Section Mesh.
Variable m : mesh NumR.
Hypothesis W : WF m.
Lemma ring_dst i y : In y (vert_ring m i) -> dst_of m y <> None.
Proof.
  unfold vert_ring. destruct (nth_error (m_verts m) i) as [v|] eqn:E; [|intros []]. intros I. destruct (ring_of_ring m v W (nth_error_In _ _ E)) as [Hr _].
  destruct (dst_pos m W y) as (d & Ed & _); [|congruence]. apply Hr, I.
Qed.
Lemma wsum_move cot l : (forall y, In y l -> dst_of m y <> None) -> (forall y, In y l -> wgt (MV m) cot y = wgt m cot y) -> wsum (MV m) cot l = acc_move (wsum m cot l).
Proof.
  unfold wsum. assert (E : (vzero, nzero) = acc_move (vzero, @nzero NumR)) by (unfold acc_move; cbn [fst snd]; rewrite grow_0; reflexivity).
  rewrite E at 1. clear E. generalize (@vzero NumR, @nzero NumR). induction l as [|y l IH]; intros [a w] D G; [reflexivity|]. cbn [fold_left]. rewrite <- IH by (intros z I; (apply D || apply G); right; exact I). f_equal.
  unfold acc_move. cbn [fst snd]. change (dst_of (MV m) y) with (dst_of m y). rewrite pos_at_move by (apply D; left; reflexivity). rewrite (G y (or_introl eq_refl)). f_equal. unfold grow. apply vec_ext; cbn; ring.
Qed.
Lemma lap_cv_moves cot i : (forall y, In y (vert_ring m i) -> wgt (MV m) cot y = wgt m cot y) -> lap_cv (MV m) cot i = option_map T (lap_cv m cot i).
Proof. intros G. unfold lap_cv. rewrite ring_move, wsum_move by (apply ring_dst || exact G). apply vdiv_acc. Qed.
Lemma lap_cv_move i : lap_cv (MV m) false i = option_map T (lap_cv m false i).
Proof. apply lap_cv_moves. reflexivity. Qed.
Lemma sum_move l : (forall y, In y l -> dst_of m y <> None) -> forall a,
  fold_left vadd (map (fun y => pos_at (MV m) (dst_of (MV m) y)) l) (T a) = T (fold_left vadd (map (fun y => pos_at m (dst_of m y)) l) a).
Proof.
  induction l as [|y l IH]; intros D a; [reflexivity|]. cbn [map fold_left]. change (dst_of (MV m) y) with (dst_of m y). rewrite pos_at_move by (apply D; left; reflexivity).
  replace (vadd (T a) (T (pos_at m (dst_of m y)))) with (T (vadd a (pos_at m (dst_of m y)))) by (unfold grow; apply vec_ext; cbn; ring). apply IH. intros z I; apply D; right; exact I.
Qed.
Lemma taubin_cv_move i : taubin_cv (MV m) i = option_map T (taubin_cv m i).
Proof.
  unfold taubin_cv. rewrite ring_move. assert (E := sum_move (vert_ring m i) (ring_dst i) vzero). rewrite grow_0 in E. rewrite E. apply vdiv_acc.
Qed.
Lemma moved_move (e : @num NumR) p q : @moved NumR e (T p) (T q) = T (moved e p q).
Proof. unfold moved, grow. apply vec_ext; cbn; ring. Qed.
Lemma newpos_move cv cv' e v : (forall i, cv' i = option_map T (cv i)) -> newpos (MV m) cv' e v = T (newpos m cv e v).
Proof.
  intros E. unfold newpos. change (fixedb (MV m) v) with (fixedb m v). change (v_idx (MV m) v) with (v_idx m v). change (v_pos (MV m) v) with (T (v_pos m v)). destruct (fixedb m v); [reflexivity|].
  rewrite E. destruct (cv (Z.to_nat (v_idx m v))); cbn [option_map]; [apply moved_move|reflexivity].
Qed.
End Mesh.

(** ** Passes *)
Notation move_res := (scaled_res c).
Definition mv_step (step : nat -> mesh NumR -> res (mesh NumR) -> Prop) : Prop := forall it m o, WF m -> step it m o -> step it (MV m) (move_res o).
Lemma pass_move m body body' cv cv' e : WF m ->
  (forall i, Local (IA m (length (m_verts m))) RA i (body i)) ->
  (forall i v s, nth_error (m_verts m) i = Some v -> l_mesh s = m -> i < length (l_cent s) -> solo (body i) s = cent_write s i (cv i)) ->
  (forall i, Local (IA (MV m) (length (m_verts m))) RA i (body' i)) ->
  (forall i v s, nth_error (m_verts m) i = Some v -> l_mesh s = MV m -> i < length (l_cent s) -> solo (body' i) s = cent_write s i (cv' i)) ->
  (forall i, cv' i = option_map T (cv i)) -> forall o,
  two_loops (mem0 m (length (m_verts m))) (length (m_verts m)) body (lap_update e) o ->
  exists o', two_loops (mem0 (MV m) (length (m_verts m))) (length (m_verts m)) body' (lap_update e) o' /\ move_res (mesh_out o) = mesh_out o'.
Proof.
  intros W L S L' S' Ec o Ho. destruct (pass m W body cv L S e) as (r & _ & U & C). destruct (pass (MV m) (move_wf m W) body' cv' L' S' e) as (r' & (o' & Ho' & Er') & _ & C').
  exists o'. split; [exact Ho'|]. rewrite (U o Ho). change (mesh_out o' = r') in Er'. rewrite Er'.
  destruct C as [(m1 & -> & P & Ac & Pos) | (-> & i & Li & Ei)], C' as [(m2 & -> & P' & Ac' & Pos') | (-> & j & Lj & Ej)].
  - cbn. f_equal. apply (posonly_eq (MV m)); [apply move_posonly, P|exact P'|]. intros v Iv. change (v_pos (MV m1) v) with (T (v_pos m1 v)). rewrite (Pos' v Iv), (newpos_move m cv cv' e v Ec), (Pos v Iv). reflexivity.
  - exfalso. rewrite Ec in Ej. destruct (cv j) eqn:E; [discriminate|]. apply (Ac j Lj E).
  - exfalso. apply (Ac' i Li). rewrite Ec, Ei. reflexivity.
  - reflexivity.
Qed.
Lemma lap_step_move e : mv_step (fun _ => lap_step e false).
Proof.
  intros _ m o W (o' & Ho & ->). destruct (pass_move m _ _ _ _ e W (loc_lap_centroid m _ false) (lap_solo m false W) (loc_lap_centroid (MV m) _ false) (lap_solo (MV m) false (move_wf m W)) (lap_cv_move m W) o' Ho) as (o2 & H2 & E). exists o2. split; assumption.
Qed.
Lemma lap_step_moves e cot m o : WF m -> (forall i y, In y (vert_ring m i) -> wgt (MV m) cot y = wgt m cot y) -> lap_step e cot m o -> lap_step e cot (MV m) (move_res o).
Proof.
  intros W G (o' & Ho & ->). destruct (pass_move m _ _ _ _ e W (loc_lap_centroid m _ cot) (lap_solo m cot W) (loc_lap_centroid (MV m) _ cot) (lap_solo (MV m) cot (move_wf m W)) (fun i => lap_cv_moves m W cot i (G i)) o' Ho) as (o2 & H2 & E). exists o2. split; assumption.
Qed.
Lemma taubin_step_move a b : mv_step (taubin_step a b).
Proof.
  intros it m o W (o' & Ho & ->). destruct (pass_move m _ _ _ _ (if Nat.even it then a else nopp b) W (loc_taubin_centroid m _) (taubin_solo m W) (loc_taubin_centroid (MV m) _) (taubin_solo (MV m) (move_wf m W)) (taubin_cv_move m W) o' Ho) as (o2 & H2 & E). exists o2. split; assumption.
Qed.
Lemma repeats_move step : mv_step step -> (forall it m m', WF m -> step it m (Ok m') -> WF m') -> forall n it m o, WF m -> repeats step it n m o -> repeats step it n (MV m) (move_res o).
Proof.
  intros St Wf n. induction n as [|n IH]; intros it m o W H; inversion H as [|? ? ? m1 ? A B|? ? ? ? A B]; subst.
  - apply rep_0.
  - apply rep_S with (MV m1); [apply (St it m (Ok m1) W A)|]. apply IH; [apply (Wf it m m1 W A)|exact B].
  - apply rep_fail; [apply St; assumption|]. intros m1 E. destruct o as [m2| | |]; try discriminate. apply (B m2 eq_refl).
Qed.
Lemma good_wf (step : nat -> mesh NumR -> res (mesh NumR) -> Prop) : good_step step -> forall it m m', WF m -> step it m (Ok m') -> WF m'.
Proof. intros G it m m' W H. destruct (G it m W) as (r & _ & U & [(m1 & -> & P & _) | ->]); specialize (U _ H); [injection U as ->; apply (posonly_wf m m1 W P)|discriminate]. Qed.
Lemma laplacian_move e n m o : WF m -> smoothLaplacian e false n m o -> smoothLaplacian e false n (MV m) (move_res o).
Proof. apply repeats_move; [apply lap_step_move|apply (good_wf (fun _ => lap_step e false)), lap_good]. Qed.
Lemma taubin_move a b n m o : WF m -> smoothTaubin a b n m o -> smoothTaubin a b n (MV m) (move_res o).
Proof. apply repeats_move; [apply taubin_step_move|apply good_wf, taubin_good]. Qed.
End Scale.
