(** Parallel loops on scaled meshes: the filters of normals, in every order. *)
From Coq Require Import Reals List ZArith Arith Bool Lra Lia FunctionalExtensionality.
From Verif Require Import Num NumInst Vec Heap Mesh Bounds Measure Spec Orbit Rings Prog ProgP SmoothSpec Smooth SmoothP SmoothD SmoothDn WholeSpec RigidSpec ScaleSpec ScaleM ScaleE ScaleF ScaleS.
From Verif Require RigidP.
Import ListNotations.
Local Open Scope prog_scope.
Notation pm := RigidP.pm.
Notation pm_ret := RigidP.pm_ret.
Notation pm_act := RigidP.pm_act.
Notation pm_bind := RigidP.pm_bind.
Notation outcome_sim := RigidP.outcome_sim.
Notation f2_seq := RigidP.f2_seq.
Notation map_set := RigidP.map_set.
Notation rrel := RigidP.rrel.
Notation map_repeat := RigidP.map_repeat.
Notation RC := RigidP.RC.
Notation pc_dn_face := RigidP.pc_dn_face.
Notation face_fix := RigidP.face_fix.

(** ** Scaled memories *)
Section Scale.
Variable c : R.
Hypothesis Hc : (0 < c)%R.
Notation T := (grow c).
Notation MV := (scaled c).
Notation mv := (mv c).
Notation k2 := (c * c)%R.
Definition move_mem (s : mem NumR) : mem NumR := mkMem (MV (l_mesh s)) (map T (l_cent s)) (l_norm s) (l_new s) (map (times k2) (l_area s)).
Definition RM (s s' : mem NumR) : Prop := s' = move_mem s.
Notation pmm := (pm RM).
Lemma pm_onm {A} (g : A -> A) x x' : mv g x x' -> pmm g (onm x) (onm x').
Proof. intros H. apply pm_act. intros s s' ->. unfold lift_mem. cbn [move_mem l_mesh]. rewrite H. destruct (x (l_mesh s)) as [[a m]| | |]; cbn; [|reflexivity|reflexivity|reflexivity]. eexists. split; reflexivity. Qed.
Lemma pm_get {X} (h : X -> X) (f : mem NumR -> list X) i : (forall s, f (move_mem s) = map h (f s)) -> pmm h (arr_get f i) (arr_get f i).
Proof. intros H. apply pm_act. intros s s' ->. rewrite H, nth_error_map. destruct (i <? 0)%Z; [reflexivity|]. destruct (nth_error (f s) (Z.to_nat i)); cbn; [|reflexivity]. eexists. split; reflexivity. Qed.
Lemma pm_set {X} (h : X -> X) (f : mem NumR -> list X) upd i x : (forall s, f (move_mem s) = map h (f s)) -> (forall l s, upd (map h l) (move_mem s) = move_mem (upd l s)) ->
  pmm (fun u => u) (arr_set f upd i x) (arr_set f upd i (h x)).
Proof. intros H U. apply pm_act. intros s s' ->. rewrite H, map_length. destruct (i <? length (f s)); [|reflexivity]. eexists. split; [reflexivity|]. unfold RM. rewrite <- U, map_set. reflexivity. Qed.
Lemma pm_pcirc {A} (g : A -> A) step body body' : (forall p, pmm same (step p) (step p)) -> (forall a p, pmm (on_fst g) (body a p) (body' (g a) p)) ->
  forall fuel start it acc, pmm g (pcirc step body fuel start it acc) (pcirc step body' fuel start it (g acc)).
Proof.
  intros Hs Hb. induction fuel as [|fuel IH]; intros start [it|] acc; cbn [pcirc]; try (apply pm_ret; reflexivity); [apply pm_onm, mv_nofuel|].
  eapply pm_bind; [apply Hb|]. intros [a b]. unfold on_fst. cbn [fst snd]. destruct b; [apply pm_ret; reflexivity|]. eapply pm_bind; [apply Hs|]. intros x. apply IH.
Qed.
Lemma pm_circ_f {A} (g : A -> A) f acc body body' : (forall a p, pmm (on_fst g) (body a p) (body' (g a) p)) -> pmm g (p_circ_f f acc body) (p_circ_f f (g acc) body').
Proof.
  intros H. unfold p_circ_f. eapply pm_bind; [apply pm_onm, (mv_fhe c)|]. intros h. eapply pm_bind; [apply pm_onm, (mv_get c same); reflexivity|]. intros fr. apply pm_pcirc; [|exact H]. intros p. apply pm_onm, mv_next.
Qed.
Lemma pm_circ_v {A} (g : A -> A) f acc body body' : (forall a p, pmm (on_fst g) (body a p) (body' (g a) p)) -> pmm g (p_circ_v f acc body) (p_circ_v f (g acc) body').
Proof.
  intros H. unfold p_circ_v. eapply pm_bind; [apply pm_onm, (mv_vhe c)|]. intros h. eapply pm_bind; [apply pm_onm, (mv_get c same); reflexivity|]. intros fr. apply pm_pcirc; [|exact H]. intros p. unfold p_step_v. eapply pm_bind; [apply pm_onm, mv_rev|]. intros r. apply pm_onm, mv_next.
Qed.
Ltac st l := eapply pm_bind; [apply pm_onm; l|intros ?].
Lemma pm_sets {X} (f : mem NumR -> list X) upd i x : (forall s, f (move_mem s) = f s) -> (forall l s, upd l (move_mem s) = move_mem (upd l s)) -> pmm (fun u => u) (arr_set f upd i x) (arr_set f upd i x).
Proof. intros H U. apply (pm_set (fun u => u)); [intros s; rewrite map_id; apply H|intros l s; rewrite map_id; apply U]. Qed.
Lemma pm_gets {X} (f : mem NumR -> list X) i : (forall s, f (move_mem s) = f s) -> pmm same (arr_get f i) (arr_get f i).
Proof. intros H. apply (pm_get same). intros s. rewrite H. symmetry. apply map_id. Qed.
Lemma pm_dn_face i : pmm (fun u => u) (dn_face i) (dn_face i).
Proof.
  unfold dn_face. st ltac:(apply mv_mesh_face). eapply (pm_bind RM (map T)).
  - apply (pm_circ_f (map T) x []). intros a p. st ltac:(apply mv_src). st ltac:(apply mv_pos). apply pm_ret. unfold on_fst. cbn [fst snd]. rewrite map_app. reflexivity.
  - intros [|a [|b [|d [|e l]]]]; cbn [map]; try (apply pm_onm, mv_abort). cbv zeta. rg Hc. st ltac:(apply mv_lifts).
    eapply pm_bind; [apply pm_sets; reflexivity|intros _]. st ltac:(apply mv_lift). eapply pm_bind; [apply (pm_set T); reflexivity|intros _].
    replace (@nmul NumR nhalf (k2 * vlength (cross (vsub b a) (vsub d a)))%R) with (times k2 (@nmul NumR nhalf (vlength (cross (vsub b a) (vsub d a))))) by (unfold times; cbn; ring).
    apply (pm_set (times k2)); reflexivity.
Qed.
Section Weight.
Variables w w' : vecR -> vecR -> vecR -> vecR -> @num NumR -> @num NumR.
Hypothesis Hw : forall a b n n' e, w' (T a) (T b) n n' (times k2 e) = (c * w a b n n' e)%R.
Lemma get_area j : pmm (times k2) (arr_get l_area j) (arr_get l_area j). Proof. apply pm_get. reflexivity. Qed.
Lemma pm_dn_filter i : pmm (fun u => u) (dn_filter w i) (dn_filter w' i).
Proof.
  unfold dn_filter. st ltac:(apply mv_mesh_face). eapply (pm_bind RM T).
  - rewrite <- (grow_0 c) at 2. apply (pm_circ_f T). intros a p. st ltac:(apply mv_rev). st ltac:(apply mv_face). st ltac:(apply mv_fidx).
    eapply pm_bind; [apply (pm_get T); reflexivity|intros ci]. eapply pm_bind; [apply (pm_get T); reflexivity|intros cj]. eapply pm_bind; [apply pm_gets; reflexivity|intros ni]. eapply pm_bind; [apply pm_gets; reflexivity|intros nj].
    eapply pm_bind; [apply get_area|intros aj]. apply pm_ret. unfold on_fst, same. cbn [fst snd]. rewrite Hw. f_equal. unfold grow. apply vec_ext; cbn; ring.
  - intros nv. cbv zeta. rewrite (t_length c Hc). replace (@neqb NumR (c * vlength nv)%R nzero) with (@neqb NumR (vlength nv) nzero) by (symmetry; apply reqb0_times; lra). destruct (negb (neqb (vlength nv) nzero)); [|apply pm_ret; reflexivity].
    rewrite (grow_div_both c _ _ Hc). st ltac:(apply mv_lifts). apply pm_sets; reflexivity.
Qed.
End Weight.
Definition acc_q (x : @num NumR * vecR) : @num NumR * vecR := (times k2 (fst x), grow (k2 * c) (snd x)).
Lemma acc_q0 : acc_q (@nzero NumR, @vzero NumR) = (@nzero NumR, @vzero NumR).
Proof. unfold acc_q, times. cbn [fst snd]. rewrite (grow_zero (k2 * c)). apply (f_equal (fun x => (x, vzero))), Rmult_0_r. Qed.
Lemma div_q (W : R) v : @vdiv NumR (grow (k2 * c) v) (times k2 W) = option_map T (@vdiv NumR v W).
Proof.
  replace (grow (k2 * c) v) with (grow k2 (T v)) by (unfold grow; apply vec_ext; cbn; ring). unfold times. rewrite <- grow_div. apply grow_div_both, cc0, Hc.
Qed.
Lemma pm_dn_update i : pmm (fun u => u) (dn_update i) (dn_update i).
Proof.
  unfold dn_update. st ltac:(apply mv_mesh_vertex). eapply (pm_bind RM acc_q).
  - replace (@nzero NumR, @vzero NumR) with (acc_q (@nzero NumR, @vzero NumR)) at 2 by exact acc_q0. apply (pm_circ_v acc_q). intros a p. st ltac:(apply mv_face). st ltac:(apply mv_fidx).
    eapply pm_bind; [apply get_area|intros aj]. eapply pm_bind; [apply pm_gets; reflexivity|intros nj]. eapply pm_bind; [apply (pm_get T); reflexivity|intros cj]. st ltac:(apply mv_pos).
    apply pm_ret. unfold on_fst, acc_q, same, times. cbn [fst snd]. f_equal. f_equal; [cbn; ring|unfold grow; apply vec_ext; cbn; ring].
  - intros r. unfold acc_q. cbn [fst snd]. rewrite div_q. st ltac:(apply mv_lift). st ltac:(apply mv_pos). rewrite grow_add. apply pm_onm, mv_w_pos.
Qed.
Section Loops.
Variable m : mesh NumR.
Hypothesis W : WF m.
Variables w w' : vecR -> vecR -> vecR -> vecR -> @num NumR -> @num NumR.
Hypothesis Hw : forall a b n n' e, w' (T a) (T b) n n' (times k2 e) = (c * w a b n n' e)%R.
Notation nf := (length (m_faces m)).
Lemma start_rc : RC (move_mem (mem0 m nf)) (mem0 (MV m) nf).
Proof. unfold RC, move_mem, mem0. cbn. rewrite !map_repeat, !repeat_length. replace (times k2 0%R) with 0%R by (symmetry; apply Rmult_0_r). repeat split; reflexivity. Qed.
Lemma start_ia : IA (MV m) nf (move_mem (mem0 m nf)).
Proof. unfold IA, move_mem, mem0. cbn. rewrite !map_length, !repeat_length. auto. Qed.
Lemma faces_move o : outcome (mem0 m nf) (map dn_face (seq 0 nf)) o -> exists o', outcome (mem0 (MV m) nf) (map dn_face (seq 0 nf)) o' /\ rrel RM o o'.
Proof.
  intros O. destruct (outcome_sim RM _ _ _ O (move_mem (mem0 m nf)) (map dn_face (seq 0 nf)) eq_refl (f2_seq RM dn_face dn_face nf pm_dn_face)) as (o1 & O1 & R1).
  destruct (outcome_sim RC _ _ _ O1 (mem0 (MV m) nf) (map dn_face (seq 0 nf)) start_rc (f2_seq RC dn_face dn_face nf pc_dn_face)) as (o2 & O2 & R2). exists o2. split; [exact O2|].
  destruct o as [s|u|u|]; cbn in R1 |- *; [|subst o1; exact R2|subst o1; exact R2|subst o1; exact R2]. destruct R1 as (s' & -> & ->). destruct R2 as (s2 & -> & R2). exists s2. split; [reflexivity|].
  unfold RM. symmetry. apply (face_fix (MV m) (move_mem (mem0 m nf)) (mem0 (MV m) nf) _ _ (move_wf c m W) start_ia (IA0 (MV m) nf) O1 O2 R2).
Qed.
Lemma two_move o : two_loops (mem0 m nf) nf dn_face (dn_filter w) o -> exists o', two_loops (mem0 (MV m) nf) nf dn_face (dn_filter w') o' /\ rrel RM o o'.
Proof.
  intros [s1 o' A B | o' A NO].
  - destruct (faces_move _ A) as (o1 & O1 & (s' & -> & ->)). destruct (outcome_sim RM _ _ _ B (move_mem s1) (map (dn_filter w') (seq 0 nf)) eq_refl (f2_seq RM _ _ nf (pm_dn_filter w w' Hw))) as (o2 & O2 & R2).
    exists o2. split; [apply (two_ok _ _ _ _ _ _ O1 O2)|exact R2].
  - destruct (faces_move _ A) as (o1 & O1 & R1). exists o1. split; [|exact R1]. apply two_fail; [exact O1|]. intros s1 ->. destruct o' as [s|u|u|]; cbn in R1; [apply (NO s eq_refl)|discriminate|discriminate|discriminate].
Qed.
Lemma out_move o o' : rrel RM o o' -> mesh_out o' = scaled_res c (mesh_out o).
Proof. destruct o as [s|u|u|]; cbn; [intros (s' & -> & ->); reflexivity|intros ->; reflexivity|intros ->; reflexivity|intros ->; reflexivity]. Qed.
Lemma dn_loops_move o : dn_loops w m o -> dn_loops w' (MV m) (scaled_res c o).
Proof.
  intros [s o' A B | o' A NO].
  - destruct (two_move _ A) as (o1 & O1 & (s' & -> & ->)). destruct (outcome_sim RM _ _ _ B (move_mem s) (map dn_update (seq 0 (length (m_verts m)))) eq_refl (f2_seq RM _ _ _ pm_dn_update)) as (o2 & O2 & R2).
    rewrite <- (out_move _ _ R2). apply (dn_ok w' (MV m) _ _ O1 O2).
  - destruct (two_move _ A) as (o1 & O1 & R1). rewrite <- (out_move _ _ R1). apply (dn_fail w' (MV m) _ O1). intros s ->. destruct o' as [s1|u|u|]; cbn in R1; [apply (NO s1 eq_refl)|discriminate|discriminate|discriminate].
Qed.
End Loops.
Section Steps.
Variables w w' : vecR -> vecR -> vecR -> vecR -> @num NumR -> @num NumR.
Hypothesis Hw : forall a b n n' e, w' (T a) (T b) n n' (times k2 e) = (c * w a b n n' e)%R.
Lemma dn_step_move m o : WF m -> dn_step w m o -> dn_step w' (MV m) (scaled_res c o).
Proof.
  intros W [m1 o' A B | o' A NO].
  - destruct (taubin_det nhalf (ndiv (nofZ 53) (nofZ 100)) 3 m W) as (r & _ & U & [(m2 & -> & P & _) | ->]); specialize (U _ A); [|discriminate]. injection U as ->.
    apply (dns_ok w' (MV m) (MV m2)); [apply (taubin_move c _ _ _ _ _ W A)|]. apply (dn_loops_move m2 (posonly_wf m m2 W P) w w' Hw o' B).
  - apply dns_fail; [apply (taubin_move c _ _ _ _ _ W A)|]. intros m1 E. destruct o' as [m2| | |]; try discriminate. apply (NO m2 eq_refl).
Qed.
Lemma dn_repeats_move n : forall it m o, WF m -> repeats (fun _ => dn_step w) it n m o -> repeats (fun _ => dn_step w') it n (MV m) (scaled_res c o).
Proof.
  induction n as [|n IH]; intros it m o W H; inversion H as [|? ? ? m1 ? A B|? ? ? ? A B]; subst.
  - apply rep_0.
  - apply rep_S with (MV m1); [apply (dn_step_move m (Ok m1) W A)|]. apply IH; [|exact B]. apply (posonly_wf m m1 W). destruct (dn_fair w it m W) as (_ & _ & P). apply P, A.
  - apply rep_fail; [apply dn_step_move; assumption|]. intros m1 E. destruct o as [m2| | |]; try discriminate. apply (B m2 eq_refl).
Qed.
End Steps.
Lemma kern_times (x s : R) : (c * @kern NumR (c * x)%R (c * s)%R)%R = @kern NumR x s.
Proof.
  unfold kern. cbv zeta. change (@nltb NumR) with Rltb. change (@nmul NumR) with Rmult. change (@ndiv NumR) with Rdiv. change (@nexp NumR) with exp. change (@nopp NumR) with Ropp. change (@nsub NumR) with Rminus. change (@nabs NumR) with Rabs.
  replace (@ntwo NumR * (c * s))%R with (c * (@ntwo NumR * s))%R by ring. replace (@nofZ NumR 4 * (c * s))%R with (c * (@nofZ NumR 4 * s))%R by ring. rewrite !(rltb_times c _ _ Hc).
  assert (E1 : (- (c * x) * (c * x) / (c * s * (c * s)))%R = (- x * x / (s * s))%R) by (unfold Rdiv; rewrite !Rinv_mult; generalize (/ s)%R; intros; field; lra).
  assert (E2 : (Rabs (c * x) / (c * s))%R = (Rabs x / s)%R) by (rewrite Rabs_mult, (Rabs_pos_eq c) by lra; unfold Rdiv; rewrite Rinv_mult; generalize (/ s)%R; intros; field; lra).
  rewrite E1, E2. set (q := nsqrt _). assert (E3 : forall k, (c * (@none_ NumR / (q * (c * s)) * k))%R = (@none_ NumR / (q * s) * k)%R) by (intros k; unfold Rdiv; rewrite !Rinv_mult; generalize (/ s)%R (/ q)%R; intros; field; lra).
  destruct (Rltb x _); [apply E3|]. destruct (Rltb x _); [|apply Rmult_0_r]. rewrite Rmult_assoc, E3, <- Rmult_assoc. reflexivity.
Qed.
Lemma gauss_move sigma n m o : WF m -> denoiseNormalGaussian sigma n m o -> denoiseNormalGaussian sigma n (MV m) (scaled_res c o).
Proof.
  intros W [avg o' E H]. apply (dng sigma n (MV m) (times c avg)).
  - rewrite (mv_meanEdge c Hc m), E. reflexivity.
  - eapply dn_repeats_move; [|exact W|exact H]. intros a b n1 n2 e. unfold wgt_gauss. rewrite grow_sub, (t_length c Hc). unfold times. rewrite <- (kern_times (vlength (vsub a b))). change (@nmul NumR) with Rmult. replace (sigma * (c * avg))%R with (c * (sigma * avg))%R by ring. change (@num NumR) with R. ring.
Qed.
Lemma bilateral_move sc sn n m o : WF m -> denoiseNormalBilateral sc sn n m o -> denoiseNormalBilateral sc sn n (MV m) (scaled_res c o).
Proof.
  intros W [avg o' E H]. apply (dnb sc sn n (MV m) (times c avg)).
  - rewrite (mv_meanEdge c Hc m), E. reflexivity.
  - eapply dn_repeats_move; [|exact W|exact H]. intros a b n1 n2 e. unfold wgt_bilateral. rewrite grow_sub, (t_length c Hc). unfold times. rewrite <- (kern_times (vlength (vsub a b))). change (@nmul NumR) with Rmult. replace (sc * (c * avg))%R with (c * (sc * avg))%R by ring. change (@num NumR) with R. ring.
Qed.
End Scale.
