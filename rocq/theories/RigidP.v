(** Parallel loops on moved meshes: the filters of normals, in every order. *)
From Coq Require Import Reals List ZArith Arith Bool Lra Lia FunctionalExtensionality.
From Verif Require Import Num NumInst Vec Heap Mesh Bounds Measure Spec Orbit Rings Prog ProgP SmoothSpec Smooth SmoothP SmoothD SmoothDn WholeSpec RigidSpec RigidM RigidE RigidF RigidS.
Import ListNotations.
Local Open Scope prog_scope.

(** ** Programs that keep two memories related *)
Section Sim.
Context {S0 : Type}.
Variable RS : S0 -> S0 -> Prop.
Definition rrel (o o' : res S0) : Prop := match o with Ok s => exists s', o' = Ok s' /\ RS s s' | UB u => o' = UB u | Abort u => o' = Abort u | NoFuel => o' = NoFuel end.
Definition cs {X} (h : X -> X) (c c' : S0 -> res (X * S0)) : Prop := forall s s', RS s s' ->
  match c s with Ok (x, s1) => exists s1', c' s' = Ok (h x, s1') /\ RS s1 s1' | UB u => c' s' = UB u | Abort u => c' s' = Abort u | NoFuel => c' s' = NoFuel end.
Fixpoint pm {A} (g : A -> A) (p p' : prog S0 A) : Prop :=
  match p with
  | PRet a => p' = PRet (g a)
  | PAct X c k => exists h c' k', p' = PAct X c' k' /\ cs h c c' /\ forall x, pm g (k x) (k' (h x))
  end.
Lemma pm_ret {A} (g : A -> A) a b : b = g a -> pm g (PRet a) (PRet b). Proof. intros ->. reflexivity. Qed.
Lemma pm_act {X} (h : X -> X) c c' : cs h c c' -> pm h (act c) (act c'). Proof. intros H. exists h, c', PRet. split; [reflexivity|]. split; [exact H|]. reflexivity. Qed.
Lemma pm_bind {A B} (h : A -> A) (g : B -> B) p : forall p' k k', pm h p p' -> (forall x, pm g (k x) (k' (h x))) -> pm g (pbind p k) (pbind p' k').
Proof.
  induction p as [a|X c k0 IH]; intros p' k k' H K.
  - cbn in H. subst p'. apply K.
  - destruct H as (hh & c' & k1 & -> & C & H). cbn [pbind]. exists hh, c', (fun x => pbind (k1 x) k'). split; [reflexivity|]. split; [exact C|]. intros x. apply IH; [apply H|exact K].
Qed.
Lemma f2_nth {A} (P : A -> A -> Prop) l l' i x : Forall2 P l l' -> nth_error l i = Some x -> exists y, nth_error l' i = Some y /\ P x y.
Proof. intros H. revert i. induction H as [|a b l l' Hab H IH]; intros [|i] E; try discriminate; cbn in *; [injection E as <-; eauto|apply IH, E]. Qed.
Lemma f2_nth' {A} (P : A -> A -> Prop) l l' i y : Forall2 P l l' -> nth_error l' i = Some y -> exists x, nth_error l i = Some x /\ P x y.
Proof. intros H. revert i. induction H as [|a b l l' Hab H IH]; intros [|i] E; try discriminate; cbn in *; [injection E as <-; eauto|apply IH, E]. Qed.
Lemma f2_set {A} (P : A -> A -> Prop) l l' i x y : Forall2 P l l' -> P x y -> Forall2 P (setnth l i x) (setnth l' i y).
Proof. intros H Hxy. revert i. induction H as [|a b l l' Hab H IH]; intros i; [destruct i; constructor|]. destruct i; cbn; constructor; auto. Qed.
Lemma outcome_sim s ts o : outcome s ts o -> forall s' ts', RS s s' -> Forall2 (pm (fun u : unit => u)) ts ts' -> exists o', outcome s' ts' o' /\ rrel o o'.
Proof.
  induction 1 as [s ts D|s ts i X c k x s1 o E C O IH|s ts i X c k u E C|s ts i X c k u E C|s ts i X c k E C]; intros s' ts' Rs F.
  - exists (Ok s'). split; [|exists s'; auto]. apply out_done. intros i p Hp. destruct (f2_nth' _ _ _ _ _ F Hp) as (q & Hq & Hpq). rewrite (D i q Hq) in Hpq. exact Hpq.
  - destruct (f2_nth _ _ _ _ _ F E) as (y & Ey & (h & c' & k' & -> & Hc & Hk)). specialize (Hc s s' Rs). rewrite C in Hc. destruct Hc as (s1' & E' & R1).
    destruct (IH s1' (setnth ts' i (k' (h x))) R1 (f2_set _ _ _ i _ _ F (Hk x))) as (o' & O' & Ro). exists o'. split; [|exact Ro]. apply (out_step s' ts' i X c' k' (h x) s1' o' Ey E' O').
  - destruct (f2_nth _ _ _ _ _ F E) as (y & Ey & (h & c' & k' & -> & Hc & Hk)). specialize (Hc s s' Rs). rewrite C in Hc. exists (UB u). split; [apply (out_ub s' ts' i X c' k' u Ey Hc)|reflexivity].
  - destruct (f2_nth _ _ _ _ _ F E) as (y & Ey & (h & c' & k' & -> & Hc & Hk)). specialize (Hc s s' Rs). rewrite C in Hc. exists (Abort u). split; [apply (out_abort s' ts' i X c' k' u Ey Hc)|reflexivity].
  - destruct (f2_nth _ _ _ _ _ F E) as (y & Ey & (h & c' & k' & -> & Hc & Hk)). specialize (Hc s s' Rs). rewrite C in Hc. exists NoFuel. split; [apply (out_nofuel s' ts' i X c' k' Ey Hc)|reflexivity].
Qed.
Lemma f2_seq (b b' : nat -> prog S0 unit) n : (forall i, pm (fun u => u) (b i) (b' i)) -> Forall2 (pm (fun u : unit => u)) (map b (seq 0 n)) (map b' (seq 0 n)).
Proof. intros H. generalize 0. induction n as [|n IH]; intros a; cbn; constructor; auto. Qed.
End Sim.

Lemma map_set {A B} (f : A -> B) : forall l i x, map f (setnth l i x) = setnth (map f l) i (f x).
Proof. induction l as [|a l IH]; intros [|i] x; cbn; try reflexivity. rewrite IH. reflexivity. Qed.

(** ** Moved memories *)
Section Rigid.
Variables (Q : vecR -> vecR) (t : vecR).
Hypothesis HQ : Rotation Q.
Notation T := (motion Q t).
Notation MV := (move Q t).
Notation mv := (mv Q t).
Definition move_mem (s : mem NumR) : mem NumR := mkMem (MV (l_mesh s)) (map T (l_cent s)) (map Q (l_norm s)) (map Q (l_new s)) (l_area s).
Definition RM (s s' : mem NumR) : Prop := s' = move_mem s.
Notation pmm := (pm RM).
Lemma pm_onm {A} (g : A -> A) x x' : mv g x x' -> pmm g (onm x) (onm x').
Proof. intros H. apply pm_act. intros s s' ->. unfold lift_mem. cbn [move_mem l_mesh]. rewrite H. destruct (x (l_mesh s)) as [[a m]| | |]; cbn; [|reflexivity|reflexivity|reflexivity]. eexists. split; reflexivity. Qed.
Lemma pm_get {X} (h : X -> X) (f : mem NumR -> list X) i : (forall s, f (move_mem s) = map h (f s)) -> pmm h (arr_get f i) (arr_get f i).
Proof. intros H. apply pm_act. intros s s' ->. rewrite H, nth_error_map. destruct (i <? 0)%Z; [reflexivity|]. destruct (nth_error (f s) (Z.to_nat i)); cbn; [|reflexivity]. eexists. split; reflexivity. Qed.
Lemma pm_set {X} (h : X -> X) (f : mem NumR -> list X) upd i x : (forall s, f (move_mem s) = map h (f s)) -> (forall l s, upd (map h l) (move_mem s) = move_mem (upd l s)) ->
  pmm (fun u => u) (arr_set f upd i x) (arr_set f upd i (h x)).
Proof. intros H U. apply pm_act. intros s s' ->. rewrite H, map_length. destruct (i <? length (f s)); [|reflexivity]. eexists. split; [reflexivity|]. unfold RM. rewrite <- U, map_set. reflexivity. Qed.
Lemma pm_pcirc {A} (g : A -> A) step body body' : (forall p, pmm same (step p) (step p)) -> (forall a p, pmm (on_fst g) (body a p) (body' (g a) p)) ->
  forall fuel start it acc, pmm g (pcirc step body fuel start it acc) (pcirc step body' fuel start it (g acc)).
Proof.
  intros Hs Hb. induction fuel as [|fuel IH]; intros start [it|] acc; cbn [pcirc]; try (apply pm_ret; reflexivity); [apply pm_onm, mv_nofuel|].
  eapply pm_bind; [apply Hb|]. intros [a b]. unfold on_fst. cbn [fst snd]. destruct b; [apply pm_ret; reflexivity|]. eapply pm_bind; [apply Hs|]. intros x. apply IH.
Qed.
Lemma pm_circ_f {A} (g : A -> A) f acc body body' : (forall a p, pmm (on_fst g) (body a p) (body' (g a) p)) -> pmm g (p_circ_f f acc body) (p_circ_f f (g acc) body').
Proof.
  intros H. unfold p_circ_f. eapply pm_bind; [apply pm_onm, (mv_fhe Q t)|]. intros h. eapply pm_bind; [apply pm_onm, (mv_get Q t same); reflexivity|]. intros fr. apply pm_pcirc; [|exact H]. intros p. apply pm_onm, mv_next.
Qed.
Lemma pm_circ_v {A} (g : A -> A) f acc body body' : (forall a p, pmm (on_fst g) (body a p) (body' (g a) p)) -> pmm g (p_circ_v f acc body) (p_circ_v f (g acc) body').
Proof.
  intros H. unfold p_circ_v. eapply pm_bind; [apply pm_onm, (mv_vhe Q t)|]. intros h. eapply pm_bind; [apply pm_onm, (mv_get Q t same); reflexivity|]. intros fr. apply pm_pcirc; [|exact H]. intros p. unfold p_step_v. eapply pm_bind; [apply pm_onm, mv_rev|]. intros r. apply pm_onm, mv_next.
Qed.
Ltac st l := eapply pm_bind; [apply pm_onm; l|intros ?].
Lemma third_move a b c (k : @num NumR) : k = 3%R -> @vdiv NumR (vadd (vadd (T a) (T b)) (T c)) k = option_map T (@vdiv NumR (vadd (vadd a b) c) k).
Proof.
  intros ->. rewrite <- (vdiv_acc Q t HQ). f_equal. rewrite !(rot_add Q HQ). unfold motion. apply vec_ext; cbn; ring.
Qed.
Lemma pm_dn_face i : pmm (fun u => u) (dn_face i) (dn_face i).
Proof.
  unfold dn_face. st ltac:(apply mv_mesh_face). eapply (pm_bind RM (map T)).
  - apply (pm_circ_f (map T) x []). intros a p. st ltac:(apply mv_src). st ltac:(apply mv_pos). apply pm_ret. unfold on_fst. cbn [fst snd]. rewrite map_app. reflexivity.
  - intros [|a [|b [|c [|d l]]]]; cbn [map]; try (apply pm_onm, mv_abort). cbv zeta. rg HQ. st ltac:(apply mv_lift).
    eapply pm_bind; [apply (pm_set Q); reflexivity|intros _]. rewrite third_move by reflexivity. st ltac:(apply mv_lift). eapply pm_bind; [apply (pm_set T); reflexivity|intros _].
    apply (pm_set (fun u => u)); [intros s; cbn; symmetry; apply map_id|intros l s; rewrite map_id; reflexivity].
Qed.
Section Weight.
Variable w : vecR -> vecR -> vecR -> vecR -> @num NumR -> @num NumR.
Hypothesis Hw : forall a b c d e, w (T a) (T b) (Q c) (Q d) e = w a b c d e.
Lemma get_area j : pmm (fun u => u) (arr_get l_area j) (arr_get l_area j). Proof. apply pm_get. intros s. symmetry. apply map_id. Qed.
Lemma pm_dn_filter i : pmm (fun u => u) (dn_filter w i) (dn_filter w i).
Proof.
  unfold dn_filter. st ltac:(apply mv_mesh_face). eapply (pm_bind RM Q).
  - rewrite <- (q_zero Q HQ) at 2. apply (pm_circ_f Q). intros a p. st ltac:(apply mv_rev). st ltac:(apply mv_face). st ltac:(apply mv_fidx).
    eapply pm_bind; [apply (pm_get T); reflexivity|intros ci]. eapply pm_bind; [apply (pm_get T); reflexivity|intros cj]. eapply pm_bind; [apply (pm_get Q); reflexivity|intros ni]. eapply pm_bind; [apply (pm_get Q); reflexivity|intros nj].
    eapply pm_bind; [apply get_area|intros aj]. apply pm_ret. unfold on_fst, same. cbn [fst snd]. rewrite Hw. rg HQ. reflexivity.
  - intros nv. cbv zeta. rewrite (q_length Q HQ). destruct (negb (neqb (vlength nv) nzero)); [|apply pm_ret; reflexivity]. rg HQ. st ltac:(apply mv_lift). apply (pm_set Q); reflexivity.
Qed.
End Weight.
Definition acc_q (x : @num NumR * vecR) : @num NumR * vecR := (fst x, Q (snd x)).
Lemma pm_dn_update i : pmm (fun u => u) (dn_update i) (dn_update i).
Proof.
  unfold dn_update. st ltac:(apply mv_mesh_vertex). eapply (pm_bind RM acc_q).
  - replace (@nzero NumR, @vzero NumR) with (acc_q (@nzero NumR, @vzero NumR)) at 2 by (unfold acc_q; cbn [fst snd]; rewrite (q_zero Q HQ); reflexivity). apply (pm_circ_v acc_q). intros a p. st ltac:(apply mv_face). st ltac:(apply mv_fidx).
    eapply pm_bind; [apply get_area|intros aj]. eapply pm_bind; [apply (pm_get Q); reflexivity|intros nj]. eapply pm_bind; [apply (pm_get T); reflexivity|intros cj]. st ltac:(apply mv_pos).
    apply pm_ret. unfold on_fst, acc_q, same. cbn [fst snd]. rg HQ. reflexivity.
  - intros r. unfold acc_q. cbn [fst snd]. rg HQ. st ltac:(apply mv_lift). st ltac:(apply mv_pos). rg HQ. apply pm_onm, mv_w_pos.
Qed.

(** ** The first loop does not read what it fills *)
Definition RC (s s' : mem NumR) : Prop := l_mesh s' = l_mesh s /\ length (l_cent s') = length (l_cent s) /\ l_norm s' = l_norm s /\ l_new s' = l_new s /\ l_area s' = l_area s.
Notation pmc := (pm RC (fun u => u)).
Lemma pc_onm {A} (x : M NumR A) : pmc (onm x) (onm x).
Proof. apply pm_act. intros s s' (E1 & E2 & E3 & E4 & E5). unfold lift_mem. rewrite E1. destruct (x (l_mesh s)) as [[a m]| | |]; [|reflexivity|reflexivity|reflexivity]. eexists. split; [reflexivity|]. repeat split; cbn; assumption. Qed.
Lemma pc_pcirc {A} step (body : A -> ptr -> prog (mem NumR) (A * bool)) : (forall p, pmc (step p) (step p)) -> (forall a p, pmc (body a p) (body a p)) ->
  forall fuel start it acc, pmc (pcirc step body fuel start it acc) (pcirc step body fuel start it acc).
Proof.
  intros Hs Hb. induction fuel as [|fuel IH]; intros start [it|] acc; cbn [pcirc]; try (apply pm_ret; reflexivity); [apply pc_onm|].
  eapply pm_bind; [apply Hb|]. intros [a b]. cbn [fst snd]. destruct b; [apply pm_ret; reflexivity|]. eapply pm_bind; [apply Hs|]. intros x. apply IH.
Qed.
Lemma set_len {A} : forall (l : list A) i x, length (setnth l i x) = length l.
Proof. induction l as [|a l IH]; intros [|i] x; cbn; try reflexivity. rewrite IH. reflexivity. Qed.
Lemma pc_dn_face i : pmc (dn_face i) (dn_face i).
Proof.
  unfold dn_face. eapply pm_bind; [apply pc_onm|intros f]. eapply (pm_bind RC (fun u => u)).
  - unfold p_circ_f. eapply pm_bind; [apply pc_onm|intros h]. eapply pm_bind; [apply pc_onm|intros fr]. apply pc_pcirc; [intros p; apply pc_onm|]. intros a p. eapply pm_bind; [apply pc_onm|intros s]. eapply pm_bind; [apply pc_onm|intros q]. apply pm_ret. reflexivity.
  - intros [|a [|b [|c [|d l]]]]; try (exact (pc_onm (abort AError))). cbv zeta. eapply pm_bind; [apply pc_onm|intros n]. 
    eapply pm_bind; [apply (pm_act RC (fun u => u)); intros s s' (E1 & E2 & E3 & E4 & E5); rewrite E3; destruct (i <? length (l_norm s)); [|reflexivity]; eexists; split; [reflexivity|]; repeat split; cbn; assumption|intros _].
    eapply pm_bind; [apply pc_onm|intros n2].
    eapply pm_bind; [apply (pm_act RC (fun u => u)); intros s s' (E1 & E2 & E3 & E4 & E5); rewrite E2; destruct (i <? length (l_cent s)); [|reflexivity]; eexists; split; [reflexivity|]; repeat split; cbn; rewrite ?set_len; assumption|intros _].
    apply (pm_act RC (fun u => u)); intros s s' (E1 & E2 & E3 & E4 & E5); rewrite E5; destruct (i <? length (l_area s)); [|reflexivity]; eexists; split; [reflexivity|]; repeat split; cbn; assumption.
Qed.

Lemma face_cent (m : mesh NumR) s i f si : WF m -> l_mesh s = m -> nth_error (m_faces m) i = Some f -> i < length (l_cent s) -> i < length (l_norm s) -> i < length (l_area s) -> solo (dn_face i) s = Ok (tt, si) ->
  nth_error (l_cent si) i = match f_positions (Some f) m with Ok ([a; b; c], _) => vdiv (vadd (vadd a b) c) (nofZ 3) | _ => None end.
Proof.
  intros W Em E L1 L2 L3. assert (If := nth_error_In _ _ E). destruct (fring m W f If) as (h & l & Eh & Hr).
  unfold dn_face. rewrite solo_bind, (mface_at m s i f Em E), solo_bind.
  rewrite (pcirc_f_ok m W s f h l _ (fun acc y => (acc ++ [pos_at m (h_src m y)], false)) _ Em If Eh Hr).
  2:{ intros y a Iy _. destruct (wf_src m W y Iy) as (v & Ev & Iv). rewrite solo_bind, (solo_at m _ s _ Em (r_src m y (h_alive m W y Iy))), Ev, solo_bind, (solo_at m _ s _ Em (r_pos m v (v_alive m W v Iv))). reflexivity. }
  rewrite (bfold_collect (fun y => pos_at m (h_src m y))). cbn [app]. unfold f_positions.
  rewrite (circ_f_ok m W f h l _ (fun acc y => (acc ++ [pos_at m (h_src m y)], false)) _ If Eh Hr).
  2:{ intros y a Iy _. destruct (wf_src m W y Iy) as (v & Ev & Iv). unfold bind. rewrite (r_src m y (h_alive m W y Iy)), Ev, (r_pos m v (v_alive m W v Iv)). reflexivity. }
  rewrite (bfold_collect (fun y => pos_at m (h_src m y))). cbn [app].
  destruct (map (fun y => pos_at m (h_src m y)) (h :: l)) as [|v0 [|v1 [|v2 [|v4 r]]]]; try (rewrite solo_onm; unfold lift_mem; cbn; discriminate).
  cbv zeta. rewrite solo_bind, solo_onm. unfold lift_mem. destruct (normalize _) as [nn|]; cbn [lift ret abort]; [|discriminate]. rewrite solo_bind, arr_set_at by exact L2. rewrite solo_bind, solo_onm. unfold lift_mem. 
  destruct (vdiv _ _) as [c|] eqn:Ec; cbn [lift ret abort]; [|discriminate]. rewrite solo_bind, arr_set_at by exact L1. rewrite arr_set_at by exact L3. intros [= <-]. cbn [l_cent set_area set_cent set_norm]. rewrite set_lt by exact L1. rewrite Nat.eqb_refl. reflexivity.
Qed.
Lemma face_fix (m : mesh NumR) s1 s2 a b : WF m -> IA m (length (m_faces m)) s1 -> IA m (length (m_faces m)) s2 -> outcome s1 (map dn_face (seq 0 (length (m_faces m)))) (Ok a) -> outcome s2 (map dn_face (seq 0 (length (m_faces m)))) (Ok b) ->
  RC a b -> a = b.
Proof.
  intros W I1 I2 O1 O2 Rab. assert (Lc : forall s, IA m (length (m_faces m)) s -> all_local (IA m (length (m_faces m))) RA (map (@dn_face NumR) (seq 0 (length (m_faces m))))) by (intros s _ i p Hp; apply nth_map_seq in Hp as [_ ->]; apply loc_dn_face).
  apply (outcomes (IA m (length (m_faces m))) RA RAr RAs RAt) in O1; [|exact I1|apply (Lc s1 I1)]. apply (outcomes (IA m (length (m_faces m))) RA RAr RAs RAt) in O2; [|exact I2|apply (Lc s2 I2)]. destruct O1 as [Ia A], O2 as [Ib B]. destruct Rab as (E1 & E2 & E3 & E4 & E5).
  assert (Ec : l_cent a = l_cent b).
  { apply list_ext; [congruence|]. intros i Li. destruct Ia as (_ & La & _). rewrite La in Li.
    destruct (A i (dn_face i) (nth_seq_map _ _ i Li)) as (x & Ex & Rx). destruct (B i (dn_face i) (nth_seq_map _ _ i Li)) as (y & Ey & Ry). destruct Rx as (Rx & _), Ry as (Ry & _).
    destruct (nth_error (m_faces m) i) as [f|] eqn:Ef; [|apply nth_error_None in Ef; lia].
    destruct I1 as (M1 & C1 & N1 & _ & A1), I2 as (M2 & C2 & N2 & _ & A2). rewrite <- Rx, <- Ry.
    rewrite (face_cent m s1 i f x W M1 Ef) by (lia || assumption). rewrite (face_cent m s2 i f y W M2 Ef) by (lia || assumption). reflexivity. }
  destruct a, b. cbn in *. congruence.
Qed.
Lemma map_repeat {A B} (f : A -> B) x n : map f (repeat x n) = repeat (f x) n. Proof. induction n as [|n IH]; cbn; congruence. Qed.
Section Loops.
Variable m : mesh NumR.
Hypothesis W : WF m.
Variable w : vecR -> vecR -> vecR -> vecR -> @num NumR -> @num NumR.
Hypothesis Hw : forall a b c d e, w (T a) (T b) (Q c) (Q d) e = w a b c d e.
Notation nf := (length (m_faces m)).
Lemma start_rc : RC (move_mem (mem0 m nf)) (mem0 (MV m) nf).
Proof. unfold RC, move_mem, mem0. cbn. rewrite !map_repeat, !repeat_length, (q_zero Q HQ). auto. Qed.
Lemma start_ia : IA (MV m) nf (move_mem (mem0 m nf)).
Proof. unfold IA, move_mem, mem0. cbn. rewrite !map_length, !repeat_length. auto. Qed.
Lemma faces_move o : outcome (mem0 m nf) (map dn_face (seq 0 nf)) o -> exists o', outcome (mem0 (MV m) nf) (map dn_face (seq 0 nf)) o' /\ rrel RM o o'.
Proof.
  intros O. destruct (outcome_sim RM _ _ _ O (move_mem (mem0 m nf)) (map dn_face (seq 0 nf)) eq_refl (f2_seq RM dn_face dn_face nf pm_dn_face)) as (o1 & O1 & R1).
  destruct (outcome_sim RC _ _ _ O1 (mem0 (MV m) nf) (map dn_face (seq 0 nf)) start_rc (f2_seq RC dn_face dn_face nf pc_dn_face)) as (o2 & O2 & R2). exists o2. split; [exact O2|].
  destruct o as [s|u|u|]; cbn in R1 |- *; [|subst o1; exact R2|subst o1; exact R2|subst o1; exact R2]. destruct R1 as (s' & -> & ->). destruct R2 as (s2 & -> & R2). exists s2. split; [reflexivity|].
  unfold RM. symmetry. apply (face_fix (MV m) (move_mem (mem0 m nf)) (mem0 (MV m) nf) _ _ (move_wf Q t m W) start_ia (IA0 (MV m) nf) O1 O2 R2).
Qed.
Lemma two_move o : two_loops (mem0 m nf) nf dn_face (dn_filter w) o -> exists o', two_loops (mem0 (MV m) nf) nf dn_face (dn_filter w) o' /\ rrel RM o o'.
Proof.
  intros [s1 o' A B | o' A NO].
  - destruct (faces_move _ A) as (o1 & O1 & (s' & -> & ->)). destruct (outcome_sim RM _ _ _ B (move_mem s1) (map (dn_filter w) (seq 0 nf)) eq_refl (f2_seq RM _ _ nf (pm_dn_filter w Hw))) as (o2 & O2 & R2).
    exists o2. split; [apply (two_ok _ _ _ _ _ _ O1 O2)|exact R2].
  - destruct (faces_move _ A) as (o1 & O1 & R1). exists o1. split; [|exact R1]. apply two_fail; [exact O1|]. intros s1 ->. destruct o' as [s|u|u|]; cbn in R1; [apply (NO s eq_refl)|discriminate|discriminate|discriminate].
Qed.
Lemma out_move o o' : rrel RM o o' -> mesh_out o' = move_res Q t (mesh_out o).
Proof. destruct o as [s|u|u|]; cbn; [intros (s' & -> & ->); reflexivity|intros ->; reflexivity|intros ->; reflexivity|intros ->; reflexivity]. Qed.
Lemma dn_loops_move o : dn_loops w m o -> dn_loops w (MV m) (move_res Q t o).
Proof.
  intros [s o' A B | o' A NO].
  - destruct (two_move _ A) as (o1 & O1 & (s' & -> & ->)). destruct (outcome_sim RM _ _ _ B (move_mem s) (map dn_update (seq 0 (length (m_verts m)))) eq_refl (f2_seq RM _ _ _ pm_dn_update)) as (o2 & O2 & R2).
    rewrite <- (out_move _ _ R2). apply (dn_ok w (MV m) _ _ O1 O2).
  - destruct (two_move _ A) as (o1 & O1 & R1). rewrite <- (out_move _ _ R1). apply (dn_fail w (MV m) _ O1). intros s ->. destruct o' as [s1|u|u|]; cbn in R1; [apply (NO s1 eq_refl)|discriminate|discriminate|discriminate].
Qed.
End Loops.
Lemma dn_step_move w : (forall a b c d e, w (T a) (T b) (Q c) (Q d) e = w a b c d e) -> mv_step Q t (fun _ => dn_step w).
Proof.
  intros Hw it m o W [m1 o' A B | o' A NO].
  - destruct (taubin_det nhalf (ndiv (nofZ 53) (nofZ 100)) 3 m W) as (r & _ & U & [(m2 & -> & P & _) | ->]); specialize (U _ A); [|discriminate]. injection U as ->.
    apply (dns_ok w (MV m) (MV m2)); [apply (taubin_move Q t HQ _ _ _ _ _ W A)|]. apply (dn_loops_move m2 (posonly_wf m m2 W P) w Hw o' B).
  - apply dns_fail; [apply (taubin_move Q t HQ _ _ _ _ _ W A)|]. intros m1 E. destruct o' as [m2| | |]; try discriminate. apply (NO m2 eq_refl).
Qed.
Lemma dn_repeats_move w n m o : (forall a b c d e, w (T a) (T b) (Q c) (Q d) e = w a b c d e) -> WF m -> repeats (fun _ => dn_step w) 0 n m o -> repeats (fun _ => dn_step w) 0 n (MV m) (move_res Q t o).
Proof.
  intros Hw W. apply repeats_move; [apply dn_step_move, Hw| |exact W]. intros it m1 m2 W1 H. apply (posonly_wf m1 m2 W1). destruct (dn_fair w it m1 W1) as (_ & _ & P). apply P, H.
Qed.
Lemma gauss_move sigma n m o : WF m -> denoiseNormalGaussian sigma n m o -> denoiseNormalGaussian sigma n (MV m) (move_res Q t o).
Proof.
  intros W [avg o' E H]. apply (dng sigma n (MV m) avg).
  - rewrite (mv_meanEdge Q t HQ m), E. reflexivity.
  - apply dn_repeats_move; [|exact W|exact H]. intros. unfold wgt_gauss. rg HQ. reflexivity.
Qed.
Lemma bilateral_move sc sn n m o : WF m -> denoiseNormalBilateral sc sn n m o -> denoiseNormalBilateral sc sn n (MV m) (move_res Q t o).
Proof.
  intros W [avg o' E H]. apply (dnb sc sn n (MV m) avg).
  - rewrite (mv_meanEdge Q t HQ m), E. reflexivity.
  - apply dn_repeats_move; [|exact W|exact H]. intros. unfold wgt_bilateral. rg HQ. reflexivity.
Qed.
End Rigid.
