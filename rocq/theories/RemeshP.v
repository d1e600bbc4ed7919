(** remeshTriangular keeps the mesh valid and the locked vertices in place. *)
From Coq Require Import List ZArith Arith Bool Lia Permutation.
From Verif Require Import Num Vec Heap Mesh Spec EditSpec Orbit Rings Exec Queries Edits Seqs Prog SmoothSpec Smooth SmoothP SmoothD SmoothEx RemeshSpec Simplify Remesh Wp SimplifyP SimplifyT.
Import ListNotations.

Section P.
Context {N : Num}.
Implicit Types m : mesh N.
Variable ab : abkind -> Prop.
Notation wp := (wp ab).
Hypothesis Hnan : forall m, ~ PosOk m -> ab AAssert.
Hypothesis Htau : forall m, WF m -> taubin_default m (Abort AThrow) -> ab AThrow.
Hypothesis Hfin : forall m, WF m -> forallb (fun v => vfinite (v_pos m v)) (m_verts m) = false -> ab AAssert.

Lemma rm_refl m : Valid m -> Remeshed m m.
Proof. intros V. constructor; [exact V|reflexivity|auto|]. intros v Iv L. auto. Qed.
Lemma rm_trans m1 m2 m3 : Remeshed m1 m2 -> Remeshed m2 m3 -> Remeshed m1 m3.
Proof.
  intros [V2 E2 F2 L2] [V3 E3 F3 L3]. constructor; [exact V3|congruence|auto|]. intros v Iv L. destruct (L2 v Iv L) as (I2 & K2 & P2). destruct (L3 v I2 K2) as (I3 & K3 & P3). split; [exact I3|split; [exact K3|congruence]].
Qed.

(** A loop over a list keeps an invariant. *)
Lemma wp_mfold_inv {A} (f : A -> M N unit) (Inv : mesh N -> Prop) l : (forall x m, In x l -> Inv m -> wp (f x) m (fun _ => Inv)) ->
  forall m, Inv m -> wp (mfold (fun _ x => f x) tt l) m (fun _ => Inv).
Proof.
  induction l as [|x l IH]; intros H m Im; cbn [mfold]; [apply wp_ret, Im|]. apply wp_bind. eapply wp_conseq; [apply H; [left; reflexivity|exact Im]|].
  intros [] m' Im'. apply IH; [|exact Im']. intros y m2 Hy. apply H. right; exact Hy.
Qed.
Lemma wp_verify m (Q : bool -> mesh N -> Prop) : WF m -> Q (forallb (fun v => vfinite (v_pos m v)) (m_verts m)) m -> wp verify m Q.
Proof. intros W H. eapply wp_ok; [exact (verify_wf m W)|exact H]. Qed.

(** ** Splitting *)
Lemma split_long_ok limit i m0 m : Remeshed m0 m -> wp (split_long limit i) m (fun _ => Remeshed m0).
Proof.
  intros RM. assert (V := rm_valid _ _ RM). assert (W := valid_wf m V). unfold split_long. apply wp_bind, wp_get. destruct (Nat.ltb_spec i (length (m_hes m))); [|apply wp_ret, RM].
  destruct (nth_error (m_hes m) i) as [h|] eqn:E; [|apply nth_error_None in E; lia]. assert (I := nth_error_In _ _ E).
  apply wp_bind, (wp_mesh_halfedge ab m i h); [exact E|]. apply wp_bind, (wp_src ab m W h); [exact I|]. intros s Es Is. apply wp_bind, (wp_pos ab m W s); [exact Is|].
  apply wp_bind, (wp_dst ab m W h); [exact I|]. intros d Ed Id. apply wp_bind, (wp_pos ab m W d); [exact Id|]. apply wp_if; intros _; [|apply wp_ret, RM].
  destruct (split_top m h V I) as (b & m' & rev & s' & d' & R & _ & _ & X & V' & _ & Hf & Ht).
  apply wp_bind. eapply wp_ok; [exact X|]. apply wp_ret. apply (rm_trans _ m); [exact RM|]. destruct b.
  - destruct (Ht eq_refl) as (u0 & u1 & u2 & u3 & f0 & f1 & vn & g0 & g1 & S). constructor; [exact V'|exact (split_euler _ _ _ _ _ _ _ _ _ _ _ _ S)|intros F; exact (split_flags_top m h true m' V F I X)|].
    intros v Iv L. destruct (se_data _ _ _ _ _ _ _ _ _ _ _ _ S v Iv) as [P K]. split; [rewrite (se_verts _ _ _ _ _ _ _ _ _ _ _ _ S); apply in_app_iff; left; exact Iv|]. split; [congruence|exact P].
  - rewrite (Hf eq_refl). apply rm_refl, V.
Qed.
Lemma split_pass_ok limit p m0 m : Remeshed m0 m -> wp (split_pass limit p) m (fun _ => Remeshed m0).
Proof.
  intros RM. unfold split_pass. apply wp_bind. eapply wp_conseq; [apply (wp_mfold_inv _ (Remeshed m0)); [|exact RM]|].
  - intros i m1 _ RM1. apply split_long_ok, RM1.
  - intros [] m1 RM1. apply wp_bind, wp_verify; [apply (valid_wf _ (rm_valid _ _ RM1))|]. apply wp_ret, RM1.
Qed.

(** ** Collapsing *)
Lemma no_long_ok m a limit vs : WF m -> In a (m_verts m) -> (forall v, In v vs -> In v (m_verts m)) -> wp (no_long (Some a) limit (map Some vs)) m (fun _ m' => m' = m).
Proof.
  intros W Ia. induction vs as [|v vs IH]; intros H; cbn [map no_long]; [apply wp_ret; reflexivity|].
  apply wp_bind, (wp_pos ab m W a); [exact Ia|]. apply wp_bind, (wp_pos ab m W v); [apply H; left; reflexivity|]. apply wp_if; intros _; [apply wp_ret; reflexivity|].
  apply IH. intros w Hw. apply H. right; exact Hw.
Qed.
Lemma collapse_short_ok short long i m0 m : Remeshed m0 m -> wp (collapse_short short long i) m (fun _ => Remeshed m0).
Proof.
  intros RM. assert (V := rm_valid _ _ RM). assert (W := valid_wf m V). unfold collapse_short. apply wp_bind, wp_get. destruct (Nat.ltb_spec i (length (m_hes m))); [|apply wp_ret, RM].
  destruct (nth_error (m_hes m) i) as [h|] eqn:E; [|apply nth_error_None in E; lia]. assert (I := nth_error_In _ _ E).
  apply wp_bind, (wp_mesh_halfedge ab m i h); [exact E|]. apply wp_bind, (wp_face ab m W h); [exact I|]. intros f Ef If. apply wp_bind, (wp_f_isLocked ab m W f); [exact If|]. intros lf. apply wp_if; intros _; [apply wp_ret, RM|].
  apply wp_bind, (wp_rev ab m W h); [exact I|]. intros r R Ir. apply wp_bind, (wp_face ab m W r); [exact Ir|]. intros g Eg Ig. apply wp_bind, (wp_f_isLocked ab m W g); [exact Ig|]. intros lg. apply wp_if; intros _; [apply wp_ret, RM|].
  apply wp_bind, (wp_src ab m W h); [exact I|]. intros s Es Is. apply wp_bind, (wp_lock ab m W s); [exact Is|]. apply wp_if; intros Ls; [apply wp_ret, RM|].
  apply wp_bind, (wp_dst ab m W h); [exact I|]. intros d Ed Id. apply wp_bind, (wp_lock ab m W d); [exact Id|]. apply wp_if; intros Ld; [apply wp_ret, RM|].
  apply wp_bind, (wp_pos ab m W s); [exact Is|]. apply wp_bind, (wp_pos ab m W d); [exact Id|]. apply wp_if; intros _; [|apply wp_ret, RM].
  apply wp_bind, (wp_v_neighbors ab m W d); [exact Id|]. intros ns Hn. apply wp_bind. eapply wp_conseq; [apply (no_long_ok m s long ns W Is Hn)|]. intros ok m1 ->.
  apply wp_if; intros _; [|apply wp_ret, RM]. apply wp_bind. unfold Wp.wp at 1.
  destruct (collapse_top m h V I) as [[C NP] | (b & m2 & C & V2 & Cf & Ct)]; rewrite C; [exact (Hnan m NP)|]. apply wp_ret. apply (rm_trans _ m); [exact RM|]. destruct b.
  - destruct (Ct eq_refl) as (u0 & u1 & u2 & u3 & f0 & f1 & X & _). constructor; [exact V2|exact (collapse_euler _ _ _ _ _ _ _ _ _ X)|intros F; exact (collapse_flags_top m h true m2 V F I C)|].
    intros v Iv L. destruct (ce_data _ _ _ _ _ _ _ _ _ X v) as [P K]. split; [|split; [congruence|exact P]]. apply (ce_verts _ _ _ _ _ _ _ _ _ X). split; [exact Iv|]. intros ->.
    destruct (ce_edge _ _ _ _ _ _ _ _ _ X) as ([[S1 D1] | [S1 D1]] & _); [assert (u2 = d) by congruence|assert (u2 = s) by congruence]; congruence.
  - rewrite (Cf eq_refl). apply rm_refl, V.
Qed.
Lemma collapse_pass_ok short long p m0 m : Remeshed m0 m -> wp (collapse_pass short long p) m (fun _ => Remeshed m0).
Proof.
  intros RM. unfold collapse_pass. apply (wp_mfold_inv _ (Remeshed m0)); [|exact RM]. intros i m1 _ RM1. apply collapse_short_ok, RM1.
Qed.

(** ** Flipping *)
Lemma ev_rm m m' : Valid m -> Evolves m m' -> m_verts m' = m_verts m -> (forall v, SameData m m' v) -> Remeshed m m'.
Proof.
  intros V [V' E B] L D. constructor; [exact V'|exact E|intros F; apply (B F)|]. intros v Iv K. destruct (D v) as [P Q]. rewrite L. split; [exact Iv|split; [congruence|exact P]].
Qed.
Lemma remesh_flip_ok i m : Valid m -> i < length (m_hes m) -> wp (remesh_flip i) m (fun _ m' => Remeshed m m' /\ length (m_hes m') = length (m_hes m)).
Proof.
  intros V L. assert (W := valid_wf m V). destruct (nth_error (m_hes m) i) as [h|] eqn:E; [|apply nth_error_None in E; lia]. assert (I := nth_error_In _ _ E).
  assert (NS : Remeshed m m /\ length (m_hes m) = length (m_hes m)) by (split; [apply rm_refl, V|reflexivity]).
  unfold remesh_flip. apply wp_bind, (wp_mesh_halfedge ab m i h); [exact E|].
  apply wp_bind, (wp_face ab m W h); [exact I|]. intros f Ef If. apply wp_bind, (wp_f_isBoundary ab m W f); [exact If|]. intros b1 H1. apply wp_if; intros B1; [apply wp_ret, NS|].
  apply wp_bind, (wp_rev ab m W h); [exact I|]. intros r R Ir.
  apply wp_bind, (wp_face ab m W r); [exact Ir|]. intros g Eg Ig. apply wp_bind, (wp_f_isBoundary ab m W g); [exact Ig|]. intros b2 H2. apply wp_if; intros B2; [apply wp_ret, NS|].
  apply wp_bind, (wp_f_isLocked ab m W f); [exact If|]. intros lf. apply wp_if; intros _; [apply wp_ret, NS|].
  apply wp_bind, (wp_f_isLocked ab m W g); [exact Ig|]. intros lg. apply wp_if; intros _; [apply wp_ret, NS|].
  apply wp_bind, (wp_src ab m W h); [exact I|]. intros v0 _ I0. apply wp_bind, (wp_dst ab m W h); [exact I|]. intros v1 _ I1.
  apply wp_bind, (wp_next ab m W h); [exact I|]. intros n _ In'. apply wp_bind, (wp_dst ab m W n); [exact In'|]. intros v2 _ I2.
  apply wp_bind, (wp_next ab m W r); [exact Ir|]. intros q _ Iq. apply wp_bind, (wp_dst ab m W q); [exact Iq|]. intros v3 _ I3.
  apply wp_bind, (wp_lock ab m W v0); [exact I0|]. apply wp_if; intros _; [apply wp_ret, NS|]. apply wp_bind, (wp_lock ab m W v1); [exact I1|]. apply wp_if; intros _; [apply wp_ret, NS|].
  apply wp_bind, (wp_degree ab m W v0); [exact I0|]. apply wp_bind, (wp_degree ab m W v1); [exact I1|]. apply wp_bind, (wp_degree ab m W v2); [exact I2|]. apply wp_bind, (wp_degree ab m W v3); [exact I3|].
  apply wp_bind, (wp_v_isBoundary ab m W v0); [exact I0|]. intros c0 _. apply wp_bind, (wp_v_isBoundary ab m W v1); [exact I1|]. intros c1 _.
  apply wp_bind, (wp_v_isBoundary ab m W v2); [exact I2|]. intros c2 _. apply wp_bind, (wp_v_isBoundary ab m W v3); [exact I3|]. intros c3 _.
  apply wp_if; intros _; [|apply wp_ret, NS].
  destruct (flip_evolves m h r V I R) as (b & m' & X & EV & NF & NH & NV & D).
  { intros y Iy Fy. apply not_true_is_false. intros C. destruct Fy as [Fy | Fy].
    - assert (b1 = true) by (apply H1; exists y; rewrite Fy; auto). congruence.
    - assert (b2 = true) by (apply H2; exists y; rewrite Fy; auto). congruence. }
  apply wp_bind. eapply wp_ok; [exact X|]. apply wp_ret. split; [exact (ev_rm m m' V EV NV D)|exact NH].
Qed.
Lemma remesh_flips_ok m : Valid m -> wp (he_loop remesh_flip (length (m_hes m)) 0) m (fun _ => Remeshed m).
Proof.
  intros V. apply (he_loop_ok ab (Remeshed m) remesh_flip); [|apply rm_refl, V|lia].
  intros i m1 RM L. eapply wp_conseq; [apply (remesh_flip_ok i m1 (rm_valid _ _ RM) L)|]. intros _ m2 (RM2 & NH2). split; [exact (rm_trans _ _ _ RM RM2)|exact NH2].
Qed.

(** ** One iteration, and all of them *)
Lemma tau_rm m r : Valid m -> taubin_default m r -> bad ab r \/ exists m', r = Ok m' /\ Remeshed m m'.
Proof.
  intros V H. assert (W := valid_wf m V). destruct (smoothing_ok m 3 r W) as [K | K]; [right; do 2 eexists; exact H| |]; [destruct K as (m' & -> & P & K)|subst r].
  - right. exists m'. split; [reflexivity|]. constructor; [exact (posonly_valid m m' V P)|destruct P as [_ ->]; reflexivity|destruct P as [_ ->]; auto|].
    intros v Iv L. split; [destruct P as [_ ->]; exact Iv|]. split; [rewrite (posonly_lock m m' v P); exact L|apply K; left; exact L].
  - left. exists AThrow. split; [reflexivity|exact (Htau m W H)].
Qed.
Lemma remesh_step_ok short long m o : remesh_step short long m o -> Valid m -> bad ab o \/ exists m', o = Ok m' /\ Remeshed m m'.
Proof.
  intros H V. assert (R0 := rm_refl m V). destruct H as [p o _ H|p m1 q o _ H _ H1|p m1 q m2 o _ H _ H1 H2|p m1 q m2 m3 o _ H _ H1 H2 H3].
  - left. exact (wp_failed ab _ _ _ _ (split_pass_ok long p m m R0) H).
  - assert (R1 := wp_inv ab _ _ _ _ _ (split_pass_ok long p m m R0) H). left. exact (wp_failed ab _ _ _ _ (collapse_pass_ok short long q m m1 R1) H1).
  - assert (R1 := wp_inv ab _ _ _ _ _ (split_pass_ok long p m m R0) H). assert (R2 := wp_inv ab _ _ _ _ _ (collapse_pass_ok short long q m m1 R1) H1).
    left. exact (wp_failed ab _ _ _ _ (remesh_flips_ok m2 (rm_valid _ _ R2)) H2).
  - assert (R1 := wp_inv ab _ _ _ _ _ (split_pass_ok long p m m R0) H). assert (R2 := wp_inv ab _ _ _ _ _ (collapse_pass_ok short long q m m1 R1) H1).
    assert (R3 := wp_inv ab _ _ _ _ _ (remesh_flips_ok m2 (rm_valid _ _ R2)) H2).
    destruct (tau_rm m3 o (rm_valid _ _ R3) H3) as [B | (m4 & -> & R4)]; [left; exact B|right]. exists m4. split; [reflexivity|]. exact (rm_trans _ _ _ (rm_trans _ _ _ R2 R3) R4).
Qed.
Lemma remesh_loop_ok short long : forall n it m o, repeats (fun _ => remesh_step short long) it n m o -> Valid m -> bad ab o \/ exists m', o = Ok m' /\ Remeshed m m'.
Proof.
  induction n as [|n IH]; intros it m o H V; inversion H as [? ?|? ? ? m1 ? H1 H2|? ? ? ? H1 H2]; subst.
  - right. exists m. split; [reflexivity|apply rm_refl, V].
  - destruct (remesh_step_ok _ _ _ _ H1 V) as [(? & ? & _) | (m2 & [= <-] & R1)]; [discriminate|]. destruct (IH _ _ _ H2 (rm_valid _ _ R1)) as [B | (m2 & -> & R2)]; [left; exact B|right].
    exists m2. split; [reflexivity|exact (rm_trans _ _ _ R1 R2)].
  - destruct (remesh_step_ok _ _ _ _ H1 V) as [B | (m2 & -> & R1)]; [left; exact B|]. exfalso. apply (H2 m2 eq_refl).
Qed.

(** ** Feature vertices *)
(** [m'] is [m] with more locks. *)
Record lockonly m m' : Prop := {
  lo_eq : m' = mkMesh (m_verts m) (m_hes m) (m_faces m) (m_indices m) (m_fresh m) (v_live m) (v_pos m) (v_he m) (v_idx m) (v_lock m')
            (h_live m) (h_src m) (h_next m) (h_rev m) (h_face m) (h_idx m) (h_bd m) (f_live m) (f_he m) (f_idx m);
  lo_more : forall v, v_lock m v = true -> v_lock m' v = true }.
Lemma lo_refl m : lockonly m m.
Proof. constructor; [destruct m; reflexivity|auto]. Qed.
Lemma lo_trans m1 m2 m3 : lockonly m1 m2 -> lockonly m2 m3 -> lockonly m1 m3.
Proof. intros [E1 H1] [E2 H2]. constructor; [rewrite E2 at 1; rewrite E1; reflexivity|auto]. Qed.
Lemma lo_set m v : lockonly m (set_v_lock v true m).
Proof. constructor; [reflexivity|]. intros w H. cbn. unfold fupd. destruct (Nat.eqb w v); [reflexivity|exact H]. Qed.
Lemma lo_wf m m' : lockonly m m' -> WF m -> WF m'.
Proof. intros [-> _] W. destruct W. constructor; assumption. Qed.
Lemma lo_rm m m' : lockonly m m' -> Valid m -> Remeshed m m'.
Proof.
  intros H V. assert (W := lo_wf m m' H (valid_wf m V)). destruct H as [E M]. constructor.
  - constructor; [exact W| | |]; rewrite E; [exact (valid_noloops m V)|exact (valid_noparallel m V)|exact (valid_tri m V)].
  - rewrite E; reflexivity.
  - rewrite E; auto.
  - intros v Iv L. split; [rewrite E; exact Iv|]. split; [apply M, L|rewrite E; reflexivity].
Qed.

Definition ring_pos m (l : list nat) : list (vec N) := map (fun h => match dst_of m h with Some d => v_pos m d | None => vzero end) l.
Definition featured m (keep : num) m' v : Prop := exists l, Vring m v l /\ (nltb (min_dihedral (v_pos m v) (ring_pos m l)) keep = true -> v_lock m' v = true).
Lemma lock_feature_ok keep i v m0 m : WF m0 -> lockonly m0 m -> nth_error (m_verts m0) i = Some v ->
  wp (lock_feature keep i) m (fun _ m' => lockonly m m' /\ featured m0 keep m' v).
Proof.
  intros W0 LO E. assert (W := lo_wf m0 m LO W0). assert (L0 := LO). destruct LO as [Em _].
  assert (Ev : nth_error (m_verts m) i = Some v) by (rewrite Em; exact E). assert (Iv := nth_error_In _ _ Ev). unfold lock_feature.
  apply wp_bind, (wp_mesh_vertex ab m i v); [exact Ev|]. destruct (vring m W v Iv) as (h & l & Eh & R).
  apply wp_bind. eapply wp_ok; [exact (v_neighbors_ok m W v h l Iv Eh R)|].
  assert (PP : forall l', (forall y, In y l' -> In y (m_hes m)) -> mmap ve_pos (map (dst_of m) l') m = Ok (ring_pos m0 l', m)).
  { clear - W Em. induction l' as [|y l' IH]; intros Hi; [reflexivity|]. cbn [map mmap]. destruct (wf_rev m W y (Hi y (or_introl eq_refl))) as (r & Er & Ir). destruct (wf_src m W r Ir) as (s & Es & Is).
    assert (D : dst_of m y = Some s) by (unfold dst_of; rewrite Er; exact Es). rewrite D, (bind_ok _ _ _ _ _ (r_pos m s (v_alive m W s Is))), (bind_ok _ _ _ _ _ (IH (fun z Hz => Hi z (or_intror Hz)))).
    unfold ring_pos. cbn [map]. assert (D0 : dst_of m0 y = Some s) by (rewrite Em in D; exact D). rewrite D0. rewrite Em. reflexivity. }
  apply wp_bind. eapply wp_ok; [apply PP; intros y Hy; apply R, Hy|]. apply wp_bind, (wp_pos ab m W v); [exact Iv|].
  assert (P0 : v_pos m v = v_pos m0 v) by (rewrite Em; reflexivity). assert (R0 : Vring m0 v (h :: l)) by (rewrite Em in R; exact R).
  rewrite P0. apply wp_if; intros B.
  - eapply wp_ok; [apply ww_lock, (v_alive m W v Iv)|]. split; [apply lo_set|]. exists (h :: l). split; [exact R0|]. intros _. cbn. unfold fupd. rewrite Nat.eqb_refl. reflexivity.
  - apply wp_ret. split; [apply lo_refl|]. exists (h :: l). split; [exact R0|]. intros C. congruence.
Qed.
Lemma lock_features_ok keep m0 : WF m0 -> forall l m, lockonly m0 m -> (forall i, In i l -> i < length (m_verts m0)) ->
  wp (mfold (fun _ i => lock_feature keep i) tt l) m (fun _ m' => lockonly m m' /\ forall i v, In i l -> nth_error (m_verts m0) i = Some v -> featured m0 keep m' v).
Proof.
  intros W0. induction l as [|i l IH]; intros m LO H; cbn [mfold]; [apply wp_ret; split; [apply lo_refl|intros i v []]|].
  destruct (nth_error (m_verts m0) i) as [v|] eqn:E; [|apply nth_error_None in E; specialize (H i (or_introl eq_refl)); lia].
  apply wp_bind. eapply wp_conseq; [apply (lock_feature_ok keep i v m0 m W0 LO E)|]. intros [] m1 [L1 F1]. eapply wp_conseq; [apply IH; [exact (lo_trans _ _ _ LO L1)|intros j Hj; apply H; right; exact Hj]|].
  intros [] m2 [L2 F2]. split; [exact (lo_trans _ _ _ L1 L2)|]. intros j w [<- | Hj] Ej; [|exact (F2 j w Hj Ej)]. rewrite E in Ej. injection Ej as <-.
  destruct F1 as (lr & Hr & Hk). exists lr. split; [exact Hr|]. intros B. apply (lo_more _ _ L2), Hk, B.
Qed.
Lemma he_length_ok m h : WF m -> In h (m_hes m) -> wp (he_length (Some h)) m (fun _ m' => m' = m).
Proof.
  intros W I. unfold he_length. apply wp_bind, (wp_src ab m W h); [exact I|]. intros s _ Is. apply wp_bind, (wp_dst ab m W h); [exact I|]. intros d _ Id.
  apply wp_bind, (wp_pos ab m W s); [exact Is|]. apply wp_bind, (wp_pos ab m W d); [exact Id|]. apply wp_ret; reflexivity.
Qed.
Lemma mean_length_ok m : WF m -> wp mean_length m (fun _ m' => m' = m).
Proof.
  intros W. unfold mean_length. apply wp_bind, wp_get. apply wp_bind.
  assert (X : forall l acc, (forall i, In i l -> i < length (m_hes m)) ->
    wp (mfold (fun acc i => bind (mesh_halfedge (Z.of_nat i)) (fun he => bind (he_length he) (fun l => ret (nadd acc l)))) acc l) m (fun _ m' => m' = m)).
  { induction l as [|i l IH]; intros acc H; cbn [mfold]; [apply wp_ret; reflexivity|].
    destruct (nth_error (m_hes m) i) as [h|] eqn:E; [|apply nth_error_None in E; specialize (H i (or_introl eq_refl)); lia].
    apply wp_bind, wp_bind, (wp_mesh_halfedge ab m i h); [exact E|]. apply wp_bind. eapply wp_conseq; [apply (he_length_ok m h W (nth_error_In _ _ E))|]. intros x m' ->. apply wp_ret.
    apply IH. intros j Hj. apply H. right; exact Hj. }
  eapply wp_conseq; [apply X; intros i Hi; apply in_seq in Hi; lia|]. intros s m' ->. apply wp_ret; reflexivity.
Qed.
Lemma prepare_ok keep m : WF m -> wp (remesh_prepare keep) m (fun _ m' => lockonly m m' /\ forall v, In v (m_verts m) -> featured m keep m' v).
Proof.
  intros W. unfold remesh_prepare. apply wp_bind, (wp_verify m); [exact W|]. apply wp_bind.
  destruct (forallb (fun v => vfinite (v_pos m v)) (m_verts m)) eqn:F; [|unfold Wp.wp, assertion; exact (Hfin m W F)].
  apply wp_assertion; [reflexivity|]. apply wp_bind. eapply wp_conseq; [apply (mean_length_ok m W)|]. intros L m' ->. apply wp_bind, wp_get. apply wp_bind.
  eapply wp_conseq; [apply (lock_features_ok keep m W _ m (lo_refl m)); intros i Hi; apply in_seq in Hi; lia|]. intros _ m' [LO H]. apply wp_ret. split; [exact LO|].
  intros v Iv. apply In_nth_error in Iv as [i E]. apply (H i v); [apply in_seq; apply nth_lt in E; lia|exact E].
Qed.

Theorem remesh_ok short long keep n m o : remeshTriangular short long keep n m o -> Valid m ->
  bad ab o \/ exists m', o = Ok m' /\ Remeshed m m' /\
    forall v, In v (m_verts m) -> exists l, Vring m v l /\ (nltb (min_dihedral (v_pos m v) (ring_pos m l)) keep = true -> In v (m_verts m') /\ v_lock m' v = true /\ v_pos m' v = v_pos m v).
Proof.
  intros H V. assert (W := valid_wf m V). destruct H as [o H|l m1 o H H1].
  - left. exact (wp_failed ab _ _ _ _ (prepare_ok keep m W) H).
  - destruct (wp_inv ab _ _ _ _ _ (prepare_ok keep m W) H) as [LO FE]. assert (R1 := lo_rm m m1 LO V).
    destruct (remesh_loop_ok _ _ _ _ _ _ H1 (rm_valid _ _ R1)) as [B | (m2 & -> & R2)]; [left; exact B|right]. exists m2. split; [reflexivity|]. split; [exact (rm_trans _ _ _ R1 R2)|].
    intros v Iv. destruct (FE v Iv) as (lr & Hr & Hk). exists lr. split; [exact Hr|]. intros B.
    destruct (rm_locked _ _ R2 v) as (A & C & D); [rewrite (lo_eq _ _ LO); exact Iv|apply Hk, B|]. split; [exact A|split; [exact C|]]. rewrite D, (lo_eq _ _ LO). reflexivity.
Qed.
End P.
