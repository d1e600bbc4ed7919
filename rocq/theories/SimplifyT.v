(** simplifyQEM as a whole: outcomes, face count, termination. *)
From Coq Require Import List ZArith Arith Bool Lia.
From Verif Require Import Num Vec Heap Mesh Spec EditSpec Orbit Rings Exec Queries Prog SmoothSpec Smooth SmoothP SmoothD SmoothEx RemeshSpec Simplify Wp SimplifyP.
Import ListNotations.

Section T.
Context {N : Num}.
Implicit Types m : mesh N.
Variable ab : abkind -> Prop.
Notation wp := (wp ab).
Hypothesis Hnan : forall m, ~ PosOk m -> ab AAssert.
Hypothesis Hdiv : forall x : vec N, vdiv x (nadd (vlength x) neps12) = None -> ab AThrow.
Hypothesis Htau : forall m, WF m -> taubin_default m (Abort AThrow) -> ab AThrow.
Hypothesis Hlap : forall m, WF m -> laplacian_default m (Abort AThrow) -> ab AThrow.

Lemma wp_inv {A} (x : M N A) m Q a m' : wp x m Q -> x m = Ok (a, m') -> Q a m'.
Proof. unfold Wp.wp. intros H E. rewrite E in H. exact H. Qed.
Definition bad {A} (o : res A) : Prop := exists k, o = Abort k /\ ab k.
Lemma wp_failed {A B} (x : M N A) m Q (o : res B) : wp x m Q -> failed (x m) o -> bad o.
Proof. unfold Wp.wp, failed. destruct (x m) as [[a m']|u|k|]; try tauto. intros H ->. exists k. auto. Qed.
Lemma bad_failed {A B} (r : res A) (o : res B) : bad r -> failed r o -> bad o.
Proof. intros (k & -> & H) E. cbn in E. exists k. auto. Qed.

(** ** The queue *)
Lemma qem_loop_ok target que rm ck nr m o : qem_loop target que rm ck nr m o -> Valid m -> length (m_verts m) <= length ck ->
  (forall p v, In (p, v) que -> exists h, p = Some h /\ (In h (m_hes m) \/ pmem p rm = true)) ->
  bad o \/ exists nr' m' k, o = Ok (nr', m') /\ Evolves m m' /\ length (m_faces m) = 2 * k + length (m_faces m') /\ (nr' = nr + 2 * Z.of_nat k)%Z /\ (k = 0 \/ (nr' <= target + 1)%Z).
Proof.
  induction 1 as [rm ck nr m|que rm ck nr m H|q1 he v q2 rm ck nr m o H1 H2 H IH|q1 he v q2 rm ck nr m m1 o H1 H2 H3 H IH|q1 he v q2 rm ck nr m six ck' ok m1 o H1 H2 H3 H IH|q1 he v q2 rm ck nr m o H1 H2 H3]; intros V LC HQ.
  - right. exists nr, m, 0. split; [reflexivity|]. split; [apply ev_refl, V|]. split; [reflexivity|]. split; [lia|left; reflexivity].
  - right. exists nr, m, 0. split; [reflexivity|]. split; [apply ev_refl, V|]. split; [reflexivity|]. split; [lia|left; reflexivity].
  - apply IH; [exact V|exact LC|]. intros p w Hp. apply (HQ p w). apply in_app_iff in Hp. apply in_app_iff. cbn [In]. tauto.
  - destruct (HQ he v) as (h & -> & [Ih | C]); [apply in_app_iff; cbn [In]; tauto| |congruence].
    assert (E := wp_inv _ _ _ _ _ (qem_edge_ok ab Hnan m ck h v V Ih LC) H3). cbn [edge_post] in E. subst m1.
    apply IH; [exact V|exact LC|]. intros p w Hp. apply (HQ p w). apply in_app_iff in Hp. apply in_app_iff. cbn [In]. tauto.
  - destruct (HQ he v) as (h & -> & [Ih | C]); [apply in_app_iff; cbn [In]; tauto| |congruence].
    assert (E := wp_inv _ _ _ _ _ (qem_edge_ok ab Hnan m ck h v V Ih LC) H3). cbn [edge_post] in E. destruct E as (EV & LC' & LV & NF & Rm).
    destruct IH as [B | (nr' & m' & k & -> & EV2 & NF2 & En & K)]; [exact (ev_valid _ _ EV)|lia| |left; exact B|right].
    + intros p w Hp. destruct (HQ p w) as (g & -> & [Ig | C]); [apply in_app_iff in Hp; apply in_app_iff; cbn [In]; tauto| |].
      * exists g. split; [reflexivity|]. destruct (Rm g Ig) as [Hg | Hg]; [left; exact Hg|right]. apply pmem_in. apply in_app_iff. left; exact Hg.
      * exists g. split; [reflexivity|]. right. apply pmem_in. apply pmem_in in C. apply in_app_iff. right; exact C.
    + destruct ok.
      * exists nr', m', (S k). split; [reflexivity|]. split; [exact (ev_trans _ _ _ EV EV2)|]. split; [lia|]. split; [lia|]. right. destruct K as [-> | K]; lia.
      * exists nr', m', k. split; [reflexivity|]. split; [exact (ev_trans _ _ _ EV EV2)|]. split; [lia|]. split; [lia|]. exact K.
  - left. destruct (HQ he v) as (h & -> & [Ih | C]); [apply in_app_iff; cbn [In]; tauto| |congruence].
    exact (wp_failed _ _ _ _ (qem_edge_ok ab Hnan m ck h v V Ih LC) H3).
Qed.

(** ** The flips *)
Lemma he_loop_ok (Inv : mesh N -> Prop) (body : nat -> M N unit) :
  (forall i m, Inv m -> i < length (m_hes m) -> wp (body i) m (fun _ m' => Inv m' /\ length (m_hes m') = length (m_hes m))) ->
  forall fuel i m, Inv m -> length (m_hes m) <= i + fuel -> wp (he_loop body fuel i) m (fun _ m' => Inv m').
Proof.
  intros H. induction fuel as [|fuel IH]; intros i m Im L; cbn [he_loop]; apply wp_bind, wp_get.
  - destruct (Nat.ltb_spec i (length (m_hes m))); [lia|]. apply wp_ret, Im.
  - destruct (Nat.ltb_spec i (length (m_hes m))); [|apply wp_ret, Im]. apply wp_bind. eapply wp_conseq; [apply H; assumption|]. intros _ m' [I' E]. apply IH; [exact I'|lia].
Qed.
Lemma even_flip_ok i m : Valid m -> i < length (m_hes m) ->
  wp (even_flip i) m (fun _ m' => Evolves m m' /\ length (m_faces m') = length (m_faces m) /\ length (m_hes m') = length (m_hes m)).
Proof.
  intros V L. assert (W := valid_wf m V). destruct (nth_error (m_hes m) i) as [h|] eqn:E; [|apply nth_error_None in E; lia]. assert (I := nth_error_In _ _ E).
  assert (NS : Evolves m m /\ length (m_faces m) = length (m_faces m) /\ length (m_hes m) = length (m_hes m)) by (split; [apply ev_refl, V|split; reflexivity]).
  unfold even_flip. apply wp_bind, (wp_mesh_halfedge ab m i h); [exact E|].
  apply wp_bind, (wp_face ab m W h); [exact I|]. intros f Ef If. apply wp_bind, (wp_f_isBoundary ab m W f); [exact If|]. intros b1 H1. apply wp_if; intros B1; [apply wp_ret, NS|].
  apply wp_bind, (wp_rev ab m W h); [exact I|]. intros r R Ir.
  apply wp_bind, (wp_face ab m W r); [exact Ir|]. intros g Eg Ig. apply wp_bind, (wp_f_isBoundary ab m W g); [exact Ig|]. intros b2 H2. apply wp_if; intros B2; [apply wp_ret, NS|].
  apply wp_bind, (wp_src ab m W h); [exact I|]. intros v0 _ I0. apply wp_bind, (wp_dst ab m W h); [exact I|]. intros v1 _ I1.
  apply wp_bind, (wp_next ab m W h); [exact I|]. intros n _ In'. apply wp_bind, (wp_dst ab m W n); [exact In'|]. intros v2 _ I2.
  apply wp_bind, (wp_next ab m W r); [exact Ir|]. intros q _ Iq. apply wp_bind, (wp_dst ab m W q); [exact Iq|]. intros v3 _ I3.
  apply wp_bind, (wp_degree ab m W v0); [exact I0|]. apply wp_bind, (wp_degree ab m W v1); [exact I1|]. apply wp_bind, (wp_degree ab m W v2); [exact I2|]. apply wp_bind, (wp_degree ab m W v3); [exact I3|].
  apply wp_if; intros _; [|apply wp_ret, NS].
  destruct (flip_evolves m h r V I R) as (b & m' & X & EV & NF & NH & _).
  { intros y Iy Fy. apply not_true_is_false. intros C. destruct Fy as [Fy | Fy].
    - assert (b1 = true) by (apply H1; exists y; rewrite Fy; auto). congruence.
    - assert (b2 = true) by (apply H2; exists y; rewrite Fy; auto). congruence. }
  apply wp_bind. eapply wp_ok; [exact X|]. apply wp_ret. auto.
Qed.
Lemma flips_ok m : Valid m -> wp (he_loop even_flip (length (m_hes m)) 0) m (fun _ m' => Evolves m m' /\ length (m_faces m') = length (m_faces m)).
Proof.
  intros V. eapply wp_conseq; [apply (he_loop_ok (fun m' => Evolves m m' /\ length (m_faces m') = length (m_faces m)) even_flip)|].
  - intros i m1 [EV NF] L. eapply wp_conseq; [apply (even_flip_ok i m1 (ev_valid _ _ EV) L)|]. intros _ m2 (EV2 & NF2 & NH2). split; [|exact NH2]. split; [exact (ev_trans _ _ _ EV EV2)|congruence].
  - split; [apply ev_refl, V|reflexivity].
  - lia.
  - auto.
Qed.

(** ** Smoothing *)
Lemma smooth_ev m m' : Valid m -> posonly m m' -> kept m m' -> Evolves m m' /\ length (m_faces m') = length (m_faces m).
Proof. intros V P K. split; [apply (ev_posonly m m' V P); intros v B; apply K; right; exact B|destruct P as [_ ->]; reflexivity]. Qed.
Lemma tau_ok m r : Valid m -> taubin_default m r -> bad r \/ exists m', r = Ok m' /\ Evolves m m' /\ length (m_faces m') = length (m_faces m).
Proof.
  intros V H. assert (W := valid_wf m V). destruct (smoothing_ok m 3 r W) as [K | K]; [right; do 2 eexists; exact H| |]; [destruct K as (m' & -> & P & K)|subst r].
  - right. exists m'. split; [reflexivity|exact (smooth_ev m m' V P K)].
  - left. exists AThrow. split; [reflexivity|exact (Htau m W H)].
Qed.
Lemma lap_ok m r : Valid m -> laplacian_default m r -> bad r \/ exists m', r = Ok m' /\ Evolves m m' /\ length (m_faces m') = length (m_faces m).
Proof.
  intros V H. assert (W := valid_wf m V). destruct (smoothing_ok m 3 r W) as [K | K]; [left; do 2 eexists; exact H| |]; [destruct K as (m' & -> & P & K)|subst r].
  - right. exists m'. split; [reflexivity|exact (smooth_ev m m' V P K)].
  - left. exists AThrow. split; [reflexivity|exact (Hlap m W H)].
Qed.

(** ** Trials *)
Lemma qem_trial_ok target nr m o : qem_trial target nr m o -> Valid m ->
  bad o \/ exists nr' m' k, o = Ok (Some nr', m') /\ Evolves m m' /\ length (m_faces m) = 2 * k + length (m_faces m') /\ (nr' = nr + 2 * Z.of_nat k)%Z /\ (k = 0 \/ (nr' <= target + 1)%Z).
Proof.
  intros H V. assert (W := valid_wf m V).
  assert (QF := quad_faces_ok ab Hdiv m (seq 0 (length (m_faces m))) V ltac:(intros i Hi; apply in_seq in Hi; lia)).
  assert (QE := quad_edges_ok ab m (seq 0 (length (m_hes m))) W ltac:(intros i Hi; apply in_seq in Hi; lia)).
  assert (LQ : forall que hs rm, (forall p, In p hs -> exists h, p = Some h /\ In h (m_hes m)) -> map fst que = hs ->
    forall p (v : vec N), In (p, v) que -> exists h, p = Some h /\ (In h (m_hes m) \/ pmem p rm = true)).
  { intros que hs rm Hh Eh p v Hp. destruct (Hh p) as (h & -> & Ih); [rewrite <- Eh; apply (in_map fst _ _ Hp)|]. exists h. auto. }
  assert (LC : length (m_verts m) <= length (repeat false (length (m_verts m)))) by (rewrite repeat_length; lia).
  destruct H as [o H|m1 H|m1 o H H1|m1 hs m2 que r o H H1 Eh H2 H3|m1 hs m2 que nr' m3 o H H1 Eh H2 H3|m1 hs m2 que nr' m3 m4 r o H H1 Eh H2 H3 H4 H5|m1 hs m2 que nr' m3 m4 m5 H H1 Eh H2 H3 H4];
    [left; exact (wp_failed _ _ _ _ QF H)|destruct (wp_inv _ _ _ _ _ QF H); discriminate| | | | |];
    destruct (wp_inv _ _ _ _ _ QF H) as [_ ->]; [left; exact (wp_failed _ _ _ _ QE H1)| | | |];
    destruct (wp_inv _ _ _ _ _ QE H1) as [Hh ->]; specialize (LQ que hs [] Hh Eh);
    destruct (qem_loop_ok _ _ _ _ _ _ _ H2 V LC LQ) as [B | (nr2 & m' & k & E & EV & NF & En & K)].
  - left. exact (bad_failed _ _ B H3).
  - subst r. destruct H3.
  - destruct B as (? & ? & _); discriminate.
  - injection E as <- <-. left. exact (wp_failed _ _ _ _ (flips_ok m3 (ev_valid _ _ EV)) H3).
  - destruct B as (? & ? & _); discriminate.
  - injection E as <- <-. destruct (wp_inv _ _ _ _ _ (flips_ok m3 (ev_valid _ _ EV)) H3) as [EV4 NF4].
    destruct (tau_ok m4 r (ev_valid _ _ EV4) H4) as [B | (m5 & -> & _)]; [left; exact (bad_failed _ _ B H5)|destruct H5].
  - destruct B as (? & ? & _); discriminate.
  - injection E as <- <-. destruct (wp_inv _ _ _ _ _ (flips_ok m3 (ev_valid _ _ EV)) H3) as [EV4 NF4].
    destruct (tau_ok m4 _ (ev_valid _ _ EV4) H4) as [(? & ? & _) | (m6 & [= <-] & EV5 & NF5)]; [discriminate|].
    right. exists nr', m5, k. split; [reflexivity|]. split; [exact (ev_trans _ _ _ (ev_trans _ _ _ EV EV4) EV5)|]. split; [lia|]. split; [exact En|exact K].
Qed.

Lemma qem_trials_ok target mt fuel trial nr m o : qem_trials target mt fuel trial nr m o -> Valid m -> (0 <= trial)%Z ->
  length (m_faces m) * Z.to_nat mt + (Z.to_nat mt - Z.to_nat trial) <= fuel ->
  bad o \/ exists m' k, o = Ok m' /\ Evolves m m' /\ length (m_faces m) = 2 * k + length (m_faces m') /\ (k = 0 \/ (nr + 2 * Z.of_nat k <= target + 1)%Z).
Proof.
  induction 1 as [fuel trial nr m H|trial nr m H|fuel trial nr m r o H H1 H2|fuel trial nr m m' H H1|fuel trial nr m nr' m' H H1 H2|fuel trial nr m nr' m' o H H1 H2 H3 IH]; intros V Ht L.
  - right. exists m, 0. split; [reflexivity|]. split; [apply ev_refl, V|]. auto.
  - exfalso. nia.
  - left. destruct (qem_trial_ok _ _ _ _ H1 V) as [B | (? & ? & ? & -> & _)]; [exact (bad_failed _ _ B H2)|destruct H2].
  - destruct (qem_trial_ok _ _ _ _ H1 V) as [(? & ? & _) | (? & ? & ? & ? & _)]; discriminate.
  - destruct (qem_trial_ok _ _ _ _ H1 V) as [(? & ? & _) | (nr2 & m2 & k & [= <- <-] & EV & NF & En & K)]; [discriminate|]. right. exists m', k. split; [reflexivity|]. split; [exact EV|]. split; [exact NF|]. destruct K; [auto|right; lia].
  - destruct (qem_trial_ok _ _ _ _ H1 V) as [(? & ? & _) | (nr2 & m2 & k & [= <- <-] & EV & NF & En & K)]; [discriminate|].
    destruct IH as [B | (m2 & k2 & -> & EV2 & NF2 & K2)]; [exact (ev_valid _ _ EV)|destruct (Nat.ltb _ _); lia| |left; exact B|right].
    + destruct (Nat.ltb_spec (length (m_faces m')) (length (m_faces m))) as [Lt | Ge]; [|assert (length (m_faces m') = length (m_faces m)) as -> by lia; nia].
      assert (length (m_faces m') * Z.to_nat mt + Z.to_nat mt <= length (m_faces m) * Z.to_nat mt) by nia. lia.
    + exists m2, (k + k2). split; [reflexivity|]. split; [exact (ev_trans _ _ _ EV EV2)|]. split; [lia|]. destruct K2 as [-> | K2]; [|right; lia]. destruct K as [-> | K]; [left; reflexivity|right; lia].
Qed.

Theorem simplify_ok nt mt fuel m o : simplifyQEM nt mt fuel m o -> Valid m -> (length (m_faces m) + 1) * Z.to_nat mt <= fuel ->
  (nt = 0%Z /\ o = Abort AAssert) \/ bad o \/
  exists m' k, o = Ok m' /\ Evolves m m' /\ length (m_faces m) = 2 * k + length (m_faces m') /\ (k = 0 \/ (nt - 1 <= Z.of_nat (length (m_faces m')))%Z).
Proof.
  intros H V L. destruct H as [H|H H1|r o H H1 H2 H3|m1 o H H1 H2 H3].
  - left. auto.
  - right; right. exists m, 0. split; [reflexivity|]. split; [apply ev_refl, V|]. auto.
  - right; left. destruct (lap_ok m r V H2) as [B | (m1 & -> & _)]; [exact (bad_failed _ _ B H3)|destruct H3].
  - right. destruct (lap_ok m _ V H2) as [(? & ? & _) | (m2 & [= <-] & EV & NF)]; [discriminate|].
    destruct (qem_trials_ok _ _ _ _ _ _ _ H3 (ev_valid _ _ EV)) as [B | (m2 & k & -> & EV2 & NF2 & K)]; [lia|nia|left; exact B|right].
    exists m2, k. split; [reflexivity|]. split; [exact (ev_trans _ _ _ EV EV2)|]. split; [lia|]. destruct K as [K | K]; [left; exact K|right; lia].
Qed.

End T.
