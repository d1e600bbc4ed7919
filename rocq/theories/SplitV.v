(** splitHE keeps the mesh valid. *)
From Coq Require Import List ZArith Arith Lia Bool.
From Verif Require Import Num Vec Heap Mesh Spec Orbit Rings Exec Diamond Split.
Import ListNotations.
Local Open Scope mesh_scope.

Section SplitV.
Context {N : Num}.
Variables (m m' : mesh N) (he rev he0 he1 he2 he3 u0 u1 u2 u3 f0 f1 nh h01 h02 rn h11 h12 g0 g1 vn : nat).
Hypothesis W : WF m.
Hypothesis D : Diamond m he rev he0 he1 he2 he3 u0 u1 u2 u3 f0 f1.
Hypothesis T : SplitT m m' he rev he0 he1 he2 he3 u0 u1 u2 u3 f0 f1 nh h01 h02 rn h11 h12 g0 g1 vn.
Hypothesis NL : NoLoops m.
Hypothesis NP : NoParallel m.
Hypothesis TF : TriFaces m.
Hypothesis U13 : u1 <> u3.

Lemma in_hes y : In y (m_hes m') <-> In y (m_hes m) \/ y = nh \/ y = rn \/ y = h01 \/ y = h02 \/ y = h11 \/ y = h12.
Proof. rewrite (t_hes _ _ _ _ _ _ _ _ _ _ _ _ _ _ _ _ _ _ _ _ _ _ _ T), in_app_iff. simpl. intuition congruence. Qed.
Lemma in_verts y : In y (m_verts m') <-> In y (m_verts m) \/ y = vn.
Proof. rewrite (t_verts _ _ _ _ _ _ _ _ _ _ _ _ _ _ _ _ _ _ _ _ _ _ _ T), in_app_iff. simpl. intuition congruence. Qed.
Lemma in_faces y : In y (m_faces m') <-> In y (m_faces m) \/ y = g0 \/ y = g1.
Proof. rewrite (t_faces _ _ _ _ _ _ _ _ _ _ _ _ _ _ _ _ _ _ _ _ _ _ _ T), in_app_iff. simpl. intuition congruence. Qed.

Lemma nodup_app_disj {X} (l l' : list X) x : NoDup (l ++ l') -> In x l -> ~ In x l'.
Proof.
  induction l as [|a l IH]; simpl; [tauto|]. intros H [->|Hi]; inversion H; subst.
  - intros C; apply H2, in_or_app; auto.
  - apply IH; assumption.
Qed.
Lemma nodup_app_r {X} (l l' : list X) : NoDup (l ++ l') -> NoDup l'.
Proof. induction l as [|a l IH]; simpl; [auto|]. intros H; inversion H; auto. Qed.

Lemma old_new y : In y (m_hes m) -> y <> nh /\ y <> rn /\ y <> h01 /\ y <> h02 /\ y <> h11 /\ y <> h12.
Proof.
  intros Hy. pose proof (t_hnd _ _ _ _ _ _ _ _ _ _ _ _ _ _ _ _ _ _ _ _ _ _ _ T) as Hn.
  rewrite (t_hes _ _ _ _ _ _ _ _ _ _ _ _ _ _ _ _ _ _ _ _ _ _ _ T) in Hn.
  pose proof (nodup_app_disj _ _ _ Hn Hy) as C. simpl in C. repeat split; intros E; apply C; rewrite E; tauto.
Qed.
Lemma new_new : nh <> rn /\ nh <> h01 /\ nh <> h02 /\ nh <> h11 /\ nh <> h12 /\ rn <> h01 /\ rn <> h02 /\ rn <> h11 /\ rn <> h12 /\
  h01 <> h02 /\ h01 <> h11 /\ h01 <> h12 /\ h02 <> h11 /\ h02 <> h12 /\ h11 <> h12.
Proof.
  pose proof (t_hnd _ _ _ _ _ _ _ _ _ _ _ _ _ _ _ _ _ _ _ _ _ _ _ T) as Hn.
  rewrite (t_hes _ _ _ _ _ _ _ _ _ _ _ _ _ _ _ _ _ _ _ _ _ _ _ T) in Hn.
  apply nodup_app_r in Hn. apply nodup6 in Hn. tauto.
Qed.
Lemma vn_new v : In v (m_verts m) -> v <> vn.
Proof.
  intros Hy. pose proof (t_vnd _ _ _ _ _ _ _ _ _ _ _ _ _ _ _ _ _ _ _ _ _ _ _ T) as Hn.
  rewrite (t_verts _ _ _ _ _ _ _ _ _ _ _ _ _ _ _ _ _ _ _ _ _ _ _ T) in Hn.
  pose proof (nodup_app_disj _ _ _ Hn Hy) as C. simpl in C. intros E; apply C; auto.
Qed.
Lemma g_new v : In v (m_faces m) -> v <> g0 /\ v <> g1.
Proof.
  intros Hy. pose proof (t_fnd _ _ _ _ _ _ _ _ _ _ _ _ _ _ _ _ _ _ _ _ _ _ _ T) as Hn.
  rewrite (t_faces _ _ _ _ _ _ _ _ _ _ _ _ _ _ _ _ _ _ _ _ _ _ _ T) in Hn.
  pose proof (nodup_app_disj _ _ _ Hn Hy) as C. simpl in C. split; intros E; apply C; auto.
Qed.
Lemma g01 : g0 <> g1.
Proof.
  pose proof (t_fnd _ _ _ _ _ _ _ _ _ _ _ _ _ _ _ _ _ _ _ _ _ _ _ T) as Hn.
  rewrite (t_faces _ _ _ _ _ _ _ _ _ _ _ _ _ _ _ _ _ _ _ _ _ _ _ T) in Hn.
  apply nodup_app_r in Hn. inversion Hn; subst. simpl in *; intuition congruence.
Qed.

Definition other (y : nat) : Prop := y <> he /\ y <> he0 /\ y <> he1 /\ y <> rev /\ y <> he2 /\ y <> he3.
Lemma classify y : y = he \/ y = he0 \/ y = he1 \/ y = rev \/ y = he2 \/ y = he3 \/ other y.
Proof. unfold other; lia. Qed.

Lemma n_oth y : In y (m_hes m) -> other y -> h_next m' y = h_next m y.
Proof. intros Hy (? & ? & ? & ? & ? & ?). eapply t_n_oth; eauto. Qed.
Lemma f_oth y : In y (m_hes m) -> other y -> h_face m' y = h_face m y.
Proof. intros Hy (? & ? & ? & ? & ? & ?). eapply t_f_oth; eauto. Qed.
Lemma s_old y : In y (m_hes m) -> y <> he -> h_src m' y = h_src m y.
Proof. intros. eapply t_s_old; eauto. Qed.
Lemma r_old y : In y (m_hes m) -> h_rev m' y = h_rev m y.
Proof. intros. eapply t_r_old; eauto. Qed.

Ltac openD := destruct D as [I Ir I0 I1 I2 I3 V0 V1 V2 V3 G0 G1 R Rr Nh N0 N1 Nr N2 N3 S S0 S1 Sr S2 S3 F F0 F1 Fr F2 F3 ND UN FN];
  apply nodup6 in ND; destruct ND as (? & ? & ? & ? & ? & ? & ? & ? & ? & ? & ? & ? & ? & ? & ?);
  destruct UN as (? & ? & ? & ? & ?).
Ltac openT := 
  destruct (t_n _ _ _ _ _ _ _ _ _ _ _ _ _ _ _ _ _ _ _ _ _ _ _ T) as (n_he & n_he0 & n_h01 & n_nh & n_h02 & n_he1 & n_rev & n_h11 & n_he3 & n_rn & n_he2 & n_h12);
  destruct (t_r _ _ _ _ _ _ _ _ _ _ _ _ _ _ _ _ _ _ _ _ _ _ _ T) as (r_nh & r_rn & r_h01 & r_h02 & r_h11 & r_h12);
  destruct (t_f _ _ _ _ _ _ _ _ _ _ _ _ _ _ _ _ _ _ _ _ _ _ _ T) as (f_he & f_he0 & f_h01 & f_nh & f_h02 & f_he1 & f_rev & f_h11 & f_he3 & f_rn & f_he2 & f_h12);
  destruct (t_s _ _ _ _ _ _ _ _ _ _ _ _ _ _ _ _ _ _ _ _ _ _ _ T) as (s_he & s_h01 & s_nh & s_h02 & s_h11 & s_rn & s_h12).

Lemma next_other y n : In y (m_hes m) -> other y -> h_next m y = Some n -> other n.
Proof.
  openD. intros Hi (? & ? & ? & ? & ? & ?) Hn.
  assert (X : forall a b, In a (m_hes m) -> h_next m a = Some b -> y <> a -> n <> b).
  { intros a b Ha Hb Hne ->. apply Hne. eapply (next_inj m W); eassumption. }
  unfold other. repeat split; [apply (X he1)|apply (X he)|apply (X he0)|apply (X he3)|apply (X rev)|apply (X he2)]; auto.
Qed.

Definition image (x : nat) : nat :=
  if x =? he1 then h01 else if x =? he then nh else if x =? he3 then h12 else x.

Lemma r_he : h_rev m' he = Some rev.
Proof. rewrite r_old by apply D. apply D. Qed.
Lemma r_rev : h_rev m' rev = Some he.
Proof. rewrite r_old by apply D. apply D. Qed.

Lemma rot_old y x : In y (m_hes m) -> y <> he -> rot m y = Some x -> rot m' y = Some (image x).
Proof.
  intros Hi A Hx. destruct (rot_some m W _ Hi) as (r & n & Er & En & E & Jr & Jn).
  assert (n = x) by congruence; subst n.
  unfold rot. rewrite r_old, Er by exact Hi.
  assert (r <> rev).
  { intros ->; apply A; eapply (rev_inj m W); [exact Hi|apply D|exact Er|apply D]. }
  unfold image. openD; openT.
  destruct (classify r) as [X|[X|[X|[X|[X|[X|X]]]]]]; try contradiction; try subst r.
  - rewrite n_he. assert (x = he0) by congruence; subst x.
    repeat match goal with |- context [?a =? ?b] => destruct (Nat.eqb_spec a b); try congruence end.
  - rewrite n_he0. assert (x = he1) by congruence; subst x. rewrite Nat.eqb_refl. reflexivity.
  - rewrite n_he1. assert (x = he) by congruence; subst x.
    repeat match goal with |- context [?a =? ?b] => destruct (Nat.eqb_spec a b); try congruence end.
  - rewrite n_he2. assert (x = he3) by congruence; subst x.
    repeat match goal with |- context [?a =? ?b] => destruct (Nat.eqb_spec a b); try congruence end.
  - rewrite n_he3. assert (x = rev) by congruence; subst x.
    repeat match goal with |- context [?a =? ?b] => destruct (Nat.eqb_spec a b); try congruence end.
  - pose proof (next_other _ _ Jr X En) as (? & ? & ? & ? & ? & ?).
    rewrite (n_oth _ Jr X), En.
    repeat match goal with |- context [?a =? ?b] => destruct (Nat.eqb_spec a b); try congruence end.
Qed.

Lemma vcyc_new : cyc (rot m') [he; h11; rn; h02].
Proof.
  openT. cbn [cyc chainto]. unfold rot. rewrite r_he, r_h11, r_rn, r_h02, n_rev, n_h12, n_nh, n_h01. auto.
Qed.

(** *** Vertex rings *)
Lemma vrings' v : In v (m_verts m') ->
  exists l, cyc (rot m') l /\ forall y, In y (m_hes m') -> h_src m' y = Some v -> In y l.
Proof.
  intros Hv. apply in_verts in Hv as [Hv| ->].
  - pose proof (vn_new v Hv) as Hvn. destruct (vring m W v Hv) as (h & l & Eh & Hc & Hnd & Hin).
    pose (sub := fun y => if y =? he1 then [h01; he1] else if y =? he3 then [h12; he3] else if y =? he then [nh] else [y]).
    assert (NDx : he1 <> he3 /\ he <> he1 /\ he <> he3) by (openD; repeat split; assumption).
    destruct NDx as (D13 & D01 & D03).
    exists (flat_map sub (h :: l)); split.
    + apply (cyc_subst (rot m) (rot m') sub (h :: l)); [| |exact Hc].
      * intros a _. unfold sub. destruct (a =? he1); [eauto|]. destruct (a =? he3); [eauto|]. destruct (a =? he); eauto.
      * intros a b p t p' t' Ha Hb Hab Ea Eb.
        apply Hin in Ha as [Ja Sa]. apply Hin in Hb as [Jb Sb].
        assert (Ep : p' = image b).
        { unfold sub in Eb. unfold image.
          destruct (Nat.eqb_spec b he1); [congruence|]. destruct (Nat.eqb_spec b he3) as [->|]; [|].
          - rewrite (proj2 (Nat.eqb_neq he3 he)) by congruence. congruence.
          - destruct (Nat.eqb_spec b he); congruence. }
        rewrite Ep. unfold sub in Ea.
        destruct (Nat.eq_dec a he) as [->|Aa].
        -- rewrite (proj2 (Nat.eqb_neq he he1)), (proj2 (Nat.eqb_neq he he3)), Nat.eqb_refl in Ea by assumption.
           injection Ea as <- <-. cbn [chainto].
           assert (b = he2) by (openD; unfold rot in Hab; rewrite R, Nr in Hab; congruence). subst b.
           openT. unfold rot. rewrite r_nh, n_rn. unfold image.
           openD. rewrite (proj2 (Nat.eqb_neq he2 he1)), (proj2 (Nat.eqb_neq he2 he)), (proj2 (Nat.eqb_neq he2 he3)) by congruence. reflexivity.
        -- pose proof (rot_old a b Ja Aa Hab) as Hrot.
           destruct (Nat.eqb_spec a he1) as [->|].
           { injection Ea as <- <-. openT. split; [unfold rot; rewrite r_h01; exact n_h02|exact Hrot]. }
           destruct (Nat.eqb_spec a he3) as [->|].
           { injection Ea as <- <-. openT. split; [unfold rot; rewrite r_h12; exact n_h11|exact Hrot]. }
           destruct (Nat.eqb_spec a he); [contradiction|]. injection Ea as <- <-. exact Hrot.
    + intros y Hy Sy. apply in_flat_map. openT. openD. apply in_hes in Hy as [Hy|Hy].
      * destruct (Nat.eq_dec y he) as [->|A]; [congruence|]. rewrite s_old in Sy by assumption.
        exists y; split; [apply Hin; split; assumption|]. unfold sub.
        destruct (Nat.eqb_spec y he1); [subst; simpl; auto|]. destruct (Nat.eqb_spec y he3); [subst; simpl; auto|].
        destruct (Nat.eqb_spec y he); [contradiction|]. simpl; auto.
      * destruct Hy as [->|[->|[->|[->|[->| ->]]]]]; try congruence.
        -- exists he. split; [apply Hin; split; congruence|]. unfold sub.
           rewrite (proj2 (Nat.eqb_neq he he1)), (proj2 (Nat.eqb_neq he he3)), Nat.eqb_refl by assumption. left; reflexivity.
        -- exists he1. split; [apply Hin; split; congruence|]. unfold sub. rewrite Nat.eqb_refl. left; reflexivity.
        -- exists he3. split; [apply Hin; split; congruence|]. unfold sub.
           rewrite (proj2 (Nat.eqb_neq he3 he1)), Nat.eqb_refl by congruence. left; reflexivity.
  - exists [he; h11; rn; h02]; split; [exact vcyc_new|]. intros y Hy Sy. openT. apply in_hes in Hy as [Hy|Hy].
    + destruct (Nat.eq_dec y he) as [->|A]; [left; reflexivity|]. rewrite s_old in Sy by assumption.
      exfalso. apply (vn_new vn); [|reflexivity]. eapply (src_in m W); eassumption.
    + assert (X := D). destruct X as [_ _ _ _ _ _ V0 V1 V2 V3 _ _ _ _ _ _ _ _ _ _ _ _ _ _ _ _ _ _ _ _ _ _ _ _ _].
      pose proof (vn_new _ V0); pose proof (vn_new _ V1); pose proof (vn_new _ V3).
      simpl. destruct Hy as [->|[->|[->|[->|[->| ->]]]]]; try congruence; auto.
Qed.

(** *** Face rings *)
Lemma other_face y : In y (m_hes m) -> (other y <-> h_face m y <> Some f0 /\ h_face m y <> Some f1).
Proof.
  intros Hy; split.
  - intros (? & ? & ? & ? & ? & ?). split; intros E.
    + destruct (diamond_f0 _ _ _ _ _ _ _ _ _ _ _ _ _ y W D Hy E) as [|[|]]; contradiction.
    + destruct (diamond_f1 _ _ _ _ _ _ _ _ _ _ _ _ _ y W D Hy E) as [|[|]]; contradiction.
  - openD. intros [A B]. unfold other. repeat split; intros ->; congruence.
Qed.

Lemma face_cases y : In y (m_hes m') ->
  (h_face m' y = Some f0 /\ In y [he; he0; h01]) \/ (h_face m' y = Some g0 /\ In y [nh; h02; he1]) \/
  (h_face m' y = Some f1 /\ In y [rev; h11; he3]) \/ (h_face m' y = Some g1 /\ In y [rn; he2; h12]) \/
  (In y (m_hes m) /\ other y /\ exists f, h_face m' y = Some f /\ h_face m y = Some f /\ f <> f0 /\ f <> f1 /\ f <> g0 /\ f <> g1 /\ In f (m_faces m)).
Proof.
  intros Hy. openT. apply in_hes in Hy as [Hy|Hy].
  - destruct (classify y) as [X|[X|[X|[X|[X|[X|X]]]]]]; try subst y; simpl; try tauto.
    right; right; right; right. split; [exact Hy|split; [exact X|]].
    rewrite (f_oth y Hy X). destruct (wf_face m W _ Hy) as (f & Ef & Jf).
    pose proof (g_new _ Jf). apply other_face in X as [A B]; [|exact Hy].
    exists f; repeat split; try tauto; congruence.
  - destruct Hy as [->|[->|[->|[->|[->| ->]]]]]; simpl; tauto.
Qed.

Lemma cyc_f0 : cyc (h_next m') [he; he0; h01]. Proof. openT. cbn [cyc chainto]. auto. Qed.
Lemma cyc_g0 : cyc (h_next m') [nh; h02; he1]. Proof. openT. cbn [cyc chainto]. auto. Qed.
Lemma cyc_f1 : cyc (h_next m') [rev; h11; he3]. Proof. openT. cbn [cyc chainto]. auto. Qed.
Lemma cyc_g1 : cyc (h_next m') [rn; he2; h12]. Proof. openT. cbn [cyc chainto]. auto. Qed.

Lemma frings' f : In f (m_faces m') ->
  exists l, cyc (h_next m') l /\ forall y, In y (m_hes m') -> h_face m' y = Some f -> In y l.
Proof.
  intros Hf.
  assert (FN := d_fneq _ _ _ _ _ _ _ _ _ _ _ _ _ D). assert (GN := g01).
  destruct (g_new _ (d_f0 _ _ _ _ _ _ _ _ _ _ _ _ _ D)) as [A1 A2].
  destruct (g_new _ (d_f1 _ _ _ _ _ _ _ _ _ _ _ _ _ D)) as [A3 A4].
  assert (K : forall (l : list nat), cyc (h_next m') l ->
     (forall y, In y (m_hes m') -> h_face m' y = Some f -> In y l) -> exists l, cyc (h_next m') l /\ forall y, In y (m_hes m') -> h_face m' y = Some f -> In y l) by eauto.
  destruct (Nat.eq_dec f f0) as [->|E0]; [apply (K _ cyc_f0)|destruct (Nat.eq_dec f f1) as [->|E1]; [apply (K _ cyc_f1)|
    destruct (Nat.eq_dec f g0) as [->|E2]; [apply (K _ cyc_g0)|destruct (Nat.eq_dec f g1) as [->|E3]; [apply (K _ cyc_g1)|]]]].
  1-4: intros y Hy Fy; destruct (face_cases y Hy) as [[X Y]|[[X Y]|[[X Y]|[[X Y]|(_ & _ & f & X & _ & Y)]]]]; try exact Y; rewrite X in Fy; injection Fy; intros; subst; try contradiction; intuition congruence.
  apply in_faces in Hf as [Hf|Hf]; [|intuition congruence].
  destruct (fring m W f Hf) as (h & l & Eh & Hc & Hnd & Hin).
  exists (h :: l); split.
  - apply (cyc_ext (h_next m)); [|exact Hc]. intros a Ha. apply Hin in Ha as [Ja Fa].
    symmetry; apply n_oth; [exact Ja|]. apply other_face; [exact Ja|]. split; congruence.
  - intros y Hy Fy. apply Hin. destruct (face_cases y Hy) as [[X Y]|[[X Y]|[[X Y]|[[X Y]|(Jy & _ & f' & X & X' & Y)]]]]; try congruence.
    split; [exact Jy|congruence].
Qed.

(** *** End points *)
Lemma src_cases y : In y (m_hes m') -> exists v, h_src m' y = Some v /\ In v (m_verts m').
Proof.
  intros Hy. openT. assert (X := D). destruct X as [_ _ _ _ _ _ V0 V1 V2 V3 _ _ _ _ _ _ _ _ _ _ _ _ _ _ _ _ _ _ _ _ _ _ _ _ _].
  apply in_hes in Hy as [Hy|Hy].
  - destruct (Nat.eq_dec y he) as [->|A]; [exists vn; rewrite in_verts; auto|].
    rewrite s_old by assumption. destruct (wf_src m W _ Hy) as (v & E & J). exists v; rewrite in_verts; auto.
  - destruct Hy as [->|[->|[->|[->|[->| ->]]]]]; eexists; (split; [eassumption|]); rewrite in_verts; auto.
Qed.

Lemma dst'_old y : In y (m_hes m) -> y <> rev -> dst_of m' y = dst_of m y.
Proof.
  intros Hy B. unfold dst_of. rewrite r_old by exact Hy. destruct (wf_rev m W _ Hy) as (r & Er & Jr). rewrite Er.
  apply s_old; [exact Jr|]. intros ->; apply B; eapply (rev_inj m W); [exact Hy|apply D|exact Er|apply D].
Qed.
Lemma dst'_tab : dst_of m' rev = Some vn /\ dst_of m' nh = Some vn /\ dst_of m' rn = Some u0 /\ dst_of m' h01 = Some vn /\
  dst_of m' h02 = Some u1 /\ dst_of m' h11 = Some u3 /\ dst_of m' h12 = Some vn /\ dst_of m' he = Some u2.
Proof.
  openT. unfold dst_of. rewrite r_rev, r_nh, r_rn, r_h01, r_h02, r_h11, r_h12, r_he. repeat split; try assumption.
  openD. rewrite s_old by congruence. exact Sr.
Qed.

Lemma rev_cases y : In y (m_hes m') -> exists r, h_rev m' y = Some r /\ In r (m_hes m') /\ h_rev m' r = Some y /\ r <> y.
Proof.
  intros Hy. openT. assert (NN := new_new). apply in_hes in Hy as [Hy|Hy].
  - destruct (wf_rev m W _ Hy) as (r & Er & Jr). exists r. rewrite r_old by exact Hy.
    rewrite r_old by exact Jr. repeat split; [exact Er|apply in_hes; auto|apply (rev_rev m W); assumption|apply (rev_neq m W); assumption].
  - destruct Hy as [->|[->|[->|[->|[->| ->]]]]]; eexists; (split; [eassumption|split; [apply in_hes; tauto|split; [assumption|intuition congruence]]]).
Qed.

Lemma next_cases y : In y (m_hes m') -> exists n, h_next m' y = Some n /\ In n (m_hes m') /\ h_face m' n = h_face m' y /\ h_src m' n = dst_of m' y.
Proof.
  intros Hy. destruct (dst'_tab) as (d_rev & d_nh & d_rn & d_h01 & d_h02 & d_h11 & d_h12 & d_he).
  assert (O : forall a b, In a (m_hes m) -> h_next m a = Some b -> dst_of m a = h_src m b) by (intros; eapply dst_next; eassumption).
  openT. openD.
  apply in_hes in Hy as [Hy|Hy].
  - destruct (classify y) as [X|[X|[X|[X|[X|[X|X]]]]]]; try subst y.
    + exists he0. rewrite in_hes. rewrite s_old by congruence. repeat split; auto; congruence.
    + exists h01. rewrite in_hes. rewrite dst'_old by congruence. repeat split; auto; try congruence. rewrite (O _ _ I0 N0); congruence.
    + exists nh. rewrite in_hes. rewrite dst'_old by congruence. repeat split; auto; try congruence. rewrite (O _ _ I1 N1); congruence.
    + exists h11. rewrite in_hes. repeat split; auto; try congruence. tauto.
    + exists h12. rewrite in_hes. rewrite dst'_old by congruence. repeat split; auto; try congruence; try tauto. rewrite (O _ _ I2 N2); congruence.
    + exists rev. rewrite in_hes. rewrite dst'_old, s_old by congruence. repeat split; auto; try congruence. rewrite (O _ _ I3 N3); congruence.
    + destruct (wf_next m W _ Hy) as (n & En & Jn). exists n. pose proof (next_other _ _ Hy X En) as Y.
      rewrite n_oth by assumption. rewrite in_hes. rewrite !f_oth by assumption.
      destruct X as (? & ? & ? & ? & ? & ?), Y as (? & ? & ? & ? & ? & ?).
      rewrite dst'_old, s_old by assumption. repeat split; auto; [apply (wf_face_next m W); assumption|symmetry; apply O; assumption].
  - destruct Hy as [->|[->|[->|[->|[->| ->]]]]]; eexists; (split; [eassumption|]); rewrite in_hes.
    + repeat split; try tauto; congruence.
    + rewrite s_old by congruence. repeat split; try tauto; congruence.
    + repeat split; try tauto; congruence.
    + rewrite s_old by congruence. repeat split; try tauto; congruence.
    + rewrite s_old by congruence. repeat split; try tauto; congruence.
    + repeat split; try tauto; congruence.
Qed.

Lemma split_WF : WF m'.
Proof.
  constructor.
  - eapply t_vnd; exact T.
  - eapply t_hnd; exact T.
  - eapply t_fnd; exact T.
  - eapply t_v_elem; exact T.
  - eapply t_h_elem; exact T.
  - eapply t_f_elem; exact T.
  - exact src_cases.
  - intros y Hy. destruct (next_cases y Hy) as (n & E & J & _). eauto.
  - intros y Hy. destruct (rev_cases y Hy) as (n & E & J & _). eauto.
  - intros y Hy. destruct (face_cases y Hy) as [[X _]|[[X _]|[[X _]|[[X _]|(_ & _ & f & X & _ & _ & _ & _ & _ & J)]]]];
      eexists; (split; [exact X|]); rewrite in_faces; try tauto; left; apply D.
  - intros y r Hy E. destruct (rev_cases y Hy) as (r' & E' & _ & H). rewrite E in E'; injection E' as <-. exact H.
  - intros y n r Hy En Er. destruct (next_cases y Hy) as (n' & E' & _ & _ & H). rewrite En in E'; injection E' as <-.
    rewrite H. unfold dst_of. rewrite Er. reflexivity.
  - intros v Hv. destruct (t_vhe _ _ _ _ _ _ _ _ _ _ _ _ _ _ _ _ _ _ _ _ _ _ _ T) as (A & B & C). openT.
    destruct (Nat.eq_dec v u0) as [->|E0].
    { exists he2. split; [exact A|]. openD. rewrite in_hes, s_old by congruence. auto. }
    destruct (Nat.eq_dec v u2) as [->|E2].
    { exists he0. split; [exact B|]. openD. rewrite in_hes, s_old by congruence. auto. }
    apply in_verts in Hv as [Hv| ->].
    + destruct (wf_vhe m W v Hv) as (h & Eh & Jh & Sh). exists h.
      rewrite (t_vhe_oth _ _ _ _ _ _ _ _ _ _ _ _ _ _ _ _ _ _ _ _ _ _ _ T v Hv E0 E2). split; [exact Eh|].
      rewrite in_hes. split; [auto|]. rewrite s_old; [exact Sh|exact Jh|].
      intros ->. openD. congruence.
    + exists he. split; [exact C|]. rewrite in_hes. split; [left; apply D|exact s_he].
  - intros f Hf. destruct (t_fhe _ _ _ _ _ _ _ _ _ _ _ _ _ _ _ _ _ _ _ _ _ _ _ T) as (A & B & C & E). openT.
    destruct (Nat.eq_dec f f0) as [->|E0]; [exists he; split; [exact A|split; [apply in_hes; left; apply D|exact f_he]]|].
    destruct (Nat.eq_dec f f1) as [->|E1]; [exists rev; split; [exact B|split; [apply in_hes; left; apply D|exact f_rev]]|].
    apply in_faces in Hf as [Hf|[->| ->]].
    + destruct (wf_fhe m W f Hf) as (h & Eh & Jh & Fh). exists h.
      rewrite (t_fhe_oth _ _ _ _ _ _ _ _ _ _ _ _ _ _ _ _ _ _ _ _ _ _ _ T f Hf E0 E1). split; [exact Eh|].
      split; [apply in_hes; auto|]. rewrite f_oth; [exact Fh|exact Jh|]. apply other_face; [exact Jh|split; congruence].
    + exists nh. split; [exact C|split; [apply in_hes; auto|exact f_nh]].
    + exists rn. split; [exact E|split; [apply in_hes; auto|exact f_rn]].
  - intros y n Hy En. destruct (next_cases y Hy) as (n' & E' & _ & H & _). rewrite En in E'; injection E' as <-. exact H.
  - intros h h' Hh Hh' E.
    assert (exists f, h_face m' h = Some f /\ In f (m_faces m')) as (f & Ef & Jf).
    { destruct (face_cases h Hh) as [[X _]|[[X _]|[[X _]|[[X _]|(_ & _ & f & X & _ & _ & _ & _ & _ & J)]]]];
      eexists; (split; [exact X|]); rewrite in_faces; try tauto; left; apply D. }
    destruct (frings' f Jf) as (l & Hc & Hl).
    eapply cyc_reaches; [exact Hc|apply Hl; assumption|apply Hl; [assumption|congruence]].
  - intros h h' Hh Hh' E. destruct (src_cases h Hh) as (v & Ev & Jv).
    destruct (vrings' v Jv) as (l & Hc & Hl).
    eapply cyc_reaches; [exact Hc|apply Hl; assumption|apply Hl; [assumption|congruence]].
Qed.

(** End points of all half-edges. *)
Lemma ends y : In y (m_hes m') ->
  (In y (m_hes m) /\ y <> he /\ y <> rev /\ exists a b, h_src m' y = Some a /\ dst_of m' y = Some b /\ h_src m y = Some a /\ dst_of m y = Some b /\
     a <> vn /\ b <> vn /\ a <> b /\ In a (m_verts m) /\ In b (m_verts m)) \/
  (y = he /\ h_src m' y = Some vn /\ dst_of m' y = Some u2) \/ (y = rn /\ h_src m' y = Some vn /\ dst_of m' y = Some u0) \/
  (y = h02 /\ h_src m' y = Some vn /\ dst_of m' y = Some u1) \/ (y = h11 /\ h_src m' y = Some vn /\ dst_of m' y = Some u3) \/
  (y = rev /\ h_src m' y = Some u2 /\ dst_of m' y = Some vn) \/ (y = nh /\ h_src m' y = Some u0 /\ dst_of m' y = Some vn) \/
  (y = h01 /\ h_src m' y = Some u1 /\ dst_of m' y = Some vn) \/ (y = h12 /\ h_src m' y = Some u3 /\ dst_of m' y = Some vn).
Proof.
  intros Hy. destruct (dst'_tab) as (d_rev & d_nh & d_rn & d_h01 & d_h02 & d_h11 & d_h12 & d_he). openT.
  apply in_hes in Hy as [Hy|Hy].
  - destruct (Nat.eq_dec y he) as [->|A]; [tauto|].
    destruct (Nat.eq_dec y rev) as [->|B].
    { do 5 right; left. openD. rewrite s_old by congruence. auto. }
    left. split; [exact Hy|split; [exact A|split; [exact B|]]].
    rewrite s_old, dst'_old by assumption.
    destruct (wf_src m W _ Hy) as (a & Ea & Ja). destruct (wf_rev m W _ Hy) as (r & Er & Jr).
    destruct (wf_src m W _ Jr) as (b & Eb & Jb). exists a, b.
    pose proof (NL y Hy) as L. unfold dst_of in *. rewrite Er in *. pose proof (vn_new _ Ja). pose proof (vn_new _ Jb).
    repeat split; auto. congruence.
  - destruct Hy as [->|[->|[->|[->|[->| ->]]]]]; tauto.
Qed.

Lemma split_noloops : NoLoops m'.
Proof.
  assert (X := D). destruct X as [_ _ _ _ _ _ V0 V1 V2 V3 _ _ _ _ _ _ _ _ _ _ _ _ _ _ _ _ _ _ _ _ _ _ _ _ _].
  pose proof (vn_new _ V0); pose proof (vn_new _ V1); pose proof (vn_new _ V2); pose proof (vn_new _ V3).
  intros y Hy. destruct (ends y Hy) as [(_ & _ & _ & a & b & E1 & E2 & E3)|X].
  - rewrite E1, E2. intuition congruence.
  - destruct X as [X|[X|[X|[X|[X|[X|[X|X]]]]]]]; destruct X as (_ & -> & ->); congruence.
Qed.

Lemma split_noparallel : NoParallel m'.
Proof.
  assert (X := D). destruct X as [_ _ _ _ _ _ V0 V1 V2 V3 _ _ _ _ _ _ _ _ _ _ _ _ _ _ _ _ _ _ _ _ _ _ _ UN _].
  destruct UN as (? & ? & ? & ? & ?).
  pose proof (vn_new _ V0); pose proof (vn_new _ V1); pose proof (vn_new _ V2); pose proof (vn_new _ V3).
  intros y z Hy Hz Es Ed.
  destruct (ends y Hy) as [(Jy & _ & _ & a & b & E1 & E2 & E3 & E4 & E5 & E6 & _)|X].
  - destruct (ends z Hz) as [(Jz & _ & _ & a' & b' & E1' & E2' & E3' & E4' & _)|Y].
    + apply NP; congruence.
    + destruct Y as [Y|[Y|[Y|[Y|[Y|[Y|[Y|Y]]]]]]]; destruct Y as (-> & Y1 & Y2); congruence.
  - destruct (ends z Hz) as [(Jz & _ & _ & a' & b' & E1' & E2' & E3' & E4' & E5' & E6' & _)|Y].
    + destruct X as [Y|[Y|[Y|[Y|[Y|[Y|[Y|Y]]]]]]]; destruct Y as (-> & Y1 & Y2); congruence.
    + destruct X as [X|[X|[X|[X|[X|[X|[X|X]]]]]]]; destruct X as (-> & X1 & X2); rewrite X1 in Es; rewrite X2 in Ed; clear X1 X2;
      destruct Y as [Y|[Y|[Y|[Y|[Y|[Y|[Y|Y]]]]]]]; destruct Y as (-> & Y1 & Y2); first [reflexivity|exfalso; congruence].
Qed.

Lemma split_tri : TriFaces m'.
Proof.
  intros y Hy B. openT.
  assert (K0 : forall a b c, h_next m' a = Some b -> h_next m' b = Some c -> h_next m' c = Some a -> piter (h_next m') 3 a = Some a).
  { intros a b c E1 E2 E3. cbn [piter]. rewrite E1, E2, E3. reflexivity. }
  destruct (face_cases y Hy) as [[_ X]|[[_ X]|[[_ X]|[[_ X]|(Jy & X & _)]]]].
  1-4: simpl in X; destruct X as [<-|[<-|[<-|[]]]]; eapply K0; eassumption.
  rewrite (t_bd_old _ _ _ _ _ _ _ _ _ _ _ _ _ _ _ _ _ _ _ _ _ _ _ T y Jy) in B.
  pose proof (TF y Jy B) as P. destruct (piter3 _ _ P) as (a & b & E1 & E2 & E3).
  pose proof (next_other _ _ Jy X E1) as Xa. pose proof (next_in m W _ _ Jy E1) as Ja.
  pose proof (next_other _ _ Ja Xa E2) as Xb. pose proof (next_in m W _ _ Ja E2) as Jb.
  apply (K0 y a b); rewrite n_oth; assumption.
Qed.

Lemma split_Valid : Valid m'.
Proof. constructor; [apply split_WF|apply split_noloops|apply split_noparallel|apply split_tri]. Qed.

End SplitV.
