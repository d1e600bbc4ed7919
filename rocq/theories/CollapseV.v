(** collapseHE keeps the mesh valid. *)
From Coq Require Import List ZArith Arith Lia Bool.
From Verif Require Import Num Vec Heap Mesh Spec Orbit Rings Exec Diamond Remove Collapse.
Import ListNotations.

Section CollapseV.
Context {N : Num}.
Variables (m m' : mesh N) (he rev hn hp rn rp o0 o1 o2 o3 u0 u1 u2 u3 f0 f1 : nat).
Hypothesis V : Valid m.
Hypothesis C : CollapseCond m he rev hn hp rn rp u0 u1 u2 u3 f0 f1.
Hypothesis T : CollT m m' he rev hn hp rn rp o0 o1 o2 o3 u0 u1 u2 u3 f0 f1.
Hypothesis R0 : h_rev m hp = Some o0.
Hypothesis R1 : h_rev m hn = Some o1.
Hypothesis R2 : h_rev m rp = Some o2.
Hypothesis R3 : h_rev m rn = Some o3.

Local Lemma W : WF m. Proof. apply V. Qed.
Local Lemma D : Diamond m he rev hn hp rn rp u0 u1 u2 u3 f0 f1. Proof. apply C. Qed.
Local Lemma U13 : u1 <> u3. Proof. eapply CollapseCond_u13; eassumption. Qed.

Definition gone (y : nat) : Prop := In y [he; hn; hp; rev; rn; rp].
Definition sg (v : option nat) : option nat := if ptr_eqb v (Some u2) then Some u0 else v.

Lemma sg_u2 : sg (Some u2) = Some u0. Proof. unfold sg. rewrite ptr_eqb_refl. reflexivity. Qed.
Lemma sg_oth v : v <> Some u2 -> sg v = v.
Proof. intros H. unfold sg. destruct (ptr_eqb v (Some u2)) eqn:E; [apply ptr_eqb_eq in E; contradiction|reflexivity]. Qed.
Lemma sg_cases v : v = Some u2 /\ sg v = Some u0 \/ v <> Some u2 /\ sg v = v.
Proof. destruct (ptr_eqb v (Some u2)) eqn:E; [apply ptr_eqb_eq in E; subst; left; split; [reflexivity|apply sg_u2]|apply ptr_eqb_neq in E; right; split; [exact E|apply sg_oth, E]]. Qed.

Lemma in_hes y : In y (m_hes m') <-> In y (m_hes m) /\ ~ gone y.
Proof. apply (c_hes _ _ _ _ _ _ _ _ _ _ _ _ _ _ _ _ _ _ T). Qed.
Lemma in_verts v : In v (m_verts m') <-> In v (m_verts m) /\ v <> u2.
Proof. apply (c_verts _ _ _ _ _ _ _ _ _ _ _ _ _ _ _ _ _ _ T). Qed.
Lemma in_faces f : In f (m_faces m') <-> In f (m_faces m) /\ f <> f0 /\ f <> f1.
Proof. apply (c_faces _ _ _ _ _ _ _ _ _ _ _ _ _ _ _ _ _ _ T). Qed.
Lemma nx : h_next m' = h_next m. Proof. apply T. Qed.
Lemma fc : h_face m' = h_face m. Proof. apply T. Qed.
Lemma bd : h_bd m' = h_bd m. Proof. apply T. Qed.
Lemma sr y : In y (m_hes m) -> h_src m' y = sg (h_src m y).
Proof. apply (c_src _ _ _ _ _ _ _ _ _ _ _ _ _ _ _ _ _ _ T). Qed.

Ltac openD := destruct D as [I Ir I0 I1 I2 I3 V0 V1 V2 V3 G0 G1 R Rr Nh N0 N1 Nr N2 N3 S S0 S1 Sr S2 S3 F F0 F1 Fr F2 F3 ND UN FN];
  apply nodup6 in ND; destruct ND as (? & ? & ? & ? & ? & ? & ? & ? & ? & ? & ? & ? & ? & ? & ?);
  destruct UN as (? & ? & ? & ? & ?).

Lemma ofacts : In o0 (m_hes m) /\ In o1 (m_hes m) /\ In o2 (m_hes m) /\ In o3 (m_hes m) /\
  h_rev m o0 = Some hp /\ h_rev m o1 = Some hn /\ h_rev m o2 = Some rp /\ h_rev m o3 = Some rn /\
  h_src m o0 = Some u0 /\ h_src m o1 = Some u1 /\ h_src m o2 = Some u2 /\ h_src m o3 = Some u3.
Proof. exact (o_facts m he rev hn hp rn rp u0 u1 u2 u3 f0 f1 o0 o1 o2 o3 W D R0 R1 R2 R3). Qed.
Lemma oneq : NoDup [o0; o1; o2; o3] /\ forall y, In y [o0; o1; o2; o3] -> ~ gone y.
Proof. exact (o_neq m he rev hn hp rn rp u0 u1 u2 u3 f0 f1 o0 o1 o2 o3 W D U13 R0 R1 R2 R3). Qed.
Lemma odist : o0 <> o1 /\ o0 <> o2 /\ o0 <> o3 /\ o1 <> o2 /\ o1 <> o3 /\ o2 <> o3.
Proof. destruct oneq as [OD _]. repeat match goal with H : NoDup (_ :: _) |- _ => inversion H; clear H; subst end. simpl in *; intuition congruence. Qed.

Lemma gone_face y : In y (m_hes m) -> (gone y <-> h_face m y = Some f0 \/ h_face m y = Some f1).
Proof.
  intros Hy. split.
  - openD. intros G; unfold gone in G; simpl in G. destruct G as [<-|[<-|[<-|[<-|[<-|[<-|[]]]]]]]; tauto.
  - intros [E|E]; [destruct (diamond_f0 _ _ _ _ _ _ _ _ _ _ _ _ _ y W D Hy E) as [->|[->| ->]]|destruct (diamond_f1 _ _ _ _ _ _ _ _ _ _ _ _ _ y W D Hy E) as [->|[->| ->]]]; unfold gone; simpl; tauto.
Qed.

Lemma next_kept y n : In y (m_hes m) -> ~ gone y -> h_next m y = Some n -> ~ gone n.
Proof.
  intros Hy G En. rewrite gone_face in * by (try assumption; eapply (next_in m W); eassumption).
  rewrite (wf_face_next m W _ _ Hy En). exact G.
Qed.

(** Kept half-edges whose opposite was removed are o0, o1, o2, o3. *)
Lemma rev_gone y r : In y (m_hes m) -> ~ gone y -> h_rev m y = Some r -> gone r -> y = o0 \/ y = o1 \/ y = o2 \/ y = o3.
Proof.
  intros Hy G Er Gr. pose proof (rev_rev m W _ _ Hy Er) as E. openD.
  unfold gone in Gr; simpl in Gr. destruct Gr as [<-|[<-|[<-|[<-|[<-|[<-|[]]]]]]].
  - exfalso; apply G. unfold gone; simpl. assert (y = rev) by congruence. subst; tauto.
  - assert (y = o1) by congruence; tauto.
  - assert (y = o0) by congruence; tauto.
  - exfalso; apply G. unfold gone; simpl. assert (y = he) by congruence. subst; tauto.
  - assert (y = o3) by congruence; tauto.
  - assert (y = o2) by congruence; tauto.
Qed.

Lemma rv_oth y : In y (m_hes m) -> ~ gone y -> y <> o0 -> y <> o1 -> y <> o2 -> y <> o3 ->
  exists r, h_rev m' y = Some r /\ h_rev m y = Some r /\ In r (m_hes m) /\ ~ gone r /\ r <> o0 /\ r <> o1 /\ r <> o2 /\ r <> o3.
Proof.
  intros Hy G A0 A1 A2 A3. destruct (wf_rev m W _ Hy) as (r & Er & Jr). exists r.
  rewrite (c_rev _ _ _ _ _ _ _ _ _ _ _ _ _ _ _ _ _ _ T) by assumption.
  pose proof (rev_rev m W _ _ Hy Er) as E. destruct ofacts as (_ & _ & _ & _ & Q0 & Q1 & Q2 & Q3 & _).
  repeat split; try assumption.
  - intros Gr. destruct (rev_gone y r Hy G Er Gr) as [|[|[|]]]; contradiction.
  - intros ->. apply G. unfold gone; simpl. assert (y = hp) by congruence. subst; tauto.
  - intros ->. apply G. unfold gone; simpl. assert (y = hn) by congruence. subst; tauto.
  - intros ->. apply G. unfold gone; simpl. assert (y = rp) by congruence. subst; tauto.
  - intros ->. apply G. unfold gone; simpl. assert (y = rn) by congruence. subst; tauto.
Qed.

(** Destinations. *)
Lemma dst' y : In y (m_hes m') -> dst_of m' y = sg (dst_of m y).
Proof.
  intros Hy. apply in_hes in Hy as [Hy G]. destruct ofacts as (J0 & J1 & J2 & J3 & Q0 & Q1 & Q2 & Q3 & T0 & T1 & T2 & T3).
  destruct (c_rev_o _ _ _ _ _ _ _ _ _ _ _ _ _ _ _ _ _ _ T) as (P0 & P1 & P2 & P3).
  assert (U := D). destruct U as [_ _ _ _ _ _ _ _ _ _ _ _ _ _ _ _ _ _ _ _ S S0 S1 Sr S2 S3 _ _ _ _ _ _ _ UN _]. destruct UN as (? & ? & ? & ? & ?).
  unfold dst_of.
  destruct (Nat.eq_dec y o0) as [->|A0]; [rewrite P0, Q0, sr, T1, S1 by assumption; reflexivity|].
  destruct (Nat.eq_dec y o1) as [->|A1]; [rewrite P1, Q1, sr, T0, S0, sg_u2, sg_oth by (assumption || congruence); reflexivity|].
  destruct (Nat.eq_dec y o2) as [->|A2]; [rewrite P2, Q2, sr, T3, S3 by assumption; reflexivity|].
  destruct (Nat.eq_dec y o3) as [->|A3]; [rewrite P3, Q3, sr, T2, S2, sg_u2, sg_oth by (assumption || congruence); reflexivity|].
  destruct (rv_oth y Hy G A0 A1 A2 A3) as (r & E' & E & Jr & _). rewrite E', E. apply sr; exact Jr.
Qed.

(** Rotation. *)
Lemma rot_oth y : y <> o0 -> y <> o1 -> y <> o2 -> y <> o3 -> rot m' y = rot m y.
Proof.
  intros. unfold rot. rewrite (c_rev _ _ _ _ _ _ _ _ _ _ _ _ _ _ _ _ _ _ T) by assumption. rewrite nx. reflexivity.
Qed.
Lemma rot_o : rot m' o0 = rot m hn /\ rot m' o1 = rot m hp /\ rot m' o2 = rot m rn /\ rot m' o3 = rot m rp.
Proof.
  destruct (c_rev_o _ _ _ _ _ _ _ _ _ _ _ _ _ _ _ _ _ _ T) as (P0 & P1 & P2 & P3).
  unfold rot. rewrite P0, P1, P2, P3, nx, R0, R1, R2, R3. auto.
Qed.
Lemma rot_old : rot m o0 = Some he /\ rot m o1 = Some hp /\ rot m o2 = Some rev /\ rot m o3 = Some rp /\ rot m he = Some rn /\ rot m rev = Some hn.
Proof.
  destruct ofacts as (_ & _ & _ & _ & Q0 & Q1 & Q2 & Q3 & _). openD. unfold rot. rewrite Q0, Q1, Q2, Q3, R, Rr. repeat split; assumption.
Qed.

Lemma nodup_perm_in {X} (l l' : list X) : Permutation.Permutation l l' -> NoDup l -> NoDup l'.
Proof. intros; eapply Permutation.Permutation_NoDup; eassumption. Qed.

(** The ring of [v] starting at [h]. *)
Lemma ring_from h v : In h (m_hes m) -> h_src m h = Some v -> exists l, cyc (rot m) (h :: l) /\ NoDup (h :: l) /\ forall y, In y (h :: l) <-> In y (m_hes m) /\ h_src m y = Some v.
Proof. intros Hh Sh. destruct (vring_at m W h v Hh Sh) as (l & Hl). exists l. exact Hl. Qed.

Lemma ring_side (a x : nat) (v : nat) l : (* remove x, whose predecessor is a *)
  cyc (rot m) (x :: l) -> NoDup (x :: l) -> (forall y, In y (x :: l) <-> In y (m_hes m) /\ h_src m y = Some v) ->
  rot m a = Some x -> rot m' a = rot m x -> a <> x -> In a (m_hes m) -> h_src m a = Some v ->
  (forall y, In y l -> y <> a -> y <> o0 /\ y <> o1 /\ y <> o2 /\ y <> o3) ->
  cyc (rot m') l.
Proof.
  intros Hc Hnd Hin Ra Ra' Hax Ja Sa Ho.
  assert (Inx : In x (m_hes m)) by (apply Hin; left; reflexivity).
  assert (Il : In a l) by (destruct (proj2 (Hin a) (conj Ja Sa)); [congruence|assumption]).
  apply (cyc_drop (rot m) (rot m') x l Hc Hnd).
  - intros ->. contradiction.
  - intros y Hy Ey. assert (y = a). { apply (rot_inj m W y a x); [apply Hin; right; exact Hy|exact Ja|exact Ey|exact Ra]. } subst y. exact Ra'.
  - intros y Hy Ey. assert (y <> a) by (intros ->; contradiction). destruct (Ho y Hy H) as (? & ? & ? & ?). apply rot_oth; assumption.
Qed.

Lemma vrings' v : In v (m_verts m') ->
  exists l, cyc (rot m') l /\ forall y, In y (m_hes m') -> h_src m' y = Some v -> In y l.
Proof.
  intros Hv. apply in_verts in Hv as [Hv Hv2].
  destruct ofacts as (J0 & J1 & J2 & J3 & Q0 & Q1 & Q2 & Q3 & T0 & T1 & T2 & T3).
  destruct rot_o as (P0 & P1 & P2 & P3). destruct rot_old as (O0 & O1 & O2 & O3 & Oh & Or).
  pose proof U13 as U13. destruct odist as (? & ? & ? & ? & ? & ?). destruct oneq as [_ ON].
  assert (Hs : forall y, In y (m_hes m') -> h_src m' y = Some v -> v <> u0 -> In y (m_hes m) /\ h_src m y = Some v).
  { intros y Hy Sy Hn. apply in_hes in Hy as [Hy _]. rewrite sr in Sy by exact Hy. split; [exact Hy|].
    destruct (sg_cases (h_src m y)) as [[E1 E2]|[E1 E2]]; congruence. }
  destruct (Nat.eq_dec v u0) as [->|A0]; [|destruct (Nat.eq_dec v u1) as [->|A1]; [|destruct (Nat.eq_dec v u3) as [->|A3]]].
  - (* u0: both rings, without he, rn, rev, hn *)
    destruct (ring_from he u0) as (L0 & C0 & D0 & E0); [apply D|apply D|].
    destruct (ring_from rev u2) as (L2 & C2 & D2 & E2); [apply D|apply D|].
    assert (X := D). destruct X as [I Ir I0 I1 I2 I3 V0 V1 V2 V3 G0 G1 R Rr Nh N0 N1 Nr N2 N3 S S0 S1 Sr S2 S3 _ _ _ _ _ _ ND UN _].
    apply nodup6 in ND; destruct ND as (? & ? & ? & ? & ? & ? & ? & ? & ? & ? & ? & ? & ? & ? & ?).
    destruct UN as (? & ? & ? & ? & ?).
    destruct L0 as [|x0 L0]; [cbn [cyc chainto] in C0; congruence|]. destruct L2 as [|x2 L2]; [cbn [cyc chainto] in C2; congruence|].
    cbn [cyc chainto] in C0, C2. destruct C0 as [X0 C0], C2 as [X2 C2].
    assert (x0 = rn) by congruence; subst x0. assert (x2 = hn) by congruence; subst x2.
    assert (K0 : In o0 L0).
    { destruct (proj2 (E0 o0) (conj J0 T0)) as [E|[E|E]]; [subst o0; exfalso; apply (ON he); unfold gone; simpl; tauto|subst o0; exfalso; apply (ON rn); unfold gone; simpl; tauto|exact E]. }
    assert (K2 : In o2 L2).
    { destruct (proj2 (E2 o2) (conj J2 T2)) as [E|[E|E]]; [subst o2; exfalso; apply (ON rev); unfold gone; simpl; tauto|subst o2; exfalso; apply (ON hn); unfold gone; simpl; tauto|exact E]. }
    destruct L0 as [|a0 t0]; [contradiction|]. destruct L2 as [|a2 t2]; [contradiction|].
    cbn [chainto] in C0, C2. destruct C0 as [Y0 C0], C2 as [Y2 C2].
    assert (Z0 : chainto (rot m') a0 t0 a2).
    { apply (chainto_redirect (rot m) (rot m') a0 t0 he a2 C0).
      - inversion D0; subst. simpl in *; tauto.
      - intros y Hy Ey. assert (y = o0).
        { apply (rot_inj m W y o0 he); [apply E0; right; right; exact Hy|exact J0|exact Ey|exact O0]. } subst y. congruence.
      - intros y Hy Ey. assert (y <> o0) by (intros ->; contradiction).
        assert (Sy : h_src m y = Some u0) by (apply E0; right; right; exact Hy).
        apply rot_oth; [assumption| | |]; intros ->; congruence. }
    assert (Z2 : chainto (rot m') a2 t2 a0).
    { apply (chainto_redirect (rot m) (rot m') a2 t2 rev a0 C2).
      - inversion D2; subst. simpl in *; tauto.
      - intros y Hy Ey. assert (y = o2).
        { apply (rot_inj m W y o2 rev); [apply E2; right; right; exact Hy|exact J2|exact Ey|exact O2]. } subst y. congruence.
      - intros y Hy Ey. assert (y <> o2) by (intros ->; contradiction).
        assert (Sy : h_src m y = Some u2) by (apply E2; right; right; exact Hy).
        apply rot_oth; [| |assumption|]; intros ->; congruence. }
    exists ((a0 :: t0) ++ a2 :: t2). split.
    + cbn [app cyc]. apply chainto_app. split; assumption.
    + intros y Hy Sy. apply in_hes in Hy as [Hy G]. rewrite sr in Sy by exact Hy. apply in_or_app.
      destruct (sg_cases (h_src m y)) as [[F1 F2]|[F1 F2]].
      * right. destruct (proj2 (E2 y) (conj Hy F1)) as [E|[E|E]]; [exfalso; apply G; unfold gone; simpl; tauto|exfalso; apply G; unfold gone; simpl; tauto|exact E].
      * left. rewrite F2 in Sy. destruct (proj2 (E0 y) (conj Hy Sy)) as [E|[E|E]]; [exfalso; apply G; unfold gone; simpl; tauto|exfalso; apply G; unfold gone; simpl; tauto|exact E].
  - destruct (ring_from hp u1) as (l & Cl & Dl & El); [apply D|apply D|].
    exists l. split.
    + apply (ring_side o1 hp u1 l Cl Dl El O1 P1); [intros E; apply (ON o1); [simpl; tauto|rewrite E; unfold gone; simpl; tauto]|exact J1|exact T1|].
      intros y Hy Ey. assert (Sy : h_src m y = Some u1) by (apply El; right; exact Hy).
      repeat split; [|exact Ey| |]; intros ->; congruence.
    + intros y Hy Sy. destruct (Hs y Hy Sy A0) as [Jy Sy']. destruct (proj2 (El y) (conj Jy Sy')) as [E|E]; [|exact E].
      exfalso. apply in_hes in Hy as [_ G]. apply G. rewrite <- E. unfold gone; simpl; tauto.
  - destruct (ring_from rp u3) as (l & Cl & Dl & El); [apply D|apply D|].
    exists l. split.
    + apply (ring_side o3 rp u3 l Cl Dl El O3 P3); [intros E; apply (ON o3); [simpl; tauto|rewrite E; unfold gone; simpl; tauto]|exact J3|exact T3|].
      intros y Hy Ey. assert (Sy : h_src m y = Some u3) by (apply El; right; exact Hy).
      repeat split; [| | |exact Ey]; intros ->; congruence.
    + intros y Hy Sy. destruct (Hs y Hy Sy A0) as [Jy Sy']. destruct (proj2 (El y) (conj Jy Sy')) as [E|E]; [|exact E].
      exfalso. apply in_hes in Hy as [_ G]. apply G. rewrite <- E. unfold gone; simpl; tauto.
  - destruct (vring m W v Hv) as (h & l & Eh & Cl & Dl & El). exists (h :: l). split.
    + apply (cyc_ext (rot m)); [|exact Cl]. intros y Hy. apply El in Hy as [Jy Sy]. symmetry; apply rot_oth; intros ->; congruence.
    + intros y Hy Sy. apply El. apply Hs; assumption.
Qed.

Lemma u0_kept : In u0 (m_verts m').
Proof. apply in_verts. split; [apply D|]. pose proof (d_uneq _ _ _ _ _ _ _ _ _ _ _ _ _ D). tauto. Qed.

Lemma src_cases y : In y (m_hes m') -> exists v, h_src m' y = Some v /\ In v (m_verts m').
Proof.
  intros Hy. apply in_hes in Hy as [Hy G]. rewrite sr by exact Hy.
  destruct (wf_src m W _ Hy) as (v & Ev & Jv). rewrite Ev.
  destruct (sg_cases (Some v)) as [[E1 E2]|[E1 E2]]; rewrite E2; eexists; (split; [reflexivity|]); [exact u0_kept|].
  apply in_verts. split; [exact Jv|congruence].
Qed.

Lemma face_cases y : In y (m_hes m') -> exists f, h_face m' y = Some f /\ In f (m_faces m').
Proof.
  intros Hy. apply in_hes in Hy as [Hy G]. rewrite fc. destruct (wf_face m W _ Hy) as (f & Ef & Jf).
  exists f. split; [exact Ef|]. apply in_faces. split; [exact Jf|]. rewrite gone_face in G by exact Hy. split; intros ->; tauto.
Qed.

Lemma rev_cases y : In y (m_hes m') -> exists r, h_rev m' y = Some r /\ In r (m_hes m') /\ h_rev m' r = Some y /\ r <> y.
Proof.
  intros Hy. apply in_hes in Hy as [Hy G].
  destruct ofacts as (J0 & J1 & J2 & J3 & Q0 & Q1 & Q2 & Q3 & T0 & T1 & T2 & T3).
  destruct odist as (? & ? & ? & ? & ? & ?). destruct oneq as [_ ON].
  destruct (c_rev_o _ _ _ _ _ _ _ _ _ _ _ _ _ _ _ _ _ _ T) as (P0 & P1 & P2 & P3).
  destruct (Nat.eq_dec y o0) as [->|A0]; [exists o1; rewrite in_hes; repeat split; auto; apply ON; simpl; tauto|].
  destruct (Nat.eq_dec y o1) as [->|A1]; [exists o0; rewrite in_hes; repeat split; auto; apply ON; simpl; tauto|].
  destruct (Nat.eq_dec y o2) as [->|A2]; [exists o3; rewrite in_hes; repeat split; auto; apply ON; simpl; tauto|].
  destruct (Nat.eq_dec y o3) as [->|A3]; [exists o2; rewrite in_hes; repeat split; auto; apply ON; simpl; tauto|].
  destruct (rv_oth y Hy G A0 A1 A2 A3) as (r & E' & E & Jr & Gr & B0 & B1 & B2 & B3).
  exists r. rewrite in_hes. repeat split; auto.
  - rewrite (c_rev _ _ _ _ _ _ _ _ _ _ _ _ _ _ _ _ _ _ T) by assumption. apply (rev_rev m W); assumption.
  - apply (rev_neq m W); assumption.
Qed.

Lemma next_cases y : In y (m_hes m') -> exists n, h_next m' y = Some n /\ In n (m_hes m') /\ h_src m' n = dst_of m' y.
Proof.
  intros Hy. rewrite dst' by exact Hy. apply in_hes in Hy as [Hy G]. rewrite nx.
  destruct (wf_next m W _ Hy) as (n & En & Jn). exists n. split; [exact En|]. split.
  - apply in_hes. split; [exact Jn|]. exact (next_kept y n Hy G En).
  - rewrite sr by exact Jn. f_equal. symmetry. eapply dst_next; [exact W|exact Hy|exact En].
Qed.

Lemma listok_elem (l : list nat) live idx i x : ListOk l live idx -> nth_error l i = Some x -> live x = true /\ idx x = Z.of_nat i.
Proof. intros [_ H] E. exact (H _ _ E). Qed.

Lemma collapse_WF : WF m'.
Proof.
  constructor.
  - apply (c_v_ok _ _ _ _ _ _ _ _ _ _ _ _ _ _ _ _ _ _ T).
  - apply (c_h_ok _ _ _ _ _ _ _ _ _ _ _ _ _ _ _ _ _ _ T).
  - apply (c_f_ok _ _ _ _ _ _ _ _ _ _ _ _ _ _ _ _ _ _ T).
  - intros i x E. destruct (listok_elem _ _ _ _ _ (c_v_ok _ _ _ _ _ _ _ _ _ _ _ _ _ _ _ _ _ _ T) E) as [A B].
    repeat split; [exact A|exact B|]. rewrite (c_fresh _ _ _ _ _ _ _ _ _ _ _ _ _ _ _ _ _ _ T). apply (v_lt m W), in_verts. eapply nth_error_In; exact E.
  - intros i x E. destruct (listok_elem _ _ _ _ _ (c_h_ok _ _ _ _ _ _ _ _ _ _ _ _ _ _ _ _ _ _ T) E) as [A B].
    repeat split; [exact A|exact B|]. rewrite (c_fresh _ _ _ _ _ _ _ _ _ _ _ _ _ _ _ _ _ _ T). apply (h_lt m W), in_hes. eapply nth_error_In; exact E.
  - intros i x E. destruct (listok_elem _ _ _ _ _ (c_f_ok _ _ _ _ _ _ _ _ _ _ _ _ _ _ _ _ _ _ T) E) as [A B].
    repeat split; [exact A|exact B|]. rewrite (c_fresh _ _ _ _ _ _ _ _ _ _ _ _ _ _ _ _ _ _ T). apply (f_lt m W), in_faces. eapply nth_error_In; exact E.
  - exact src_cases.
  - intros y Hy. destruct (next_cases y Hy) as (n & E & J & _). eauto.
  - intros y Hy. destruct (rev_cases y Hy) as (n & E & J & _). eauto.
  - exact face_cases.
  - intros y r Hy E. destruct (rev_cases y Hy) as (r' & E' & _ & H). rewrite E in E'; injection E' as <-. exact H.
  - intros y n r Hy En Er. destruct (next_cases y Hy) as (n' & E' & _ & H). rewrite En in E'; injection E' as <-.
    rewrite H. unfold dst_of. rewrite Er. reflexivity.
  - intros v Hv. apply in_verts in Hv as [Hv Hv2]. destruct (c_vhe _ _ _ _ _ _ _ _ _ _ _ _ _ _ _ _ _ _ T) as (A & B & E).
    destruct ofacts as (J0 & J1 & J2 & J3 & Q0 & Q1 & Q2 & Q3 & T0 & T1 & T2 & T3). destruct oneq as [_ ON].
    pose proof (d_uneq _ _ _ _ _ _ _ _ _ _ _ _ _ D) as (? & ? & ? & ? & ?).
    destruct (Nat.eq_dec v u0) as [->|E0].
    { exists o0. split; [exact A|]. rewrite in_hes, sr, T0, sg_oth by (assumption || congruence). repeat split; auto. apply ON; simpl; tauto. }
    destruct (Nat.eq_dec v u1) as [->|E1].
    { exists o1. split; [exact B|]. rewrite in_hes, sr, T1, sg_oth by (assumption || congruence). repeat split; auto. apply ON; simpl; tauto. }
    destruct (Nat.eq_dec v u3) as [->|E3].
    { exists o3. split; [exact E|]. rewrite in_hes, sr, T3, sg_oth by (assumption || congruence). repeat split; auto. apply ON; simpl; tauto. }
    destruct (wf_vhe m W v Hv) as (h & Eh & Jh & Sh). exists h.
    rewrite (c_vhe_oth _ _ _ _ _ _ _ _ _ _ _ _ _ _ _ _ _ _ T v E0 E1 Hv2 E3). split; [exact Eh|].
    rewrite in_hes, sr, Sh, sg_oth by (assumption || congruence). split; [split; [exact Jh|]|reflexivity].
    openD. intros G; unfold gone in G; simpl in G. destruct G as [<-|[<-|[<-|[<-|[<-|[<-|[]]]]]]]; congruence.
  - intros f Hf. apply in_faces in Hf as (Hf & E0 & E1). destruct (wf_fhe m W f Hf) as (h & Eh & Jh & Fh). exists h.
    rewrite (c_fhe _ _ _ _ _ _ _ _ _ _ _ _ _ _ _ _ _ _ T), fc, in_hes, gone_face by exact Jh. repeat split; auto. rewrite Fh. intros [X|X]; congruence.
  - intros y n Hy En. rewrite fc. rewrite nx in En. apply in_hes in Hy as [Hy _]. apply (wf_face_next m W); assumption.
  - intros h h' Hh Hh' E. rewrite fc in E. rewrite nx. apply in_hes in Hh as [Hh _]. apply in_hes in Hh' as [Hh' _]. apply (wf_face_orbit m W); assumption.
  - intros h h' Hh Hh' E. destruct (src_cases h Hh) as (v & Ev & Jv).
    destruct (vrings' v Jv) as (l & Hc & Hl).
    eapply cyc_reaches; [exact Hc|apply Hl; assumption|apply Hl; [assumption|congruence]].
Qed.

Lemma dst_some y : In y (m_hes m) -> exists r b, h_rev m y = Some r /\ In r (m_hes m) /\ h_src m r = Some b /\ dst_of m y = Some b.
Proof.
  intros Hy. destruct (wf_rev m W _ Hy) as (r & Er & Jr). destruct (wf_src m W _ Jr) as (b & Eb & _).
  exists r, b. unfold dst_of. rewrite Er. auto.
Qed.

Lemma edge02 y : In y (m_hes m) -> h_src m y = Some u0 -> dst_of m y = Some u2 -> y = he.
Proof.
  intros Hy Sy Dy. openD. apply (valid_noparallel m V); [exact Hy|exact I|congruence|]. unfold dst_of at 2. rewrite R, Sr. exact Dy.
Qed.
Lemma edge20 y : In y (m_hes m) -> h_src m y = Some u2 -> dst_of m y = Some u0 -> y = rev.
Proof.
  intros Hy Sy Dy. openD. apply (valid_noparallel m V); [exact Hy|exact Ir|congruence|]. unfold dst_of at 2. rewrite Rr, S. exact Dy.
Qed.

Lemma collapse_noloops : NoLoops m'.
Proof.
  intros y Hy E. rewrite dst' in E by exact Hy. apply in_hes in Hy as [Hy G]. rewrite sr in E by exact Hy.
  pose proof (valid_noloops m V y Hy) as L.
  destruct (sg_cases (dst_of m y)) as [[A1 A2]|[A1 A2]], (sg_cases (h_src m y)) as [[B1 B2]|[B1 B2]]; rewrite A2, B2 in E.
  - congruence.
  - apply G. rewrite (edge02 y Hy (eq_sym E) A1). unfold gone; simpl; tauto.
  - apply G. rewrite (edge20 y Hy B1 E). unfold gone; simpl; tauto.
  - congruence.
Qed.

(** No kept pair of half-edges u0 -> w, u2 -> w. *)
Lemma common_gone y z w : In y (m_hes m) -> In z (m_hes m) -> h_src m y = Some u0 -> dst_of m y = Some w ->
    h_src m z = Some u2 -> dst_of m z = Some w -> gone y \/ gone z.
Proof.
  intros Hy Hz Sy Dy Sz Dz. destruct (cc_common _ _ _ _ _ _ _ _ _ _ _ _ _ C y z w Hy Hz Sy Dy Sz Dz) as [->| ->].
  - right. assert (z = hn); [|subst; unfold gone; simpl; tauto]. openD.
    apply (valid_noparallel m V); [exact Hz|exact I0|congruence|]. rewrite (dst_next m _ _ W I0 N0), S1. exact Dz.
  - left. assert (y = rn); [|subst; unfold gone; simpl; tauto]. openD.
    apply (valid_noparallel m V); [exact Hy|exact I2|congruence|]. rewrite (dst_next m _ _ W I2 N2), S3. exact Dy.
Qed.
Lemma common_gone' y z w : In y (m_hes m) -> In z (m_hes m) -> dst_of m y = Some u0 -> h_src m y = Some w ->
    dst_of m z = Some u2 -> h_src m z = Some w -> gone y \/ gone z.
Proof.
  intros Hy Hz Dy Sy Dz Sz.
  destruct (dst_some y Hy) as (ry & b & Ry & Jy & By & Ey). assert (b = u0) by congruence; subst b.
  destruct (dst_some z Hz) as (rz & b & Rz & Jz & Bz & Ez). assert (b = u2) by congruence; subst b.
  assert (Dry : dst_of m ry = Some w) by (unfold dst_of; rewrite (rev_rev m W _ _ Hy Ry); exact Sy).
  assert (Drz : dst_of m rz = Some w) by (unfold dst_of; rewrite (rev_rev m W _ _ Hz Rz); exact Sz).
  destruct (cc_common _ _ _ _ _ _ _ _ _ _ _ _ _ C ry rz w Jy Jz By Dry Bz Drz) as [->| ->].
  - left. assert (y = hp); [|subst; unfold gone; simpl; tauto]. openD.
    apply (valid_noparallel m V); [exact Hy|exact I1|congruence|]. rewrite (dst_next m _ _ W I1 N1), S. exact Dy.
  - right. assert (z = rp); [|subst; unfold gone; simpl; tauto]. openD.
    apply (valid_noparallel m V); [exact Hz|exact I3|congruence|]. rewrite (dst_next m _ _ W I3 N3), Sr. exact Dz.
Qed.

Lemma collapse_noparallel : NoParallel m'.
Proof.
  intros y z Hy Hz Es Ed. pose proof (collapse_noloops y Hy) as L. rewrite (dst' y Hy) in L, Ed. rewrite (dst' z Hz) in Ed.
  apply in_hes in Hy as [Hy Gy]. apply in_hes in Hz as [Hz Gz]. rewrite !sr in Es by assumption. rewrite sr in L by exact Hy.
  destruct (wf_src m W _ Hy) as (a & Ea & _). destruct (wf_src m W _ Hz) as (c & Ec & _).
  destruct (dst_some y Hy) as (_ & b & _ & _ & _ & Eb). destruct (dst_some z Hz) as (_ & d & _ & _ & _ & E'd).
  pose proof (valid_noparallel m V y z Hy Hz) as NP. pose proof (d_uneq _ _ _ _ _ _ _ _ _ _ _ _ _ D) as (? & ? & ? & ? & ?).
  rewrite Ea, Ec, Eb, E'd in *.
  destruct (sg_cases (Some a)) as [[A1 A2]|[A1 A2]], (sg_cases (Some c)) as [[B1 B2]|[B1 B2]],
   (sg_cases (Some b)) as [[X1 X2]|[X1 X2]], (sg_cases (Some d)) as [[Y1 Y2]|[Y1 Y2]];
   rewrite ?A2, ?B2, ?X2, ?Y2 in *; try (exfalso; congruence); try (apply NP; congruence); exfalso.
  all: try (destruct (common_gone y z b Hy Hz) as [G|G]; [congruence|congruence|congruence|congruence|contradiction|contradiction]).
  all: try (destruct (common_gone z y b Hz Hy) as [G|G]; [congruence|congruence|congruence|congruence|contradiction|contradiction]).
  all: try (destruct (common_gone' y z a Hy Hz) as [G|G]; [congruence|congruence|congruence|congruence|contradiction|contradiction]).
  all: try (destruct (common_gone' z y a Hz Hy) as [G|G]; [congruence|congruence|congruence|congruence|contradiction|contradiction]).
Qed.

Lemma collapse_tri : TriFaces m'.
Proof.
  intros y Hy B. rewrite nx. rewrite bd in B. apply in_hes in Hy as [Hy _]. apply (valid_tri m V); assumption.
Qed.

Lemma collapse_Valid : Valid m'.
Proof. constructor; [exact collapse_WF|exact collapse_noloops|exact collapse_noparallel|exact collapse_tri]. Qed.

End CollapseV.
