(** holeFillAdvancingFront: merging two neighbours on the front keeps the mesh well formed. *)
From Coq Require Import List ZArith Arith Lia Bool.
From Verif Require Import Num Vec Heap Mesh Spec Orbit Rings Remove FrontF.
Import ListNotations.

Section F.
Context {N : Num}.
Implicit Types m : mesh N.

(** The half-edge [he] of [f], from v0 to v1, is removed with the triangle (h0, h1, h2) on its other side. *)
Record Joined m m' (f g he hp hn h0 h1 h2 r1 r2 v0 v1 v2 : nat) : Prop := {
  jn_lists : Lists m';
  jn_fresh : m_fresh m' = m_fresh m;
  jn_verts : (forall v, In v (m_verts m') <-> In v (m_verts m) /\ v <> v0) /\ S (length (m_verts m')) = length (m_verts m);
  jn_hes : (forall h, In h (m_hes m') <-> In h (m_hes m) /\ h <> he /\ h <> h0 /\ h <> h1 /\ h <> h2) /\ 4 + length (m_hes m') = length (m_hes m);
  jn_faces : (forall g', In g' (m_faces m') <-> In g' (m_faces m) /\ g' <> g) /\ S (length (m_faces m')) = length (m_faces m);
  jn_src : forall h, In h (m_hes m) -> h_src m' h = if ptr_eqb (h_src m h) (Some v0) then Some v1 else h_src m h;
  jn_next : forall h, h_next m' h = if h =? hp then Some hn else h_next m h;
  jn_rev : h_rev m' r1 = Some r2 /\ h_rev m' r2 = Some r1 /\ forall h, h <> r1 -> h <> r2 -> h_rev m' h = h_rev m h;
  jn_face : forall h, h_face m' h = h_face m h;
  jn_bd : forall h, h_bd m' h = h_bd m h;
  jn_lock : forall v, v_lock m' v = v_lock m v;
  jn_pos : forall v, v <> v1 -> v_pos m' v = v_pos m v;
  jn_mid : v_pos m' v1 = vscale nhalf (vadd (v_pos m v0) (v_pos m v1));
  jn_vhe : v_he m' v1 = Some r2 /\ v_he m' v2 = Some r1 /\ forall v, v <> v1 -> v <> v2 -> v_he m' v = v_he m v;
  jn_fhe : f_he m' f = Some hn /\ forall g', g' <> f -> f_he m' g' = f_he m g';
  jn_vfix : forall i v, nth_error (m_verts m) i = Some v -> (forall j, nth_error (m_verts m) j = Some v0 -> i < j) -> nth_error (m_verts m') i = Some v;
  jn_ffix : forall i v, nth_error (m_faces m) i = Some v -> (forall j, nth_error (m_faces m) j = Some g -> i < j) -> nth_error (m_faces m') i = Some v;
  jn_ind : m_indices m' = m_indices m }.

Section W.
Variables (m m' : mesh N) (f g he hp hn h0 h1 h2 r1 r2 v0 v1 v2 : nat).
Hypothesis W : WF m.
Hypothesis NL : NoLoops m.
Hypothesis Ihe : In he (m_hes m).
Hypothesis Ihp : In hp (m_hes m).
Hypothesis Fhe : h_face m he = Some f.
Hypothesis Nhe : h_next m he = Some hn.
Hypothesis Nhp : h_next m hp = Some he.
Hypothesis Rhe : h_rev m he = Some h0.
Hypothesis N0 : h_next m h0 = Some h1.
Hypothesis N1 : h_next m h1 = Some h2.
Hypothesis N2 : h_next m h2 = Some h0.
Hypothesis F0 : h_face m h0 = Some g.
Hypothesis Dfg : g <> f.
Hypothesis R1 : h_rev m h1 = Some r1.
Hypothesis R2 : h_rev m h2 = Some r2.
Hypothesis S0 : h_src m he = Some v0.
Hypothesis S1 : h_src m h0 = Some v1.
Hypothesis S2 : h_src m h2 = Some v2.
Hypothesis J : Joined m m' f g he hp hn h0 h1 h2 r1 r2 v0 v1 v2.

Lemma i0 : In h0 (m_hes m). Proof. exact (rev_in m W he h0 Ihe Rhe). Qed.
Lemma i1 : In h1 (m_hes m). Proof. exact (next_in m W h0 h1 i0 N0). Qed.
Lemma i2 : In h2 (m_hes m). Proof. exact (next_in m W h1 h2 i1 N1). Qed.
Lemma in_hn : In hn (m_hes m). Proof. exact (next_in m W he hn Ihe Nhe). Qed.
Lemma ir1 : In r1 (m_hes m). Proof. exact (rev_in m W h1 r1 i1 R1). Qed.
Lemma ir2 : In r2 (m_hes m). Proof. exact (rev_in m W h2 r2 i2 R2). Qed.
Lemma f1 : h_face m h1 = Some g. Proof. rewrite (wf_face_next m W h0 h1 i0 N0). exact F0. Qed.
Lemma f2 : h_face m h2 = Some g. Proof. rewrite (wf_face_next m W h1 h2 i1 N1). exact f1. Qed.
Lemma fn : h_face m hn = Some f. Proof. rewrite (wf_face_next m W he hn Ihe Nhe). exact Fhe. Qed.
Lemma fp : h_face m hp = Some f. Proof. rewrite <- (wf_face_next m W hp he Ihp Nhp). exact Fhe. Qed.
Lemma rev0 : h_rev m h0 = Some he. Proof. exact (rev_rev m W he h0 Ihe Rhe). Qed.
Lemma revr1 : h_rev m r1 = Some h1. Proof. exact (rev_rev m W h1 r1 i1 R1). Qed.
Lemma revr2 : h_rev m r2 = Some h2. Proof. exact (rev_rev m W h2 r2 i2 R2). Qed.
Lemma s1 : h_src m h1 = Some v0. Proof. rewrite (wf_dst m W h0 h1 he i0 N0 rev0). exact S0. Qed.
Lemma sn : h_src m hn = Some v1. Proof. rewrite (wf_dst m W he hn h0 Ihe Nhe Rhe). exact S1. Qed.
Lemma sr1 : h_src m r1 = Some v2. Proof. rewrite <- (wf_dst m W h1 h2 r1 i1 N1 R1). exact S2. Qed.
Lemma sr2 : h_src m r2 = Some v1. Proof. rewrite <- (wf_dst m W h2 h0 r2 i2 N2 R2). exact S1. Qed.
Lemma loop h r v : In h (m_hes m) -> h_rev m h = Some r -> h_src m h = Some v -> h_src m r <> Some v.
Proof. intros I R E K. apply (NL h I). unfold dst_of. rewrite R, K, E. reflexivity. Qed.
Lemma d01 : v0 <> v1. Proof. intros E. apply (loop he h0 v0 Ihe Rhe S0). rewrite E. exact S1. Qed.
Lemma d02 : v0 <> v2. Proof. intros E. apply (loop h1 r1 v0 i1 R1 s1). rewrite E. exact sr1. Qed.
Lemma d12 : v1 <> v2. Proof. intros E. apply (loop h2 r2 v2 i2 R2 S2). rewrite <- E. exact sr2. Qed.
Lemma in_v0 : In v0 (m_verts m). Proof. exact (src_in m W he v0 Ihe S0). Qed.
Lemma in_v1 : In v1 (m_verts m). Proof. exact (src_in m W h0 v1 i0 S1). Qed.
Lemma in_v2 : In v2 (m_verts m). Proof. exact (src_in m W h2 v2 i2 S2). Qed.
Lemma in_f : In f (m_faces m). Proof. exact (face_in m W he f Ihe Fhe). Qed.
Lemma in_g : In g (m_faces m). Proof. exact (face_in m W h0 g i0 F0). Qed.

Definition kept (h : nat) : Prop := h <> he /\ h <> h0 /\ h <> h1 /\ h <> h2.
Lemma in' h : In h (m_hes m') <-> In h (m_hes m) /\ kept h.
Proof. exact (proj1 (jn_hes _ _ _ _ _ _ _ _ _ _ _ _ _ _ _ J) h). Qed.
Lemma kp : kept hp.
Proof.
  assert (Q1 := F0). assert (Q2 := f1). assert (Q3 := f2). assert (Q4 := fp).
  split; [|split; [congruence|split; congruence]]. intros E. assert (Q := Nhp). rewrite E, Nhe in Q. injection Q as Q. assert (Z := sn). rewrite Q, S0 in Z. injection Z as Z. exact (d01 Z).
Qed.
Lemma kn : kept hn.
Proof.
  assert (Q1 := F0). assert (Q2 := f1). assert (Q3 := f2). assert (Q4 := fn). split; [|split; [congruence|split; congruence]]. intros E.
  assert (Z := sn). rewrite E, S0 in Z. injection Z as Z. exact (d01 Z).
Qed.
Lemma k1 : kept r1.
Proof.
  assert (Q1 := sr1). assert (Q2 := s1). assert (Q3 := d02). assert (Q4 := d12). split; [congruence|]. split; [congruence|]. split; [congruence|].
  intros E. assert (Z := revr1). rewrite E, R2 in Z. injection Z as Z. assert (Z2 := sr2). rewrite Z, Q2 in Z2. injection Z2 as Z2. exact (d01 Z2).
Qed.
Lemma k2 : kept r2.
Proof.
  assert (Q1 := sr2). assert (Q2 := s1). assert (Q3 := d01). assert (Q4 := d12). split; [congruence|]. split; [|split; congruence].
  intros E. assert (Z := revr2). rewrite E, rev0 in Z. injection Z as Z. apply d02. congruence.
Qed.
Lemma d12r : r1 <> r2. Proof. assert (Q1 := sr1). assert (Q2 := sr2). assert (Q := d12). congruence. Qed.
Lemma dp2 : hp <> r2.
Proof.
  intros E. destruct (wf_rev m W hp Ihp) as (r & Er & Ir). assert (Q := wf_dst m W hp he r Ihp Nhp Er). rewrite E, revr2 in Er. injection Er as <-. rewrite S0, S2 in Q. injection Q as Q. exact (d02 Q).
Qed.

Lemma src'_of h : In h (m_hes m) -> h_src m' h = if ptr_eqb (h_src m h) (Some v0) then Some v1 else h_src m h.
Proof. exact (jn_src _ _ _ _ _ _ _ _ _ _ _ _ _ _ _ J h). Qed.
Lemma src'_v0 h : In h (m_hes m) -> h_src m h = Some v0 -> h_src m' h = Some v1.
Proof. intros I E. rewrite (src'_of h I), E, ptr_eqb_refl. reflexivity. Qed.
Lemma src'_other h v : In h (m_hes m) -> h_src m h = Some v -> v <> v0 -> h_src m' h = Some v.
Proof. intros I E D. rewrite (src'_of h I), E. replace (ptr_eqb (Some v) (Some v0)) with false by (symmetry; apply ptr_eqb_neq; congruence). reflexivity. Qed.
Lemma src'_inv h v : In h (m_hes m) -> h_src m' h = Some v -> (v = v1 /\ h_src m h = Some v0) \/ (v <> v0 /\ h_src m h = Some v).
Proof.
  intros I E. destruct (wf_src m W h I) as (u & Eu & _). destruct (Nat.eq_dec u v0) as [->|D].
  - rewrite (src'_v0 h I Eu) in E. injection E as <-. auto.
  - rewrite (src'_other h u I Eu D) in E. injection E as <-. auto.
Qed.
Lemma next'_hp : h_next m' hp = Some hn. Proof. rewrite (jn_next _ _ _ _ _ _ _ _ _ _ _ _ _ _ _ J), Nat.eqb_refl. reflexivity. Qed.
Lemma next'_other h : h <> hp -> h_next m' h = h_next m h.
Proof. intros D. rewrite (jn_next _ _ _ _ _ _ _ _ _ _ _ _ _ _ _ J). destruct (Nat.eqb_spec h hp); [contradiction|reflexivity]. Qed.
Lemma next_keeps h z : In h (m_hes m) -> kept h -> h <> hp -> h_next m h = Some z -> kept z.
Proof.
  intros I (D1 & D2 & D3 & D4) Dp E. split; [|split; [|split]]; intros ->.
  - apply Dp. exact (next_inj m W h hp he I Ihp E Nhp).
  - apply D4. exact (next_inj m W h h2 h0 I i2 E N2).
  - apply D2. exact (next_inj m W h h0 h1 I i0 E N0).
  - apply D3. exact (next_inj m W h h1 h2 I i1 E N1).
Qed.
Lemma rev_keeps h z : In h (m_hes m) -> kept h -> h <> r1 -> h <> r2 -> h_rev m h = Some z -> kept z.
Proof.
  intros I (D1 & D2 & D3 & D4) Dr1 Dr2 E. assert (Q := rev_rev m W h z I E). split; [|split; [|split]]; intros ->.
  - rewrite Rhe in Q. congruence.
  - rewrite rev0 in Q. congruence.
  - rewrite R1 in Q. congruence.
  - rewrite R2 in Q. congruence.
Qed.
Lemma rev'_1 : h_rev m' r1 = Some r2. Proof. apply (jn_rev _ _ _ _ _ _ _ _ _ _ _ _ _ _ _ J). Qed.
Lemma rev'_2 : h_rev m' r2 = Some r1. Proof. apply (jn_rev _ _ _ _ _ _ _ _ _ _ _ _ _ _ _ J). Qed.
Lemma rev'_o h : h <> r1 -> h <> r2 -> h_rev m' h = h_rev m h. Proof. apply (jn_rev _ _ _ _ _ _ _ _ _ _ _ _ _ _ _ J). Qed.

(** ** Rotation *)
Lemma revp : exists rp, h_rev m hp = Some rp /\ In rp (m_hes m) /\ h_src m rp = Some v0 /\ h_rev m rp = Some hp /\ rot m rp = Some he.
Proof.
  destruct (wf_rev m W hp Ihp) as (r & E & I). exists r. assert (Q := rev_rev m W hp r Ihp E). split; [exact E|]. split; [exact I|]. split; [rewrite <- (wf_dst m W hp he r Ihp Nhp E); exact S0|].
  split; [exact Q|]. unfold rot. rewrite Q. exact Nhp.
Qed.
Lemma rot'_same h : In h (m_hes m) -> h <> r1 -> h <> r2 -> h_rev m h <> Some hp -> rot m' h = rot m h.
Proof.
  intros I D1 D2 Dp. unfold rot. rewrite (rev'_o h D1 D2). destruct (wf_rev m W h I) as (r & E & _). rewrite E in *. apply next'_other. congruence.
Qed.
Lemma ring2 : exists L2, Vring m v2 (h2 :: L2) /\ cyc (rot m') L2.
Proof.
  destruct (vring_at m W h2 v2 i2 S2) as (L2 & R). exists L2. split; [exact R|]. destruct R as (C & ND & RI).
  assert (RO : rot m r1 = Some h2) by (unfold rot; rewrite revr1; exact N1).
  assert (I1 : In r1 L2) by (assert (K : In r1 (h2 :: L2)) by (apply RI; split; [exact ir1|exact sr1]); destruct K as [K | K]; [exfalso; apply (proj2 (proj2 (proj2 k1))); auto|exact K]).
  assert (RL : forall y, In y L2 -> In y (m_hes m) /\ h_src m y = Some v2) by (intros y Iy; apply RI; right; exact Iy).
  apply (cyc_drop (rot m) (rot m') h2 L2 C ND).
  - intros E. rewrite E in I1. destruct I1.
  - intros y Iy E. destruct (RL y Iy) as [Iy' _]. assert (y = r1) by exact (rot_inj m W y r1 h2 Iy' ir1 E RO). subst y. unfold rot. rewrite rev'_1, R2. apply next'_other. intros K. apply dp2. auto.
  - intros y Iy E. destruct (RL y Iy) as [Iy' Sy]. apply rot'_same; [exact Iy'| | |].
    + intros ->. exact (E RO).
    + intros ->. rewrite sr2 in Sy. injection Sy as Sy. exact (d12 Sy).
    + intros K. destruct revp as (rp & Ep & Irp & Sp & Rp & _). assert (K2 := rev_rev m W y hp Iy' K). rewrite Ep in K2. injection K2 as ->. rewrite Sp in Sy. injection Sy as Sy. exact (d02 Sy).
Qed.
Lemma ring01 : exists L0 L1, Vring m v0 (he :: h1 :: L0) /\ Vring m v1 (h0 :: L1) /\ cyc (rot m') (L1 ++ L0).
Proof.
  destruct (vring_at m W he v0 Ihe S0) as (L & R). destruct (vring_at m W h0 v1 i0 S1) as (L1 & Q).
  assert (RH : rot m he = Some h1) by (unfold rot; rewrite Rhe; exact N0).
  assert (D1 : he <> h1) by (assert (Q2 := f1); congruence).
  destruct L as [|x L0]; [destruct R as (C & _ & _); cbn [cyc chainto] in C; congruence|].
  assert (x = h1) by (destruct R as (C & _ & _); cbn [cyc chainto] in C; destruct C as [C _]; congruence). subst x.
  exists L0, L1. split; [exact R|]. split; [exact Q|]. destruct R as (C & ND & RI), Q as (C1 & ND1 & RI1).
  assert (RO1 : rot m r2 = Some h0) by (unfold rot; rewrite revr2; exact N2).
  assert (I2 : In r2 L1) by (assert (K : In r2 (h0 :: L1)) by (apply RI1; split; [exact ir2|exact sr2]); destruct K as [K | K]; [exfalso; apply (proj1 (proj2 k2)); auto|exact K]).
  assert (RH0 : rot m h0 = Some hn) by (unfold rot; rewrite rev0; exact Nhe).
  destruct L1 as [|x t1]; [destruct I2|]. cbn [cyc chainto] in C1. destruct C1 as [C0 C1]. rewrite RH0 in C0. injection C0 as <-.
  assert (RL1 : forall y, In y (hn :: t1) -> In y (m_hes m) /\ h_src m y = Some v1) by (intros y Iy; apply RI1; right; exact Iy).
  destruct revp as (rp & Ep & Irp & Sp & Rp & RTp). assert (RH1 : rot m h1 = h_next m r1) by (unfold rot; rewrite R1; reflexivity).
  assert (E2 : rot m' r2 = h_next m' r1) by (unfold rot; rewrite rev'_2; reflexivity).
  assert (NI1 : ~ In h0 (hn :: t1)) by (inversion ND1; assumption).
  assert (T1 : forall z, rot m' r2 = Some z -> chainto (rot m') hn t1 z).
  { intros z Ez. apply (chainto_redirect (rot m) (rot m') hn t1 h0 z C1).
    - intros K. apply NI1. right. exact K.
    - intros y Iy E. destruct (RL1 y Iy) as [Iy' _]. assert (y = r2) by exact (rot_inj m W y r2 h0 Iy' ir2 E RO1). subst y. exact Ez.
    - intros y Iy E. destruct (RL1 y Iy) as [Iy' Sy]. apply rot'_same; [exact Iy'| | |].
      + intros ->. rewrite sr1 in Sy. injection Sy as Sy. apply d12. auto.
      + intros ->. exact (E RO1).
      + intros K. assert (K2 := rev_rev m W y hp Iy' K). rewrite Ep in K2. injection K2 as ->. rewrite Sp in Sy. injection Sy as Sy. exact (d01 Sy). }
  cbn [cyc chainto] in C. destruct C as [_ C]. destruct L0 as [|A t0].
  - cbn [chainto] in C. rewrite RH1 in C. assert (r1 = hp) by exact (next_inj m W r1 hp he ir1 Ihp C Nhp). rewrite app_nil_r. cbn [cyc]. apply T1. rewrite E2, H. exact next'_hp.
  - cbn [chainto] in C. destruct C as [CA C]. assert (NI : ~ In he (A :: t0)) by (inversion ND as [|? ? K _]; subst; intros X; apply K; right; exact X).
    assert (Dp : r1 <> hp) by (intros E; rewrite RH1, E, Nhp in CA; injection CA as CA; apply NI; left; auto).
    assert (RL0 : forall y, In y (A :: t0) -> In y (m_hes m) /\ h_src m y = Some v0) by (intros y Iy; apply RI; right; right; exact Iy).
    cbn [app cyc]. apply chainto_app. split; [apply T1; rewrite E2, (next'_other r1 Dp), <- RH1; exact CA|].
    apply (chainto_redirect (rot m) (rot m') A t0 he hn C).
    + intros K. apply NI. right. exact K.
    + intros y Iy E. destruct (RL0 y Iy) as [Iy' Sy]. assert (y = rp) by exact (rot_inj m W y rp he Iy' Irp E RTp). subst y. unfold rot. rewrite rev'_o, Rp; [exact next'_hp| |].
      * intros K. rewrite K, sr1 in Sy. injection Sy as Sy. apply d02. auto.
      * intros K. rewrite K, sr2 in Sy. injection Sy as Sy. apply d01. auto.
    + intros y Iy E. destruct (RL0 y Iy) as [Iy' Sy]. apply rot'_same; [exact Iy'| | |].
      * intros ->. rewrite sr1 in Sy. injection Sy as Sy. apply d02. auto.
      * intros ->. rewrite sr2 in Sy. injection Sy as Sy. apply d01. auto.
      * intros K. assert (K2 := rev_rev m W y hp Iy' K). rewrite Ep in K2. injection K2 as ->. exact (E RTp).
Qed.
(** ** The front *)
Lemma ring_new L : Fring m f (he :: L) -> Fring m' f L.
Proof.
  intros (C & ND & RI). assert (Ip : In hp L) by (assert (K : In hp (he :: L)) by (apply RI; split; [exact Ihp|exact fp]); destruct K as [K | K]; [exfalso; apply (proj1 kp); auto|exact K]).
  assert (RL : forall y, In y L -> In y (m_hes m) /\ h_face m y = Some f) by (intros y Iy; apply RI; right; exact Iy).
  split; [|split].
  - apply (cyc_drop (h_next m) (h_next m') he L C ND).
    + intros E. rewrite E in Ip. destruct Ip.
    + intros y Iy E. assert (y = hp) by exact (next_inj m W y hp he (proj1 (RL y Iy)) Ihp E Nhp). subst y. rewrite Nhe. exact next'_hp.
    + intros y Iy E. apply next'_other. intros ->. exact (E Nhp).
  - inversion ND; assumption.
  - intros y. rewrite (in' y), (jn_face _ _ _ _ _ _ _ _ _ _ _ _ _ _ _ J). split.
    + intros Iy. destruct (RL y Iy) as [I E]. split; [|exact E]. split; [exact I|]. assert (Q1 := F0). assert (Q2 := f1). assert (Q3 := f2).
      split; [intros ->; inversion ND; contradiction|]. split; [congruence|]. split; congruence.
    + intros [[I K] E]. assert (Q : In y (he :: L)) by (apply RI; auto). destruct Q as [Q | Q]; [exfalso; apply (proj1 K); auto|exact Q].
Qed.

Theorem joined_wf : WF m'.
Proof.
  destruct (jn_lists _ _ _ _ _ _ _ _ _ _ _ _ _ _ _ J) as (((VN & VE) & (HN & HE) & (FN & FE)) & VL & HL & FL).
  assert (VI : forall v, In v (m_verts m) -> v <> v0 -> In v (m_verts m')) by (intros v I D; apply (jn_verts _ _ _ _ _ _ _ _ _ _ _ _ _ _ _ J); auto).
  assert (FG : forall h, In h (m_hes m) -> h_face m h = Some g -> h = h0 \/ h = h1 \/ h = h2).
  { intros h I E. assert (C : cyc (h_next m) [h0; h1; h2]) by (cbn [cyc chainto]; auto).
    assert (K := cyc_reaches_in _ _ h0 h C (or_introl eq_refl) (wf_face_orbit m W h0 h i0 I ltac:(congruence))). cbn [In] in K. intuition. }
  constructor.
  - exact VN. - exact HN. - exact FN.
  - intros i v E. destruct (VE i v E). split; [|split]; auto. apply VL. exact (nth_error_In _ _ E).
  - intros i v E. destruct (HE i v E). split; [|split]; auto. apply HL. exact (nth_error_In _ _ E).
  - intros i v E. destruct (FE i v E). split; [|split]; auto. apply FL. exact (nth_error_In _ _ E).
  - intros h I. apply in' in I as [I _]. destruct (wf_src m W h I) as (u & Eu & Iu). destruct (Nat.eq_dec u v0) as [->|D].
    + exists v1. split; [exact (src'_v0 h I Eu)|apply VI; [exact in_v1|intros E; apply d01; auto]].
    + exists u. split; [exact (src'_other h u I Eu D)|apply VI; assumption].
  - intros h I. apply in' in I as [I K]. destruct (Nat.eq_dec h hp) as [->|D].
    + exists hn. split; [exact next'_hp|]. apply in'. split; [exact in_hn|exact kn].
    + rewrite (next'_other h D). destruct (wf_next m W h I) as (z & E & Iz). exists z. split; [exact E|]. apply in'. split; [exact Iz|exact (next_keeps h z I K D E)].
  - intros h I. apply in' in I as [I K]. destruct (Nat.eq_dec h r1) as [->|D1]; [exists r2; split; [exact rev'_1|apply in'; split; [exact ir2|exact k2]]|].
    destruct (Nat.eq_dec h r2) as [->|D2]; [exists r1; split; [exact rev'_2|apply in'; split; [exact ir1|exact k1]]|].
    rewrite (rev'_o h D1 D2). destruct (wf_rev m W h I) as (z & E & Iz). exists z. split; [exact E|]. apply in'. split; [exact Iz|exact (rev_keeps h z I K D1 D2 E)].
  - intros h I. apply in' in I as [I (K1 & K2 & K3 & K4)]. rewrite (jn_face _ _ _ _ _ _ _ _ _ _ _ _ _ _ _ J). destruct (wf_face m W h I) as (z & E & Iz). exists z. split; [exact E|].
    apply (jn_faces _ _ _ _ _ _ _ _ _ _ _ _ _ _ _ J). split; [exact Iz|]. intros ->. destruct (FG h I E) as [-> | [-> | ->]]; congruence.
  - intros h r I E. apply in' in I as [I K]. destruct (Nat.eq_dec h r1) as [->|D1]; [rewrite rev'_1 in E; injection E as <-; split; [exact rev'_2|intros Z; apply d12r; auto]|].
    destruct (Nat.eq_dec h r2) as [->|D2]; [rewrite rev'_2 in E; injection E as <-; split; [exact rev'_1|exact d12r]|].
    rewrite (rev'_o h D1 D2) in E. destruct (wf_rev_invol m W h r I E) as [E2 Dr]. split; [|exact Dr]. rewrite rev'_o; [exact E2| |]; intros ->.
    + rewrite revr1 in E2. injection E2 as <-. destruct K as (_ & _ & K & _). exact (K eq_refl).
    + rewrite revr2 in E2. injection E2 as <-. destruct K as (_ & _ & _ & K). exact (K eq_refl).
  - intros h z r I En Er. apply in' in I as [I K].
    assert (SR1 : h_src m' r1 = Some v2) by (apply (src'_other r1 v2 ir1 sr1); intros Z; apply d02; auto).
    assert (SR2 : h_src m' r2 = Some v1) by (apply (src'_other r2 v1 ir2 sr2); intros Z; apply d01; auto).
    assert (SN : h_src m' hn = Some v1) by (apply (src'_other hn v1 in_hn sn); intros Z; apply d01; auto).
    destruct (Nat.eq_dec h hp) as [->|Dp].
    + rewrite next'_hp in En. injection En as <-. rewrite SN. destruct (Nat.eq_dec hp r1) as [E1|D1]; [rewrite E1, rev'_1 in Er; injection Er as <-; auto|].
      rewrite (rev'_o hp D1 dp2) in Er. destruct revp as (rp & Ep & Irp & Sp & _). rewrite Ep in Er. injection Er as <-. symmetry. exact (src'_v0 rp Irp Sp).
    + rewrite (next'_other h Dp) in En. assert (Iz := next_in m W h z I En). destruct (Nat.eq_dec h r1) as [->|D1].
      * rewrite rev'_1 in Er. injection Er as <-. rewrite SR2. apply (src'_v0 z Iz). rewrite (wf_dst m W r1 z h1 ir1 En revr1). exact s1.
      * destruct (Nat.eq_dec h r2) as [->|D2].
        -- rewrite rev'_2 in Er. injection Er as <-. rewrite SR1. apply (src'_other z v2 Iz); [rewrite (wf_dst m W r2 z h2 ir2 En revr2); exact S2|intros Z; apply d02; auto].
        -- rewrite (rev'_o h D1 D2) in Er. assert (Ir := rev_in m W h r I Er). rewrite (src'_of z Iz), (src'_of r Ir), (wf_dst m W h z r I En Er). reflexivity.
  - intros v I. apply (jn_verts _ _ _ _ _ _ _ _ _ _ _ _ _ _ _ J) in I as [I D]. destruct (Nat.eq_dec v v1) as [->|D1].
    + exists r2. split; [apply (jn_vhe _ _ _ _ _ _ _ _ _ _ _ _ _ _ _ J)|]. split; [apply in'; split; [exact ir2|exact k2]|exact (src'_other r2 v1 ir2 sr2 D)].
    + destruct (Nat.eq_dec v v2) as [->|D2]; [exists r1; split; [apply (jn_vhe _ _ _ _ _ _ _ _ _ _ _ _ _ _ _ J)|]; split; [apply in'; split; [exact ir1|exact k1]|exact (src'_other r1 v2 ir1 sr1 D)]|].
      rewrite (proj2 (proj2 (jn_vhe _ _ _ _ _ _ _ _ _ _ _ _ _ _ _ J)) v D1 D2). destruct (wf_vhe m W v I) as (h & E & Ih & Sh). exists h. split; [exact E|]. split; [|exact (src'_other h v Ih Sh D)].
      apply in'. split; [exact Ih|]. assert (Q := s1). split; [congruence|]. split; [congruence|]. split; congruence.
  - intros v I. apply (jn_faces _ _ _ _ _ _ _ _ _ _ _ _ _ _ _ J) in I as [I D]. destruct (Nat.eq_dec v f) as [->|D1].
    + exists hn. split; [apply (jn_fhe _ _ _ _ _ _ _ _ _ _ _ _ _ _ _ J)|]. split; [apply in'; split; [exact in_hn|exact kn]|]. rewrite (jn_face _ _ _ _ _ _ _ _ _ _ _ _ _ _ _ J). exact fn.
    + rewrite (proj2 (jn_fhe _ _ _ _ _ _ _ _ _ _ _ _ _ _ _ J) v D1). destruct (wf_fhe m W v I) as (h & E & Ih & Sh). exists h. split; [exact E|]. rewrite (jn_face _ _ _ _ _ _ _ _ _ _ _ _ _ _ _ J). split; [|exact Sh].
      apply in'. split; [exact Ih|]. assert (Q := F0). assert (Q1 := f1). assert (Q2 := f2). split; [congruence|]. split; [congruence|]. split; congruence.
  - intros h z I En. apply in' in I as [I K]. rewrite !(jn_face _ _ _ _ _ _ _ _ _ _ _ _ _ _ _ J). destruct (Nat.eq_dec h hp) as [->|Dp].
    + rewrite next'_hp in En. injection En as <-. rewrite fn, fp. reflexivity.
    + rewrite (next'_other h Dp) in En. exact (wf_face_next m W h z I En).
  - intros h h' I I' E. assert (II := I). assert (II' := I'). apply in' in I as [I K]. apply in' in I' as [I' K']. rewrite !(jn_face _ _ _ _ _ _ _ _ _ _ _ _ _ _ _ J) in E.
    destruct (wf_face m W h I) as (fh & Ef & If). destruct (Nat.eq_dec fh f) as [->|D].
    + destruct (fring_at m W he f Ihe Fhe) as (L & RL). destruct (ring_new L RL) as (C & _ & RI). apply (cyc_reaches _ L); [exact C| |]; apply RI; rewrite (jn_face _ _ _ _ _ _ _ _ _ _ _ _ _ _ _ J); split; congruence.
    + destruct (fring_at m W h fh I Ef) as (L & C & ND & RI). apply (cyc_reaches _ (h :: L)); [|left; reflexivity|apply RI; split; [exact I'|congruence]].
      apply (cyc_ext (h_next m)); [|exact C]. intros y Iy. symmetry. apply next'_other. intros ->. apply RI in Iy as [_ Iy]. rewrite fp in Iy. congruence.
  - intros h h' I I' E. apply in' in I as [I K]. apply in' in I' as [I' K']. destruct (wf_src m W h I) as (u & Eu & Iu).
    assert (A : forall e v, In e (m_hes m) -> kept e -> h_src m' e = Some v -> v = v1 -> forall L0 L1, Vring m v0 (he :: h1 :: L0) -> Vring m v1 (h0 :: L1) -> In e (L1 ++ L0)).
    { intros e v Ie (K1 & K2 & K3 & K4) Ee -> L0 L1 VR0 VR1. apply in_app_iff. destruct (src'_inv e v1 Ie Ee) as [[_ Q] | [_ Q]].
      - assert (X : In e (he :: h1 :: L0)) by (apply VR0; auto). destruct X as [X | [X | X]]; [congruence|congruence|auto].
      - assert (X : In e (h0 :: L1)) by (apply VR1; auto). destruct X as [X | X]; [congruence|auto]. }
    assert (SE : exists v, h_src m' h = Some v /\ h_src m' h' = Some v).
    { destruct (Nat.eq_dec u v0) as [->|D]; [exists v1|exists u]; rewrite <- E; split; first [exact (src'_v0 h I Eu)|exact (src'_other h u I Eu D)]. }
    destruct SE as (v & Ev & Ev'). destruct (Nat.eq_dec v v1) as [->|D1].
    + destruct ring01 as (L0 & L1 & VR0 & VR1 & C). apply (cyc_reaches _ (L1 ++ L0)); [exact C| |]; eapply A; eauto.
    + destruct (src'_inv h v I Ev) as [[Q _] | [D0 Q]]; [contradiction|]. destruct (src'_inv h' v I' Ev') as [[Q' _] | [_ Q']]; [contradiction|].
      destruct (Nat.eq_dec v v2) as [->|D2].
      * destruct ring2 as (L2 & VR & C). apply (cyc_reaches _ L2); [exact C| |].
        -- assert (X : In h (h2 :: L2)) by (apply VR; auto). destruct X as [X | X]; [exfalso; apply (proj2 (proj2 (proj2 K))); auto|exact X].
        -- assert (X : In h' (h2 :: L2)) by (apply VR; auto). destruct X as [X | X]; [exfalso; apply (proj2 (proj2 (proj2 K'))); auto|exact X].
      * destruct (vring_at m W h v I Q) as (L & C & ND & RI). apply (cyc_reaches _ (h :: L)); [|left; reflexivity|apply RI; auto].
        apply (cyc_ext (rot m)); [|exact C]. intros y Iy. symmetry. apply RI in Iy as [Iy Sy]. apply rot'_same; [exact Iy| | |].
        -- intros ->. rewrite sr1 in Sy. congruence.
        -- intros ->. rewrite sr2 in Sy. congruence.
        -- intros Z. destruct revp as (rp & Ep & Irp & Sp & Rp & _). assert (Z2 := rev_rev m W y hp Iy Z). rewrite Ep in Z2. injection Z2 as ->. congruence.
Qed.
End W.
End F.
