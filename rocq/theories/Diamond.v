(** The two triangles next to an interior edge. *)
From Coq Require Import List ZArith Arith Lia Bool.
From Verif Require Import Num Vec Heap Mesh Spec Orbit Rings Exec.
Import ListNotations.

Section Diamond.
Context {N : Num}.

(** he: u0 -> u2 with triangle (he, he0, he1), rev: u2 -> u0 with triangle
    (rev, he2, he3); u1 and u3 are the opposite corners. *)
Record Diamond (m : mesh N) (he rev he0 he1 he2 he3 u0 u1 u2 u3 f0 f1 : nat) : Prop := {
  d_he : In he (m_hes m); d_rev : In rev (m_hes m); d_he0 : In he0 (m_hes m);
  d_he1 : In he1 (m_hes m); d_he2 : In he2 (m_hes m); d_he3 : In he3 (m_hes m);
  d_u0 : In u0 (m_verts m); d_u1 : In u1 (m_verts m); d_u2 : In u2 (m_verts m); d_u3 : In u3 (m_verts m);
  d_f0 : In f0 (m_faces m); d_f1 : In f1 (m_faces m);
  d_rev_he : h_rev m he = Some rev; d_rev_rev : h_rev m rev = Some he;
  d_n_he : h_next m he = Some he0; d_n_he0 : h_next m he0 = Some he1; d_n_he1 : h_next m he1 = Some he;
  d_n_rev : h_next m rev = Some he2; d_n_he2 : h_next m he2 = Some he3; d_n_he3 : h_next m he3 = Some rev;
  d_s_he : h_src m he = Some u0; d_s_he0 : h_src m he0 = Some u2; d_s_he1 : h_src m he1 = Some u1;
  d_s_rev : h_src m rev = Some u2; d_s_he2 : h_src m he2 = Some u0; d_s_he3 : h_src m he3 = Some u3;
  d_f_he : h_face m he = Some f0; d_f_he0 : h_face m he0 = Some f0; d_f_he1 : h_face m he1 = Some f0;
  d_f_rev : h_face m rev = Some f1; d_f_he2 : h_face m he2 = Some f1; d_f_he3 : h_face m he3 = Some f1;
  d_nodup : NoDup [he; he0; he1; rev; he2; he3];
  d_uneq : u0 <> u2 /\ u0 <> u1 /\ u2 <> u1 /\ u0 <> u3 /\ u2 <> u3;
  d_fneq : f0 <> f1
}.

Lemma piter3 f x : piter f 3 x = Some x -> exists y z, f x = Some y /\ f y = Some z /\ f z = Some x.
Proof.
  simpl. destruct (f x) as [y|]; [|discriminate]. destruct (f y) as [z|] eqn:E; [|discriminate].
  destruct (f z) as [w|] eqn:E'; [|discriminate]. intros [= ->]. exists y, z; auto.
Qed.

Lemma noloop m h v w r : NoLoops m -> In h (m_hes m) -> h_rev m h = Some r -> h_src m h = Some v -> h_src m r = Some w -> v <> w.
Proof. intros L Hi Hr Hv Hw E. apply (L h Hi). unfold dst_of; rewrite Hr; congruence. Qed.

Lemma noloop_next m h v w n : WF m -> NoLoops m -> In h (m_hes m) -> h_next m h = Some n -> h_src m h = Some v -> h_src m n = Some w -> v <> w.
Proof.
  intros W L Hi Hn Hv Hw. destruct (wf_rev m W h Hi) as (r & Er & Ir).
  apply (noloop m h v w r L Hi Er Hv). rewrite <- (wf_dst m W _ _ _ Hi Hn Er); exact Hw.
Qed.

Lemma diamond_exists m he rev :
  WF m -> NoLoops m -> In he (m_hes m) -> h_rev m he = Some rev ->
  piter (h_next m) 3 he = Some he -> piter (h_next m) 3 rev = Some rev ->
  exists he0 he1 he2 he3 u0 u1 u2 u3 f0 f1, Diamond m he rev he0 he1 he2 he3 u0 u1 u2 u3 f0 f1.
Proof.
  intros W L Hi Hr T1 T2.
  pose proof (rev_in m W _ _ Hi Hr) as Ir. pose proof (rev_rev m W _ _ Hi Hr) as Rr.
  destruct (piter3 _ _ T1) as (he0 & he1 & N0 & N1 & N2).
  destruct (piter3 _ _ T2) as (he2 & he3 & N3 & N4 & N5).
  pose proof (next_in m W _ _ Hi N0) as I0. pose proof (next_in m W _ _ I0 N1) as I1.
  pose proof (next_in m W _ _ Ir N3) as I2. pose proof (next_in m W _ _ I2 N4) as I3.
  destruct (wf_src m W _ Hi) as (u0 & S0 & V0). destruct (wf_src m W _ I1) as (u1 & S1 & V1).
  destruct (wf_src m W _ Ir) as (u2 & S2 & V2). destruct (wf_src m W _ I3) as (u3 & S3 & V3).
  assert (S4 : h_src m he0 = Some u2) by (rewrite (wf_dst m W _ _ _ Hi N0 Hr); exact S2).
  assert (S5 : h_src m he2 = Some u0) by (rewrite (wf_dst m W _ _ _ Ir N3 Rr); exact S0).
  destruct (wf_face m W _ Hi) as (f0 & F0 & G0). destruct (wf_face m W _ Ir) as (f1 & F1 & G1).
  pose proof (wf_face_next m W _ _ Hi N0) as F2. pose proof (wf_face_next m W _ _ I0 N1) as F3.
  pose proof (wf_face_next m W _ _ Ir N3) as F4. pose proof (wf_face_next m W _ _ I2 N4) as F5.
  pose proof (noloop m _ _ _ _ L Hi Hr S0 S2) as E1.
  pose proof (noloop_next m _ _ _ _ W L I0 N1 S4 S1) as E2.
  pose proof (noloop_next m _ _ _ _ W L I1 N2 S1 S0) as E3.
  pose proof (noloop_next m _ _ _ _ W L I2 N4 S5 S3) as E4.
  pose proof (noloop_next m _ _ _ _ W L I3 N5 S3 S2) as E5.
  assert (X1 : rev <> he0).
  { intros ->. assert (he1 = he2) by congruence; subst. congruence. }
  assert (X2 : rev <> he1) by (intros ->; congruence).
  assert (X3 : rev <> he) by (intros ->; congruence).
  assert (D1 : he <> he0) by (intros ->; congruence).
  assert (D2 : he <> he1) by (intros ->; congruence).
  assert (D3 : he0 <> he1) by (intros ->; congruence).
  assert (D4 : rev <> he2) by (intros ->; congruence).
  assert (D5 : rev <> he3) by (intros ->; congruence).
  assert (D6 : he2 <> he3) by (intros ->; congruence).
  assert (Y1 : he2 <> he) by (intros E; apply X2; eapply (next_inj m W); eauto; congruence).
  assert (Y2 : he2 <> he0) by (intros E; apply X3; eapply (next_inj m W); eauto; congruence).
  assert (Y3 : he2 <> he1) by (intros E; apply X1; eapply (next_inj m W); eauto; congruence).
  assert (Z1 : he3 <> he) by (intros E; apply Y3; eapply (next_inj m W); eauto; congruence).
  assert (Z2 : he3 <> he0) by (intros E; apply Y1; eapply (next_inj m W); eauto; congruence).
  assert (Z3 : he3 <> he1) by (intros E; apply Y2; eapply (next_inj m W); eauto; congruence).
  exists he0, he1, he2, he3, u0, u1, u2, u3, f0, f1. constructor; try assumption; try congruence.
  - repeat (apply NoDup_cons; [simpl; intuition congruence|]). apply NoDup_nil.
  - repeat split; congruence.
  - intros <-. destruct (fring_at m W he f0 Hi F0) as (l & Hc & Hnd & Hin).
    assert (R : In rev (he :: l)) by (apply Hin; split; assumption).
    assert (C3 : cyc (h_next m) [he; he0; he1]) by (simpl; auto).
    assert (R' : In rev [he; he0; he1]).
    { apply (cyc_reaches_in (h_next m) _ he); [exact C3|left; reflexivity|].
      apply (cyc_reaches (h_next m) (he :: l)); auto; left; reflexivity. }
    simpl in R'; intuition congruence.
Qed.

(** Membership in one of the two faces. *)
Lemma diamond_f0 m he rev he0 he1 he2 he3 u0 u1 u2 u3 f0 f1 y :
  WF m -> Diamond m he rev he0 he1 he2 he3 u0 u1 u2 u3 f0 f1 ->
  In y (m_hes m) -> h_face m y = Some f0 -> y = he \/ y = he0 \/ y = he1.
Proof.
  intros W D Hy Fy.
  assert (R : reaches (h_next m) he y) by (apply (wf_face_orbit m W); [apply D|exact Hy|rewrite (d_f_he _ _ _ _ _ _ _ _ _ _ _ _ _ D); congruence]).
  assert (C3 : cyc (h_next m) [he; he0; he1]) by (simpl; split; [apply D|split; apply D]).
  pose proof (cyc_reaches_in _ _ _ _ C3 (or_introl eq_refl) R) as H. simpl in H; intuition congruence.
Qed.

Lemma diamond_sym m he rev he0 he1 he2 he3 u0 u1 u2 u3 f0 f1 :
  Diamond m he rev he0 he1 he2 he3 u0 u1 u2 u3 f0 f1 ->
  Diamond m rev he he2 he3 he0 he1 u2 u3 u0 u1 f1 f0.
Proof.
  intros D; destruct D; constructor; try assumption; try tauto; try congruence.
  - eapply NoDup_incl_NoDup; [eassumption|simpl; lia|]. intros y; simpl; tauto.
  - intuition congruence.
Qed.

Lemma diamond_f1 m he rev he0 he1 he2 he3 u0 u1 u2 u3 f0 f1 y :
  WF m -> Diamond m he rev he0 he1 he2 he3 u0 u1 u2 u3 f0 f1 ->
  In y (m_hes m) -> h_face m y = Some f1 -> y = rev \/ y = he2 \/ y = he3.
Proof. intros W D; apply (diamond_f0 m rev he he2 he3 he0 he1 u2 u3 u0 u1 f1 f0); [exact W|apply diamond_sym; exact D]. Qed.

Lemma dst_next (m : mesh N) a b : WF m -> In a (m_hes m) -> h_next m a = Some b -> dst_of m a = h_src m b.
Proof.
  intros W Ha Hb. unfold dst_of. destruct (wf_rev m W _ Ha) as (ra & Era & Ja). rewrite Era.
  symmetry; apply (wf_dst m W _ _ _ Ha Hb Era).
Qed.

(** In a simple mesh the opposite corners differ as soon as an end point has
    more than two neighbours. *)
Lemma diamond_u13 m he rev he0 he1 he2 he3 u0 u1 u2 u3 f0 f1 :
  WF m -> NoParallel m -> Diamond m he rev he0 he1 he2 he3 u0 u1 u2 u3 f0 f1 -> 2 < deg_of m u0 -> u1 <> u3.
Proof.
  intros W NP D C0.
  destruct D as [I Ir I0 I1 I2 I3 V0 V1 V2 V3 G0 G1 R Rr Nh N0 N1 Nr N2 N3 S S0 S1 Sr S2 S3 F F0 F1 Fr F2 F3 ND UN FN].
  intros <-. destruct (wf_rev m W _ I2) as (r2 & R2 & J2).
  pose proof (rev_rev m W _ _ I2 R2) as R2'.
  destruct (wf_rev m W _ I1) as (r1 & R1 & J1).
  assert (E : he1 = r2).
  { apply NP; [assumption|assumption| |].
    - rewrite S1, <- S3. apply (wf_dst m W _ _ _ I2 N2 R2).
    - unfold dst_of. rewrite R1, R2', S2, <- S. symmetry; apply (wf_dst m W _ _ _ I1 N1 R1). }
  subst r2.
  destruct (vring_at m W he u0 I S) as (l & Hr).
  assert (C : cyc (rot m) [he; he2]) by (simpl; unfold rot; rewrite R, R2, Nr, N1; auto).
  assert (Hl : length (he :: l) <= 2).
  { change 2 with (length [he; he2]). apply NoDup_incl_length; [apply Hr|].
    intros y Hy. apply (cyc_reaches_in (rot m) _ he); [exact C|left; reflexivity|].
    apply (cyc_reaches (rot m) (he :: l)); [apply Hr|left; reflexivity|exact Hy]. }
  rewrite (vring_deg _ _ _ W Hr) in Hl. lia.
Qed.

Lemma nodup6 (a b c d e f : nat) : NoDup [a; b; c; d; e; f] ->
  a <> b /\ a <> c /\ a <> d /\ a <> e /\ a <> f /\ b <> c /\ b <> d /\ b <> e /\ b <> f /\
  c <> d /\ c <> e /\ c <> f /\ d <> e /\ d <> f /\ e <> f.
Proof.
  intros H. repeat match goal with H : NoDup (_ :: _) |- _ => inversion H; clear H; subst end.
  simpl in *; intuition congruence.
Qed.

End Diamond.
