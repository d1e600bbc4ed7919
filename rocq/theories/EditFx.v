(** Effects of the three edits, and their top-level theorems. *)
From Coq Require Import List ZArith Arith Lia Bool Permutation.
From Verif Require Import Num Vec Heap Mesh Spec EditSpec Orbit Rings Exec Diamond Flip Split Remove Collapse.
From Verif Require SplitV CollapseV.
Import ListNotations.

(** ** Counting *)
Lemma nodup_app {X} (l k : list X) : NoDup l -> NoDup k -> (forall y, In y l -> ~ In y k) -> NoDup (l ++ k).
Proof.
  induction l as [|a l IH]; simpl; intros Hl Hk Hd; [exact Hk|]. inversion Hl; subst. constructor.
  - rewrite in_app_iff. intros [C|C]; [contradiction|apply (Hd a); auto].
  - apply IH; auto.
Qed.

Lemma filter_minus (p q : nat -> bool) l k : NoDup l -> NoDup k -> (forall y, In y k -> In y l) ->
  (forall y, In y l -> (p y = true <-> q y = true \/ In y k)) -> (forall y, In y k -> q y = false) ->
  length (filter p l) = length (filter q l) + length k.
Proof.
  intros Hl Hk Hi Hp Hq. rewrite <- app_length. apply Permutation_length, NoDup_Permutation.
  - apply NoDup_filter, Hl.
  - apply nodup_app; [apply NoDup_filter, Hl|exact Hk|].
    intros y Hy Ky. apply filter_In in Hy as [_ E]. rewrite (Hq y Ky) in E. discriminate.
  - intros y. rewrite in_app_iff, !filter_In. split.
    + intros [Hy E]. apply (Hp y Hy) in E as [E|E]; auto.
    + intros [[Hy E]|E]; [split; [exact Hy|apply Hp; auto]|split; [auto|apply Hp; auto]].
Qed.

Lemma filter_minus1 (p q : nat -> bool) l a : NoDup l -> In a l -> p a = true -> q a = false ->
  (forall y, In y l -> y <> a -> p y = q y) -> length (filter p l) = S (length (filter q l)).
Proof.
  intros Hl Ha Pa Qa Ho. rewrite (filter_minus p q l [a]); [simpl; lia|exact Hl| | | |].
  - constructor; [simpl; tauto|constructor].
  - intros y [<-|[]]; exact Ha.
  - intros y Hy. destruct (Nat.eq_dec y a) as [->|E]; [simpl; tauto|]. rewrite (Ho y Hy E). simpl. intuition congruence.
  - intros y [<-|[]]; exact Qa.
Qed.

Lemma filter_same (p q : nat -> bool) l : (forall y, In y l -> p y = q y) -> length (filter p l) = length (filter q l).
Proof. intros H. f_equal. apply filter_ext_in, H. Qed.

Section Fx.
Context {N : Num}.

Lemma ends_some (m : mesh N) y : WF m -> In y (m_hes m) -> exists a b, h_src m y = Some a /\ dst_of m y = Some b /\ In a (m_verts m) /\ In b (m_verts m).
Proof.
  intros W Hy. destruct (wf_src m W _ Hy) as (a & Ea & Ja). destruct (wf_rev m W _ Hy) as (r & Er & Jr).
  destruct (wf_src m W _ Jr) as (b & Eb & Jb). exists a, b. unfold dst_of. rewrite Er. auto.
Qed.

Lemma diamond_edge m he rev hn hp rn rp u0 u1 u2 u3 f0 f1 : WF m -> u1 <> u3 ->
  Diamond m he rev hn hp rn rp u0 u1 u2 u3 f0 f1 -> EdgeOf m he u0 u1 u2 u3 f0 f1 /\ EdgeOf m rev u0 u1 u2 u3 f0 f1.
Proof.
  intros W U13 D. assert (D' := D).
  destruct D' as [I Ir I0 I1 I2 I3 V0 V1 V2 V3 G0 G1 R Rr Nh N0 N1 Nr N2 N3 S S0 S1 Sr S2 S3 F F0 F1 Fr F2 F3 ND UN FN].
  destruct UN as (? & ? & ? & ? & ?).
  assert (T0 : Tri m f0 u0 u2 u1).
  { exists he, hn, hp. split; [|auto 10]. intros h; split; [intros [Hh Fh]; apply (diamond_f0 m he rev hn hp rn rp u0 u1 u2 u3 f0 f1); assumption|].
    intros [->|[->| ->]]; auto. }
  assert (T1 : Tri m f1 u2 u0 u3).
  { exists rev, rn, rp. split; [|auto 10]. intros h; split; [intros [Hh Fh]; apply (diamond_f1 m he rev hn hp rn rp u0 u1 u2 u3 f0 f1); assumption|].
    intros [->|[->| ->]]; auto. }
  assert (NU : NoDup [u0; u1; u2; u3]).
  { repeat (apply NoDup_cons; [simpl; intuition congruence|]). apply NoDup_nil. }
  assert (D1 : dst_of m he = Some u2) by (unfold dst_of; rewrite R; exact Sr).
  assert (D2 : dst_of m rev = Some u0) by (unfold dst_of; rewrite Rr; exact S).
  split; (split; [tauto|auto]).
Qed.

Lemma edge_only m he rev hn hp rn rp u0 u1 u2 u3 f0 f1 y : Valid m ->
  Diamond m he rev hn hp rn rp u0 u1 u2 u3 f0 f1 -> In y (m_hes m) ->
  forall a b, h_src m y = Some a -> dst_of m y = Some b -> (same_pair a b u0 u2 <-> y = he \/ y = rev).
Proof.
  intros V D Hy a b Sa Db. pose proof (d_s_he _ _ _ _ _ _ _ _ _ _ _ _ _ D) as S. pose proof (d_s_rev _ _ _ _ _ _ _ _ _ _ _ _ _ D) as Sr.
  pose proof (d_rev_he _ _ _ _ _ _ _ _ _ _ _ _ _ D) as R. pose proof (d_rev_rev _ _ _ _ _ _ _ _ _ _ _ _ _ D) as Rr.
  assert (D1 : dst_of m he = Some u2) by (unfold dst_of; rewrite R; exact Sr).
  assert (D2 : dst_of m rev = Some u0) by (unfold dst_of; rewrite Rr; exact S).
  split.
  - intros [[-> ->]|[-> ->]]; [left|right]; apply (valid_noparallel m V); try congruence; apply D.
  - intros [->| ->]; [left|right]; split; congruence.
Qed.

(** ** flipHE *)
Section FlipFx.
Variables (m : mesh N) (he rev he0 he1 he2 he3 u0 u1 u2 u3 f0 f1 : nat).
Hypothesis V : Valid m.
Hypothesis D : Diamond m he rev he0 he1 he2 he3 u0 u1 u2 u3 f0 f1.
Hypothesis C0 : 4 < deg_of m u0.
Hypothesis C2 : 4 < deg_of m u2.
Hypothesis NC : ~ adj m u1 u3.
Notation m' := (flip_state m he rev he0 he1 he2 he3 u0 u1 u2 u3 f0 f1).

Lemma flip_fx : FlipEffect m m' he u0 u1 u2 u3 f0 f1.
Proof.
  assert (W := valid_wf m V).
  assert (U13 : u1 <> u3) by (apply (Flip.u13 m he rev he0 he1 he2 he3 u0 u1 u2 u3 f0 f1); auto; apply V).
  pose proof (Flip.s_he m he rev he0 he1 he2 he3 u0 u1 u2 u3 f0 f1 D : h_src m' he = Some u3) as Sh.
  pose proof (Flip.s_rev m he rev he0 he1 he2 he3 u0 u1 u2 u3 f0 f1 D : h_src m' rev = Some u1) as Srv.
  pose proof (Flip.s_oth m he rev he0 he1 he2 he3 u0 u1 u2 u3 f0 f1 : forall y, y <> he -> y <> rev -> h_src m' y = h_src m y) as So.
  pose proof (Flip.dst'_he m he rev he0 he1 he2 he3 u0 u1 u2 u3 f0 f1 D : dst_of m' he = Some u1) as Dh.
  pose proof (Flip.dst'_rev m he rev he0 he1 he2 he3 u0 u1 u2 u3 f0 f1 D : dst_of m' rev = Some u3) as Drv.
  pose proof (Flip.dst'_oth m he rev he0 he1 he2 he3 u0 u1 u2 u3 f0 f1 W D : forall y, In y (m_hes m) -> y <> he -> y <> rev -> dst_of m' y = dst_of m y) as Do.
  pose proof (Flip.other_face m he rev he0 he1 he2 he3 u0 u1 u2 u3 f0 f1 W D : forall y, In y (m_hes m) -> Flip.other he rev he0 he1 he2 he3 y <-> h_face m y <> Some f0 /\ h_face m y <> Some f1) as OF.
  pose proof (Flip.n_oth m he rev he0 he1 he2 he3 u0 u1 u2 u3 f0 f1 : forall y, Flip.other he rev he0 he1 he2 he3 y -> h_next m' y = h_next m y) as No.
  pose proof (Flip.f_oth m he rev he0 he1 he2 he3 u0 u1 u2 u3 f0 f1 : forall y, Flip.other he rev he0 he1 he2 he3 y -> h_face m' y = h_face m y) as Fo.
  pose proof (Flip.classify m he rev he0 he1 he2 he3 u0 u2 C0 C2) as CL.
  pose proof (Flip.n_he m he rev he0 he1 he2 he3 u0 u1 u2 u3 f0 f1 D : h_next m' he = Some he1) as E1.
  pose proof (Flip.n_he1 m he rev he0 he1 he2 he3 u0 u1 u2 u3 f0 f1 D : h_next m' he1 = Some he2) as E2.
  pose proof (Flip.n_he2 m he rev he0 he1 he2 he3 u0 u1 u2 u3 f0 f1 D : h_next m' he2 = Some he) as E3.
  pose proof (Flip.n_rev m he rev he0 he1 he2 he3 u0 u1 u2 u3 f0 f1 D : h_next m' rev = Some he3) as E4.
  pose proof (Flip.n_he3 m he rev he0 he1 he2 he3 u0 u1 u2 u3 f0 f1 D : h_next m' he3 = Some he0) as E5.
  pose proof (Flip.n_he0 m he rev he0 he1 he2 he3 u0 u1 u2 u3 f0 f1 D : h_next m' he0 = Some rev) as E6.
  pose proof (Flip.f_he_ m he rev he0 he1 he2 he3 u0 u1 u2 u3 f0 f1 D : h_face m' he = Some f0) as Q1.
  pose proof (Flip.f_he1 m he rev he0 he1 he2 he3 u0 u1 u2 u3 f0 f1 D : h_face m' he1 = Some f0) as Q2.
  pose proof (Flip.f_he2 m he rev he0 he1 he2 he3 u0 u1 u2 u3 f0 f1 D : h_face m' he2 = Some f0) as Q3.
  pose proof (Flip.f_rev m he rev he0 he1 he2 he3 u0 u1 u2 u3 f0 f1 D : h_face m' rev = Some f1) as Q4.
  pose proof (Flip.f_he3 m he rev he0 he1 he2 he3 u0 u1 u2 u3 f0 f1 D : h_face m' he3 = Some f1) as Q5.
  pose proof (Flip.f_he0 m he rev he0 he1 he2 he3 u0 u1 u2 u3 f0 f1 D : h_face m' he0 = Some f1) as Q6.
  pose proof (edge_only m he rev he0 he1 he2 he3 u0 u1 u2 u3 f0 f1) as EO.
  destruct (diamond_edge m he rev he0 he1 he2 he3 u0 u1 u2 u3 f0 f1 W U13 D) as [EE _].
  assert (Hl : m_hes m' = m_hes m) by reflexivity.
  assert (Hr : h_rev m' = h_rev m) by reflexivity. assert (Hb : h_bd m' = h_bd m) by reflexivity.
  assert (Hv : m_verts m' = m_verts m) by reflexivity. assert (Hf : m_faces m' = m_faces m) by reflexivity.
  assert (Hp : v_pos m' = v_pos m) by reflexivity. assert (Hk : v_lock m' = v_lock m) by reflexivity.
  set (mm := m') in *. clearbody mm.
  assert (D' := D). destruct D' as [I Ir I0 I1 I2 I3 V0 V1 V2 V3 G0 G1 R Rr Nh N0 N1 Nr N2 N3 S S0 S1 Sr S2 S3 F F0 F1 Fr F2 F3 ND UN FN].
  apply nodup6 in ND; destruct ND as (? & ? & ? & ? & ? & ? & ? & ? & ? & ? & ? & ? & ? & ? & ?).
  destruct UN as (? & ? & ? & ? & ?).
  assert (DE : forall v y, In y (m_hes m) -> y <> he -> y <> rev -> ptr_eqb (h_src mm y) (Some v) = ptr_eqb (h_src m y) (Some v)).
  { intros v y Hy A B. rewrite (So y A B). reflexivity. }
  assert (NE : forall a b : nat, a <> b -> ptr_eqb (Some a) (Some b) = false) by (intros a b Hab; apply ptr_eqb_neq; congruence).
  constructor.
  - exact EE.
  - auto.
  - intros v. unfold SameData. rewrite Hp, Hk. auto.
  - exists u3, u1. split; [exact Sh|split; [exact Dh|right; auto]].
  - intros a b. unfold adj. rewrite Hl. split.
    + intros (h & Hh & Sa & Db). destruct (Nat.eq_dec h he) as [->|A]; [right; right; split; congruence|].
      destruct (Nat.eq_dec h rev) as [->|B]; [right; left; split; congruence|].
      left. rewrite So in Sa by assumption. rewrite Do in Db by assumption. split; [exists h; auto|].
      rewrite (EO h V D Hh a b Sa Db). tauto.
    + intros [[(h & Hh & Sa & Db) NP]|[[-> ->]|[-> ->]]].
      * rewrite (EO h V D Hh a b Sa Db) in NP. exists h. rewrite So, Do by tauto. auto.
      * exists rev. auto.
      * exists he. auto.
  - exists he, he1, he2. split; [|rewrite (So he1), (So he2) by congruence; auto 10].
    intros h. rewrite Hl. split.
    + intros [Hh Fh]. destruct (CL h) as [X|[X|[X|[X|[X|[X|X]]]]]]; try subst h; try tauto; try congruence.
      exfalso. rewrite (Fo h X) in Fh. apply (OF h Hh) in X. tauto.
    + intros [->|[->| ->]]; auto.
  - exists rev, he3, he0. split; [|rewrite (So he3), (So he0) by congruence; auto 10].
    intros h. rewrite Hl. split.
    + intros [Hh Fh]. destruct (CL h) as [X|[X|[X|[X|[X|[X|X]]]]]]; try subst h; try tauto; try congruence.
      exfalso. rewrite (Fo h X) in Fh. apply (OF h Hh) in X. tauto.
    + intros [->|[->| ->]]; auto.
  - intros h Hh A B. assert (X := proj2 (OF h Hh) (conj A B)). unfold SameHE. rewrite (No h X), (Fo h X), Hr, Hb.
    destruct X as (? & ? & ? & ? & ? & ?). rewrite So by assumption. auto.
  - unfold deg_of. rewrite Hl. apply (filter_minus1 _ _ _ he); [apply W|exact I|rewrite S; apply ptr_eqb_refl|rewrite Sh; apply NE; congruence|].
    intros y Hy A. destruct (Nat.eq_dec y rev) as [->|B]; [rewrite Sr, Srv, !NE by congruence; reflexivity|symmetry; apply DE; assumption].
  - unfold deg_of. rewrite Hl. apply (filter_minus1 _ _ _ rev); [apply W|exact Ir|rewrite Sr; apply ptr_eqb_refl|rewrite Srv; apply NE; congruence|].
    intros y Hy A. destruct (Nat.eq_dec y he) as [->|B]; [rewrite S, Sh, !NE by congruence; reflexivity|symmetry; apply DE; assumption].
  - unfold deg_of. rewrite Hl. apply (filter_minus1 _ _ _ rev); [apply W|exact Ir|rewrite Srv; apply ptr_eqb_refl|rewrite Sr; apply NE; congruence|].
    intros y Hy A. destruct (Nat.eq_dec y he) as [->|B]; [rewrite S, Sh, !NE by congruence; reflexivity|apply DE; assumption].
  - unfold deg_of. rewrite Hl. apply (filter_minus1 _ _ _ he); [apply W|exact I|rewrite Sh; apply ptr_eqb_refl|rewrite S; apply NE; congruence|].
    intros y Hy A. destruct (Nat.eq_dec y rev) as [->|B]; [rewrite Sr, Srv, !NE by congruence; reflexivity|apply DE; assumption].
  - intros v A0 A1 A2 A3. unfold deg_of. rewrite Hl. apply filter_same. intros y Hy.
    destruct (Nat.eq_dec y he) as [->|A]; [rewrite S, Sh, !NE by congruence; reflexivity|].
    destruct (Nat.eq_dec y rev) as [->|B]; [rewrite Sr, Srv, !NE by congruence; reflexivity|apply DE; assumption].
  - intros h. rewrite Hb. reflexivity.
Qed.

End FlipFx.

(** ** splitHE *)
Section SplitFx.
Variables (m m' : mesh N) (he rev he0 he1 he2 he3 u0 u1 u2 u3 f0 f1 nh h01 h02 rn h11 h12 g0 g1 vn : nat).
Hypothesis V : Valid m.
Hypothesis D : Diamond m he rev he0 he1 he2 he3 u0 u1 u2 u3 f0 f1.
Hypothesis T : SplitT m m' he rev he0 he1 he2 he3 u0 u1 u2 u3 f0 f1 nh h01 h02 rn h11 h12 g0 g1 vn.
Hypothesis U13 : u1 <> u3.

Lemma split_fx x : x = he \/ x = rev -> SplitEffect m m' x u0 u1 u2 u3 f0 f1 vn g0 g1.
Proof.
  intros Hx. assert (W := valid_wf m V).
  pose proof (SplitV.in_hes _ _ _ _ _ _ _ _ _ _ _ _ _ _ _ _ _ _ _ _ _ _ _ T) as IH.
  pose proof (SplitV.old_new _ _ _ _ _ _ _ _ _ _ _ _ _ _ _ _ _ _ _ _ _ _ _ T) as ON.
  pose proof (SplitV.new_new _ _ _ _ _ _ _ _ _ _ _ _ _ _ _ _ _ _ _ _ _ _ _ T) as NN.
  pose proof (SplitV.vn_new _ _ _ _ _ _ _ _ _ _ _ _ _ _ _ _ _ _ _ _ _ _ _ T) as VN.
  pose proof (SplitV.g_new _ _ _ _ _ _ _ _ _ _ _ _ _ _ _ _ _ _ _ _ _ _ _ T) as GN.
  pose proof (SplitV.g01 _ _ _ _ _ _ _ _ _ _ _ _ _ _ _ _ _ _ _ _ _ _ _ T) as GG.
  pose proof (SplitV.s_old _ _ _ _ _ _ _ _ _ _ _ _ _ _ _ _ _ _ _ _ _ _ _ T) as So.
  pose proof (SplitV.face_cases _ _ _ _ _ _ _ _ _ _ _ _ _ _ _ _ _ _ _ _ _ _ _ W D T U13) as FC.
  pose proof (SplitV.ends _ _ _ _ _ _ _ _ _ _ _ _ _ _ _ _ _ _ _ _ _ _ _ W D T (valid_noloops m V) (valid_noparallel m V) U13) as EN.
  pose proof (SplitV.dst'_tab _ _ _ _ _ _ _ _ _ _ _ _ _ _ _ _ _ _ _ _ _ _ _ D T U13) as DT.
  assert (Do : forall y, In y (m_hes m) -> y <> rev -> dst_of m' y = dst_of m y).
  { intros y Hy A. exact (SplitV.dst'_old _ _ _ _ _ _ _ _ _ _ _ _ _ _ _ _ _ _ _ _ _ _ _ W D T y Hy A). }
  pose proof (SplitV.other_face m he rev he0 he1 he2 he3 u0 u1 u2 u3 f0 f1 W D) as OF.
  pose proof (edge_only m he rev he0 he1 he2 he3 u0 u1 u2 u3 f0 f1) as EO.
  destruct (diamond_edge m he rev he0 he1 he2 he3 u0 u1 u2 u3 f0 f1 W U13 D) as [EE EE'].
  destruct (t_n _ _ _ _ _ _ _ _ _ _ _ _ _ _ _ _ _ _ _ _ _ _ _ T) as (n_he & n_he0 & n_h01 & n_nh & n_h02 & n_he1 & n_rev & n_h11 & n_he3 & n_rn & n_he2 & n_h12).
  destruct (t_f _ _ _ _ _ _ _ _ _ _ _ _ _ _ _ _ _ _ _ _ _ _ _ T) as (f_he & f_he0 & f_h01 & f_nh & f_h02 & f_he1 & f_rev & f_h11 & f_he3 & f_rn & f_he2 & f_h12).
  destruct (t_s _ _ _ _ _ _ _ _ _ _ _ _ _ _ _ _ _ _ _ _ _ _ _ T) as (s_he & s_h01 & s_nh & s_h02 & s_h11 & s_rn & s_h12).
  destruct DT as (d_rev & d_nh & d_rn & d_h01 & d_h02 & d_h11 & d_h12 & d_he).
  assert (D' := D). destruct D' as [I Ir I0 I1 I2 I3 V0 V1 V2 V3 G0 G1 R Rr Nh N0 N1 Nr N2 N3 S S0 S1 Sr S2 S3 F F0 F1 Fr F2 F3 ND UN FN].
  apply nodup6 in ND; destruct ND as (? & ? & ? & ? & ? & ? & ? & ? & ? & ? & ? & ? & ? & ? & ?).
  destruct UN as (? & ? & ? & ? & ?).
  pose proof (VN _ V0). pose proof (VN _ V1). pose proof (VN _ V2). pose proof (VN _ V3).
  destruct (GN _ G0) as [K20 K21]. destruct (GN _ G1) as [K22 K23].
  assert (NE : forall a b : nat, a <> b -> ptr_eqb (Some a) (Some b) = false) by (intros a b Hab; apply ptr_eqb_neq; congruence).
  assert (TL : m_hes m' = m_hes m ++ [nh; rn; h01; h02; h11; h12]) by apply T.
  assert (DL : forall v, deg_of m' v = length (filter (fun h => ptr_eqb (h_src m' h) (Some v)) (m_hes m)) +
     length (filter (fun h => ptr_eqb (h_src m' h) (Some v)) [nh; rn; h01; h02; h11; h12])).
  { intros v. unfold deg_of. rewrite TL, filter_app, app_length. reflexivity. }
  constructor.
  - destruct Hx as [->| ->]; assumption.
  - apply T.
  - apply T.
  - eexists; split; [exact TL|reflexivity].
  - apply T.
  - apply T.
  - intros v Hv. apply (t_pos _ _ _ _ _ _ _ _ _ _ _ _ _ _ _ _ _ _ _ _ _ _ _ T v Hv).
  - intros a b. split.
    + intros (h & Hh & Sa & Db). destruct (EN h Hh) as [(Jh & A & B & a' & b' & Q1 & Q2 & Q3 & Q4 & _)|X].
      * left. assert (a' = a) by congruence; assert (b' = b) by congruence; subst a' b'.
        split; [exists h; auto|]. rewrite (EO h V D Jh a b Q3 Q4). tauto.
      * right. simpl. repeat destruct X as [X|X]; destruct X as (-> & X1 & X2);
          [left|left|left|left|right|right|right|right]; (split; [congruence|]); rewrite X1 in Sa; rewrite X2 in Db; injection Sa; injection Db; intros; subst; tauto.
    + intros [[(h & Hh & Sa & Db) NP]|[[-> Hb]|[-> Ha]]].
      * rewrite (EO h V D Hh a b Sa Db) in NP. exists h. rewrite IH, So, Do by tauto. auto.
      * simpl in Hb. destruct Hb as [<-|[<-|[<-|[<-|[]]]]]; [exists rn|exists h02|exists he|exists h11]; rewrite IH; auto 10.
      * simpl in Ha. destruct Ha as [<-|[<-|[<-|[<-|[]]]]]; [exists nh|exists h01|exists rev|exists h12]; rewrite IH; [auto 10|auto 10| |auto 10].
        rewrite So by auto. auto.
  - exists he, he0, h01. split; [|rewrite (So he0) by congruence; auto 10]. intros h; split.
    + intros [Hh Fh]. destruct (FC h Hh) as [[X Y]|[[X Y]|[[X Y]|[[X Y]|(_ & _ & f & X & _ & Y)]]]]; first [exfalso; rewrite X in Fh; clear - Fh GG FN Y K20 K21 K22 K23; injection Fh; intros; subst; intuition congruence|clear - Y; simpl in Y; intuition congruence].
    + intros [->|[->| ->]]; rewrite IH; auto 10.
  - exists nh, h02, he1. split; [|rewrite (So he1) by congruence; auto 10]. intros h; split.
    + intros [Hh Fh]. destruct (FC h Hh) as [[X Y]|[[X Y]|[[X Y]|[[X Y]|(_ & _ & f & X & _ & Y)]]]]; first [exfalso; rewrite X in Fh; clear - Fh GG FN Y K20 K21 K22 K23; injection Fh; intros; subst; intuition congruence|clear - Y; simpl in Y; intuition congruence].
    + intros [->|[->| ->]]; rewrite IH; auto 10.
  - exists rev, h11, he3. split; [|rewrite (So he3), (So rev) by congruence; auto 10]. intros h; split.
    + intros [Hh Fh]. destruct (FC h Hh) as [[X Y]|[[X Y]|[[X Y]|[[X Y]|(_ & _ & f & X & _ & Y)]]]]; first [exfalso; rewrite X in Fh; clear - Fh GG FN Y K20 K21 K22 K23; injection Fh; intros; subst; intuition congruence|clear - Y; simpl in Y; intuition congruence].
    + intros [->|[->| ->]]; rewrite IH; auto 10.
  - exists rn, he2, h12. split; [|rewrite (So he2) by congruence; auto 10]. intros h; split.
    + intros [Hh Fh]. destruct (FC h Hh) as [[X Y]|[[X Y]|[[X Y]|[[X Y]|(_ & _ & f & X & _ & Y)]]]]; first [exfalso; rewrite X in Fh; clear - Fh GG FN Y K20 K21 K22 K23; injection Fh; intros; subst; intuition congruence|clear - Y; simpl in Y; intuition congruence].
    + intros [->|[->| ->]]; rewrite IH; auto 10.
  - intros h Hh A B. assert (X := proj2 (OF h Hh) (conj A B)). destruct X as (? & ? & ? & ? & ? & ?).
    unfold SameHE. rewrite So by assumption.
    rewrite (t_n_oth _ _ _ _ _ _ _ _ _ _ _ _ _ _ _ _ _ _ _ _ _ _ _ T), (t_f_oth _ _ _ _ _ _ _ _ _ _ _ _ _ _ _ _ _ _ _ _ _ _ _ T) by assumption.
    rewrite (t_r_old _ _ _ _ _ _ _ _ _ _ _ _ _ _ _ _ _ _ _ _ _ _ _ T), (t_bd_old _ _ _ _ _ _ _ _ _ _ _ _ _ _ _ _ _ _ _ _ _ _ _ T) by assumption. auto.
  - rewrite DL. cbn [filter]. rewrite s_nh, s_rn, s_h01, s_h02, s_h11, s_h12, ptr_eqb_refl, !NE by congruence. cbn [length].
    rewrite (filter_minus1 _ (fun _ => false) _ he); [|apply W|exact I|rewrite s_he; apply ptr_eqb_refl|reflexivity|].
    + assert (Z : forall l : list nat, filter (fun _ => false) l = []) by (induction l; auto). rewrite Z. reflexivity.
    + intros y Hy A. rewrite So by assumption. destruct (wf_src m W _ Hy) as (a & -> & Ja). apply NE. apply VN; exact Ja.
  - rewrite DL. cbn [filter]. rewrite s_nh, s_rn, s_h01, s_h02, s_h11, s_h12, ptr_eqb_refl, !NE by congruence. cbn [length].
    unfold deg_of. rewrite (filter_same _ (fun h => ptr_eqb (h_src m h) (Some u1)) (m_hes m)); [lia|].
    intros y Hy. destruct (Nat.eq_dec y he) as [->|A]; [rewrite S, s_he, !NE by congruence; reflexivity|rewrite So by assumption; reflexivity].
  - rewrite DL. cbn [filter]. rewrite s_nh, s_rn, s_h01, s_h02, s_h11, s_h12, ptr_eqb_refl, !NE by congruence. cbn [length].
    unfold deg_of. rewrite (filter_same _ (fun h => ptr_eqb (h_src m h) (Some u3)) (m_hes m)); [lia|].
    intros y Hy. destruct (Nat.eq_dec y he) as [->|A]; [rewrite S, s_he, !NE by congruence; reflexivity|rewrite So by assumption; reflexivity].
  - intros v Hv A1 A3. pose proof (VN _ Hv). rewrite DL. cbn [filter]. rewrite s_nh, s_rn, s_h01, s_h02, s_h11, s_h12.
    rewrite (NE vn v), (NE u1 v), (NE u3 v) by congruence. destruct (Nat.eq_dec v u0) as [->|A0].
    + rewrite ptr_eqb_refl. cbn [length]. unfold deg_of.
      rewrite (filter_minus1 (fun h => ptr_eqb (h_src m h) (Some u0)) (fun h => ptr_eqb (h_src m' h) (Some u0)) _ he);
        [lia|apply W|exact I|rewrite S; apply ptr_eqb_refl|rewrite s_he; apply NE; congruence|].
      intros y Hy A. rewrite So by assumption. reflexivity.
    + rewrite NE by congruence. cbn [length]. unfold deg_of.
      rewrite (filter_same _ (fun h => ptr_eqb (h_src m h) (Some v)) (m_hes m)); [lia|].
      intros y Hy. destruct (Nat.eq_dec y he) as [->|A]; [rewrite S, s_he, !NE by congruence; reflexivity|rewrite So by assumption; reflexivity].
  - split; [apply T|]. intros h Hh Nh'. apply T. apply IH in Hh as [Hh|Hh]; [contradiction|]. simpl; intuition congruence.
Qed.

End SplitFx.

(** ** collapseHE *)
Section CollapseFx.
Variables (m m' : mesh N) (he rev hn hp rn rp o0 o1 o2 o3 u0 u1 u2 u3 f0 f1 : nat).
Hypothesis V : Valid m.
Hypothesis C : CollapseCond m he rev hn hp rn rp u0 u1 u2 u3 f0 f1.
Hypothesis T : CollT m m' he rev hn hp rn rp o0 o1 o2 o3 u0 u1 u2 u3 f0 f1.
Hypothesis R0 : h_rev m hp = Some o0.
Hypothesis R1 : h_rev m hn = Some o1.
Hypothesis R2 : h_rev m rp = Some o2.
Hypothesis R3 : h_rev m rn = Some o3.

Lemma sg_merge a : CollapseV.sg u0 u2 (Some a) = Some (merge u0 u2 a).
Proof. unfold CollapseV.sg, merge, ptr_eqb. destruct (Nat.eqb a u2); reflexivity. Qed.

Lemma collapse_fx x : x = he \/ x = rev -> CollapseEffect m m' x u0 u1 u2 u3 f0 f1.
Proof.
  intros Hx. assert (W := valid_wf m V).
  assert (D : Diamond m he rev hn hp rn rp u0 u1 u2 u3 f0 f1) by apply C.
  assert (U13 : u1 <> u3) by (eapply CollapseCond_u13; eassumption).
  pose proof (CollapseV.collapse_Valid m m' he rev hn hp rn rp o0 o1 o2 o3 u0 u1 u2 u3 f0 f1 V C T R0 R1 R2 R3) as V'.
  pose proof (CollapseV.dst' m m' he rev hn hp rn rp o0 o1 o2 o3 u0 u1 u2 u3 f0 f1 V C T R0 R1 R2 R3) as Ds.
  pose proof (CollapseV.sr m m' he rev hn hp rn rp o0 o1 o2 o3 u0 u1 u2 u3 f0 f1 T) as Ss.
  pose proof (CollapseV.gone_face m he rev hn hp rn rp u0 u1 u2 u3 f0 f1 V C) as GF.
  pose proof (CollapseV.in_hes m m' he rev hn hp rn rp o0 o1 o2 o3 u0 u1 u2 u3 f0 f1 T) as IH.
  pose proof (CollapseV.oneq m he rev hn hp rn rp o0 o1 o2 o3 u0 u1 u2 u3 f0 f1 V C R0 R1 R2 R3) as [OD ON].
  pose proof (CollapseV.ofacts m he rev hn hp rn rp o0 o1 o2 o3 u0 u1 u2 u3 f0 f1 V C R0 R1 R2 R3) as (J0 & J1 & J2 & J3 & Q0 & Q1 & Q2 & Q3 & T0 & T1 & T2 & T3).
  destruct (diamond_edge m he rev hn hp rn rp u0 u1 u2 u3 f0 f1 W U13 D) as [EE EE'].
  pose proof (edge_only m he rev hn hp rn rp u0 u1 u2 u3 f0 f1) as EO.
  assert (D' := D). destruct D' as [I Ir I0 I1 I2 I3 V0 V1 V2 V3 G0 G1 R Rr Nh N0 N1 Nr N2 N3 S S0 S1 Sr S2 S3 F F0 F1 Fr F2 F3 ND UN FN].
  destruct UN as (? & ? & ? & ? & ?).
  assert (MO : forall v, v <> u2 -> merge u0 u2 v = v) by (intros v Hv; unfold merge; rewrite (proj2 (Nat.eqb_neq _ _) Hv); reflexivity).
  assert (M2 : merge u0 u2 u2 = u0) by (unfold merge; rewrite Nat.eqb_refl; reflexivity).
  assert (NE : forall a b : nat, a <> b -> ptr_eqb (Some a) (Some b) = false) by (intros a b Hab; apply ptr_eqb_neq; congruence).
  (* degrees: count over the old list *)
  set (kept := fun h => negb (existsb (Nat.eqb h) [he; hn; hp; rev; rn; rp])).
  assert (KP : forall h, kept h = true <-> ~ In h [he; hn; hp; rev; rn; rp]).
  { intros h. unfold kept. rewrite negb_true_iff, <- not_true_iff_false, existsb_exists. split.
    - intros A B. apply A. exists h. split; [exact B|apply Nat.eqb_refl].
    - intros A (y & Hy & E). apply Nat.eqb_eq in E; subst y. contradiction. }
  assert (DL : forall v, deg_of m' v = length (filter (fun h => kept h && ptr_eqb (CollapseV.sg u0 u2 (h_src m h)) (Some v)) (m_hes m))).
  { intros v. unfold deg_of. apply Permutation_length, NoDup_Permutation.
    - apply NoDup_filter, (wf_h_nodup m' (valid_wf m' V')).
    - apply NoDup_filter, W.
    - intros y. rewrite !filter_In, IH, andb_true_iff, KP. unfold CollapseV.gone. split.
      + intros [[A B] E]. rewrite Ss in E by exact A. auto.
      + intros [A [B E]]. rewrite Ss by exact A. auto. }
  assert (SG : forall y v, v <> u0 -> v <> u2 -> ptr_eqb (CollapseV.sg u0 u2 (h_src m y)) (Some v) = ptr_eqb (h_src m y) (Some v)).
  { intros y v A B. unfold CollapseV.sg. destruct (ptr_eqb (h_src m y) (Some u2)) eqn:E; [|reflexivity].
    apply ptr_eqb_eq in E. rewrite E, !NE by congruence. reflexivity. }
  constructor.
  - destruct Hx as [->| ->]; assumption.
  - apply T.
  - apply T.
  - intros h. rewrite IH. split.
    + intros [A B]. split; [exact A|]. rewrite (GF h A) in B. tauto.
    + intros (A & B & E). split; [exact A|]. rewrite (GF h A). tauto.
  - apply T.
  - apply T.
  - apply T.
  - intros v. unfold SameData. rewrite (c_pos _ _ _ _ _ _ _ _ _ _ _ _ _ _ _ _ _ _ T), (c_lock _ _ _ _ _ _ _ _ _ _ _ _ _ _ _ _ _ _ T). auto.
  - intros a b. split.
    + intros (h & Hh & Sa & Db). pose proof (valid_noloops m' V' h Hh) as NL.
      split; [congruence|]. rewrite Ds in Db by exact Hh. apply IH in Hh as [Hh G]. rewrite Ss in Sa by exact Hh.
      destruct (ends_some m h W Hh) as (c & d & E1 & E2 & _). exists c, d. split; [exists h; auto|].
      rewrite E1, sg_merge in Sa. rewrite E2, sg_merge in Db. split; congruence.
    + intros (Hab & c & d & (h & Hh & Sc & Dd) & -> & ->).
      destruct (in_dec Nat.eq_dec h [he; hn; hp; rev; rn; rp]) as [G|G].
      * assert (KO : forall o a b, In o (m_hes m) -> In o [o0; o1; o2; o3] -> h_src m o = Some a -> dst_of m o = Some b ->
           exists h', In h' (m_hes m') /\ h_src m' h' = Some (merge u0 u2 a) /\ dst_of m' h' = Some (merge u0 u2 b)).
        { intros o a b A B Ea Eb. exists o. assert (In o (m_hes m')) by (apply IH; split; [exact A|apply ON; exact B]).
          rewrite Ds, Ss, Ea, Eb, !sg_merge by assumption. auto. }
        assert (L0 : dst_of m o0 = Some u1) by (unfold dst_of; rewrite Q0; exact S1).
        assert (L1 : dst_of m o1 = Some u2) by (unfold dst_of; rewrite Q1; exact S0).
        assert (L2 : dst_of m o2 = Some u3) by (unfold dst_of; rewrite Q2; exact S3).
        assert (L3 : dst_of m o3 = Some u0) by (unfold dst_of; rewrite Q3; exact S2).
        simpl in G. destruct G as [<-|[<-|[<-|[<-|[<-|[<-|[]]]]]]].
        -- exfalso. apply Hab. assert (d = u2) by (unfold dst_of in Dd; rewrite R in Dd; congruence). assert (c = u0) by congruence. subst. rewrite M2, MO; congruence.
        -- assert (d = u1) by (rewrite (dst_next m _ _ W I0 N0) in Dd; congruence). assert (c = u2) by congruence. subst.
           destruct (KO o0 u0 u1 J0 (or_introl eq_refl) T0 L0) as (h' & A & B & E). exists h'. rewrite M2. rewrite (MO u0) in B by congruence. auto.
        -- assert (d = u0) by (rewrite (dst_next m _ _ W I1 N1) in Dd; congruence). assert (c = u1) by congruence. subst.
           destruct (KO o1 u1 u2 J1 ltac:(simpl; tauto) T1 L1) as (h' & A & B & E). exists h'. rewrite M2 in E. rewrite (MO u0) by congruence. auto.
        -- exfalso. apply Hab. assert (d = u0) by (unfold dst_of in Dd; rewrite Rr in Dd; congruence). assert (c = u2) by congruence. subst. rewrite M2, MO; congruence.
        -- assert (d = u3) by (rewrite (dst_next m _ _ W I2 N2) in Dd; congruence). assert (c = u0) by congruence. subst.
           destruct (KO o2 u2 u3 J2 ltac:(simpl; tauto) T2 L2) as (h' & A & B & E). exists h'. rewrite M2 in B. rewrite (MO u0) by congruence. auto.
        -- assert (d = u2) by (rewrite (dst_next m _ _ W I3 N3) in Dd; congruence). assert (c = u3) by congruence. subst.
           destruct (KO o3 u3 u0 J3 ltac:(simpl; tauto) T3 L3) as (h' & A & B & E). exists h'. rewrite M2. rewrite (MO u0) in E by congruence. auto.
      * exists h. assert (In h (m_hes m')) by (apply IH; split; assumption).
        rewrite Ds, Ss, Sc, Dd, !sg_merge by assumption. auto.
  - intros h v Hh. apply IH in Hh as [Hh _]. rewrite Ss by exact Hh. destruct (wf_src m W _ Hh) as (w & Ew & _). rewrite Ew, sg_merge. split.
    + intros [= <-]. exists w; auto.
    + intros (w' & [= <-] & ->). reflexivity.
  - intros h Hh. rewrite (c_next _ _ _ _ _ _ _ _ _ _ _ _ _ _ _ _ _ _ T), (c_face _ _ _ _ _ _ _ _ _ _ _ _ _ _ _ _ _ _ T), (c_bd _ _ _ _ _ _ _ _ _ _ _ _ _ _ _ _ _ _ T). auto.
  - rewrite DL. unfold deg_of.
    set (p := fun h => ptr_eqb (h_src m h) (Some u0) || ptr_eqb (h_src m h) (Some u2)).
    transitivity (length (filter p (m_hes m))).
    + symmetry. change 4 with (length [he; rn; rev; hn]). apply filter_minus.
      * apply W.
      * apply nodup6 in ND. destruct ND as (? & ? & ? & ? & ? & ? & ? & ? & ? & ? & ? & ? & ? & ? & ?).
        repeat (apply NoDup_cons; [simpl; intuition congruence|]). apply NoDup_nil.
      * intros y Hy. simpl in Hy. destruct Hy as [<-|[<-|[<-|[<-|[]]]]]; assumption.
      * intros y Hy. rewrite andb_true_iff, KP. unfold p. rewrite orb_true_iff, !ptr_eqb_eq. split.
        -- intros Sy. destruct (in_dec Nat.eq_dec y [he; hn; hp; rev; rn; rp]) as [G|G].
           ++ right. simpl in G |- *. destruct G as [<-|[<-|[<-|[<-|[<-|[<-|[]]]]]]]; try tauto; exfalso; destruct Sy; congruence.
           ++ left. split; [exact G|]. destruct Sy as [Sy|Sy]; rewrite Sy, sg_merge; [rewrite MO|rewrite M2]; congruence.
        -- intros [[_ Sy]|Hy']; [|simpl in Hy'; destruct Hy' as [<-|[<-|[<-|[<-|[]]]]]; tauto].
           destruct (CollapseV.sg_cases u0 u2 (h_src m y)) as [[E _]|[E E']]; [auto|left; congruence].
      * intros y Hy. apply andb_false_iff. left. apply not_true_iff_false. rewrite KP. intros Gn; apply Gn. simpl in *; tauto.
    + rewrite <- app_length. apply Permutation_length, NoDup_Permutation.
      * apply NoDup_filter, W.
      * apply nodup_app; [apply NoDup_filter, W|apply NoDup_filter, W|]. intros y Hy Hy'. apply filter_In in Hy as [_ E], Hy' as [_ E'].
        apply ptr_eqb_eq in E, E'. congruence.
      * intros y. rewrite in_app_iff, !filter_In. unfold p. rewrite orb_true_iff. tauto.
  - rewrite DL. unfold deg_of. apply (filter_minus1 _ _ _ hp); [apply W|exact I1|rewrite S1; apply ptr_eqb_refl| |].
    + apply andb_false_iff. left. apply not_true_iff_false. rewrite KP. intros Gn; apply Gn; simpl; tauto.
    + intros y Hy A. rewrite SG by congruence. destruct (kept y) eqn:E; [reflexivity|].
      apply not_true_iff_false in E. rewrite KP in E. destruct (in_dec Nat.eq_dec y [he; hn; hp; rev; rn; rp]) as [G|G]; [|contradiction].
      simpl in G. destruct G as [<-|[<-|[<-|[<-|[<-|[<-|[]]]]]]]; try contradiction; rewrite ?S, ?S0, ?S1, ?Sr, ?S2, ?S3, NE by congruence; reflexivity.
  - rewrite DL. unfold deg_of. apply (filter_minus1 _ _ _ rp); [apply W|exact I3|rewrite S3; apply ptr_eqb_refl| |].
    + apply andb_false_iff. left. apply not_true_iff_false. rewrite KP. intros Gn; apply Gn; simpl; tauto.
    + intros y Hy A. rewrite SG by congruence. destruct (kept y) eqn:E; [reflexivity|].
      apply not_true_iff_false in E. rewrite KP in E. destruct (in_dec Nat.eq_dec y [he; hn; hp; rev; rn; rp]) as [G|G]; [|contradiction].
      simpl in G. destruct G as [<-|[<-|[<-|[<-|[<-|[<-|[]]]]]]]; try contradiction; rewrite ?S, ?S0, ?S1, ?Sr, ?S2, ?S3, NE by congruence; reflexivity.
  - intros v A0 A1 A2 A3. rewrite DL. unfold deg_of. apply filter_same. intros y Hy. rewrite SG by congruence.
    destruct (kept y) eqn:E; [reflexivity|].
    apply not_true_iff_false in E. rewrite KP in E. destruct (in_dec Nat.eq_dec y [he; hn; hp; rev; rn; rp]) as [G|G]; [|contradiction].
    simpl in G. destruct G as [<-|[<-|[<-|[<-|[<-|[<-|[]]]]]]]; rewrite ?S, ?S0, ?S1, ?Sr, ?S2, ?S3, NE by congruence; reflexivity.
Qed.

End CollapseFx.
End Fx.
