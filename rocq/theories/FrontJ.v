(** holeFillAdvancingFront: joining the new triangles along their common sides. *)
From Coq Require Import List ZArith Arith Lia Bool.
From Verif Require Import Num Vec Heap Mesh Spec Orbit Rings Exec Construct Remove Split Fill FillT FillQ Front.
Import ListNotations.
Local Open Scope mesh_scope.

(** Everything but [h_rev] and [h_bd] is the same. *)
Record JSame {N : Num} (m m' : mesh N) : Prop := {
  js_lists : m_verts m' = m_verts m /\ m_hes m' = m_hes m /\ m_faces m' = m_faces m /\ m_indices m' = m_indices m /\ m_fresh m' = m_fresh m;
  js_v : v_live m' = v_live m /\ v_pos m' = v_pos m /\ v_he m' = v_he m /\ v_idx m' = v_idx m /\ v_lock m' = v_lock m;
  js_h : h_live m' = h_live m /\ h_src m' = h_src m /\ h_next m' = h_next m /\ h_face m' = h_face m /\ h_idx m' = h_idx m;
  js_f : f_live m' = f_live m /\ f_he m' = f_he m /\ f_idx m' = f_idx m }.

Section J.
Context {N : Num}.
Variables (m1 : mesh N) (p : maps) (ts : list tri_t) (fs : list nat).
Let E := flat_map sides ts.
Definition TriJ (t : tri_t) (f : nat) : Prop := let '(i, a, k) := t in exists h0 h1 h2,
  p_he p i a = Some h0 /\ p_he p a k = Some h1 /\ p_he p k i = Some h2 /\ i <> a /\ a <> k /\ i <> k /\
  h_next m1 h0 = Some h1 /\ h_next m1 h1 = Some h2 /\ h_next m1 h2 = Some h0 /\ f_he m1 f = Some h0 /\ f_live m1 f = true.
Hypothesis TJ : Forall2 TriJ ts fs.
Hypothesis FR : 2 <= m_fresh m1.
Hypothesis PL : forall u v h, p_he p u v = Some h -> h_live m1 h = true.
Hypothesis PO : forall u v h, p_he p u v = Some h -> p_of p h = (u, v).
Hypothesis OPP : forall u v h, In (u, v) E -> p_he p u v = Some h -> h_rev m1 h = None -> u <> v /\ exists r, p_he p v u = Some r /\ h_rev m1 r = None.
Hypothesis EB : forall u v h, In (u, v) E -> p_he p u v = Some h -> h_bd m1 h = false.

Lemma pinj u v u' v' h : p_he p u v = Some h -> p_he p u' v' = Some h -> u' = u /\ v' = v.
Proof. intros A B. assert (X := PO _ _ _ A). rewrite (PO _ _ _ B) in X. injection X; auto. Qed.

Record JInv (D : list (nat * nat)) (m : mesh N) : Prop := {
  ji_same : JSame m1 m;
  ji_un : forall y, h_rev m1 y <> None \/ (forall u v, p_he p u v = Some y -> ~ In (u, v) E /\ ~ In (v, u) E) -> h_rev m y = h_rev m1 y /\ h_bd m y = h_bd m1 y;
  ji_ne : forall y, (forall u v, p_he p u v = Some y -> ~ In (u, v) E) -> h_bd m y = h_bd m1 y;
  ji_pair : forall u v h r, In (u, v) E -> p_he p u v = Some h -> p_he p v u = Some r -> h_rev m1 h = None ->
    (h_rev m h = Some r /\ h_rev m r = Some h /\ (In (v, u) E -> h_bd m h = false) /\ (~ In (v, u) E -> h_bd m h = h_bd m1 r)) \/
    (h_rev m h = None /\ h_rev m r = None /\ h_bd m h = false /\ ~ In (u, v) D) }.

Lemma join_up_ok D m i j h : JInv D m -> In (i, j) E -> p_he p i j = Some h -> exists m', join_up p (Some h) m = Ok (tt, m') /\ JInv ((i, j) :: D) m'.
Proof.
  intros [PS PU PN PP] I H. assert (L : h_live m h = true) by (destruct (js_h _ _ PS) as (X & _); rewrite X; exact (PL _ _ _ H)).
  unfold join_up. rewrite (bind_ok _ _ _ _ _ (r_rev m h L)).
  assert (KEEP : (h_rev m1 h = None -> h_rev m h <> None) -> JInv ((i, j) :: D) m).
  { intros X. constructor; [exact PS|exact PU|exact PN|]. intros u v h' r' Iu Hu Hr N0. destruct (PP u v h' r' Iu Hu Hr N0) as [Z | (Z1 & Z2 & Z3 & Z4)]; [left; exact Z|right].
    split; [exact Z1|]. split; [exact Z2|]. split; [exact Z3|]. intros [K | K]; [|exact (Z4 K)]. injection K as <- <-. assert (h' = h) by congruence. subst h'. exact (X N0 Z1). }
  destruct (h_rev m1 h) as [r1|] eqn:E1.
  - destruct (PU h) as [X _]; [left; congruence|]. rewrite X, E1. exists m. split; [reflexivity|]. apply KEEP. discriminate.
  - destruct (OPP _ _ _ I H E1) as (Dij & r & Hr & Er). destruct (PP i j h r I H Hr E1) as [(Z & _) | (Z1 & Z2 & Z3 & Z4)].
    + rewrite Z. exists m. split; [reflexivity|]. apply KEEP. congruence.
    + rewrite Z1, (PO _ _ _ H), Hr. assert (Lr : h_live m r = true) by (destruct (js_h _ _ PS) as (X & _); rewrite X; exact (PL _ _ _ Hr)).
      assert (Dhr : h <> r) by (intros ->; destruct (pinj _ _ _ _ _ H Hr); congruence).
      rewrite (bind_ok _ _ _ _ _ (ww_rev m h (Some r) L)). set (mA := set_h_rev h (Some r) m).
      rewrite (bind_ok _ _ _ _ _ (ww_rev mA r (Some h) ltac:(unfold mA; flds; exact Lr))). set (mB := set_h_rev r (Some h) mA).
      rewrite (bind_ok _ _ _ _ _ (r_bd mB r ltac:(unfold mB, mA; flds; exact Lr))).
      rewrite (ww_bd mB h (h_bd mB r) ltac:(unfold mB, mA; flds; exact L)). eexists. split; [reflexivity|]. unfold mB, mA. flds.
      assert (BR : (In (j, i) E -> h_bd m r = false) /\ (~ In (j, i) E -> h_bd m r = h_bd m1 r)).
      { split; intros K.
        - destruct (PP j i r h K Hr H Er) as [(Y & _) | (_ & _ & Y & _)]; [congruence|exact Y].
        - apply PN. intros u v Hu. destruct (pinj _ _ _ _ _ Hr Hu) as [-> ->]. exact K. }
      constructor.
      * destruct PS as [Q1 Q2 Q3 Q4]. constructor; flds; assumption.
      * intros y Y. flds. assert (Y1 : y <> h) by (intros ->; destruct Y as [Y | Y]; [congruence|exact (proj1 (Y i j H) I)]). assert (Y2 : y <> r) by (intros ->; destruct Y as [Y | Y]; [congruence|exact (proj2 (Y j i Hr) I)]). fu. exact (PU y Y).
      * intros y Y. flds. assert (Y1 : y <> h) by (intros ->; exact (Y i j H I)). fu. exact (PN y Y).
      * intros u v h' r' Iu Hu Hv N0. flds. destruct (Nat.eq_dec h' h) as [->|Y1].
        -- destruct (pinj _ _ _ _ _ H Hu) as [-> ->]. assert (r' = r) by congruence. subst r'. left. fu. destruct BR. auto.
        -- destruct (Nat.eq_dec h' r) as [->|Y2].
           ++ destruct (pinj _ _ _ _ _ Hr Hu) as [-> ->]. assert (r' = h) by congruence. subst r'. left. fu. split; [reflexivity|]. split; [reflexivity|]. split; [intros _; apply (proj1 BR), Iu|intros K; contradiction].
           ++ assert (Y3 : r' <> h) by (intros ->; destruct (pinj _ _ _ _ _ H Hv) as [-> ->]; congruence). assert (Y4 : r' <> r) by (intros ->; destruct (pinj _ _ _ _ _ Hr Hv) as [-> ->]; congruence). fu.
              destruct (PP u v h' r' Iu Hu Hv N0) as [Z | (Q1 & Q2 & Q3 & Q4)]; [left; exact Z|right]. split; [exact Q1|]. split; [exact Q2|]. split; [exact Q3|]. intros [K | K]; [|exact (Q4 K)]. injection K as <- <-. congruence.
Qed.

Lemma join_face_ok D m t f : JInv D m -> In t ts -> TriJ t f -> exists m', circ_f (Some f) tt (fun _ h => join_up p h ;; ret (tt, false)) m = Ok (tt, m') /\ JInv (rev (sides t) ++ D) m'.
Proof.
  intros P I TA. destruct t as [[i a] k]. destruct TA as (h0 & h1 & h2 & P0 & P1 & P2 & D1 & D2 & D3 & N0 & N1 & N2 & FF & LF).
  assert (I0 : In (i, a) E) by (apply in_flat_map; exists (i, a, k); split; [exact I|left; reflexivity]).
  assert (I1 : In (a, k) E) by (apply in_flat_map; exists (i, a, k); split; [exact I|right; left; reflexivity]).
  assert (I2 : In (k, i) E) by (apply in_flat_map; exists (i, a, k); split; [exact I|right; right; left; reflexivity]).
  destruct (join_up_ok D m i a h0 P I0 P0) as (mA & XA & PA). destruct (join_up_ok _ mA a k h1 PA I1 P1) as (mB & XB & PB). destruct (join_up_ok _ mB k i h2 PB I2 P2) as (mC & XC & PC).
  assert (D01 : h1 <> h0) by (intros ->; destruct (pinj _ _ _ _ _ P0 P1); congruence). assert (D02 : h2 <> h0) by (intros ->; destruct (pinj _ _ _ _ _ P0 P2); congruence).
  exists mC. split; [|exact PC].
  destruct (js_h _ _ (ji_same _ _ PA)) as (LA & _ & NA & _), (js_h _ _ (ji_same _ _ PB)) as (LB & _ & NB & _), (js_h _ _ (ji_same _ _ PC)) as (LC & _ & NC & _).
  destruct (js_f _ _ (ji_same _ _ P)) as (FL & FH & _). destruct (js_lists _ _ (ji_same _ _ P)) as (_ & _ & _ & _ & FRR).
  apply (circ3 _ m mA mB mC f h0 h1 h2); [rewrite FL; exact LF|rewrite FH; exact FF| |exact D01|exact D02| |rewrite LA; exact (PL _ _ _ P0)|rewrite NA; exact N0| |rewrite LB; exact (PL _ _ _ P1)|rewrite NB; exact N1| |rewrite LC; exact (PL _ _ _ P2)|rewrite NC; exact N2].
  - rewrite FRR. exact FR.
  - rewrite (bind_ok _ _ _ _ _ XA). reflexivity.
  - rewrite (bind_ok _ _ _ _ _ XB). reflexivity.
  - rewrite (bind_ok _ _ _ _ _ XC). reflexivity.
Qed.

Lemma join_all_ok : forall ts' fs' D m, Forall2 TriJ ts' fs' -> (forall t, In t ts' -> In t ts) -> JInv D m ->
  exists D' m', join_faces p fs' m = Ok (tt, m') /\ JInv D' m' /\ forall e, In e D \/ In e (flat_map sides ts') -> In e D'.
Proof.
  induction ts' as [|t ts' IH]; intros fs' D m F Q P; inversion F as [|? f ? fs'' TA F']; subst; cbn [join_faces].
  - exists D, m. split; [reflexivity|]. split; [exact P|]. intros e [H | []]. exact H.
  - destruct (join_face_ok D m t f P (Q t (or_introl eq_refl)) TA) as (mA & XA & PA). rewrite (bind_ok _ _ _ _ _ XA).
    destruct (IH fs'' _ mA F' (fun x Hx => Q x (or_intror Hx)) PA) as (D' & m' & X' & P' & K). exists D', m'. split; [exact X'|]. split; [exact P'|].
    intros e [H | H]; apply K; [left; apply in_app_iff; auto|]. cbn [flat_map] in H. apply in_app_iff in H as [H | H]; [left; apply in_app_iff; left; apply in_rev; rewrite rev_involutive; exact H|right; exact H].
Qed.
Lemma join_faces_ok : exists m2, join_faces p fs m1 = Ok (tt, m2) /\ JSame m1 m2 /\
  (forall y, h_rev m1 y <> None \/ (forall u v, p_he p u v = Some y -> ~ In (u, v) E /\ ~ In (v, u) E) -> h_rev m2 y = h_rev m1 y /\ h_bd m2 y = h_bd m1 y) /\
  (forall y, (forall u v, p_he p u v = Some y -> ~ In (u, v) E) -> h_bd m2 y = h_bd m1 y) /\
  (forall u v h r, In (u, v) E -> p_he p u v = Some h -> p_he p v u = Some r -> h_rev m1 h = None ->
     h_rev m2 h = Some r /\ h_rev m2 r = Some h /\ (In (v, u) E -> h_bd m2 h = false) /\ (~ In (v, u) E -> h_bd m2 h = h_bd m1 r)).
Proof.
  assert (P : JInv [] m1).
  { constructor; [constructor; repeat split; reflexivity|auto|auto|]. intros u v h r Iu Hu Hv N0. right. split; [exact N0|]. split; [|split; [exact (EB _ _ _ Iu Hu)|intros []]].
    destruct (OPP _ _ _ Iu Hu N0) as (_ & r' & Hr & Nr). congruence. }
  destruct (join_all_ok ts fs [] m1 TJ (fun t H => H) P) as (D & m2 & X & P2 & K). exists m2. destruct P2 as [A1 A2 A3 A4]. repeat (split; [assumption|]).
  intros u v h r Iu Hu Hv N0. destruct (A4 u v h r Iu Hu Hv N0) as [Z | (_ & _ & _ & Z)]; [exact Z|]. exfalso. apply Z, K. right. exact Iu.
Qed.
End J.
