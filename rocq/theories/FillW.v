(** Filling one hole keeps the mesh well formed. *)
From Coq Require Import List ZArith Arith Lia Bool Permutation.
From Verif Require Import Num Vec Heap Mesh Spec Orbit Rings Exec BuildTri BuildOpen Fill FillT FillO FillQ.
Import ListNotations.

(** The elements of a cycle in order. *)
Lemma chain_nth f : forall l x z i a, chainto f x l z -> nth_error (x :: l) i = Some a -> f a = match nth_error (x :: l) (i + 1) with Some b => Some b | None => Some z end.
Proof.
  induction l as [|y l IH]; intros x z i a C E; cbn [chainto] in C.
  - destruct i as [|i]; cbn in E; [injection E as <-; exact C|destruct i; discriminate].
  - destruct C as [C1 C2]. destruct i as [|i]; cbn [nth_error Nat.add] in E |- *; [injection E as <-; exact C1|]. exact (IH y z i a C2 E).
Qed.
Lemma cyc_nth f l i a : cyc f l -> nth_error l i = Some a -> f a = nth_error l ((i + 1) mod length l).
Proof.
  destruct l as [|x l]; [intros []|]. intros C E. assert (L : i < length (x :: l)) by (apply nth_error_Some; congruence).
  rewrite (chain_nth f l x x i a C E). destruct (Nat.eq_dec (i + 1) (length (x :: l))) as [Z|Z].
  - rewrite Z, Nat.mod_same by (cbn [length]; lia). rewrite (proj2 (nth_error_None (x :: l) (length (x :: l)))) by lia. reflexivity.
  - rewrite Nat.mod_small by lia. destruct (nth_error (x :: l) (i + 1)) eqn:Y; [reflexivity|]. apply nth_error_None in Y. lia.
Qed.

Section W.
Context {N : Num}.
Variables (m : mesh N) (f0 : nat) (ring bs : list nat) (ts : list tri_t) (fs : list nat) (he : nat -> nat -> option nat) (m' : mesh N).
Let n := length ring.
Hypothesis W : WF m.
Hypothesis If0 : In f0 (m_faces m).
Hypothesis R : Fring m f0 ring.
Hypothesis RB : map (h_src m) ring = map Some bs.
Hypothesis Hn : 3 <= n.
Hypothesis TR : Tree n ts.
Hypothesis F : Filled m f0 ring bs ts fs he m'.
Let E := flat_map sides ts.

Lemma w_ri y : In y ring -> In y (m_hes m). Proof. intros H. apply R, H. Qed.
Lemma w_lt y : In y (m_hes m) -> y < m_fresh m. Proof. apply (h_lt m W). Qed.
Lemma w_dec e : ring_pair n e \/ ~ ring_pair n e.
Proof. unfold ring_pair. destruct (lt_dec (fst e) n), (Nat.eq_dec (snd e) ((fst e + 1) mod n)); tauto. Qed.
Lemma w_side_lt i j : In (i, j) E -> i < n /\ j < n /\ i <> j.
Proof. intros I. apply in_flat_map in I as (t & It & Ie). exact (sides_rng n ts TR Hn t i j It Ie). Qed.
Lemma w_nonring i j : i < n -> nonring n (i, j) = true <-> ~ ring_pair n (i, j).
Proof. intros L. unfold nonring, ring_pair. cbn [fst snd]. rewrite negb_true_iff, Nat.eqb_neq. tauto. Qed.

(** The half-edges of the new mesh. *)
Lemma w_in h : In h (m_hes m') <-> In h (m_hes m) \/ exists i j, In (i, j) E /\ ~ ring_pair n (i, j) /\ he i j = Some h.
Proof.
  destruct (fl_hes _ _ _ _ _ _ _ _ F) as (news & E1 & E2). rewrite E1, in_app_iff. apply or_iff_compat_l. split.
  - intros I. apply (in_map Some) in I. rewrite E2 in I. apply in_map_iff in I as ([i j] & Eh & I). apply filter_In in I as [I NR]. exists i, j. split; [exact I|]. split; [apply w_nonring; [apply (w_side_lt i j I)|exact NR]|exact Eh].
  - intros (i & j & I & NR & Eh). assert (K : In (Some h) (map Some news)) by (rewrite E2; apply in_map_iff; exists (i, j); split; [exact Eh|apply filter_In; split; [exact I|apply w_nonring; [apply (w_side_lt i j I)|exact NR]]]).
    apply in_map_iff in K as (x & [= ->] & K). exact K.
Qed.
Lemma w_old h : In h (m_hes m) -> In h (m_hes m'). Proof. intros I. apply w_in. auto. Qed.
Lemma w_ring_side i j h : ring_pair n (i, j) -> nth_error ring i = Some h -> In (i, j) E /\ he i j = Some h.
Proof.
  intros RP X. split; [|rewrite (fl_he_ring _ _ _ _ _ _ _ _ F i j RP); exact X]. assert (L := proj1 RP). cbn [fst] in L.
  assert (Lj : j < n) by (destruct RP as [_ RP]; cbn [fst snd] in RP; rewrite RP; apply Nat.mod_upper_bound; lia).
  apply ring_pair_iff in RP; [|assumption..]. destruct RP as [-> | [-> ->]].
  - destruct (side_ring n ts TR Hn i) as (t & It & Ie); [lia|]. apply in_flat_map. exists t. replace (i + 1) with (S i) by lia. auto.
  - destruct (side_last n ts TR) as (t & It & Ie). apply in_flat_map. eauto.
Qed.

(** What a side looks like. *)
Record Side (t : tri_t) (f i j h : nat) : Prop := {
  sd_t : In t ts;
  sd_f : In f fs;
  sd_in : In h (m_hes m');
  sd_src : h_src m' h = nth_error bs i;
  sd_next : exists k h', In (j, k) (sides t) /\ he j k = Some h' /\ h_next m' h = Some h' /\ h_face m' h' = Some f;
  sd_face : h_face m' h = Some f;
  sd_bd : h_bd m' h = false;
  sd_tri : piter (h_next m') 3 h = Some h }.
Lemma w_he_in i j h : In (i, j) E -> he i j = Some h -> In h (m_hes m').
Proof.
  intros I X. destruct (w_dec (i, j)) as [RP | RP].
  - apply w_old, w_ri. rewrite (fl_he_ring _ _ _ _ _ _ _ _ F i j RP) in X. exact (nth_error_In _ _ X).
  - apply w_in. right. eauto.
Qed.
Lemma w_side t i j : In t ts -> In (i, j) (sides t) -> exists f h, he i j = Some h /\ Side t f i j h.
Proof.
  intros It Ie. destruct (forall2_in_l _ _ _ _ (fl_tri _ _ _ _ _ _ _ _ F) It) as (f & Iff & K). destruct t as [[x y] z].
  destruct K as (_ & h0 & h1 & h2 & P0 & P1 & P2 & S0 & S1 & S2 & N0 & N1 & N2 & F0 & F1 & F2 & B0 & B1 & B2 & FF).
  assert (IE : forall a b, In (a, b) (sides (x, y, z)) -> In (a, b) E) by (intros a b Q; apply in_flat_map; exists (x, y, z); auto).
  assert (T0 : piter (h_next m') 3 h0 = Some h0) by (cbn [piter]; rewrite N0, N1, N2; reflexivity). assert (T1 : piter (h_next m') 3 h1 = Some h1) by (cbn [piter]; rewrite N1, N2, N0; reflexivity). assert (T2 : piter (h_next m') 3 h2 = Some h2) by (cbn [piter]; rewrite N2, N0, N1; reflexivity).
  exists f. destruct Ie as [Q | [Q | [Q | []]]]; injection Q as <- <-; [exists h0|exists h1|exists h2]; (split; [assumption|]); constructor; try assumption.
  - apply (w_he_in x y); [apply IE; left; reflexivity|exact P0].
  - exists z, h1. split; [right; left; reflexivity|auto].
  - apply (w_he_in y z); [apply IE; right; left; reflexivity|exact P1].
  - exists x, h2. split; [right; right; left; reflexivity|auto].
  - apply (w_he_in z x); [apply IE; right; right; left; reflexivity|exact P2].
  - exists y, h0. split; [left; reflexivity|auto].
Qed.
(** Every half-edge is an untouched one or a side. *)
Lemma w_cases h : In h (m_hes m') -> (In h (m_hes m) /\ ~ In h ring) \/ exists t f i j, In (i, j) (sides t) /\ he i j = Some h /\ Side t f i j h.
Proof.
  intros I. assert (K : (In h (m_hes m) /\ ~ In h ring) \/ exists i j, In (i, j) E /\ he i j = Some h).
  { apply w_in in I as [I | (i & j & I & _ & X)]; [|right; eauto]. destruct (in_dec Nat.eq_dec h ring) as [Ir | Ir]; [|left; auto]. right.
    apply In_nth_error in Ir as (i & X). assert (L : i < n) by (apply nth_error_Some; congruence). destruct (w_ring_side i ((i + 1) mod n) h) as [Q1 Q2]; [split; [exact L|reflexivity]|exact X|eauto]. }
  destruct K as [K | (i & j & I' & X)]; [left; exact K|right]. apply in_flat_map in I' as (t & It & Ie). destruct (w_side t i j It Ie) as (f & h' & X' & S). assert (h' = h) by congruence. subst h'. exists t, f, i, j. auto.
Qed.
Lemma w_of i j h : In (i, j) E -> he i j = Some h -> exists t f, In (i, j) (sides t) /\ Side t f i j h.
Proof. intros I X. apply in_flat_map in I as (t & It & Ie). destruct (w_side t i j It Ie) as (f & h' & X' & S). assert (h' = h) by congruence. subst h'. eauto. Qed.
Lemma w_E t i j : In t ts -> In (i, j) (sides t) -> In (i, j) E. Proof. intros. apply in_flat_map. eauto. Qed.

Lemma w_bs i : i < n -> exists b, nth_error bs i = Some b /\ In b (m_verts m) /\ forall h, nth_error ring i = Some h -> h_src m h = Some b.
Proof.
  intros L. destruct (nth_error ring i) as [h|] eqn:X; [|apply nth_error_None in X; unfold n in L; lia].
  assert (K : nth_error (map Some bs) i = Some (h_src m h)) by (rewrite <- RB; apply map_nth_error, X). rewrite nth_error_map in K.
  destruct (nth_error bs i) as [b|]; [|discriminate]. injection K as K. exists b. split; [reflexivity|]. split; [|intros h' [= <-]; symmetry; exact K].
  destruct (wf_src m W h (w_ri _ (nth_error_In _ _ X))) as (v & Ev & Iv). congruence.
Qed.
Lemma w_src y : In y (m_hes m) -> h_src m' y = h_src m y.
Proof. intros I. destruct (in_dec Nat.eq_dec y ring) as [J | J]; [apply (fl_ring _ _ _ _ _ _ _ _ F y J)|apply (fl_old _ _ _ _ _ _ _ _ F y I J)]. Qed.
Lemma w_rev y : In y (m_hes m) -> h_rev m' y = h_rev m y.
Proof. intros I. destruct (in_dec Nat.eq_dec y ring) as [J | J]; [apply (fl_ring _ _ _ _ _ _ _ _ F y J)|destruct (fl_old _ _ _ _ _ _ _ _ F y I J) as (_ & _ & Q & _); exact Q]. Qed.
Lemma w_out y : In y (m_hes m) -> ~ In y ring -> h_next m' y = h_next m y /\ h_face m' y = h_face m y /\ h_bd m' y = h_bd m y.
Proof. intros I J. destruct (fl_old _ _ _ _ _ _ _ _ F y I J) as (_ & Q1 & _ & Q2 & Q3). auto. Qed.
Lemma w_out_face y : In y (m_hes m) -> ~ In y ring -> exists f, h_face m y = Some f /\ In f (m_faces m) /\ f <> f0.
Proof. intros I J. destruct (wf_face m W y I) as (f & Ef & Iff). exists f. split; [exact Ef|]. split; [exact Iff|]. intros ->. apply J, R. auto. Qed.
Lemma w_out_next y x : In y (m_hes m) -> ~ In y ring -> h_next m y = Some x -> In x (m_hes m) /\ ~ In x ring.
Proof.
  intros I J X. assert (Ix := next_in m W y x I X). split; [exact Ix|]. intros K. apply J, R. split; [exact I|]. rewrite <- (wf_face_next m W y x I X). apply R, K.
Qed.
(** The opposite of a side. *)
Lemma w_rev_side i j h : In (i, j) E -> he i j = Some h -> ~ ring_pair n (i, j) -> exists r, h_rev m' h = Some r /\ he j i = Some r /\ In (j, i) E /\ ~ ring_pair n (j, i).
Proof.
  intros I X NR. assert (It := I). apply in_flat_map in It as (t & It & Ie). destruct (side_opp n ts TR Hn t i j It Ie NR) as [NR' (s & Is & Ies)].
  destruct (w_side s j i Is Ies) as (f & r & Xr & _). exists r. rewrite (fl_he_rev _ _ _ _ _ _ _ _ F i j h I NR X). split; [exact Xr|]. split; [exact Xr|]. split; [exact (w_E s j i Is Ies)|exact NR'].
Qed.
Lemma w_fs f : In f fs -> m_fresh m <= f.
Proof. intros I. destruct (forall2_in_r _ _ _ _ (fl_tri _ _ _ _ _ _ _ _ F) I) as (t & _ & L & _). exact L. Qed.
(** A face has one triangle. *)
Lemma w_uniq t t' f i j h i' j' h' : Side t f i j h -> Side t' f i' j' h' -> In (i, j) (sides t) -> In (i', j') (sides t') -> he i j = Some h -> he i' j' = Some h' -> t = t'.
Proof.
  intros S S' Ie Ie' X X'.
  assert (K : forall t f i j h, Side t f i j h -> In (i, j) (sides t) -> he i j = Some h -> exists x y h0, In (x, y) (sides t) /\ he x y = Some h0 /\ f_he m' f = Some h0).
  { clear - F. intros t f i j h S Ie X. destruct (forall2_in_l _ _ _ _ (fl_tri _ _ _ _ _ _ _ _ F) (sd_t _ _ _ _ _ S)) as (g & _ & K). destruct t as [[x y] z].
    destruct K as (_ & h0 & h1 & h2 & P0 & P1 & P2 & S0 & S1 & S2 & N0 & N1 & N2 & F0 & F1 & F2 & B0 & B1 & B2 & FF).
    assert (Eg : g = f) by (assert (Q := sd_face _ _ _ _ _ S); destruct Ie as [Q' | [Q' | [Q' | []]]]; injection Q' as <- <-; congruence). subst g.
    exists x, y, h0. split; [left; reflexivity|auto]. }
  destruct (K _ _ _ _ _ S Ie X) as (x & y & h0 & I0 & X0 & FH). destruct (K _ _ _ _ _ S' Ie' X') as (x' & y' & h0' & I0' & X0' & FH').
  assert (h0' = h0) by congruence. subst h0'. assert (Q := fl_he_inj _ _ _ _ _ _ _ _ F _ _ _ _ _ X0 X0'). injection Q as <- <-.
  assert (It := sd_t _ _ _ _ _ S). assert (It' := sd_t _ _ _ _ _ S'). clear - TR Hn I0 I0' It It'.
  assert (K : forall l, ForallOrdPairs before l -> (forall t, In t l -> In t ts) -> In t l -> In t' l -> t = t').
  { intros l O Sl. induction O as [|a l Fa O IH]; intros A B; [destruct A|]. assert (Fa' := proj1 (Forall_forall _ _) Fa).
    destruct A as [<- | A], B as [<- | B]; [reflexivity| | |apply IH; [intros; apply Sl; right; assumption|exact A|exact B]].
    - exfalso. exact (before_sides n ts TR Hn a t' It It' (Fa' t' B) (x, y) I0 I0').
    - exfalso. exact (before_sides n ts TR Hn a t It' It (Fa' t A) (x, y) I0' I0). }
  apply (K ts); [exact (tr_ord _ _ TR)|auto|exact It|exact It'].
Qed.

(** ** Rotation *)
Lemma w_rot i j h : In (i, j) E -> he i j = Some h -> ~ ring_pair n (i, j) -> exists k r x, In (j, i) E /\ he j i = Some r /\ he i k = Some x /\ In (i, k) E /\ h_next m' r = Some x /\ rot m' h = Some x.
Proof.
  intros I X NR. destruct (w_rev_side i j h I X NR) as (r & Er & Xr & Ir & _). destruct (w_of j i r Ir Xr) as (t & f & Ie & S). destruct (sd_next _ _ _ _ _ S) as (k & x & Ik & Xx & Nx & _).
  exists k, r, x. split; [exact Ir|]. split; [exact Xr|]. split; [exact Xx|]. split; [exact (w_E t i k (sd_t _ _ _ _ _ S) Ik)|]. split; [exact Nx|]. unfold rot. rewrite Er. exact Nx.
Qed.
(** next of each side of a triangle. *)
Lemma w_tri i a k : In (i, a, k) ts -> exists u v d, he i a = Some u /\ he a k = Some v /\ he k i = Some d /\ h_next m' u = Some v /\ h_next m' v = Some d /\ h_next m' d = Some u.
Proof.
  intros It. destruct (forall2_in_l _ _ _ _ (fl_tri _ _ _ _ _ _ _ _ F) It) as (f & _ & _ & h0 & h1 & h2 & P0 & P1 & P2 & S0 & S1 & S2 & N0 & N1 & N2 & _). exists h0, h1, h2. auto 8.
Qed.
Lemma w_ring_at i : i < n -> exists h, nth_error ring i = Some h.
Proof. intros L. destruct (nth_error ring i) as [h|] eqn:X; [eauto|apply nth_error_None in X; unfold n in L; lia]. Qed.
Lemma w_unit i h : i + 1 < n -> nth_error ring i = Some h -> he i (i + 1) = Some h.
Proof. intros L X. apply w_ring_side; [|exact X]. apply ring_pair_iff; lia. Qed.
Lemma w_step h r x : h_rev m' h = Some r -> h_next m' r = Some x -> rot m' h = Some x.
Proof. intros A B. unfold rot. rewrite A. exact B. Qed.

(** From the side (i,m) one turns to the edge of the hole that leaves corner i, and so on. *)
Definition Turn (i k : nat) : Prop := forall a d, In (i, a, k) ts -> he k i = Some d ->
  (forall x e, h_next m' d = Some x -> nth_error ring i = Some e -> reaches (rot m') x e) /\
  (forall j e e' x, i <= j -> j + 1 < k -> nth_error ring j = Some e -> nth_error ring (j + 1) = Some e' -> h_next m' e = Some x -> reaches (rot m') x e') /\
  (forall e x, nth_error ring (k - 1) = Some e -> h_next m' e = Some x -> reaches (rot m') x d).
Lemma w_nr i j : i + 1 < j -> j < n -> ~ (i = 0 /\ j = n - 1) -> ~ ring_pair n (i, j) /\ ~ ring_pair n (j, i).
Proof. intros L1 L2 NN. split; (rewrite ring_pair_iff; lia). Qed.
(** The side (i,a) of a triangle leads to the edge of the hole at i. *)
Lemma w_up i a u e : i < a -> a < n -> ~ (i = 0 /\ a = n - 1) -> In (i, a) E -> he i a = Some u -> nth_error ring i = Some e -> (i + 1 < a -> (exists b, In (i, b, a) ts) /\ Turn i a) -> reaches (rot m') u e.
Proof.
  intros L1 L2 NN I X Xe H. destruct (Nat.eq_dec a (i + 1)) as [->|D]; [rewrite (w_unit i e L2 Xe) in X; injection X as ->; apply reaches_refl|].
  destruct H as ((b & It) & TI); [lia|]. destruct (w_nr i a ltac:(lia) L2 NN) as [NR _]. destruct (w_rot i a u I X NR) as (k & r & x & Ir & Xr & Xx & _ & Nr & RT).
  eapply reaches_trans; [apply reaches_step; exact RT|]. apply (proj1 (TI b r It Xr) x e Nr Xe).
Qed.
Lemma w_turn : forall d i k, k - i <= d -> Turn i k.
Proof.
  induction d as [|d IH]; intros i k L a dn It Xd; (destruct (tr_rng _ _ TR _ _ _ It) as [B1 B2]; [try lia]).
  destruct (w_tri i a k It) as (u & v & dn' & Xu & Xv & Xd' & Nu & Nv & Nd). assert (dn' = dn) by congruence. subst dn'.
  destruct (tr_chl _ _ TR _ _ _ It) as [C1 C2].
  assert (Iu : In (i, a) E) by (apply (w_E (i, a, k)); [exact It|left; reflexivity]). assert (Iv : In (a, k) E) by (apply (w_E (i, a, k)); [exact It|right; left; reflexivity]).
  assert (Tia : i + 1 < a -> (exists b, In (i, b, a) ts) /\ Turn i a) by (intros Q; split; [destruct C1 as [C1 | C1]; [lia|exact C1]|apply IH; lia]).
  assert (Tak : a + 1 < k -> (exists b, In (a, b, k) ts) /\ Turn a k) by (intros Q; split; [destruct C2 as [C2 | C2]; [lia|exact C2]|apply IH; lia]).
  destruct (w_ring_at i ltac:(lia)) as (ei & Xei). destruct (w_ring_at a ltac:(lia)) as (ea & Xea).
  assert (UI : reaches (rot m') u ei) by (apply (w_up i a); [lia|lia|lia|exact Iu|exact Xu|exact Xei|exact Tia]).
  assert (UA : reaches (rot m') v ea) by (apply (w_up a k); [lia|lia|lia|exact Iv|exact Xv|exact Xea|exact Tak]).
  split; [|split].
  - intros x e Nx Xe. assert (x = u) by congruence. assert (e = ei) by congruence. subst. exact UI.
  - intros j e e' x L1 L2 Xe Xe' Nx. destruct (lt_eq_lt_dec (j + 1) a) as [[Q | Q] | Q].
    + destruct Tia as ((b & Ib) & TI); [lia|]. destruct (w_tri i b a Ib) as (_ & _ & d' & _ & _ & Xd2 & _). exact (proj1 (proj2 (TI b d' Ib Xd2)) j e e' x L1 Q Xe Xe' Nx).
    + assert (e' = ea) by congruence. subst e'. destruct (Nat.eq_dec a (i + 1)) as [Z|Z].
      * assert (j = i) by lia. subst j. assert (e = ei) by congruence. subst e. assert (Z' := w_unit i ei ltac:(lia) Xei). rewrite <- Z in Z'. assert (ei = u) by congruence. subst ei. assert (x = v) by congruence. subst x. exact UA.
      * destruct Tia as ((b & Ib) & TI); [lia|]. destruct (w_tri i b a Ib) as (_ & _ & d' & _ & _ & Xd2 & _).
        eapply reaches_trans; [apply (proj2 (proj2 (TI b d' Ib Xd2)) e x); [replace (a - 1) with j by lia; exact Xe|exact Nx]|].
        destruct (w_nr i a ltac:(lia) ltac:(lia) ltac:(lia)) as [NR NR']. assert (Id : In (a, i) E) by (apply (w_E (i, b, a)); [exact Ib|right; right; left; reflexivity]).
        destruct (w_rev_side a i d' Id Xd2 NR') as (r & Er & Xr & _). assert (r = u) by congruence. subst r.
        eapply reaches_trans; [apply reaches_step; exact (w_step d' u v Er Nu)|exact UA].
    + destruct Tak as ((b & Ib) & TI); [lia|]. destruct (w_tri a b k Ib) as (_ & _ & d' & _ & _ & Xd2 & _). exact (proj1 (proj2 (TI b d' Ib Xd2)) j e e' x ltac:(lia) L2 Xe Xe' Nx).
  - intros e x Xe Nx. destruct (Nat.eq_dec k (a + 1)) as [Z|Z].
    + replace (k - 1) with a in Xe by lia. assert (Z' := w_unit a e ltac:(lia) Xe). rewrite <- Z in Z'. assert (e = v) by congruence. subst e. assert (x = dn) by congruence. subst x. apply reaches_refl.
    + destruct Tak as ((b & Ib) & TI); [lia|]. destruct (w_tri a b k Ib) as (_ & _ & d' & _ & _ & Xd2 & _).
      eapply reaches_trans; [exact (proj2 (proj2 (TI b d' Ib Xd2)) e x Xe Nx)|].
      destruct (w_nr a k ltac:(lia) ltac:(lia) ltac:(lia)) as [NR NR']. assert (Id : In (k, a) E) by (apply (w_E (a, b, k)); [exact Ib|right; right; left; reflexivity]).
      destruct (w_rev_side k a d' Id Xd2 NR') as (r & Er & Xr & _). assert (r = v) by congruence. subst r. apply reaches_step. exact (w_step d' v dn Er Nv).
Qed.
(** Around the hole: from next'(e_i) one turns to e_{i+1}. *)
Lemma w_around i e e' x : nth_error ring i = Some e -> nth_error ring ((i + 1) mod n) = Some e' -> h_next m' e = Some x -> reaches (rot m') x e'.
Proof.
  intros Xe Xe' Nx. assert (L : i < n) by (apply nth_error_Some; congruence). destruct (tr_root _ _ TR) as (a & It). destruct (tr_rng _ _ TR _ _ _ It) as [B1 B2].
  destruct (w_tri 0 a (n - 1) It) as (u & v & d & Xu & Xv & Xd & Nu & Nv & Nd). destruct (w_turn (n - 1) 0 (n - 1) ltac:(lia) a d It Xd) as (T1 & T2 & T3).
  destruct (w_ring_at (n - 1) ltac:(lia)) as (el & Xl). assert (el = d).
  { destruct (w_ring_side (n - 1) 0 el) as [_ Q]; [apply ring_pair_iff; lia|exact Xl|congruence]. } subst el.
  destruct (Nat.eq_dec i (n - 1)) as [->|Di].
  - replace (n - 1 + 1) with n in Xe' by lia. rewrite Nat.mod_same in Xe' by lia. assert (e = d) by congruence. subst e. exact (T1 x e' Nx Xe').
  - rewrite Nat.mod_small in Xe' by lia. destruct (Nat.eq_dec (i + 1) (n - 1)) as [Z|Z].
    + rewrite Z in Xe'. assert (e' = d) by congruence. subst e'. apply (T3 e x); [replace (n - 1 - 1) with i by lia; exact Xe|exact Nx].
    + exact (T2 i e e' x ltac:(lia) ltac:(lia) Xe Xe' Nx).
Qed.
(** Every new half-edge turns to an old one. *)
Lemma w_reach_up i j h : In (i, j) E -> i < j -> he i j = Some h -> exists o, In o (m_hes m) /\ reaches (rot m') h o.
Proof.
  intros I L X. destruct (w_side_lt i j I) as (L1 & L2 & _). destruct (w_ring_at i L1) as (e & Xe). exists e. split; [apply w_ri, (nth_error_In _ _ Xe)|].
  apply in_flat_map in I as ([[x y] z] & It & Ie). destruct (tr_rng _ _ TR _ _ _ It) as [B1 B2]. destruct (tr_chl _ _ TR _ _ _ It) as [C1 C2]. assert (IE := w_E _ _ _ It Ie).
  apply in_sides in Ie. apply (w_up i j); [exact L|exact L2|lia|exact IE|exact X|exact Xe|]. intros Q. split; [|exact (w_turn (j - i) i j ltac:(lia))].
  destruct Ie as [[-> ->] | [[-> ->] | [-> ->]]]; [destruct C1; [lia|assumption]|destruct C2; [lia|assumption]|lia].
Qed.
Lemma w_reach_down : forall b i a k d, n - (k - i) <= b -> In (i, a, k) ts -> he k i = Some d -> exists o, In o (m_hes m) /\ reaches (rot m') d o.
Proof.
  induction b as [|b IH]; intros i a k d L It Xd; (destruct (tr_rng _ _ TR _ _ _ It) as [B1 B2]; [try lia]).
  assert (Id : In (k, i) E) by (apply (w_E (i, a, k)); [exact It|right; right; left; reflexivity]).
  destruct (w_dec (k, i)) as [RP | NR].
  - exists d. split; [|apply reaches_refl]. rewrite (fl_he_ring _ _ _ _ _ _ _ _ F k i RP) in Xd. apply w_ri, (nth_error_In _ _ Xd).
  - destruct (w_rev_side k i d Id Xd NR) as (r & Er & Xr & _). destruct (tr_par _ _ TR _ _ _ It) as [[-> ->] | (x & y & z & Ip & K)]; [exfalso; apply NR, ring_pair_iff; lia|].
    destruct (tr_rng _ _ TR _ _ _ Ip) as [B3 B4]. destruct (w_tri x y z Ip) as (u & v & d' & Xu & Xv & Xd' & Nu & Nv & Nd).
    destruct K as [[-> ->] | [-> ->]].
    + assert (r = u) by congruence. subst r. destruct (w_reach_up k z v) as (o & Io & Ro); [apply (w_E (i, k, z)); [exact Ip|right; left; reflexivity]|lia|exact Xv|].
      exists o. split; [exact Io|]. eapply reaches_trans; [apply reaches_step; exact (w_step d u v Er Nu)|exact Ro].
    + assert (r = v) by congruence. subst r. destruct (IH x i k d' ltac:(lia) Ip Xd') as (o & Io & Ro). exists o. split; [exact Io|]. eapply reaches_trans; [apply reaches_step; exact (w_step d v d' Er Nv)|exact Ro].
Qed.
Lemma w_reach_old h : In h (m_hes m') -> exists o, In o (m_hes m) /\ reaches (rot m') h o.
Proof.
  intros I. apply w_in in I as [I | (i & j & I & NR & X)]; [exists h; split; [exact I|apply reaches_refl]|].
  destruct (lt_dec i j) as [L | L]; [exact (w_reach_up i j h I L X)|]. apply in_flat_map in I as ([[x y] z] & It & Ie). destruct (tr_rng _ _ TR _ _ _ It) as [B1 B2]. apply in_sides in Ie.
  destruct Ie as [[-> ->] | [[-> ->] | [-> ->]]]; [lia|lia|]. exact (w_reach_down _ x y z h (le_n _) It X).
Qed.
(** Old rotation steps are sequences of new ones. *)
Lemma w_reach_rot x y : In x (m_hes m) -> reaches (rot m) x y -> reaches (rot m') x y.
Proof.
  intros I [k H]. revert x I H. induction k as [|k IH]; cbn [piter]; intros x I H; [injection H as <-; apply reaches_refl|].
  destruct (rot_some m W x I) as (r & z & Er & Ez & Erz & Ir & Iz). rewrite Erz in H. eapply reaches_trans; [|exact (IH z Iz H)].
  assert (Er' : h_rev m' x = Some r) by (rewrite w_rev; assumption).
  destruct (in_dec Nat.eq_dec r ring) as [J | J].
  - apply In_nth_error in J as (i & J). assert (Z := cyc_nth _ _ i r (proj1 R) J). rewrite Ez in Z. fold n in Z. assert (Li : i < n) by (apply nth_error_Some; congruence).
    destruct (w_ring_side i ((i + 1) mod n) r) as [Is Xs]; [split; [exact Li|reflexivity]|exact J|]. destruct (w_of _ _ _ Is Xs) as (t & f & _ & S). destruct (sd_next _ _ _ _ _ S) as (_ & w & _ & _ & Nw & _).
    eapply reaches_trans; [apply reaches_step; exact (w_step x r w Er' Nw)|]. exact (w_around i r z w J (eq_sym Z) Nw).
  - apply reaches_step. apply (w_step x r z Er'). destruct (w_out r Ir J) as (Q & _). rewrite Q. exact Ez.
Qed.

(** ** The new mesh is well formed *)
Lemma w_src_some h : In h (m_hes m') -> exists v, h_src m' h = Some v /\ In v (m_verts m').
Proof.
  intros I. destruct (fl_lists _ _ _ _ _ _ _ _ F) as [EV _]. rewrite EV. destruct (w_cases h I) as [[I' J] | (t & f & i & j & Ie & X & S)].
  - rewrite w_src by exact I'. exact (wf_src m W h I').
  - destruct (w_side_lt i j (w_E t i j (sd_t _ _ _ _ _ S) Ie)) as (L & _). destruct (w_bs i L) as (b & Eb & Ib & _). exists b. rewrite (sd_src _ _ _ _ _ S). auto.
Qed.
Lemma w_next_some h : In h (m_hes m') -> exists x, h_next m' h = Some x /\ In x (m_hes m') /\ h_face m' x = h_face m' h.
Proof.
  intros I. destruct (w_cases h I) as [[I' J] | (t & f & i & j & Ie & X & S)].
  - destruct (wf_next m W h I') as (x & Ex & Ix). exists x. destruct (w_out h I' J) as (Q1 & Q2 & _). destruct (w_out_next h x I' J Ex) as [_ Jx]. destruct (w_out x Ix Jx) as (_ & Q3 & _).
    split; [congruence|]. split; [apply w_old, Ix|]. rewrite Q2, Q3. exact (wf_face_next m W h x I' Ex).
  - destruct (sd_next _ _ _ _ _ S) as (k & x & Ik & Xx & Nx & Fx). exists x. split; [exact Nx|]. split; [apply (w_he_in j k); [apply (w_E t); [exact (sd_t _ _ _ _ _ S)|exact Ik]|exact Xx]|]. rewrite Fx. symmetry. apply (sd_face _ _ _ _ _ S).
Qed.
Lemma w_rev_some h : In h (m_hes m') -> exists r, h_rev m' h = Some r /\ In r (m_hes m') /\ h_rev m' r = Some h /\ r <> h.
Proof.
  intros I. apply w_in in I as [I | (i & j & I & NR & X)].
  - destruct (wf_rev m W h I) as (r & Er & Ir). destruct (wf_rev_invol m W h r I Er) as [Rr Dr]. exists r. rewrite !w_rev by assumption. repeat split; [exact Er|apply w_old, Ir|exact Rr|exact Dr].
  - destruct (w_rev_side i j h I X NR) as (r & Er & Xr & Ir & NR'). destruct (w_rev_side j i r Ir Xr NR') as (h' & Eh & Xh & _). assert (h' = h) by congruence. subst h'.
    exists r. split; [exact Er|]. split; [exact (w_he_in j i r Ir Xr)|]. split; [exact Eh|]. intros ->. assert (Q := fl_he_inj _ _ _ _ _ _ _ _ F _ _ _ _ _ X Xr). injection Q as Q _. destruct (w_side_lt i j I) as (_ & _ & D). exact (D Q).
Qed.
Lemma w_face_some h : In h (m_hes m') -> exists f, h_face m' h = Some f /\ In f (m_faces m').
Proof.
  intros I. destruct (w_cases h I) as [[I' J] | (t & f & i & j & Ie & X & S)].
  - destruct (w_out_face h I' J) as (f & Ef & Iff & D). exists f. destruct (w_out h I' J) as (_ & Q & _). split; [congruence|]. apply (fl_faces _ _ _ _ _ _ _ _ F). auto.
  - exists f. split; [exact (sd_face _ _ _ _ _ S)|]. apply (fl_faces _ _ _ _ _ _ _ _ F). right. exact (sd_f _ _ _ _ _ S).
Qed.
Lemma w_dst_side i j h x r : In (i, j) E -> he i j = Some h -> h_next m' h = Some x -> h_rev m' h = Some r -> h_src m' x = nth_error bs j /\ h_src m' r = nth_error bs j.
Proof.
  intros I X Nx Er. destruct (w_of i j h I X) as (t & f & Ie & S). destruct (sd_next _ _ _ _ _ S) as (k & x' & Ik & Xx & Nx' & _). assert (x' = x) by congruence. subst x'.
  destruct (w_side t j k (sd_t _ _ _ _ _ S) Ik) as (f' & x'' & Xx' & S'). assert (x'' = x) by congruence. subst x''. split; [exact (sd_src _ _ _ _ _ S')|].
  destruct (w_dec (i, j)) as [RP | NR].
  - rewrite (fl_he_ring _ _ _ _ _ _ _ _ F i j RP) in X. destruct RP as [Li Ej]. cbn [fst snd] in Li, Ej. assert (Ih := w_ri _ (nth_error_In _ _ X)). rewrite w_rev in Er by exact Ih.
    assert (Z := cyc_nth _ _ i h (proj1 R) X). fold n in Z. rewrite <- Ej in Z. destruct (wf_next m W h Ih) as (y & Ey & Iy). rewrite w_src by exact (rev_in m W h r Ih Er). rewrite <- (wf_dst m W h y r Ih Ey Er).
    rewrite Ey in Z. assert (Lj : j < n) by (rewrite Ej; apply Nat.mod_upper_bound; lia). destruct (w_bs j Lj) as (b & Eb & _ & Hb). rewrite Eb. exact (Hb y (eq_sym Z)).
  - destruct (w_rev_side i j h I X NR) as (r' & Er' & Xr & Ir & _). assert (r' = r) by congruence. subst r'. destruct (w_of j i r Ir Xr) as (t' & f'' & _ & S''). exact (sd_src _ _ _ _ _ S'').
Qed.
Lemma w_dst h x r : In h (m_hes m') -> h_next m' h = Some x -> h_rev m' h = Some r -> h_src m' x = h_src m' r.
Proof.
  intros I Nx Er. destruct (w_cases h I) as [[I' J] | (t & f & i & j & Ie & X & S)].
  - destruct (w_out h I' J) as (Q1 & _). rewrite w_rev in Er by exact I'. rewrite Q1 in Nx. rewrite !w_src; [exact (wf_dst m W h x r I' Nx Er)|exact (rev_in m W h r I' Er)|exact (next_in m W h x I' Nx)].
  - destruct (w_dst_side i j h x r (w_E t i j (sd_t _ _ _ _ _ S) Ie) X Nx Er) as [A B]. congruence.
Qed.
Lemma w_next_inj a b x : In a (m_hes m') -> In b (m_hes m') -> h_next m' a = Some x -> h_next m' b = Some x -> a = b.
Proof.
  intros Ia Ib Na Nb. destruct (w_cases a Ia) as [[Ia' Ja] | (t & f & i & j & Ie & X & S)], (w_cases b Ib) as [[Ib' Jb] | (t' & f' & i' & j' & Ie' & X' & S')].
  - destruct (w_out a Ia' Ja) as (Qa & _), (w_out b Ib' Jb) as (Qb & _). apply (next_inj m W a b x); congruence.
  - exfalso. destruct (w_out a Ia' Ja) as (Qa & Qf & _). destruct (w_out_face a Ia' Ja) as (g & Eg & Ig & _). destruct (w_next_some a Ia) as (x1 & E1 & _ & F1). destruct (w_next_some b Ib) as (x2 & E2 & _ & F2).
    assert (Q : g = f') by (rewrite (sd_face _ _ _ _ _ S') in F2; congruence). subst f'. assert (L := w_fs _ (sd_f _ _ _ _ _ S')). assert (L' := f_lt m W g Ig). lia.
  - exfalso. destruct (w_out b Ib' Jb) as (Qa & Qf & _). destruct (w_out_face b Ib' Jb) as (g & Eg & Ig & _). destruct (w_next_some a Ia) as (x1 & E1 & _ & F1). destruct (w_next_some b Ib) as (x2 & E2 & _ & F2).
    assert (Q : g = f) by (rewrite (sd_face _ _ _ _ _ S) in F1; congruence). subst f. assert (L := w_fs _ (sd_f _ _ _ _ _ S)). assert (L' := f_lt m W g Ig). lia.
  - assert (K : forall a x, h_next m' a = Some x -> piter (h_next m') 3 a = Some a -> piter (h_next m') 2 x = Some a) by (intros a0 x0 Q1 Q2; cbn [piter] in Q2 |- *; rewrite Q1 in Q2; exact Q2).
    assert (Q1 := K a x Na (sd_tri _ _ _ _ _ S)). assert (Q2 := K b x Nb (sd_tri _ _ _ _ _ S')). congruence.
Qed.
Lemma w_rot_in x y : In x (m_hes m') -> rot m' x = Some y -> In y (m_hes m').
Proof.
  intros I. unfold rot. destruct (w_rev_some x I) as (r & Er & Ir & _). rewrite Er. intros Q. destruct (w_next_some r Ir) as (z & Ez & Iz & _). congruence.
Qed.
Lemma w_rot_inj x y z : In x (m_hes m') -> In y (m_hes m') -> rot m' x = Some z -> rot m' y = Some z -> x = y.
Proof.
  intros Ix Iy. unfold rot. destruct (w_rev_some x Ix) as (r & Er & Ir & Rr & _). destruct (w_rev_some y Iy) as (s & Es & Is & Rs & _). rewrite Er, Es. intros Q1 Q2. assert (r = s) by (exact (w_next_inj r s z Ir Is Q1 Q2)). congruence.
Qed.
Lemma w_rot_tot x : In x (m_hes m') -> rot m' x <> None.
Proof. intros I. unfold rot. destruct (w_rev_some x I) as (r & Er & Ir & _). rewrite Er. destruct (w_next_some r Ir) as (z & Ez & _). congruence. Qed.
Lemma w_rot_src x y : In x (m_hes m') -> rot m' x = Some y -> h_src m' y = h_src m' x.
Proof.
  intros I. unfold rot. destruct (w_rev_some x I) as (r & Er & Ir & Rr & _). rewrite Er. intros Q. exact (w_dst r y x Ir Q Rr).
Qed.
Lemma w_reach_src x y : In x (m_hes m') -> reaches (rot m') x y -> h_src m' y = h_src m' x.
Proof.
  intros I [k H]. revert x I H. induction k as [|k IH]; cbn [piter]; intros x I H; [congruence|]. destruct (rot m' x) as [z|] eqn:Z; [|discriminate].
  rewrite (IH z (w_rot_in x z I Z) H). exact (w_rot_src x z I Z).
Qed.
Lemma w_vorbit x y : In x (m_hes m') -> In y (m_hes m') -> h_src m' x = h_src m' y -> reaches (rot m') x y.
Proof.
  intros Ix Iy Q. destruct (w_reach_old x Ix) as (ox & Iox & Rx). destruct (w_reach_old y Iy) as (oy & Ioy & Ry).
  assert (Sx := w_reach_src x ox Ix Rx). assert (Sy := w_reach_src y oy Iy Ry). rewrite w_src in Sx, Sy by assumption.
  eapply reaches_trans; [exact Rx|]. eapply reaches_trans; [apply (w_reach_rot ox oy Iox); apply (wf_vertex_orbit m W); [exact Iox|exact Ioy|congruence]|].
  exact (orbit_sym (rot m') (m_hes m') w_rot_in w_rot_inj y oy w_rot_tot Iy Ry).
Qed.
Lemma w_next_old x y : In x (m_hes m) -> ~ In x ring -> reaches (h_next m) x y -> reaches (h_next m') x y.
Proof.
  intros I J [k H]. revert x I J H. induction k as [|k IH]; cbn [piter]; intros x I J H; [injection H as <-; apply reaches_refl|].
  destruct (h_next m x) as [z|] eqn:Z; [|discriminate]. destruct (w_out_next x z I J Z) as [Iz Jz]. destruct (w_out x I J) as (Q & _). eapply reaches_trans; [apply reaches_step; rewrite Q; exact Z|exact (IH z Iz Jz H)].
Qed.
Lemma w_forbit x y : In x (m_hes m') -> In y (m_hes m') -> h_face m' x = h_face m' y -> reaches (h_next m') x y.
Proof.
  intros Ix Iy Q. destruct (w_cases x Ix) as [[Ix' Jx] | (t & f & i & j & Ie & X & S)], (w_cases y Iy) as [[Iy' Jy] | (t' & f' & i' & j' & Ie' & X' & S')].
  - destruct (w_out x Ix' Jx) as (_ & Qx & _). destruct (w_out y Iy' Jy) as (_ & Qy & _). apply w_next_old; [exact Ix'|exact Jx|]. apply (wf_face_orbit m W); [exact Ix'|exact Iy'|congruence].
  - exfalso. destruct (w_out x Ix' Jx) as (_ & Qf & _). destruct (w_out_face x Ix' Jx) as (g & Eg & Ig & _). rewrite (sd_face _ _ _ _ _ S') in Q. assert (g = f') by congruence. subst. assert (L := w_fs _ (sd_f _ _ _ _ _ S')). assert (L' := f_lt m W f' Ig). lia.
  - exfalso. destruct (w_out y Iy' Jy) as (_ & Qf & _). destruct (w_out_face y Iy' Jy) as (g & Eg & Ig & _). rewrite (sd_face _ _ _ _ _ S) in Q. assert (g = f) by congruence. subst. assert (L := w_fs _ (sd_f _ _ _ _ _ S)). assert (L' := f_lt m W f Ig). lia.
  - rewrite (sd_face _ _ _ _ _ S), (sd_face _ _ _ _ _ S') in Q. injection Q as <-. assert (t = t') by (exact (w_uniq t t' f i j x i' j' y S S' Ie Ie' X X')). subst t'.
    destruct t as [[a b] c]. destruct (w_tri a b c (sd_t _ _ _ _ _ S)) as (u & v & d & Xu & Xv & Xd & Nu & Nv & Nd).
    assert (K : forall i j h, In (i, j) (sides (a, b, c)) -> he i j = Some h -> h = u \/ h = v \/ h = d) by (clear - Xu Xv Xd; intros i j h [Q | [Q | [Q | []]]] Y; injection Q as <- <-; [left|right; left|right; right]; congruence).
    assert (r_uv := reaches_step (h_next m') u v Nu). assert (r_vd := reaches_step (h_next m') v d Nv). assert (r_du := reaches_step (h_next m') d u Nd).
    destruct (K _ _ _ Ie X) as [-> | [-> | ->]], (K _ _ _ Ie' X') as [-> | [-> | ->]]; first [apply reaches_refl | assumption | eapply reaches_trans; eassumption].
Qed.
Theorem filled_wf : WF m'.
Proof.
  destruct (fl_lists _ _ _ _ _ _ _ _ F) as [EV EI]. destruct (fl_v _ _ _ _ _ _ _ _ F) as (VL & VP & VH & VX & VK). destruct (fl_hl _ _ _ _ _ _ _ _ F) as [HN HE]. destruct (fl_fl _ _ _ _ _ _ _ _ F) as [FN FE].
  constructor.
  - rewrite EV. apply W.
  - exact HN.
  - exact FN.
  - intros i v X. rewrite EV in X. destruct (wf_v_elem m W i v X) as (A & B & C). rewrite VL, VX. split; [exact A|]. split; [exact B|]. assert (L := fl_fresh _ _ _ _ _ _ _ _ F). lia.
  - exact HE.
  - exact FE.
  - exact w_src_some.
  - intros h I. destruct (w_next_some h I) as (x & A & B & _). eauto.
  - intros h I. destruct (w_rev_some h I) as (x & A & B & _). eauto.
  - exact w_face_some.
  - intros h r I Er. destruct (w_rev_some h I) as (x & A & B & C & D). assert (x = r) by congruence. subst x. auto.
  - exact w_dst.
  - intros v I. rewrite EV in I. destruct (wf_vhe m W v I) as (h & A & B & C). exists h. rewrite VH, w_src by exact B. split; [exact A|]. split; [apply w_old, B|exact C].
  - intros f I. apply (fl_faces _ _ _ _ _ _ _ _ F) in I as [[I D] | I].
    + destruct (wf_fhe m W f I) as (h & A & B & C). exists h. rewrite (fl_fold _ _ _ _ _ _ _ _ F f (f_lt m W f I)). split; [exact A|]. split; [apply w_old, B|]. assert (J : ~ In h ring) by (intros K; apply R in K as [_ K]; congruence). destruct (w_out h B J) as (_ & Q & _). congruence.
    + destruct (forall2_in_r _ _ _ _ (fl_tri _ _ _ _ _ _ _ _ F) I) as ([[a b] c] & It & _ & h0 & h1 & h2 & P0 & P1 & P2 & S0 & S1 & S2 & N0 & N1 & N2 & F0 & F1 & F2 & B0 & B1 & B2 & FF).
      exists h0. split; [exact FF|]. split; [apply (w_he_in a b); [apply (w_E (a, b, c)); [exact It|left; reflexivity]|exact P0]|exact F0].
  - intros h x I Nx. destruct (w_next_some h I) as (y & A & _ & C). congruence.
  - exact w_forbit.
  - exact w_vorbit.
Qed.
End W.
