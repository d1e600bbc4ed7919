(** fillHoles: joining the triangles of one hole along their common sides, and the final state. *)
From Coq Require Import List ZArith Arith Lia Bool.
From Verif Require Import Num Vec Heap Mesh Spec Orbit Rings Exec Construct Remove Split BuildTri Fill FillT FillD FillO.
Import ListNotations.
Local Open Scope mesh_scope.

(** Everything but [h_rev] is the same. *)
Record PSame {N : Num} (m m' : mesh N) : Prop := {
  ps_lists : m_verts m' = m_verts m /\ m_hes m' = m_hes m /\ m_faces m' = m_faces m /\ m_indices m' = m_indices m /\ m_fresh m' = m_fresh m;
  ps_v : v_live m' = v_live m /\ v_pos m' = v_pos m /\ v_he m' = v_he m /\ v_idx m' = v_idx m /\ v_lock m' = v_lock m;
  ps_h : h_live m' = h_live m /\ h_src m' = h_src m /\ h_next m' = h_next m /\ h_face m' = h_face m /\ h_idx m' = h_idx m;
  ps_bd : forall y, h_bd m' y = h_bd m y;
  ps_f : f_live m' = f_live m /\ f_he m' = f_he m /\ f_idx m' = f_idx m }.

Lemma circ3 {N : Num} (body : unit -> ptr -> M N (unit * bool)) (m mA mB mC : mesh N) f h0 h1 h2 :
  f_live m f = true -> f_he m f = Some h0 -> 2 <= m_fresh m -> h1 <> h0 -> h2 <> h0 ->
  body tt (Some h0) m = Ok ((tt, false), mA) -> h_live mA h0 = true -> h_next mA h0 = Some h1 ->
  body tt (Some h1) mA = Ok ((tt, false), mB) -> h_live mB h1 = true -> h_next mB h1 = Some h2 ->
  body tt (Some h2) mB = Ok ((tt, false), mC) -> h_live mC h2 = true -> h_next mC h2 = Some h0 ->
  circ_f (Some f) tt body m = Ok (tt, mC).
Proof.
  intros LF FH FR D1 D2 B0 L0 N0 B1 L1 N1 B2 L2 N2. unfold circ_f. rewrite (bind_ok _ _ _ _ _ (r_fhe m f LF)), bind_get, FH.
  destruct (m_fresh m) as [|[|k]]; [lia..|]. cbn [circ].
  rewrite (bind_ok _ _ _ _ _ B0). cbn [fst snd]. unfold step_f at 1. rewrite (bind_ok _ _ _ _ _ (r_next mA h0 L0)), N0. replace (ptr_eqb (Some h1) (Some h0)) with false by (symmetry; apply ptr_eqb_neq; congruence).
  rewrite (bind_ok _ _ _ _ _ B1). cbn [fst snd]. unfold step_f at 1. rewrite (bind_ok _ _ _ _ _ (r_next mB h1 L1)), N1. replace (ptr_eqb (Some h2) (Some h0)) with false by (symmetry; apply ptr_eqb_neq; congruence).
  rewrite (bind_ok _ _ _ _ _ B2). cbn [fst snd]. unfold step_f at 1. rewrite (bind_ok _ _ _ _ _ (r_next mC h2 L2)), N2, ptr_eqb_refl. destruct k; reflexivity.
Qed.

Lemma forall2_in_l {X Y} (R : X -> Y -> Prop) l l' x : Forall2 R l l' -> In x l -> exists y, In y l' /\ R x y.
Proof. intros F. induction F as [|a b l l' H F IH]; intros []; [subst; exists b; split; [left; reflexivity|exact H]|]. destruct (IH H0) as (y & I & K). exists y. split; [right; exact I|exact K]. Qed.
Lemma forall2_in_r {X Y} (R : X -> Y -> Prop) l l' y : Forall2 R l l' -> In y l' -> exists x, In x l /\ R x y.
Proof. intros F. induction F as [|a b l l' H F IH]; intros []; [subst; exists a; split; [left; reflexivity|exact H]|]. destruct (IH H0) as (x & I & K). exists x. split; [right; exact I|exact K]. Qed.
Section Q.
Context {N : Num}.
Variables (m0 : mesh N) (ring bs : list nat) (ts : list tri_t) (fs : list nat) (p : maps) (m1 : mesh N).
Let n := length ring.
Hypothesis W : WF m0.
Hypothesis RI : forall y, In y ring -> In y (m_hes m0).
Hypothesis RN : NoDup ring.
Hypothesis RB : map (h_src m0) ring = map Some bs.
Hypothesis Hn : 3 <= n.
Hypothesis TR : Tree n ts.
Hypothesis T : Tris m0 ring bs ts fs p m1.
Let E := flat_map sides ts.
Let A := tt_alloc _ _ _ _ _ _ _ T.

Lemma side_he e : In e E -> exists h, p_he p (fst e) (snd e) = Some h.
Proof.
  intros I. destruct e as [i j]. cbn [fst snd]. assert (L : i < n) by (exact (al_lt _ _ _ _ _ A i j I)). destruct (nonring n (i, j)) eqn:NR.
  - destruct (al_hes _ _ _ _ _ A) as (news & _ & E2). assert (K : In (p_he p i j) (map Some news)).
    { rewrite E2. apply in_map_iff. exists (i, j). split; [reflexivity|]. apply filter_In. auto. }
    apply in_map_iff in K as (x & Ex & _). exists x. auto.
  - assert (R : ring_pair n (i, j)) by (split; [exact L|]; unfold nonring in NR; apply negb_false_iff, Nat.eqb_eq in NR; exact NR).
    rewrite (al_ring _ _ _ _ _ A i j R). destruct (nth_error ring i) as [h|] eqn:X; [eauto|]. apply nth_error_None in X. unfold n in L. lia.
Qed.
Lemma ring_dec e : ring_pair n e \/ ~ ring_pair n e.
Proof. unfold ring_pair. destruct (lt_dec (fst e) n), (Nat.eq_dec (snd e) ((fst e + 1) mod n)); tauto. Qed.
Lemma side_in e h : In e E -> p_he p (fst e) (snd e) = Some h -> In h (m_hes m1) /\ h_live m1 h = true /\ h_bd m1 h = false.
Proof.
  intros I H. split; [exact (alloc_in _ _ RI _ _ _ A _ _ _ H)|]. split; [exact (proj1 (alloc_live _ _ RI _ _ _ A _ _ _ H))|].
  apply in_flat_map in I as ([[i a] k] & It & Ie). destruct (forall2_in_l _ _ _ _ (tt_tris _ _ _ _ _ _ _ T) It) as (f & _ & TA).
  destruct TA as [(h0 & h1 & h2 & P0 & P1 & P2 & S0 & S1 & S2 & N0 & N1 & N2 & F0 & F1 & F2 & B0 & B1 & B2 & FF) _].
  destruct Ie as [<- | [<- | [<- | []]]]; cbn [fst snd] in H; congruence.
Qed.

Record PInv (D : list (nat * nat)) (m : mesh N) : Prop := {
  pi_same : PSame m1 m;
  pi_rev : forall y, (forall i j, p_he p i j = Some y -> ring_pair n (i, j)) -> h_rev m y = h_rev m1 y;
  pi_new : forall i j h, In (i, j) E -> ~ ring_pair n (i, j) -> p_he p i j = Some h -> h_rev m h = p_he p j i \/ (h_rev m h = None /\ ~ In (i, j) D) }.

Lemma pair_up_ok D m e h : PInv D m -> In e E -> p_he p (fst e) (snd e) = Some h -> exists m', pair_up p (Some h) m = Ok (tt, m') /\ PInv (e :: D) m'.
Proof.
  intros P I H. destruct e as [i j]. cbn [fst snd] in H. destruct (side_in (i, j) h I H) as (_ & L & B). destruct P as [PS PR PN].
  assert (PL : h_live m h = true) by (destruct (ps_h _ _ PS) as (X & _); rewrite X; exact L).
  unfold pair_up. rewrite (bind_ok _ _ _ _ _ (r_rev m h PL)).
  destruct (ring_dec (i, j)) as [R | R].
  - assert (X : h_rev m h <> None).
    { rewrite PR. - rewrite (al_rev _ _ _ _ _ A).
        + assert (Ir : In h ring) by (rewrite (al_ring _ _ _ _ _ A i j R) in H; exact (nth_error_In _ _ H)). destruct (wf_rev m0 W h (RI h Ir)) as (r & -> & _). discriminate.
        + apply (h_lt m0 W), RI. rewrite (al_ring _ _ _ _ _ A i j R) in H. exact (nth_error_In _ _ H).
      - intros a b Hab. assert (Z := alloc_inj _ _ _ _ _ A _ _ _ _ _ H Hab). injection Z as <- <-. exact R. }
    destruct (h_rev m h) as [r|] eqn:Er; [|congruence]. exists m. split; [reflexivity|]. constructor; [exact PS|exact PR|].
    intros a b y Iab NR Hy. destruct (PN a b y Iab NR Hy) as [Z | [Z1 Z2]]; [left; exact Z|right]. split; [exact Z1|]. intros [Z | Z]; [|contradiction]. injection Z as <- <-. contradiction.
  - assert (It := I). apply in_flat_map in It as (t & It & Ie). destruct (side_opp n ts TR Hn t i j It Ie R) as [R' (s & Is & Ies)].
    assert (I' : In (j, i) E) by (apply in_flat_map; eauto). destruct (side_he (j, i) I') as (r & Hr). cbn [fst snd] in Hr. destruct (side_in (j, i) r I' Hr) as (_ & Lr & Br).
    assert (Dij : i <> j) by (apply (sides_rng n ts TR Hn t i j It Ie)).
    assert (Dhr : h <> r) by (intros X; rewrite X in H; assert (Z := alloc_inj _ _ _ _ _ A _ _ _ _ _ H Hr); injection Z; congruence).
    destruct (PN i j h I R H) as [Z | [Z ZD]].
    + rewrite Z, Hr. exists m. split; [reflexivity|]. constructor; [exact PS|exact PR|]. intros a b y Iab NR Hy. destruct (PN a b y Iab NR Hy) as [Z0 | [Z1 Z2]]; [left; exact Z0|].
      destruct (Nat.eq_dec a i) as [->|Da]; [destruct (Nat.eq_dec b j) as [->|Db]|].
      * left. assert (y = h) by congruence. subst y. rewrite Z. reflexivity.
      * right. split; [exact Z1|]. intros [Y | Y]; [congruence|contradiction].
      * right. split; [exact Z1|]. intros [Y | Y]; [congruence|contradiction].
    + rewrite Z, (al_of _ _ _ _ _ A _ _ _ H), Hr.
      assert (PLr : h_live m r = true) by (destruct (ps_h _ _ PS) as (X & _); rewrite X; exact Lr).
      rewrite (bind_ok _ _ _ _ _ (ww_rev m h (Some r) PL)). set (mA := set_h_rev h (Some r) m).
      rewrite (bind_ok _ _ _ _ _ (ww_rev mA r (Some h) ltac:(unfold mA; flds; exact PLr))). set (mB := set_h_rev r (Some h) mA).
      rewrite (bind_ok _ _ _ _ _ (ww_bd mB h false ltac:(unfold mB, mA; flds; exact PL))). set (mC := set_h_bd h false mB).
      rewrite (ww_bd mC r false ltac:(unfold mC, mB, mA; flds; exact PLr)). eexists. split; [reflexivity|]. unfold mC, mB, mA. constructor.
      * destruct PS as [Q1 Q2 Q3 Q4 Q5]. constructor; flds; [exact Q1|exact Q2|exact Q3| |exact Q5]. intros y. destruct (Nat.eq_dec y r) as [->|Y1]; [fu; auto|]. destruct (Nat.eq_dec y h) as [->|Y2]; [fu; auto|]. fu. apply Q4.
      * intros y Y. flds. assert (Y1 : y <> r) by (intros ->; exact (R' (Y j i Hr))). assert (Y2 : y <> h) by (intros ->; exact (R (Y i j H))). fu. exact (PR y Y).
      * intros a b y Iab NR Hy. flds. destruct (Nat.eq_dec y r) as [->|Y1].
        -- left. fu. assert (X := alloc_inj _ _ _ _ _ A _ _ _ _ _ Hy Hr). injection X as -> ->. symmetry. exact H.
        -- destruct (Nat.eq_dec y h) as [->|Y2].
           ++ left. fu. assert (X := alloc_inj _ _ _ _ _ A _ _ _ _ _ Hy H). injection X as -> ->. symmetry. exact Hr.
           ++ fu. destruct (PN a b y Iab NR Hy) as [Z0 | [Z1 Z2]]; [left; exact Z0|]. right. split; [exact Z1|]. intros [X | X]; [|contradiction]. injection X as <- <-. congruence.
Qed.

Lemma pair_face_ok D m t f : PInv D m -> In t ts -> TriAt m0 bs p m1 t f -> f_live m1 f = true ->
  exists m', circ_f (Some f) tt (fun _ h => pair_up p h ;; ret (tt, false)) m = Ok (tt, m') /\ PInv (rev (sides t) ++ D) m'.
Proof.
  intros P I TA LF. destruct t as [[i a] k]. destruct TA as [(h0 & h1 & h2 & P0 & P1 & P2 & S0 & S1 & S2 & N0 & N1 & N2 & F0 & F1 & F2 & B0 & B1 & B2 & FF) _].
  assert (I0 : In (i, a) E) by (apply in_flat_map; exists (i, a, k); split; [exact I|left; reflexivity]).
  assert (I1 : In (a, k) E) by (apply in_flat_map; exists (i, a, k); split; [exact I|right; left; reflexivity]).
  assert (I2 : In (k, i) E) by (apply in_flat_map; exists (i, a, k); split; [exact I|right; right; left; reflexivity]).
  destruct (tr_rng _ _ TR _ _ _ I) as [Q1 Q2].
  destruct (side_in _ _ I0 P0) as (J0 & L0 & _), (side_in _ _ I1 P1) as (J1 & L1 & _), (side_in _ _ I2 P2) as (J2 & L2 & _).
  destruct (pair_up_ok D m (i, a) h0 P I0 P0) as (mA & XA & PA). destruct (pair_up_ok _ mA (a, k) h1 PA I1 P1) as (mB & XB & PB). destruct (pair_up_ok _ mB (k, i) h2 PB I2 P2) as (mC & XC & PC).
  assert (NE : forall x y x' y' h h', p_he p x y = Some h -> p_he p x' y' = Some h' -> (x, y) <> (x', y') -> h <> h').
  { intros x y x' y' h h' X Y Z ->. apply Z. exact (alloc_inj _ _ _ _ _ A _ _ _ _ _ X Y). }
  assert (D01 : h1 <> h0) by (apply (NE a k i a); [assumption..|intros X; injection X; lia]). assert (D02 : h2 <> h0) by (apply (NE k i i a); [assumption..|intros X; injection X; lia]).
  exists mC. split; [|exact PC].
  destruct (ps_h _ _ (pi_same _ _ PA)) as (LA & _ & NA & _), (ps_h _ _ (pi_same _ _ PB)) as (LB & _ & NB & _), (ps_h _ _ (pi_same _ _ PC)) as (LC & _ & NC & _).
  destruct (ps_f _ _ (pi_same _ _ P)) as (FL & FH & _). destruct (ps_lists _ _ (pi_same _ _ P)) as (_ & _ & _ & _ & FR).
  apply (circ3 _ m mA mB mC f h0 h1 h2); [rewrite FL; exact LF|rewrite FH; exact FF| |exact D01|exact D02| |rewrite LA; exact L0|rewrite NA; exact N0| |rewrite LB; exact L1|rewrite NB; exact N1| |rewrite LC; exact L2|rewrite NC; exact N2].
  - rewrite FR. destruct (al_hl _ _ _ _ _ A) as [_ HL]. apply In_nth_error in J0 as (x & J0), J1 as (y & J1). destruct (HL _ _ J0) as (_ & _ & Z0), (HL _ _ J1) as (_ & _ & Z1). clear - Z0 Z1 D01. lia.
  - rewrite (bind_ok _ _ _ _ _ XA). reflexivity.
  - rewrite (bind_ok _ _ _ _ _ XB). reflexivity.
  - rewrite (bind_ok _ _ _ _ _ XC). reflexivity.
Qed.

Lemma pair_all_ok : forall ts' fs' D m, Forall2 (TriAt m0 bs p m1) ts' fs' -> (forall t, In t ts' -> In t ts) -> (forall f, In f fs' -> f_live m1 f = true) -> PInv D m ->
  exists D' m', pair_faces p fs' m = Ok (tt, m') /\ PInv D' m' /\ forall e, In e D \/ In e (flat_map sides ts') -> In e D'.
Proof.
  induction ts' as [|t ts' IH]; intros fs' D m F S LF P; inversion F as [|? f ? fs'' TA F']; subst; cbn [pair_faces].
  - exists D, m. split; [reflexivity|]. split; [exact P|]. intros e [H | []]. exact H.
  - destruct (pair_face_ok D m t f P (S t (or_introl eq_refl)) TA (LF f (or_introl eq_refl))) as (mA & XA & PA). rewrite (bind_ok _ _ _ _ _ XA).
    destruct (IH fs'' _ mA F' (fun x Hx => S x (or_intror Hx)) (fun x Hx => LF x (or_intror Hx)) PA) as (D' & m' & X' & P' & K). exists D', m'. split; [exact X'|]. split; [exact P'|].
    intros e [H | H]; apply K; [left; apply in_app_iff; auto|]. cbn [flat_map] in H. apply in_app_iff in H as [H | H]; [left; apply in_app_iff; left; apply in_rev; rewrite rev_involutive; exact H|right; exact H].
Qed.
Lemma pair_faces_ok : exists m2, pair_faces p fs m1 = Ok (tt, m2) /\ PSame m1 m2 /\
  (forall y, y < m_fresh m0 -> h_rev m2 y = h_rev m0 y) /\ (forall i j h, In (i, j) E -> ~ ring_pair n (i, j) -> p_he p i j = Some h -> h_rev m2 h = p_he p j i).
Proof.
  assert (P : PInv [] m1).
  { constructor; [|reflexivity|].
    - constructor; try (repeat split; reflexivity).
    - intros i j h I R H. right. split; [exact (proj2 (al_new _ _ _ _ _ A i j h R H))|intros []]. }
  destruct (pair_all_ok ts fs [] m1 (tt_tris _ _ _ _ _ _ _ T) (fun t H => H)) as (D & m2 & X & P2 & K).
  - intros f Hf. destruct (tt_fl _ _ _ _ _ _ _ T) as [_ FL]. assert (Q : In f (m_faces m1)) by (rewrite (tt_faces _ _ _ _ _ _ _ T); apply in_app_iff; auto). apply In_nth_error in Q as (x & Q). apply (FL x f Q).
  - exact P.
  - exists m2. split; [exact X|]. split; [exact (pi_same _ _ P2)|]. split.
    + intros y Y. rewrite (pi_rev _ _ P2); [exact (al_rev _ _ _ _ _ A y Y)|]. intros i j H. destruct (ring_dec (i, j)) as [R | R]; [exact R|]. destruct (al_new _ _ _ _ _ A i j y R H) as [Z _]. clear - Z Y. lia.
    + intros i j h I R H. destruct (pi_new _ _ P2 i j h I R H) as [Z | [_ Z]]; [exact Z|]. exfalso. apply Z, K. right. exact I.
Qed.
End Q.

(** removeFace on a face that is not the last one: the last one takes its place. *)
Lemma removeFace_mid {N : Num} (m : mesh N) a x b z : ListOk (m_faces m) (f_live m) (f_idx m) -> m_faces m = a ++ x :: b ++ [z] ->
  exists ix, removeFace (Some x) m = Ok (tt, upd_f (a ++ z :: b) ix (fupd (f_live m) x false) m) /\ Removed (m_faces m) (f_live m) x (a ++ z :: b) ix.
Proof.
  intros HL El.
  assert (Ex : nth_error (m_faces m) (length a) = Some x) by (rewrite El; apply nth_mid).
  destruct (proj2 HL _ _ Ex) as [Lx Ix].
  assert (Ln : length (m_faces m) = length a + S (S (length b))) by (rewrite El, app_length; cbn [length]; rewrite app_length; cbn [length]; lia).
  assert (EQ : face_eqb (Some x) (Some x) m = Ok (true, m)).
  { unfold face_eqb. repeat mstep. rewrite !ptr_eqb_refl, Z.eqb_refl. reflexivity. }
  unfold removeFace. repeat first [rewrite bind_assoc | rewrite bind_get | rewrite bind_modify | rewrite bind_ret]. rewrite (bind_ok _ _ _ _ _ (r_fidx m x Lx)). rewrite (bind_ok _ _ _ _ _ (vec_at_idx _ _ _ _ _ Ex Ix)).
  rewrite (bind_ok _ _ _ _ _ EQ), bind_assert by reflexivity. rewrite bind_assert by (apply Z.ltb_lt; rewrite Ix; lia).
  exists (fupd (fupd (fupd (f_idx m) z (f_idx m x)) x (f_idx m z)) x (-1)%Z).
  split; [|rewrite El in *; apply removed_mid; exact HL].
  replace (f_idx m x <? Z.of_nat (length (m_faces m)) - 1)%Z with true by (symmetry; apply Z.ltb_lt; rewrite Ix; lia).
  assert (Ez : nth_error (m_faces m) (length (m_faces m) - 1) = Some z) by (rewrite El; apply nth_last).
  destruct (proj2 HL _ _ Ez) as [Lz Iz].
  assert (Hzx : z <> x).
  { intros ->. enough (length a = length (m_faces m) - 1) by lia.
    eapply NoDup_nth_error; [apply (proj1 HL)|lia|congruence]. }
  replace (Z.to_nat (f_idx m x)) with (length a) by (rewrite Ix; lia).
  replace (Z.to_nat (Z.of_nat (length (m_faces m)) - 1)) with (length (m_faces m) - 1) by lia.
  assert (Esw : swap_list (m_faces m) (length a) (length (m_faces m) - 1) = a ++ z :: b ++ [x]) by (rewrite El; apply swap_last).
  rewrite Esw. repeat first [rewrite bind_assoc | rewrite bind_get | rewrite bind_modify | rewrite bind_ret]. flds.
  assert (E1 : nth_error (a ++ z :: b ++ [x]) (length a) = Some z) by apply nth_mid.
  assert (E2 : nth_error (a ++ z :: b ++ [x]) (length (m_faces m) - 1) = Some x).
  { replace (length (m_faces m) - 1) with (length (a ++ z :: b ++ [x]) - 1); [apply nth_last|].
    rewrite Ln, !app_length; simpl; rewrite app_length; simpl. lia. }
  rewrite (bind_ok _ _ _ _ _ (vec_at_idx _ _ _ _ _ E1 Ix)).
  repeat first [rewrite bind_assoc | rewrite bind_get | rewrite bind_modify | rewrite bind_ret]. rewrite (bind_ok _ _ _ _ _ (vec_at_idx _ _ _ _ (Z.of_nat (length (m_faces m)) - 1)%Z E2 ltac:(lia))).
  repeat mstep. flds. rewrite (bind_ok _ _ _ _ _ (vec_at_idx _ _ _ _ (Z.of_nat (length (m_faces m)) - 1)%Z E2 ltac:(lia))).
  repeat first [rewrite bind_assoc | rewrite bind_get | rewrite bind_modify | rewrite bind_ret]. unfold free_f, modify. replace (a ++ z :: b ++ [x]) with ((a ++ z :: b) ++ [x]) by (rewrite <- app_assoc; reflexivity).
  rewrite removelast_mid. reflexivity.
Qed.

(** ** The state after one hole has been filled *)
Record Filled {N : Num} (m : mesh N) (f0 : nat) (ring bs : list nat) (ts : list tri_t) (fs : list nat) (he : nat -> nat -> option nat) (m' : mesh N) : Prop := {
  fl_lists : m_verts m' = m_verts m /\ m_indices m' = m_indices m;
  fl_v : v_live m' = v_live m /\ v_pos m' = v_pos m /\ v_he m' = v_he m /\ v_idx m' = v_idx m /\ v_lock m' = v_lock m;
  fl_fresh : m_fresh m <= m_fresh m';
  fl_hl : HList m';
  fl_fl : FList m';
  fl_hes : exists news, m_hes m' = m_hes m ++ news /\ map Some news = map (fun e => he (fst e) (snd e)) (filter (nonring (length ring)) (flat_map sides ts));
  fl_faces : forall f, In f (m_faces m') <-> (In f (m_faces m) /\ f <> f0) \/ In f fs;
  fl_flen : S (length (m_faces m')) = length (m_faces m) + length fs;
  fl_slot : forall j f, nth_error (m_faces m) j = Some f -> f <> f0 -> nth_error (m_faces m') j = Some f;
  fl_fold : forall f, f < m_fresh m -> f_he m' f = f_he m f;
  fl_old : forall y, In y (m_hes m) -> ~ In y ring -> SameHE m m' y;
  fl_ring : forall y, In y ring -> h_src m' y = h_src m y /\ h_rev m' y = h_rev m y;
  fl_he_ring : forall i j, ring_pair (length ring) (i, j) -> he i j = nth_error ring i;
  fl_he_inj : forall i j i' j' h, he i j = Some h -> he i' j' = Some h -> (i, j) = (i', j');
  fl_he_new : forall i j h, ~ ring_pair (length ring) (i, j) -> he i j = Some h -> m_fresh m <= h;
  fl_he_rev : forall i j h, In (i, j) (flat_map sides ts) -> ~ ring_pair (length ring) (i, j) -> he i j = Some h -> h_rev m' h = he j i;
  fl_tri : Forall2 (fun t f => m_fresh m <= f /\ let '(i, a, k) := t in exists h0 h1 h2,
    he i a = Some h0 /\ he a k = Some h1 /\ he k i = Some h2 /\
    h_src m' h0 = nth_error bs i /\ h_src m' h1 = nth_error bs a /\ h_src m' h2 = nth_error bs k /\
    h_next m' h0 = Some h1 /\ h_next m' h1 = Some h2 /\ h_next m' h2 = Some h0 /\
    h_face m' h0 = Some f /\ h_face m' h1 = Some f /\ h_face m' h2 = Some f /\
    h_bd m' h0 = false /\ h_bd m' h1 = false /\ h_bd m' h2 = false /\ f_he m' f = Some h0) ts fs }.

Lemma forall2_len {X Y} (R : X -> Y -> Prop) l l' : Forall2 R l l' -> length l = length l'.
Proof. induction 1; cbn [length]; congruence. Qed.

Section H.
Context {N : Num} {NA : NumAngle N}.
Variable cabs : num -> num.
Theorem hole_filled_by (m : mesh N) f0 h l bound : WF m -> In f0 (m_faces m) -> f_he m f0 = Some h -> Fring m f0 (h :: l) -> 3 <= length (h :: l) ->
  exists bs ts fs he m', holeFillMinDihedral cabs (Some f0) bound m = Ok (tt, m') /\ map (h_src m) (h :: l) = map Some bs /\
    Tree (length (h :: l)) ts /\ Filled m f0 (h :: l) bs ts fs he m' /\
    (exists em t, (forall j, j + 1 < length bs -> em j (j + 1) = nth_error (h :: l) j) /\ fill_tables cabs (map Some bs) em bound (length bs) m = Ok (t, m) /\ fill_queue (t_o t) (length bs) (length bs) [(0, length bs - 1)] [] m = Ok (ts, m)).
Proof.
  intros W If Eh R L3. assert (K := R). destruct K as (C & ND & Rm). set (ring := h :: l) in *.
  assert (RI : forall y, In y ring -> In y (m_hes m)) by (intros y Y; apply Rm, Y).
  assert (EB : forall l', (forall y, In y l' -> In y (m_hes m)) -> exists vs, map (h_src m) l' = map Some vs /\ forall v, In v vs -> In v (m_verts m)).
  { clear - W. induction l' as [|y l' IH]; intros Hi; [exists []; split; [reflexivity|intros v []]|].
    destruct IH as (vs & E & Iv); [intros z Hz; apply Hi; right; exact Hz|]. destruct (wf_src m W y (Hi y (or_introl eq_refl))) as (s & Es & Is).
    exists (s :: vs). cbn [map]. rewrite Es, E. split; [reflexivity|]. intros v [<- | Hv]; auto. }
  destruct (EB ring RI) as (bs & RB & BV). clear EB.
  assert (LB : length bs = length ring) by (rewrite <- (map_length (h_src m) ring), RB, map_length; reflexivity).
  unfold holeFillMinDihedral. rewrite (bind_ok _ _ _ _ _ (f_vertices_ok m W f0 h l If Eh R)). change (h :: l) with ring. rewrite RB.
  rewrite (bind_ok _ _ _ _ _ (f_halfedges_ok m W f0 h l If Eh R)). change (h :: l) with ring. cbv zeta. rewrite map_length.
  assert (HE : forall i j, p_he (ring_maps (length bs) 0 (map Some ring) no_maps) i j = if (i <? length bs) && (j =? (i + 1) mod length bs) then nth_error ring i else None).
  { intros i j. rewrite rmaps_he. cbn [Nat.leb andb Nat.add]. rewrite Nat.sub_0_r, LB. reflexivity. }
  destruct (fill_tables_ok cabs m bs (p_he (ring_maps (length bs) 0 (map Some ring) no_maps)) bound W BV) as (t & Xt & Ht).
  { intros j Lj. rewrite HE, Nat.mod_small, (proj2 (Nat.ltb_lt j (length bs))), Nat.eqb_refl by lia. cbn [andb]. destruct (nth_error ring j) as [x|] eqn:X; [|apply nth_error_None in X; lia]. exists x. split; [reflexivity|]. apply RI, (nth_error_In _ _ X). }
  { lia. }
  rewrite (bind_ok _ _ _ _ _ Xt). destruct (fill_queue_ok (t_o t) (length bs) Ht ltac:(lia) m) as (ts & Xq & TR). rewrite (bind_ok _ _ _ _ _ Xq).
  assert (BY : exists em t, (forall j, j + 1 < length bs -> em j (j + 1) = nth_error ring j) /\ fill_tables cabs (map Some bs) em bound (length bs) m = Ok (t, m) /\ fill_queue (t_o t) (length bs) (length bs) [(0, length bs - 1)] [] m = Ok (ts, m)).
  { exists (p_he (ring_maps (length bs) 0 (map Some ring) no_maps)), t. split; [|split; [exact Xt|exact Xq]]. intros j Lj. rewrite HE, Nat.mod_small, (proj2 (Nat.ltb_lt j (length bs))), Nat.eqb_refl by lia. reflexivity. }
  clear Xt Xq Ht HE. revert BY. rewrite LB in *. intros BY.
  destruct (add_all m ring bs W RI RB L3 ts [] [] _ m (tris_start m ring bs W ND)) as (fs & p & m1 & X1 & T1).
  { exact (tr_rng _ _ TR). }
  { exact (nodup_sides _ _ TR L3). }
  cbn [app] in T1. rewrite (bind_ok _ _ _ _ _ X1). cbn [fst snd].
  destruct (pair_faces_ok m ring bs ts fs p m1 W RI L3 TR T1) as (m2 & X2 & PS & RV & RN). rewrite (bind_ok _ _ _ _ _ X2). clear X1 X2.
  assert (LF := forall2_len _ _ _ (tt_tris _ _ _ _ _ _ _ T1)). rewrite (tr_len _ _ TR) in LF.
  destruct (exists_last (l := fs)) as (fs' & z & Ez); [intros ->; cbn [length] in LF; lia|].
  destruct PS as [(Q1 & Q2 & Q3 & Q4 & Q5) (Q6 & Q7 & Q8 & Q9 & Q10) (Q11 & Q12 & Q13 & Q14 & Q15) QB (Q16 & Q17 & Q18)].
  assert (IS := If). apply in_split in IS as (a & b & Ef).
  assert (EF2 : m_faces m2 = a ++ f0 :: (b ++ fs') ++ [z]) by (rewrite Q3, (tt_faces _ _ _ _ _ _ _ T1), Ef, Ez, <- !app_assoc; cbn [app]; rewrite <- ?app_assoc; reflexivity).
  assert (TL := tt_fl _ _ _ _ _ _ _ T1).
  assert (LO : ListOk (m_faces m2) (f_live m2) (f_idx m2)).
  { rewrite Q3, Q16, Q18. destruct TL as [TL1 TL2]. split; [exact TL1|]. intros i y Y. destruct (TL2 i y Y) as (? & ? & _). auto. }
  destruct (removeFace_mid m2 a f0 (b ++ fs') z LO EF2) as (ix & X3 & (RL & RM & RK)).
  exists bs, ts, fs, (p_he p). eexists. split; [exact X3|]. split; [reflexivity|]. split; [exact TR|]. split; [|rewrite LB; exact BY].
  assert (A := tt_alloc _ _ _ _ _ _ _ T1). assert (FLT := al_fresh _ _ _ _ _ A).
  assert (NDf : NoDup (m_faces m)) by apply (wf_f_nodup m W).
  assert (INF : forall f, In f (m_faces m1) <-> In f (m_faces m) \/ In f fs) by (intros f; rewrite (tt_faces _ _ _ _ _ _ _ T1); apply in_app_iff).
  assert (FN : forall f, In f fs -> m_fresh m <= f) by (intros f I; destruct (forall2_in_r _ _ _ _ (tt_tris _ _ _ _ _ _ _ T1) I) as (t' & _ & TA); apply (ta_f _ _ _ _ _ _ TA)).
  assert (F0N : ~ In f0 fs) by (intros I; apply FN in I; apply (f_lt m W) in If; clear - I If; lia).
  constructor; unfold upd_f; cbn [m_verts m_hes m_faces m_indices m_fresh v_live v_pos v_he v_idx v_lock h_live h_src h_next h_rev h_face h_idx h_bd f_live f_he f_idx].
  - rewrite Q1, Q4. exact (al_lists _ _ _ _ _ A).
  - rewrite Q6, Q7, Q8, Q9, Q10. exact (al_v _ _ _ _ _ A).
  - rewrite Q5. exact FLT.
  - destruct (al_hl _ _ _ _ _ A) as [HL1 HL2]. split; cbn [m_hes h_live h_idx m_fresh]; rewrite Q2; [exact HL1|]. rewrite Q11, Q15, Q5. exact HL2.
  - split; cbn [m_faces f_live f_idx m_fresh]; [apply RL|]. intros i y Y. destruct (proj2 RL i y Y) as [Y1 Y2]. split; [exact Y1|]. split; [exact Y2|].
    assert (Iy : In y (m_faces m1)) by (rewrite <- Q3; apply RM, (nth_error_In _ _ Y)). apply In_nth_error in Iy as (k & Iy). rewrite Q5. apply (proj2 TL k y Iy).
  - rewrite Q2. exact (al_hes _ _ _ _ _ A).
  - intros f. rewrite RM, Q3, INF. split; [intros [[H | H] H']; auto|]. intros [[H H'] | H]; [auto|]. split; [auto|]. intros ->. contradiction.
  - rewrite RK, Q3, (tt_faces _ _ _ _ _ _ _ T1), app_length. reflexivity.
  - intros j f Hj Df. rewrite Ef in Hj. destruct (lt_eq_lt_dec j (length a)) as [[Lj | ->] | Lj].
    + rewrite nth_error_app1 in * by exact Lj. exact Hj.
    + rewrite nth_mid in Hj. congruence.
    + rewrite nth_error_app2 in * by lia. destruct (j - length a) as [|k] eqn:Ek; [lia|]. cbn [nth_error] in *. rewrite nth_error_app1; [exact Hj|]. apply nth_error_Some. congruence.
  - intros f Lf. rewrite Q17. exact (tt_fold _ _ _ _ _ _ _ T1 f Lf).
  - intros y Iy Ny. assert (Ly := h_lt m W y Iy). unfold SameHE. cbn [h_src h_next h_rev h_face h_bd]. rewrite Q12, Q13, Q14, QB, (RV y Ly), (tt_src _ _ _ _ _ _ _ T1 y Ly).
    destruct (tt_same _ _ _ _ _ _ _ T1 y Ly) as (Z1 & Z2 & Z3); [|auto]. intros [i j] _ X. cbn [fst snd] in X. destruct (ring_dec ring (i, j)) as [Rp | Rp].
    + rewrite (al_ring _ _ _ _ _ A i j Rp) in X. apply Ny, (nth_error_In _ _ X).
    + destruct (al_new _ _ _ _ _ A i j y Rp X) as [Z _]. clear - Z Ly. lia.
  - intros y Iy. assert (Ly := h_lt m W y (RI y Iy)). rewrite Q12, (tt_src _ _ _ _ _ _ _ T1 y Ly), (RV y Ly). auto.
  - exact (al_ring _ _ _ _ _ A).
  - exact (alloc_inj _ _ _ _ _ A).
  - intros i j x Rp X. exact (proj1 (al_new _ _ _ _ _ A i j x Rp X)).
  - exact RN.
  - eapply forall2_impl_in; [|exact (tt_tris _ _ _ _ _ _ _ T1)]. intros t' f It TA. rewrite Q12, Q13, Q14, Q17. destruct TA as [S F]. split; [clear - F; lia|]. destruct t' as [[i x] k].
    destruct S as (h0 & h1 & h2 & S). exists h0, h1, h2. rewrite !QB. exact S.
Qed.
Theorem hole_filled (m : mesh N) f0 h l bound : WF m -> In f0 (m_faces m) -> f_he m f0 = Some h -> Fring m f0 (h :: l) -> 3 <= length (h :: l) ->
  exists bs ts fs he m', holeFillMinDihedral cabs (Some f0) bound m = Ok (tt, m') /\ map (h_src m) (h :: l) = map Some bs /\
    Tree (length (h :: l)) ts /\ Filled m f0 (h :: l) bs ts fs he m'.
Proof. intros W If Eh R L3. destruct (hole_filled_by m f0 h l bound W If Eh R L3) as (bs & ts & fs & he & m' & A & B & C & D & _). exists bs, ts, fs, he, m'. auto. Qed.
End H.
