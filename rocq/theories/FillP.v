(** Mesh::fillHoles: one hole after the other. *)
From Coq Require Import List ZArith Arith Lia Bool Permutation.
From Verif Require Import Num Vec Heap Mesh Spec Orbit Rings Exec Wp SmoothP Remove BuildTri BuildOpen Fill FillT FillD FillO FillQ FillW FillSpec.
Import ListNotations.
Local Open Scope mesh_scope.

Section P.
Context {N : Num}.
Implicit Types m : mesh N.

Lemma corners_ring m f ring bs : Corners m f ring bs <-> Fring m f ring /\ map (h_src m) ring = map Some bs.
Proof. unfold Corners, Fring. tauto. Qed.

(** [FilledWith] and what the next holes need. *)
Record Filling m (hs : list nat) (gs : list (list nat)) m' : Prop := {
  fg_with : FilledWith m hs gs m';
  fg_fresh : m_fresh m <= m_fresh m';
  fg_newh : forall h, In h (m_hes m') -> ~ In h (m_hes m) -> m_fresh m <= h /\ exists g, h_face m' h = Some g /\ In g (concat gs);
  fg_newf : forall f, In f (concat gs) -> m_fresh m <= f;
  fg_ring : forall h f, In h (m_hes m) -> h_face m h = Some f -> In f hs -> exists g, h_face m' h = Some g /\ In g (concat gs) }.

Lemma face_back m hs gs m' g h : WF m -> Filling m hs gs m' -> In g (m_faces m) -> In h (m_hes m') -> h_face m' h = Some g -> ~ In g hs /\ In h (m_hes m) /\ h_face m h = Some g /\ SameHE m m' h.
Proof.
  intros W FG Ig Ih Eg. assert (NC : ~ In g (concat gs)) by (intros K; apply (fg_newf _ _ _ _ FG) in K; assert (L := f_lt m W g Ig); lia).
  assert (I : In h (m_hes m)) by (destruct (in_dec Nat.eq_dec h (m_hes m)) as [I | I]; [exact I|exfalso; destruct (fg_newh _ _ _ _ FG h Ih I) as (_ & g' & E' & I'); apply NC; congruence]).
  destruct (wf_face m W h I) as (g0 & E0 & I0).
  assert (J : ~ In g0 hs) by (intros K; destruct (fg_ring _ _ _ _ FG h g0 I E0 K) as (g' & E' & I'); apply NC; congruence).
  assert (S := fw_same _ _ _ _ (fg_with _ _ _ _ FG) h g0 I E0 J). assert (g0 = g) by (destruct S as (_ & _ & _ & Q & _); congruence). subst g0. auto.
Qed.

(** ** One hole *)
Lemma filter_both {A} (p : A -> bool) l : length (filter p l) + length (filter (fun x => negb (p x)) l) = length l.
Proof. induction l as [|x l IH]; [reflexivity|]. cbn [filter]. destruct (p x); cbn [negb length]; lia. Qed.
Lemma ring_count n ts : Tree n ts -> 3 <= n -> length (filter (nonring n) (flat_map sides ts)) = 2 * (n - 3).
Proof.
  intros T Hn. assert (L3 : length (flat_map sides ts) = 3 * length ts) by (clear; induction ts as [|[[a b] c] l IH]; cbn [flat_map sides app length] in *; lia). rewrite (tr_len _ _ T) in L3.
  assert (P : Permutation (filter (fun e => negb (nonring n e)) (flat_map sides ts)) (map (fun i => (i, (i + 1) mod n)) (seq 0 n))).
  { apply NoDup_Permutation.
    - apply NoDup_filter, (nodup_sides n ts T Hn).
    - apply FinFun.Injective_map_NoDup; [intros a b Q; injection Q as Q _; exact Q|apply seq_NoDup].
    - intros [i j]. rewrite filter_In, in_map_iff. unfold nonring. cbn [fst snd]. rewrite negb_involutive, Nat.eqb_eq. split.
      + intros [I Q]. exists i. split; [congruence|]. apply in_flat_map in I as (t & It & Ie). destruct (sides_rng n ts T Hn t i j It Ie) as (L & _). apply in_seq. lia.
      + intros (x & [= -> <-] & I). apply in_seq in I. split; [|reflexivity]. apply in_flat_map. assert (RP : ring_pair n (i, (i + 1) mod n)) by (split; [cbn [fst]; lia|reflexivity]).
        apply ring_pair_iff in RP; [|assumption|lia|apply Nat.mod_upper_bound; lia].
        destruct RP as [Q | [Q1 Q2]]; [destruct (side_ring n ts T Hn i) as (t & It & Ie); [assert (Z := Nat.mod_upper_bound (i + 1) n ltac:(lia)); lia|exists t; rewrite Q; replace (i + 1) with (S i) by lia; auto]|].
        destruct (side_last n ts T) as (t & It & Ie). exists t. rewrite Q2. rewrite Q1. auto. }
  assert (Q := Permutation_length P). rewrite map_length, seq_length in Q. assert (Z := filter_both (nonring n) (flat_map sides ts)). lia.
Qed.

Lemma filled_one m f0 ring bs ts fs he m' : WF m -> In f0 (m_faces m) -> Fring m f0 ring -> map (h_src m) ring = map Some bs -> 3 <= length ring ->
  Tree (length ring) ts -> Filled m f0 ring bs ts fs he m' -> Filling m [f0] [fs] m'.
Proof.
  intros W If0 R RB Hn TR F. assert (W' := filled_wf m f0 ring bs ts fs he m' W R RB Hn TR F). cbn [concat]. 
  assert (CE : concat [fs] = fs) by (cbn [concat]; apply app_nil_r).
  assert (LF := forall2_len _ _ _ (fl_tri _ _ _ _ _ _ _ _ F)). assert (LT := tr_len _ _ TR). unfold tri_t in LF, LT.
  assert (NF : NoDup fs).
  { assert (K : NoDup (remove Nat.eq_dec f0 (m_faces m) ++ fs)).
    { apply (@NoDup_incl_NoDup _ (m_faces m')); [apply (fl_fl _ _ _ _ _ _ _ _ F)| |].
      - rewrite app_length. assert (Q := fl_flen _ _ _ _ _ _ _ _ F). assert (Z := remove_length_lt Nat.eq_dec (m_faces m) f0 If0). lia.
      - intros f I. apply (fl_faces _ _ _ _ _ _ _ _ F) in I as [[I D] | I]; apply in_or_app; [left; apply in_in_remove; auto|right; exact I]. }
    clear - K. induction (remove Nat.eq_dec f0 (m_faces m)) as [|x l IH]; [exact K|]. inversion K; auto. }
  assert (NEW : forall h, In h (m_hes m') -> ~ In h (m_hes m) -> m_fresh m <= h /\ exists g, h_face m' h = Some g /\ In g fs).
  { intros h I NI. assert (I' := I). apply (w_in m f0 ring bs ts fs he m' Hn TR F) in I' as [I' | (i & j & Ie & NR & X)]; [contradiction|].
    split; [exact (fl_he_new _ _ _ _ _ _ _ _ F i j h NR X)|]. destruct (w_of m f0 ring bs ts fs he m' R Hn TR F i j h Ie X) as (t & f & _ & S). exists f. split; [apply S|apply S]. }
  assert (RNG : forall h, In h ring -> exists g, In g fs /\ h_face m' h = Some g).
  { intros h Ir. apply In_nth_error in Ir as (i & X). assert (L : i < length ring) by (apply nth_error_Some; congruence).
    destruct (w_ring_side m f0 ring bs ts fs he m' Hn TR F i ((i + 1) mod length ring) h) as [Q1 Q2]; [split; [exact L|reflexivity]|exact X|].
    destruct (w_of m f0 ring bs ts fs he m' R Hn TR F _ _ h Q1 Q2) as (t & f & _ & S). exists f. split; apply S. }
  assert (FM : forall h g, In h (m_hes m') -> h_face m' h = Some g -> In g fs -> exists t i j, In (i, j) (sides t) /\ he i j = Some h /\ Side bs ts fs he m' t g i j h).
  { intros h g I Eg Ig. destruct (w_cases m f0 ring bs ts fs he m' R Hn TR F h I) as [[I' J] | (t & f & i & j & Ie & X & S)].
    - exfalso. destruct (w_out m f0 ring bs ts fs he m' F h I' J) as (_ & Q & _). destruct (w_out_face m f0 ring W R h I' J) as (f & Ef & Iff & _). assert (f = g) by congruence. subst f. assert (L := w_fs m f0 ring bs ts fs he m' F g Ig). assert (L' := f_lt m W g Iff). lia.
    - exists t, i, j. assert (f = g) by (assert (Q := sd_face _ _ _ _ _ _ _ _ _ _ S); congruence). subst f. auto. }
  assert (BS := w_bs m f0 ring bs W R RB Hn).
  constructor.
  - constructor.
    + exact W'.
    + destruct (fl_lists _ _ _ _ _ _ _ _ F) as [E1 _]. destruct (fl_v _ _ _ _ _ _ _ _ F) as (_ & E2 & _ & _ & E3). auto.
    + intros h I. split; [apply (w_old m f0 ring bs ts fs he m' Hn TR F h I)|]. split; [apply (w_src m f0 ring bs ts fs he m' F h I)|apply (w_rev m f0 ring bs ts fs he m' F h I)].
    + intros h f I Ef NI. apply (fl_old _ _ _ _ _ _ _ _ F h I). intros K. apply R in K as [_ K]. apply NI. left. congruence.
    + intros i f X NI. assert (D : f <> f0) by (intros ->; apply NI; left; reflexivity). split; [exact (fl_slot _ _ _ _ _ _ _ _ F i f X D)|]. apply (fl_fold _ _ _ _ _ _ _ _ F), (f_lt m W), (nth_error_In _ _ X).
    + constructor; [|constructor]. exists ring, bs. split; [apply corners_ring; auto|]. split; [exact NF|]. split; [lia|]. split; [|split; [exact RNG|]].
      * intros g Ig. split; [apply (fl_faces _ _ _ _ _ _ _ _ F); auto|]. split.
        -- destruct (forall2_in_r _ _ _ _ (fl_tri _ _ _ _ _ _ _ _ F) Ig) as ([[i j] k] & It & _ & h0 & h1 & h2 & P0 & P1 & P2 & S0 & S1 & S2 & N0 & N1 & N2 & F0 & F1 & F2 & B0 & B1 & B2 & FF).
           destruct (tr_rng _ _ TR _ _ _ It) as [B3 B4]. destruct (BS i ltac:(lia)) as (a & Ea & _). destruct (BS j ltac:(lia)) as (b & Eb & _). destruct (BS k ltac:(lia)) as (c & Ec & _).
           exists i, j, k, a, b, c. split; [lia|]. split; [lia|]. split; [exact Ea|]. split; [exact Eb|]. split; [exact Ec|]. exists h0, h1, h2.
           assert (SD : forall x y h, In (x, y) (sides (i, j, k)) -> he x y = Some h -> h_face m' h = Some g -> In h (m_hes m') /\ Side bs ts fs he m' (i, j, k) g x y h).
           { intros x y h Ie X Eg. destruct (w_side m f0 ring bs ts fs he m' R Hn TR F (i, j, k) x y It Ie) as (f & h' & X' & S). assert (h' = h) by congruence. subst h'. assert (f = g) by (assert (Q := sd_face _ _ _ _ _ _ _ _ _ _ S); congruence). subst f. split; [apply S|exact S]. }
           destruct (SD i j h0 ltac:(cbn; auto) P0 F0) as [I0 S00]. destruct (SD j k h1 ltac:(cbn; auto) P1 F1) as [I1 _]. destruct (SD k i h2 ltac:(cbn; auto) P2 F2) as [I2 _].
           split; [|rewrite S0, S1, S2; auto 8]. intros h. split; [|intros [-> | [-> | ->]]; auto].
           intros [I Eg]. destruct (FM h g I Eg Ig) as (t & x & y & Ie & X & S). assert (t = (i, j, k)) by (exact (w_uniq m f0 ring bs ts fs he m' Hn TR F t (i, j, k) g x y h i j h0 S S00 Ie (or_introl eq_refl) X P0)). subst t.
           destruct Ie as [Q | [Q | [Q | []]]]; injection Q as <- <-; [left|right; left|right; right]; congruence.
        -- intros h I Eg. destruct (FM h g I Eg Ig) as (t & i & j & _ & _ & S). apply S.
      * intros h g I Eg Ig. destruct (FM h g I Eg Ig) as (t & i & j & Ie & X & S). destruct (w_dec ring (i, j)) as [RP | NR].
        -- left. rewrite (fl_he_ring _ _ _ _ _ _ _ _ F i j RP) in X. exact (nth_error_In _ _ X).
        -- right. split; [intros K; assert (L := fl_he_new _ _ _ _ _ _ _ _ F i j h NR X); assert (L' := h_lt m W h K); lia|].
           assert (IE := w_E ts t i j (sd_t _ _ _ _ _ _ _ _ _ _ S) Ie). destruct (w_rev_side m f0 ring bs ts fs he m' R Hn TR F i j h IE X NR) as (r & Er & Xr & Ir & _).
           destruct (w_of m f0 ring bs ts fs he m' R Hn TR F j i r Ir Xr) as (t' & g' & _ & S'). exists r, g'. split; [exact Er|]. split; apply S'.
    + intros f. rewrite CE, (fl_faces _ _ _ _ _ _ _ _ F f). cbn [In]. intuition congruence.
    + rewrite CE. split; [exact NF|]. intros f I K. assert (L := w_fs m f0 ring bs ts fs he m' F f I). assert (L' := f_lt m W f K). lia.
    + rewrite CE. destruct (fl_hes _ _ _ _ _ _ _ _ F) as (news & E1 & E2). rewrite E1, app_length. apply (f_equal (@length _)) in E2. rewrite !map_length, (ring_count _ ts TR Hn) in E2. cbn [length]. lia.
    + rewrite CE. assert (Q := fl_flen _ _ _ _ _ _ _ _ F). cbn [length]. lia.
  - exact (fl_fresh _ _ _ _ _ _ _ _ F).
  - intros h I NI. cbn [concat]. rewrite app_nil_r. exact (NEW h I NI).
  - cbn [concat]. rewrite app_nil_r. apply (w_fs m f0 ring bs ts fs he m' F).
  - intros h f I Ef [<- | []]. destruct (RNG h) as (g & Ig & Eg); [apply R; auto|]. exists g. cbn [concat]. rewrite app_nil_r. auto.
Qed.

(** ** Several holes *)
Lemma ring_keep m hs gs m' g ring : WF m -> Filling m hs gs m' -> In g (m_faces m) -> ~ In g hs ->
  (forall h, In h (m_hes m') /\ h_face m' h = Some g <-> In h (m_hes m) /\ h_face m h = Some g) /\ (Fring m g ring <-> Fring m' g ring).
Proof.
  intros W FG Ig NI. assert (FW := fg_with _ _ _ _ FG).
  assert (A : forall h, In h (m_hes m') /\ h_face m' h = Some g <-> In h (m_hes m) /\ h_face m h = Some g).
  { intros h. split; intros [I E]; [destruct (face_back m hs gs m' g h W FG Ig I E) as (_ & A & B & _); auto|]. split; [apply (fw_hes _ _ _ _ FW h I)|]. destruct (fw_same _ _ _ _ FW h g I E NI) as (_ & _ & _ & Q & _). congruence. }
  split; [exact A|]. unfold Fring. split; intros (C & D & I); (split; [|split; [exact D|intros y; rewrite I; first [apply A | symmetry; apply A]]]).
  - apply (cyc_ext (h_next m)); [|exact C]. intros a Ia. apply I in Ia as [Ia Ea]. destruct (fw_same _ _ _ _ FW a g Ia Ea NI) as (_ & Q & _). congruence.
  - apply (cyc_ext (h_next m')); [|exact C]. intros a Ia. apply I, A in Ia as [Ia Ea]. destruct (fw_same _ _ _ _ FW a g Ia Ea NI) as (_ & Q & _). congruence.
Qed.

Lemma patch_before m f fs m1 hs gs m2 g l : WF m -> Filling m [f] [fs] m1 -> Filling m1 hs gs m2 -> In g (m_faces m) -> g <> f -> Patch m1 m2 g l -> Patch m m2 g l.
Proof.
  intros W F1 F2 Ig D (ring & bs & C & ND & L & T & RI & OT). exists ring, bs. apply corners_ring in C as [C CB].
  assert (NI : ~ In g [f]) by (intros [K | []]; congruence). destruct (ring_keep m [f] [fs] m1 g ring W F1 Ig NI) as [A B].
  split; [|split; [exact ND|split; [exact L|split; [exact T|split; [exact RI|]]]]].
  - apply corners_ring. split; [apply B, C|]. rewrite <- CB. apply map_ext_in. intros h Ih. apply C, A in Ih as [Ih _]. symmetry. apply (fw_hes _ _ _ _ (fg_with _ _ _ _ F1) h Ih).
  - intros h g' I E I'. destruct (OT h g' I E I') as [O | [O1 O2]]; [left; exact O|right]. split; [|exact O2]. intros K. apply O1. apply (fw_hes _ _ _ _ (fg_with _ _ _ _ F1) h K).
Qed.
Lemma patch_after m f m1 hs gs m2 l : WF m1 -> (forall g, In g l -> In g (m_faces m1) /\ ~ In g hs) -> (forall h, In h (m_hes m) -> In h (m_hes m1)) -> Filling m1 hs gs m2 -> Patch m m1 f l -> Patch m m2 f l.
Proof.
  intros W1 K IN F2 (ring & bs & C & ND & L & T & RI & OT). exists ring, bs. assert (FW := fg_with _ _ _ _ F2). split; [exact C|]. split; [exact ND|]. split; [exact L|].
  assert (CR := C). apply corners_ring in CR as [CR _].
  assert (BK : forall h g, In h (m_hes m2) -> h_face m2 h = Some g -> In g l -> In h (m_hes m1) /\ h_face m1 h = Some g /\ SameHE m1 m2 h) by (intros h g I E Ig; destruct (face_back m1 hs gs m2 g h W1 F2 (proj1 (K g Ig)) I E) as (_ & Q1 & Q2 & Q3); auto).
  split; [|split].
  - intros g Ig. destruct (T g Ig) as (T1 & (i & j & k & a & b & c & L1 & L2 & Ea & Eb & Ec & TR) & T3). split; [apply (fw_faces _ _ _ _ FW); left; exact (K g Ig)|]. split.
    + exists i, j, k, a, b, c. split; [exact L1|]. split; [exact L2|]. split; [exact Ea|]. split; [exact Eb|]. split; [exact Ec|].
      destruct TR as (x & y & z & FX & N1 & N2 & N3 & S1 & S2 & S3).
      assert (SX : forall h, h = x \/ h = y \/ h = z -> SameHE m1 m2 h) by (intros h Q; apply FX in Q as [Q1 Q2]; exact (fw_same _ _ _ _ FW h g Q1 Q2 (proj2 (K g Ig)))).
      destruct (SX x ltac:(auto)) as (X1 & X2 & _). destruct (SX y ltac:(auto)) as (Y1 & Y2 & _). destruct (SX z ltac:(auto)) as (Z1 & Z2 & _).
      exists x, y, z. split; [|rewrite X1, X2, Y1, Y2, Z1, Z2; auto 8]. intros h. rewrite <- FX. exact (proj1 (ring_keep m1 hs gs m2 g [] W1 F2 (proj1 (K g Ig)) (proj2 (K g Ig))) h).
    + intros h I E. destruct (BK h g I E Ig) as (Q1 & Q2 & (_ & _ & _ & _ & Q3)). rewrite Q3. exact (T3 h Q1 Q2).
  - intros h Ih. destruct (RI h Ih) as (g & Ig & Eg). exists g. split; [exact Ig|]. apply CR in Ih as [Ih _]. destruct (fw_same _ _ _ _ FW h g (IN h Ih) Eg (proj2 (K g Ig))) as (_ & _ & _ & Q & _). congruence.
  - intros h g I E Ig. destruct (BK h g I E Ig) as (Q1 & Q2 & (_ & _ & Q3 & _)). destruct (OT h g Q1 Q2 Ig) as [O | (O1 & r & g' & Er & Eg & Ig')]; [left; exact O|right]. split; [exact O1|].
    exists r, g'. split; [congruence|]. split; [|exact Ig']. destruct (fw_same _ _ _ _ FW r g' (rev_in m1 W1 h r Q1 Er) Eg (proj2 (K g' Ig'))) as (_ & _ & _ & Q & _). congruence.
Qed.
Lemma same_trans (m m1 m2 : mesh N) h : SameHE m m1 h -> SameHE m1 m2 h -> SameHE m m2 h.
Proof. intros (A & B & C & D & G) (A' & B' & C' & D' & G'). repeat split; congruence. Qed.
Lemma filling_cons m f fs m1 hs gs m2 : WF m -> ~ In f hs -> (forall g, In g hs -> In g (m_faces m)) -> Filling m [f] [fs] m1 -> Filling m1 hs gs m2 -> Filling m (f :: hs) (fs :: gs) m2.
Proof.
  intros W NI HS F1 F2. assert (FW1 := fg_with _ _ _ _ F1). assert (FW2 := fg_with _ _ _ _ F2). assert (W1 := fw_wf _ _ _ _ FW1).
  assert (CE : concat [fs] = fs) by apply app_nil_r.
  assert (NH : forall g, In g fs -> In g (m_faces m1) /\ ~ In g hs).
  { intros g Ig. split; [apply (fw_faces _ _ _ _ FW1); rewrite CE; auto|]. intros K. rewrite <- CE in Ig. assert (L := fg_newf _ _ _ _ F1 g Ig). assert (L' := f_lt m W g (HS g K)). lia. }
  assert (IN : forall h, In h (m_hes m) -> In h (m_hes m1)) by (intros h I; apply (fw_hes _ _ _ _ FW1 h I)).
  constructor.
  - constructor.
    + apply (fw_wf _ _ _ _ FW2).
    + destruct (fw_verts _ _ _ _ FW1) as (A & B & C), (fw_verts _ _ _ _ FW2) as (A' & B' & C'). repeat split; congruence.
    + intros h I. destruct (fw_hes _ _ _ _ FW1 h I) as (A & B & C), (fw_hes _ _ _ _ FW2 h (IN h I)) as (A' & B' & C'). split; [exact A'|]. split; congruence.
    + intros h g I E NG. assert (S1 := fw_same _ _ _ _ FW1 h g I E (fun K => NG (or_introl (match K with or_introl Q => Q | or_intror Q => match Q with end end)))).
      apply (same_trans m m1 m2 h S1). apply (fw_same _ _ _ _ FW2 h g (IN h I)); [destruct S1 as (_ & _ & _ & Q & _); congruence|]. intros K. apply NG. right. exact K.
    + intros i g X NG. assert (N1 : ~ In g [f]) by (intros [K | []]; apply NG; left; exact K). destruct (fw_kept _ _ _ _ FW1 i g X N1) as [A B]. destruct (fw_kept _ _ _ _ FW2 i g A (fun K => NG (or_intror K))) as [A' B']. split; congruence.
    + constructor.
      * assert (P := fw_patch _ _ _ _ FW1). inversion P as [|? ? ? ? P1 _]; subst. exact (patch_after m f m1 hs gs m2 fs W1 NH IN F2 P1).
      * assert (P := fw_patch _ _ _ _ FW2). assert (HS' : forall g, In g hs -> In g (m_faces m) /\ g <> f) by (intros g K; split; [exact (HS g K)|intros ->; exact (NI K)]). clear - P HS' W F1 F2.
        assert (G : forall hs' gs', Forall2 (Patch m1 m2) hs' gs' -> (forall g, In g hs' -> In g (m_faces m) /\ g <> f) -> Forall2 (Patch m m2) hs' gs').
        { intros hs' gs' Q. induction Q as [|g l hs' gs' Pg Q IH]; intros H; constructor; [|apply IH; intros; apply H; right; assumption]. destruct (H g (or_introl eq_refl)) as [H1 H2]. exact (patch_before m f fs m1 hs gs m2 g l W F1 F2 H1 H2 Pg). }
        exact (G hs gs P HS').
    + intros g. rewrite (fw_faces _ _ _ _ FW2 g), (fw_faces _ _ _ _ FW1 g), CE. cbn [In concat]. rewrite in_app_iff. split.
      * intros [[[[A B] | A] C] | A]; [left; split; [exact A|intros [K | K]; [apply B; left; exact K|exact (C K)]]|right; left; exact A|right; right; exact A].
      * intros [[A B] | [A | A]]; [left; split; [left; split; [exact A|intros [K | []]; apply B; left; exact K]|intros K; apply B; right; exact K]|left; split; [right; exact A|apply (NH g A)]|right; exact A].
    + destruct (fw_new _ _ _ _ FW1) as [D1 O1], (fw_new _ _ _ _ FW2) as [D2 O2]. rewrite CE in D1, O1. cbn [concat]. split.
      * clear - D1 D2 O2 NH. induction fs as [|g l IH]; [exact D2|]. inversion D1; subst. cbn [app]. constructor; [|apply IH; [intros; apply NH; right; assumption|assumption]].
        rewrite in_app_iff. intros [K | K]; [contradiction|]. exact (O2 g K (proj1 (NH g (or_introl eq_refl)))).
      * intros g I K. apply in_app_or in I as [I | I]; [exact (O1 g I K)|]. assert (L := fg_newf _ _ _ _ F2 g I). assert (L' := fg_fresh _ _ _ _ F1). assert (L'' := f_lt m W g K). lia.
    + assert (A := fw_count_h _ _ _ _ FW1). assert (B := fw_count_h _ _ _ _ FW2). rewrite CE in A. cbn [concat length] in *. rewrite app_length. lia.
    + assert (A := fw_count_f _ _ _ _ FW1). assert (B := fw_count_f _ _ _ _ FW2). rewrite CE in A. cbn [concat length] in *. rewrite app_length. lia.
  - assert (A := fg_fresh _ _ _ _ F1). assert (B := fg_fresh _ _ _ _ F2). lia.
  - intros h I NO. cbn [concat]. destruct (in_dec Nat.eq_dec h (m_hes m1)) as [J | J].
    + destruct (fg_newh _ _ _ _ F1 h J NO) as (L & g & Eg & Ig). split; [exact L|]. rewrite CE in Ig. exists g. rewrite in_app_iff. split; [|left; exact Ig]. destruct (fw_same _ _ _ _ FW2 h g J Eg (proj2 (NH g Ig))) as (_ & _ & _ & Q & _). congruence.
    + destruct (fg_newh _ _ _ _ F2 h I J) as (L & g & Eg & Ig). assert (A := fg_fresh _ _ _ _ F1). split; [lia|]. exists g. rewrite in_app_iff. auto.
  - cbn [concat]. intros g I. apply in_app_or in I as [I | I]; [apply (fg_newf _ _ _ _ F1); rewrite CE; exact I|]. assert (L := fg_newf _ _ _ _ F2 g I). assert (A := fg_fresh _ _ _ _ F1). lia.
  - intros h g I E Ig. cbn [concat]. destruct (Nat.eq_dec g f) as [->|D].
    + destruct (fg_ring _ _ _ _ F1 h f I E (or_introl eq_refl)) as (g' & E' & I'). rewrite CE in I'. exists g'. rewrite in_app_iff. split; [|left; exact I']. destruct (fw_same _ _ _ _ FW2 h g' (IN h I) E' (proj2 (NH g' I'))) as (_ & _ & _ & Q & _). congruence.
    + destruct Ig as [Ig | Ig]; [congruence|]. assert (S1 := fw_same _ _ _ _ FW1 h g I E (fun K => match K with or_introl Q => D (eq_sym Q) | or_intror Q => match Q with end end)).
      destruct (fg_ring _ _ _ _ F2 h g (IN h I)) as (g' & E' & I'); [destruct S1 as (_ & _ & _ & Q & _); congruence|exact Ig|]. exists g'. rewrite in_app_iff. auto.
Qed.
Lemma filling_nil m : WF m -> Filling m [] [] m.
Proof.
  intros W. constructor.
  - constructor; cbn [concat length]; [exact W|auto|auto|intros; unfold SameHE; auto 8|auto|constructor| |split; [constructor|intros f []]|lia|lia]. intros f. cbn [In]. tauto.
  - lia.
  - intros h I K. contradiction.
  - intros f [].
  - intros h f _ _ [].
Qed.

(** ** The function *)
Context {NA : NumAngle N}.
Variable cabs : num -> num.
Lemma fill_loop : forall is hs m, WF m -> NoDup hs -> Forall2 (fun i f => nth_error (m_faces m) i = Some f) is hs -> (forall f ring, In f hs -> Fring m f ring -> 3 <= length ring) ->
  exists gs m', mfor is (fun i => f <- mesh_face (Z.of_nat i) ;; triangulate cabs f) m = Ok (tt, m') /\ Filling m hs gs m'.
Proof.
  induction is as [|i is IH]; intros hs m W ND Q H3; inversion Q as [|? f ? hs' X Q' E1 E2]; subst.
  - exists [], m. split; [reflexivity|apply filling_nil, W].
  - inversion ND as [|? ? NI ND']; subst. assert (If := nth_error_In _ _ X). destruct (fring m W f If) as (h & l & Eh & R).
    destruct (hole_filled cabs m f h l npi W If Eh R (H3 f _ (or_introl eq_refl) R)) as (bs & ts & fs & he & m1 & RUN & RB & TR & FL).
    assert (F1 := filled_one m f (h :: l) bs ts fs he m1 W If R RB (H3 f _ (or_introl eq_refl) R) TR FL). assert (FW1 := fg_with _ _ _ _ F1). assert (W1 := fw_wf _ _ _ _ FW1).
    assert (HS : forall g, In g hs' -> In g (m_faces m) /\ ~ In g [f]).
    { intros g Ig. destruct (forall2_in_r _ _ _ _ Q' Ig) as (j & _ & Xj). split; [exact (nth_error_In _ _ Xj)|]. intros [<- | []]. exact (NI Ig). }
    destruct (IH hs' m1) as (gs & m2 & RUN2 & F2).
    + exact W1.
    + exact ND'.
    + clear - Q' FW1 HS. assert (G : forall a b, Forall2 (fun i f => nth_error (m_faces m) i = Some f) a b -> (forall g, In g b -> ~ In g [f]) -> Forall2 (fun i f => nth_error (m_faces m1) i = Some f) a b).
      { intros a b K. induction K as [|x y a b Xy K IHK]; intros H; constructor; [apply (fw_kept _ _ _ _ FW1 x y Xy), H; left; reflexivity|apply IHK; intros; apply H; right; assumption]. }
      apply G; [exact Q'|intros g Ig; apply (HS g Ig)].
    + intros g ring Ig Rg. destruct (HS g Ig) as [A B]. apply (H3 g ring (or_intror Ig)). apply (ring_keep m [f] [fs] m1 g ring W F1 A B), Rg.
    + exists (fs :: gs), m2. split; [|apply (filling_cons m f fs m1 hs' gs m2 W NI (fun g K => proj1 (HS g K)) F1 F2)].
      cbn [mfor]. rewrite (bind_ok _ _ m tt m1); [exact RUN2|]. rewrite (bind_ok _ _ m (Some f) m); [exact RUN|]. rewrite mesh_face_eq, X. reflexivity.
Qed.

(** The holes, in the order of the faces. *)
Definition holeb m (f : nat) : bool := forallb (fun h => negb (ptr_eqb (h_face m h) (Some f)) || h_bd m h) (m_hes m).
Lemma holeb_iff m f : In f (m_faces m) -> holeb m f = true <-> Hole m f.
Proof.
  intros I. unfold holeb, Hole. rewrite forallb_forall. split.
  - intros H. split; [exact I|]. intros h Ih E. assert (Q := H h Ih). rewrite E in Q. unfold ptr_eqb in Q. rewrite Nat.eqb_refl in Q. exact Q.
  - intros [_ H] h Ih. destruct (ptr_eqb (h_face m h) (Some f)) eqn:Q; [|reflexivity]. cbn [negb orb]. apply H; [exact Ih|]. destruct (h_face m h) as [g|]; [|discriminate]. apply Nat.eqb_eq in Q. congruence.
Qed.
Lemma isHole_holeb m f : WF m -> In f (m_faces m) -> f_isHole (Some f) m = Ok (holeb m f, m).
Proof.
  intros W I. destruct (fring m W f I) as (h & l & Eh & R). rewrite (f_isHole_ok m W f h l I Eh R). do 2 f_equal. apply eq_true_iff_eq. rewrite (holeb_iff m f I), forallb_forall. destruct R as (_ & _ & R). unfold Hole. split.
  - intros H. split; [exact I|]. intros y Iy Ey. apply H, R. auto.
  - intros [_ H] y Iy. apply R in Iy as [Iy Ey]. exact (H y Iy Ey).
Qed.
Lemma hole_indices_ok m : WF m -> forall fl pre, m_faces m = pre ++ fl -> exists is, hole_indices (seq (length pre) (length fl)) m = Ok (is, m) /\ Forall2 (fun i f => nth_error (m_faces m) i = Some f) is (filter (holeb m) fl).
Proof.
  intros W. induction fl as [|f fl IH]; intros pre E; [exists []; split; [reflexivity|constructor]|].
  assert (X : nth_error (m_faces m) (length pre) = Some f) by (rewrite E; apply nth_mid). destruct (IH (pre ++ [f])) as (is & R1 & R2); [rewrite <- app_assoc; exact E|].
  rewrite app_length in R1. cbn [length] in R1. rewrite Nat.add_1_r in R1. cbn [length seq hole_indices]. rewrite (bind_ok _ _ m (Some f) m) by (rewrite mesh_face_eq, X; reflexivity).
  rewrite (bind_ok _ _ m _ m (isHole_holeb m f W (nth_error_In _ _ X))), (bind_ok _ _ m _ m R1). cbn [filter]. destruct (holeb m f); eexists; (split; [reflexivity|]); [constructor; assumption|exact R2].
Qed.
Lemma ring_ge3 m f ring : AtLeast3 m -> Fring m f ring -> 3 <= length ring.
Proof.
  intros A (C & _ & I). destruct ring as [|x [|y [|z l]]]; [destruct C| | |cbn [length]; lia]; exfalso; apply (A x (proj1 (proj1 (I x) (or_introl eq_refl)))); cbn [cyc chainto] in C; cbn [piter].
  - rewrite C, C. reflexivity.
  - destruct C as [C1 C2]. rewrite C1, C2. reflexivity.
Qed.
Theorem fillHoles_ok m : WF m -> AtLeast3 m -> exists gs m', fillHoles cabs m = Ok (tt, m') /\ Filling m (filter (holeb m) (m_faces m)) gs m'.
Proof.
  intros W A. destruct (hole_indices_ok m W (m_faces m) [] eq_refl) as (is & R1 & R2).
  destruct (fill_loop is (filter (holeb m) (m_faces m)) m W) as (gs & m' & R3 & F); [apply NoDup_filter, W|exact R2|intros f ring _ R; exact (ring_ge3 m f ring A R)|].
  exists gs, m'. split; [|exact F]. unfold fillHoles. rewrite (bind_ok _ _ m (length (m_faces m)) m eq_refl), (bind_ok _ _ m is m R1). exact R3.
Qed.

(** ** What it means *)
Theorem fill_holes m : WF m -> AtLeast3 m -> exists m' hs gs, fillHoles cabs m = Ok (tt, m') /\ NoDup hs /\ (forall f, In f hs <-> Hole m f) /\ FilledWith m hs gs m' /\
  (forall f, ~ Hole m' f) /\ (forall f, In f (m_faces m') -> f_isHole (Some f) m' = Ok (false, m')).
Proof.
  intros W A. destruct (fillHoles_ok m W A) as (gs & m' & RUN & FG). set (hs := filter (holeb m) (m_faces m)) in *. assert (FW := fg_with _ _ _ _ FG). assert (W' := fw_wf _ _ _ _ FW).
  assert (HS : forall f, In f hs <-> Hole m f).
  { intros f. unfold hs. rewrite filter_In. split; [intros [I H]; apply holeb_iff; assumption|]. intros H. split; [apply H|]. apply holeb_iff; [apply H|exact H]. }
  assert (NH : forall f, ~ Hole m' f).
  { intros f H. assert (I := proj1 H). apply (fw_faces _ _ _ _ FW) in I as [[I NI] | I].
    - apply NI, HS. split; [exact I|]. intros h Ih E. destruct (fw_same _ _ _ _ FW h f Ih E NI) as (_ & _ & _ & Q1 & Q2). rewrite <- Q2. apply (proj2 H); [apply (fw_hes _ _ _ _ FW h Ih)|congruence].
    - apply in_concat in I as (l & Il & I). destruct (forall2_in_r _ _ _ _ (fw_patch _ _ _ _ FW) Il) as (f0 & _ & ring & bs & _ & _ & _ & T & _). destruct (T f I) as (I' & _ & B).
      destruct (wf_fhe m' W' f I') as (h & _ & Ih & Eh). assert (Q1 := B h Ih Eh). assert (Q2 := proj2 H h Ih Eh). congruence. }
  exists m', hs, gs. split; [exact RUN|]. split; [apply NoDup_filter, W|]. split; [exact HS|]. split; [exact FW|]. split; [exact NH|].
  intros f I. rewrite (isHole_holeb m' f W' I). destruct (holeb m' f) eqn:B; [|reflexivity]. exfalso. apply (NH f), holeb_iff; assumption.
Qed.
End P.

(** V - E + F does not change. *)
Lemma filled_euler {N : Num} (m : mesh N) hs gs m' : FilledWith m hs gs m' -> euler m' = euler m.
Proof.
  intros FW. assert (A := fw_count_h _ _ _ _ FW). assert (B := fw_count_f _ _ _ _ FW). destruct (fw_verts _ _ _ _ FW) as (V & _). unfold euler. rewrite V.
  assert (E : (Z.of_nat (length (m_hes m')) = Z.of_nat (length (m_hes m)) + (Z.of_nat (length (concat gs)) - Z.of_nat (length hs)) * 2)%Z) by lia. rewrite E, Z.div_add by lia. lia.
Qed.
