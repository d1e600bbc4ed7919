(** fillHoles: the state after the triangles of one hole have been added. *)
From Coq Require Import List ZArith Arith Lia Bool.
From Verif Require Import Num Vec Heap Mesh Spec Orbit Rings Exec Construct Remove Split BuildTri Fill FillT.
Import ListNotations.
Local Open Scope mesh_scope.

Definition nonring (n : nat) (e : nat * nat) : bool := negb (snd e =? (fst e + 1) mod n).

Lemma rmaps_he n : forall l c p i j, p_he (ring_maps n c (map Some l) p) i j =
  if (c <=? i) && (i <? c + length l) && (j =? (i + 1) mod n) then nth_error l (i - c) else p_he p i j.
Proof.
  induction l as [|h l IH]; intros c p i j; cbn [map ring_maps length].
  - destruct (Nat.leb_spec c i), (Nat.ltb_spec i (c + 0)); cbn [andb]; try reflexivity; lia.
  - rewrite IH. unfold p_add, em_set. cbn [p_he]. destruct (Nat.eqb_spec i c) as [->|E].
    + destruct (Nat.leb_spec (S c) c); [lia|]. destruct (Nat.leb_spec c c); [|lia]. destruct (Nat.ltb_spec c (c + S (length l))); [|lia]. cbn [andb].
      destruct (Nat.eqb_spec j ((c + 1) mod n)); [rewrite Nat.sub_diag; reflexivity|reflexivity].
    + cbn [andb]. destruct (Nat.leb_spec (S c) i), (Nat.leb_spec c i), (Nat.ltb_spec i (S c + length l)), (Nat.ltb_spec i (c + S (length l))); cbn [andb]; try reflexivity; try lia.
      destruct (j =? (i + 1) mod n); [|reflexivity]. replace (i - c) with (S (i - S c)) by lia. reflexivity.
Qed.
Lemma rmaps_of_other n : forall l c p h, ~ In h l -> p_of (ring_maps n c (map Some l) p) h = p_of p h.
Proof.
  induction l as [|x l IH]; intros c p h H; cbn [map ring_maps]; [reflexivity|]. rewrite IH by (intros K; apply H; right; exact K).
  unfold p_add. cbn [p_of]. apply fupd_other. intros ->. apply H. left; reflexivity.
Qed.
Lemma rmaps_of n : forall l c p k h, NoDup l -> nth_error l k = Some h -> p_of (ring_maps n c (map Some l) p) h = (c + k, (c + k + 1) mod n).
Proof.
  induction l as [|x l IH]; intros c p k h ND E; [destruct k; discriminate|]. inversion ND; subst. cbn [map ring_maps]. destruct k as [|k]; cbn [nth_error] in E.
  - injection E as <-. rewrite rmaps_of_other by assumption. unfold p_add. cbn [p_of]. rewrite fupd_same, Nat.add_0_r. reflexivity.
  - rewrite (IH (S c) _ k h); [|assumption|exact E]. replace (S c + k) with (c + S k) by lia. reflexivity.
Qed.

Section O.
Context {N : Num}.
Variables (m0 : mesh N) (ring bs : list nat).
Let n := length ring.
Hypothesis W : WF m0.
Hypothesis RI : forall y, In y ring -> In y (m_hes m0).
Hypothesis RN : NoDup ring.
Hypothesis RB : map (h_src m0) ring = map Some bs.
Hypothesis Hn : 3 <= n.
Notation he p e := (p_he p (fst e) (snd e)).

Lemma len_bs : length bs = n.
Proof. unfold n. rewrite <- (map_length (h_src m0) ring), RB, map_length. reflexivity. Qed.
Lemma at_bs i : i < n -> exists b, nth_error bs i = Some b /\ (forall h, nth_error ring i = Some h -> h_src m0 h = Some b) /\ In b (m_verts m0).
Proof.
  intros L. destruct (nth_error ring i) as [h|] eqn:E; [|apply nth_error_None in E; unfold n in L; lia].
  assert (K : nth_error (map Some bs) i = Some (h_src m0 h)) by (rewrite <- RB; apply map_nth_error, E). rewrite nth_error_map in K.
  destruct (nth_error bs i) as [b|]; [|discriminate]. injection K as K. exists b. split; [reflexivity|]. split; [intros h' [= <-]; symmetry; exact K|].
  destruct (wf_src m0 W h (RI _ (nth_error_In _ _ E))) as (v & Ev & Iv). congruence.
Qed.

(** ** Half-edges for the sides [E] *)
Record Alloc (E : list (nat * nat)) (p : maps) (m : mesh N) : Prop := {
  al_lists : m_verts m = m_verts m0 /\ m_indices m = m_indices m0;
  al_v : v_live m = v_live m0 /\ v_pos m = v_pos m0 /\ v_he m = v_he m0 /\ v_idx m = v_idx m0 /\ v_lock m = v_lock m0;
  al_fresh : m_fresh m0 <= m_fresh m;
  al_lt : forall i j, In (i, j) E -> i < n;
  al_hl : HList m;
  al_hes : exists news, m_hes m = m_hes m0 ++ news /\ map Some news = map (fun e => he p e) (filter (nonring n) E);
  al_dom : forall i j, p_he p i j <> None -> ring_pair n (i, j) \/ In (i, j) E;
  al_ring : forall i j, ring_pair n (i, j) -> p_he p i j = nth_error ring i;
  al_of : forall i j h, p_he p i j = Some h -> p_of p h = (i, j);
  al_new : forall i j h, ~ ring_pair n (i, j) -> p_he p i j = Some h -> m_fresh m0 <= h /\ h_rev m h = None;
  al_rev : forall y, y < m_fresh m0 -> h_rev m y = h_rev m0 y }.

Lemma ring_lt i j : ring_pair n (i, j) -> i < n.
Proof. intros [H _]. exact H. Qed.
Lemma nonring_iff i j : i < n -> nonring n (i, j) = true <-> ~ ring_pair n (i, j).
Proof. intros L. unfold nonring, ring_pair. cbn [fst snd]. rewrite negb_true_iff, Nat.eqb_neq. tauto. Qed.
Lemma alloc_inj E p m : Alloc E p m -> forall i j i' j' h, p_he p i j = Some h -> p_he p i' j' = Some h -> (i, j) = (i', j').
Proof. intros A i j i' j' h H H'. rewrite <- (al_of _ _ _ A _ _ _ H). apply (al_of _ _ _ A _ _ _ H'). Qed.
Lemma alloc_in E p m : Alloc E p m -> forall i j h, p_he p i j = Some h -> In h (m_hes m).
Proof.
  intros A i j h H. destruct (al_hes _ _ _ A) as (news & E1 & E2). rewrite E1. apply in_app_iff.
  destruct (al_dom _ _ _ A i j) as [R | I]; [congruence|left; apply RI; rewrite (al_ring _ _ _ A i j R) in H; exact (nth_error_In _ _ H)|].
  destruct (nonring n (i, j)) eqn:NR.
  - right. assert (K : In (Some h) (map Some news)) by (rewrite E2; apply in_map_iff; exists (i, j); cbn [fst snd]; split; [exact H|apply filter_In; auto]).
    apply in_map_iff in K as (x & [= ->] & K). exact K.
  - left. apply RI. assert (R : ring_pair n (i, j)). { assert (L := al_lt _ _ _ A i j I). unfold nonring in NR. cbn [fst snd] in NR. apply negb_false_iff, Nat.eqb_eq in NR. split; assumption. }
    rewrite (al_ring _ _ _ A i j R) in H. exact (nth_error_In _ _ H).
Qed.
Lemma alloc_live E p m : Alloc E p m -> forall i j h, p_he p i j = Some h -> h_live m h = true /\ h < m_fresh m.
Proof. intros A i j h H. apply (alloc_in _ _ _ A) in H. apply In_nth_error in H as (k & H). destruct (al_hl _ _ _ A) as [_ HL]. destruct (HL k h H) as (? & _ & ?). auto. Qed.

Lemma alloc_start : Alloc [] (ring_maps n 0 (map Some ring) no_maps) m0.
Proof.
  assert (HE : forall i j, p_he (ring_maps n 0 (map Some ring) no_maps) i j = if (i <? n) && (j =? (i + 1) mod n) then nth_error ring i else None).
  { intros i j. rewrite rmaps_he. cbn [Nat.leb andb Nat.add]. rewrite Nat.sub_0_r. reflexivity. }
  constructor; try (repeat split; reflexivity).
  - intros i j [].
  - split; [exact (wf_h_nodup m0 W)|exact (wf_h_elem m0 W)].
  - exists []. rewrite app_nil_r. split; reflexivity.
  - intros i j H. rewrite HE in H. left. unfold ring_pair. cbn [fst snd]. destruct (Nat.ltb_spec i n); [|cbn in H; congruence]. destruct (Nat.eqb_spec j ((i + 1) mod n)); [split; assumption|cbn in H; congruence].
  - intros i j [L E]. cbn [fst snd] in *. rewrite HE, (proj2 (Nat.ltb_lt i n) L), (proj2 (Nat.eqb_eq _ _) E). reflexivity.
  - intros i j h H. rewrite HE in H. destruct (Nat.ltb_spec i n); [|discriminate]. destruct (Nat.eqb_spec j ((i + 1) mod n)) as [->|]; [|discriminate]. cbn [andb] in H.
    rewrite (rmaps_of n ring 0 no_maps i h RN H). reflexivity.
  - intros i j h NR H. rewrite HE in H. destruct (Nat.ltb_spec i n); [|discriminate]. destruct (Nat.eqb_spec j ((i + 1) mod n)) as [->|]; [|discriminate]. exfalso. apply NR. split; [assumption|reflexivity].
Qed.

(** What finding or adding a half-edge does not touch. *)
Record AddFrame (m m' : mesh N) : Prop := {
  af_fresh : m_fresh m <= m_fresh m';
  af_h : forall y, y < m_fresh m -> h_src m' y = h_src m y /\ h_next m' y = h_next m y /\ h_face m' y = h_face m y /\ h_bd m' y = h_bd m y;
  af_f : m_faces m' = m_faces m /\ f_live m' = f_live m /\ f_he m' = f_he m /\ f_idx m' = f_idx m }.
Lemma AddFrame_trans a b c : AddFrame a b -> AddFrame b c -> AddFrame a c.
Proof.
  intros A B. constructor.
  - assert (X := af_fresh _ _ A). assert (Y := af_fresh _ _ B). clear - X Y. lia.
  - intros y L. destruct (af_h _ _ A y L) as (A1 & A2 & A3 & A4). assert (L' : y < m_fresh b) by (assert (X := af_fresh _ _ A); clear - X L; lia).
    destruct (af_h _ _ B y L') as (B1 & B2 & B3 & B4). rewrite B1, B2, B3, B4. auto.
  - destruct (af_f _ _ A) as (A1 & A2 & A3 & A4), (af_f _ _ B) as (B1 & B2 & B3 & B4). rewrite B1, B2, B3, B4. auto.
Qed.

Lemma find_or_add_ok E p m i j : Alloc E p m -> i < n -> ~ In (i, j) E ->
  exists h p' m', find_or_add i j p m = Ok ((h, p'), m') /\ Alloc (E ++ [(i, j)]) p' m' /\ AddFrame m m' /\
    p_he p' i j = Some h /\ (forall a b, (a, b) <> (i, j) -> p_he p' a b = p_he p a b) /\ (forall a b h, p_he p a b = Some h -> p_he p' a b = Some h).
Proof.
  intros A L NE. unfold find_or_add. destruct (p_he p i j) as [h|] eqn:Eh.
  - assert (R : ring_pair n (i, j)) by (destruct (al_dom _ _ _ A i j) as [R | K]; [congruence|exact R|contradiction]).
    exists h, p, m. split; [reflexivity|]. split; [|split; [constructor; [lia|intros; repeat split; reflexivity|repeat split; reflexivity]|auto]].
    destruct A as [? ? ? AE ? (news & N1 & N2) D ? ? ? ?]. constructor; try assumption.
    + intros a b K. apply in_app_iff in K as [K | [K | []]]; [exact (AE a b K)|]. injection K as <- <-. exact L.
    + exists news. split; [exact N1|]. rewrite filter_app. cbn [filter]. assert (Z : nonring n (i, j) = false) by (apply not_true_iff_false; rewrite nonring_iff by exact L; tauto).
      rewrite Z, app_nil_r. exact N2.
    + intros a b H. destruct (D a b H); [auto|right; apply in_app_iff; auto].
  - assert (R : ~ ring_pair n (i, j)).
    { intros R. rewrite (al_ring _ _ _ A i j R) in Eh. apply nth_error_None in Eh. apply ring_lt in R. unfold n in R. lia. }
    destruct (new_he_all m) as (ma & Ema & NH). assert (Erv : forall mm, new_he m = Ok (Some (m_fresh m), mm) -> h_rev mm (m_fresh m) = None).
    { intros mm X. rewrite x_new_he in X. injection X as <-. unfold st_new_he. flds. fu. reflexivity. }
    specialize (Erv ma Ema). rewrite (bind_ok _ _ _ _ _ Ema). clear Ema. set (h := m_fresh m) in *.
    destruct NH as [B1 (B2 & B3 & B4 & B5) (B6 & B7 & B8 & B9 & B10) (B11 & B12 & B13) Bold [Lh Bbd]].
    rewrite (bind_ok _ _ _ _ _ (x_addHalfedge ma h (m_hes m) Lh B2)). set (m1 := set_m_hes _ _).
    assert (KO : forall y, y <> h -> h_next m1 y = h_next m y /\ h_src m1 y = h_src m y /\ h_rev m1 y = h_rev m y /\ h_face m1 y = h_face m y /\ h_live m1 y = h_live m y /\ h_idx m1 y = h_idx m y /\ h_bd m1 y = h_bd m y).
    { intros y Y. unfold m1. flds. rewrite fupd_other by exact Y. exact (Bold y Y). }
    assert (KN : h_live m1 h = true /\ h_idx m1 h = Z.of_nat (length (m_hes m)) /\ h_rev m1 h = None) by (unfold m1; flds; rewrite fupd_same; auto).
    assert (KL : m_hes m1 = m_hes m ++ [h] /\ m_verts m1 = m_verts m /\ m_faces m1 = m_faces m /\ m_indices m1 = m_indices m /\ m_fresh m1 = S h) by (unfold m1; flds; auto).
    assert (KV : v_live m1 = v_live m /\ v_pos m1 = v_pos m /\ v_he m1 = v_he m /\ v_idx m1 = v_idx m /\ v_lock m1 = v_lock m) by (unfold m1; flds; auto).
    assert (KF : f_live m1 = f_live m /\ f_he m1 = f_he m /\ f_idx m1 = f_idx m) by (unfold m1; flds; auto).
    clearbody m1. clear B1 B2 B3 B4 B5 B6 B7 B8 B9 B10 B11 B12 B13 Bold Lh Bbd Erv ma.
    destruct KL as (L1 & L2 & L3 & L4 & L5), KV as (V1 & V2 & V3 & V4 & V5), KF as (F1 & F2 & F3), KN as (N1 & N2 & N3).
    assert (OLD : forall a b x, p_he p a b = Some x -> x < h) by (intros a b x X; exact (proj2 (alloc_live _ _ _ A a b x X))).
    destruct A as [[A1 A2] (A3 & A4 & A5 & A6 & A7) AF AE [AL1 AL2] (news & AN1 & AN2) AD AR AO ANW ARV].
    assert (Hfr : forall y, In y (m_hes m) -> y < h). { intros y Hy. apply In_nth_error in Hy as (k & Hy). apply (AL2 k y Hy). }
    exists h, (p_add i j h p), m1. split; [reflexivity|].
    assert (HEo : forall a b, (a, b) <> (i, j) -> p_he (p_add i j h p) a b = p_he p a b).
    { intros a b D. unfold p_add, em_set. cbn [p_he]. destruct (Nat.eqb_spec a i), (Nat.eqb_spec b j); cbn [andb]; congruence. }
    assert (HEn : p_he (p_add i j h p) i j = Some h) by (unfold p_add, em_set; cbn [p_he]; rewrite !Nat.eqb_refl; reflexivity).
    assert (HEs : forall a b x, p_he p a b = Some x -> p_he (p_add i j h p) a b = Some x) by (intros a b x X; rewrite HEo; [exact X|intros K; injection K as -> ->; congruence]).
    assert (HEi : forall a b x, p_he (p_add i j h p) a b = Some x -> (a = i /\ b = j /\ x = h) \/ ((a, b) <> (i, j) /\ p_he p a b = Some x)).
    { intros a b x X. destruct (Nat.eq_dec a i) as [->|Da]; [destruct (Nat.eq_dec b j) as [->|Db]|].
      - left. rewrite HEn in X. injection X as <-. auto.
      - right. assert (D : (i, b) <> (i, j)) by congruence. rewrite (HEo _ _ D) in X. auto.
      - right. assert (D : (a, b) <> (i, j)) by congruence. rewrite (HEo _ _ D) in X. auto. }
    split; [|split; [|split; [exact HEn|split; [exact HEo|exact HEs]]]].
    + constructor.
      * rewrite L2, L4. auto.
      * rewrite V1, V2, V3, V4, V5. auto.
      * rewrite L5. unfold h. clear - AF. lia.
      * intros a b K. apply in_app_iff in K as [K | [K | []]]; [exact (AE a b K)|]. injection K as <- <-. exact L.
      * split; [rewrite L1; apply nodup_snoc; [exact AL1|intros K; apply Hfr in K; clear - K; lia]|].
        intros k y Hk. rewrite L1 in Hk. rewrite L5. apply nth_error_snoc in Hk as [Hk | [-> ->]].
        -- destruct (AL2 k y Hk) as (X1 & X2 & X3). assert (Y : y <> h) by (unfold h; clear - X3; lia). destruct (KO y Y) as (_ & _ & _ & _ & Y1 & Y2 & _). rewrite Y1, Y2. split; [exact X1|]. split; [exact X2|]. unfold h. clear - X3. lia.
        -- split; [exact N1|]. split; [exact N2|lia].
      * exists (news ++ [h]). split; [rewrite L1, AN1, app_assoc; reflexivity|]. rewrite filter_app, !map_app. cbn [filter]. rewrite (proj2 (nonring_iff i j L) R). cbn [map fst snd]. f_equal; [|f_equal; symmetry; exact HEn].
        rewrite AN2. apply map_ext_in. intros [a b] K. cbn [fst snd]. symmetry. apply HEo. intros X. rewrite X in K. apply filter_In in K. apply NE, K.
      * intros a b H. destruct (p_he (p_add i j h p) a b) as [x|] eqn:X; [|congruence]. destruct (HEi a b x X) as [(-> & -> & _) | [_ Y]]; [right; apply in_app_iff; right; left; reflexivity|].
        destruct (AD a b) as [D | D]; [congruence|auto|right; apply in_app_iff; auto].
      * intros a b Rp. rewrite HEo; [exact (AR a b Rp)|]. intros K. injection K as -> ->. contradiction.
      * intros a b x X. unfold p_add. cbn [p_of]. destruct (HEi a b x X) as [(-> & -> & ->) | [_ Y]]; [apply fupd_same|]. rewrite fupd_other by (apply OLD in Y; clear - Y; lia). exact (AO a b x Y).
      * intros a b x NRp X. destruct (HEi a b x X) as [(-> & -> & ->) | [_ Y]]; [split; [unfold h; exact AF|exact N3]|]. destruct (ANW a b x NRp Y) as [Z1 Z2]. split; [exact Z1|].
        destruct (KO x) as (_ & _ & Z & _); [apply OLD in Y; clear - Y; lia|]. rewrite Z. exact Z2.
      * intros y Ly. destruct (KO y) as (_ & _ & Z & _); [unfold h; clear - Ly AF; lia|]. rewrite Z. exact (ARV y Ly).
    + constructor; [rewrite L5; unfold h; lia| |].
      * intros y Ly. destruct (KO y) as (Z1 & Z2 & _ & Z4 & _ & _ & Z7); [unfold h; clear - Ly; lia|]. auto.
      * rewrite L3, F1, F2, F3. auto.
Qed.

(** ** One triangle *)
Record Put (m m' : mesh N) (h0 h1 h2 : nat) (b0 b1 b2 : ptr) (f : nat) : Prop := {
  pu_lists : m_verts m' = m_verts m /\ m_hes m' = m_hes m /\ m_indices m' = m_indices m /\ m_faces m' = m_faces m ++ [f] /\ m_fresh m' = S f;
  pu_v : v_live m' = v_live m /\ v_pos m' = v_pos m /\ v_he m' = v_he m /\ v_idx m' = v_idx m /\ v_lock m' = v_lock m;
  pu_h : h_live m' = h_live m /\ h_rev m' = h_rev m /\ h_idx m' = h_idx m;
  pu_src : h_src m' h0 = b0 /\ h_src m' h1 = b1 /\ h_src m' h2 = b2;
  pu_next : h_next m' h0 = Some h1 /\ h_next m' h1 = Some h2 /\ h_next m' h2 = Some h0;
  pu_face : h_face m' h0 = Some f /\ h_face m' h1 = Some f /\ h_face m' h2 = Some f;
  pu_bd : h_bd m' h0 = false /\ h_bd m' h1 = false /\ h_bd m' h2 = false;
  pu_old : forall y, y <> h0 -> y <> h1 -> y <> h2 -> h_src m' y = h_src m y /\ h_next m' y = h_next m y /\ h_face m' y = h_face m y /\ h_bd m' y = h_bd m y;
  pu_fnew : f_live m' f = true /\ f_he m' f = Some h0 /\ f_idx m' f = Z.of_nat (length (m_faces m));
  pu_fold : forall g, g <> f -> f_live m' g = f_live m g /\ f_he m' g = f_he m g /\ f_idx m' g = f_idx m g }.

Lemma put_triangle_ok (m : mesh N) h0 h1 h2 b0 b1 b2 : h_live m h0 = true -> h_live m h1 = true -> h_live m h2 = true -> h0 <> h1 -> h0 <> h2 -> h1 <> h2 ->
  exists m', put_triangle b0 b1 b2 h0 h1 h2 m = Ok (m_fresh m, m') /\ Put m m' h0 h1 h2 b0 b1 b2 (m_fresh m).
Proof.
  intros L0 L1 L2 D01 D02 D12. unfold put_triangle.
  repeat (lazymatch goal with |- exists m', bind (w_src _ _) _ _ = _ /\ _ => idtac | |- exists m', bind (w_next _ _) _ _ = _ /\ _ => idtac | |- exists m', bind (w_bd _ _) _ _ = _ /\ _ => idtac end;
    match goal with |- exists m', bind ?w ?k ?mm = _ /\ _ => let H := fresh in
      eassert (H : bind w k mm = _) by (mstep; reflexivity); rewrite H; clear H end).
  match goal with |- exists m', bind _ _ ?mm = _ /\ _ => set (m1 := mm) end.
  assert (KS : h_src m1 h0 = b0 /\ h_src m1 h1 = b1 /\ h_src m1 h2 = b2) by (unfold m1; flds; fu; auto).
  assert (KX : h_next m1 h0 = Some h1 /\ h_next m1 h1 = Some h2 /\ h_next m1 h2 = Some h0) by (unfold m1; flds; fu; auto).
  assert (KB : h_bd m1 h0 = false /\ h_bd m1 h1 = false /\ h_bd m1 h2 = false) by (unfold m1; flds; fu; auto).
  assert (KO : forall y, y <> h0 -> y <> h1 -> y <> h2 -> h_src m1 y = h_src m y /\ h_next m1 y = h_next m y /\ h_face m1 y = h_face m y /\ h_bd m1 y = h_bd m y) by (intros y Y0 Y1 Y2; unfold m1; flds; fu; auto).
  assert (KH : h_live m1 = h_live m /\ h_rev m1 = h_rev m /\ h_idx m1 = h_idx m) by (unfold m1; flds; auto).
  assert (KL : m_verts m1 = m_verts m /\ m_hes m1 = m_hes m /\ m_indices m1 = m_indices m /\ m_faces m1 = m_faces m /\ m_fresh m1 = m_fresh m) by (unfold m1; flds; auto).
  assert (KV : v_live m1 = v_live m /\ v_pos m1 = v_pos m /\ v_he m1 = v_he m /\ v_idx m1 = v_idx m /\ v_lock m1 = v_lock m) by (unfold m1; flds; auto).
  assert (KF : f_live m1 = f_live m /\ f_he m1 = f_he m /\ f_idx m1 = f_idx m) by (unfold m1; flds; auto).
  clearbody m1. destruct KL as (KL1 & KL2 & KL3 & KL4 & KL5), KH as (KH1 & KH2 & KH3).
  destruct (new_face_all m1) as (ma & Ema & NF). rewrite (bind_ok _ _ _ _ _ Ema). clear Ema. rewrite KL5 in *. set (f := m_fresh m) in *.
  destruct NF as [B1 (B2 & B3 & B4 & B5) (B6 & B7 & B8 & B9 & B10) (B11 & B12 & B13 & B14 & B15 & B16 & B17) Bold Bf].
  rewrite (bind_ok _ _ _ _ _ (x_addFace ma f (m_faces m) Bf (eq_trans B4 KL4))).
  assert (M0 : h_live ma h0 = true) by (rewrite B11, KH1; exact L0). assert (M1 : h_live ma h1 = true) by (rewrite B11, KH1; exact L1). assert (M2 : h_live ma h2 = true) by (rewrite B11, KH1; exact L2).
  set (m2 := set_m_faces _ _).
  rewrite (bind_ok _ _ _ _ _ (ww_face m2 h0 (Some f) ltac:(unfold m2; flds; exact M0))). set (m3 := set_h_face h0 (Some f) m2).
  rewrite (bind_ok _ _ _ _ _ (ww_face m3 h1 (Some f) ltac:(unfold m3, m2; flds; exact M1))). set (m4 := set_h_face h1 (Some f) m3).
  rewrite (bind_ok _ _ _ _ _ (ww_face m4 h2 (Some f) ltac:(unfold m4, m3, m2; flds; exact M2))). set (m5 := set_h_face h2 (Some f) m4).
  rewrite (bind_ok _ _ _ _ _ (ww_fhe m5 f (Some h0) ltac:(unfold m5, m4, m3, m2; flds; exact Bf))). unfold m5, m4, m3, m2.
  eexists. split; [reflexivity|].
  destruct KV as (KV1 & KV2 & KV3 & KV4 & KV5), KF as (KF1 & KF2 & KF3).
  constructor; flds; fu.
  - rewrite B3, B2, B5, B1. auto.
  - rewrite B6, B7, B8, B9, B10. auto.
  - rewrite B11, B14, B16. auto.
  - rewrite B12. exact KS.
  - rewrite B13. exact KX.
  - auto.
  - rewrite B17. exact KB.
  - intros y Y0 Y1 Y2. rewrite B12, B13, B17. fu. rewrite B15. apply KO; assumption.
  - auto.
  - intros g G. fu. destruct (Bold g G) as (X1 & X2 & X3). rewrite X1, X2, X3, KF1, KF2, KF3. auto.
Qed.

(** ** All triangles *)
Record TriAt (p : maps) (m : mesh N) (t : tri_t) (f : nat) : Prop := {
  ta_sides : let '(i, a, k) := t in exists h0 h1 h2,
    p_he p i a = Some h0 /\ p_he p a k = Some h1 /\ p_he p k i = Some h2 /\
    h_src m h0 = nth_error bs i /\ h_src m h1 = nth_error bs a /\ h_src m h2 = nth_error bs k /\
    h_next m h0 = Some h1 /\ h_next m h1 = Some h2 /\ h_next m h2 = Some h0 /\
    h_face m h0 = Some f /\ h_face m h1 = Some f /\ h_face m h2 = Some f /\
    h_bd m h0 = false /\ h_bd m h1 = false /\ h_bd m h2 = false /\ f_he m f = Some h0;
  ta_f : m_fresh m0 <= f < m_fresh m }.
Record Tris (ts : list tri_t) (fs : list nat) (p : maps) (m : mesh N) : Prop := {
  tt_alloc : Alloc (flat_map sides ts) p m;
  tt_tris : Forall2 (TriAt p m) ts fs;
  tt_faces : m_faces m = m_faces m0 ++ fs;
  tt_fl : FList m;
  tt_same : forall y, y < m_fresh m0 -> (forall e, In e (flat_map sides ts) -> he p e <> Some y) -> h_next m y = h_next m0 y /\ h_face m y = h_face m0 y /\ h_bd m y = h_bd m0 y;
  tt_src : forall y, y < m_fresh m0 -> h_src m y = h_src m0 y;
  tt_fold : forall f, f < m_fresh m0 -> f_he m f = f_he m0 f }.

Lemma tris_start : Tris [] [] (ring_maps n 0 (map Some ring) no_maps) m0.
Proof.
  constructor; try (intros; repeat split; reflexivity).
  - exact alloc_start.
  - constructor.
  - rewrite app_nil_r. reflexivity.
  - split; [exact (wf_f_nodup m0 W)|exact (wf_f_elem m0 W)].
Qed.

Lemma triat_keep p p' (m m' : mesh N) t f : TriAt p m t f -> m_fresh m <= m_fresh m' -> (forall a b h, p_he p a b = Some h -> p_he p' a b = Some h) ->
  (forall e h, In e (sides t) -> he p e = Some h -> h_src m' h = h_src m h /\ h_next m' h = h_next m h /\ h_face m' h = h_face m h /\ h_bd m' h = h_bd m h) ->
  f_he m' f = f_he m f -> TriAt p' m' t f.
Proof.
  intros [S F] FR EX K FH. destruct t as [[i a] k]. constructor; [|clear - F FR; lia].
  destruct S as (h0 & h1 & h2 & P0 & P1 & P2 & S0 & S1 & S2 & N0 & N1 & N2 & F0 & F1 & F2 & B0 & B1 & B2 & FF). exists h0, h1, h2.
  destruct (K (i, a) h0) as (A1 & A2 & A3 & A4); [left; reflexivity|exact P0|]. destruct (K (a, k) h1) as (C1 & C2 & C3 & C4); [right; left; reflexivity|exact P1|]. destruct (K (k, i) h2) as (D1 & D2 & D3 & D4); [right; right; left; reflexivity|exact P2|].
  rewrite A1, A2, A3, A4, C1, C2, C3, C4, D1, D2, D3, D4, FH. repeat (split; [first [apply EX; assumption | assumption]|]). assumption.
Qed.

Lemma at_ok i (m : mesh N) : i < n -> at_ (map Some bs) i m = Ok (nth_error bs i, m).
Proof. intros L. unfold at_. rewrite nth_error_map. destruct (at_bs i L) as (b & E & _). rewrite E. reflexivity. Qed.
Lemma forall2_snoc {X Y} (R : X -> Y -> Prop) l l' x y : Forall2 R l l' -> R x y -> Forall2 R (l ++ [x]) (l' ++ [y]).
Proof. intros H R0. apply Forall2_app; [exact H|constructor; [exact R0|constructor]]. Qed.
Lemma forall2_impl_in {X Y} (R S : X -> Y -> Prop) l l' : (forall x y, In x l -> R x y -> S x y) -> Forall2 R l l' -> Forall2 S l l'.
Proof. intros H F. induction F; constructor; [apply H; [left; reflexivity|assumption]|apply IHF; intros; apply H; [right; assumption|assumption]]. Qed.
Lemma nodup_app_l {X} (l l' : list X) : NoDup (l ++ l') -> NoDup l.
Proof. induction l' as [|x l' IH]; [rewrite app_nil_r; auto|]. intros H. apply IH. exact (NoDup_remove_1 _ _ _ H). Qed.
Lemma nodup_app_disj {X} (l l' : list X) x : NoDup (l ++ l') -> In x l -> ~ In x l'.
Proof. intros H I J. apply in_split in J as (a & b & ->). rewrite app_assoc in H. apply (NoDup_remove_2 (l ++ a) b x H). rewrite <- app_assoc. apply in_app_iff. auto. Qed.

Lemma add_one ts fs p m i a k : Tris ts fs p m -> i < n -> a < n -> k < n -> i <> a -> a <> k -> i <> k -> NoDup (flat_map sides ts ++ sides (i, a, k)) ->
  exists f p' m', addNewTriangle (map Some bs) (i, a, k) p m = Ok ((f, p'), m') /\ Tris (ts ++ [(i, a, k)]) (fs ++ [f]) p' m'.
Proof.
  intros T Li La Lk D1 D2 D3 ND. unfold addNewTriangle. destruct T as [A TT TF TL TS TSR TFO]. set (E := flat_map sides ts) in *.
  assert (NI : forall e, In e (sides (i, a, k)) -> ~ In e E) by (intros e He K; exact (nodup_app_disj _ _ e ND K He)).
  cbn [sides] in NI, ND.
  destruct (find_or_add_ok E p m i a A Li) as (h0 & p1 & m1 & X1 & A1 & F1 & P1 & O1 & EX1); [apply NI; left; reflexivity|]. rewrite (bind_ok _ _ _ _ _ X1). clear X1. cbn [fst snd].
  destruct (find_or_add_ok _ p1 m1 a k A1 La) as (h1 & p2 & m2 & X2 & A2 & F2 & P2 & O2 & EX2).
  { intros K. apply in_app_iff in K as [K | [K | []]]; [revert K; apply NI; right; left; reflexivity|congruence]. }
  rewrite (bind_ok _ _ _ _ _ X2). clear X2. cbn [fst snd].
  destruct (find_or_add_ok _ p2 m2 k i A2 Lk) as (h2 & p3 & m3 & X3 & A3 & F3 & P3 & O3 & EX3).
  { intros K. rewrite !in_app_iff in K. destruct K as [[K | [K | []]] | [K | []]]; [revert K; apply NI; right; right; left; reflexivity|congruence|congruence]. }
  rewrite (bind_ok _ _ _ _ _ X3). clear X3. cbn [fst snd].
  rewrite (bind_ok _ _ _ _ _ (at_ok i m3 Li)), (bind_ok _ _ _ _ _ (at_ok a m3 La)), (bind_ok _ _ _ _ _ (at_ok k m3 Lk)).
  assert (Q0 : p_he p3 i a = Some h0) by (apply EX3, EX2, P1). assert (Q1 : p_he p3 a k = Some h1) by (apply EX3, P2).
  assert (A' : Alloc (E ++ [(i, a); (a, k); (k, i)]) p3 m3) by (rewrite <- !app_assoc in A3; exact A3). clear A3 A1 A2.
  assert (EX : forall x y h, p_he p x y = Some h -> p_he p3 x y = Some h) by (intros x y h X; apply EX3, EX2, EX1, X).
  assert (FR : AddFrame m m3) by (exact (AddFrame_trans _ _ _ (AddFrame_trans _ _ _ F1 F2) F3)). clear F1 F2 F3 EX1 EX2 EX3 O1 O2 O3 P1 P2.
  assert (NE : forall x y x' y' h h', p_he p3 x y = Some h -> p_he p3 x' y' = Some h' -> (x, y) <> (x', y') -> h <> h').
  { intros x y x' y' h h' X Y Z ->. apply Z. exact (alloc_inj _ _ _ A' _ _ _ _ _ X Y). }
  destruct (alloc_live _ _ _ A' _ _ _ Q0) as [L0 G0], (alloc_live _ _ _ A' _ _ _ Q1) as [L1 G1], (alloc_live _ _ _ A' _ _ _ P3) as [L2 G2].
  destruct (put_triangle_ok m3 h0 h1 h2 (nth_error bs i) (nth_error bs a) (nth_error bs k) L0 L1 L2) as (m4 & X4 & PT); [apply (NE i a a k); [assumption..|congruence]|apply (NE i a k i); [assumption..|congruence]|apply (NE a k k i); [assumption..|congruence]|].
  rewrite (bind_ok _ _ _ _ _ X4). clear X4. set (f := m_fresh m3) in *. exists f, p3, m4. split; [reflexivity|].
  destruct PT as [(U1 & U2 & U3 & U4 & U5) (U6 & U7 & U8 & U9 & U10) (U11 & U12 & U13) (US0 & US1 & US2) (UN0 & UN1 & UN2) (UF0 & UF1 & UF2) (UB0 & UB1 & UB2) UO (UG1 & UG2 & UG3) UGO].
  assert (FLT := af_fresh _ _ FR). destruct (af_f _ _ FR) as (FF1 & FF2 & FF3 & FF4). assert (AFR := al_fresh _ _ _ A').
  destruct TL as [TL1 TL2].
  constructor.
  - rewrite flat_map_app. cbn [flat_map sides app]. change (flat_map sides ts) with E. destruct A' as [[B1 B2] (B3 & B4 & B5 & B6 & B7) AF AE [AL1 AL2] (news & AN1 & AN2) AD AR AO ANW ARV]. constructor.
    + rewrite U1, U3. auto.
    + rewrite U6, U7, U8, U9, U10. auto.
    + rewrite U5. unfold f. clear - AF. lia.
    + exact AE.
    + split; [rewrite U2; exact AL1|]. intros x y X. rewrite U2 in X. rewrite U11, U13, U5. destruct (AL2 x y X) as (Y1 & Y2 & Y3). split; [exact Y1|]. split; [exact Y2|]. unfold f. clear - Y3. lia.
    + exists news. rewrite U2. auto.
    + exact AD.
    + exact AR.
    + exact AO.
    + intros x y h Z X. rewrite U12. exact (ANW x y h Z X).
    + intros y Y. rewrite U12. exact (ARV y Y).
  - apply forall2_snoc.
    + eapply forall2_impl_in; [|exact TT]. intros t g It Tg. eapply triat_keep; [exact Tg|rewrite U5; unfold f; clear - FLT; lia|exact EX| |].
      * intros [x y] h Ie X. cbn [fst snd] in X. assert (IE : In (x, y) E) by (apply in_flat_map; exists t; auto).
        assert (DD : (x, y) <> (i, a) /\ (x, y) <> (a, k) /\ (x, y) <> (k, i)).
        { split; [|split]; intros Z; rewrite Z in IE; (eapply NI; [|exact IE]); cbn; auto. }
        destruct DD as (DD0 & DD1 & DD2). destruct (UO h) as (Y1 & Y2 & Y3 & Y4); [exact (NE _ _ _ _ _ _ (EX _ _ _ X) Q0 DD0)|exact (NE _ _ _ _ _ _ (EX _ _ _ X) Q1 DD1)|exact (NE _ _ _ _ _ _ (EX _ _ _ X) P3 DD2)|].
        destruct (af_h _ _ FR h) as (Z1 & Z2 & Z3 & Z4); [exact (proj2 (alloc_live _ _ _ A _ _ _ X))|]. rewrite Y1, Y2, Y3, Y4, Z1, Z2, Z3, Z4. auto.
      * assert (Lg := ta_f _ _ _ _ Tg). destruct (UGO g) as (_ & Y & _); [unfold f; clear - Lg FLT; lia|]. rewrite Y, FF3. reflexivity.
    + constructor; [|rewrite U5; unfold f; clear - AFR; lia]. exists h0, h1, h2. repeat (split; [assumption|]). assumption.
  - rewrite U4, FF1, TF, app_assoc. reflexivity.
  - rewrite FF1 in U4. split.
    + rewrite U4. apply nodup_snoc; [exact TL1|]. intros K. apply In_nth_error in K as (x & K). destruct (TL2 x f K) as (_ & _ & Y). unfold f in Y. clear - Y FLT. lia.
    + intros x g X. rewrite U4 in X. rewrite U5. apply nth_error_snoc in X as [X | [-> ->]].
      * destruct (TL2 x g X) as (Y1 & Y2 & Y3). destruct (UGO g) as (Z1 & _ & Z3); [unfold f; clear - Y3 FLT; lia|]. rewrite Z1, Z3, FF2, FF4. split; [exact Y1|]. split; [exact Y2|]. unfold f. clear - Y3 FLT. lia.
      * rewrite UG3, FF1. split; [exact UG1|]. split; [reflexivity|lia].
  - intros y Y NS. rewrite flat_map_app in NS. assert (NSn : forall e, In e (sides (i, a, k)) -> he p3 e <> Some y) by (intros e Ie; apply NS, in_app_iff; right; cbn [flat_map]; rewrite app_nil_r; exact Ie).
    destruct (UO y) as (_ & Y2 & Y3 & Y4).
    + intros Z. apply (NSn (i, a)); [left; reflexivity|]. rewrite Z. exact Q0.
    + intros Z. apply (NSn (a, k)); [right; left; reflexivity|]. rewrite Z. exact Q1.
    + intros Z. apply (NSn (k, i)); [right; right; left; reflexivity|]. rewrite Z. exact P3.
    + destruct (af_h _ _ FR y) as (_ & Z2 & Z3 & Z4); [assert (Q := al_fresh _ _ _ A); clear - Y Q; lia|]. rewrite Y2, Y3, Y4, Z2, Z3, Z4. apply TS; [exact Y|].
      intros [x z] Ie X. cbn [fst snd] in X. apply (NS (x, z)); [apply in_app_iff; left; exact Ie|]. cbn [fst snd]. apply EX, X.
  - assert (SR : forall x y h, p_he p3 x y = Some h -> h < m_fresh m0 -> h_src m0 h = nth_error bs x).
    { intros x y h X Lh. destruct (al_dom _ _ _ A' x y) as [R | R]; [congruence| |].
      - rewrite (al_ring _ _ _ A' x y R) in X. apply ring_lt in R. destruct (at_bs x R) as (b & Eb & Hb & _). rewrite Eb. apply Hb, X.
      - destruct (nonring n (x, y)) eqn:NR.
        + exfalso. apply nonring_iff in NR; [|exact (al_lt _ _ _ A' x y R)]. destruct (al_new _ _ _ A' x y h NR X) as [Z _]. clear - Z Lh. lia.
        + assert (R' : ring_pair n (x, y)) by (split; [exact (al_lt _ _ _ A' x y R)|]; unfold nonring in NR; apply negb_false_iff, Nat.eqb_eq in NR; exact NR).
          rewrite (al_ring _ _ _ A' x y R') in X. apply ring_lt in R'. destruct (at_bs x R') as (b & Eb & Hb & _). rewrite Eb. apply Hb, X. }
    intros y Y. destruct (Nat.eq_dec y h0) as [->|Y0]; [rewrite US0; symmetry; exact (SR _ _ _ Q0 Y)|]. destruct (Nat.eq_dec y h1) as [->|Y1]; [rewrite US1; symmetry; exact (SR _ _ _ Q1 Y)|].
    destruct (Nat.eq_dec y h2) as [->|Y2]; [rewrite US2; symmetry; exact (SR _ _ _ P3 Y)|]. destruct (UO y Y0 Y1 Y2) as (Z & _). rewrite Z.
    destruct (af_h _ _ FR y) as (Z1 & _); [assert (Q := al_fresh _ _ _ A); clear - Y Q; lia|]. rewrite Z1. exact (TSR y Y).
  - intros g G. destruct (UGO g) as (_ & Y & _); [unfold f; clear - G AFR; lia|]. rewrite Y, FF3. exact (TFO g G).
Qed.

Lemma add_all : forall ts' ts fs p m, Tris ts fs p m -> (forall i a k, In (i, a, k) ts' -> i < a < k /\ k < n) -> NoDup (flat_map sides (ts ++ ts')) ->
  exists fs' p' m', add_triangles (map Some bs) ts' p m = Ok ((fs', p'), m') /\ Tris (ts ++ ts') (fs ++ fs') p' m'.
Proof.
  induction ts' as [|[[i a] k] ts' IH]; intros ts fs p m T R ND; cbn [add_triangles].
  - exists [], p, m. rewrite !app_nil_r. split; [reflexivity|exact T].
  - destruct (R i a k ltac:(left; reflexivity)) as [R1 R2].
    assert (E : ts ++ (i, a, k) :: ts' = (ts ++ [(i, a, k)]) ++ ts') by (rewrite <- app_assoc; reflexivity). rewrite E in *.
    destruct (add_one ts fs p m i a k T) as (f & p1 & m1 & X & T1); [lia..| |].
    { rewrite flat_map_app in ND. apply nodup_app_l in ND. rewrite flat_map_app in ND. cbn [flat_map] in ND. rewrite app_nil_r in ND. exact ND. }
    rewrite (bind_ok _ _ _ _ _ X). cbn [fst snd]. destruct (IH _ _ _ _ T1) as (fs' & p' & m' & X' & T'); [intros; apply R; right; assumption|exact ND|].
    rewrite (bind_ok _ _ _ _ _ X'). cbn [fst snd]. exists (f :: fs'), p', m'. split; [reflexivity|].
    replace (fs ++ f :: fs') with ((fs ++ [f]) ++ fs') by (rewrite <- app_assoc; reflexivity). exact T'.
Qed.
End O.
