(** Mesh::construct, first half: the triangle loop (mesh.cpp 210-285). *)
From Coq Require Import List ZArith Arith Lia Bool.
From Verif Require Import Num Vec Heap Mesh Construct Spec BuildSpec Orbit Rings Exec Split.
Import ListNotations.
Local Open Scope mesh_scope.

Section BuildTri.
Context {N : Num}.
Implicit Types m : mesh N.

(** Bookkeeping of the element lists. *)
Definition HList m : Prop := NoDup (m_hes m) /\
  forall i h, nth_error (m_hes m) i = Some h -> h_live m h = true /\ h_idx m h = Z.of_nat i /\ h < m_fresh m.
Definition FList m : Prop := NoDup (m_faces m) /\
  forall i f, nth_error (m_faces m) i = Some f -> f_live m f = true /\ f_idx m f = Z.of_nat i /\ f < m_fresh m.
Definition VList m : Prop := NoDup (m_verts m) /\
  forall i v, nth_error (m_verts m) i = Some v -> v_live m v = true /\ v_idx m v = Z.of_nat i /\ v < m_fresh m.

(** Everything about vertices except v_he is as in [m0]. *)
Record VSame m0 m : Prop := {
  vs_verts : m_verts m = m_verts m0;
  vs_live : v_live m = v_live m0;
  vs_pos : v_pos m = v_pos m0;
  vs_idx : v_idx m = v_idx m0;
  vs_lock : v_lock m = v_lock m0;
  vs_fresh : m_fresh m0 <= m_fresh m
}.
Lemma VSame_refl m : VSame m m. Proof. split; auto. Qed.
Lemma VSame_trans m0 m1 m2 : VSame m0 m1 -> VSame m1 m2 -> VSame m0 m2.
Proof. intros [] []; split; try congruence. lia. Qed.
Lemma VSame_VList m0 m : VSame m0 m -> VList m0 -> VList m.
Proof.
  intros S [H1 H2]. split; [rewrite (vs_verts _ _ S); exact H1|]. intros i v Hi. rewrite (vs_verts _ _ S) in Hi.
  rewrite (vs_live _ _ S), (vs_idx _ _ S). destruct (H2 i v Hi) as (? & ? & ?). pose proof (vs_fresh _ _ S). repeat split; try assumption. lia.
Qed.

Notation em := (fun cs e => c_em cs (fst e) (snd e)).

(** State after the directed edges [E] have got their half-edges. *)
Record CInv m0 (E : list (nat * nat)) m (cs : cstate) : Prop := {
  ci_v : VSame m0 m;
  ci_ix : m_indices m = m_indices m0;
  ci_nodup : NoDup E;
  ci_h : HList m;
  ci_hes : map Some (m_hes m) = map (fun e => c_em cs (fst e) (snd e)) E;
  ci_dom : forall a b, c_em cs a b <> None -> In (a, b) E;
  ci_src : forall a b h, c_em cs a b = Some h -> h_src m h = nth_error (m_verts m) a /\ a < length (m_verts m);
  ci_rev : forall a b h, c_em cs a b = Some h -> h_rev m h = c_em cs b a;
  ci_bd : forall h, In h (m_hes m) -> h_bd m h = false;
  ci_vhe : forall a v, nth_error (m_verts m) a = Some v ->
     match v_he m v with Some h => exists b, c_em cs a b = Some h | None => forall b, c_em cs a b = None end;
  ci_deg : forall a, c_deg cs a = length (filter (fun e => Nat.eqb (fst e) a) E)
}.

Lemma em_in m0 E m cs : CInv m0 E m cs -> forall a b, In (a, b) E -> exists h, c_em cs a b = Some h /\ In h (m_hes m).
Proof.
  intros C a b H. assert (H' : In (c_em cs a b) (map Some (m_hes m))).
  { rewrite (ci_hes _ _ _ _ C). apply in_map_iff. exists (a, b). auto. }
  apply in_map_iff in H' as (h & E' & Hh). exists h. auto.
Qed.
Lemma em_hes m0 E m cs : CInv m0 E m cs -> forall a b h, c_em cs a b = Some h -> In h (m_hes m) /\ In (a, b) E.
Proof.
  intros C a b h H. assert (I : In (a, b) E) by (apply (ci_dom _ _ _ _ C); congruence).
  split; [|exact I]. destruct (em_in _ _ _ _ C a b I) as (h' & E' & I'). congruence.
Qed.
Lemma hes_em m0 E m cs : CInv m0 E m cs -> forall h, In h (m_hes m) -> exists a b, In (a, b) E /\ c_em cs a b = Some h.
Proof.
  intros C h H. apply (in_map Some) in H. rewrite (ci_hes _ _ _ _ C) in H. apply in_map_iff in H as ([a b] & E' & I). exists a, b. auto.
Qed.
Lemma em_inj m0 E m cs : CInv m0 E m cs -> forall a b a' b' h, c_em cs a b = Some h -> c_em cs a' b' = Some h -> (a, b) = (a', b').
Proof.
  intros C a b a' b' h H1 H2. destruct (em_hes _ _ _ _ C _ _ _ H1) as [_ I1]. destruct (em_hes _ _ _ _ C _ _ _ H2) as [_ I2].
  apply In_nth_error in I1 as (i & Hi), I2 as (j & Hj).
  assert (Ei : nth_error (map Some (m_hes m)) i = Some (Some h)) by (rewrite (ci_hes _ _ _ _ C), (map_nth_error _ _ _ Hi); cbn [fst snd]; congruence).
  assert (Ej : nth_error (map Some (m_hes m)) j = Some (Some h)) by (rewrite (ci_hes _ _ _ _ C), (map_nth_error _ _ _ Hj); cbn [fst snd]; congruence).
  assert (i = j).
  { destruct (ci_h _ _ _ _ C) as [Hnd _]. assert (Hnd' : NoDup (map Some (m_hes m))) by (apply FinFun.Injective_map_NoDup; [intros x y [=]; assumption|exact Hnd]).
    eapply NoDup_nth_error; [exact Hnd'|apply nth_error_Some; congruence|congruence]. }
  congruence.
Qed.

(** Frame of one corner: what it does not touch. *)
Record CFrame m m' (h face : nat) : Prop := {
  cf_next : forall y, y <> h -> h_next m' y = h_next m y;
  cf_face : forall y, y <> h -> h_face m' y = h_face m y;
  cf_face_h : h_face m' h = Some face;
  cf_faces : m_faces m' = m_faces m;
  cf_flive : f_live m' = f_live m;
  cf_fidx : f_idx m' = f_idx m;
  cf_fhe : forall f, f_he m' f = if Nat.eqb f face then Some h else f_he m f;
  cf_fresh : m_fresh m' = S (m_fresh m);
  cf_h : h = m_fresh m
}.

Lemma nodup_snoc {X} (l : list X) x : NoDup l -> ~ In x l -> NoDup (l ++ [x]).
Proof.
  intros Hl Hx. induction Hl as [|y l Hy Hl IH]; cbn [app]; [constructor; [intros []|constructor]|].
  constructor; [|apply IH; intros H; apply Hx; right; exact H].
  rewrite in_app_iff. intros [H|[->|[]]]; [contradiction|]. apply Hx. left; reflexivity.
Qed.

Lemma nth_error_snoc {X} (l : list X) x i y : nth_error (l ++ [x]) i = Some y -> nth_error l i = Some y \/ (i = length l /\ y = x).
Proof.
  intros H. destruct (lt_dec i (length l)) as [L|L]; [left; rewrite nth_error_app1 in H by exact L; exact H|].
  rewrite nth_error_app2 in H by lia. right. destruct (i - length l) as [|k] eqn:K; [|destruct k; discriminate].
  injection H as <-. split; [lia|reflexivity].
Qed.

(** All about new Halfedge(), to be used with the state kept abstract. *)
Record NewHe m ma (h : nat) : Prop := {
  nh_fresh : m_fresh ma = S h;
  nh_lists : m_hes ma = m_hes m /\ m_verts ma = m_verts m /\ m_faces ma = m_faces m /\ m_indices ma = m_indices m;
  nh_v : v_live ma = v_live m /\ v_pos ma = v_pos m /\ v_he ma = v_he m /\ v_idx ma = v_idx m /\ v_lock ma = v_lock m;
  nh_f : f_live ma = f_live m /\ f_he ma = f_he m /\ f_idx ma = f_idx m;
  nh_old : forall y, y <> h ->
    h_next ma y = h_next m y /\ h_src ma y = h_src m y /\ h_rev ma y = h_rev m y /\
    h_face ma y = h_face m y /\ h_live ma y = h_live m y /\ h_idx ma y = h_idx m y /\ h_bd ma y = h_bd m y;
  nh_new : h_live ma h = true /\ h_bd ma h = false
}.
Lemma new_he_all m : exists ma, new_he m = Ok (Some (m_fresh m), ma) /\ NewHe m ma (m_fresh m).
Proof.
  exists (st_new_he m). split; [reflexivity|]. split; try (repeat split; reflexivity).
  - intros y Y. exact (new_he_old m y Y).
  - exact (new_he_new m).
Qed.
Record NewFace m ma (f : nat) : Prop := {
  nf_fresh : m_fresh ma = S f;
  nf_lists : m_hes ma = m_hes m /\ m_verts ma = m_verts m /\ m_faces ma = m_faces m /\ m_indices ma = m_indices m;
  nf_v : v_live ma = v_live m /\ v_pos ma = v_pos m /\ v_he ma = v_he m /\ v_idx ma = v_idx m /\ v_lock ma = v_lock m;
  nf_h : h_live ma = h_live m /\ h_src ma = h_src m /\ h_next ma = h_next m /\ h_rev ma = h_rev m /\ h_face ma = h_face m /\ h_idx ma = h_idx m /\ h_bd ma = h_bd m;
  nf_old : forall y, y <> f -> f_live ma y = f_live m y /\ f_he ma y = f_he m y /\ f_idx ma y = f_idx m y;
  nf_new : f_live ma f = true
}.
Lemma new_face_all m : exists ma, new_face m = Ok (Some (m_fresh m), ma) /\ NewFace m ma (m_fresh m).
Proof.
  exists (st_new_face m). split; [reflexivity|]. split; try (repeat split; reflexivity).
  - intros y Y. exact (new_face_old m y Y).
  - exact (new_face_new m).
Qed.

Lemma add_corner_ok m0 E m cs a b face v :
  CInv m0 E m cs -> VList m -> ~ In (a, b) E -> a <> b ->
  nth_error (m_verts m) a = Some v -> f_live m face = true -> 
  exists m' cs', add_corner (Some face) a b cs m = Ok ((Some (m_fresh m), cs'), m') /\
    CInv m0 (E ++ [(a, b)]) m' cs' /\ CFrame m m' (m_fresh m) face /\
    c_em cs' a b = Some (m_fresh m) /\ (forall x y, (x, y) <> (a, b) -> c_em cs' x y = c_em cs x y).
Proof.
  intros C VL HE Hab Hv Hface. unfold add_corner.
  assert (Eab : c_em cs a b = None). { destruct (c_em cs a b) eqn:X; [|reflexivity]. exfalso. apply HE, (ci_dom _ _ _ _ C). congruence. }
  rewrite Eab. destruct (new_he_all m) as (ma & Ema & NH). rewrite (bind_ok _ _ _ _ _ Ema). clear Ema. set (h := m_fresh m) in *.
  destruct NH as [B1 (B2 & B3 & B4 & B5) (B6 & B7 & B8 & B9 & B10) (B11 & B12 & B13) Bold [Lh Bbd]].
  assert (HL := ci_h _ _ _ _ C). destruct HL as [Hnd Hel].
  assert (Hfr : forall y, In y (m_hes m) -> y <> h).
  { intros y Hy. apply In_nth_error in Hy as (i & Hi). destruct (Hel i y Hi) as (_ & _ & L). clear - L. unfold h. lia. }
  destruct VL as [Vnd Vel]. destruct (Vel a v Hv) as (Lv & _ & Lvf).
  assert (Hlen : a < length (m_verts m)) by (apply nth_error_Some; congruence).
  rewrite (bind_ok _ _ _ _ _ (x_addHalfedge ma h (m_hes m) Lh B2)).
  rewrite bind_get. set (m1 := set_m_hes _ _).
  assert (L1 : h_live m1 h = true) by (unfold m1; flds; exact Lh).
  assert (V1 : v_live m1 v = true) by (unfold m1; flds; rewrite B6; exact Lv).
  assert (N1 : nth_error (m_verts m1) a = Some v) by (unfold m1; flds; rewrite B3; exact Hv).
  assert (F1 : f_live m1 face = true) by (unfold m1; flds; rewrite B11; exact Hface).
  rewrite (bind_ok _ _ _ _ _ (vec_at_ok (m_verts m1) a v m1 N1)).
  rewrite (bind_ok _ _ _ _ _ (ww_vhe m1 v (Some h) V1)).
  set (m2 := set_v_he v (Some h) m1).
  assert (L2 : h_live m2 h = true) by (unfold m2; flds; exact L1).
  rewrite (bind_ok _ _ _ _ _ (ww_src m2 h (Some v) L2)). set (m3 := set_h_src h (Some v) m2).
  rewrite (bind_ok _ _ _ _ _ (ww_face m3 h (Some face) ltac:(unfold m3; flds; exact L2))). set (m4 := set_h_face h (Some face) m3).
  rewrite (bind_ok _ _ _ _ _ (ww_fhe m4 face (Some h) ltac:(unfold m4, m3, m2; flds; exact F1))). set (m5 := set_f_he face (Some h) m4).
  assert (L5 : h_live m5 h = true) by (unfold m5, m4, m3; flds; exact L2).
  assert (K : (forall y, y <> h -> h_rev m5 y = h_rev m y) /\
     m_hes m5 = m_hes m ++ [h] /\ m_verts m5 = m_verts m /\ m_faces m5 = m_faces m /\ m_indices m5 = m_indices m /\ m_fresh m5 = S h /\
     v_live m5 = v_live m /\ v_pos m5 = v_pos m /\ v_he m5 = fupd (v_he m) v (Some h) /\ v_idx m5 = v_idx m /\ v_lock m5 = v_lock m /\
     (forall y, y <> h -> h_src m5 y = h_src m y /\ h_next m5 y = h_next m y /\ h_face m5 y = h_face m y /\ h_live m5 y = h_live m y /\ h_idx m5 y = h_idx m y /\ h_bd m5 y = h_bd m y) /\
     (h_src m5 h = Some v /\ h_face m5 h = Some face /\ h_live m5 h = true /\ h_idx m5 h = Z.of_nat (length (m_hes m)) /\ h_bd m5 h = false) /\
     f_live m5 = f_live m /\ f_he m5 = fupd (f_he m) face (Some h) /\ f_idx m5 = f_idx m).
  { split; [intros y Y; unfold m5, m4, m3, m2, m1; flds; apply (Bold y Y)|].
    do 10 (split; [unfold m5, m4, m3, m2, m1; flds; congruence|]).
    split.
    { intros y Y. destruct (Bold y Y) as (A1 & A2 & A3 & A4 & A5 & A6 & A7).
      unfold m5, m4, m3, m2, m1. flds. rewrite !fupd_other by exact Y. split; [exact A2|]. split; [exact A1|]. split; [exact A4|]. split; [exact A5|]. split; [exact A6|exact A7]. }
    split.
    { unfold m5, m4, m3, m2, m1. flds. rewrite !fupd_same. split; [reflexivity|]. split; [reflexivity|]. split; [exact Lh|]. split; [reflexivity|]. exact Bbd. }
    do 2 (split; [unfold m5, m4, m3, m2, m1; flds; congruence|]).
    unfold m5, m4, m3, m2, m1; flds; congruence. }
  clearbody m5. clear L1 V1 N1 F1 L2. clear m4 m3 m2 m1.
  destruct K as (KR & K1 & K2 & K3 & K4 & K5 & K6 & K7 & K8 & K9 & K10 & Old5 & New5 & K11 & K12 & K13).
  set (em' := em_set (c_em cs) a b (Some h)).
  assert (Eba : em' b a = c_em cs b a).
  { unfold em', em_set. destruct (Nat.eqb_spec b a); [congruence|reflexivity]. }
  rewrite Eba.
  assert (Q : exists m6, (match c_em cs b a with Some r => w_rev (Some h) (Some r) ;; w_rev (Some r) (Some h) | None => w_rev (Some h) None end) m5 = Ok (tt, m6) /\
     (forall y, h_rev m6 y = if Nat.eqb y h then c_em cs b a else if ptr_eqb (c_em cs b a) (Some y) then Some h else h_rev m y) /\
     m_hes m6 = m_hes m5 /\ m_verts m6 = m_verts m5 /\ m_faces m6 = m_faces m5 /\ m_indices m6 = m_indices m5 /\ m_fresh m6 = m_fresh m5 /\
     v_live m6 = v_live m5 /\ v_pos m6 = v_pos m5 /\ v_he m6 = v_he m5 /\ v_idx m6 = v_idx m5 /\ v_lock m6 = v_lock m5 /\
     h_live m6 = h_live m5 /\ h_src m6 = h_src m5 /\ h_next m6 = h_next m5 /\ h_face m6 = h_face m5 /\ h_idx m6 = h_idx m5 /\ h_bd m6 = h_bd m5 /\
     f_live m6 = f_live m5 /\ f_he m6 = f_he m5 /\ f_idx m6 = f_idx m5).
  { destruct (c_em cs b a) as [r|] eqn:Er.
    - destruct (em_hes _ _ _ _ C _ _ _ Er) as [Ir _].
      rewrite (bind_ok _ _ _ _ _ (ww_rev m5 h (Some r) L5)).
      assert (Lr : h_live (set_h_rev h (Some r) m5) r = true).
      { flds. destruct (Old5 r (Hfr r Ir)) as (_ & _ & _ & -> & _).
        apply In_nth_error in Ir as (i & Hi). apply (Hel i r Hi). }
      rewrite (ww_rev _ r (Some h) Lr). eexists. split; [reflexivity|]. split; [|flds; do 18 (split; [reflexivity|]); reflexivity].
      intros y. flds. unfold fupd at 1. cbn [ptr_eqb]. rewrite (Nat.eqb_sym r y).
      assert (Rh : r <> h) by (apply Hfr, Ir).
      destruct (Nat.eqb_spec y r) as [->|Y1].
      { destruct (Nat.eqb_spec r h); [contradiction|reflexivity]. }
      unfold fupd. destruct (Nat.eqb_spec y h) as [->|Y2]; [reflexivity|].
      exact (KR y Y2).
    - rewrite (ww_rev m5 h None L5). eexists. split; [reflexivity|]. split; [|flds; do 18 (split; [reflexivity|]); reflexivity].
      intros y. flds. unfold fupd. destruct (Nat.eqb_spec y h) as [->|Y2]; [reflexivity|].
      exact (KR y Y2). }
  destruct Q as (m6 & E6 & Rv & Q1 & Q2 & Q3 & Q4 & Q5 & Q6 & Q7 & Q8 & Q9 & Q10 & Q11 & Q12 & Q13 & Q14 & Q15 & Q16 & Q17 & Q18 & Q19).
  rewrite (bind_ok _ _ _ _ _ E6). unfold ret. clear E6.
  eexists m6, _. split; [reflexivity|].
  assert (Hem : forall x y, (x, y) <> (a, b) -> em' x y = c_em cs x y).
  { intros x y H. unfold em', em_set. destruct (Nat.eqb_spec x a), (Nat.eqb_spec y b); cbn [andb]; congruence. }
  assert (Hemab : em' a b = Some h) by (unfold em', em_set; rewrite !Nat.eqb_refl; reflexivity).
  assert (Old : forall y, y <> h -> h_src m6 y = h_src m y /\ h_next m6 y = h_next m y /\ h_face m6 y = h_face m y /\ h_live m6 y = h_live m y /\ h_idx m6 y = h_idx m y /\ h_bd m6 y = h_bd m y).
  { intros y Y. rewrite Q12, Q13, Q14, Q11, Q15, Q16. exact (Old5 y Y). }
  assert (New : h_src m6 h = Some v /\ h_face m6 h = Some face /\ h_live m6 h = true /\ h_idx m6 h = Z.of_nat (length (m_hes m)) /\ h_bd m6 h = false).
  { rewrite Q12, Q14, Q11, Q15, Q16. exact New5. }
  assert (Fr6 : m_fresh m6 = S h) by congruence.
  assert (Hes6 : m_hes m6 = m_hes m ++ [h]) by congruence.
  assert (Hv6 : m_verts m6 = m_verts m) by congruence.
  split; [|split].
  - split.
    + eapply VSame_trans; [exact (ci_v _ _ _ _ C)|]. split; try congruence. rewrite Fr6. unfold h. lia.
    + rewrite Q4, K4. exact (ci_ix _ _ _ _ C).
    + apply nodup_snoc; [exact (ci_nodup _ _ _ _ C)|exact HE].
    + split.
      * rewrite Hes6. apply nodup_snoc; [exact Hnd|]. intros H. exact (Hfr h H eq_refl).
      * intros i y Hi. rewrite Hes6 in Hi. rewrite Fr6.
        apply nth_error_snoc in Hi as [Hi|[-> ->]].
        -- destruct (Hel i y Hi) as (A & B & L). destruct (Old y (Hfr y (nth_error_In _ _ Hi))) as (_ & _ & _ & -> & -> & _). repeat split; try assumption. unfold h; lia.
        -- destruct New as (_ & _ & A & B & _). repeat split; try assumption. lia.
    + rewrite Hes6, !map_app. cbn [map fst snd c_em]. rewrite Hemab. f_equal. rewrite (ci_hes _ _ _ _ C). apply map_ext_in.
      intros [x y] Hxy. cbn [fst snd]. symmetry. apply Hem. intros [= -> ->]. contradiction.
    + intros x y H. cbn [c_em] in H. rewrite in_app_iff. destruct (Nat.eq_dec x a) as [->|X]; [destruct (Nat.eq_dec y b) as [->|Y]; [right; left; reflexivity|]|].
      * left. apply (ci_dom _ _ _ _ C). rewrite Hem in H by congruence. exact H.
      * left. apply (ci_dom _ _ _ _ C). rewrite Hem in H by congruence. exact H.
    + intros x y g H. cbn [c_em] in H. rewrite Hv6. destruct (Nat.eq_dec g h) as [->|G].
      * destruct (Nat.eq_dec x a) as [->|X].
        -- split; [|exact Hlen]. rewrite Hv. apply New.
        -- rewrite Hem in H by congruence. exfalso. apply (Hfr h (proj1 (em_hes _ _ _ _ C _ _ _ H)) eq_refl).
      * destruct (Old g G) as (-> & _). assert (XY : (x, y) <> (a, b)) by (intros [= -> ->]; congruence).
        rewrite Hem in H by exact XY. exact (ci_src _ _ _ _ C _ _ _ H).
    + intros x y g H. cbn [c_em] in *. rewrite Rv. destruct (Nat.eqb_spec g h) as [->|G].
      * assert (XY : (x, y) = (a, b)).
        { destruct (Nat.eq_dec x a) as [->|X]; [destruct (Nat.eq_dec y b) as [->|Y]; [reflexivity|]|];
            rewrite Hem in H by congruence; exfalso; apply (Hfr h (proj1 (em_hes _ _ _ _ C _ _ _ H)) eq_refl). }
        injection XY as -> ->. symmetry. exact Eba.
      * assert (XY : (x, y) <> (a, b)) by (intros [= -> ->]; congruence). rewrite Hem in H by exact XY.
        destruct (ptr_eqb (c_em cs b a) (Some g)) eqn:Eg.
        -- apply ptr_eqb_eq in Eg. pose proof (em_inj _ _ _ _ C _ _ _ _ _ H Eg) as [= -> ->]. rewrite Hemab. reflexivity.
        -- rewrite (ci_rev _ _ _ _ C _ _ _ H). symmetry. apply Hem. intros [= -> ->]. rewrite H, ptr_eqb_refl in Eg. discriminate.
    + intros y Hy. rewrite Hes6, in_app_iff in Hy. destruct Hy as [Hy|[<-|[]]]; [|apply New].
      destruct (Old y (Hfr y Hy)) as (_ & _ & _ & _ & _ & ->). apply (ci_bd _ _ _ _ C), Hy.
    + intros x w Hx. rewrite Hv6 in Hx. cbn [c_em]. rewrite Q8, K8. unfold fupd.
      destruct (Nat.eqb_spec w v) as [->|Wv].
      * exists b. assert (x = a). { eapply NoDup_nth_error; [exact Vnd|apply nth_error_Some; congruence|congruence]. } subst x. exact Hemab.
      * assert (x <> a) by congruence. pose proof (ci_vhe _ _ _ _ C x w Hx) as P. destruct (v_he m w).
        -- destruct P as (y & P). exists y. rewrite Hem by congruence. exact P.
        -- intros y. rewrite Hem by congruence. apply P.
    + intros x. cbn [c_deg]. rewrite filter_app, app_length. cbn [filter fst]. unfold fupd. rewrite !(ci_deg _ _ _ _ C).
      rewrite (Nat.eqb_sym a x). destruct (Nat.eqb_spec x a) as [->|X]; cbn [length]; lia.
  - split; try assumption.
    + intros y Y. apply (Old y Y).
    + intros y Y. apply (Old y Y).
    + apply New.
    + congruence.
    + congruence.
    + congruence.
    + intros f. rewrite Q18, K12. reflexivity.
    + reflexivity.
  - split; [exact Hemab|exact Hem].
Qed.

(** The half-edges and the face of one triangle. *)
Definition TriAt m (cs : cstate) (t : tri) (f : nat) : Prop :=
  let '(a, b, c) := t in
  exists x y z, c_em cs a b = Some x /\ c_em cs b c = Some y /\ c_em cs c a = Some z /\
    h_next m x = Some y /\ h_next m y = Some z /\ h_next m z = Some x /\
    h_face m x = Some f /\ h_face m y = Some f /\ h_face m z = Some f /\ f_he m f = Some z.

Record TInv m0 (T : list tri) m (cs : cstate) : Prop := {
  ti_c : CInv m0 (edges T) m cs;
  ti_f : FList m;
  ti_tri : Forall2 (TriAt m cs) T (m_faces m);
  ti_ok : forall t, In t T -> ~ degenerate t /\ in_range (length (m_verts m)) t
}.

Lemma edges_app T t : edges (T ++ [t]) = edges T ++ tedges t.
Proof. unfold edges. rewrite flat_map_app. cbn [flat_map]. rewrite app_nil_r. reflexivity. Qed.

Lemma CInv_next m0 E m cs a x : CInv m0 E m cs -> CInv m0 E (set_h_next a x m) cs.
Proof. intros []. split; try assumption. destruct ci_v0; split; assumption. Qed.
Lemma CInv_faces m0 E m cs l f i : CInv m0 E m cs -> CInv m0 E (set_m_faces l (set_f_idx f i m)) cs.
Proof. intros []. split; try assumption. destruct ci_v0; split; assumption. Qed.

Lemma CInv_new_face m0 E m ma cs : NewFace m ma (m_fresh m) -> CInv m0 E m cs -> CInv m0 E ma cs.
Proof.
  intros [B1 (B2 & B3 & B4 & B5) (B6 & B7 & B8 & B9 & B10) (B11 & B12 & B13 & B14 & B15 & B16 & B17) _ _] C.
  split.
  - eapply VSame_trans; [exact (ci_v _ _ _ _ C)|]. split; try congruence. rewrite B1. lia.
  - rewrite B5. exact (ci_ix _ _ _ _ C).
  - exact (ci_nodup _ _ _ _ C).
  - destruct (ci_h _ _ _ _ C) as [H1 H2]. split; [rewrite B2; exact H1|]. intros i h Hi. rewrite B2 in Hi.
    destruct (H2 i h Hi) as (L1 & L2 & L3). rewrite B11, B16, B1. repeat split; try assumption. lia.
  - rewrite B2. exact (ci_hes _ _ _ _ C).
  - exact (ci_dom _ _ _ _ C).
  - rewrite B12, B3. exact (ci_src _ _ _ _ C).
  - rewrite B14. exact (ci_rev _ _ _ _ C).
  - rewrite B17, B2. exact (ci_bd _ _ _ _ C).
  - rewrite B8, B3. exact (ci_vhe _ _ _ _ C).
  - exact (ci_deg _ _ _ _ C).
Qed.

Lemma CInv_VList m0 E m cs : VList m0 -> CInv m0 E m cs -> VList m.
Proof. intros V C. eapply VSame_VList; [exact (ci_v _ _ _ _ C)|exact V]. Qed.
Lemma CInv_hlive m0 E m cs a b h : CInv m0 E m cs -> c_em cs a b = Some h -> h_live m h = true.
Proof.
  intros C H. destruct (em_hes _ _ _ _ C _ _ _ H) as [I _]. apply In_nth_error in I as (i & Hi). apply (proj2 (ci_h _ _ _ _ C) i h Hi).
Qed.

Lemma forall2_impl_in {A B} (P Q : A -> B -> Prop) l l' :
  (forall a b, In a l -> In b l' -> P a b -> Q a b) -> Forall2 P l l' -> Forall2 Q l l'.
Proof.
  intros H F. induction F; constructor.
  - apply H; [left; reflexivity|left; reflexivity|assumption].
  - apply IHF. intros; apply H; [right|right|]; assumption.
Qed.

Lemma add_triangle_take m0 T m cs a b c :
  VList m0 -> TInv m0 T m cs -> ~ degenerate (a, b, c) -> in_range (length (m_verts m)) (a, b, c) ->
  (forall e, In e (tedges (a, b, c)) -> ~ In e (edges T)) ->
  exists m' cs', add_triangle a b c cs m = Ok (cs', m') /\ TInv m0 (T ++ [(a, b, c)]) m' cs'.
Proof.
  intros V0 TI Hd (La & Lb & Lc) Hnew.
  assert (C := ti_c _ _ _ _ TI).
  assert (Hab : a <> b) by (intros ->; apply Hd; left; reflexivity).
  assert (Hbc : b <> c) by (intros ->; apply Hd; right; left; reflexivity).
  assert (Hca : c <> a) by (intros ->; apply Hd; right; right; reflexivity).
  assert (Nab : ~ In (a, b) (edges T)) by (apply Hnew; left; reflexivity).
  assert (Nbc : ~ In (b, c) (edges T)) by (apply Hnew; right; left; reflexivity).
  assert (Nca : ~ In (c, a) (edges T)) by (apply Hnew; right; right; left; reflexivity).
  assert (Em : forall x y, ~ In (x, y) (edges T) -> c_em cs x y = None).
  { intros x y H. destruct (c_em cs x y) eqn:X; [|reflexivity]. exfalso. apply H, (ci_dom _ _ _ _ C). congruence. }
  unfold add_triangle. rewrite (Em _ _ Nab), (Em _ _ Nbc), (Em _ _ Nca).
  destruct (nth_error (m_verts m) a) as [va|] eqn:Va; [|apply nth_error_None in Va; clear - Va La; lia].
  destruct (nth_error (m_verts m) b) as [vb|] eqn:Vb; [|apply nth_error_None in Vb; clear - Vb Lb; lia].
  destruct (nth_error (m_verts m) c) as [vc|] eqn:Vc; [|apply nth_error_None in Vc; clear - Vc Lc; lia].
  destruct (new_face_all m) as (m1 & E1 & NF). rewrite (bind_ok _ _ _ _ _ E1). clear E1. set (f := m_fresh m) in *.
  assert (C1 := CInv_new_face _ _ _ _ _ NF C).
  assert (Vs1 : m_verts m1 = m_verts m) by apply NF.
  assert (Fl1 : f_live m1 f = true) by apply NF.
  rewrite <- Vs1 in Va, Vb, Vc.
  destruct (add_corner_ok _ _ m1 cs a b f va C1 (CInv_VList _ _ _ _ V0 C1) Nab Hab Va Fl1) as (m2 & cs2 & E2 & C2 & F2 & Z2 & Zo2).
  rewrite (bind_ok _ _ _ _ _ E2). clear E2. cbn [fst snd]. set (x := m_fresh m1) in *.
  assert (Vs2 : m_verts m2 = m_verts m1) by (rewrite (vs_verts _ _ (ci_v _ _ _ _ C2)), (vs_verts _ _ (ci_v _ _ _ _ C1)); reflexivity).
  assert (N2 : ~ In (b, c) (edges T ++ [(a, b)])) by (rewrite in_app_iff; intros [H|[[= H1 H2]|[]]]; [exact (Nbc H)|congruence]).
  assert (Fl2 : f_live m2 f = true) by (rewrite (cf_flive _ _ _ _ F2); exact Fl1).
  rewrite <- Vs2 in Vb, Vc.
  destruct (add_corner_ok _ _ m2 cs2 b c f vb C2 (CInv_VList _ _ _ _ V0 C2) N2 Hbc Vb Fl2) as (m3 & cs3 & E3 & C3 & F3 & Z3 & Zo3).
  rewrite (bind_ok _ _ _ _ _ E3). clear E3. cbn [fst snd]. set (y := m_fresh m2) in *.
  assert (Vs3 : m_verts m3 = m_verts m2) by (rewrite (vs_verts _ _ (ci_v _ _ _ _ C3)), (vs_verts _ _ (ci_v _ _ _ _ C2)); reflexivity).
  assert (N3 : ~ In (c, a) ((edges T ++ [(a, b)]) ++ [(b, c)])).
  { rewrite !in_app_iff; intros [[H|[[= H1 H2]|[]]]|[[= H1 H2]|[]]]; [exact (Nca H)|congruence|congruence]. }
  assert (Fl3 : f_live m3 f = true) by (rewrite (cf_flive _ _ _ _ F3); exact Fl2).
  rewrite <- Vs3 in Vc.
  destruct (add_corner_ok _ _ m3 cs3 c a f vc C3 (CInv_VList _ _ _ _ V0 C3) N3 Hca Vc Fl3) as (m4 & cs4 & E4 & C4 & F4 & Z4 & Zo4).
  rewrite (bind_ok _ _ _ _ _ E4). clear E4. cbn [fst snd]. set (z := m_fresh m3) in *.
  assert (Vs4 : m_verts m4 = m_verts m3) by (rewrite (vs_verts _ _ (ci_v _ _ _ _ C4)), (vs_verts _ _ (ci_v _ _ _ _ C3)); reflexivity).
  assert (Fl4 : f_live m4 f = true) by (rewrite (cf_flive _ _ _ _ F4); exact Fl3).
  assert (Fs4 : m_faces m4 = m_faces m).
  { rewrite (cf_faces _ _ _ _ F4), (cf_faces _ _ _ _ F3), (cf_faces _ _ _ _ F2). apply NF. }
  rewrite (bind_ok _ _ _ _ _ (x_addFace m4 f (m_faces m) Fl4 Fs4)).
  assert (Zx : c_em cs4 a b = Some x) by (rewrite Zo4, Zo3 by congruence; exact Z2).
  assert (Zy : c_em cs4 b c = Some y) by (rewrite Zo4 by congruence; exact Z3).
  assert (Old4 : forall p q, In (p, q) (edges T) -> c_em cs4 p q = c_em cs p q).
  { intros p q H. rewrite Zo4, Zo3, Zo2; [reflexivity| | |]; congruence. }
  assert (Xf : x = S f) by (apply NF). assert (Yf : y = S x) by (apply F2). assert (Zf : z = S y) by (apply F3).
  assert (Hfr : forall h, In h (m_hes m) -> h < f).
  { intros h Hh. apply In_nth_error in Hh as (i & Hi). apply (proj2 (ci_h _ _ _ _ C) i h Hi). }
  assert (Ffr : forall g, In g (m_faces m) -> g < f).
  { intros h Hh. apply In_nth_error in Hh as (i & Hi). apply (proj2 (ti_f _ _ _ _ TI) i h Hi). }
  assert (Fr4 : m_fresh m4 = S z) by apply F4.
  (* what the untouched half-edges and faces look like in m4 *)
  assert (K4 : forall h, h < f -> h_next m4 h = h_next m h /\ h_face m4 h = h_face m h).
  { intros h Hh. rewrite (cf_next _ _ _ _ F4), (cf_next _ _ _ _ F3), (cf_next _ _ _ _ F2) by (clear - Hh Xf Yf Zf; lia).
    rewrite (cf_face _ _ _ _ F4), (cf_face _ _ _ _ F3), (cf_face _ _ _ _ F2) by (clear - Hh Xf Yf Zf; lia).
    destruct (nf_h _ _ _ NF) as (_ & _ & -> & _ & -> & _). auto. }
  assert (G4 : forall g, g < f -> f_live m4 g = f_live m g /\ f_idx m4 g = f_idx m g /\ f_he m4 g = f_he m g).
  { intros g Hg. rewrite (cf_flive _ _ _ _ F4), (cf_flive _ _ _ _ F3), (cf_flive _ _ _ _ F2), (cf_fidx _ _ _ _ F4), (cf_fidx _ _ _ _ F3), (cf_fidx _ _ _ _ F2).
    rewrite (cf_fhe _ _ _ _ F4), (cf_fhe _ _ _ _ F3), (cf_fhe _ _ _ _ F2). assert (Ng : g <> f) by (clear - Hg; lia).
    destruct (Nat.eqb_spec g f); [contradiction|]. destruct (nf_old _ _ _ NF g Ng) as (-> & -> & ->). auto. }
  assert (Fx : h_face m4 x = Some f). { rewrite (cf_face _ _ _ _ F4), (cf_face _ _ _ _ F3) by (clear - Yf Zf; lia). apply F2. }
  assert (Fy : h_face m4 y = Some f). { rewrite (cf_face _ _ _ _ F4) by (clear - Yf Zf; lia). apply F3. }
  assert (Fz : h_face m4 z = Some f) by apply F4.
  assert (Fhe : f_he m4 f = Some z) by (rewrite (cf_fhe _ _ _ _ F4), Nat.eqb_refl; reflexivity).
  assert (Lx := CInv_hlive _ _ _ _ _ _ _ C4 Zx). assert (Ly := CInv_hlive _ _ _ _ _ _ _ C4 Zy). assert (Lz := CInv_hlive _ _ _ _ _ _ _ C4 Z4).
  set (m5 := set_m_faces (m_faces m ++ [f]) (set_f_idx f (Z.of_nat (length (m_faces m))) m4)).
  rewrite (bind_ok _ _ _ _ _ (ww_next m5 x (Some y) Lx)).
  rewrite (bind_ok _ _ _ _ _ (ww_next (set_h_next x (Some y) m5) y (Some z) Ly)).
  rewrite (bind_ok _ _ _ _ _ (ww_next (set_h_next y (Some z) (set_h_next x (Some y) m5)) z (Some x) Lz)).
  eexists _, cs4. split; [reflexivity|].
  assert (C5 : CInv m0 (edges (T ++ [(a, b, c)])) (set_h_next z (Some x) (set_h_next y (Some z) (set_h_next x (Some y) m5))) cs4).
  { apply CInv_next, CInv_next, CInv_next, CInv_faces. rewrite edges_app. cbn [tedges].
    rewrite <- !app_assoc in C4. exact C4. }
  split; [exact C5| | |].
  - split.
    + flds. unfold m5. flds. apply nodup_snoc; [apply (ti_f _ _ _ _ TI)|]. intros H. apply Ffr in H. clear - H. lia.
    + flds. unfold m5. flds. intros i g Hi. rewrite Fr4. apply nth_error_snoc in Hi as [Hi|[-> ->]].
      * assert (Hg := Ffr g (nth_error_In _ _ Hi)). destruct (G4 g Hg) as (-> & Gi & _).
        destruct (proj2 (ti_f _ _ _ _ TI) i g Hi) as (A1 & A2 & A3). rewrite fupd_other by (clear - Hg; lia).
        rewrite Gi. repeat split; try assumption. clear - Hg Xf Yf Zf. lia.
      * rewrite fupd_same. repeat split; try assumption. clear - Xf Yf Zf; lia.
  - flds. unfold m5. flds. apply Forall2_app.
    + eapply forall2_impl_in; [|exact (ti_tri _ _ _ _ TI)]. intros [[p q] r] g It Ig (hx & hy & hz & Ex & Ey & Ez & Nx & Ny & Nz & Fx' & Fy' & Fz' & Fg).
      assert (Ie : forall e, In e (tedges (p, q, r)) -> In e (edges T)) by (intros e He; apply in_flat_map; exists (p, q, r); auto).
      exists hx, hy, hz. rewrite !Old4 by (apply Ie; simpl; tauto).
      assert (Bx := Hfr hx (proj1 (em_hes _ _ _ _ C _ _ _ Ex))). assert (By := Hfr hy (proj1 (em_hes _ _ _ _ C _ _ _ Ey))). assert (Bz := Hfr hz (proj1 (em_hes _ _ _ _ C _ _ _ Ez))).
      destruct (K4 hx Bx) as [Kx1 Kx2]. destruct (K4 hy By) as [Ky1 Ky2]. destruct (K4 hz Bz) as [Kz1 Kz2].
      destruct (G4 g (Ffr g Ig)) as (_ & _ & Gg).
      flds. unfold m5. flds. rewrite !fupd_other by (clear - Bx By Bz Xf Yf Zf; lia).
      rewrite Kx1, Kx2, Ky1, Ky2, Kz1, Kz2, Gg. repeat (split; [assumption|]); assumption.
    + constructor; [|constructor]. exists x, y, z. flds. unfold m5. flds.
      split; [exact Zx|]. split; [exact Zy|]. split; [exact Z4|].
      split; [rewrite !fupd_other by (clear - Yf Zf; lia); apply fupd_same|].
      split; [rewrite fupd_other by (clear - Yf Zf; lia); apply fupd_same|].
      split; [apply fupd_same|]. repeat (split; [assumption|]); assumption.
  - intros t Ht. flds. unfold m5. flds. rewrite Vs4, Vs3, Vs2, Vs1. apply in_app_iff in Ht as [Ht|[<-|[]]].
    + apply (ti_ok _ _ _ _ TI t Ht).
    + split; [exact Hd|]. repeat split; assumption.
Qed.

Lemma add_triangle_skip m0 T m cs a b c e :
  TInv m0 T m cs -> In e (tedges (a, b, c)) -> In e (edges T) -> add_triangle a b c cs m = Ok (cs, m).
Proof.
  intros TI He HE. destruct e as [p q]. destruct (em_in _ _ _ _ (ti_c _ _ _ _ TI) p q HE) as (h & Eh & _).
  unfold add_triangle. cbn [tedges] in He. destruct He as [[= <- <-]|[[= <- <-]|[[= <- <-]|[]]]]; rewrite Eh.
  - reflexivity.
  - destruct (c_em cs a b); reflexivity.
  - destruct (c_em cs a b); [reflexivity|]. destruct (c_em cs b c); reflexivity.
Qed.

Lemma pair_dec : forall e e' : nat * nat, {e = e'} + {e <> e'}.
Proof. decide equality; apply Nat.eq_dec. Qed.

Lemma take_or_skip (T : list tri) t :
  (forall e, In e (tedges t) -> ~ In e (edges T)) \/ (exists e, In e (tedges t) /\ In e (edges T)).
Proof.
  destruct (existsb (fun e => if in_dec pair_dec e (edges T) then true else false) (tedges t)) eqn:X.
  - right. apply existsb_exists in X as (e & H1 & H2). exists e. destruct (in_dec pair_dec e (edges T)); [auto|discriminate].
  - left. intros e H1 H2. assert (Y : existsb (fun e => if in_dec pair_dec e (edges T) then true else false) (tedges t) = true).
    { apply existsb_exists. exists e. split; [exact H1|]. destruct (in_dec pair_dec e (edges T)); [reflexivity|contradiction]. }
    congruence.
Qed.

(** The whole loop. *)
Lemma add_triangles_ok m0 : VList m0 -> forall l T A m cs,
  TInv m0 A m cs -> Accepted T A -> Nat.divide 3 (length l) ->
  (forall t, In t (triples l) -> ~ degenerate t /\ in_range (length (m_verts m0)) t) ->
  exists A' m' cs', add_triangles l cs m = Ok (cs', m') /\ TInv m0 A' m' cs' /\ Accepted (T ++ triples l) A'.
Proof.
  intros V0 l. remember (length l) as n eqn:Hn. revert l Hn. induction n as [n IH] using lt_wf_ind. intros l -> T A m cs TI HA Hd Ht.
  destruct l as [|a [|b [|c l]]].
  - exists A, m, cs. cbn [add_triangles triples]. rewrite app_nil_r. split; [reflexivity|]. split; assumption.
  - exfalso. destruct Hd as [k Hk]. cbn [length] in Hk. lia.
  - exfalso. destruct Hd as [k Hk]. cbn [length] in Hk. lia.
  - cbn [add_triangles triples].
    assert (Hd' : Nat.divide 3 (length l)). { destruct Hd as [k Hk]. exists (k - 1). cbn [length] in Hk. lia. }
    assert (Ht' : forall t, In t (triples l) -> ~ degenerate t /\ in_range (length (m_verts m0)) t) by (intros t H; apply Ht; right; exact H).
    destruct (Ht (a, b, c) (or_introl eq_refl)) as [D1 D2].
    destruct (take_or_skip A (a, b, c)) as [TK|(e & S1 & S2)].
    + assert (D3 : in_range (length (m_verts m)) (a, b, c)) by (rewrite (vs_verts _ _ (ci_v _ _ _ _ (ti_c _ _ _ _ TI))); exact D2).
      destruct (add_triangle_take m0 A m cs a b c V0 TI D1 D3 TK) as (m1 & cs1 & E1 & TI1).
      rewrite (bind_ok _ _ _ _ _ E1).
      destruct (IH (length l) ltac:(cbn [length]; lia) l eq_refl (T ++ [(a, b, c)]) (A ++ [(a, b, c)]) m1 cs1 TI1 (acc_take _ _ _ HA TK) Hd' Ht') as (A' & m' & cs' & E & TI' & HA').
      exists A', m', cs'. split; [exact E|]. split; [exact TI'|]. rewrite <- app_assoc in HA'. exact HA'.
    + rewrite (bind_ok _ _ _ _ _ (add_triangle_skip m0 A m cs a b c e TI S1 S2)).
      destruct (IH (length l) ltac:(cbn [length]; lia) l eq_refl (T ++ [(a, b, c)]) A m cs TI (acc_skip _ _ _ _ HA S1 S2) Hd' Ht') as (A' & m' & cs' & E & TI' & HA').
      exists A', m', cs'. split; [exact E|]. split; [exact TI'|]. rewrite <- app_assoc in HA'. exact HA'.
Qed.

End BuildTri.
