(** Mesh::construct: closing the boundary loops with faces (mesh.cpp 300-346). *)
From Coq Require Import List ZArith Arith Lia Bool.
From Verif Require Import Num Vec Heap Mesh Construct Spec BuildSpec Orbit Rings Exec Split BuildTri BuildOpen.
Import ListNotations.
Local Open Scope mesh_scope.

Section BuildClose.
Context {N : Num}.
Implicit Types m : mesh N.

(** State [m1] after the open half-edges [map fst P] of [m] have got the new
    opposite half-edges [map snd P], and faces [FS] have been added. *)
Record GInv m m1 (P : list (nat * nat)) (FS : list nat) : Prop := {
  g_verts : m_verts m1 = m_verts m;
  g_ix : m_indices m1 = m_indices m;
  g_vlive : v_live m1 = v_live m;
  g_vpos : v_pos m1 = v_pos m;
  g_vhe : v_he m1 = v_he m;
  g_vidx : v_idx m1 = v_idx m;
  g_vlock : v_lock m1 = v_lock m;
  g_fresh : m_fresh m <= m_fresh m1;
  g_hes : m_hes m1 = m_hes m ++ map snd P;
  g_faces : m_faces m1 = m_faces m ++ FS;
  g_hl : HList m1;
  g_fl : FList m1;
  g_old : forall h, In h (m_hes m) -> h_next m1 h = h_next m h /\ h_src m1 h = h_src m h /\ h_face m1 h = h_face m h;
  g_oldf : forall f, In f (m_faces m) -> f_he m1 f = f_he m f;
  g_nd : NoDup (map fst P);
  g_pin : forall b r, In (b, r) P -> isB m b;
  g_ge : forall b r, In (b, r) P -> m_fresh m <= r;
  g_P : forall b r, In (b, r) P -> h_rev m1 b = Some r /\ h_rev m1 r = Some b /\ h_bd m1 b = true /\ h_bd m1 r = true /\
     forall n, h_next m b = Some n -> h_src m1 r = h_src m n;
  g_un : forall b, In b (m_hes m) -> ~ In b (map fst P) -> h_rev m1 b = h_rev m b /\ h_bd m1 b = false
}.

Record HFrame m1 m2 (r f : nat) : Prop := {
  hf_next : forall y, y <> r -> h_next m2 y = h_next m1 y;
  hf_face : forall y, y <> r -> h_face m2 y = h_face m1 y;
  hf_face_r : h_face m2 r = Some f;
  hf_faces : m_faces m2 = m_faces m1;
  hf_flive : f_live m2 = f_live m1;
  hf_fidx : f_idx m2 = f_idx m1;
  hf_fhe : f_he m2 = f_he m1;
  hf_fresh : m_fresh m2 = S r;
  hf_r : r = m_fresh m1
}.

Lemma hole_step m m1 P FS b f s fuel acc :
  Open m -> GInv m m1 P FS -> isB m b -> ~ In b (map fst P) ->
  exists m2, GInv m m2 (P ++ [(b, m_fresh m1)]) FS /\ HFrame m1 m2 (m_fresh m1) f /\
    hole_loop fuel (Some s) (Some f) (Some b) acc m1 =
    bind (next_boundary (m_fresh m2) (Some s) (h_next m b))
      (fun it2 => if ptr_eqb it2 (Some s) then ret (acc ++ [Some (m_fresh m1)])
                  else match fuel with O => nofuel | S fuel' => hole_loop fuel' (Some s) (Some f) it2 (acc ++ [Some (m_fresh m1)]) end) m2.
Proof.
  intros O G [Hb Rb] Nb.
  assert (Hex : exists n, h_next m b = Some n /\ In n (m_hes m)).
  { destruct (o_next m O b Hb) as (n & En & In_ & _). exists n. auto. }
  destruct Hex as (n & En & In_).
  assert (Hlv : forall h, In h (m_hes m1) -> h_live m1 h = true /\ h < m_fresh m1).
  { intros h H. apply In_nth_error in H as (i & Hi). destruct (proj2 (g_hl _ _ _ _ G) i h Hi) as (A1 & _ & A2). auto. }
  assert (Hold : forall h, In h (m_hes m) -> In h (m_hes m1)) by (intros h H; rewrite (g_hes _ _ _ _ G); apply in_or_app; left; exact H).
  destruct (new_he_all m1) as (ma & Ema & NH). set (r := m_fresh m1) in *.
  destruct NH as [B1 (B2 & B3 & B4 & B5) (B6 & B7 & B8 & B9 & B10) (B11 & B12 & B13) Bold [Lr Bbd]].
  assert (Nbr : b <> r) by (destruct (Hlv b (Hold b Hb)) as [_ L]; clear - L; unfold r; lia).
  assert (Nnr : n <> r) by (destruct (Hlv n (Hold n In_)) as [_ L]; clear - L; unfold r; lia).
  destruct (g_old _ _ _ _ G b Hb) as (Nx & _ & _). destruct (g_old _ _ _ _ G n In_) as (_ & Sn & _).
  destruct (Hlv b (Hold b Hb)) as [Lb _]. destruct (Hlv n (Hold n In_)) as [Ln _].
  destruct (Bold b Nbr) as (Bb1 & Bb2 & Bb3 & Bb4 & Bb5 & Bb6 & Bb7).
  destruct (Bold n Nnr) as (Bn1 & Bn2 & Bn3 & Bn4 & Bn5 & Bn6 & Bn7).
  set (m2 := set_m_hes (m_hes m1 ++ [r]) (set_h_idx r (Z.of_nat (length (m_hes m1))) ma)).
  set (m3 := set_h_rev b (Some r) m2).
  set (m4 := set_h_rev r (Some b) m3).
  set (m5 := set_h_face r (Some f) m4).
  set (m6 := set_h_src r (h_src m1 n) m5).
  set (m7 := set_h_bd b true m6).
  set (m8 := set_h_bd r true m7).
  assert (L2 : h_live m2 = h_live ma) by reflexivity.
  assert (L8 : h_live m8 = h_live ma) by reflexivity.
  assert (K : (forall y, y <> r -> h_next m8 y = h_next m1 y /\ h_src m8 y = h_src m1 y /\ h_face m8 y = h_face m1 y /\ h_live m8 y = h_live m1 y /\ h_idx m8 y = h_idx m1 y) /\
     (forall y, y <> r -> y <> b -> h_rev m8 y = h_rev m1 y /\ h_bd m8 y = h_bd m1 y) /\
     (h_rev m8 b = Some r /\ h_bd m8 b = true) /\
     (h_rev m8 r = Some b /\ h_bd m8 r = true /\ h_src m8 r = h_src m1 n /\ h_face m8 r = Some f /\ h_live m8 r = true /\ h_idx m8 r = Z.of_nat (length (m_hes m1))) /\
     (m_hes m8 = m_hes m1 ++ [r] /\ m_verts m8 = m_verts m1 /\ m_faces m8 = m_faces m1 /\ m_indices m8 = m_indices m1 /\ m_fresh m8 = S r) /\
     (v_live m8 = v_live m1 /\ v_pos m8 = v_pos m1 /\ v_he m8 = v_he m1 /\ v_idx m8 = v_idx m1 /\ v_lock m8 = v_lock m1) /\
     (f_live m8 = f_live m1 /\ f_he m8 = f_he m1 /\ f_idx m8 = f_idx m1)).
  { unfold m8, m7, m6, m5, m4, m3, m2. flds. repeat split.
    - apply (Bold y H).
    - rewrite fupd_other by exact H. apply (Bold y H).
    - rewrite fupd_other by exact H. apply (Bold y H).
    - apply (Bold y H).
    - rewrite fupd_other by exact H. apply (Bold y H).
    - rewrite !fupd_other by assumption. apply (Bold y H).
    - rewrite !fupd_other by assumption. apply (Bold y H).
    - rewrite fupd_other by exact Nbr. apply fupd_same.
    - rewrite fupd_other by exact Nbr. apply fupd_same.
    - apply fupd_same.
    - apply fupd_same.
    - apply fupd_same.
    - apply fupd_same.
    - exact Lr.
    - apply fupd_same.
    - exact B3.
    - exact B4.
    - exact B5.
    - exact B1.
    - exact B6.
    - exact B7.
    - exact B8.
    - exact B9.
    - exact B10.
    - exact B11.
    - exact B12.
    - exact B13. }
  assert (X : hole_loop fuel (Some s) (Some f) (Some b) acc m1 =
    bind (next_boundary (m_fresh m8) (Some s) (h_next m b))
      (fun it2 => if ptr_eqb it2 (Some s) then ret (acc ++ [Some r])
                  else match fuel with O => nofuel | S fuel' => hole_loop fuel' (Some s) (Some f) it2 (acc ++ [Some r]) end) m8).
  { assert (Lb2 : h_live m2 b = true) by (rewrite L2, Bb5; exact Lb).
    assert (Lr2 : h_live m2 r = true) by (rewrite L2; exact Lr).
    assert (Ln2 : h_live m2 n = true) by (rewrite L2, Bn5; exact Ln).
    assert (Nx5 : h_next m5 b = Some n) by (unfold m5, m4, m3, m2; flds; rewrite Bb1, Nx; exact En).
    assert (Sn5 : h_src m5 n = h_src m1 n) by (unfold m5, m4, m3, m2; flds; exact Bn2).
    assert (Nx8 : h_next m8 b = Some n) by (unfold m8, m7, m6; flds; exact Nx5).
    destruct fuel; cbn [hole_loop]; rewrite (bind_ok _ _ _ _ _ Ema);
      rewrite (bind_ok _ _ _ _ _ (x_addHalfedge ma r (m_hes m1) Lr B2)); fold m2;
      rewrite (bind_ok _ _ _ _ _ (ww_rev m2 b (Some r) Lb2)); fold m3;
      rewrite (bind_ok _ _ _ _ _ (ww_rev m3 r (Some b) Lr2)); fold m4;
      rewrite (bind_ok _ _ _ _ _ (ww_face m4 r (Some f) Lr2)); fold m5;
      rewrite (bind_ok _ _ _ _ _ (r_next m5 b Lb2)), Nx5;
      rewrite (bind_ok _ _ _ _ _ (r_src m5 n Ln2)), Sn5;
      rewrite (bind_ok _ _ _ _ _ (ww_src m5 r (h_src m1 n) Lr2)); fold m6;
      rewrite (bind_ok _ _ _ _ _ (ww_bd m6 b true Lb2)); fold m7;
      rewrite (bind_ok _ _ _ _ _ (ww_bd m7 r true Lr2)); fold m8;
      rewrite (bind_ok _ _ _ _ _ (r_next m8 b Lb2)), Nx8, bind_get, En; reflexivity. }
  clearbody m8. clear m2 m3 m4 m5 m6 m7 L2 L8.
  destruct K as (K1 & K2 & (K3 & K4) & (K5 & K6 & K7 & K8 & K9 & K10) & (K11 & K12 & K13 & K14 & K15) & (K16 & K17 & K18 & K19 & K20) & (K21 & K22 & K23)).
  exists m8. split; [|split; [|exact X]].
  - assert (Nr : forall h, In h (m_hes m1) -> h <> r) by (intros h H; destruct (Hlv h H) as [_ L]; clear - L; unfold r; lia).
    split.
    + rewrite K12; apply G.
    + rewrite K14; apply G.
    + rewrite K16; apply G.
    + rewrite K17; apply G.
    + rewrite K18; apply G.
    + rewrite K19; apply G.
    + rewrite K20; apply G.
    + rewrite K15. pose proof (g_fresh _ _ _ _ G). unfold r. lia.
    + rewrite K11, (g_hes _ _ _ _ G), map_app, app_assoc. reflexivity.
    + rewrite K13. exact (g_faces _ _ _ _ G).
    + split; [rewrite K11; apply nodup_snoc; [apply (g_hl _ _ _ _ G)|intros H; exact (Nr r H eq_refl)]|].
      intros i h Hi. rewrite K11 in Hi. rewrite K15. apply nth_error_snoc in Hi as [Hi|[-> ->]].
      * assert (D := Nr h (nth_error_In _ _ Hi)). destruct (K1 h D) as (_ & _ & _ & -> & ->).
        destruct (proj2 (g_hl _ _ _ _ G) i h Hi) as (A1 & A2 & A3). repeat split; try assumption. clear - A3. unfold r. lia.
      * repeat split; try assumption. lia.
    + destruct (g_fl _ _ _ _ G) as [F1 F2]. split; [rewrite K13; exact F1|]. intros i g Hi. rewrite K13 in Hi. rewrite K21, K23, K15.
      destruct (F2 i g Hi) as (A1 & A2 & A3). repeat split; try assumption. clear - A3. unfold r. lia.
    + intros h H. destruct (K1 h (Nr h (Hold h H))) as (-> & -> & -> & _). apply (g_old _ _ _ _ G h H).
    + intros g H. rewrite K22. apply (g_oldf _ _ _ _ G g H).
    + rewrite map_app. apply nodup_snoc; [exact (g_nd _ _ _ _ G)|exact Nb].
    + intros b' r' H. apply in_app_iff in H as [H|[[= <- <-]|[]]]; [exact (g_pin _ _ _ _ G b' r' H)|split; assumption].
    + intros b' r' H. apply in_app_iff in H as [H|[[= <- <-]|[]]]; [exact (g_ge _ _ _ _ G b' r' H)|exact (g_fresh _ _ _ _ G)].
    + intros b' r' H. apply in_app_iff in H as [H|[[= <- <-]|[]]].
      * assert (Db : b' <> b) by (intros ->; apply Nb; apply in_map_iff; exists (b, r'); auto).
        assert (Ir' : In r' (m_hes m1)) by (rewrite (g_hes _ _ _ _ G); apply in_or_app; right; apply in_map_iff; exists (b', r'); auto).
        assert (Ib' : In b' (m_hes m1)) by (apply Hold; apply (g_pin _ _ _ _ G b' r' H)).
        destruct (g_P _ _ _ _ G b' r' H) as (A1 & A2 & A3 & A4 & A5).
        assert (Drb : r' <> b).
        { pose proof (g_ge _ _ _ _ G b' r' H) as L1. pose proof (o_hlt m O b Hb) as L2. clear - L1 L2. lia. }
        destruct (K2 b' (Nr b' Ib') Db) as [-> ->]. destruct (K2 r' (Nr r' Ir') Drb) as [-> ->].
        destruct (K1 r' (Nr r' Ir')) as (_ & -> & _). auto.
      * split; [exact K3|]. split; [exact K5|]. split; [exact K4|]. split; [exact K6|]. intros n' En'. rewrite K7, Sn. congruence.
    + intros b' H H'. rewrite map_app, in_app_iff in H'. cbn [map fst In] in H'.
      assert (D : b' <> b) by (intros ->; apply H'; auto).
      destruct (K2 b' (Nr b' (Hold b' H)) D) as [-> ->]. apply (g_un _ _ _ _ G b' H). intros X'. apply H'. left; exact X'.
  - split; try assumption; try reflexivity.
    + intros y Hy. apply (K1 y Hy).
    + intros y Hy. apply (K1 y Hy).
Qed.

Lemma next_boundary_ok m m1 P FS s b' : Open m -> GInv m m1 P FS -> isB m s -> isB m b' -> (b' = s \/ ~ In b' (map fst P)) ->
  forall k x fuel, In x (m_hes m) -> piter (rot m) k x = Some b' -> k <= fuel ->
  next_boundary fuel (Some s) (Some x) m1 = Ok (Some b', m1).
Proof.
  intros O G Bs Bb Hb.
  assert (Lv : forall h, In h (m_hes m) -> h_live m1 h = true).
  { intros h H. assert (H1 : In h (m_hes m1)) by (rewrite (g_hes _ _ _ _ G); apply in_or_app; left; exact H).
    apply In_nth_error in H1 as (i & Hi). apply (proj2 (g_hl _ _ _ _ G) i h Hi). }
  assert (Dec : forall x : nat, x = s \/ x <> s) by (intros x; destruct (Nat.eq_dec x s); auto).
  induction k as [|k IH]; intros x fuel Hx Px Hf; cbn [piter] in Px.
  - injection Px as ->. destruct (Dec b') as [->|D].
    + destruct fuel; cbn [next_boundary]; rewrite ptr_eqb_refl; reflexivity.
    + assert (E : ptr_eqb (Some b') (Some s) = false) by (apply ptr_eqb_neq; congruence).
      destruct Hb as [Hb|Hb]; [contradiction|]. destruct (g_un _ _ _ _ G b' (proj1 Bb) Hb) as [R _]. rewrite (proj2 Bb) in R.
      destruct fuel; cbn [next_boundary]; rewrite E, (bind_ok _ _ _ _ _ (r_rev m1 b' (Lv b' Hx))), R; reflexivity.
  - destruct (rot m x) as [n|] eqn:E; [|discriminate].
    destruct (o_rot m O x n Hx E) as (r & R & Ir & Nr & In_ & _).
    assert (Ds : ptr_eqb (Some x) (Some s) = false) by (apply ptr_eqb_neq; intros [= ->]; destruct Bs; congruence).
    assert (Nx : ~ In x (map fst P)).
    { intros H. apply in_map_iff in H as ([x' r'] & <- & H). cbn [fst] in *. destruct (g_pin _ _ _ _ G _ _ H) as [_ Z]. congruence. }
    destruct (g_un _ _ _ _ G x Hx Nx) as [R1 _]. rewrite R in R1.
    destruct (g_old _ _ _ _ G r Ir) as (N1 & _ & _). rewrite Nr in N1.
    destruct fuel as [|fuel]; [lia|]. cbn [next_boundary].
    rewrite Ds, (bind_ok _ _ _ _ _ (r_rev m1 x (Lv x Hx))), R1, (bind_ok _ _ _ _ _ (r_next m1 r (Lv r Ir))), N1. apply IH; [exact In_|exact Px|lia].
Qed.

(** Frame of a whole hole. *)
Record LFrame m1 m2 (rs : list nat) (f : nat) : Prop := {
  lf_next : forall y, y < m_fresh m1 -> h_next m2 y = h_next m1 y;
  lf_face : forall y, y < m_fresh m1 -> h_face m2 y = h_face m1 y;
  lf_new : forall r, In r rs -> h_face m2 r = Some f /\ m_fresh m1 <= r;
  lf_faces : m_faces m2 = m_faces m1;
  lf_flive : f_live m2 = f_live m1;
  lf_fidx : f_idx m2 = f_idx m1;
  lf_fhe : f_he m2 = f_he m1;
  lf_fresh : m_fresh m1 <= m_fresh m2
}.

Lemma hole_loop_ok m FS s f : Open m -> isB m s -> forall l b fuel acc m1 P,
  chainto (bnf m) b l s -> (forall y, In y (b :: l) -> isB m y) -> NoDup (b :: l) -> ~ In s l ->
  (forall y, In y (b :: l) -> ~ In y (map fst P)) -> GInv m m1 P FS -> length l <= fuel ->
  exists rs m2, hole_loop fuel (Some s) (Some f) (Some b) acc m1 = Ok (acc ++ map Some rs, m2) /\
    length rs = length (b :: l) /\ GInv m m2 (P ++ combine (b :: l) rs) FS /\ LFrame m1 m2 rs f.
Proof.
  intros O Bs l. induction l as [|y l IH]; intros b fuel acc m1 P Hc HB ND Hs HP G Hf.
  - assert (Bb := HB b (or_introl eq_refl)).
    destruct (hole_step m m1 P FS b f s fuel acc O G Bb (HP b (or_introl eq_refl))) as (m2 & G2 & F2 & X).
    destruct (bnf_spec m O b Bb) as (n & k & b' & En & In_ & Hk & Pk & Bb' & Eb & _).
    cbn [chainto] in Hc. rewrite Hc in Eb. injection Eb as <-.
    assert (Hk2 : k <= m_fresh m2) by (pose proof (g_fresh _ _ _ _ G2); lia).
    rewrite X, En, (bind_ok _ _ _ _ _ (next_boundary_ok m m2 _ FS s s O G2 Bs Bs (or_introl eq_refl) k n (m_fresh m2) In_ Pk Hk2)), ptr_eqb_refl.
    exists [m_fresh m1], m2. split; [reflexivity|]. split; [reflexivity|]. split; [exact G2|].
    destruct F2. split; try assumption.
    + intros z Hz. apply hf_next0. lia.
    + intros z Hz. apply hf_face0. lia.
    + intros r [<-|[]]. split; [assumption|lia].
    + lia.
  - assert (Bb := HB b (or_introl eq_refl)). assert (By := HB y (or_intror (or_introl eq_refl))).
    destruct Hc as [Hby Hc].
    destruct (hole_step m m1 P FS b f s fuel acc O G Bb (HP b (or_introl eq_refl))) as (m2 & G2 & F2 & X).
    destruct (bnf_spec m O b Bb) as (n & k & b' & En & In_ & Hk & Pk & Bb' & Eb & _).
    rewrite Hby in Eb. injection Eb as <-.
    assert (Hk2 : k <= m_fresh m2) by (pose proof (g_fresh _ _ _ _ G2); lia).
    assert (Ny : ~ In y (map fst (P ++ [(b, m_fresh m1)]))).
    { rewrite map_app, in_app_iff. cbn [map fst In]. intros [H|[H|[]]]; [exact (HP y (or_intror (or_introl eq_refl)) H)|].
      inversion ND as [|? ? Hn _]; subst. apply Hn. left; reflexivity. }
    assert (Dy : ptr_eqb (Some y) (Some s) = false) by (apply ptr_eqb_neq; intros [= ->]; apply Hs; left; reflexivity).
    rewrite X, En, (bind_ok _ _ _ _ _ (next_boundary_ok m m2 _ FS s y O G2 Bs By (or_intror Ny) k n (m_fresh m2) In_ Pk Hk2)), Dy.
    destruct fuel as [|fuel]; [cbn [length] in Hf; lia|].
    destruct (IH y fuel (acc ++ [Some (m_fresh m1)]) m2 (P ++ [(b, m_fresh m1)])) as (rs & m3 & E & Lr & G3 & F3).
    + exact Hc.
    + intros z Hz. apply HB. right; exact Hz.
    + inversion ND; assumption.
    + intros H. apply Hs. right; exact H.
    + intros z Hz. rewrite map_app, in_app_iff. cbn [map fst In]. intros [H|[->|[]]]; [exact (HP z (or_intror Hz) H)|].
      inversion ND; contradiction.
    + exact G2.
    + cbn [length] in Hf. lia.
    + exists (m_fresh m1 :: rs), m3. split; [rewrite E, <- app_assoc; reflexivity|]. split; [cbn [length] in *; congruence|].
      split; [rewrite <- app_assoc in G3; exact G3|].
      destruct F2, F3. split; try congruence.
      * intros z Hz. rewrite lf_next0, hf_next0 by lia. reflexivity.
      * intros z Hz. rewrite lf_face0, hf_face0 by lia. reflexivity.
      * intros r [<-|Hr]; [split; [rewrite lf_face0 by lia; assumption|lia]|]. destruct (lf_new0 r Hr). split; [assumption|lia].
      * lia.
Qed.

(** ** Linking the new half-edges *)
Definition with_next (g : nat -> ptr) m : mesh N :=
  mkMesh (m_verts m) (m_hes m) (m_faces m) (m_indices m) (m_fresh m)
    (v_live m) (v_pos m) (v_he m) (v_idx m) (v_lock m)
    (h_live m) (h_src m) g (h_rev m) (h_face m) (h_idx m) (h_bd m)
    (f_live m) (f_he m) (f_idx m).

Lemma link_loop (rs : list nat) d (D : d = length rs) : NoDup rs -> forall js m,
  (forall j, In j js -> j < d) -> (forall r, In r rs -> h_live m r = true) -> NoDup js ->
  exists g, mfor js (fun j => w_next (nth j (map Some rs) None) (nth (Nat.modulo (j + d - 1) d) (map Some rs) None)) m = Ok (tt, with_next g m) /\
    (forall j r, In j js -> nth_error rs j = Some r -> g r = nth (Nat.modulo (j + d - 1) d) (map Some rs) None) /\
    (forall y, (forall j, In j js -> nth_error rs j <> Some y) -> g y = h_next m y).
Proof.
  intros ND js. induction js as [|j js IH]; intros m Hj Hl NJ.
  - exists (h_next m). split; [destruct m; reflexivity|]. split; [intros j r []|reflexivity].
  - destruct (nth_error rs j) as [r|] eqn:E; [|apply nth_error_None in E; specialize (Hj j (or_introl eq_refl)); lia].
    assert (Ej : nth j (map Some rs) None = Some r) by (apply nth_error_nth; rewrite nth_error_map, E; reflexivity).
    assert (Lr := Hl r (nth_error_In _ _ E)).
    inversion NJ as [|? ? Nj NJ']; subst.
    cbn [mfor]. rewrite Ej, (bind_ok _ _ _ _ _ (ww_next m r _ Lr)).
    destruct (IH (set_h_next r (nth (Nat.modulo (j + length rs - 1) (length rs)) (map Some rs) None) m)) as (g & X & G1 & G2).
    + intros i Hi. apply Hj. right; exact Hi.
    + exact Hl.
    + exact NJ'.
    + exists g. split; [exact X|]. split.
      * intros i r' [<-|Hi] Er'; [|exact (G1 i r' Hi Er')]. assert (r' = r) by congruence. subst r'.
        rewrite G2; [flds; apply fupd_same|]. intros i Hi Ei. apply Nj. replace j with i; [exact Hi|].
        eapply (proj1 (NoDup_nth_error _) ND); [apply nth_error_Some; congruence|congruence].
      * intros y Hy. rewrite G2; [|intros i Hi; apply Hy; right; exact Hi]. flds. apply fupd_other. intros ->. apply (Hy j (or_introl eq_refl)). exact E.
Qed.

(** Consecutive elements of a chain of [bnf] and their new half-edges. *)
Lemma chainto_nth f x l z i a : chainto f x l z -> nth_error (x :: l) i = Some a ->
  f a = match nth_error (x :: l) (S i) with Some b => Some b | None => Some z end.
Proof.
  revert x i; induction l as [|y l IH]; intros x i Hc Hi.
  - destruct i as [|i]; [injection Hi as <-; exact Hc|destruct i; discriminate].
  - destruct Hc as [H1 H2]. destruct i as [|i]; [injection Hi as <-; exact H1|]. cbn [nth_error] in *. rewrite (IH y i H2 Hi). reflexivity.
Qed.

Lemma combine_nth_error {A B} (l : list A) (l' : list B) i a b :
  nth_error (combine l l') i = Some (a, b) <-> nth_error l i = Some a /\ nth_error l' i = Some b.
Proof.
  revert l' i; induction l as [|x l IH]; intros l' i.
  - destruct i; cbn [combine nth_error]; split; try discriminate; intros [? _]; discriminate.
  - destruct l' as [|y l']; [destruct i; cbn [combine nth_error]; split; try discriminate; intros [_ ?]; discriminate|].
    destruct i as [|i]; cbn [combine nth_error]; [split; [intros [= -> ->]; auto|intros [[= ->] [= ->]]; reflexivity]|apply IH].
Qed.

(** What holds between holes. *)
Record GClosed m m1 (P : list (nat * nat)) (FS : list nat) : Prop := {
  gc_next : forall b r, In (b, r) P -> exists b' r', bnf m b = Some b' /\ In (b', r') P /\ h_next m1 r' = Some r /\ h_face m1 r' = h_face m1 r;
  gc_orbit : forall b r b2 r2, In (b, r) P -> In (b2, r2) P -> h_face m1 r = h_face m1 r2 -> reaches (bnf m) b b2;
  gc_fhe : forall f, In f FS -> exists b r, In (b, r) P /\ f_he m1 f = Some r /\ h_face m1 r = Some f;
  gc_face : forall b r, In (b, r) P -> exists f, h_face m1 r = Some f /\ In f FS
}.

Lemma GInv_new_face m m1 ma P FS : GInv m m1 P FS -> NewFace m1 ma (m_fresh m1) ->
  GInv m (set_m_faces (m_faces m1 ++ [m_fresh m1]) (set_f_idx (m_fresh m1) (Z.of_nat (length (m_faces m1))) ma)) P (FS ++ [m_fresh m1]).
Proof.
  intros G [B1 (B2 & B3 & B4 & B5) (B6 & B7 & B8 & B9 & B10) (B11 & B12 & B13 & B14 & B15 & B16 & B17) Bold Bnew].
  set (f := m_fresh m1) in *. set (ml := set_m_faces _ _).
  assert (K : (m_hes ml = m_hes m1 /\ m_verts ml = m_verts m1 /\ m_indices ml = m_indices m1 /\ m_faces ml = m_faces m1 ++ [f] /\ m_fresh ml = S f) /\
    (v_live ml = v_live m1 /\ v_pos ml = v_pos m1 /\ v_he ml = v_he m1 /\ v_idx ml = v_idx m1 /\ v_lock ml = v_lock m1) /\
    (h_live ml = h_live m1 /\ h_src ml = h_src m1 /\ h_next ml = h_next m1 /\ h_rev ml = h_rev m1 /\ h_face ml = h_face m1 /\ h_idx ml = h_idx m1 /\ h_bd ml = h_bd m1) /\
    (forall y, y <> f -> f_live ml y = f_live m1 y /\ f_he ml y = f_he m1 y /\ f_idx ml y = f_idx m1 y) /\
    f_live ml f = true /\ f_idx ml f = Z.of_nat (length (m_faces m1))).
  { unfold ml. flds. repeat split; try assumption.
    - apply (Bold y H). - apply (Bold y H). - rewrite fupd_other by exact H. apply (Bold y H). - apply fupd_same. }
  clearbody ml.
  destruct K as ((K1 & K2 & K3 & K4 & K5) & (K6 & K7 & K8 & K9 & K10) & (K11 & K12 & K13 & K14 & K15 & K16 & K17) & K18 & K19 & K20).
  assert (Ffr : forall g, In g (m_faces m1) -> g < f).
  { intros h Hh. apply In_nth_error in Hh as (i & Hi). apply (proj2 (g_fl _ _ _ _ G) i h Hi). }
  split.
  - rewrite K2; apply G.
  - rewrite K3; apply G.
  - rewrite K6; apply G.
  - rewrite K7; apply G.
  - rewrite K8; apply G.
  - rewrite K9; apply G.
  - rewrite K10; apply G.
  - rewrite K5. pose proof (g_fresh _ _ _ _ G). unfold f. lia.
  - rewrite K1; apply G.
  - rewrite K4, (g_faces _ _ _ _ G), app_assoc. reflexivity.
  - destruct (g_hl _ _ _ _ G) as [H1 H2]. split; [rewrite K1; exact H1|]. intros i h Hi. rewrite K1 in Hi. rewrite K11, K16, K5.
    destruct (H2 i h Hi) as (A1 & A2 & A3). repeat split; try assumption. unfold f. lia.
  - split.
    + rewrite K4. apply nodup_snoc; [apply (g_fl _ _ _ _ G)|]. intros H. apply Ffr in H. clear - H. lia.
    + intros i g Hi. rewrite K4 in Hi. rewrite K5. apply nth_error_snoc in Hi as [Hi|[-> ->]].
      * assert (Hg := Ffr g (nth_error_In _ _ Hi)). destruct (K18 g) as (-> & _ & ->); [clear - Hg; lia|].
        destruct (proj2 (g_fl _ _ _ _ G) i g Hi) as (A1 & A2 & A3). repeat split; try assumption. clear - Hg. lia.
      * repeat split; try assumption. lia.
  - rewrite K13, K12, K15. apply G.
  - intros g Hg. destruct (K18 g) as (_ & -> & _); [|apply (g_oldf _ _ _ _ G g Hg)].
    assert (g < f) by (apply Ffr; rewrite (g_faces _ _ _ _ G); apply in_or_app; left; exact Hg). lia.
  - apply G.
  - apply G.
  - apply G.
  - rewrite K14, K17, K12. apply G.
  - rewrite K14, K17. apply G.
Qed.

Lemma GInv_next m m1 P FS g : GInv m m1 P FS -> (forall h, In h (m_hes m) -> g h = h_next m1 h) -> GInv m (with_next g m1) P FS.
Proof.
  intros G H. destruct G. split; try assumption. intros h Hh. destruct (g_old0 h Hh) as (A1 & A2 & A3). cbn [with_next h_next h_src h_face].
  rewrite (H h Hh). auto.
Qed.
Lemma GInv_fhe m m1 P FS f x : GInv m m1 P FS -> ~ In f (m_faces m) -> GInv m (set_f_he f x m1) P FS.
Proof.
  intros G H. destruct G. split; try assumption. intros g Hg. flds. rewrite fupd_other; [apply g_oldf0, Hg|]. intros ->. contradiction.
Qed.

Lemma combine_fst {A B} (l : list A) (l' : list B) : length l' = length l -> map fst (combine l l') = l.
Proof. revert l'; induction l as [|x l IH]; intros [|y l'] H; cbn [length combine map fst] in *; try discriminate; [reflexivity|]. f_equal. apply IH. congruence. Qed.
Lemma combine_snd {A B} (l : list A) (l' : list B) : length l' = length l -> map snd (combine l l') = l'.
Proof. revert l'; induction l as [|x l IH]; intros [|y l'] H; cbn [length combine map snd] in *; try discriminate; [reflexivity|]. f_equal. apply IH. congruence. Qed.

Lemma mod_prev j d : j < d -> Nat.modulo (S j + d - 1) d = j.
Proof. intros H. replace (S j + d - 1) with (j + 1 * d) by lia. rewrite Nat.mod_add, Nat.mod_small by lia. reflexivity. Qed.
Lemma mod_prev0 d : 0 < d -> Nat.modulo (0 + d - 1) d = d - 1.
Proof. intros H. apply Nat.mod_small. lia. Qed.

Lemma reaches_closed (f : nat -> option nat) (Q : nat -> Prop) a b : (forall x y, Q x -> f x = Some y -> Q y) -> reaches f a b -> Q a -> Q b.
Proof.
  intros H (n & Hn). revert a Hn; induction n as [|n IH]; intros a Hn Qa; cbn [piter] in Hn; [congruence|].
  destruct (f a) as [c|] eqn:E; [|discriminate]. eapply IH; [exact Hn|]. eapply H; eassumption.
Qed.

Lemma in_fst_pair (P : list (nat * nat)) x : In x (map fst P) -> exists r, In (x, r) P.
Proof. intros H. apply in_map_iff in H as ([y r] & <- & H). exists r. exact H. Qed.

Lemma close_hole_ok m m1 P FS h : Open m -> GInv m m1 P FS -> GClosed m m1 P FS -> In h (m_hes m) ->
  exists m2 P' FS', close_hole h m1 = Ok (tt, m2) /\ GInv m m2 (P ++ P') (FS ++ FS') /\ GClosed m m2 (P ++ P') (FS ++ FS') /\
    (h_rev m h = None -> In h (map fst (P ++ P'))).
Proof.
  intros O G C Hh.
  assert (Lv : forall y, In y (m_hes m1) -> h_live m1 y = true /\ y < m_fresh m1).
  { intros y H1. apply In_nth_error in H1 as (i & Hi). destruct (proj2 (g_hl _ _ _ _ G) i y Hi) as (A1 & _ & A3). auto. }
  assert (Hh1 : In h (m_hes m1)) by (rewrite (g_hes _ _ _ _ G); apply in_or_app; left; exact Hh).
  unfold close_hole. rewrite (bind_ok _ _ _ _ _ (r_rev m1 h (proj1 (Lv h Hh1)))).
  destruct (h_rev m1 h) as [r|] eqn:R.
  { exists m1, [], []. rewrite !app_nil_r. split; [reflexivity|]. split; [exact G|]. split; [exact C|].
    intros Z. destruct (in_dec Nat.eq_dec h (map fst P)) as [I|I]; [exact I|]. destruct (g_un _ _ _ _ G h Hh I). congruence. }
  assert (NP : ~ In h (map fst P)).
  { intros I. apply in_fst_pair in I as (r & I). destruct (g_P _ _ _ _ G h r I) as (A & _). congruence. }
  assert (Bh : isB m h) by (split; [exact Hh|destruct (g_un _ _ _ _ G h Hh NP); congruence]).
  destruct (bnf_cyc m O h Bh) as (l & Hc & ND & HB).
  assert (NPl : forall y, In y (h :: l) -> ~ In y (map fst P)).
  { intros y Hy I. apply NP. apply (reaches_closed (bnf m) (fun x => In x (map fst P)) y h); [|apply (cyc_reaches (bnf m) (h :: l)); [exact Hc|exact Hy|left; reflexivity]|exact I].
    intros x z Hx E. apply in_fst_pair in Hx as (r & Hx). destruct (gc_next _ _ _ _ C x r Hx) as (b' & r' & E' & I' & _).
    apply in_map_iff. exists (b', r'). split; [cbn [fst]; congruence|exact I']. }
  destruct (new_face_all m1) as (ma & Ema & NF). rewrite (bind_ok _ _ _ _ _ Ema).
  assert (Gb := GInv_new_face m m1 ma P FS G NF).
  assert (Lf : f_live ma (m_fresh m1) = true) by apply NF. assert (Ff : m_faces ma = m_faces m1) by apply NF.
  rewrite (bind_ok _ _ _ _ _ (x_addFace ma (m_fresh m1) (m_faces m1) Lf Ff)).
  set (f := m_fresh m1) in *. set (mb := set_m_faces (m_faces m1 ++ [f]) (set_f_idx f (Z.of_nat (length (m_faces m1))) ma)) in *.
  assert (Kb : h_next mb = h_next m1 /\ h_face mb = h_face m1 /\ m_fresh mb = S f /\ (forall y, y <> f -> f_he mb y = f_he m1 y) /\ f_live mb f = true).
  { unfold mb. flds. destruct NF as [B1 _ _ (_ & _ & B13 & _ & B15 & _) Bold Bnew]. repeat split; try assumption. intros y Hy. apply (Bold y Hy). }
  clearbody mb. clear NF Ema Lf Ff ma. destruct Kb as (Kb1 & Kb2 & Kb3 & Kb4 & Kb5).
  rewrite bind_get.
  assert (Hlen : length l <= m_fresh mb).
  { assert (length (h :: l) <= m_fresh m) as L1.
    { apply nodup_bound_length; [exact ND|]. intros x Hx. apply (o_hlt m O). apply (HB x Hx). }
    pose proof (g_fresh _ _ _ _ Gb). cbn [length] in L1. lia. }
  assert (NDl : ~ In h l) by (inversion ND; assumption).
  destruct (hole_loop_ok m (FS ++ [f]) h f O Bh l h (m_fresh mb) [] mb P Hc HB ND NDl NPl Gb Hlen) as (rs & m2 & E & Lr & G2 & F2).
  rewrite (bind_ok _ _ _ _ _ E). clear E. cbn [app].
  assert (Lf2 : f_live m2 f = true) by (rewrite (lf_flive _ _ _ _ F2); exact Kb5).
  destruct rs as [|r0 rs]; [discriminate Lr|].
  change (nth 0 (map Some (r0 :: rs)) None) with (Some r0).
  rewrite (bind_ok _ _ _ _ _ (ww_fhe m2 f (Some r0) Lf2)).
  set (RS := r0 :: rs) in *. set (P' := combine (h :: l) RS) in *.
  assert (EP1 : map fst P' = h :: l) by (apply combine_fst; exact Lr).
  assert (EP2 : map snd P' = RS) by (apply combine_snd; exact Lr).
  assert (NDr : NoDup RS).
  { destruct (g_hl _ _ _ _ G2) as [X _]. rewrite (g_hes _ _ _ _ G2), map_app, EP2, app_assoc in X.
    clear - X. induction (m_hes m ++ map snd P) as [|y k IH]; [exact X|]. apply IH. inversion X; assumption. }
  assert (Lrs : forall r, In r RS -> h_live m2 r = true).
  { intros r Hr. assert (I : In r (m_hes m2)) by (rewrite (g_hes _ _ _ _ G2), map_app, EP2; apply in_or_app; right; apply in_or_app; right; exact Hr).
    apply In_nth_error in I as (i & Hi). apply (proj2 (g_hl _ _ _ _ G2) i r Hi). }
  set (d := length RS).
  destruct (link_loop RS d eq_refl NDr (seq 0 d) (set_f_he f (Some r0) m2)) as (g & X & X1 & X2).
  { intros j Hj. apply in_seq in Hj. lia. }
  { exact Lrs. }
  { apply seq_NoDup. }
  assert (X' : link_hole (map Some RS) (set_f_he f (Some r0) m2) = Ok (tt, with_next g (set_f_he f (Some r0) m2))) by (unfold link_hole; rewrite map_length; exact X).
  rewrite X'. clear X X'.
  assert (NG : forall y, y < f -> g y = h_next m2 y).
  { intros y Hy. rewrite X2; [reflexivity|]. intros j _ Hj. apply nth_error_In in Hj. destruct (lf_new _ _ _ _ F2 y Hj) as [_ L]. rewrite Kb3 in L. clear - L Hy. lia. }
  assert (Nf : ~ In f (m_faces m)).
  { intros I. pose proof (o_flt m O f I) as L. pose proof (g_fresh _ _ _ _ G) as L'. unfold f in L. clear - L L'. lia. }
  assert (NfS : ~ In f FS).
  { intros I. assert (I' : In f (m_faces m1)) by (rewrite (g_faces _ _ _ _ G); apply in_or_app; right; exact I).
    apply In_nth_error in I' as (i & Hi). destruct (proj2 (g_fl _ _ _ _ G) i f Hi) as (_ & _ & L). unfold f in L. clear - L. lia. }
  exists (with_next g (set_f_he f (Some r0) m2)), P', [f]. split; [reflexivity|].
  assert (Old : forall b r, In (b, r) P -> r < f /\ b < f).
  { intros b r I. split; apply Lv; rewrite (g_hes _ _ _ _ G); apply in_or_app; [right|left; apply (g_pin _ _ _ _ G b r I)].
    apply in_map_iff. exists (b, r). auto. }
  assert (Fold : forall b r, In (b, r) P -> h_face m2 r = h_face m1 r /\ g r = h_next m1 r).
  { intros b r I. destruct (Old b r I) as [L _]. rewrite (NG r L), (lf_face _ _ _ _ F2), (lf_next _ _ _ _ F2), Kb1, Kb2 by (rewrite Kb3; clear - L; lia). auto. }
  assert (New : forall b r, In (b, r) P' -> In b (h :: l) /\ In r RS /\ h_face m2 r = Some f).
  { intros b r I. assert (Ir : In r RS) by (rewrite <- EP2; apply in_map_iff; exists (b, r); auto).
    split; [rewrite <- EP1; apply in_map_iff; exists (b, r); auto|]. split; [exact Ir|]. apply (lf_new _ _ _ _ F2 r Ir). }
  assert (Cross : forall b r, In (b, r) P -> h_face m1 r <> Some f).
  { intros b r I E. destruct (gc_face _ _ _ _ C b r I) as (f' & E' & I'). apply NfS. congruence. }
  split; [|split].
  - apply GInv_next; [apply GInv_fhe; assumption|]. intros y Hy. flds. apply NG. unfold f.
    pose proof (o_hlt m O y Hy) as L. pose proof (g_fresh _ _ _ _ G) as L'. clear - L L'. lia.
  - split; cbn [with_next h_next h_face f_he]; flds.
    + intros b r I. apply in_app_iff in I as [I|I].
      * destruct (gc_next _ _ _ _ C b r I) as (b' & r' & A1 & A2 & A3 & A4). exists b', r'.
        destruct (Fold b r I) as [-> _]. destruct (Fold b' r' A2) as [-> ->]. split; [exact A1|]. split; [apply in_or_app; left; exact A2|auto].
      * destruct (New b r I) as (Ib & Ir & Fr). unfold P' in I. apply In_nth_error in I as (i & Hi).
        apply combine_nth_error in Hi as [Hi1 Hi2].
        assert (Ln : i < d) by (apply nth_error_Some; unfold RS in *; congruence).
        cbn [cyc] in Hc. pose proof (chainto_nth _ _ _ _ _ _ Hc Hi1) as Bn.
        destruct (nth_error (h :: l) (S i)) as [b'|] eqn:Eb.
        -- assert (Ln' : S i < d) by (unfold d; rewrite Lr; apply nth_error_Some; congruence).
           destruct (nth_error RS (S i)) as [r'|] eqn:Er; [|apply nth_error_None in Er; fold d in Er; lia].
           assert (I' : In (b', r') P') by (apply (nth_error_In _ (S i)), combine_nth_error; auto).
           exists b', r'. split; [exact Bn|]. split; [apply in_or_app; right; exact I'|].
           split; [|destruct (New b' r' I') as (_ & _ & ->); congruence].
           rewrite (X1 (S i) r'); [|apply in_seq; lia|exact Er]. rewrite mod_prev by lia.
           apply nth_error_nth. rewrite nth_error_map, Hi2. reflexivity.
        -- assert (Ei : S i = d). { apply nth_error_None in Eb. rewrite <- Lr in Eb. fold d in Eb. lia. }
           assert (I' : In (h, r0) P') by (left; reflexivity).
           exists h, r0. split; [exact Bn|]. split; [apply in_or_app; right; exact I'|].
           split; [|destruct (New h r0 I') as (_ & _ & ->); congruence].
           rewrite (X1 0 r0); [|apply in_seq; lia|reflexivity]. rewrite mod_prev0 by lia.
           apply nth_error_nth. rewrite nth_error_map. replace (d - 1) with i by lia. rewrite Hi2. reflexivity.
    + intros b r b2 r2 I I2 Ef. apply in_app_iff in I as [I|I], I2 as [I2|I2].
      * destruct (Fold b r I) as [E1 _]. destruct (Fold b2 r2 I2) as [E2 _]. rewrite E1, E2 in Ef. exact (gc_orbit _ _ _ _ C b r b2 r2 I I2 Ef).
      * exfalso. destruct (Fold b r I) as [E1 _]. destruct (New b2 r2 I2) as (_ & _ & E2). apply (Cross b r I). congruence.
      * exfalso. destruct (Fold b2 r2 I2) as [E1 _]. destruct (New b r I) as (_ & _ & E2). apply (Cross b2 r2 I2). congruence.
      * apply (cyc_reaches (bnf m) (h :: l)); [exact Hc|apply (New b r I)|apply (New b2 r2 I2)].
    + intros f' I. apply in_app_iff in I as [I|[<-|[]]].
      * destruct (gc_fhe _ _ _ _ C f' I) as (b & r & A1 & A2 & A3). exists b, r. split; [apply in_or_app; left; exact A1|].
        assert (Df : f' <> f) by (intros ->; contradiction). rewrite fupd_other, (lf_fhe _ _ _ _ F2), Kb4 by exact Df.
        destruct (Fold b r A1) as [-> _]. auto.
      * exists h, r0. assert (I' : In (h, r0) P') by (left; reflexivity). split; [apply in_or_app; right; exact I'|].
        rewrite fupd_same. split; [reflexivity|apply (New h r0 I')].
    + intros b r I. apply in_app_iff in I as [I|I].
      * destruct (gc_face _ _ _ _ C b r I) as (f' & E & I'). destruct (Fold b r I) as [-> _]. exists f'. split; [exact E|apply in_or_app; left; exact I'].
      * exists f. split; [apply (New b r I)|apply in_or_app; right; left; reflexivity].
  - intros _. rewrite map_app, EP1. apply in_or_app. right; left; reflexivity.
Qed.

Lemma close_all m : Open m -> forall l m1 P FS, GInv m m1 P FS -> GClosed m m1 P FS -> (forall h, In h l -> In h (m_hes m)) ->
  exists m2 P' FS', mfor l close_hole m1 = Ok (tt, m2) /\ GInv m m2 (P ++ P') (FS ++ FS') /\ GClosed m m2 (P ++ P') (FS ++ FS') /\
    (forall h, In h l -> h_rev m h = None -> In h (map fst (P ++ P'))).
Proof.
  intros O l. induction l as [|h l IH]; intros m1 P FS G C Hl.
  - exists m1, [], []. rewrite !app_nil_r. split; [reflexivity|]. split; [exact G|]. split; [exact C|]. intros h [].
  - destruct (close_hole_ok m m1 P FS h O G C (Hl h (or_introl eq_refl))) as (m2 & P1 & F1 & E & G2 & C2 & H2).
    destruct (IH m2 _ _ G2 C2) as (m3 & P2 & F2 & E3 & G3 & C3 & H3); [intros y Hy; apply Hl; right; exact Hy|].
    rewrite <- !app_assoc in G3, C3.
    exists m3, (P1 ++ P2), (F1 ++ F2). split; [cbn [mfor]; rewrite (bind_ok _ _ _ _ _ E); exact E3|].
    split; [exact G3|]. split; [exact C3|]. intros y [->|Hy] Z; [|rewrite app_assoc; exact (H3 y Hy Z)].
    rewrite app_assoc, map_app. apply in_or_app. left. exact (H2 Z).
Qed.

Lemma GInv_start m : Open m -> GInv m m [] [].
Proof.
  intros O. split; try reflexivity; try (rewrite app_nil_r; reflexivity); try (solve [intros ? ? []]).
  - exact (o_hl m O).
  - exact (o_fl m O).
  - auto.
  - constructor.
  - intros b Hb _. split; [reflexivity|]. apply (o_bd m O b Hb).
Qed.
Lemma GClosed_start m : GClosed m m [] [].
Proof. split; try (intros ? ? []); intros ? []. Qed.

End BuildClose.
