(** The first part of holeFillContextCoherent fills every hole. *)
From Coq Require Import List ZArith Arith Lia Bool Permutation.
From Verif Require Import Num Vec Heap Mesh Construct Spec Built BuildProps EditSpec EditRun Orbit Rings Exec SmoothP Remove Queries Fill FillO FillQ FillSpec FillP FillE Front FrontA FrontS FrontSpec FrontE FrontW FrontC.
Import ListNotations.
Local Open Scope mesh_scope.

Section D.
Context {N : Num}.
Implicit Types m : mesh N.
Variable relax : mesh N -> list nat -> option (nat -> vec N).

Section One.
Variables (m m1 : mesh N) (f : nat) (ring bs : list nat).
Hypothesis W : WF m.
Hypothesis AP : HolesApart m.
Hypothesis H : Hole m f.
Hypothesis C : Corners m f ring bs.
Hypothesis FF : FrontFilled m f bs m1.
Let W1 := ff_wf _ _ _ _ FF.

Lemma d_he h g : In h (m_hes m1) -> h_face m1 h = Some g -> In g (m_faces m) -> g <> f ->
  In h (m_hes m) /\ h_face m h = Some g /\ h_src m1 h = h_src m h /\ h_next m1 h = h_next m h.
Proof.
  intros I F G D. destruct (ff_outer _ _ _ _ FF h g I F G D) as [I0 F0]. destruct (ff_he _ _ _ _ FF h I0) as (_ & A & B & _); [congruence|]. auto.
Qed.
Lemma d_rev h r g : In h (m_hes m) -> h_rev m h = Some r -> h_face m h = Some g -> Hole m g -> g <> f -> SameHE m m1 h.
Proof.
  intros I R F G D. apply (ff_same _ _ _ _ FF h r I R); [congruence|]. intros E. exact (AP h r g f I R F E G H).
Qed.
Lemma d_hole g : Hole m1 g <-> Hole m g /\ g <> f.
Proof.
  split; [exact (ff_hole _ _ _ _ FF g)|]. intros [G D]. split.
  - destruct G as [G _]. apply In_nth_error in G as (i & E). exact (nth_error_In _ _ (ff_face _ _ _ _ FF i g E)).
  - intros h I F. destruct (d_he h g I F (proj1 G) D) as (I0 & F0 & _). destruct (wf_rev m W h I0) as (r & Er & _). destruct (d_rev h r g I0 Er F0 G D) as (_ & _ & _ & _ & ->). exact (proj2 G h I0 F0).
Qed.
Lemma d_apart : HolesApart m1.
Proof.
  intros h r g g' I R F F' G G'. apply d_hole in G as [G D]. apply d_hole in G' as [G' D']. destruct (d_he h g I F (proj1 G) D) as (I0 & F0 & _).
  destruct (d_he r g' (rev_in m1 W1 h r I R) F' (proj1 G') D') as (Ir & Fr & _). destruct (wf_rev m W h I0) as (r0 & Er & _). destruct (d_rev h r0 g I0 Er F0 G D) as (_ & _ & Q & _). apply (AP h r g g' I0); [congruence|assumption..].
Qed.
Lemma d_corners g rg b : g <> f -> Hole m g -> Corners m1 g rg b -> Corners m g rg b.
Proof.
  intros D G (C1 & C2 & C3 & C4). assert (K : forall h, In h rg -> In h (m_hes m) /\ h_face m h = Some g /\ h_src m1 h = h_src m h /\ h_next m1 h = h_next m h) by (intros h I; apply C3 in I as [I F]; exact (d_he h g I F (proj1 G) D)).
  split; [exact C1|]. split; [|split].
  - apply (cyc_ext (h_next m1)); [intros x I; destruct (K x I) as (_ & _ & _ & Q); congruence|exact C2].
  - intros h. split; [intros I; destruct (K h I) as (A & B & _); auto|]. intros [I F]. apply C3. destruct (ff_he _ _ _ _ FF h I) as (A & _ & _ & B); [congruence|]. rewrite B. auto.
  - rewrite <- C4. apply map_ext_in. intros h I. destruct (K h I) as (_ & _ & Q & _). congruence.
Qed.
Lemma d_corners3 : Corners3 m -> Corners3 m1.
Proof. intros A g rg b G K. apply d_hole in G as [G D]. exact (A g rg b G (d_corners g rg b D G K)). Qed.
Lemma d_athole v : AtHole m1 v -> In v (m_verts m) /\ AtHole m v.
Proof.
  intros (h & g & I & S & F & G). apply d_hole in G as [G D]. destruct (d_he h g I F (proj1 G) D) as (I0 & F0 & S0 & _). rewrite S0 in S. split; [exact (src_in m W h v I0 S)|]. exists h, g. auto.
Qed.
Lemma d_bs v : In v bs <-> exists h, In h (m_hes m) /\ h_src m h = Some v /\ h_face m h = Some f.
Proof.
  destruct C as (_ & _ & C3 & C4). assert (Q : In v bs <-> In (Some v) (map (h_src m) ring)).
  { rewrite C4, in_map_iff. split; [intros I; exists v; auto|]. intros (w & [= ->] & I). exact I. }
  rewrite Q, in_map_iff. split; intros (h & A); exists h; rewrite C3 in *; tauto.
Qed.
Lemma d_face g : In g (m_faces m) -> In g (m_faces m1).
Proof. intros I. apply In_nth_error in I as (i & E). exact (nth_error_In _ _ (ff_face _ _ _ _ FF i g E)). Qed.
Lemma d_vert v : In v (m_verts m) -> In v (m_verts m1).
Proof. intros I. apply In_nth_error in I as (i & E). exact (nth_error_In _ _ (ff_vert _ _ _ _ FF i v E)). Qed.

Lemma d_compose m2 : FrontsFilled (fun v => v_lock m1 v = true \/ AtHole m1 v) m1 m2 -> FrontsFilled (fun v => v_lock m v = true \/ AtHole m v) m m2.
Proof.
  intros S. constructor.
  - exact (fs_wf _ _ _ S).
  - exact (fs_noloops _ _ _ S).
  - rewrite (fs_euler _ _ _ S). exact (ff_euler _ _ _ _ FF).
  - intros i v E. apply (fs_vert _ _ _ S), (ff_vert _ _ _ _ FF), E.
  - intros i g E. apply (fs_face _ _ _ S), (ff_face _ _ _ _ FF), E.
  - intros h g I F NH. assert (D : g <> f) by (intros ->; contradiction). destruct (ff_he _ _ _ _ FF h I) as (A1 & A2 & A3 & A4); [congruence|]. destruct (fs_he _ _ _ S h g A1) as (B1 & B2 & B3 & B4); [congruence|intros K; apply d_hole in K; tauto|]. repeat split; congruence.
  - intros h g I F G NH. assert (D : g <> f) by (intros ->; contradiction). destruct (fs_outer _ _ _ S h g I F (d_face g G)) as [A1 A2]; [intros K; apply d_hole in K; tauto|]. destruct (d_he h g A1 A2 G D) as (B1 & B2 & _). auto.
  - intros g I Q. destruct (in_dec Nat.eq_dec g (m_faces m1)) as [J|J]; [|exact (fs_new _ _ _ S g I (or_introl J))].
    destruct (Nat.eq_dec g f) as [->|D]; [|destruct Q as [Q | Q]; [|apply (fs_new _ _ _ S g I); right; apply d_hole; auto]].
    + destruct (ff_new _ _ _ _ FF f J (or_intror eq_refl)) as [(a & b & c & T & DD) NH]. exists a, b, c. split; [|exact DD]. destruct T as (x & y & z & FX & N1 & N2 & N3 & S1 & S2 & S3).
      assert (K : forall h, h = x \/ h = y \/ h = z -> In h (m_hes m2) /\ h_src m2 h = h_src m1 h /\ h_next m2 h = h_next m1 h /\ h_face m2 h = Some f).
      { intros h E. apply FX in E as [E1 E2]. destruct (fs_he _ _ _ S h f E1 E2 NH) as (B1 & B2 & B3 & B4). repeat split; congruence. }
      destruct (K x) as (_ & X1 & X2 & _); [auto|]. destruct (K y) as (_ & Y1 & Y2 & _); [auto|]. destruct (K z) as (_ & Z1 & Z2 & _); [auto|]. exists x, y, z. split; [|repeat split; congruence].
      intros h. split; [intros [E1 E2]; apply FX; exact (fs_outer _ _ _ S h f E1 E2 J NH)|intros E; destruct (K h E) as (B1 & _ & _ & B4); auto].
    + destruct (ff_new _ _ _ _ FF g J (or_introl Q)) as [(a & b & c & T & DD) NH]. exists a, b, c. split; [|exact DD]. destruct T as (x & y & z & FX & N1 & N2 & N3 & S1 & S2 & S3).
      assert (K : forall h, h = x \/ h = y \/ h = z -> In h (m_hes m2) /\ h_src m2 h = h_src m1 h /\ h_next m2 h = h_next m1 h /\ h_face m2 h = Some g).
      { intros h E. apply FX in E as [E1 E2]. destruct (fs_he _ _ _ S h g E1 E2 NH) as (B1 & B2 & B3 & B4). repeat split; congruence. }
      destruct (K x) as (_ & X1 & X2 & _); [auto|]. destruct (K y) as (_ & Y1 & Y2 & _); [auto|]. destruct (K z) as (_ & Z1 & Z2 & _); [auto|]. exists x, y, z. split; [|repeat split; congruence].
      intros h. split; [intros [E1 E2]; apply FX; exact (fs_outer _ _ _ S h g E1 E2 J NH)|intros E; destruct (K h E) as (B1 & _ & _ & B4); auto].
  - exact (fs_hole _ _ _ S).
  - intros v I NA. rewrite (fs_pos _ _ _ S v (d_vert v I)); [|intros K; apply d_athole in K; tauto]. apply (ff_pos _ _ _ _ FF v I). intros K. apply d_bs in K as (h & A1 & A2 & A3). apply NA. exists h, f. auto.
  - intros v I. rewrite (fs_lock _ _ _ S v (d_vert v I)). split.
    + intros [K | K]; [|right; exact (proj2 (d_athole v K))]. destruct (in_dec Nat.eq_dec v bs) as [J|J]; [right; apply d_bs in J as (h & A1 & A2 & A3); exists h, f; auto|]. left. destruct (ff_pos _ _ _ _ FF v I J) as [_ <-]. exact K.
    + intros [K | K].
      * left. destruct (in_dec Nat.eq_dec v bs) as [J|J]; [exact (ff_lock _ _ _ _ FF v J)|]. destruct (ff_pos _ _ _ _ FF v I J) as [_ ->]. exact K.
      * destruct K as (h & g & A1 & A2 & A3 & A4). destruct (Nat.eq_dec g f) as [->|D]; [left; apply (ff_lock _ _ _ _ FF); apply d_bs; exists h; auto|]. right. destruct (ff_he _ _ _ _ FF h A1) as (B1 & B2 & B3 & B4); [congruence|]. exists h, g. split; [exact B1|]. split; [congruence|]. split; [congruence|]. apply d_hole. auto.
  - intros v I NI. destruct (in_dec Nat.eq_dec v (m_verts m1)) as [J|J]; [|exact (fs_newv _ _ _ S v I J)]. destruct (v_lock m2 v) eqn:K; [|reflexivity]. apply (fs_lock _ _ _ S v J) in K as [K | K]; [rewrite (ff_newv _ _ _ _ FF v J NI) in K; discriminate|]. apply d_athole in K. tauto.
Qed.
End One.

(** Nothing to do. *)
Lemma d_none m : WF m -> NoLoops m -> (forall f, ~ Hole m f) -> FrontsFilled (fun v => v_lock m v = true \/ AtHole m v) m m.
Proof.
  intros W NL NH. constructor; auto.
  - intros g I [K | K]; [contradiction|destruct (NH g K)].
  - intros v I. split; [auto|]. intros [K | (h & g & _ & _ & _ & K)]; [exact K|destruct (NH g K)].
  - intros v I K. contradiction.
Qed.

Lemma fronts_ok fuel : forall k i m, WF m -> NoLoops m -> HolesApart m -> Corners3 m -> (forall j f, j < i -> nth_error (m_faces m) j = Some f -> ~ Hole m f) ->
  match fronts relax k fuel i m with Ok (_, m') => FrontsFilled (fun v => v_lock m v = true \/ AtHole m v) m m' | UB u => u = OutOfBounds /\ ~ AnglesBelow N | Abort _ | NoFuel => True end.
Proof.
  induction k as [|k IH]; intros i m W NL AP C3 LT; [exact I|]. cbn [fronts]. rewrite bind_get. destruct (Nat.ltb_spec i (length (m_faces m))) as [L|L].
  - destruct (nth_error (m_faces m) i) as [f|] eqn:E; [|apply nth_error_None in E; lia]. assert (If := nth_error_In _ _ E).
    rewrite (bind_ok _ _ m (Some f) m) by (rewrite mesh_face_eq, E; reflexivity). rewrite (bind_ok _ _ _ _ _ (isHole_holeb m f W If)). destruct (holeb m f) eqn:B.
    + apply holeb_iff in B; [|exact If]. destruct (corners_of m f W If) as (ring & bs & C). destruct (C3 f ring bs B C) as [ND L3]. assert (K := advancing_front relax fuel m f ring bs W NL If C ND L3).
      unfold bind. destruct (holeFillAdvancingFront relax fuel (Some f) m) as [[[] m1]|u|a|]; [|exact K|exact I|exact I].
      assert (LT' : forall j g, j < i + 1 -> nth_error (m_faces m1) j = Some g -> ~ Hole m1 g).
      { intros j g Lj Ej H. apply (d_hole m m1 f bs W AP B K) in H as [H D]. destruct (Nat.eq_dec j i) as [->|Dj]; [rewrite (ff_face _ _ _ _ K i f E) in Ej; congruence|].
        destruct (nth_error (m_faces m) j) as [g'|] eqn:E'; [|apply nth_error_None in E'; lia]. rewrite (ff_face _ _ _ _ K j g' E') in Ej. injection Ej as ->. apply (LT j g); [lia|exact E'|exact H]. }
      assert (Q := IH (i + 1) m1 (ff_wf _ _ _ _ K) (ff_noloops _ _ _ _ K) (d_apart m m1 f bs W AP B K) (d_corners3 m m1 f bs W AP B K C3) LT').
      destruct (fronts relax k fuel (i + 1) m1) as [[[] m2]|u|a|]; [apply (d_compose m m1 f ring bs W AP B C K), Q|exact Q|exact I|exact I].
    + assert (Z : (ret tt ;; fronts relax k fuel (i + 1)) m = fronts relax k fuel (i + 1) m) by reflexivity. rewrite Z. apply IH; try assumption.
      intros j g Lj Ej H. destruct (Nat.eq_dec j i) as [->|Dj]; [|apply (LT j g); [lia|exact Ej|exact H]]. assert (g = f) by congruence. subst g. apply holeb_iff in H; [congruence|exact If].
  - apply d_none; [exact W|exact NL|]. intros f H. destruct H as [If H]. assert (If' := If). apply In_nth_error in If' as (j & E). apply (LT j f); [|exact E|split; assumption]. assert (j < length (m_faces m)) by (apply nth_error_Some; congruence). lia.
Qed.

(** Locking. *)
Lemma lock_all_ok m : WF m -> exists k, lock_all m = Ok (tt, with_lock k m) /\ forall v, In v (m_verts m) -> k v = true.
Proof.
  intros W. unfold lock_all. rewrite bind_get. assert (K : forall vs pre k, m_verts m = pre ++ vs -> (forall v, In v pre -> k v = true) -> exists k', mfor (seq (length pre) (length vs)) (fun i => v <- mesh_vertex (Z.of_nat i) ;; w_lock v true) (with_lock k m) = Ok (tt, with_lock k' m) /\ forall v, In v (m_verts m) -> k' v = true).
  { induction vs as [|v vs IH]; intros pre k E Hk; [exists k; split; [reflexivity|]; intros v I; apply Hk; rewrite E, app_nil_r in I; exact I|].
    assert (X : nth_error (m_verts m) (length pre) = Some v) by (rewrite E; apply nth_mid). cbn [length seq mfor].
    destruct (IH (pre ++ [v]) (fupd k v true)) as (k' & E' & Hk'); [rewrite <- app_assoc; exact E| |].
    - intros w I. unfold fupd. destruct (Nat.eqb_spec w v) as [|D]; [reflexivity|]. apply in_app_or in I as [I | [I | []]]; [exact (Hk w I)|congruence].
    - exists k'. split; [|exact Hk']. rewrite app_length, Nat.add_1_r in E'. rewrite (bind_ok _ _ _ tt (with_lock (fupd k v true) m)); [exact E'|].
      rewrite (bind_ok _ _ _ (Some v) (with_lock k m)) by (rewrite mesh_vertex_eq; change (m_verts (with_lock k m)) with (m_verts m); rewrite X; reflexivity). exact (ww_lock (with_lock k m) v true (v_alive m W v (nth_error_In _ _ X))). }
  destruct (K (m_verts m) [] (v_lock m) eq_refl) as (k & E & Hk); [intros v []|]. exists k. split; [|exact Hk]. rewrite <- E. destruct m; reflexivity.
Qed.

Theorem fill_fronts_ok k fuel m : WF m -> NoLoops m -> HolesApart m -> Corners3 m ->
  match fill_fronts relax k fuel m with Ok (_, m') => FrontsFilled (fun _ => True) m m' | UB u => u = OutOfBounds /\ ~ AnglesBelow N | Abort _ | NoFuel => True end.
Proof.
  intros W NL AP C3. unfold fill_fronts. destruct (lock_all_ok m W) as (l & E & Hl). rewrite (bind_ok _ _ _ _ _ E). assert (K := fronts_ok fuel k 0 (with_lock l m) (wf_lock l m W) NL AP C3). 
  destruct (fronts relax k fuel 0 (with_lock l m)) as [[[] m2]|u|a|]; [|apply K; intros j f Lj; lia|exact I|exact I]. assert (S := K ltac:(intros j f Lj; lia)). clear K. assert (FL := fs_lock _ _ _ S). destruct S. constructor; try assumption.
  intros v I. split; [auto|]. intros _. apply FL; [exact I|]. left. exact (Hl v I).
Qed.
Theorem fill_fronts_constructed k fuel ps ix m : mesh_of ps ix = Ok m -> HolesApart m ->
  match fill_fronts relax k fuel m with Ok (_, m') => FrontsFilled (fun _ => True) m m' | UB u => u = OutOfBounds /\ ~ AnglesBelow N | Abort _ | NoFuel => True end.
Proof.
  intros E AP. apply mesh_of_ok in E. destruct (construct_valid ps ix _ m E) as [V _]. destruct (construct_faces ps ix _ m E) as [A D]. apply fill_fronts_ok; [apply V|apply V|exact AP|].
  intros f ring bs H C. split; [exact (D f ring bs (proj1 H) C)|]. rewrite <- (corners_len m f ring bs C). exact (ring_ge3 m f ring A (proj1 (proj1 (corners_ring m f ring bs) C))).
Qed.
End D.
