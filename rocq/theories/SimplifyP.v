(** simplifyQEM keeps the mesh valid. *)
From Coq Require Import List ZArith Arith Bool Lia.
From Verif Require Import Num Vec Heap Mesh Spec EditSpec Orbit Rings Exec Edits Seqs Prog ProgP SmoothSpec Smooth SmoothP SmoothD SmoothEx RemeshSpec Simplify Wp.
Import ListNotations.

Section P.
Context {N : Num}.
Implicit Types m : mesh N.
Variable ab : abkind -> Prop.
Notation wp := (wp ab).

Lemma ev_refl m : Valid m -> Evolves m m.
Proof. intros V. constructor; [exact V|reflexivity|]. intros F. split; [exact F|]. intros v Iv B. auto. Qed.
Lemma ev_trans m1 m2 m3 : Evolves m1 m2 -> Evolves m2 m3 -> Evolves m1 m3.
Proof.
  intros [V2 E2 B2] [V3 E3 B3]. constructor; [exact V3|congruence|]. intros F. destruct (B2 F) as [F2 K2]. destruct (B3 F2) as [F3 K3]. split; [exact F3|].
  intros v Iv Hb. destruct (K2 v Iv Hb) as (I2 & Hb2 & P2). destruct (K3 v I2 Hb2) as (I3 & Hb3 & P3). split; [exact I3|split; [exact Hb3|congruence]].
Qed.
Lemma ev_posonly m m' : Valid m -> posonly m m' -> (forall v, on_boundary m v -> v_pos m' v = v_pos m v) -> Evolves m m'.
Proof.
  intros V P K. constructor; [exact (posonly_valid m m' V P)|destruct P as [_ ->]; reflexivity|]. intros F. split; [destruct P as [_ ->]; exact F|].
  intros v Iv B. split; [destruct P as [_ ->]; exact Iv|]. split; [apply (posonly_bd m m' v P), B|apply K, B].
Qed.
Lemma posonly_setpos m v x : In v (m_verts m) -> posonly m (set_v_pos v x m).
Proof.
  intros Iv. constructor; [|reflexivity]. intros w Hw. cbn. unfold fupd. destruct (Nat.eqb_spec w v); [subst; contradiction|reflexivity].
Qed.
Lemma setpos_other m v w x : w <> v -> v_pos (set_v_pos v x m) w = v_pos m w.
Proof. intros H. cbn. unfold fupd. destruct (Nat.eqb_spec w v); [contradiction|reflexivity]. Qed.

(** All half-edges of a triangle. *)
Lemma tri_face m h n p : WF m -> In h (m_hes m) -> h_next m h = Some n -> h_next m n = Some p -> h_next m p = Some h ->
  forall y, In y (m_hes m) -> h_face m y = h_face m h -> y = h \/ y = n \/ y = p.
Proof.
  intros W I E1 E2 E3 y Iy F. destruct (wf_face_orbit m W h y I Iy (eq_sym F)) as [k Hk]. clear F Iy I. revert h n p E1 E2 E3 Hk.
  induction k as [|k IH]; intros h n p E1 E2 E3 Hk; cbn [piter] in Hk; [injection Hk as ->; auto|].
  rewrite E1 in Hk. destruct (IH n p h E2 E3 E1 Hk) as [|[|]]; auto.
Qed.
Lemma tri_of m f a b c : WF m -> NoParallel m -> Tri m f a b c -> forall y, In y (m_hes m) -> h_src m y = Some a -> dst_of m y = Some b -> h_face m y = Some f.
Proof.
  intros W NP (x & z & w & Hm & N1 & N2 & N3 & S1 & S2 & S3) y Iy Sy Dy.
  assert (Ix : In x (m_hes m) /\ h_face m x = Some f) by (apply Hm; auto). destruct Ix as [Ix Fx].
  replace y with x; [exact Fx|]. apply NP; [exact Ix|exact Iy|congruence|]. rewrite Dy, <- S2. unfold dst_of. destruct (wf_rev m W x Ix) as (r & Er & _). rewrite Er. symmetry. exact (wf_dst m W x z r Ix N1 Er).
Qed.
(** The two faces at the edge of [h]. *)
Lemma edge_faces m h r u0 u1 u2 u3 f0 f1 : Valid m -> In h (m_hes m) -> h_rev m h = Some r -> EdgeOf m h u0 u1 u2 u3 f0 f1 ->
  (h_face m h = Some f0 /\ h_face m r = Some f1) \/ (h_face m h = Some f1 /\ h_face m r = Some f0).
Proof.
  intros V I R (E & T0 & T1 & _). assert (W := valid_wf m V). assert (NP := valid_noparallel m V).
  destruct (wf_rev m W h I) as (r' & R' & Ir). assert (r' = r) by congruence. subst r'. assert (Rr := proj1 (wf_rev_invol m W h r I R)).
  assert (X : forall a b, h_src m h = Some a -> dst_of m h = Some b -> h_src m r = Some b /\ dst_of m r = Some a).
  { intros a b Sa Db. unfold dst_of in *. rewrite R in Db. rewrite Rr. auto. }
  destruct E as [[S1 D1] | [S1 D1]]; destruct (X _ _ S1 D1) as [S2 D2].
  - left. split; [exact (tri_of m f0 u0 u2 u1 W NP T0 h I S1 D1)|exact (tri_of m f1 u2 u0 u3 W NP T1 r Ir S2 D2)].
  - right. split; [exact (tri_of m f1 u2 u0 u3 W NP T1 h I S1 D1)|exact (tri_of m f0 u0 u2 u1 W NP T0 r Ir S2 D2)].
Qed.

(** ** Collapsing an interior edge *)
Lemma collapse_evolves m he r m' : Valid m -> In he (m_hes m) -> h_rev m he = Some r ->
  (forall v, h_src m he = Some v \/ h_src m r = Some v -> ~ on_boundary m v) ->
  collapseHE (Some he) m = Ok (true, m') ->
  Evolves m m' /\ length (m_faces m) = 2 + length (m_faces m') /\ length (m_verts m) = 1 + length (m_verts m') /\
  forall h, In h (m_hes m) -> In h (m_hes m') \/ h_face m h = h_face m he \/ h_face m h = h_face m r.
Proof.
  intros V I R NB E. assert (W := valid_wf m V).
  destruct (collapse_top m he V I) as [[C _] | (b & m2 & E2 & V' & _ & T)]; [rewrite C in E; discriminate|].
  rewrite E in E2. injection E2 as <- <-. destruct (T eq_refl) as (u0 & u1 & u2 & u3 & f0 & f1 & X & _).
  assert (EF := edge_faces m he r u0 u1 u2 u3 f0 f1 V I R (ce_edge _ _ _ _ _ _ _ _ _ X)).
  assert (Rm : forall h, In h (m_hes m) -> In h (m_hes m') \/ h_face m h = Some f0 \/ h_face m h = Some f1).
  { intros h Ih. destruct (wf_face m W h Ih) as (f & Ef & _). destruct (Nat.eq_dec f f0) as [->|N0]; [auto|]. destruct (Nat.eq_dec f f1) as [->|N1]; [auto|].
    left. apply (ce_hes _ _ _ _ _ _ _ _ _ X). split; [exact Ih|]. split; congruence. }
  split; [|split; [exact (ce_nf _ _ _ _ _ _ _ _ _ X)|split; [exact (ce_nv _ _ _ _ _ _ _ _ _ X)|]]].
  2:{ intros h Ih. destruct (Rm h Ih) as [H | H]; [left; exact H|right]. destruct EF as [[-> ->] | [-> ->]]; tauto. }
  constructor; [exact V'|exact (collapse_euler _ _ _ _ _ _ _ _ _ X)|]. intros F. split; [exact (collapse_flags_top m he true m' V F I E)|].
  assert (U : ~ on_boundary m u0 /\ ~ on_boundary m u2).
  { destruct (ce_edge _ _ _ _ _ _ _ _ _ X) as ([[S1 D1] | [S1 D1]] & _); unfold dst_of in D1; rewrite R in D1; split; apply NB; auto. }
  destruct U as [U0 U2].
  (* flagged half-edges are not removed *)
  assert (Fl : forall h f a b c, (~ on_boundary m a) -> (~ on_boundary m b) -> Tri m f a b c -> In h (m_hes m) -> h_bd m h = true -> h_face m h <> Some f).
  { intros h f a b c Na Nb (x & z & w & Hm & N1 & N2 & N3 & S1 & S2 & S3) Ih Bh Fh.
    assert (Iw : In w (m_hes m) /\ h_face m w = Some f) by (apply Hm; auto).
    destruct (proj1 (Hm h) (conj Ih Fh)) as [->|[->| ->]]; [apply Na; exists x; auto|apply Nb; exists z; auto|].
    destruct (wf_rev m W w (proj1 Iw)) as (q & Eq & Iq). apply Na. exists q. split; [exact Iq|]. split; [rewrite <- (wf_dst m W w x q (proj1 Iw) N3 Eq); exact S1|].
    rewrite <- (F w q (proj1 Iw) Eq). exact Bh. }
  destruct (ce_edge _ _ _ _ _ _ _ _ _ X) as (_ & T0 & T1 & _).
  intros v Iv (h & Ih & Sh & Bh).
  assert (Ih' : In h (m_hes m')).
  { destruct (Rm h Ih) as [H | [H | H]]; [exact H| |]; exfalso; [exact (Fl h f0 u0 u2 u1 U0 U2 T0 Ih Bh H)|exact (Fl h f1 u2 u0 u3 U2 U0 T1 Ih Bh H)]. }
  assert (v <> u2). { intros ->. apply U2. exists h. auto. }
  split; [apply (ce_verts _ _ _ _ _ _ _ _ _ X); auto|]. split; [|apply (ce_data _ _ _ _ _ _ _ _ _ X v)].
  exists h. split; [exact Ih'|]. split; [|rewrite (proj2 (proj2 (ce_next _ _ _ _ _ _ _ _ _ X h Ih'))); exact Bh].
  apply (ce_src _ _ _ _ _ _ _ _ _ X h v Ih'). exists v. split; [exact Sh|]. unfold merge. destruct (Nat.eqb_spec v u2); [contradiction|reflexivity].
Qed.

(** ** Flipping an interior edge *)
Lemma flip_evolves m he r : Valid m -> In he (m_hes m) -> h_rev m he = Some r ->
  (forall h, In h (m_hes m) -> h_face m h = h_face m he \/ h_face m h = h_face m r -> h_bd m h = false) ->
  exists b m', flipHE (Some he) m = Ok (b, m') /\ Evolves m m' /\ length (m_faces m') = length (m_faces m) /\ length (m_hes m') = length (m_hes m) /\ m_verts m' = m_verts m /\ forall v, SameData m m' v.
Proof.
  intros V I R NB. assert (W := valid_wf m V). destruct (wf_rev m W he I) as (r' & R' & Ir). assert (r' = r) by congruence. subst r'.
  assert (T1 := valid_tri m V he I (NB he I (or_introl eq_refl))). assert (T2 := valid_tri m V r Ir (NB r Ir (or_intror eq_refl))).
  destruct (flip_top m he r V I R T1 T2) as (b & m' & E & V' & Hf & u0 & u1 & u2 & u3 & f0 & f1 & S0 & D0 & _ & _ & _ & Ht).
  exists b, m'. split; [exact E|]. destruct b.
  - specialize (Ht eq_refl). destruct (fe_lists _ _ _ _ _ _ _ _ _ Ht) as (L1 & L2 & L3). split; [|split; [congruence|split; [congruence|split; [exact L1|exact (fe_data _ _ _ _ _ _ _ _ _ Ht)]]]].
    constructor; [exact V'|exact (flip_euler _ _ _ _ _ _ _ _ _ Ht)|]. intros F. split; [exact (flip_flags_top m he r true m' V F I R T1 T2 E)|].
    intros v Iv (h & Ih & Sh & Bh). split; [rewrite L1; exact Iv|]. split; [|apply (fe_data _ _ _ _ _ _ _ _ _ Ht v)].
    assert (EF := edge_faces m he r u0 u1 u2 u3 f0 f1 V I R (fe_edge _ _ _ _ _ _ _ _ _ Ht)).
    destruct (fe_other _ _ _ _ _ _ _ _ _ Ht h Ih) as (Q1 & _ & _ & _ & Q5).
    + intros Fh. rewrite NB in Bh; [discriminate|exact Ih|]. destruct EF as [[-> ->] | [-> ->]]; tauto.
    + intros Fh. rewrite NB in Bh; [discriminate|exact Ih|]. destruct EF as [[-> ->] | [-> ->]]; tauto.
    + exists h. rewrite L2, Q1, Q5. auto.
  - rewrite (Hf eq_refl). split; [apply ev_refl, V|]. split; [reflexivity|split; [reflexivity|split; [reflexivity|]]]. intros v; split; reflexivity.
Qed.

(** ** Arrays *)
Lemma wp_touch m n i v (Q : unit -> mesh N -> Prop) : nth_error (m_verts m) i = Some v -> n = length (m_verts m) -> Q tt m -> wp (touch n (Z.of_nat i)) m Q.
Proof.
  intros E -> H. assert (i < length (m_verts m)) by (apply nth_error_Some; congruence). eapply wp_ok; [|exact H]. unfold touch.
  replace ((0 <=? Z.of_nat i) && (Z.of_nat i <? Z.of_nat (length (m_verts m))))%Z with true; [reflexivity|]. symmetry. apply andb_true_iff. split; [apply Z.leb_le|apply Z.ltb_lt]; lia.
Qed.
Lemma wp_flag_at m ck i (Q : bool -> mesh N -> Prop) : i < length ck -> (forall b : bool, Q b m) -> wp (flag_at ck (Z.of_nat i)) m Q.
Proof.
  intros L H. unfold flag_at. destruct (Z.ltb_spec (Z.of_nat i) 0); [lia|]. rewrite Nat2Z.id. destruct (nth_error ck i) as [b|] eqn:E; [apply wp_ret, H|]. apply nth_error_None in E. lia.
Qed.
Lemma wp_flag_set m ck i (Q : list bool -> mesh N -> Prop) : i < length ck -> (forall ck', length ck' = length ck -> Q ck' m) -> wp (flag_set ck (Z.of_nat i)) m Q.
Proof.
  intros L H. unfold flag_set. apply wp_bind, wp_flag_at; [exact L|]. intros _. apply wp_ret, H. rewrite Nat2Z.id. apply setnth_length.
Qed.

(** ** The pieces of simplifyQEM *)
Hypothesis Hnan : forall m, ~ PosOk m -> ab AAssert.
Hypothesis Hdiv : forall x : vec N, vdiv x (nadd (vlength x) neps12) = None -> ab AThrow.

Lemma wp_lift_none {A} (o : option A) m (Q : A -> mesh N -> Prop) : (o = None -> ab AThrow) -> (forall a, Q a m) -> wp (lift o) m Q.
Proof. intros H1 H2. destruct o as [a|]; [exact (H2 a)|exact (H1 eq_refl)]. Qed.

Lemma quad_face_ok m i : Valid m -> i < length (m_faces m) -> wp (quad_face (length (m_verts m)) i) m (fun b m' => b = true /\ m' = m).
Proof.
  intros V L. assert (W := valid_wf m V). destruct (nth_error (m_faces m) i) as [f|] eqn:E; [|apply nth_error_None in E; lia]. assert (If := nth_error_In _ _ E).
  unfold quad_face. apply wp_bind, (wp_mesh_face ab m i f); [exact E|]. apply wp_bind, (wp_f_isBoundary ab m W f); [exact If|]. intros b Hb.
  destruct b; [apply wp_ret; auto|]. apply wp_bind, (wp_f_vertices ab m W f); [exact If|]. intros vs Iv L3.
  destruct (wf_fhe m W f If) as (h & _ & Ih & Fh). specialize (L3 h Ih Fh).
  assert (B : h_bd m h = false). { apply not_true_is_false. intros C. discriminate (proj2 Hb (ex_intro _ h (conj Ih (conj Fh C)))). }
  specialize (L3 (valid_tri m V h Ih B) (valid_noloops m V)). destruct vs as [|a [|b [|c [|? ?]]]]; try discriminate. cbn [map].
  assert (Ia : In a (m_verts m)) by (apply Iv; left; reflexivity). assert (Ib : In b (m_verts m)) by (apply Iv; right; left; reflexivity). assert (Ic : In c (m_verts m)) by (apply Iv; right; right; left; reflexivity).
  apply wp_bind, (wp_pos ab m W b); [exact Ib|]. apply wp_bind, (wp_pos ab m W a); [exact Ia|]. apply wp_bind, (wp_pos ab m W c); [exact Ic|].
  apply wp_bind, wp_lift_none; [apply Hdiv|]. intros q.
  apply wp_bind, (wp_vidx ab m W a); [exact Ia|]. intros ia Ea. apply wp_bind, (wp_touch m _ ia a); [exact Ea|reflexivity|].
  apply wp_bind, (wp_vidx ab m W b); [exact Ib|]. intros ib Eb. apply wp_bind, (wp_touch m _ ib b); [exact Eb|reflexivity|].
  apply wp_bind, (wp_vidx ab m W c); [exact Ic|]. intros ic Ec. apply wp_bind, (wp_touch m _ ic c); [exact Ec|reflexivity|].
  apply wp_ret; auto.
Qed.
Lemma quad_faces_ok m l : Valid m -> (forall i, In i l -> i < length (m_faces m)) -> wp (quad_faces (length (m_verts m)) l) m (fun b m' => b = true /\ m' = m).
Proof.
  intros V. induction l as [|i l IH]; intros H; cbn [quad_faces]; [apply wp_ret; auto|].
  apply wp_bind. eapply wp_conseq; [apply (quad_face_ok m i V), H; left; reflexivity|]. intros b m' [-> ->]. apply IH. intros j Hj. apply H. right; exact Hj.
Qed.
Lemma quad_edge_ok m i h : WF m -> nth_error (m_hes m) i = Some h -> wp (quad_edge (length (m_verts m)) i) m (fun p m' => p = Some h /\ m' = m).
Proof.
  intros W E. assert (I := nth_error_In _ _ E). unfold quad_edge.
  apply wp_bind, (wp_mesh_halfedge ab m i h); [exact E|]. apply wp_bind, (wp_src ab m W h); [exact I|]. intros a _ Ia. apply wp_bind, (wp_dst ab m W h); [exact I|]. intros b _ Ib.
  apply wp_bind, (wp_vidx ab m W a); [exact Ia|]. intros ia Ea. apply wp_bind, (wp_vidx ab m W b); [exact Ib|]. intros ib Eb.
  apply wp_bind, (wp_touch m _ ia a); [exact Ea|reflexivity|]. apply wp_bind, (wp_touch m _ ib b); [exact Eb|reflexivity|].
  apply wp_bind, (wp_pos ab m W a); [exact Ia|]. apply wp_bind, (wp_pos ab m W b); [exact Ib|]. apply wp_ret; auto.
Qed.
Lemma quad_edges_ok m l : WF m -> (forall i, In i l -> i < length (m_hes m)) ->
  wp (mmap (quad_edge (length (m_verts m))) l) m (fun ps m' => (forall p, In p ps -> exists h, p = Some h /\ In h (m_hes m)) /\ m' = m).
Proof.
  intros W. induction l as [|i l IH]; intros H; cbn [mmap]; [apply wp_ret; split; [intros p []|reflexivity]|].
  destruct (nth_error (m_hes m) i) as [h|] eqn:E; [|apply nth_error_None in E; specialize (H i (or_introl eq_refl)); lia].
  apply wp_bind. eapply wp_conseq; [exact (quad_edge_ok m i h W E)|]. intros p m' [-> ->]. apply wp_bind. eapply wp_conseq; [apply IH; intros j Hj; apply H; right; exact Hj|].
  intros ps m' [Hp ->]. apply wp_ret. split; [|reflexivity]. intros p [<- | Hp']; [|apply Hp, Hp']. exists h. split; [reflexivity|exact (nth_error_In _ _ E)].
Qed.

Lemma put_bar_length vi vj v_bar : forall vs (ps : list (vec N)), length (put_bar vi vj vs ps v_bar) = length ps.
Proof.
  induction vs as [|v vs IH]; intros [|p ps]; cbn [put_bar]; try reflexivity. destruct (ptr_eqb v vi || ptr_eqb v vj); [reflexivity|]. cbn [length]. rewrite IH. reflexivity.
Qed.
Lemma face_flips_ok m vi vj v_bar fs : Valid m -> (forall f, In f fs -> exists h, In h (m_hes m) /\ h_face m h = Some f /\ h_bd m h = false /\ In f (m_faces m)) ->
  forall b, wp (face_flips vi vj v_bar (map Some fs) b) m (fun _ m' => m' = m).
Proof.
  intros V. assert (W := valid_wf m V). induction fs as [|f fs IH]; intros H b; cbn [map face_flips]; [apply wp_ret; reflexivity|].
  specialize (IH (fun g Hg => H g (or_intror Hg))). destruct (H f (or_introl eq_refl)) as (h & Ih & Fh & Bh & If).
  apply wp_bind, (wp_f_vertices ab m W f); [exact If|]. intros vs Iv L3. specialize (L3 h Ih Fh (valid_tri m V h Ih Bh) (valid_noloops m V)).
  apply wp_bind, (wp_positions ab m W vs); [exact Iv|]. apply wp_if; intros _; [apply IH|].
  destruct vs as [|x [|y [|z [|? ?]]]]; try discriminate. cbn [map].
  match goal with |- context [put_bar ?a ?b ?c ?d ?e] => assert (PL := put_bar_length a b e c d); revert PL; generalize (put_bar a b c d e) end. intros rs PL.
  destruct rs as [|a [|b' [|c [|? ?]]]]; try discriminate. apply IH.
Qed.
Lemma low_degree_ok m vs : WF m -> (forall v, In v vs -> exists w, v = Some w /\ In w (m_verts m)) -> wp (low_degree vs) m (fun _ m' => m' = m).
Proof.
  intros W. induction vs as [|v vs IH]; intros H; cbn [low_degree]; [apply wp_ret; reflexivity|]. destruct (H v (or_introl eq_refl)) as (w & -> & Iw).
  apply wp_bind, (wp_degree ab m W w); [exact Iw|]. apply wp_if; intros _; [apply wp_ret; reflexivity|apply IH; intros x Hx; apply H; right; exact Hx].
Qed.

(** What one edge taken from the queue does. *)
Definition edge_post m (ck : list bool) (r : option (list ptr * list bool * bool)) (m' : mesh N) : Prop :=
  match r with
  | None => m' = m
  | Some (six, ck', ok) => Evolves m m' /\ length ck' = length ck /\ length (m_verts m') <= length (m_verts m) /\
      length (m_faces m) = (if ok : bool then 2 else 0) + length (m_faces m') /\
      forall h, In h (m_hes m) -> In h (m_hes m') \/ In (Some h) six
  end.
Lemma nth_lt {X} (l : list X) i x : nth_error l i = Some x -> i < length l.
Proof. intros E. apply nth_error_Some. congruence. Qed.

Lemma qem_edge_ok m ck he v : Valid m -> In he (m_hes m) -> length (m_verts m) <= length ck -> wp (qem_edge ck (Some he) v) m (edge_post m ck).
Proof.
  intros V I LC. assert (W := valid_wf m V). unfold qem_edge.
  apply wp_bind, (wp_src ab m W he); [exact I|]. intros s Es Is. apply wp_bind, (wp_vidx ab m W s); [exact Is|]. intros i Ei.
  apply wp_bind, (wp_dst ab m W he); [exact I|]. intros d Ed Id. apply wp_bind, (wp_vidx ab m W d); [exact Id|]. intros j Ej.
  apply wp_bind, (wp_mesh_vertex ab m i s); [exact Ei|]. apply wp_bind, (wp_mesh_vertex ab m j d); [exact Ej|].
  assert (NS : edge_post m ck None m) by reflexivity.
  apply wp_bind, (wp_vidx ab m W s); [exact Is|]. intros i2 Ei2. apply wp_bind, wp_flag_at; [apply nth_lt in Ei2; lia|]. intros b1. apply wp_if; intros _; [apply wp_ret, NS|].
  apply wp_bind, (wp_vidx ab m W d); [exact Id|]. intros j2 Ej2. apply wp_bind, wp_flag_at; [apply nth_lt in Ej2; lia|]. intros b2. apply wp_if; intros _; [apply wp_ret, NS|].
  apply wp_bind, (wp_v_isBoundary ab m W s); [exact Is|]. intros b3 H3. apply wp_if; intros E3; [apply wp_ret, NS|].
  apply wp_bind, (wp_v_isBoundary ab m W d); [exact Id|]. intros b4 H4. apply wp_if; intros E4; [apply wp_ret, NS|].
  assert (Bs : ~ on_boundary m s) by (intros C; apply H3 in C; congruence). assert (Bd : ~ on_boundary m d) by (intros C; apply H4 in C; congruence). clear b3 H3 E3 b4 H4 E4.
  apply wp_bind, (wp_degree ab m W s); [exact Is|]. apply wp_if; intros _; [apply wp_ret, NS|].
  apply wp_bind, (wp_degree ab m W d); [exact Id|]. apply wp_if; intros _; [apply wp_ret, NS|].
  apply wp_bind, (wp_v_faces ab m W s); [exact Is|]. intros fs1 F1. apply wp_bind, (wp_v_faces ab m W d); [exact Id|]. intros fs2 F2. rewrite <- map_app.
  assert (BF : forall a h, ~ on_boundary m a -> In h (m_hes m) -> h_src m h = Some a -> h_bd m h = false).
  { intros a h B Ih Sh. apply not_true_is_false. intros C. apply B. exists h. auto. }
  apply wp_bind. eapply wp_conseq.
  { apply (face_flips_ok m (Some s) (Some d) v (fs1 ++ fs2) V). intros f Hf. apply in_app_iff in Hf. destruct Hf as [Hf | Hf]; [destruct (F1 f Hf) as (h & Ih & Sh & Fh & If)|destruct (F2 f Hf) as (h & Ih & Sh & Fh & If)];
      exists h; split; [exact Ih|split; [exact Fh|split; [|exact If]]| exact Ih|split; [exact Fh|split; [|exact If]]]; [exact (BF s h Bs Ih Sh)|exact (BF d h Bd Ih Sh)]. }
  intros fl m0 ->. apply wp_if; intros _; [apply wp_ret, NS|].
  apply wp_bind, (wp_v_neighbors ab m W s); [exact Is|]. intros s1 G1. apply wp_bind, (wp_v_neighbors ab m W d); [exact Id|]. intros s2 G2.
  apply wp_bind. eapply wp_conseq.
  { apply (low_degree_ok m _ W). intros x Hx. apply filter_In in Hx as [Hx _]. apply in_map_iff in Hx as (w & <- & Hw). exists w. auto. }
  intros lo m0 ->. apply wp_if; intros _; [apply wp_ret, NS|]. clear fs1 F1 fs2 F2 s1 G1 s2 G2 fl lo b1 b2 NS.
  assert (Th := valid_tri m V he I (BF s he Bs I Es)).
  destruct (wf_rev m W he I) as (r & R & Ir). assert (Sr : h_src m r = Some d) by (unfold dst_of in Ed; rewrite R in Ed; exact Ed).
  assert (Tr := valid_tri m V r Ir (BF d r Bd Ir Sr)). cbn [piter] in Th, Tr.
  apply wp_bind, (wp_next ab m W he); [exact I|]. intros n1 E1 I1. apply wp_bind, (wp_next ab m W n1); [exact I1|]. intros n2 E2 I2.
  apply wp_bind, (wp_rev ab m W he); [exact I|]. intros r0 R0 _. assert (r0 = r) by congruence. subst r0. clear R0.
  apply wp_bind, (wp_next ab m W r); [exact Ir|]. intros q1 G1 J1. apply wp_bind, (wp_next ab m W q1); [exact J1|]. intros q2 G2 J2.
  rewrite E1, E2 in Th. rewrite G1, G2 in Tr. destruct (h_next m n2) as [n3|] eqn:E3; [|discriminate]. injection Th as ->. destruct (h_next m q2) as [q3|] eqn:G3; [|discriminate]. injection Tr as ->.
  apply wp_bind. eapply wp_ok; [apply ww_pos, (v_alive m W s Is)|]. assert (PO := posonly_setpos m s v Is). set (m1 := set_v_pos s v m) in *.
  assert (EV1 : Evolves m m1). { apply (ev_posonly m m1 V PO). intros w Hw. apply setpos_other. intros ->. contradiction. }
  assert (V1 := ev_valid _ _ EV1). assert (W1 := valid_wf m1 V1).
  apply wp_bind, (wp_vidx ab m1 W1 s); [exact Is|]. intros k Ek.
  apply wp_bind, wp_flag_set; [change (m_verts m1) with (m_verts m) in Ek; apply nth_lt in Ek; lia|]. intros ck' LC'.
  assert (Six : forall h, In h (m_hes m) -> h_face m h = h_face m he \/ h_face m h = h_face m r -> In (Some h) [Some he; Some n1; Some n2; Some r; Some q1; Some q2]).
  { intros h Ih [Fh | Fh]; [destruct (tri_face m he n1 n2 W I E1 E2 E3 h Ih Fh) as [->|[->| ->]]|destruct (tri_face m r q1 q2 W Ir G1 G2 G3 h Ih Fh) as [->|[->| ->]]]; cbn [In]; auto 8. }
  apply wp_bind. unfold Wp.wp at 1.
  assert (NB1 : forall w, h_src m1 he = Some w \/ h_src m1 r = Some w -> ~ on_boundary m1 w).
  { intros w Hw. change (~ on_boundary m w). change (h_src m he = Some w \/ h_src m r = Some w) in Hw. destruct Hw as [Hw | Hw]; [replace w with s by congruence|replace w with d by congruence]; assumption. }
  destruct (collapse_top m1 he V1 I) as [[C NP] | (b & m2 & C & V2 & Cf & _)]; rewrite C; [exact (Hnan m1 NP)|]. apply wp_ret. cbn [edge_post]. destruct b.
  - destruct (collapse_evolves m1 he r m2 V1 I R NB1 C) as (EV2 & NF & NV & Rm). split; [exact (ev_trans _ _ _ EV1 EV2)|]. split; [exact LC'|].
    change (m_verts m1) with (m_verts m) in NV. split; [lia|]. split; [exact NF|]. intros h Ih. destruct (Rm h Ih) as [H | H]; [left; exact H|right; exact (Six h Ih H)].
  - rewrite (Cf eq_refl). split; [exact EV1|]. split; [exact LC'|]. split; [reflexivity|]. split; [reflexivity|]. intros h Ih. left; exact Ih.
Qed.
End P.
