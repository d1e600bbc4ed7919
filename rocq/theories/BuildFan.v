(** Mesh::construct: a vertex passes the final check iff its triangles form one fan,
    and the result is the surface of the accepted triangles. *)
From Coq Require Import List ZArith Arith Lia Bool Relations Permutation.
From Verif Require Import Num Vec Heap Mesh Construct Spec BuildSpec Orbit Rings Exec Split BuildTri BuildOpen BuildClose BuildRing.
Import ListNotations.
Local Open Scope mesh_scope.

Section BuildFan.
Context {N : Num}.
Variables (m0 : mesh N) (T : list tri) (m : mesh N) (cs : cstate) (c : mesh N) (P : list (nat * nat)) (FS : list nat).
Hypothesis V0 : VList m0.
Hypothesis TI : TInv m0 T m cs.
Hypothesis G : GInv m c P FS.
Hypothesis C : GClosed m c P FS.
Hypothesis All : forall h, In h (m_hes m) -> h_rev m h = None -> In h (map fst P).
Hypothesis Vhe : forall v, In v (m_verts m) -> v_he m v <> None.

Let O : Open m := TInv_Open _ _ _ _ V0 TI.
Let W : WF0 c := cl_WF0 m c P FS O G C All Vhe.
Let CI : CInv m0 (edges T) m cs := ti_c _ _ _ _ TI.
Let VL : VList m := CInv_VList _ _ _ _ V0 CI.

Lemma tri_ne a b : In (a, b) (edges T) -> a <> b.
Proof.
  intros H. apply in_flat_map in H as (t & It & Ie). destruct (ti_ok _ _ _ _ TI t It) as [D _]. destruct t as [[u v] w].
  cbn [tedges degenerate In] in *. intros ->. apply D. destruct Ie as [[= -> ->]|[[= -> ->]|[[= -> ->]|[]]]]; auto.
Qed.

(** Old half-edges, read in the closed mesh. *)
Lemma he_old a b h : c_em cs a b = Some h -> he_is c h a b.
Proof.
  intros E. destruct (corner _ _ _ _ _ _ _ TI E) as (x & n & p & f & i & K). destruct K.
  assert (Ih : In h (m_hes m)) by apply (em_hes _ _ _ _ CI _ _ _ co_h).
  assert (In_ : In n (m_hes m)) by apply (em_hes _ _ _ _ CI _ _ _ co_n).
  destruct (em_src _ _ _ _ _ _ _ TI co_h) as (u & S1 & N1). destruct (em_src _ _ _ _ _ _ _ TI co_n) as (v & S2 & N2).
  split; [apply (cl_old m c P FS G), Ih|]. exists u, v. rewrite (g_verts _ _ _ _ G). split; [exact N1|]. split; [exact N2|].
  split; [rewrite (cl_src m c P FS G h Ih); exact S1|]. unfold dst_of.
  destruct (w0_rev c W h (cl_old m c P FS G h Ih)) as (r & R & _). rewrite R.
  rewrite <- (w0_dst c W h n r (cl_old m c P FS G h Ih)); [rewrite (cl_src m c P FS G n In_); exact S2|rewrite (cl_next m c P FS G h Ih); exact co_hn|exact R].
Qed.
(** New half-edges. *)
Lemma he_new a b h r : c_em cs a b = Some h -> In (h, r) P -> he_is c r b a.
Proof.
  intros E I. destruct (he_old a b h E) as (Ih & u & v & N1 & N2 & S1 & S2). unfold dst_of in S2.
  destruct (g_P _ _ _ _ G h r I) as (R1 & R2 & _). rewrite R1 in S2.
  split; [apply (cl_hes m c P FS G); right; exists h; exact I|]. exists v, u. unfold dst_of. rewrite R2. auto.
Qed.

Lemma B_open a b h : c_em cs a b = Some h -> (h_rev m h = None <-> c_em cs b a = None).
Proof. intros E. rewrite (ci_rev _ _ _ _ CI _ _ _ E). reflexivity. Qed.

Lemma he_cases h a b : he_is c h a b -> c_em cs a b = Some h \/ exists b0, c_em cs b a = Some b0 /\ In (b0, h) P.
Proof.
  intros (Ih & u & v & N1 & N2 & S1 & S2). apply (cl_hes m c P FS G) in Ih as [Ih|(b0 & Ib)].
  - left. destruct (hes_em _ _ _ _ CI h Ih) as (x & y & _ & E). destruct (he_old x y h E) as (_ & u' & v' & N1' & N2' & S1' & S2').
    rewrite (g_verts _ _ _ _ G) in *.
    assert (x = a) by (eapply vnth_inj; [exact VL|exact N1'|congruence]). assert (y = b) by (eapply vnth_inj; [exact VL|exact N2'|congruence]). congruence.
  - right. exists b0. destruct (g_pin _ _ _ _ G b0 h Ib) as [I0 _]. destruct (hes_em _ _ _ _ CI b0 I0) as (x & y & _ & E).
    destruct (he_new x y b0 h E Ib) as (_ & u' & v' & N1' & N2' & S1' & S2'). rewrite (g_verts _ _ _ _ G) in *.
    assert (y = a) by (eapply vnth_inj; [exact VL|exact N1'|congruence]). assert (x = b) by (eapply vnth_inj; [exact VL|exact N2'|congruence]).
    split; [congruence|exact Ib].
Qed.

Lemma he_key h a b a' b' : he_is c h a b -> he_is c h a' b' -> a = a' /\ b = b'.
Proof.
  intros (_ & u & v & N1 & N2 & S1 & S2) (_ & u' & v' & N1' & N2' & S1' & S2'). rewrite (g_verts _ _ _ _ G) in *.
  split; eapply vnth_inj; [exact VL|exact N1|congruence|exact VL|exact N2|congruence].
Qed.

Lemma he_uni h h' a b : he_is c h a b -> he_is c h' a b -> h = h'.
Proof.
  intros H H'. destruct (he_cases _ _ _ H) as [E|(b0 & E & I)]; destruct (he_cases _ _ _ H') as [E'|(b0' & E' & I')].
  - congruence.
  - exfalso. destruct (g_pin _ _ _ _ G _ _ I') as [_ R]. apply (B_open _ _ _ E') in R. congruence.
  - exfalso. destruct (g_pin _ _ _ _ G _ _ I) as [_ R]. apply (B_open _ _ _ E) in R. congruence.
  - assert (b0 = b0') by congruence. subst b0'. eapply (cl_fun m c P FS G); eassumption.
Qed.

Lemma he_ex a b : In (a, b) (edges T) \/ In (b, a) (edges T) <-> exists h, he_is c h a b.
Proof.
  split.
  - intros H. destruct (c_em cs a b) as [h|] eqn:E; [exists h; apply he_old, E|].
    destruct H as [H|H]; [destruct (em_in _ _ _ _ CI _ _ H) as (h & E' & _); congruence|].
    destruct (em_in _ _ _ _ CI _ _ H) as (h & E' & I). destruct (cl_rev_B m P All h) as (r & Ir).
    { split; [exact I|]. apply (B_open _ _ _ E'). exact E. }
    exists r. eapply he_new; eassumption.
  - intros (h & H). destruct (he_cases _ _ _ H) as [E|(b0 & E & I)]; [left|right]; apply (em_hes _ _ _ _ CI _ _ _ E).
Qed.

(** Every half-edge of the closed mesh joins two vertex numbers. *)
Lemma he_any h : In h (m_hes c) -> exists a b, he_is c h a b.
Proof.
  intros H. apply (cl_hes m c P FS G) in H as [H|(b0 & H)].
  - destruct (hes_em _ _ _ _ CI h H) as (x & y & _ & E). exists x, y. apply he_old, E.
  - destruct (g_pin _ _ _ _ G b0 h H) as [I0 _]. destruct (hes_em _ _ _ _ CI b0 I0) as (x & y & _ & E). exists y, x. eapply he_new; eassumption.
Qed.

Lemma he_src_num h a b v : he_is c h a b -> h_src c h = Some v -> nth_error (m_verts m) a = Some v.
Proof. intros (_ & u & w & N1 & N2 & S1 & S2) E. rewrite (g_verts _ _ _ _ G) in N1. congruence. Qed.

(** One step of the rotation is one step in the link. *)
Lemma rot_link_old a p y y' : c_em cs a p = Some y -> rot m y = Some y' -> exists q, c_em cs a q = Some y' /\ link T a q p.
Proof.
  intros E R. assert (Iy : In y (m_hes m)) by apply (em_hes _ _ _ _ CI _ _ _ E).
  destruct (o_rot m O y y' Iy R) as (r & Rr & Ir & Nr & _). rewrite (ci_rev _ _ _ _ CI _ _ _ E) in Rr.
  destruct (corner _ _ _ _ _ _ _ TI Rr) as (q & n & z & f & i & []).
  exists q. split; [congruence|]. destruct co_t as (t & Ht & E1 & E2 & E3). exists t. split; [eapply nth_error_In; exact Ht|auto].
Qed.

Notation rst a := (clos_refl_sym_trans nat (link T a)).

Lemma rot_chain_old k : forall a p y y', c_em cs a p = Some y -> piter (rot m) k y = Some y' -> exists q, c_em cs a q = Some y' /\ rst a p q.
Proof.
  induction k as [|k IH]; intros a p y y' E H; cbn [piter] in H.
  - injection H as <-. exists p. split; [exact E|apply rst_refl].
  - destruct (rot m y) as [y1|] eqn:R; [|discriminate]. destruct (rot_link_old _ _ _ _ E R) as (p1 & E1 & L1).
    destruct (IH _ _ _ _ E1 H) as (q & Eq & L2). exists q. split; [exact Eq|]. eapply rst_trans; [|exact L2]. apply rst_sym, rst_step, L1.
Qed.

Lemma rot_link h a b h' b' : he_is c h a b -> rot c h = Some h' -> he_is c h' a b' -> rst a b b'.
Proof.
  intros H R H'. destruct (c_em cs b a) as [z|] eqn:Ez.
  - assert (Rz : h_rev c h = Some z).
    { destruct (he_cases _ _ _ H) as [E|(b0 & E & I)].
      - apply (cl_rev_old m c P FS G); [apply (em_hes _ _ _ _ CI _ _ _ E)|]. rewrite (ci_rev _ _ _ _ CI _ _ _ E). exact Ez.
      - destruct (g_P _ _ _ _ G _ _ I) as (_ & R2 & _). congruence. }
    unfold rot in R. rewrite Rz in R. destruct (corner _ _ _ _ _ _ _ TI Ez) as (q & n & p & f & i & []).
    assert (Iz : In z (m_hes m)) by apply (em_hes _ _ _ _ CI _ _ _ co_h). rewrite (cl_next m c P FS G z Iz), co_hn in R. injection R as ->.
    destruct (he_key _ _ _ _ _ H' (he_old _ _ _ co_n)) as [_ ->]. apply rst_sym, rst_step.
    destruct co_t as (t & Ht & E1 & E2 & E3). exists t. split; [eapply nth_error_In; exact Ht|auto].
  - destruct (he_cases _ _ _ H) as [E|(b0 & E & I)]; [|congruence].
    assert (Bh : isB m h) by (split; [apply (em_hes _ _ _ _ CI _ _ _ E)|apply (B_open _ _ _ E); exact Ez]).
    destruct (cl_rev_B m P All h Bh) as (r & Ir). destruct (g_P _ _ _ _ G _ _ Ir) as (R1 & _). unfold rot in R. rewrite R1 in R.
    destruct (cl_new_next m c P FS O G C All h r Ir) as (b1 & r1 & I1 & Eb & N1 & _). rewrite N1 in R. injection R as ->.
    assert (B1 := g_pin _ _ _ _ G b1 h' I1). destruct (hes_em _ _ _ _ CI b1 (proj1 B1)) as (x & y & _ & E1).
    destruct (he_key _ _ _ _ _ H' (he_new _ _ _ _ E1 I1)) as [<- <-].
    destruct (bnf_spec m O b1 B1) as (n & k & hh & En & In_ & _ & Pk & _ & Eb' & _). assert (hh = h) by congruence. subst hh.
    destruct (corner _ _ _ _ _ _ _ TI E1) as (q & n' & p & f & i & []). assert (n' = n) by congruence. subst n'.
    destruct (rot_chain_old k _ _ _ _ co_n Pk) as (q' & Eq' & L). assert (q' = b) by (destruct (he_key _ _ _ _ _ (he_old _ _ _ Eq') (he_old _ _ _ E)); assumption). subst q'.
    apply rst_sym. eapply rst_trans; [|exact L]. apply rst_sym, rst_step. destruct co_t as (t & Ht & T1 & T2 & T3).
    exists t. split; [eapply nth_error_In; exact Ht|auto].
Qed.

Lemma ring_link k : forall h a b h' b', he_is c h a b -> piter (rot c) k h = Some h' -> he_is c h' a b' -> rst a b b'.
Proof.
  induction k as [|k IH]; intros h a b h' b' H Pk H'; cbn [piter] in Pk.
  - injection Pk as <-. destruct (he_key _ _ _ _ _ H H') as [_ ->]. apply rst_refl.
  - destruct (rot c h) as [h1|] eqn:R; [|discriminate].
    assert (I1 := w0_rot_in c W h h1 (proj1 H) R). destruct (he_any h1 I1) as (a1 & b1 & H1).
    assert (a1 = a).
    { assert (S := w0_rot_src c W h h1 (proj1 H) R). destruct (proj2 H) as (u & v & N1 & _ & S1 & _). assert (S2 : h_src c h1 = Some u) by congruence.
      eapply vnth_inj; [exact VL|exact (he_src_num _ _ _ _ H1 S2)|exact (he_src_num _ _ _ _ H S1)]. }
    subst a1. eapply rst_trans; [exact (rot_link _ _ _ _ _ H R H1)|exact (IH _ _ _ _ _ H1 Pk H')].
Qed.

(** Conversely, vertices linked around [a] are in one ring. *)
Lemma link_ring a b b' : rst a b b' -> ((exists h, he_is c h a b) <-> (exists h, he_is c h a b')) /\
  forall h h', he_is c h a b -> he_is c h' a b' -> reaches (rot c) h h'.
Proof.
  intros R. induction R as [b b' L|b|b b' _ [IH1 IH2]|b b1 b' _ [IH1 IH2] _ [IH3 IH4]].
  - destruct (link_corner _ _ _ _ _ _ _ TI L) as (x & y & z & f & i & []).
    assert (Hx := he_old _ _ _ co_h).
    assert (Iz : In z (m_hes m)) by apply (em_hes _ _ _ _ CI _ _ _ co_p).
    destruct (w0_rev c W z (cl_old m c P FS G z Iz)) as (w & Rw & Iw). destruct (w0_rev_invol c W z w (cl_old m c P FS G z Iz) Rw) as [Rz _].
    assert (Hw : he_is c w a b').
    { destruct (he_old _ _ _ co_p) as (_ & u & v & N1 & N2 & S1 & S2). split; [exact Iw|]. exists v, u. unfold dst_of in *. rewrite Rw in S2. rewrite Rz. auto. }
    assert (RR : rot c w = Some x) by (unfold rot; rewrite Rz, (cl_next m c P FS G z Iz); exact co_ph).
    split; [split; intros _; [exists w; exact Hw|exists x; exact Hx]|].
    intros h h' H H'. assert (h = x) by (eapply he_uni; eassumption). assert (h' = w) by (eapply he_uni; eassumption). subst h h'.
    apply (w0_sym c W w x Iw). apply reaches_step, RR.
  - split; [reflexivity|]. intros h h' H H'. assert (h = h') by (eapply he_uni; eassumption). subst. apply reaches_refl.
  - split; [symmetry; exact IH1|]. intros h h' H H'. apply (w0_sym c W h' h (proj1 H')). apply IH2; assumption.
  - split; [rewrite IH1; exact IH3|]. intros h h' H H'. destruct (proj1 IH1 (ex_intro _ h H)) as (h1 & H1).
    eapply reaches_trans; [apply IH2|apply IH4]; eassumption.
Qed.

(** Fans and rings. *)
Lemma fan_ring a v h : nth_error (m_verts m) a = Some v -> In h (m_hes m) -> h_src m h = Some v ->
  (Fan T a <-> forall h', In h' (m_hes m) -> h_src m h' = Some v -> reaches (rot c) h h').
Proof.
  intros Hv Ih Sh.
  assert (Key : forall y, In y (m_hes m) -> h_src m y = Some v -> exists b, c_em cs a b = Some y /\ In (a, b) (edges T) /\ he_is c y a b).
  { intros y Iy Sy. destruct (hes_em _ _ _ _ CI y Iy) as (x & b & Ie & E). destruct (em_src _ _ _ _ _ _ _ TI E) as (u & S1 & N1).
    assert (x = a) by (eapply vnth_inj; [exact VL|exact N1|congruence]). subst x. exists b. split; [exact E|]. split; [exact Ie|]. apply he_old, E. }
  split.
  - intros F h' Ih' Sh'. destruct (Key h Ih Sh) as (b & _ & Ib & Hb). destruct (Key h' Ih' Sh') as (b' & _ & Ib' & Hb').
    apply (link_ring a b b' (F b b' Ib Ib')); assumption.
  - intros R b b' Ib Ib'. destruct (em_in _ _ _ _ CI _ _ Ib) as (y & Ey & Iy). destruct (em_in _ _ _ _ CI _ _ Ib') as (y' & Ey' & Iy').
    destruct (em_src _ _ _ _ _ _ _ TI Ey) as (u & S1 & N1). destruct (em_src _ _ _ _ _ _ _ TI Ey') as (u' & S2 & N2).
    assert (u = v) by congruence. assert (u' = v) by congruence. subst u u'.
    assert (RR : reaches (rot c) y y').
    { eapply reaches_trans; [|exact (R y' Iy' S2)]. apply (w0_sym c W h y (cl_old m c P FS G h Ih)). exact (R y Iy S1). }
    destruct RR as (k & Hk). exact (ring_link k _ _ _ _ _ (he_old _ _ _ Ey) Hk (he_old _ _ _ Ey')).
Qed.

(** The number of triangles at a vertex. *)
Lemma deg_count a v : nth_error (m_verts m) a = Some v -> c_deg cs a = length (filter (fun h => ptr_eqb (h_src m h) (Some v)) (m_hes m)).
Proof.
  intros Hv. rewrite (ci_deg _ _ _ _ CI). assert (F : forall L E, map Some L = map (fun e => c_em cs (fst e) (snd e)) E ->
    length (filter (fun e => fst e =? a) E) = length (filter (fun h => ptr_eqb (h_src m h) (Some v)) L)).
  { induction L as [|h L IH]; intros [|e E] X; try discriminate; [reflexivity|]. cbn [map] in X. injection X as X1 X2.
    cbn [filter]. assert (Q : (fst e =? a) = ptr_eqb (h_src m h) (Some v)).
    { destruct e as [x y]. cbn [fst snd] in *. symmetry in X1. destruct (em_src _ _ _ _ _ _ _ TI X1) as (u & S1 & N1). rewrite S1.
      destruct (Nat.eqb_spec x a) as [->|D]; symmetry; [apply ptr_eqb_eq; congruence|apply ptr_eqb_neq; intros [= ->]; apply D; eapply vnth_inj; eassumption]. }
    rewrite Q. destruct (ptr_eqb (h_src m h) (Some v)); cbn [length]; rewrite (IH E X2); reflexivity. }
  apply F. exact (ci_hes _ _ _ _ CI).
Qed.

(** Passing the check means being one fan. *)
Lemma check_fan g a v : nth_error (m_verts m) a = Some v -> WF0 (with_vhe g c) ->
  exists r, check_manifold (c_deg cs) v (with_vhe g c) = (if (r : bool) then Ok (tt, with_vhe g c) else Abort AError) /\ (r = true <-> Fan T a).
Proof.
  intros Hv W'. set (c' := with_vhe g c) in *.
  assert (Hv' : nth_error (m_verts c') a = Some v) by (cbn [c' with_vhe m_verts]; rewrite (g_verts _ _ _ _ G); exact Hv).
  destruct (w0_vhe c' W' v (nth_error_In _ _ Hv')) as (h & Eh & Ih & Sh).
  destruct (w0_ring c' W' h Ih) as (l & Hc & ND & Hin).
  eexists. split; [apply (check_ok c' W' (c_deg cs) v a h l Hv' Eh Hc ND); intros y Hy; apply (Hin y Hy)|].
  rewrite Nat.eqb_eq, (deg_count a v Hv).
  assert (Hc2 : cyc (rot c) (h :: l)) by exact Hc.
  assert (Hin2 : forall y, In y (h :: l) -> In y (m_hes c)) by (intros y Hy; apply (Hin y Hy)).
  change (existsb (h_bd c') (h :: l)) with (existsb (h_bd c) (h :: l)).
  rewrite (cl_count m c P FS O G C All (h :: l) Hc2 ND Hin2).
  (* the ring contains an old half-edge *)
  assert (Hold : exists x, In x (h :: l) /\ In x (m_hes m) /\ h_src m x = Some v).
  { destruct (proj1 (cl_hes m c P FS G h) Ih) as [Io|(b & Ib)].
    - exists h. split; [left; reflexivity|]. split; [exact Io|]. rewrite <- (cl_src m c P FS G h Io). exact Sh.
    - destruct (g_pin _ _ _ _ G b h Ib) as [I0 _]. destruct (o_next m O b I0) as (n & En & In_ & _). exists n.
      assert (R := cl_rot_new m c P FS G b h n Ib En). destruct (cyc_step_in _ _ _ Hc2 (or_introl eq_refl)) as (z & Ez & Iz).
      assert (z = n) by congruence. subst z. split; [exact Iz|]. split; [exact In_|]. rewrite <- (cl_src m c P FS G n In_).
      rewrite (w0_rot_src c W h n Ih R). exact Sh. }
  destruct Hold as (x & Ix & Iox & Sx). rewrite (fan_ring a v x Hv Iox Sx).
  assert (Hiff : (forall h', In h' (m_hes m) -> h_src m h' = Some v -> reaches (rot c) x h') <->
                 (forall h', In h' (m_hes m) -> h_src m h' = Some v -> In h' (h :: l))).
  { split; intros H h' I' S'.
    - eapply cyc_reaches_in; [exact Hc2|exact Ix|exact (H h' I' S')].
    - apply (cyc_reaches _ (h :: l)); [exact Hc2|exact Ix|exact (H h' I' S')]. }
  rewrite Hiff.
  assert (Sub : incl (filter (oldb m) (h :: l)) (filter (fun h => ptr_eqb (h_src m h) (Some v)) (m_hes m))).
  { intros y Hy. apply filter_In in Hy as [Hy Ho]. apply oldb_spec in Ho. apply filter_In. split; [exact Ho|]. apply ptr_eqb_eq.
    destruct (Hin y Hy) as [_ Sy]. rewrite <- (cl_src m c P FS G y Ho). etransitivity; [exact Sy|exact Sh]. }
  assert (ND1 : NoDup (filter (oldb m) (h :: l))) by (apply NoDup_filter, ND).
  assert (ND2 : NoDup (filter (fun h => ptr_eqb (h_src m h) (Some v)) (m_hes m))) by (apply NoDup_filter, (o_hl m O)).
  split.
  - intros E h' I' S'. assert (Hl : length (filter (fun h => ptr_eqb (h_src m h) (Some v)) (m_hes m)) <= length (filter (oldb m) (h :: l))) by lia.
    assert (Inc := NoDup_length_incl ND1 Hl Sub). assert (I2 : In h' (filter (oldb m) (h :: l))).
    { apply Inc, filter_In. split; [exact I'|apply ptr_eqb_eq, S']. }
    apply filter_In in I2. apply I2.
  - intros H. f_equal. apply Permutation_length, NoDup_Permutation; [exact ND1|exact ND2|]. intros y. split; [apply Sub|].
    intros Hy. apply filter_In in Hy as [I' S']. apply ptr_eqb_eq in S'. apply filter_In. split; [exact (H y I' S')|apply oldb_spec, I'].
Qed.

(** All vertices pass: the mesh is the surface of [T]. *)
Lemma fans_valid g : WF0 (with_vhe g c) -> (forall a, a < length (m_verts m) -> Fan T a) -> SurfaceOf (with_vhe g c) T.
Proof.
  intros W' Fans. set (c' := with_vhe g c) in *.
  assert (HE : forall h a b, he_is c' h a b <-> he_is c h a b) by (intros; reflexivity).
  assert (Any : forall h, In h (m_hes c) -> exists a b, he_is c h a b) by exact he_any.
  assert (WFc : WF c').
  { apply WF0_WF; [exact W'|]. intros h h' I I' S.
    destruct (he_any h I) as (a & b & H). destruct (he_any h' I') as (a' & b' & H').
    assert (Ea : a = a').
    { destruct (proj2 H) as (u & w & N1 & _ & S1 & _). assert (S2 : h_src c h' = Some u) by (rewrite <- S1; symmetry; exact S).
      eapply vnth_inj; [exact VL|exact (he_src_num _ _ _ _ H S1)|exact (he_src_num _ _ _ _ H' S2)]. }
    subst a'. assert (Ha : a < length (m_verts m)).
    { destruct (proj2 H) as (u & w & N1 & _). rewrite (g_verts _ _ _ _ G) in N1. apply nth_error_Some. congruence. }
    assert (Up : forall h b, he_is c h a b -> exists y b2, he_is c y a b2 /\ reaches (rot c) h y /\ In (a, b2) (edges T)).
    { intros x q Hx. destruct (he_cases _ _ _ Hx) as [E|(b0 & E & Ib)].
      - exists x, q. split; [exact Hx|]. split; [apply reaches_refl|apply (em_hes _ _ _ _ CI _ _ _ E)].
      - destruct (corner _ _ _ _ _ _ _ TI E) as (q' & n & p & f & i & []). exists n, q'. split; [apply he_old, co_n|].
        split; [apply reaches_step; exact (cl_rot_new m c P FS G b0 x n Ib co_hn)|apply (em_hes _ _ _ _ CI _ _ _ co_n)]. }
    destruct (Up h b H) as (y & q & Hy & R1 & I1). destruct (Up h' b' H') as (y' & q' & Hy' & R2 & I2).
    change (rot c') with (rot c). eapply reaches_trans; [exact R1|]. eapply reaches_trans; [|apply (w0_sym c W h' y' I' R2)].
    apply (link_ring a q q' (Fans a Ha q q' I1 I2)); assumption. }
  assert (TF : TriFaces c').
  { intros h I B. change (In h (m_hes c)) in I. change (h_bd c h = false) in B. change (piter (h_next c) 3 h = Some h).
    destruct (proj1 (cl_hes m c P FS G h) I) as [Io|(b & Ib)].
    - apply (cl_piter_next m c P FS O G); [exact Io|]. apply (o_next3 m O h Io).
    - destruct (g_P _ _ _ _ G b h Ib) as (_ & _ & _ & X & _). congruence. }
  assert (Key : forall h a b, he_is c h a b -> h_src c h = nth_error (m_verts m) a /\ dst_of c h = nth_error (m_verts m) b).
  { intros h a b (_ & u & v & N1 & N2 & S1 & S2). rewrite (g_verts _ _ _ _ G) in *. split; congruence. }
  assert (KeyS : forall h a b, he_is c h a b -> exists u v, nth_error (m_verts m) a = Some u /\ nth_error (m_verts m) b = Some v).
  { intros h a b (_ & u & v & N1 & N2 & S1 & S2). rewrite (g_verts _ _ _ _ G) in *. exists u, v. auto. }
  assert (VV : Valid c').
  { split; [exact WFc| | |exact TF].
    - intros h I E. change (dst_of c h = h_src c h) in E. destruct (he_any h I) as (a & b & H). destruct (Key _ _ _ H) as [K1 K2]. destruct (KeyS _ _ _ H) as (u & v & N1 & N2).
      assert (a = b) by (eapply vnth_inj; [exact VL|exact N1|congruence]). subst b.
      destruct (proj2 (he_ex a a) (ex_intro _ h H)) as [I'|I']; exact (tri_ne a a I' eq_refl).
    - intros h h' I I' S D. change (h_src c h = h_src c h') in S. change (dst_of c h = dst_of c h') in D.
      destruct (he_any h I) as (a & b & H). destruct (he_any h' I') as (a' & b' & H').
      destruct (Key _ _ _ H) as [K1 K2]. destruct (Key _ _ _ H') as [K1' K2']. destruct (KeyS _ _ _ H) as (u & v & N1 & N2).
      assert (a = a') by (eapply vnth_inj; [exact VL|exact N1|congruence]). assert (b = b') by (eapply vnth_inj; [exact VL|exact N2|congruence]). subst a' b'.
      eapply he_uni; eassumption. }
  assert (Lf : length (m_faces m) = length T) by (generalize (ti_tri _ _ _ _ TI); clear; induction 1; cbn [length]; congruence).
  assert (Ef : m_faces c' = m_faces m ++ FS) by exact (g_faces _ _ _ _ G).
  assert (Efn : firstn (length T) (m_faces c') = m_faces m) by (rewrite Ef, <- Lf, firstn_app, Nat.sub_diag, firstn_all, firstn_O, app_nil_r; reflexivity).
  assert (Fdis : forall f, In f (m_faces m) -> In f FS -> False).
  { intros f H1 H2. destruct (g_fl _ _ _ _ G) as [ND _]. rewrite (g_faces _ _ _ _ G) in ND.
    apply in_split in H2 as (l1 & l2 & E). rewrite E, app_assoc in ND. apply NoDup_remove_2 in ND. apply ND.
    rewrite !in_app_iff. auto. }
  split; [exact VV| | |].
  - exists FS. rewrite Efn. split; [exact Ef|]. split.
    + assert (FF := ti_tri _ _ _ _ TI). assert (FF2 : Forall2 (fun f t => TriAt m cs t f) (m_faces m) T) by (clear - FF; induction FF; constructor; assumption).
      eapply forall2_impl_in; [|exact FF2]. intros f [[a b] d] If It (x & y & z & X1 & X2 & X3 & X4 & X5 & X6 & X7 & X8 & X9 & X10).
      assert (Ix : In x (m_hes m)) by apply (em_hes _ _ _ _ CI _ _ _ X1). assert (Iy : In y (m_hes m)) by apply (em_hes _ _ _ _ CI _ _ _ X2). assert (Iz : In z (m_hes m)) by apply (em_hes _ _ _ _ CI _ _ _ X3).
      destruct (em_src _ _ _ _ _ _ _ TI X1) as (u & S1 & N1). destruct (em_src _ _ _ _ _ _ _ TI X2) as (v & S2 & N2). destruct (em_src _ _ _ _ _ _ _ TI X3) as (w & S3 & N3).
      exists u, v, w. change (m_verts c') with (m_verts c). rewrite (g_verts _ _ _ _ G). split; [exact N1|]. split; [exact N2|]. split; [exact N3|].
      exists x, y, z. change (m_hes c') with (m_hes c). change (h_face c') with (h_face c). change (h_next c') with (h_next c). change (h_src c') with (h_src c).
      rewrite !(cl_next m c P FS G), !(cl_src m c P FS G) by assumption.
      split; [|auto 10]. intros h. split.
      * intros [I F]. apply (cl_hes m c P FS G) in I as [I|(b0 & Ib)].
        -- rewrite (cl_face m c P FS G h I) in F. assert (FE : h_face m x = h_face m h) by congruence.
           destruct (o_same m O x h Ix I FE) as (k & Hk). clear - X4 X5 X6 Hk. revert Hk.
           assert (Q : forall k s, s = x \/ s = y \/ s = z -> piter (h_next m) k s = Some h -> h = x \/ h = y \/ h = z).
           { induction k0 as [|k0 IH]; intros s Hs Hp; cbn [piter] in Hp; [injection Hp as <-; exact Hs|].
             destruct Hs as [->|[->| ->]]; [rewrite X4 in Hp|rewrite X5 in Hp|rewrite X6 in Hp]; eapply IH; [|exact Hp| |exact Hp| |exact Hp]; auto. }
           intros Hk. eapply Q; [|exact Hk]. auto.
        -- exfalso. destruct (gc_face _ _ _ _ C b0 h Ib) as (f' & E' & I'). apply (Fdis f If). congruence.
      * intros [->|[->| ->]]; (split; [apply (cl_old m c P FS G); assumption|rewrite (cl_face m c P FS G) by assumption; assumption]).
    + intros f h If Ih Fh. change (In h (m_hes c)) in Ih. change (h_face c h = Some f) in Fh. change (h_bd c' h) with (h_bd c h).
      apply (cl_hes m c P FS G) in Ih as [I|(b0 & Ib)].
      * exfalso. rewrite (cl_face m c P FS G h I) in Fh. destruct (o_face m O h I) as (f' & E' & I'). apply (Fdis f'); congruence.
      * destruct (g_pin _ _ _ _ G b0 h Ib) as [I0 R0]. destruct (g_P _ _ _ _ G b0 h Ib) as (_ & _ & _ & X & _). split; [exact X|].
        destruct (hes_em _ _ _ _ CI b0 I0) as (a & b & Ie & E). exists a, b. split.
        -- split; [exact Ie|]. intros I2. destruct (em_in _ _ _ _ CI _ _ I2) as (q & Eq & _). apply (B_open _ _ _ E) in R0. congruence.
        -- exact (he_new a b b0 h E Ib).
  - exact he_ex.
  - intros h a b H. change (he_is c h a b) in H. change (h_bd c' h) with (h_bd c h).
    assert (Bopen : forall a b h, c_em cs a b = Some h -> (In h (map fst P) <-> open_edge T a b)).
    { clear - CI All G. intros a b h E. split.
      - intros I. apply in_fst_pair in I as (r & I). destruct (g_pin _ _ _ _ G h r I) as [I0 R0]. split; [apply (em_hes _ _ _ _ CI _ _ _ E)|].
        intros I2. destruct (em_in _ _ _ _ CI _ _ I2) as (q & Eq & _). rewrite (ci_rev _ _ _ _ CI _ _ _ E) in R0. congruence.
      - intros [_ Nx]. apply All; [apply (em_hes _ _ _ _ CI _ _ _ E)|]. rewrite (ci_rev _ _ _ _ CI _ _ _ E).
        destruct (c_em cs b a) eqn:X; [|reflexivity]. exfalso. apply Nx, (em_hes _ _ _ _ CI _ _ _ X). }
    destruct (he_cases _ _ _ H) as [E|(b0 & E & Ib)].
    + assert (Ih : In h (m_hes m)) by apply (em_hes _ _ _ _ CI _ _ _ E). split.
      * intros B. left. apply (Bopen a b h E). destruct (in_dec Nat.eq_dec h (map fst P)) as [D|D]; [exact D|]. destruct (g_un _ _ _ _ G h Ih D). congruence.
      * intros [Op|[_ Op]]; [|exfalso; apply Op, (em_hes _ _ _ _ CI _ _ _ E)]. apply (Bopen a b h E) in Op. apply in_fst_pair in Op as (r & I). apply (g_P _ _ _ _ G h r I).
    + split; [|intros _; apply (g_P _ _ _ _ G b0 h Ib)]. intros _. right. apply (Bopen b a b0 E). apply in_map_iff. exists (b0, h). auto.
Qed.

End BuildFan.
