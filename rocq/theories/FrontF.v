(** holeFillAdvancingFront: cutting a corner off the front keeps the mesh well formed. *)
From Coq Require Import List ZArith Arith Lia Bool.
From Verif Require Import Num Vec Heap Mesh Spec Orbit Rings Remove.
Import ListNotations.

Section F.
Context {N : Num}.
Implicit Types m : mesh N.

(** The element lists are consistent. *)
Definition Lists m : Prop :=
  (ListOk (m_verts m) (v_live m) (v_idx m) /\ ListOk (m_hes m) (h_live m) (h_idx m) /\ ListOk (m_faces m) (f_live m) (f_idx m)) /\
  (forall y, In y (m_verts m) -> y < m_fresh m) /\ (forall y, In y (m_hes m) -> y < m_fresh m) /\ (forall y, In y (m_faces m) -> y < m_fresh m).
Lemma wf_lists m : WF m -> Lists m.
Proof.
  intros W. split; [|split; [exact (v_lt m W)|split; [exact (h_lt m W)|exact (f_lt m W)]]].
  split; [|split]; (split; [apply W|]); intros i y E; [destruct (wf_v_elem m W i y E)|destruct (wf_h_elem m W i y E)|destruct (wf_f_elem m W i y E)]; tauto.
Qed.

(** The face [f] has the corners ... p, mi, q ...; its half-edges there are [a] and [b], [pp] before and
    [nn] behind them.  In [m'] there are vertices n 1 .. n k between p = n 0 and q = n (k + 1), triangles
    g i = (n i, mi, n (i + 1)) with the half-edges s i, o i, y i, and half-edges x i from n i to n (i + 1) in [f]. *)
Record Fan m m' (f mi a b pp nn k : nat) (n s o x y g : nat -> nat) : Prop := {
  fn_lists : Lists m';
  fn_fresh : m_fresh m <= m_fresh m';
  fn_verts : exists l, m_verts m' = m_verts m ++ l /\ length l = k /\ forall v, In v l <-> exists i, 1 <= i <= k /\ v = n i;
  fn_hes : exists l, m_hes m' = m_hes m ++ l /\ length l = 4 * k + 2 /\ forall h, In h l <-> exists i, i <= k /\ (h = x i \/ h = y i \/ (1 <= i /\ h = s i) \/ (i < k /\ h = o i));
  fn_faces : exists l, m_faces m' = m_faces m ++ l /\ length l = k + 1 /\ forall h, In h l <-> exists i, i <= k /\ h = g i;
  fn_newv : forall i, 1 <= i <= k -> m_fresh m <= n i;
  fn_newx : forall i, i <= k -> m_fresh m <= x i;
  fn_newy : forall i, i <= k -> m_fresh m <= y i;
  fn_news : forall i, 1 <= i <= k -> m_fresh m <= s i;
  fn_newo : forall i, i < k -> m_fresh m <= o i;
  fn_newg : forall i, i <= k -> m_fresh m <= g i;
  fn_ninj : forall i j, 1 <= i <= k -> 1 <= j <= k -> n i = n j -> i = j;
  fn_ginj : forall i j, i <= k -> j <= k -> g i = g j -> i = j;
  fn_xinj : forall i j, i <= k -> j <= k -> x i = x j -> i = j;
  fn_a : s 0 = a; fn_b : o k = b;
  fn_tri : forall i, i <= k -> h_next m' (s i) = Some (o i) /\ h_next m' (o i) = Some (y i) /\ h_next m' (y i) = Some (s i);
  fn_trif : forall i, i <= k -> h_face m' (s i) = Some (g i) /\ h_face m' (o i) = Some (g i) /\ h_face m' (y i) = Some (g i);
  fn_tris : forall i, i <= k -> h_src m' (s i) = Some (n i) /\ h_src m' (o i) = Some mi /\ h_src m' (y i) = Some (n (S i));
  fn_x : forall i, i <= k -> h_src m' (x i) = Some (n i) /\ h_face m' (x i) = Some f;
  fn_xn : forall i, i < k -> h_next m' (x i) = Some (x (S i));
  fn_xl : h_next m' (x k) = Some nn;
  fn_rx : forall i, i <= k -> h_rev m' (x i) = Some (y i) /\ h_rev m' (y i) = Some (x i);
  fn_ro : forall i, i < k -> h_rev m' (o i) = Some (s (S i)) /\ h_rev m' (s (S i)) = Some (o i);
  fn_pp : h_next m' pp = Some (x 0);
  fn_old : forall h, In h (m_hes m) -> h_src m' h = h_src m h /\ h_rev m' h = h_rev m h;
  fn_oldn : forall h, In h (m_hes m) -> h <> a -> h <> b -> h <> pp -> h_next m' h = h_next m h;
  fn_oldf : forall h, In h (m_hes m) -> h <> a -> h <> b -> h_face m' h = h_face m h;
  fn_bdx : forall i, i <= k -> h_bd m' (x i) = true /\ h_bd m' (y i) = true;
  fn_bds : forall i, i <= k -> h_bd m' (s i) = false /\ h_bd m' (o i) = false;
  fn_bdo : forall h, In h (m_hes m) -> h <> a -> h <> b -> h_bd m' h = h_bd m h;
  fn_vold : forall v, In v (m_verts m) -> v_he m' v = v_he m v /\ v_pos m' v = v_pos m v /\ v_lock m' v = v_lock m v;
  fn_vnew : forall i, 1 <= i <= k -> v_he m' (n i) = Some (x i) /\ v_lock m' (n i) = false;
  fn_f : f_he m' f = Some (x 0);
  fn_gh : forall i, i <= k -> f_he m' (g i) = Some (s i);
  fn_fold : forall g', In g' (m_faces m) -> g' <> f -> f_he m' g' = f_he m g';
  fn_ind : m_indices m' = m_indices m }.

Section W.
Variables (m m' : mesh N) (f mi a b pp nn k : nat) (n s o x y g : nat -> nat) (rest : list nat).
Hypothesis W : WF m.
Hypothesis R : Fring m f (a :: b :: rest).
Hypothesis Enn : h_next m b = Some nn.
Hypothesis Epp : h_next m pp = Some a.
Hypothesis Ipp : In pp rest.
Hypothesis Sa : h_src m a = Some (n 0).
Hypothesis Sb : h_src m b = Some mi.
Hypothesis Snn : h_src m nn = Some (n (S k)).
Hypothesis F : Fan m m' f mi a b pp nn k n s o x y g.

Lemma ring_in h : In h (a :: b :: rest) -> In h (m_hes m) /\ h_face m h = Some f.
Proof. intros I. apply R, I. Qed.
Lemma Ia : In a (m_hes m). Proof. apply ring_in. left. reflexivity. Qed.
Lemma Ib : In b (m_hes m). Proof. apply ring_in. right. left. reflexivity. Qed.
Lemma Ip : In pp (m_hes m). Proof. apply ring_in. right. right. exact Ipp. Qed.
Lemma Fa : h_face m a = Some f. Proof. apply ring_in. left. reflexivity. Qed.
Lemma Fb : h_face m b = Some f. Proof. apply ring_in. right. left. reflexivity. Qed.
Lemma Eab : h_next m a = Some b. Proof. destruct R as (C & _ & _). cbn [cyc chainto] in C. apply C. Qed.
Lemma Dab : a <> b. Proof. destruct R as (_ & ND & _). inversion ND as [|? ? X _]; subst. intros E. apply X. left. auto. Qed.
Lemma Dpa : pp <> a. Proof. destruct R as (_ & ND & _). inversion ND as [|? ? X _]; subst. intros E. apply X. right. rewrite <- E. exact Ipp. Qed.
Lemma Dpb : pp <> b. Proof. destruct R as (_ & ND & _). inversion ND as [|? ? _ X]; subst. inversion X as [|? ? Y _]; subst. intros E. apply Y. rewrite <- E. exact Ipp. Qed.
Lemma Inn : In nn (m_hes m). Proof. exact (next_in m W b nn Ib Enn). Qed.
Lemma Ifm : In f (m_faces m). Proof. exact (face_in m W a f Ia Fa). Qed.
Lemma Imi : In mi (m_verts m). Proof. exact (src_in m W b mi Ib Sb). Qed.
Lemma In0 : In (n 0) (m_verts m). Proof. exact (src_in m W a _ Ia Sa). Qed.
Lemma Inq : In (n (S k)) (m_verts m). Proof. exact (src_in m W nn _ Inn Snn). Qed.
Lemma rev_pp : exists r, h_rev m pp = Some r /\ In r (m_hes m) /\ h_src m r = Some (n 0) /\ h_rev m r = Some pp.
Proof. destruct (wf_rev m W pp Ip) as (r & E & I). exists r. split; [exact E|]. split; [exact I|]. split; [rewrite <- (wf_dst m W pp a r Ip Epp E); exact Sa|exact (rev_rev m W pp r Ip E)]. Qed.
Lemma rev_a : exists r, h_rev m a = Some r /\ In r (m_hes m) /\ h_src m r = Some mi /\ h_rev m r = Some a.
Proof. destruct (wf_rev m W a Ia) as (r & E & I). exists r. split; [exact E|]. split; [exact I|]. split; [rewrite <- (wf_dst m W a b r Ia Eab E); exact Sb|exact (rev_rev m W a r Ia E)]. Qed.
Lemma rev_b : exists r, h_rev m b = Some r /\ In r (m_hes m) /\ h_src m r = Some (n (S k)) /\ h_rev m r = Some b.
Proof. destruct (wf_rev m W b Ib) as (r & E & I). exists r. split; [exact E|]. split; [exact I|]. split; [rewrite <- (wf_dst m W b nn r Ib Enn E); exact Snn|exact (rev_rev m W b r Ib E)]. Qed.

(** The half-edges of [m']. *)
Inductive Kind (h : nat) : Prop :=
  | KOld : In h (m_hes m) -> h <> a -> h <> b -> Kind h
  | KS i : i <= k -> h = s i -> Kind h
  | KO i : i <= k -> h = o i -> Kind h
  | KX i : i <= k -> h = x i -> Kind h
  | KY i : i <= k -> h = y i -> Kind h.
Lemma kind h : In h (m_hes m') <-> Kind h.
Proof.
  destruct (fn_hes _ _ _ _ _ _ _ _ _ _ _ _ _ _ _ F) as (l & E & _ & L). rewrite E, in_app_iff, L. split.
  - intros [I | (i & Li & [-> | [-> | [[L1 ->] | [L1 ->]]]])].
    + destruct (Nat.eq_dec h a) as [->|Da]; [apply (KS a 0); [lia|symmetry; exact (fn_a _ _ _ _ _ _ _ _ _ _ _ _ _ _ _ F)]|].
      destruct (Nat.eq_dec h b) as [->|Db]; [apply (KO b k); [lia|symmetry; exact (fn_b _ _ _ _ _ _ _ _ _ _ _ _ _ _ _ F)]|]. apply KOld; assumption.
    + apply (KX _ i); auto.
    + apply (KY _ i); auto.
    + apply (KS _ i); auto.
    + apply (KO _ i); auto.
  - intros [I _ _ | i Li -> | i Li -> | i Li -> | i Li ->]; [left; exact I| | |right; eauto|right; eauto].
    + destruct i as [|i]; [left; rewrite (fn_a _ _ _ _ _ _ _ _ _ _ _ _ _ _ _ F); exact Ia|right]. exists (S i). split; [exact Li|]. right. right. left. split; [lia|reflexivity].
    + destruct (Nat.eq_dec i k) as [->|D]; [left; rewrite (fn_b _ _ _ _ _ _ _ _ _ _ _ _ _ _ _ F); exact Ib|right]. exists i. split; [exact Li|]. right. right. right. split; [lia|reflexivity].
Qed.
Lemma in_s i : i <= k -> In (s i) (m_hes m'). Proof. intros L. apply kind. apply (KS _ i); auto. Qed.
Lemma in_o i : i <= k -> In (o i) (m_hes m'). Proof. intros L. apply kind. apply (KO _ i); auto. Qed.
Lemma in_x i : i <= k -> In (x i) (m_hes m'). Proof. intros L. apply kind. apply (KX _ i); auto. Qed.
Lemma in_y i : i <= k -> In (y i) (m_hes m'). Proof. intros L. apply kind. apply (KY _ i); auto. Qed.
Lemma in_old h : In h (m_hes m) -> In h (m_hes m').
Proof. intros I. destruct (fn_hes _ _ _ _ _ _ _ _ _ _ _ _ _ _ _ F) as (l & E & _). rewrite E. apply in_app_iff. auto. Qed.
Lemma in_vold h : In h (m_verts m) -> In h (m_verts m').
Proof. intros I. destruct (fn_verts _ _ _ _ _ _ _ _ _ _ _ _ _ _ _ F) as (l & E & _). rewrite E. apply in_app_iff. auto. Qed.
Lemma in_fold h : In h (m_faces m) -> In h (m_faces m').
Proof. intros I. destruct (fn_faces _ _ _ _ _ _ _ _ _ _ _ _ _ _ _ F) as (l & E & _). rewrite E. apply in_app_iff. auto. Qed.
Lemma in_g i : i <= k -> In (g i) (m_faces m').
Proof. intros I. destruct (fn_faces _ _ _ _ _ _ _ _ _ _ _ _ _ _ _ F) as (l & E & _ & L). rewrite E. apply in_app_iff. right. apply L. eauto. Qed.
Lemma in_n i : i <= S k -> In (n i) (m_verts m').
Proof.
  intros I. destruct i as [|i]; [apply in_vold, In0|]. destruct (Nat.eq_dec i k) as [->|D]; [apply in_vold, Inq|].
  destruct (fn_verts _ _ _ _ _ _ _ _ _ _ _ _ _ _ _ F) as (l & E & _ & L). rewrite E. apply in_app_iff. right. apply L. exists (S i). split; [lia|reflexivity].
Qed.
Lemma old_lt h i z : In h (m_hes m) -> i <= k -> m_fresh m <= z -> h <> z.
Proof. intros I _ L. apply (h_lt m W) in I. lia. Qed.
Lemma sub_a : s 0 = a. Proof. exact (fn_a _ _ _ _ _ _ _ _ _ _ _ _ _ _ _ F). Qed.
Lemma sub_b : o k = b. Proof. exact (fn_b _ _ _ _ _ _ _ _ _ _ _ _ _ _ _ F). Qed.

(** Half-edges of each kind start where they should. *)
Lemma next_of h : In h (m_hes m') -> exists z, h_next m' h = Some z /\ In z (m_hes m').
Proof.
  intros I. apply kind in I as [I Da Db | i L -> | i L -> | i L -> | i L ->].
  - destruct (Nat.eq_dec h pp) as [->|Dp]; [exists (x 0); split; [exact (fn_pp _ _ _ _ _ _ _ _ _ _ _ _ _ _ _ F)|apply in_x; lia]|].
    rewrite (fn_oldn _ _ _ _ _ _ _ _ _ _ _ _ _ _ _ F h I Da Db Dp). destruct (wf_next m W h I) as (z & E & Iz). exists z. split; [exact E|apply in_old, Iz].
  - exists (o i). split; [apply (fn_tri _ _ _ _ _ _ _ _ _ _ _ _ _ _ _ F i L)|apply in_o, L].
  - exists (y i). split; [apply (fn_tri _ _ _ _ _ _ _ _ _ _ _ _ _ _ _ F i L)|apply in_y, L].
  - destruct (Nat.eq_dec i k) as [->|D]; [exists nn; split; [exact (fn_xl _ _ _ _ _ _ _ _ _ _ _ _ _ _ _ F)|apply in_old, Inn]|].
    exists (x (S i)). split; [apply (fn_xn _ _ _ _ _ _ _ _ _ _ _ _ _ _ _ F); lia|apply in_x; lia].
  - exists (s i). split; [apply (fn_tri _ _ _ _ _ _ _ _ _ _ _ _ _ _ _ F i L)|apply in_s, L].
Qed.
Lemma rev_s i : i < k -> h_rev m' (s (S i)) = Some (o i). Proof. intros L. apply (fn_ro _ _ _ _ _ _ _ _ _ _ _ _ _ _ _ F i L). Qed.
Lemma rev_old h : In h (m_hes m) -> h_rev m' h = h_rev m h. Proof. intros I. apply (fn_old _ _ _ _ _ _ _ _ _ _ _ _ _ _ _ F h I). Qed.
Lemma src_old h : In h (m_hes m) -> h_src m' h = h_src m h. Proof. intros I. apply (fn_old _ _ _ _ _ _ _ _ _ _ _ _ _ _ _ F h I). Qed.
(** Either the opposite half-edge is unchanged, or both are new. *)
Lemma rev_of h : In h (m_hes m') -> (In h (m_hes m) /\ exists r, h_rev m h = Some r /\ In r (m_hes m) /\ h_rev m' h = Some r) \/
  exists i, (i <= k /\ ((h = x i /\ h_rev m' h = Some (y i)) \/ (h = y i /\ h_rev m' h = Some (x i)))) \/
            (i < k /\ ((h = o i /\ h_rev m' h = Some (s (S i))) \/ (h = s (S i) /\ h_rev m' h = Some (o i)))).
Proof.
  assert (OLD : forall h, In h (m_hes m) -> In h (m_hes m) /\ exists r, h_rev m h = Some r /\ In r (m_hes m) /\ h_rev m' h = Some r).
  { intros h0 I. split; [exact I|]. destruct (wf_rev m W h0 I) as (r & E & Ir). exists r. rewrite (rev_old h0 I). auto. }
  intros I. apply kind in I as [I Da Db | i L -> | i L -> | i L -> | i L ->].
  - left. apply OLD, I.
  - destruct i as [|i]; [left; rewrite sub_a; apply OLD, Ia|]. right. exists i. right. split; [lia|]. right. split; [reflexivity|apply rev_s; lia].
  - destruct (Nat.eq_dec i k) as [->|D]; [left; rewrite sub_b; apply OLD, Ib|]. right. exists i. right. split; [lia|]. left. split; [reflexivity|apply (fn_ro _ _ _ _ _ _ _ _ _ _ _ _ _ _ _ F); lia].
  - right. exists i. left. split; [exact L|]. left. split; [reflexivity|apply (fn_rx _ _ _ _ _ _ _ _ _ _ _ _ _ _ _ F i L)].
  - right. exists i. left. split; [exact L|]. right. split; [reflexivity|apply (fn_rx _ _ _ _ _ _ _ _ _ _ _ _ _ _ _ F i L)].
Qed.
Lemma nodup_h : NoDup (m_hes m'). Proof. apply (fn_lists _ _ _ _ _ _ _ _ _ _ _ _ _ _ _ F). Qed.

(** Different kinds are different half-edges. *)
Lemma face_f h : In h (m_hes m') -> h_face m' h = Some f <-> (exists i, i <= k /\ h = x i) \/ (In h (m_hes m) /\ h <> a /\ h <> b /\ h_face m h = Some f).
Proof.
  assert (LG : forall i, i <= k -> g i <> f) by (intros i L E; assert (Q := fn_newg _ _ _ _ _ _ _ _ _ _ _ _ _ _ _ F i L); assert (Z := f_lt m W f Ifm); lia).
  intros I. apply kind in I as [I Da Db | i L -> | i L -> | i L -> | i L ->].
  - rewrite (fn_oldf _ _ _ _ _ _ _ _ _ _ _ _ _ _ _ F h I Da Db). split; [intros E; right; auto|intros [(i & L & ->) | (_ & _ & _ & E)]; [|exact E]].
    exfalso. apply (old_lt (x i) i (x i) I L (fn_newx _ _ _ _ _ _ _ _ _ _ _ _ _ _ _ F i L)). reflexivity.
  - destruct (fn_trif _ _ _ _ _ _ _ _ _ _ _ _ _ _ _ F i L) as (E & _ & _). rewrite E. split; [intros [= K]; destruct (LG i L K)|].
    intros [(j & Lj & K) | (I & Da & Db & K)].
    + exfalso. assert (X := proj2 (fn_x _ _ _ _ _ _ _ _ _ _ _ _ _ _ _ F j Lj)). rewrite <- K, E in X. injection X as X. destruct (LG i L X).
    + exfalso. assert (Z := fn_oldf _ _ _ _ _ _ _ _ _ _ _ _ _ _ _ F _ I Da Db). rewrite E, K in Z. injection Z as Z. destruct (LG i L Z).
  - destruct (fn_trif _ _ _ _ _ _ _ _ _ _ _ _ _ _ _ F i L) as (_ & E & _). rewrite E. split; [intros [= K]; destruct (LG i L K)|].
    intros [(j & Lj & K) | (I & Da & Db & K)].
    + exfalso. assert (X := proj2 (fn_x _ _ _ _ _ _ _ _ _ _ _ _ _ _ _ F j Lj)). rewrite <- K, E in X. injection X as X. destruct (LG i L X).
    + exfalso. assert (Z := fn_oldf _ _ _ _ _ _ _ _ _ _ _ _ _ _ _ F _ I Da Db). rewrite E, K in Z. injection Z as Z. destruct (LG i L Z).
  - destruct (fn_x _ _ _ _ _ _ _ _ _ _ _ _ _ _ _ F i L) as (_ & E). rewrite E. split; [intros _; left; eauto|reflexivity].
  - destruct (fn_trif _ _ _ _ _ _ _ _ _ _ _ _ _ _ _ F i L) as (_ & _ & E). rewrite E. split; [intros [= K]; destruct (LG i L K)|].
    intros [(j & Lj & K) | (I & Da & Db & K)].
    + exfalso. assert (X := proj2 (fn_x _ _ _ _ _ _ _ _ _ _ _ _ _ _ _ F j Lj)). rewrite <- K, E in X. injection X as X. destruct (LG i L X).
    + exfalso. assert (Z := fn_oldf _ _ _ _ _ _ _ _ _ _ _ _ _ _ _ F _ I Da Db). rewrite E, K in Z. injection Z as Z. destruct (LG i L Z).
Qed.
Lemma face_g h i : In h (m_hes m') -> i <= k -> h_face m' h = Some (g i) <-> h = s i \/ h = o i \/ h = y i.
Proof.
  assert (LG : forall i, i <= k -> g i <> f) by (intros j L E; assert (Q := fn_newg _ _ _ _ _ _ _ _ _ _ _ _ _ _ _ F j L); assert (Z := f_lt m W f Ifm); lia).
  intros I L. destruct (fn_trif _ _ _ _ _ _ _ _ _ _ _ _ _ _ _ F i L) as (E1 & E2 & E3). split; [|intros [-> | [-> | ->]]; assumption].
  intros E. apply kind in I as [I Da Db | j Lj -> | j Lj -> | j Lj -> | j Lj ->].
  - exfalso. rewrite (fn_oldf _ _ _ _ _ _ _ _ _ _ _ _ _ _ _ F h I Da Db) in E. assert (Z := f_lt m W _ (face_in m W h _ I E)). assert (Q := fn_newg _ _ _ _ _ _ _ _ _ _ _ _ _ _ _ F i L). lia.
  - rewrite (proj1 (fn_trif _ _ _ _ _ _ _ _ _ _ _ _ _ _ _ F j Lj)) in E. injection E as E. rewrite (fn_ginj _ _ _ _ _ _ _ _ _ _ _ _ _ _ _ F j i Lj L E). auto.
  - rewrite (proj1 (proj2 (fn_trif _ _ _ _ _ _ _ _ _ _ _ _ _ _ _ F j Lj))) in E. injection E as E. rewrite (fn_ginj _ _ _ _ _ _ _ _ _ _ _ _ _ _ _ F j i Lj L E). auto.
  - exfalso. rewrite (proj2 (fn_x _ _ _ _ _ _ _ _ _ _ _ _ _ _ _ F j Lj)) in E. injection E as E. apply (LG i L). auto.
  - rewrite (proj2 (proj2 (fn_trif _ _ _ _ _ _ _ _ _ _ _ _ _ _ _ F j Lj))) in E. injection E as E. rewrite (fn_ginj _ _ _ _ _ _ _ _ _ _ _ _ _ _ _ F j i Lj L E). auto.
Qed.

(** ** The new front *)
Definition new_ring : list nat := map x (seq 0 (S k)) ++ rest.
Lemma rest_ends : exists c1 c2, rest = c1 ++ c2 /\ (exists t, rest = nn :: t) /\ chainto (h_next m) nn (tl rest) a.
Proof.
  destruct R as (C & _ & _). cbn [cyc chainto] in C. destruct C as [_ C]. destruct rest as [|r0 t]; [destruct Ipp|]. cbn [chainto] in C. destruct C as [E C]. rewrite Enn in E. injection E as <-.
  exists [], (nn :: t). split; [reflexivity|]. split; [eauto|exact C].
Qed.
Lemma chain_x : forall j i, i + j = k -> chainto (h_next m') (x i) (map x (seq (S i) j)) nn.
Proof.
  induction j as [|j IH]; intros i E.
  - cbn [seq map chainto]. replace i with k by lia. exact (fn_xl _ _ _ _ _ _ _ _ _ _ _ _ _ _ _ F).
  - cbn [seq map chainto]. split; [apply (fn_xn _ _ _ _ _ _ _ _ _ _ _ _ _ _ _ F); lia|]. apply IH. lia.
Qed.
Lemma rest_not h : In h rest -> h <> a /\ h <> b.
Proof. intros I. destruct R as (_ & ND & _). inversion ND as [|? ? X Y]; subst. inversion Y as [|? ? Z _]; subst. split; intros ->; [apply X; right; exact I|exact (Z I)]. Qed.
Lemma nodup_map_inj (h : nat -> nat) : forall l : list nat, (forall i j, In i l -> In j l -> h i = h j -> i = j) -> NoDup l -> NoDup (map h l).
Proof.
  induction l as [|i l IH]; intros J ND; [constructor|]. inversion ND as [|? ? X Y]; subst. cbn [map]. constructor.
  - intros K. apply in_map_iff in K as (j & E & Ij). apply X. rewrite <- (J j i); [exact Ij|right; exact Ij|left; reflexivity|exact E].
  - apply IH; [intros; apply J; auto; right; assumption|exact Y].
Qed.
Lemma x_new i : i <= k -> ~ In (x i) (m_hes m).
Proof. intros L I. apply (h_lt m W) in I. assert (Q := fn_newx _ _ _ _ _ _ _ _ _ _ _ _ _ _ _ F i L). lia. Qed.
Lemma nodup_x : NoDup (map x (seq 0 (S k))).
Proof. apply nodup_map_inj; [|apply seq_NoDup]. intros i j Ii Ij E. apply in_seq in Ii, Ij. apply (fn_xinj _ _ _ _ _ _ _ _ _ _ _ _ _ _ _ F); [lia|lia|exact E]. Qed.
Lemma chain_rest_nd : forall l z, chainto (h_next m) z l a -> NoDup (z :: l) -> (forall h, In h (z :: l) -> In h (m_hes m) /\ h <> a /\ h <> b) -> In pp (z :: l) -> chainto (h_next m') z l (x 0).
Proof.
  induction l as [|w l IH]; intros z C ND NA Ppp.
  - cbn [chainto] in *. destruct Ppp as [-> | []]. exact (fn_pp _ _ _ _ _ _ _ _ _ _ _ _ _ _ _ F).
  - cbn [chainto] in *. destruct C as [E C]. inversion ND as [|? ? X Y]; subst. assert (Dz : z <> pp).
    { intros ->. rewrite Epp in E. injection E as <-. destruct (NA a (or_intror (or_introl eq_refl))) as (_ & K & _). apply K. reflexivity. }
    split; [rewrite (fn_oldn _ _ _ _ _ _ _ _ _ _ _ _ _ _ _ F z); try apply (NA z (or_introl eq_refl)); [exact E|exact Dz]|].
    apply IH; [exact C|exact Y|intros h I; apply NA; right; exact I|destruct Ppp as [P | P]; [congruence|exact P]].
Qed.
Lemma fring_new : Fring m' f new_ring.
Proof.
  destruct rest_ends as (_ & _ & _ & (t & Et) & C). assert (RI := ring_in). assert (RN := rest_not). assert (P := Ipp).
  assert (ND : NoDup rest) by (destruct R as (_ & ND & _); inversion ND as [|? ? _ Y]; subst; inversion Y; assumption).
  unfold new_ring, Fring. split; [|split].
  - cbn [seq map app cyc]. rewrite Et in *. cbn [tl] in C. apply chainto_app. split; [apply chain_x; lia|].
    apply chain_rest_nd; [exact C|exact ND| |exact P]. intros h Ih. split; [apply RI; right; right; exact Ih|apply RN, Ih].
  - assert (DJ : forall h, In h (map x (seq 0 (S k))) -> ~ In h rest).
    { intros h I K. apply in_map_iff in I as (i & <- & I). apply in_seq in I. apply (x_new i); [lia|]. apply RI. right. right. exact K. }
    revert DJ. assert (NX := nodup_x). induction (map x (seq 0 (S k))) as [|z l IH]; intros DJ; [exact ND|]. cbn [app]. inversion NX as [|? ? X Y]; subst. constructor.
    + rewrite in_app_iff. intros [K | K]; [exact (X K)|exact (DJ z (or_introl eq_refl) K)].
    + apply IH; [exact Y|]. intros h I. apply DJ. right. exact I.
  - intros h. rewrite in_app_iff. split.
    + intros [I | I].
      * apply in_map_iff in I as (i & <- & I). apply in_seq in I. split; [apply in_x; lia|apply (fn_x _ _ _ _ _ _ _ _ _ _ _ _ _ _ _ F); lia].
      * destruct (RI h) as [I1 I2]; [right; right; exact I|]. split; [apply in_old, I1|]. rewrite (fn_oldf _ _ _ _ _ _ _ _ _ _ _ _ _ _ _ F h I1 (proj1 (RN h I)) (proj2 (RN h I))). exact I2.
    + intros [I E]. apply (face_f h I) in E as [(i & L & ->) | (I' & Da & Db & E)]; [left; apply in_map_iff; exists i; split; [reflexivity|apply in_seq; lia]|right].
      assert (K : In h (a :: b :: rest)) by (apply R; auto). destruct K as [K | [K | K]]; [congruence|congruence|exact K].
Qed.

(** ** Rotation *)
Lemma rot_x i : i <= k -> rot m' (x i) = Some (s i).
Proof. intros L. unfold rot. rewrite (proj1 (fn_rx _ _ _ _ _ _ _ _ _ _ _ _ _ _ _ F i L)). apply (fn_tri _ _ _ _ _ _ _ _ _ _ _ _ _ _ _ F i L). Qed.
Lemma rot_s i : i < k -> rot m' (s (S i)) = Some (y i).
Proof. intros L. unfold rot. rewrite (rev_s i L). apply (fn_tri _ _ _ _ _ _ _ _ _ _ _ _ _ _ _ F i). lia. Qed.
Lemma rot_y i : i < k -> rot m' (y i) = Some (x (S i)).
Proof. intros L. unfold rot. rewrite (proj2 (fn_rx _ _ _ _ _ _ _ _ _ _ _ _ _ _ _ F i (Nat.lt_le_incl _ _ L))). apply (fn_xn _ _ _ _ _ _ _ _ _ _ _ _ _ _ _ F i L). Qed.
Lemma rot_yk : rot m' (y k) = Some nn.
Proof. unfold rot. rewrite (proj2 (fn_rx _ _ _ _ _ _ _ _ _ _ _ _ _ _ _ F k (Nat.le_refl k))). exact (fn_xl _ _ _ _ _ _ _ _ _ _ _ _ _ _ _ F). Qed.
Lemma rot_o i : i < k -> rot m' (o i) = Some (o (S i)).
Proof. intros L. unfold rot. rewrite (proj1 (fn_ro _ _ _ _ _ _ _ _ _ _ _ _ _ _ _ F i L)). apply (fn_tri _ _ _ _ _ _ _ _ _ _ _ _ _ _ _ F (S i)). lia. Qed.
Lemma o_reach : forall j i, i + j <= k -> reaches (rot m') (o i) (o (i + j)).
Proof.
  induction j as [|j IH]; intros i L; [rewrite Nat.add_0_r; apply reaches_refl|].
  apply (reaches_trans _ _ (o (S i))); [apply reaches_step, rot_o; lia|]. replace (i + S j) with (S i + j) by lia. apply IH. lia.
Qed.
Lemma rot_old h z : In h (m_hes m) -> rot m h = Some z -> reaches (rot m') h z.
Proof.
  intros I E. destruct (rot_some m W h I) as (r & z' & Er & En & Ez & Ir & Iz). rewrite Ez in E. injection E as ->.
  assert (RT : rot m' h = h_next m' r) by (unfold rot; rewrite (rev_old h I), Er; reflexivity).
  destruct (Nat.eq_dec r pp) as [->|Dp].
  { rewrite Epp in En. injection En as <-. apply (reaches_trans _ _ (x 0)); apply reaches_step; [rewrite RT; exact (fn_pp _ _ _ _ _ _ _ _ _ _ _ _ _ _ _ F)|]. rewrite (rot_x 0) by lia. f_equal. exact sub_a. }
  destruct (Nat.eq_dec r a) as [->|Da].
  { rewrite Eab in En. injection En as <-. apply (reaches_trans _ _ (o 0)); [apply reaches_step; rewrite RT, <- sub_a; apply (fn_tri _ _ _ _ _ _ _ _ _ _ _ _ _ _ _ F); lia|]. rewrite <- sub_b. apply (o_reach k 0). lia. }
  destruct (Nat.eq_dec r b) as [->|Db].
  { rewrite Enn in En. injection En as <-. apply (reaches_trans _ _ (y k)); [apply reaches_step; rewrite RT, <- sub_b; apply (fn_tri _ _ _ _ _ _ _ _ _ _ _ _ _ _ _ F); lia|]. apply reaches_step, rot_yk. }
  apply reaches_step. rewrite RT, (fn_oldn _ _ _ _ _ _ _ _ _ _ _ _ _ _ _ F r Ir Da Db Dp). exact En.
Qed.
Lemma lift_reaches (f1 f2 : nat -> option nat) (P : nat -> Prop) : (forall h z, P h -> f1 h = Some z -> P z /\ reaches f2 h z) -> forall h z, P h -> reaches f1 h z -> reaches f2 h z.
Proof.
  intros ST h z Ph [c E]. revert h Ph E. induction c as [|c IH]; intros h Ph E; cbn [piter] in E; [injection E as ->; apply reaches_refl|].
  destruct (f1 h) as [w|] eqn:Ew; [|discriminate]. destruct (ST h w Ph Ew) as [Pw Rw]. apply (reaches_trans _ _ w); [exact Rw|]. apply IH; assumption.
Qed.
Lemma old_reach h z : In h (m_hes m) -> In z (m_hes m) -> h_src m h = h_src m z -> reaches (rot m') h z.
Proof.
  intros I Iz E. apply (lift_reaches (rot m) (rot m') (fun h => In h (m_hes m))); [|exact I|exact (wf_vertex_orbit m W h z I Iz E)].
  intros h' w Ih Ew. split; [exact (rot_in m W h' w Ih Ew)|exact (rot_old h' w Ih Ew)].
Qed.
(** Seen from the vertices of [m], every half-edge lies between two old ones. *)
Lemma around h v : In h (m_hes m') -> In v (m_verts m) -> h_src m' h = Some v ->
  exists e e', In e (m_hes m) /\ In e' (m_hes m) /\ h_src m e = Some v /\ h_src m e' = Some v /\ reaches (rot m') h e /\ reaches (rot m') e' h.
Proof.
  assert (NV : forall i, 1 <= i <= k -> In v (m_verts m) -> n i <> v) by (intros i L I E; apply (v_lt m W) in I; assert (Q := fn_newv _ _ _ _ _ _ _ _ _ _ _ _ _ _ _ F i L); lia).
  assert (SELF : forall h, In h (m_hes m) -> h_src m' h = Some v -> exists e e', In e (m_hes m) /\ In e' (m_hes m) /\ h_src m e = Some v /\ h_src m e' = Some v /\ reaches (rot m') h e /\ reaches (rot m') e' h).
  { intros h0 I0 E0. rewrite (src_old h0 I0) in E0. exists h0, h0. repeat (split; [assumption|]). split; apply reaches_refl. }
  intros I Iv E. apply kind in I as [I Da Db | i L -> | i L -> | i L -> | i L ->].
  - apply SELF; assumption.
  - destruct i as [|i]; [rewrite sub_a in *; apply SELF; [exact Ia|exact E]|]. exfalso. rewrite (proj1 (fn_tris _ _ _ _ _ _ _ _ _ _ _ _ _ _ _ F _ L)) in E. injection E as E. apply (NV (S i)); [lia|exact Iv|exact E].
  - rewrite (proj1 (proj2 (fn_tris _ _ _ _ _ _ _ _ _ _ _ _ _ _ _ F _ L))) in E. injection E as <-. destruct rev_a as (r & Er & Ir & Sr & Rr).
    exists b, r. split; [exact Ib|]. split; [exact Ir|]. split; [exact Sb|]. split; [exact Sr|]. split.
    + rewrite <- sub_b. assert (Q := o_reach (k - i) i). replace (i + (k - i)) with k in Q by (clear - L; lia). apply Q. clear. lia.
    + apply (reaches_trans _ _ (o 0)); [apply reaches_step; unfold rot; rewrite (rev_old r Ir), Rr, <- sub_a; apply (fn_tri _ _ _ _ _ _ _ _ _ _ _ _ _ _ _ F); lia|]. apply (o_reach i 0). lia.
  - rewrite (proj1 (fn_x _ _ _ _ _ _ _ _ _ _ _ _ _ _ _ F _ L)) in E. injection E as E. destruct i as [|i]; [|exfalso; apply (NV (S i)); [lia|exact Iv|exact E]]. subst v.
    destruct rev_pp as (r & Er & Ir & Sr & Rr). exists a, r. split; [exact Ia|]. split; [exact Ir|]. split; [exact Sa|]. split; [exact Sr|]. split; apply reaches_step; [rewrite (rot_x 0) by lia; f_equal; exact sub_a|].
    unfold rot. rewrite (rev_old r Ir), Rr. exact (fn_pp _ _ _ _ _ _ _ _ _ _ _ _ _ _ _ F).
  - rewrite (proj2 (proj2 (fn_tris _ _ _ _ _ _ _ _ _ _ _ _ _ _ _ F _ L))) in E. injection E as E. destruct (Nat.eq_dec i k) as [->|D]; [|exfalso; apply (NV (S i)); [lia|exact Iv|exact E]]. subst v.
    destruct rev_b as (r & Er & Ir & Sr & Rr). exists nn, r. split; [exact Inn|]. split; [exact Ir|]. split; [exact Snn|]. split; [exact Sr|]. split; apply reaches_step; [exact rot_yk|].
    unfold rot. rewrite (rev_old r Ir), Rr, <- sub_b. apply (fn_tri _ _ _ _ _ _ _ _ _ _ _ _ _ _ _ F). lia.
Qed.
Lemma at_new h i : In h (m_hes m') -> 1 <= i <= k -> h_src m' h = Some (n i) -> h = x i \/ h = s i \/ h = y (i - 1).
Proof.
  intros I L E. assert (Q := fn_newv _ _ _ _ _ _ _ _ _ _ _ _ _ _ _ F i L).
  assert (NO : forall v, In v (m_verts m) -> v <> n i) by (intros v Iv K; apply (v_lt m W) in Iv; lia).
  apply kind in I as [I Da Db | j Lj -> | j Lj -> | j Lj -> | j Lj ->].
  - exfalso. rewrite (src_old h I) in E. apply (NO (n i)); [exact (src_in m W h _ I E)|reflexivity].
  - rewrite (proj1 (fn_tris _ _ _ _ _ _ _ _ _ _ _ _ _ _ _ F _ Lj)) in E. injection E as E. destruct j as [|j]; [exfalso; apply (NO _ In0); exact E|]. rewrite (fn_ninj _ _ _ _ _ _ _ _ _ _ _ _ _ _ _ F (S j) i); auto. lia.
  - exfalso. rewrite (proj1 (proj2 (fn_tris _ _ _ _ _ _ _ _ _ _ _ _ _ _ _ F _ Lj))) in E. injection E as E. exact (NO _ Imi E).
  - rewrite (proj1 (fn_x _ _ _ _ _ _ _ _ _ _ _ _ _ _ _ F _ Lj)) in E. injection E as E. destruct j as [|j]; [exfalso; apply (NO _ In0); exact E|]. rewrite (fn_ninj _ _ _ _ _ _ _ _ _ _ _ _ _ _ _ F (S j) i); auto. lia.
  - rewrite (proj2 (proj2 (fn_tris _ _ _ _ _ _ _ _ _ _ _ _ _ _ _ F _ Lj))) in E. injection E as E. destruct (Nat.eq_dec j k) as [->|D]; [exfalso; apply (NO _ Inq); exact E|].
    right. right. f_equal. assert (S j = i); [|lia]. apply (fn_ninj _ _ _ _ _ _ _ _ _ _ _ _ _ _ _ F); [lia|exact L|exact E].
Qed.

Theorem fan_wf : WF m'.
Proof.
  destruct (fn_lists _ _ _ _ _ _ _ _ _ _ _ _ _ _ _ F) as (((VN & VE) & (HN & HE) & (FN & FE)) & VL & HL & FL).
  assert (VI : forall i, i <= S k -> exists v, Some (n i) = Some v /\ In v (m_verts m')) by (intros i L; exists (n i); split; [reflexivity|apply in_n, L]).
  constructor.
  - exact VN. - exact HN. - exact FN.
  - intros i v E. destruct (VE i v E). split; [|split]; auto. apply VL. exact (nth_error_In _ _ E).
  - intros i v E. destruct (HE i v E). split; [|split]; auto. apply HL. exact (nth_error_In _ _ E).
  - intros i v E. destruct (FE i v E). split; [|split]; auto. apply FL. exact (nth_error_In _ _ E).
  - intros h I. apply kind in I as [I Da Db | i L -> | i L -> | i L -> | i L ->].
    + rewrite (src_old h I). destruct (wf_src m W h I) as (v & E & Iv). exists v. split; [exact E|apply in_vold, Iv].
    + rewrite (proj1 (fn_tris _ _ _ _ _ _ _ _ _ _ _ _ _ _ _ F _ L)). apply VI. lia.
    + rewrite (proj1 (proj2 (fn_tris _ _ _ _ _ _ _ _ _ _ _ _ _ _ _ F _ L))). exists mi. split; [reflexivity|apply in_vold, Imi].
    + rewrite (proj1 (fn_x _ _ _ _ _ _ _ _ _ _ _ _ _ _ _ F _ L)). apply VI. lia.
    + rewrite (proj2 (proj2 (fn_tris _ _ _ _ _ _ _ _ _ _ _ _ _ _ _ F _ L))). apply VI. lia.
  - exact next_of.
  - intros h I. destruct (rev_of h I) as [(_ & r & _ & Ir & E) | (i & [(L & [[_ E] | [_ E]]) | (L & [[_ E] | [_ E]])])]; rewrite E; eexists; (split; [reflexivity|]); [apply in_old, Ir|apply in_y, L|apply in_x, L|apply in_s; lia|apply in_o; lia].
  - intros h I. apply kind in I as [I Da Db | i L -> | i L -> | i L -> | i L ->].
    + rewrite (fn_oldf _ _ _ _ _ _ _ _ _ _ _ _ _ _ _ F h I Da Db). destruct (wf_face m W h I) as (v & E & Iv). exists v. split; [exact E|apply in_fold, Iv].
    + rewrite (proj1 (fn_trif _ _ _ _ _ _ _ _ _ _ _ _ _ _ _ F _ L)). exists (g i). split; [reflexivity|apply in_g, L].
    + rewrite (proj1 (proj2 (fn_trif _ _ _ _ _ _ _ _ _ _ _ _ _ _ _ F _ L))). exists (g i). split; [reflexivity|apply in_g, L].
    + rewrite (proj2 (fn_x _ _ _ _ _ _ _ _ _ _ _ _ _ _ _ F _ L)). exists f. split; [reflexivity|apply in_fold, Ifm].
    + rewrite (proj2 (proj2 (fn_trif _ _ _ _ _ _ _ _ _ _ _ _ _ _ _ F _ L))). exists (g i). split; [reflexivity|apply in_g, L].
  - assert (XY : forall i, i <= k -> y i <> x i).
    { intros i L K. assert (A := proj2 (fn_x _ _ _ _ _ _ _ _ _ _ _ _ _ _ _ F i L)). assert (B := proj2 (proj2 (fn_trif _ _ _ _ _ _ _ _ _ _ _ _ _ _ _ F i L))). rewrite K, A in B. injection B as B.
      assert (Q := fn_newg _ _ _ _ _ _ _ _ _ _ _ _ _ _ _ F i L). assert (Z := f_lt m W f Ifm). lia. }
    assert (SO : forall i, i < k -> s (S i) <> o i).
    { intros i L K. assert (A := proj1 (fn_trif _ _ _ _ _ _ _ _ _ _ _ _ _ _ _ F (S i) L)). assert (B := proj1 (proj2 (fn_trif _ _ _ _ _ _ _ _ _ _ _ _ _ _ _ F i (Nat.lt_le_incl _ _ L)))). rewrite K, B in A. injection A as A.
      apply (fn_ginj _ _ _ _ _ _ _ _ _ _ _ _ _ _ _ F) in A; lia. }
    intros h r I E. destruct (rev_of h I) as [(I' & r' & E1 & Ir & E2) | (i & [(L & [[-> E2] | [-> E2]]) | (L & [[-> E2] | [-> E2]])])]; rewrite E2 in E; injection E as <-.
    + rewrite (rev_old r' Ir). exact (wf_rev_invol m W h r' I' E1).
    + split; [apply (fn_rx _ _ _ _ _ _ _ _ _ _ _ _ _ _ _ F i L)|apply XY, L].
    + split; [apply (fn_rx _ _ _ _ _ _ _ _ _ _ _ _ _ _ _ F i L)|intros K; apply (XY i L); auto].
    + split; [apply (fn_ro _ _ _ _ _ _ _ _ _ _ _ _ _ _ _ F i L)|apply SO, L].
    + split; [apply (fn_ro _ _ _ _ _ _ _ _ _ _ _ _ _ _ _ F i L)|intros K; apply (SO i L); auto].
  - (* where next starts *)
    intros h z r I En Er. assert (I2 := I). apply kind in I2 as [I2 Da Db | i L -> | i L -> | i L -> | i L ->].
    + rewrite (rev_old h I2) in Er. assert (Ir := rev_in m W h r I2 Er). rewrite (src_old r Ir). destruct (Nat.eq_dec h pp) as [->|Dp].
      * rewrite (fn_pp _ _ _ _ _ _ _ _ _ _ _ _ _ _ _ F) in En. injection En as <-. rewrite (proj1 (fn_x _ _ _ _ _ _ _ _ _ _ _ _ _ _ _ F 0 (Nat.le_0_l k))). rewrite <- (wf_dst m W pp a r I2 Epp Er). auto.
      * rewrite (fn_oldn _ _ _ _ _ _ _ _ _ _ _ _ _ _ _ F h I2 Da Db Dp) in En. rewrite (src_old z (next_in m W h z I2 En)). exact (wf_dst m W h z r I2 En Er).
    + rewrite (proj1 (fn_tri _ _ _ _ _ _ _ _ _ _ _ _ _ _ _ F _ L)) in En. injection En as <-. rewrite (proj1 (proj2 (fn_tris _ _ _ _ _ _ _ _ _ _ _ _ _ _ _ F _ L))). destruct i as [|i].
      * rewrite sub_a, (rev_old a Ia) in Er. destruct rev_a as (r' & Er' & Ir & Sr & _). rewrite Er in Er'. injection Er' as <-. rewrite (src_old r Ir). auto.
      * rewrite (rev_s i L) in Er. injection Er as <-. symmetry. apply (fn_tris _ _ _ _ _ _ _ _ _ _ _ _ _ _ _ F). lia.
    + rewrite (proj1 (proj2 (fn_tri _ _ _ _ _ _ _ _ _ _ _ _ _ _ _ F _ L))) in En. injection En as <-. rewrite (proj2 (proj2 (fn_tris _ _ _ _ _ _ _ _ _ _ _ _ _ _ _ F _ L))). destruct (Nat.eq_dec i k) as [->|D].
      * rewrite sub_b, (rev_old b Ib) in Er. destruct rev_b as (r' & Er' & Ir & Sr & _). rewrite Er in Er'. injection Er' as <-. rewrite (src_old r Ir). auto.
      * assert (Li : i < k) by lia. rewrite (proj1 (fn_ro _ _ _ _ _ _ _ _ _ _ _ _ _ _ _ F i Li)) in Er. injection Er as <-. symmetry. apply (fn_tris _ _ _ _ _ _ _ _ _ _ _ _ _ _ _ F). lia.
    + rewrite (proj1 (fn_rx _ _ _ _ _ _ _ _ _ _ _ _ _ _ _ F i L)) in Er. injection Er as <-. rewrite (proj2 (proj2 (fn_tris _ _ _ _ _ _ _ _ _ _ _ _ _ _ _ F _ L))). destruct (Nat.eq_dec i k) as [->|D].
      * rewrite (fn_xl _ _ _ _ _ _ _ _ _ _ _ _ _ _ _ F) in En. injection En as <-. rewrite (src_old nn Inn). exact Snn.
      * assert (Li : i < k) by lia. rewrite (fn_xn _ _ _ _ _ _ _ _ _ _ _ _ _ _ _ F i Li) in En. injection En as <-. apply (fn_x _ _ _ _ _ _ _ _ _ _ _ _ _ _ _ F). lia.
    + rewrite (proj2 (fn_rx _ _ _ _ _ _ _ _ _ _ _ _ _ _ _ F i L)) in Er. injection Er as <-. rewrite (proj2 (proj2 (fn_tri _ _ _ _ _ _ _ _ _ _ _ _ _ _ _ F _ L))) in En. injection En as <-.
      rewrite (proj1 (fn_tris _ _ _ _ _ _ _ _ _ _ _ _ _ _ _ F _ L)), (proj1 (fn_x _ _ _ _ _ _ _ _ _ _ _ _ _ _ _ F _ L)). reflexivity.
  - intros v I. destruct (fn_verts _ _ _ _ _ _ _ _ _ _ _ _ _ _ _ F) as (l & E & _ & L). rewrite E, in_app_iff in I. destruct I as [I | I].
    + rewrite (proj1 (fn_vold _ _ _ _ _ _ _ _ _ _ _ _ _ _ _ F v I)). destruct (wf_vhe m W v I) as (h & E1 & I1 & S1). exists h. split; [exact E1|]. split; [apply in_old, I1|]. rewrite (src_old h I1). exact S1.
    + apply L in I as (i & Li & ->). exists (x i). split; [apply (fn_vnew _ _ _ _ _ _ _ _ _ _ _ _ _ _ _ F i Li)|]. split; [apply in_x; lia|apply (fn_x _ _ _ _ _ _ _ _ _ _ _ _ _ _ _ F); lia].
  - intros v I. destruct (fn_faces _ _ _ _ _ _ _ _ _ _ _ _ _ _ _ F) as (l & E & _ & L). rewrite E, in_app_iff in I. destruct I as [I | I].
    + destruct (Nat.eq_dec v f) as [->|D]; [exists (x 0); split; [exact (fn_f _ _ _ _ _ _ _ _ _ _ _ _ _ _ _ F)|]; split; [apply in_x; lia|apply (fn_x _ _ _ _ _ _ _ _ _ _ _ _ _ _ _ F); lia]|].
      rewrite (fn_fold _ _ _ _ _ _ _ _ _ _ _ _ _ _ _ F v I D). destruct (wf_fhe m W v I) as (h & E1 & I1 & S1). exists h. split; [exact E1|]. split; [apply in_old, I1|].
      rewrite (fn_oldf _ _ _ _ _ _ _ _ _ _ _ _ _ _ _ F h I1); [exact S1| |]; intros ->; apply D; [assert (Q := Fa)|assert (Q := Fb)]; congruence.
    + apply L in I as (i & Li & ->). exists (s i). split; [apply (fn_gh _ _ _ _ _ _ _ _ _ _ _ _ _ _ _ F i Li)|]. split; [apply in_s; lia|apply (fn_trif _ _ _ _ _ _ _ _ _ _ _ _ _ _ _ F); lia].
  - (* next stays in its face *)
    intros h z I En. assert (I2 := I). apply kind in I2 as [I2 Da Db | i L -> | i L -> | i L -> | i L ->].
    + destruct (Nat.eq_dec h pp) as [->|Dp].
      * rewrite (fn_pp _ _ _ _ _ _ _ _ _ _ _ _ _ _ _ F) in En. injection En as <-. rewrite (proj2 (fn_x _ _ _ _ _ _ _ _ _ _ _ _ _ _ _ F 0 (Nat.le_0_l k))), (fn_oldf _ _ _ _ _ _ _ _ _ _ _ _ _ _ _ F pp I2 Da Db).
        symmetry. apply ring_in. right. right. exact Ipp.
      * rewrite (fn_oldn _ _ _ _ _ _ _ _ _ _ _ _ _ _ _ F h I2 Da Db Dp) in En. assert (Iz := next_in m W h z I2 En).
        rewrite (fn_oldf _ _ _ _ _ _ _ _ _ _ _ _ _ _ _ F h I2 Da Db), (fn_oldf _ _ _ _ _ _ _ _ _ _ _ _ _ _ _ F z Iz); [exact (wf_face_next m W h z I2 En)| |].
        -- intros ->. apply Dp. exact (next_inj m W h pp a I2 Ip En Epp).
        -- intros ->. apply Da. exact (next_inj m W h a b I2 Ia En Eab).
    + rewrite (proj1 (fn_tri _ _ _ _ _ _ _ _ _ _ _ _ _ _ _ F _ L)) in En. injection En as <-. destruct (fn_trif _ _ _ _ _ _ _ _ _ _ _ _ _ _ _ F i L) as (E1 & E2 & E3). congruence.
    + rewrite (proj1 (proj2 (fn_tri _ _ _ _ _ _ _ _ _ _ _ _ _ _ _ F _ L))) in En. injection En as <-. destruct (fn_trif _ _ _ _ _ _ _ _ _ _ _ _ _ _ _ F i L) as (E1 & E2 & E3). congruence.
    + rewrite (proj2 (fn_x _ _ _ _ _ _ _ _ _ _ _ _ _ _ _ F _ L)). destruct (Nat.eq_dec i k) as [->|D].
      * rewrite (fn_xl _ _ _ _ _ _ _ _ _ _ _ _ _ _ _ F) in En. injection En as <-. apply (proj2 (face_f nn (in_old nn Inn))). right. destruct rest_ends as (_ & _ & _ & (t & Et) & _). 
        assert (K : In nn rest) by (rewrite Et; left; reflexivity). split; [exact Inn|]. split; [apply rest_not, K|]. split; [apply rest_not, K|]. apply ring_in. right. right. exact K.
      * assert (Li : i < k) by lia. rewrite (fn_xn _ _ _ _ _ _ _ _ _ _ _ _ _ _ _ F i Li) in En. injection En as <-. apply (fn_x _ _ _ _ _ _ _ _ _ _ _ _ _ _ _ F). lia.
    + rewrite (proj2 (proj2 (fn_tri _ _ _ _ _ _ _ _ _ _ _ _ _ _ _ F _ L))) in En. injection En as <-. destruct (fn_trif _ _ _ _ _ _ _ _ _ _ _ _ _ _ _ F i L) as (E1 & E2 & E3). congruence.
  - (* faces are cycles *)
    intros h h' I I' E. assert (CG : forall i, i <= k -> cyc (h_next m') [s i; o i; y i]) by (intros i L; cbn [cyc chainto]; apply (fn_tri _ _ _ _ _ _ _ _ _ _ _ _ _ _ _ F i L)).
    assert (TG : forall i, i <= k -> h_face m' h = Some (g i) -> reaches (h_next m') h h').
    { intros i L Eh. assert (Eh' := Eh). rewrite E in Eh'. apply (cyc_reaches _ [s i; o i; y i]); [apply CG, L| |]; [apply (face_g h i I L) in Eh|apply (face_g h' i I' L) in Eh']; cbn [In]; intuition. }
    assert (TF : h_face m' h = Some f -> reaches (h_next m') h h').
    { intros Eh. assert (Eh' := Eh). rewrite E in Eh'. destruct fring_new as (C & _ & FI). apply (cyc_reaches _ new_ring); [exact C| |]; apply FI; auto. }
    assert (I2 := I). apply kind in I2 as [I2 Da Db | i L -> | i L -> | i L -> | i L ->].
    + destruct (wf_face m W h I2) as (fh & Efh & Ifh). destruct (Nat.eq_dec fh f) as [->|Df]; [apply TF; rewrite (fn_oldf _ _ _ _ _ _ _ _ _ _ _ _ _ _ _ F h I2 Da Db); exact Efh|].
      assert (E2 : h_face m' h' = Some fh) by (rewrite <- E, (fn_oldf _ _ _ _ _ _ _ _ _ _ _ _ _ _ _ F h I2 Da Db); exact Efh).
      assert (GL : forall i, i <= k -> g i <> fh) by (intros i L K; assert (Q := fn_newg _ _ _ _ _ _ _ _ _ _ _ _ _ _ _ F i L); assert (Z := f_lt m W fh Ifh); lia).
      assert (I3 : In h' (m_hes m) /\ h_face m h' = Some fh).
      { apply kind in I' as [I3 Da' Db' | i L -> | i L -> | i L -> | i L ->].
        - rewrite (fn_oldf _ _ _ _ _ _ _ _ _ _ _ _ _ _ _ F h' I3 Da' Db') in E2. auto.
        - exfalso. rewrite (proj1 (fn_trif _ _ _ _ _ _ _ _ _ _ _ _ _ _ _ F _ L)) in E2. injection E2 as E2. exact (GL i L E2).
        - exfalso. rewrite (proj1 (proj2 (fn_trif _ _ _ _ _ _ _ _ _ _ _ _ _ _ _ F _ L))) in E2. injection E2 as E2. exact (GL i L E2).
        - exfalso. rewrite (proj2 (fn_x _ _ _ _ _ _ _ _ _ _ _ _ _ _ _ F _ L)) in E2. injection E2 as E2. exact (Df (eq_sym E2)).
        - exfalso. rewrite (proj2 (proj2 (fn_trif _ _ _ _ _ _ _ _ _ _ _ _ _ _ _ F _ L))) in E2. injection E2 as E2. exact (GL i L E2). }
      destruct I3 as [I3 E3]. apply (lift_reaches (h_next m) (h_next m') (fun h => In h (m_hes m) /\ h_face m h = Some fh)); [|auto|apply (wf_face_orbit m W h h' I2 I3); congruence].
      intros w z [Iw Ew] Ez. split; [split; [exact (next_in m W w z Iw Ez)|rewrite (wf_face_next m W w z Iw Ez); exact Ew]|]. apply reaches_step.
      assert (Fpp : h_face m pp = Some f) by (apply ring_in; right; right; exact Ipp). assert (FA := Fa). assert (FB := Fb).
      rewrite (fn_oldn _ _ _ _ _ _ _ _ _ _ _ _ _ _ _ F w Iw); [exact Ez| | |]; intros ->; apply Df; congruence.
    + apply (TG i L). apply (fn_trif _ _ _ _ _ _ _ _ _ _ _ _ _ _ _ F i L).
    + apply (TG i L). apply (fn_trif _ _ _ _ _ _ _ _ _ _ _ _ _ _ _ F i L).
    + apply TF. apply (fn_x _ _ _ _ _ _ _ _ _ _ _ _ _ _ _ F i L).
    + apply (TG i L). apply (fn_trif _ _ _ _ _ _ _ _ _ _ _ _ _ _ _ F i L).
  - (* so are the vertices *)
    intros h h' I I' E. assert (S1 : exists v, h_src m' h = Some v /\ (In v (m_verts m) \/ exists i, 1 <= i <= k /\ v = n i)).
    { assert (Q : forall j, j <= S k -> In (n j) (m_verts m) \/ exists i, 1 <= i <= k /\ n j = n i).
      { intros j L. destruct j as [|j]; [left; apply In0|]. destruct (Nat.eq_dec j k) as [->|D]; [left; apply Inq|]. right. exists (S j). split; [lia|reflexivity]. }
      apply kind in I as [I2 Da Db | i L -> | i L -> | i L -> | i L ->].
      - rewrite (src_old h I2). destruct (wf_src m W h I2) as (v & Ev & Iv). eauto.
      - exists (n i). split; [apply (fn_tris _ _ _ _ _ _ _ _ _ _ _ _ _ _ _ F i L)|apply Q; lia].
      - exists mi. split; [apply (fn_tris _ _ _ _ _ _ _ _ _ _ _ _ _ _ _ F i L)|left; exact Imi].
      - exists (n i). split; [apply (fn_x _ _ _ _ _ _ _ _ _ _ _ _ _ _ _ F i L)|apply Q; lia].
      - exists (n (S i)). split; [apply (fn_tris _ _ _ _ _ _ _ _ _ _ _ _ _ _ _ F i L)|apply Q; lia]. }
    destruct S1 as (v & Ev & [Iv | (i & L & ->)]).
    + assert (Ev' := Ev). rewrite E in Ev'. destruct (around h v I Iv Ev) as (e & _ & Ie & _ & Se & _ & Re & _). destruct (around h' v I' Iv Ev') as (_ & e' & _ & Ie' & _ & Se' & _ & Re').
      apply (reaches_trans _ _ e); [exact Re|]. apply (reaches_trans _ _ e'); [|exact Re']. apply old_reach; [exact Ie|exact Ie'|congruence].
    + assert (Ev' := Ev). rewrite E in Ev'. apply (at_new h i I L) in Ev. apply (at_new h' i I' L) in Ev'.
      assert (CV : cyc (rot m') [x i; s i; y (i - 1)]).
      { cbn [cyc chainto]. destruct i as [|i]; [lia|]. cbn [Nat.sub]. rewrite Nat.sub_0_r. split; [apply rot_x; lia|]. split; [apply rot_s; lia|apply rot_y; lia]. }
      apply (cyc_reaches _ _ _ _ CV); cbn [In]; intuition.
Qed.
End W.
End F.
