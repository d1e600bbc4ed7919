(** holeFillAdvancingFront: the invariant of its loop. *)
From Coq Require Import List ZArith Arith Lia Bool.
From Verif Require Import Num Vec Heap Mesh Spec Orbit Rings Remove FrontF FrontM.
Import ListNotations.

Section I.
Context {N : Num}.
Variables (m0 : mesh N) (f : nat) (bs : list nat).
Implicit Types m : mesh N.

(** A vertex of the front. *)
Definition OnFront m (v : nat) : Prop := exists h, In h (m_hes m) /\ h_face m h = Some f /\ h_src m h = Some v.
(** A half-edge that does not belong to the hole. *)
Definition Out (h : nat) : Prop := In h (m_hes m0) /\ h_face m0 h <> Some f.
(** [h] belongs to a new triangle, which is not a hole. *)
Definition InTri m (h : nat) : Prop := exists g h1 h2, h_face m h = Some g /\ m_fresh m0 <= g /\
  h_next m h = Some h1 /\ h_next m h1 = Some h2 /\ h_next m h2 = Some h /\ (h_bd m h = false \/ h_bd m h1 = false \/ h_bd m h2 = false).

Record Inv m : Prop := {
  iv_wf : WF m; iv_nl : NoLoops m;
  iv_fresh : m_fresh m0 <= m_fresh m;
  iv_ring : exists hs, Fring m f hs /\ 3 <= length hs /\ NoDup (map (h_src m) hs);
  iv_vert : forall i v, nth_error (m_verts m0) i = Some v -> nth_error (m_verts m) i = Some v;
  iv_face : forall i g, nth_error (m_faces m0) i = Some g -> nth_error (m_faces m) i = Some g;
  iv_vnew : forall v, In v (m_verts m) -> In v (m_verts m0) \/ (m_fresh m0 <= v /\ v_lock m v = false);
  iv_fnew : forall g, In g (m_faces m) -> In g (m_faces m0) \/ m_fresh m0 <= g;
  iv_pos : forall v, In v (m_verts m0) -> v_lock m v = v_lock m0 v /\ (~ In v bs -> v_pos m v = v_pos m0 v);
  iv_out : forall h, Out h -> In h (m_hes m) /\ (h_src m h = h_src m0 h /\ h_next m h = h_next m0 h /\ h_face m h = h_face m0 h /\ h_bd m h = h_bd m0 h) /\
    (forall r, h_rev m0 h = Some r -> h_face m0 r <> Some f -> h_rev m h = Some r);
  iv_kind : forall h, In h (m_hes m) -> Out h \/ h_face m h = Some f \/ InTri m h;
  iv_front : forall v, OnFront m v -> In v bs \/ m_fresh m0 <= v;
  iv_inner : forall h v w, In h (m_hes m) -> h_src m h = Some v -> dst_of m h = Some w -> OnFront m v -> OnFront m w -> m_fresh m0 <= v \/ m_fresh m0 <= w ->
    h_face m h = Some f \/ exists r, h_rev m h = Some r /\ h_face m r = Some f;
  iv_near : forall h v w, In h (m_hes m) -> h_src m h = Some v -> dst_of m h = Some w -> m_fresh m0 <= v -> m_fresh m0 <= w \/ In w bs;
  iv_euler : 2 * length (m_verts m) + 2 * length (m_faces m) + length (m_hes m0) = 2 * length (m_verts m0) + 2 * length (m_faces m0) + length (m_hes m);
  iv_ind : m_indices m = m_indices m0;
  iv_fhe : forall g, In g (m_faces m0) -> g <> f -> f_he m g = f_he m0 g }.

Hypothesis W0 : WF m0.
Hypothesis F0 : In f (m_faces m0).
Hypothesis BS : forall v, In v bs -> In v (m_verts m0).
Lemma out_lt h : Out h -> h < m_fresh m0. Proof. intros [I _]. exact (h_lt m0 W0 h I). Qed.
Lemma out_src h v m : Inv m -> Out h -> h_src m h = Some v -> In v (m_verts m0) /\ v < m_fresh m0.
Proof. intros V O E. destruct (iv_out _ V h O) as (_ & (A & _) & _). assert (I : In v (m_verts m0)) by (apply (src_in m0 W0 h); [apply O|congruence]). split; [exact I|exact (v_lt m0 W0 v I)]. Qed.
Lemma out_next h z m : Inv m -> Out h -> h_next m h = Some z -> Out z.
Proof.
  intros V O E. destruct (iv_out _ V h O) as (_ & (_ & A & _) & _). rewrite A in E. destruct O as [I D]. split; [exact (next_in m0 W0 h z I E)|]. rewrite (wf_face_next m0 W0 h z I E). exact D.
Qed.

(** ** New triangles at the front *)
Section Fan.
Variables (m m' : mesh N) (mi a b pp nn k : nat) (n s o x y g : nat -> nat) (rest : list nat).
Hypothesis V : Inv m.
Hypothesis R : Fring m f (a :: b :: rest).
Hypothesis ND : NoDup (map (h_src m) (a :: b :: rest)).
Hypothesis LR : 2 <= length rest.
Hypothesis Enn : h_next m b = Some nn.
Hypothesis Epp : h_next m pp = Some a.
Hypothesis Ipp : In pp rest.
Hypothesis Sa : h_src m a = Some (n 0).
Hypothesis Sb : h_src m b = Some mi.
Hypothesis Snn : h_src m nn = Some (n (S k)).
Hypothesis F : Fan m m' f mi a b pp nn k n s o x y g.
Let W := iv_wf _ V.
Let L0 := iv_fresh _ V.

Lemma innr : In nn rest.
Proof. destruct (rest_ends _ _ _ _ _ _ _ R Enn Ipp) as (_ & _ & _ & (t & E) & _). rewrite E. left. reflexivity. Qed.
Lemma on_ring h v : In h (a :: b :: rest) -> h_src m h = Some v -> OnFront m v.
Proof. intros I E. destruct (proj1 (proj2 (proj2 R) h) I) as [I1 I2]. exists h. auto. Qed.
Lemma ring_of h : In h (m_hes m) -> h_face m h = Some f -> In h (a :: b :: rest).
Proof. intros I E. apply R. auto. Qed.
Lemma src_nodup h h' : In h (a :: b :: rest) -> In h' (a :: b :: rest) -> h_src m h = h_src m h' -> h = h'.
Proof.
  clear - ND. revert ND. generalize (a :: b :: rest). induction l as [|c l IH]; intros ND I I' E; [destruct I|]. cbn [map] in ND. inversion ND as [|? ? X1 X2]; subst.
  destruct I as [-> | I], I' as [-> | I']; [reflexivity| | |exact (IH X2 I I' E)]; exfalso; apply X1; [rewrite E|rewrite <- E]; apply in_map; assumption.
Qed.
Lemma mi_off h : In h rest -> h_src m h <> Some mi.
Proof. intros I E. assert (K : h = b) by (apply src_nodup; [right; right; exact I|right; left; reflexivity|congruence]). exact (proj2 (rest_not _ _ _ _ _ R h I) K). Qed.
Lemma n0_off h : In h rest -> h_src m h <> Some (n 0).
Proof. intros I E. assert (K : h = a) by (apply src_nodup; [right; right; exact I|left; reflexivity|congruence]). exact (proj1 (rest_not _ _ _ _ _ R h I) K). Qed.
Lemma d_ab : n 0 <> mi.
Proof. intros E. apply (Dab _ _ _ _ _ R). apply src_nodup; [left; reflexivity|right; left; reflexivity|congruence]. Qed.
Lemma d_bn : n (S k) <> mi. Proof. intros E. apply (mi_off nn innr). congruence. Qed.
Lemma d_an : n 0 <> n (S k). Proof. intros E. apply (n0_off nn innr). congruence. Qed.
Lemma v_old h v : In h (m_hes m) -> h_src m h = Some v -> v < m_fresh m. Proof. intros I E. exact (v_lt m W v (src_in m W h v I E)). Qed.
Lemma Ia' : In a (m_hes m). Proof. exact (Ia _ _ _ _ _ R). Qed.
Lemma Ib' : In b (m_hes m). Proof. exact (Ib _ _ _ _ _ R). Qed.
Lemma Inn' : In nn (m_hes m). Proof. exact (next_in m W b nn Ib' Enn). Qed.
Lemma n_dist j : j <= k -> n j <> n (S j) /\ n j <> mi /\ n (S j) <> mi.
Proof.
  assert (A := v_old a _ Ia' Sa). assert (B := v_old b _ Ib' Sb). assert (C := v_old nn _ Inn' Snn). assert (G := fn_newv _ _ _ _ _ _ _ _ _ _ _ _ _ _ _ F). assert (D1 := d_ab). assert (D2 := d_bn). assert (D3 := d_an).
  intros L. assert (NM : forall i, i <= S k -> n i <> mi).
  { intros i Li E. destruct (Nat.eq_dec i 0) as [->|Z]; [contradiction|]. destruct (Nat.eq_dec i (S k)) as [->|Z']; [contradiction|]. assert (Q := G i ltac:(lia)). lia. }
  split; [|split; apply NM; lia]. intros E. destruct (Nat.eq_dec j 0) as [->|Z].
  { destruct (Nat.eq_dec 0 k) as [Z'|Z']; [rewrite <- Z' in D3; contradiction|]. assert (Q := G 1 ltac:(lia)). lia. }
  destruct (Nat.eq_dec j k) as [->|Z'].
  - assert (Q := G k ltac:(lia)). lia.
  - assert (K := fn_ninj _ _ _ _ _ _ _ _ _ _ _ _ _ _ _ F j (S j) ltac:(lia) ltac:(lia) E). lia.
Qed.
(** A vertex of the triangles is new or was on the front. *)
Lemma n_front j : j <= S k -> (1 <= j <= k /\ m_fresh m <= n j) \/ (OnFront m (n j) /\ n j < m_fresh m).
Proof.
  intros L. destruct (Nat.eq_dec j 0) as [->|Z]; [right; split; [apply (on_ring a); [left; reflexivity|exact Sa]|exact (v_old a _ Ia' Sa)]|].
  destruct (Nat.eq_dec j (S k)) as [->|Z']; [right; split; [apply (on_ring nn); [right; right; exact innr|exact Snn]|exact (v_old nn _ Inn' Snn)]|]. left. split; [lia|]. apply (fn_newv _ _ _ _ _ _ _ _ _ _ _ _ _ _ _ F). lia.
Qed.
Lemma fan_wf' : WF m'.
Proof. exact (fan_wf _ _ _ _ _ _ _ _ _ _ _ _ _ _ _ _ W R Enn Epp Ipp Sa Sb Snn F). Qed.
Lemma src_o h : In h (m_hes m) -> h_src m' h = h_src m h. Proof. intros I. apply (fn_old _ _ _ _ _ _ _ _ _ _ _ _ _ _ _ F h I). Qed.
Lemma dst_o h : In h (m_hes m) -> dst_of m' h = dst_of m h.
Proof. intros I. unfold dst_of. rewrite (proj2 (fn_old _ _ _ _ _ _ _ _ _ _ _ _ _ _ _ F h I)). destruct (wf_rev m W h I) as (r & E & Ir). rewrite E. apply src_o, Ir. Qed.
(** The ends of a half-edge. *)
Inductive Ends (h v w : nat) : Prop :=
| EOld : In h (m_hes m) -> h_src m h = Some v -> dst_of m h = Some w -> Ends h v w
| ERim j : j <= k -> (h = x j /\ v = n j /\ w = n (S j)) \/ (h = y j /\ v = n (S j) /\ w = n j) -> Ends h v w
| ESpoke j : 1 <= j <= k -> (h = s j /\ v = n j /\ w = mi) \/ (h = o (j - 1) /\ v = mi /\ w = n j) -> Ends h v w.
Lemma ends h v w : In h (m_hes m') -> h_src m' h = Some v -> dst_of m' h = Some w -> Ends h v w.
Proof.
  intros I E D. assert (T := fn_tris _ _ _ _ _ _ _ _ _ _ _ _ _ _ _ F). assert (TX := fn_x _ _ _ _ _ _ _ _ _ _ _ _ _ _ _ F). destruct (rev_of _ _ _ _ _ _ _ _ _ _ _ _ _ _ _ _ W R F h I) as [[I' _] | (j & [[L [[-> K] | [-> K]]] | [L [[-> K] | [-> K]]]])].
  - apply EOld; [exact I'|rewrite <- src_o by exact I'; exact E|rewrite <- dst_o by exact I'; exact D].
  - apply (ERim _ _ _ j L). left. unfold dst_of in D. rewrite K in D. destruct (TX j L) as [Q1 _]. destruct (T j L) as (_ & _ & Q2). split; [reflexivity|]. split; congruence.
  - apply (ERim _ _ _ j L). right. unfold dst_of in D. rewrite K in D. destruct (TX j L) as [Q1 _]. destruct (T j L) as (_ & _ & Q2). split; [reflexivity|]. split; congruence.
  - apply (ESpoke _ _ _ (S j)); [lia|]. right. unfold dst_of in D. rewrite K in D. destruct (T j ltac:(lia)) as (_ & Q1 & _). destruct (T (S j) ltac:(lia)) as (Q2 & _ & _). split; [f_equal; lia|]. split; congruence.
  - apply (ESpoke _ _ _ (S j)); [lia|]. left. unfold dst_of in D. rewrite K in D. destruct (T j ltac:(lia)) as (_ & Q1 & _). destruct (T (S j) ltac:(lia)) as (Q2 & _ & _). split; [reflexivity|]. split; congruence.
Qed.
Lemma front' v : OnFront m' v -> (exists j, 1 <= j <= k /\ v = n j) \/ (OnFront m v /\ v <> mi).
Proof.
  intros (h & I & E & S1). apply (face_f _ _ _ _ _ _ _ _ _ _ _ _ _ _ _ _ W R F h I) in E as [(j & L & ->) | (I' & D1 & D2 & E)].
  - rewrite (proj1 (fn_x _ _ _ _ _ _ _ _ _ _ _ _ _ _ _ F j L)) in S1. injection S1 as <-. destruct (Nat.eq_dec j 0) as [->|Z]; [right; split; [apply (on_ring a); [left; reflexivity|exact Sa]|exact d_ab]|left; exists j; split; [lia|reflexivity]].
  - right. rewrite src_o in S1 by exact I'. split; [exists h; auto|]. intros ->. destruct (ring_of h I' E) as [K | [K | K]]; [congruence..|]. exact (mi_off h K S1).
Qed.
Lemma inv_fan : Inv m'.
Proof.
  assert (W' := fan_wf'). assert (T := fn_tris _ _ _ _ _ _ _ _ _ _ _ _ _ _ _ F). assert (TX := fn_x _ _ _ _ _ _ _ _ _ _ _ _ _ _ _ F).
  assert (FR := fn_fresh _ _ _ _ _ _ _ _ _ _ _ _ _ _ _ F).
  destruct (fn_verts _ _ _ _ _ _ _ _ _ _ _ _ _ _ _ F) as (lv & V1 & V2 & V3). destruct (fn_hes _ _ _ _ _ _ _ _ _ _ _ _ _ _ _ F) as (lh & H1 & H2 & H3). destruct (fn_faces _ _ _ _ _ _ _ _ _ _ _ _ _ _ _ F) as (lf & F1 & F2 & F3).
  assert (IO : forall h, In h (m_hes m) -> In h (m_hes m')) by (intros h I; rewrite H1; apply in_app_iff; auto).
  assert (NAB : forall h, Out h -> h <> a /\ h <> b /\ h <> pp).
  { intros h O. destruct (iv_out _ V h O) as (_ & (_ & _ & Q & _) & _). destruct O as [_ O]. rewrite <- Q in O.
    split; [|split]; intros ->; apply O; [exact (Fa _ _ _ _ _ R)|exact (Fb _ _ _ _ _ R)|apply R; right; right; exact Ipp]. }
  constructor.
  - exact W'.
  - intros h I K. destruct (wf_src m' W' h I) as (v & E & _). rewrite E in K. destruct (ends h v v I E K) as [I' E' D' | j L [(_ & A & B) | (_ & A & B)] | j L [(_ & A & B) | (_ & A & B)]].
    + apply (iv_nl _ V h I'). congruence.
    + destruct (n_dist j L) as (Q & _). congruence.
    + destruct (n_dist j L) as (Q & _). congruence.
    + destruct (n_dist j ltac:(lia)) as (_ & Q & _). congruence.
    + destruct (n_dist j ltac:(lia)) as (_ & Q & _). congruence.
  - lia.
  - exists (new_ring k x rest). split; [exact (fring_new _ _ _ _ _ _ _ _ _ _ _ _ _ _ _ _ W R Enn Epp Ipp F)|]. unfold new_ring. split; [rewrite app_length, map_length, seq_length; lia|].
    rewrite map_app, map_map. assert (ER : map (h_src m') rest = map (h_src m) rest) by (apply map_ext_in; intros h I; apply src_o, R; right; right; exact I). rewrite ER.
    assert (EX : map (fun j => h_src m' (x j)) (seq 0 (S k)) = map (fun j => Some (n j)) (seq 0 (S k))) by (apply map_ext_in; intros j I; apply in_seq in I; apply TX; lia). rewrite EX.
    cbn [map] in ND. inversion ND as [|? ? X1 X2]; subst. inversion X2 as [|? ? X3 X4]; subst.
    assert (NA : forall (l l' : list ptr), NoDup l -> NoDup l' -> (forall z, In z l -> ~ In z l') -> NoDup (l ++ l')).
    { clear. induction l as [|z l IH]; intros l' A B C; [exact B|]. inversion A; subst. cbn [app]. constructor; [rewrite in_app_iff; intros [K | K]; [contradiction|exact (C z (or_introl eq_refl) K)]|apply IH; [assumption..|intros w Iw; apply C; right; exact Iw]]. }
    assert (G := fn_newv _ _ _ _ _ _ _ _ _ _ _ _ _ _ _ F).
    apply NA; [|exact X4|].
    + rewrite <- (map_map n (@Some nat)). apply FinFun.Injective_map_NoDup; [intros ? ? [= ->]; reflexivity|]. apply nodup_map_inj; [|apply seq_NoDup]. intros i j Ii Ij E. apply in_seq in Ii, Ij. assert (A := v_old a _ Ia' Sa).
      destruct (Nat.eq_dec i 0) as [->|Zi], (Nat.eq_dec j 0) as [->|Zj]; [reflexivity|assert (Q := G j ltac:(lia)); lia|assert (Q := G i ltac:(lia)); lia|]. exact (fn_ninj _ _ _ _ _ _ _ _ _ _ _ _ _ _ _ F i j ltac:(lia) ltac:(lia) E).
    + intros z Iz Iz'. apply in_map_iff in Iz as (j & <- & Ij). apply in_seq in Ij. apply in_map_iff in Iz' as (h & E & Ih). destruct (Nat.eq_dec j 0) as [->|Zj]; [exact (n0_off h Ih E)|].
      assert (Q := G j ltac:(lia)). assert (Q' : n j < m_fresh m) by (apply (v_old h); [apply R; right; right; exact Ih|exact E]). lia.
  - intros i v E. rewrite V1. rewrite nth_error_app1; [exact (iv_vert _ V i v E)|]. apply nth_error_Some. rewrite (iv_vert _ V i v E). discriminate.
  - intros i v E. rewrite F1. rewrite nth_error_app1; [exact (iv_face _ V i v E)|]. apply nth_error_Some. rewrite (iv_face _ V i v E). discriminate.
  - intros v I. rewrite V1 in I. apply in_app_iff in I as [I | I].
    + destruct (fn_vold _ _ _ _ _ _ _ _ _ _ _ _ _ _ _ F v I) as (_ & _ & Q). rewrite Q. exact (iv_vnew _ V v I).
    + right. apply V3 in I as (j & L & ->). split; [assert (Q := fn_newv _ _ _ _ _ _ _ _ _ _ _ _ _ _ _ F j L); lia|]. apply (fn_vnew _ _ _ _ _ _ _ _ _ _ _ _ _ _ _ F j L).
  - intros h I. rewrite F1 in I. apply in_app_iff in I as [I | I]; [exact (iv_fnew _ V h I)|]. right. apply F3 in I as (j & L & ->). assert (Q := fn_newg _ _ _ _ _ _ _ _ _ _ _ _ _ _ _ F j L). lia.
  - intros v I. assert (I' : In v (m_verts m)) by (apply In_nth_error in I as (i & E); exact (nth_error_In _ _ (iv_vert _ V i v E))). destruct (fn_vold _ _ _ _ _ _ _ _ _ _ _ _ _ _ _ F v I') as (_ & -> & ->). exact (iv_pos _ V v I).
  - intros h O. destruct (iv_out _ V h O) as (I & (A1 & A2 & A3 & A4) & A5). destruct (NAB h O) as (D1 & D2 & D3). split; [apply IO, I|]. split; [split; [|split; [|split]]|].
    + rewrite src_o by exact I. exact A1.
    + rewrite (fn_oldn _ _ _ _ _ _ _ _ _ _ _ _ _ _ _ F h I D1 D2 D3). exact A2.
    + rewrite (fn_oldf _ _ _ _ _ _ _ _ _ _ _ _ _ _ _ F h I D1 D2). exact A3.
    + rewrite (fn_bdo _ _ _ _ _ _ _ _ _ _ _ _ _ _ _ F h I D1 D2). exact A4.
    + intros r Er Fr. rewrite (proj2 (fn_old _ _ _ _ _ _ _ _ _ _ _ _ _ _ _ F h I)). exact (A5 r Er Fr).
  - assert (TRI : forall j, j <= k -> InTri m' (s j) /\ InTri m' (o j) /\ InTri m' (y j)).
    { intros j L. destruct (fn_tri _ _ _ _ _ _ _ _ _ _ _ _ _ _ _ F j L) as (N1 & N2 & N3). destruct (fn_trif _ _ _ _ _ _ _ _ _ _ _ _ _ _ _ F j L) as (T1 & T2 & T3). destruct (fn_bds _ _ _ _ _ _ _ _ _ _ _ _ _ _ _ F j L) as [B _].
      assert (Q := fn_newg _ _ _ _ _ _ _ _ _ _ _ _ _ _ _ F j L). assert (Q' : m_fresh m0 <= g j) by lia. split; [|split]; [exists (g j), (o j), (y j)|exists (g j), (y j), (s j)|exists (g j), (s j), (o j)]; auto 10. }
    intros h I. apply (kind _ _ _ _ _ _ _ _ _ _ _ _ _ _ _ _ R F) in I as [I D1 D2 | j L -> | j L -> | j L -> | j L ->].
    + destruct (iv_kind _ V h I) as [K | [K | (g' & h1 & h2 & K1 & K2 & K3 & K4 & K5 & K6)]].
      * left. exact K.
      * right. left. rewrite (fn_oldf _ _ _ _ _ _ _ _ _ _ _ _ _ _ _ F h I D1 D2). exact K.
      * right. right. assert (I1 := next_in m W h h1 I K3). assert (I2 := next_in m W h1 h2 I1 K4).
        assert (E1 := wf_face_next m W h h1 I K3). assert (E2 := wf_face_next m W h1 h2 I1 K4). rewrite K1 in E1. rewrite E1 in E2.
        assert (GF : g' <> f) by (assert (Q := f_lt m0 W0 f F0); lia).
        assert (NF : forall z, h_face m z = Some g' -> z <> a /\ z <> b /\ z <> pp).
        { intros z Ez. assert (Q : h_face m z <> Some f) by congruence. split; [|split]; intros ->; apply Q; [exact (Fa _ _ _ _ _ R)|exact (Fb _ _ _ _ _ R)|apply R; right; right; exact Ipp]. }
        destruct (NF h K1) as (P1 & P2 & P3). destruct (NF h1 E1) as (P4 & P5 & P6). destruct (NF h2 E2) as (P7 & P8 & P9).
        exists g', h1, h2. rewrite (fn_oldf _ _ _ _ _ _ _ _ _ _ _ _ _ _ _ F h I P1 P2), (fn_oldn _ _ _ _ _ _ _ _ _ _ _ _ _ _ _ F h I P1 P2 P3), (fn_oldn _ _ _ _ _ _ _ _ _ _ _ _ _ _ _ F h1 I1 P4 P5 P6), (fn_oldn _ _ _ _ _ _ _ _ _ _ _ _ _ _ _ F h2 I2 P7 P8 P9).
        rewrite (fn_bdo _ _ _ _ _ _ _ _ _ _ _ _ _ _ _ F h I P1 P2), (fn_bdo _ _ _ _ _ _ _ _ _ _ _ _ _ _ _ F h1 I1 P4 P5), (fn_bdo _ _ _ _ _ _ _ _ _ _ _ _ _ _ _ F h2 I2 P7 P8). auto 10.
    + right. right. apply TRI, L.
    + right. right. apply TRI, L.
    + right. left. apply TX, L.
    + right. right. apply TRI, L.
  - intros v Fv. destruct (front' v Fv) as [(j & L & ->) | [Q _]]; [right; assert (Q := fn_newv _ _ _ _ _ _ _ _ _ _ _ _ _ _ _ F j L); lia|exact (iv_front _ V v Q)].
  - intros h v w I E D Fv Fw Nw. assert (NM : forall z, OnFront m' z -> z <> mi).
    { intros z Fz ->. destruct (front' mi Fz) as [(j & L & Q) | [_ Q]]; [|contradiction]. destruct (n_dist j ltac:(lia)) as (_ & Q' & _). congruence. }
    destruct (ends h v w I E D) as [I' E' D' | j L [(-> & A & B) | (-> & A & B)] | j L [(_ & A & B) | (_ & A & B)]].
    + destruct (wf_rev m W h I') as (r & Er & Ir). unfold dst_of in D'. rewrite Er in D'.
      assert (Q1 : OnFront m v) by (destruct (front' v Fv) as [(j & L & Q) | [Q _]]; [exfalso; assert (Q1 := v_old h v I' E'); assert (Q2 := fn_newv _ _ _ _ _ _ _ _ _ _ _ _ _ _ _ F j L); lia|exact Q]).
      assert (Q2 : OnFront m w) by (destruct (front' w Fw) as [(j & L & Q) | [Q _]]; [exfalso; assert (Q2 := v_old r w Ir D'); assert (Q3 := fn_newv _ _ _ _ _ _ _ _ _ _ _ _ _ _ _ F j L); lia|exact Q]).
      assert (RA : forall z u, In z (m_hes m) -> h_rev m z = Some u -> h_src m z <> Some mi -> h_src m u <> Some mi -> z <> a /\ z <> b).
      { intros z u Iz Ez P1 P2. split; intros ->; [|contradiction]. apply P2. rewrite <- (wf_dst m W a b u Iz (Eab _ _ _ _ _ R) Ez). exact Sb. }
      assert (P1 : h_src m h <> Some mi) by (rewrite E'; assert (Q := NM v Fv); congruence). assert (P2 : h_src m r <> Some mi) by (rewrite D'; assert (Q := NM w Fw); congruence).
      assert (DR : dst_of m h = Some w) by (unfold dst_of; rewrite Er; exact D').
      destruct (iv_inner _ V h v w I' E' DR Q1 Q2 Nw) as [K | (r' & K1 & K2)].
      * left. destruct (RA h r I' Er P1 P2). rewrite (fn_oldf _ _ _ _ _ _ _ _ _ _ _ _ _ _ _ F h I') by assumption. exact K.
      * right. exists r. rewrite Er in K1. injection K1 as <-. destruct (RA r h Ir (rev_rev m W h r I' Er) P2 P1). rewrite (proj2 (fn_old _ _ _ _ _ _ _ _ _ _ _ _ _ _ _ F h I')), (fn_oldf _ _ _ _ _ _ _ _ _ _ _ _ _ _ _ F r Ir) by assumption. auto.
    + left. apply TX, L.
    + right. exists (x j). split; [apply (fn_rx _ _ _ _ _ _ _ _ _ _ _ _ _ _ _ F j L)|apply TX, L].
    + destruct (NM w Fw B).
    + destruct (NM v Fv A).
  - intros h v w I E D Lv. assert (NN : forall j, j <= S k -> m_fresh m0 <= n j \/ In (n j) bs).
    { intros j L. destruct (n_front j L) as [[_ Q] | [Q _]]; [left; lia|]. destruct (iv_front _ V _ Q); auto. }
    destruct (ends h v w I E D) as [I' E' D' | j L [(-> & A & B) | (-> & A & B)] | j L [(_ & A & B) | (_ & A & B)]].
    + exact (iv_near _ V h v w I' E' D' Lv).
    + rewrite B. apply NN. lia.
    + rewrite B. apply NN. lia.
    + rewrite B. assert (Q : OnFront m mi) by (apply (on_ring b); [right; left; reflexivity|exact Sb]). destruct (iv_front _ V _ Q); auto.
    + rewrite B. apply NN. lia.
  - rewrite V1, H1, F1, !app_length, V2, H2, F2. assert (Q := iv_euler _ V). lia.
  - rewrite (fn_ind _ _ _ _ _ _ _ _ _ _ _ _ _ _ _ F). exact (iv_ind _ V).
  - intros h I D. assert (I' : In h (m_faces m)) by (apply In_nth_error in I as (i & E); exact (nth_error_In _ _ (iv_face _ V i h E))). rewrite (fn_fold _ _ _ _ _ _ _ _ _ _ _ _ _ _ _ F h I' D). exact (iv_fhe _ V h I D).
Qed.
End Fan.

(** ** Two vertices of the front merged *)
Section Join.
Hypothesis BL : forall v, In v bs -> v_lock m0 v = true.
Variables (m : mesh N) (he hp hn h0 h1 r0 v0 v1 : nat) (L : list nat).
Hypothesis V : Inv m.
Hypothesis R : Fring m f (he :: L).
Hypothesis ND : NoDup (map (h_src m) (he :: L)).
Hypothesis LL : 2 <= length L.
Hypothesis Nhe : h_next m he = Some hn.
Hypothesis Rhe : h_rev m he = Some h0.
Hypothesis S0 : h_src m he = Some v0.
Hypothesis S1 : h_src m h0 = Some v1.
Hypothesis U : v_lock m v0 = false.
Hypothesis N0 : h_next m h0 = Some h1.

Lemma Jhe : In he (m_hes m) /\ h_face m he = Some f. Proof. apply R. left. reflexivity. Qed.
Lemma on_f h v : In h (m_hes m) -> h_face m h = Some f -> h_src m h = Some v -> OnFront m v. Proof. intros A B C. exists h. auto. Qed.
Lemma src_one h h' : In h (m_hes m) -> h_face m h = Some f -> In h' (m_hes m) -> h_face m h' = Some f -> h_src m h = h_src m h' -> h = h'.
Proof.
  intros A B A' B' E. assert (I : In h (he :: L)) by (apply R; auto). assert (I' : In h' (he :: L)) by (apply R; auto). clear - ND I I' E. revert ND I I'. generalize (he :: L). induction l as [|c l IH]; intros ND I I'; [destruct I|]. cbn [map] in ND. inversion ND as [|? ? X1 X2]; subst.
  destruct I as [-> | I], I' as [-> | I']; [reflexivity| | |exact (IH X2 I I')]; exfalso; apply X1; [rewrite E|rewrite <- E]; apply in_map; assumption.
Qed.
Lemma v0_new : m_fresh m0 <= v0.
Proof.
  destruct Jhe as [A B]. destruct (iv_front _ V v0 (on_f he v0 A B S0)) as [K | K]; [|exact K]. exfalso. destruct (iv_pos _ V v0 (BS v0 K)) as [Q _]. rewrite (BL v0 K) in Q. congruence.
Qed.
(** The front is not a pair. *)
Lemma not_pair h z : In h (m_hes m) -> h_face m h = Some f -> h_src m h = Some v1 -> h_next m h = Some z -> h_src m z <> Some v0.
Proof.
  destruct Jhe as [A B]. assert (W := iv_wf _ V). intros I F E Nz Q.
  assert (Ehn : h_src m hn = Some v1) by (rewrite (wf_dst m W he hn h0 A Nhe Rhe); exact S1). assert (In_ : In hn (m_hes m)) by exact (next_in m W he hn A Nhe). assert (Fn : h_face m hn = Some f) by (rewrite (wf_face_next m W he hn A Nhe); exact B).
  assert (K : h = hn) by (apply src_one; [assumption..|congruence]). subst h.
  assert (Iz : In z (m_hes m)) by exact (next_in m W hn z I Nz). assert (Fz : h_face m z = Some f) by (rewrite (wf_face_next m W hn z I Nz); exact F).
  assert (K : z = he) by (apply src_one; [assumption..|congruence]). subst z.
  destruct R as (C & Nd & _). assert (D : hn <> he) by (intros ->; assert (D := iv_nl _ V he A); unfold dst_of in D; rewrite Rhe, S0, S1 in D; congruence).
  destruct L as [|p [|q L']]; cbn [length] in LL; [lia|lia|]. cbn [cyc chainto] in C. destruct C as (C1 & C2 & _). rewrite Nhe in C1. injection C1 as <-. rewrite Nz in C2. injection C2 as <-. inversion Nd as [|? ? X _]; subst. apply X. right. left. reflexivity.
Qed.
Lemma h0_off : h_face m h0 <> Some f.
Proof.
  destruct Jhe as [A B]. assert (W := iv_wf _ V). assert (I0 := rev_in m W he h0 A Rhe). intros K. apply (not_pair h0 h1 I0 K S1 N0). rewrite (wf_dst m W h0 h1 he I0 N0 (rev_rev m W he h0 A Rhe)). exact S0.
Qed.
Lemma h1_src : h_src m h1 = Some v0.
Proof. destruct Jhe as [A B]. assert (W := iv_wf _ V). assert (I0 := rev_in m W he h0 A Rhe). rewrite (wf_dst m W h0 h1 he I0 N0 (rev_rev m W he h0 A Rhe)). exact S0. Qed.
Lemma tri0 : exists g h2, h_face m h0 = Some g /\ m_fresh m0 <= g /\ g <> f /\ h_next m h1 = Some h2 /\ h_next m h2 = Some h0.
Proof.
  destruct Jhe as [A B]. assert (W := iv_wf _ V). assert (I0 := rev_in m W he h0 A Rhe). destruct (iv_kind _ V h0 I0) as [K | [K | (g & z1 & z2 & K1 & K2 & K3 & K4 & K5 & _)]].
  - exfalso. assert (Q := out_next h0 h1 m V K N0). destruct (out_src h1 v0 m V Q h1_src) as [_ Q']. assert (Z := v0_new). lia.
  - destruct (h0_off K).
  - rewrite N0 in K3. injection K3 as <-. exists g, z2. split; [exact K1|]. split; [exact K2|]. split; [assert (Q := f_lt m0 W0 f F0); lia|]. auto.
Qed.
(** The only half-edge from [v0] to [v1]. *)
Lemma edge01 h r : In h (m_hes m) -> h_rev m h = Some r -> h_src m h = Some v0 -> h_src m r = Some v1 -> h = he.
Proof.
  destruct Jhe as [A B]. assert (W := iv_wf _ V). intros I Er E Q. assert (Ir := rev_in m W h r I Er).
  assert (In_ : In hn (m_hes m)) by exact (next_in m W he hn A Nhe). assert (Fn : h_face m hn = Some f) by (rewrite (wf_face_next m W he hn A Nhe); exact B). assert (Ehn : h_src m hn = Some v1) by (rewrite (wf_dst m W he hn h0 A Nhe Rhe); exact S1).
  destruct (iv_inner _ V h v0 v1 I E) as [K | (r' & K1 & K2)].
  - unfold dst_of. rewrite Er. exact Q.
  - exact (on_f he v0 A B S0).
  - exact (on_f hn v1 In_ Fn Ehn).
  - left. exact v0_new.
  - apply src_one; [assumption..|congruence].
  - exfalso. rewrite Er in K1. injection K1 as <-. destruct (wf_next m W r Ir) as (z & Ez & _). apply (not_pair r z Ir K2 Q Ez). rewrite (wf_dst m W r z h Ir Ez (rev_rev m W h r I Er)). exact E.
Qed.
End Join.

Section Join2.
Hypothesis BL : forall v, In v bs -> v_lock m0 v = true.
Variables (m m' : mesh N) (g he hp hn h0 h1 h2 r1 r2 v0 v1 v2 : nat) (L : list nat).
Hypothesis V : Inv m.
Hypothesis R : Fring m f (he :: L).
Hypothesis ND : NoDup (map (h_src m) (he :: L)).
Hypothesis LL : 3 <= length L.
Hypothesis Ihp : In hp (m_hes m).
Hypothesis Nhe : h_next m he = Some hn.
Hypothesis Nhp : h_next m hp = Some he.
Hypothesis Rhe : h_rev m he = Some h0.
Hypothesis N0 : h_next m h0 = Some h1.
Hypothesis N1 : h_next m h1 = Some h2.
Hypothesis N2 : h_next m h2 = Some h0.
Hypothesis Fg : h_face m h0 = Some g.
Hypothesis Gn : m_fresh m0 <= g.
Hypothesis R1 : h_rev m h1 = Some r1.
Hypothesis R2 : h_rev m h2 = Some r2.
Hypothesis S0 : h_src m he = Some v0.
Hypothesis S1 : h_src m h0 = Some v1.
Hypothesis S2 : h_src m h2 = Some v2.
Hypothesis U : v_lock m v0 = false.
Hypothesis J : Joined m m' f g he hp hn h0 h1 h2 r1 r2 v0 v1 v2.

Lemma inv_join : Inv m'.
Proof.
  assert (W := iv_wf _ V). assert (NL := iv_nl _ V). destruct (Jhe m he L R) as [Ihe Fhe]. assert (LL2 : 2 <= length L) by lia.
  assert (VN := v0_new BL m he v0 L V R S0 U). assert (GF : g <> f) by (assert (Q := f_lt m0 W0 f F0); lia).
  assert (EDG := edge01 BL m he hn h0 v0 v1 L V R ND LL2 Nhe Rhe S0 S1 U). assert (ONE := src_one m he L R ND).
  assert (W' := joined_wf _ _ _ _ _ _ _ _ _ _ _ _ _ _ _ W NL Ihe Ihp Fhe Nhe Nhp Rhe N0 N1 N2 Fg GF R1 R2 S0 S1 S2 J).
  assert (IN := in' _ _ _ _ _ _ _ _ _ _ _ _ _ _ _ J). assert (SI := src'_inv _ _ _ _ _ _ _ _ _ _ _ _ _ _ _ W J). assert (SO := src'_other _ _ _ _ _ _ _ _ _ _ _ _ _ _ _ J).
  assert (NO := next'_other _ _ _ _ _ _ _ _ _ _ _ _ _ _ _ J). assert (RO := rev'_o _ _ _ _ _ _ _ _ _ _ _ _ _ _ _ J).
  assert (RV1 := rev'_1 _ _ _ _ _ _ _ _ _ _ _ _ _ _ _ J). assert (RV2 := rev'_2 _ _ _ _ _ _ _ _ _ _ _ _ _ _ _ J).
  assert (SR1 := sr1 m he h0 h1 h2 r1 v2 W Ihe Rhe N0 N1 R1 S2). assert (SR2 := sr2 m he h0 h1 h2 r2 v1 W Ihe Rhe N0 N1 N2 R2 S1). assert (SH1 := s1 m he h0 h1 v0 W Ihe Rhe N0 S0). assert (SN := sn m he hn h0 v1 W Ihe Nhe Rhe S1).
  assert (D01 := d01 m he h0 v0 v1 NL Ihe Rhe S0 S1). assert (D02 := d02 m he h0 h1 h2 r1 v0 v2 W NL Ihe Rhe N0 N1 R1 S0 S2). assert (D12 := d12 m he h0 h1 h2 r2 v1 v2 W NL Ihe Rhe N0 N1 N2 R2 S1 S2).
  assert (FP := fp m f he hp W Ihp Fhe Nhp). assert (FN := fn m f he hn W Ihe Fhe Nhe). assert (F1 := f1 m g he h0 h1 W Ihe Rhe N0 Fg). assert (F2 := f2 m g he h0 h1 h2 W Ihe Rhe N0 N1 Fg).
  assert (I0 := i0 m he h0 W Ihe Rhe). assert (I1 := i1 m he h0 h1 W Ihe Rhe N0). assert (I2 := i2 m he h0 h1 h2 W Ihe Rhe N0 N1). assert (IR1 := ir1 m he h0 h1 r1 W Ihe Rhe N0 R1). assert (IR2 := ir2 m he h0 h1 h2 r2 W Ihe Rhe N0 N1 R2). assert (IHN := in_hn m he hn W Ihe Nhe).
  assert (O0 : OnFront m v0) by exact (on_f m he v0 Ihe Fhe S0). assert (O1 : OnFront m v1) by exact (on_f m hn v1 IHN FN SN).
  assert (B1 : In v1 bs \/ m_fresh m0 <= v1) by exact (iv_front _ V v1 O1).
  assert (B2 : m_fresh m0 <= v2 \/ In v2 bs) by (apply (iv_near _ V h1 v0 v2 I1 SH1); [unfold dst_of; rewrite R1; exact SR1|exact VN]).
  assert (E1' : h_src m' r1 = Some v2) by (apply SO; [exact IR1|exact SR1|congruence]). assert (E2' : h_src m' r2 = Some v1) by (apply SO; [exact IR2|exact SR2|congruence]).
  assert (DST : forall h, In h (m_hes m') -> (h = r1 /\ h_src m' h = Some v2 /\ dst_of m' h = Some v1) \/ (h = r2 /\ h_src m' h = Some v1 /\ dst_of m' h = Some v2) \/
     exists r, h_rev m' h = Some r /\ h_rev m h = Some r /\ In r (m_hes m) /\ dst_of m' h = h_src m' r /\ dst_of m h = h_src m r).
  { intros h I. apply IN in I as [I K]. destruct (Nat.eq_dec h r1) as [->|Q1]; [left; unfold dst_of; rewrite RV1; auto|]. destruct (Nat.eq_dec h r2) as [->|Q2]; [right; left; unfold dst_of; rewrite RV2; auto|].
    right. right. destruct (wf_rev m W h I) as (r & Er & Ir). exists r. unfold dst_of. rewrite (RO h Q1 Q2), Er. auto. }
  assert (FR : forall v, OnFront m' v -> OnFront m v /\ v <> v0).
  { intros v (h & I & Fh & E). apply IN in I as [I K]. rewrite (jn_face _ _ _ _ _ _ _ _ _ _ _ _ _ _ _ J) in Fh. destruct (SI h v I E) as [[-> Q] | [Q1 Q2]]; [|split; [exists h; auto|exact Q1]]. exfalso. apply (proj1 K). apply ONE; [assumption..|congruence]. }
  assert (OK : forall h, Out h -> In h (m_hes m) /\ h_face m h = h_face m0 h /\ h_face m h <> Some f /\ h_face m h <> Some g).
  { intros h O. destruct (iv_out _ V h O) as (I & (_ & _ & A & _) & _). split; [exact I|]. split; [exact A|]. destruct O as [O1' O2']. rewrite A. split; [exact O2'|]. intros Q. assert (Z := f_lt m0 W0 g (face_in m0 W0 h g O1' Q)). lia. }
  constructor.
  - exact W'.
  - intros h I Q. destruct (DST h I) as [(_ & A & B) | [(_ & A & B) | (r & _ & Er & Ir & B & _)]]; [congruence..|]. apply IN in I as [I K]. destruct (wf_src m' W' h ltac:(apply IN; auto)) as (v & E & _). rewrite B, E in Q.
    destruct (SI h v I E) as [[-> P] | [P1 P2]], (SI r _ Ir Q) as [[Z P'] | [P1' P2']].
    + apply (NL h I). unfold dst_of. rewrite Er. congruence.
    + apply (proj1 K). exact (EDG h r I Er P P2').
    + subst v. assert (Z := EDG r h Ir (rev_rev m W h r I Er) P' P2). subst r. assert (Z := rev_rev m W h he I Er). rewrite Rhe in Z. injection Z as <-. destruct K as (_ & K & _). apply K. reflexivity.
    + apply (NL h I). unfold dst_of. rewrite Er. congruence.
  - rewrite (jn_fresh _ _ _ _ _ _ _ _ _ _ _ _ _ _ _ J). exact (iv_fresh _ V).
  - exists L. split; [exact (ring_new _ _ _ _ _ _ _ _ _ _ _ _ _ _ _ W NL Ihe Ihp Fhe Nhe Nhp Rhe N0 N1 Fg GF S0 S1 J L R)|]. split; [exact LL|].
    cbn [map] in ND. inversion ND as [|? ? X1 X2]; subst. replace (map (h_src m') L) with (map (h_src m) L); [exact X2|]. apply map_ext_in. intros h Ih. assert (I : In h (m_hes m)) by (apply R; right; exact Ih). destruct (wf_src m W h I) as (v & E & _). rewrite E. symmetry. apply SO; [exact I|exact E|].
    intros ->. apply X1. rewrite S0, <- E. apply in_map, Ih.
  - intros i v E. apply (jn_vfix _ _ _ _ _ _ _ _ _ _ _ _ _ _ _ J); [exact (iv_vert _ V i v E)|]. intros j Ej. destruct (le_lt_dec j i) as [Q|Q]; [|exact Q]. exfalso. assert (Z : i < length (m_verts m0)) by (apply nth_error_Some; congruence).
    destruct (nth_error (m_verts m0) j) as [u|] eqn:Eu; [|apply nth_error_None in Eu; lia]. assert (Q' := iv_vert _ V j u Eu). rewrite Ej in Q'. injection Q' as <-. assert (Q' := v_lt m0 W0 v0 (nth_error_In _ _ Eu)). lia.
  - intros i v E. apply (jn_ffix _ _ _ _ _ _ _ _ _ _ _ _ _ _ _ J); [exact (iv_face _ V i v E)|]. intros j Ej. destruct (le_lt_dec j i) as [Q|Q]; [|exact Q]. exfalso. assert (Z : i < length (m_faces m0)) by (apply nth_error_Some; congruence).
    destruct (nth_error (m_faces m0) j) as [u|] eqn:Eu; [|apply nth_error_None in Eu; lia]. assert (Q' := iv_face _ V j u Eu). rewrite Ej in Q'. injection Q' as <-. assert (Q' := f_lt m0 W0 g (nth_error_In _ _ Eu)). lia.
  - intros v I. apply (jn_verts _ _ _ _ _ _ _ _ _ _ _ _ _ _ _ J) in I as [I _]. rewrite (jn_lock _ _ _ _ _ _ _ _ _ _ _ _ _ _ _ J). exact (iv_vnew _ V v I).
  - intros v I. apply (jn_faces _ _ _ _ _ _ _ _ _ _ _ _ _ _ _ J) in I as [I _]. exact (iv_fnew _ V v I).
  - intros v I. rewrite (jn_lock _ _ _ _ _ _ _ _ _ _ _ _ _ _ _ J). destruct (iv_pos _ V v I) as [A B]. split; [exact A|]. intros Q. rewrite (jn_pos _ _ _ _ _ _ _ _ _ _ _ _ _ _ _ J); [exact (B Q)|]. intros ->. destruct B1 as [K | K]; [contradiction|]. assert (Z := v_lt m0 W0 v1 I). lia.
  - intros h O. destruct (OK h O) as (I & A & B & C). destruct (iv_out _ V h O) as (_ & (P1 & P2 & P3 & P4) & P5). split; [apply IN; split; [exact I|split; [|split; [|split]]; congruence]|]. split; [split; [|split; [|split]]|].
    + destruct (wf_src m W h I) as (v & E & _). destruct (out_src h v m V O E) as [_ Q]. rewrite <- P1, E. apply SO; [exact I|exact E|lia].
    + rewrite NO; [exact P2|congruence].
    + rewrite (jn_face _ _ _ _ _ _ _ _ _ _ _ _ _ _ _ J). exact P3.
    + rewrite (jn_bd _ _ _ _ _ _ _ _ _ _ _ _ _ _ _ J). exact P4.
    + intros r Er Dr. assert (Q := P5 r Er Dr). assert (Or : Out r) by (split; [exact (rev_in m0 W0 h r (proj1 O) Er)|exact Dr]). destruct (OK r Or) as (_ & _ & _ & Z). rewrite RO; [exact Q| |]; intros ->.
      * rewrite (revr1 m he h0 h1 r1 W Ihe Rhe N0 R1) in Q. congruence.
      * rewrite (revr2 m he h0 h1 h2 r2 W Ihe Rhe N0 N1 R2) in Q. congruence.
  - intros h I. apply IN in I as [I K]. destruct (iv_kind _ V h I) as [Q | [Q | (g' & z1 & z2 & K1 & K2 & K3 & K4 & K5 & K6)]].
    + left. exact Q.
    + right. left. rewrite (jn_face _ _ _ _ _ _ _ _ _ _ _ _ _ _ _ J). exact Q.
    + right. right. assert (J1 := next_in m W h z1 I K3). assert (Q1 := wf_face_next m W h z1 I K3). assert (Q2 := wf_face_next m W z1 z2 J1 K4). assert (GF' : g' <> f) by (assert (Q := f_lt m0 W0 f F0); lia).
      exists g', z1, z2. rewrite !(jn_face _ _ _ _ _ _ _ _ _ _ _ _ _ _ _ J), !(jn_bd _ _ _ _ _ _ _ _ _ _ _ _ _ _ _ J), (NO h), (NO z1), (NO z2) by congruence. auto 10.
  - intros v Fv. apply (iv_front _ V v). apply FR, Fv.
  - intros h v w I E D Fv Fw Nw. destruct (FR v Fv) as [Fv' Dv]. destruct (FR w Fw) as [Fw' Dw].
    assert (KEY : OnFront m v2 -> m_fresh m0 <= v1 \/ m_fresh m0 <= v2 -> h_face m r2 = Some f).
    { intros Q1 Q2. destruct (iv_inner _ V h2 v2 v1 I2 S2) as [Z | (r & Z1 & Z2)]; [unfold dst_of; rewrite R2; exact SR2|exact Q1|exact O1|clear - Q2; intuition|congruence|]. rewrite R2 in Z1. injection Z1 as <-. exact Z2. }
    rewrite (jn_face _ _ _ _ _ _ _ _ _ _ _ _ _ _ _ J).
    destruct (DST h I) as [(-> & A & B) | [(-> & A & B) | (r & Er' & Er & Ir & B & B')]].
    + right. exists r2. rewrite (jn_face _ _ _ _ _ _ _ _ _ _ _ _ _ _ _ J). split; [exact RV1|]. rewrite A in E. rewrite B in D. injection E as <-. injection D as <-. apply KEY; [exact Fv'|clear - Nw; intuition].
    + left. rewrite A in E. rewrite B in D. injection E as <-. injection D as <-. apply KEY; [exact Fw'|exact Nw].
    + apply IN in I as [I K]. rewrite B in D.
      assert (GO : forall u u', h_src m h = Some u -> h_src m r = Some u' -> OnFront m u -> OnFront m u' -> m_fresh m0 <= u \/ m_fresh m0 <= u' -> h_face m h = Some f \/ exists r, h_rev m' h = Some r /\ h_face m' r = Some f).
      { intros u u' P1 P2 P3 P4 P5. destruct (iv_inner _ V h u u' I P1 ltac:(rewrite B'; exact P2) P3 P4 P5) as [Z | (r' & Z1 & Z2)]; [left; exact Z|right; exists r]. rewrite Er in Z1. injection Z1 as <-. rewrite (jn_face _ _ _ _ _ _ _ _ _ _ _ _ _ _ _ J). auto. }
      destruct (SI h v I E) as [[-> P] | [P1 P2]], (SI r w Ir D) as [[Z P'] | [P1' P2']].
      * exfalso. apply (NL h I). rewrite B'. congruence.
      * exact (GO v0 w P P2' O0 Fw' (or_introl VN)).
      * exact (GO v v0 P2 P' Fv' O0 (or_intror VN)).
      * exact (GO v w P2 P2' Fv' Fw' Nw).
  - intros h v w I E D Lv. destruct (DST h I) as [(-> & A & B) | [(-> & A & B) | (r & Er' & Er & Ir & B & B')]].
    + rewrite B in D. injection D as <-. clear - B1. intuition.
    + rewrite B in D. injection D as <-. exact B2.
    + apply IN in I as [I K]. rewrite B in D. destruct (SI r w Ir D) as [[Z P'] | [P1' P2']]; [subst w; clear - B1; intuition|]. rewrite <- B' in P2'.
      destruct (SI h v I E) as [[-> P] | [P1 P2]]; [exact (iv_near _ V h v0 w I P P2' VN)|exact (iv_near _ V h v w I P2 P2' Lv)].
  - assert (A := proj2 (jn_verts _ _ _ _ _ _ _ _ _ _ _ _ _ _ _ J)). assert (B := proj2 (jn_hes _ _ _ _ _ _ _ _ _ _ _ _ _ _ _ J)). assert (C := proj2 (jn_faces _ _ _ _ _ _ _ _ _ _ _ _ _ _ _ J)). assert (D := iv_euler _ V). clear - A B C D. lia.
  - rewrite (jn_ind _ _ _ _ _ _ _ _ _ _ _ _ _ _ _ J). exact (iv_ind _ V).
  - intros h I D. rewrite (proj2 (jn_fhe _ _ _ _ _ _ _ _ _ _ _ _ _ _ _ J) h D). exact (iv_fhe _ V h I D).
Qed.
End Join2.
End I.
