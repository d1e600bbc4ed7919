(** Mesh::construct: the surface after the triangle loop, its boundary walk, and
    the first pass over the vertices (mesh.cpp 287-298). *)
From Coq Require Import List ZArith Arith Lia Bool.
From Verif Require Import Num Vec Heap Mesh Construct Spec BuildSpec Orbit Rings Exec Split BuildTri.
Import ListNotations.
Local Open Scope mesh_scope.

(** ** Orbits of an injective partial map on a finite set *)
Section Orbits.
Variable f : nat -> option nat.
Variable L : list nat.
Hypothesis closed : forall a b, In a L -> f a = Some b -> In b L.
Hypothesis inj : forall a b c, In a L -> In b L -> f a = Some c -> f b = Some c -> a = b.

Lemma piter_in n x y : In x L -> piter f n x = Some y -> In y L.
Proof.
  revert x; induction n as [|n IH]; cbn [piter]; intros x Hx; [intros [= <-]; exact Hx|].
  destruct (f x) as [z|] eqn:E; [|discriminate]. apply IH. eapply closed; eassumption.
Qed.

Lemma piter_some_le n k x y : piter f n x = Some y -> k <= n -> exists z, piter f k x = Some z.
Proof.
  revert n x; induction k as [|k IH]; intros n x H Hk; [exists x; reflexivity|].
  destruct n as [|n]; [lia|]. cbn [piter] in *. destruct (f x) as [z|]; [|discriminate]. apply (IH n z H). lia.
Qed.

Lemma piter_back n k x y : In x L -> piter f n x = Some y -> piter f (n + k) x = Some y -> piter f k x = Some x.
Proof.
  revert k y; induction n as [|n IH]; intros k y Hx H1 H2; [cbn [piter plus] in *; congruence|].
  destruct (piter_some_le _ n _ _ H1) as (a & Ha); [lia|].
  destruct (piter_some_le _ (n + k) _ _ H2) as (b & Hb); [lia|].
  rewrite (piter_S_r _ _ _ _ Ha) in H1. cbn [plus] in H2. rewrite (piter_S_r _ _ _ _ Hb) in H2.
  assert (a = b) by (eapply inj; [eapply piter_in; eassumption|eapply piter_in; eassumption|eassumption|eassumption]). subst b.
  exact (IH k a Hx Ha Hb).
Qed.

Lemma orbit_dich x : In x L ->
  (exists n y, n <= length L /\ piter f n x = Some y /\ f y = None) \/
  (exists n, 0 < n <= length L /\ piter f n x = Some x).
Proof.
  intros Hx.
  assert (G : forall k, (exists n y, n <= k /\ piter f n x = Some y /\ f y = None) \/ exists y, piter f k x = Some y).
  { induction k as [|k [IH|(y & Hy)]].
    - right; exists x; reflexivity.
    - left. destruct IH as (n & y & H1 & H2 & H3). exists n, y. split; [lia|auto].
    - destruct (f y) as [z|] eqn:E.
      + right. exists z. rewrite (piter_S_r _ _ _ _ Hy). exact E.
      + left. exists k, y. split; [lia|auto]. }
  destruct (G (length L)) as [H|(yl & Hl)]; [left; exact H|]. right.
  set (g := fun n => match piter f n x with Some y => y | None => x end).
  assert (Hg : forall n, n <= length L -> piter f n x = Some (g n)).
  { intros n Hn. unfold g. destruct (piter_some_le _ n _ _ Hl Hn) as (z & ->). reflexivity. }
  assert (ND : ~ NoDup (map g (seq 0 (S (length L))))).
  { intros ND. assert (length (map g (seq 0 (S (length L)))) <= length L); [|rewrite map_length, seq_length in *; lia].
    apply NoDup_incl_length; [exact ND|]. intros y Hy. apply in_map_iff in Hy as (n & <- & Hn). apply in_seq in Hn.
    eapply piter_in; [exact Hx|apply Hg; lia]. }
  destruct (not_nodup_split _ ND) as (y & l1 & l2 & l3 & E).
  assert (Ln : length (map g (seq 0 (S (length L)))) = length (l1 ++ y :: l2 ++ y :: l3)) by (rewrite E; reflexivity).
  rewrite map_length, seq_length, app_length in Ln. cbn [length] in Ln. rewrite app_length in Ln. cbn [length] in Ln.
  assert (N1 : nth_error (map g (seq 0 (S (length L)))) (length l1) = Some y).
  { rewrite E, nth_error_app2, Nat.sub_diag by lia. reflexivity. }
  assert (N2 : nth_error (map g (seq 0 (S (length L)))) (length l1 + S (length l2)) = Some y).
  { rewrite E, nth_error_app2 by lia. replace (length l1 + S (length l2) - length l1) with (S (length l2)) by lia.
    cbn [nth_error]. rewrite nth_error_app2, Nat.sub_diag by lia. reflexivity. }
  assert (S1 : forall i, i < S (length L) -> nth_error (map g (seq 0 (S (length L)))) i = Some (g i)).
  { intros i Hi. rewrite nth_error_map, (nth_error_nth' _ 0) by (rewrite seq_length; lia). rewrite seq_nth by lia. reflexivity. }
  rewrite S1 in N1, N2 by lia. injection N1 as N1. injection N2 as N2.
  exists (S (length l2)). split; [lia|]. apply (piter_back (length l1) _ x y Hx).
  - rewrite Hg by lia. congruence.
  - rewrite Hg by lia. congruence.
Qed.

(** If the map is total on the set, orbits are cycles. *)
Lemma orbit_cyc x : (forall a, In a L -> f a <> None) -> In x L ->
  exists l, cyc f (x :: l) /\ NoDup (x :: l) /\ (forall y, In y (x :: l) -> In y L).
Proof.
  intros Tot Hx. destruct (orbit_dich x Hx) as [(n & y & _ & H1 & H2)|(n & Hn & H)].
  - exfalso. apply (Tot y); [eapply piter_in; eassumption|exact H2].
  - destruct n as [|n]; [lia|]. cbn [piter] in H. destruct (f x) as [y|] eqn:E; [|discriminate].
    destruct (recurrent_cyc f x y E) as (l & H1 & H2); [exists n; exact H|].
    exists l. split; [exact H1|]. split; [exact H2|]. intros z Hz.
    destruct (cyc_reaches f (x :: l) x z H1 (or_introl eq_refl) Hz) as (k & Hk). eapply piter_in; eassumption.
Qed.

Lemma orbit_sym x y : (forall a, In a L -> f a <> None) -> In x L -> reaches f x y -> reaches f y x.
Proof.
  intros Tot Hx R. destruct (orbit_cyc x Tot Hx) as (l & H1 & H2 & H3).
  apply (cyc_reaches f (x :: l)); [exact H1| |left; reflexivity].
  eapply cyc_reaches_in; [exact H1|left; reflexivity|exact R].
Qed.
End Orbits.

(** The end of a chain. *)
Fixpoint last_of (f : nat -> option nat) (fuel x : nat) : option nat :=
  match f x with
  | None => Some x
  | Some y => match fuel with O => None | S fuel' => last_of f fuel' y end
  end.

Lemma last_of_spec f n x y fuel : piter f n x = Some y -> f y = None -> n <= fuel -> last_of f fuel x = Some y.
Proof.
  revert x fuel; induction n as [|n IH]; intros x fuel H Hy Hn; cbn [piter] in H.
  - injection H as <-. destruct fuel; cbn [last_of]; rewrite Hy; reflexivity.
  - destruct (f x) as [z|] eqn:E; [|discriminate]. destruct fuel as [|fuel]; [lia|]. cbn [last_of]. rewrite E. apply IH; [exact H|exact Hy|lia].
Qed.

Section BuildOpen.
Context {N : Num}.
Implicit Types m : mesh N.

(** The surface after the triangle loop: a triangulated surface with open edges. *)
Record Open m : Prop := {
  o_vl : VList m;
  o_hl : HList m;
  o_fl : FList m;
  o_next : forall h, In h (m_hes m) -> exists n, h_next m h = Some n /\ In n (m_hes m) /\ h_face m n = h_face m h /\ h_src m n <> h_src m h;
  o_next3 : forall h, In h (m_hes m) -> piter (h_next m) 3 h = Some h;
  o_rev : forall h r, In h (m_hes m) -> h_rev m h = Some r ->
    In r (m_hes m) /\ h_rev m r = Some h /\ r <> h /\ forall n, h_next m h = Some n -> h_src m r = h_src m n;
  o_src : forall h, In h (m_hes m) -> exists v, h_src m h = Some v /\ In v (m_verts m);
  o_face : forall h, In h (m_hes m) -> exists f, h_face m h = Some f /\ In f (m_faces m);
  o_same : forall h h', In h (m_hes m) -> In h' (m_hes m) -> h_face m h = h_face m h' -> reaches (h_next m) h h';
  o_fhe : forall f, In f (m_faces m) -> exists h, f_he m f = Some h /\ In h (m_hes m) /\ h_face m h = Some f;
  o_vhe : forall v h, In v (m_verts m) -> v_he m v = Some h -> In h (m_hes m) /\ h_src m h = Some v;
  o_bd : forall h, In h (m_hes m) -> h_bd m h = false;
  o_uni : forall h h' n n', In h (m_hes m) -> In h' (m_hes m) -> h_next m h = Some n -> h_next m h' = Some n' ->
    h_src m h = h_src m h' -> h_src m n = h_src m n' -> h = h';
  o_pair : forall h h' n n', In h (m_hes m) -> In h' (m_hes m) -> h_next m h = Some n -> h_next m h' = Some n' ->
    h_src m h = h_src m n' -> h_src m n = h_src m h' -> h_rev m h = Some h'
}.

Section Facts.
Variable m : mesh N.
Hypothesis O : Open m.

Lemma o_hlive h : In h (m_hes m) -> h_live m h = true.
Proof. intros H. apply In_nth_error in H as (i & Hi). apply (proj2 (o_hl m O) i h Hi). Qed.
Lemma o_hlt h : In h (m_hes m) -> h < m_fresh m.
Proof. intros H. apply In_nth_error in H as (i & Hi). apply (proj2 (o_hl m O) i h Hi). Qed.
Lemma o_flt h : In h (m_faces m) -> h < m_fresh m.
Proof. intros H. apply In_nth_error in H as (i & Hi). apply (proj2 (o_fl m O) i h Hi). Qed.
Lemma o_vlive h : In h (m_verts m) -> v_live m h = true.
Proof. intros H. apply In_nth_error in H as (i & Hi). apply (proj2 (o_vl m O) i h Hi). Qed.
Lemma o_hlen : length (m_hes m) <= m_fresh m.
Proof. apply nodup_bound_length; [apply (o_hl m O)|exact o_hlt]. Qed.

Lemma o_next_inj h h' n : In h (m_hes m) -> In h' (m_hes m) -> h_next m h = Some n -> h_next m h' = Some n -> h = h'.
Proof.
  intros H H' E E'. pose proof (o_next3 m O h H) as A. pose proof (o_next3 m O h' H') as A'. cbn [piter] in A, A'.
  rewrite E in A. rewrite E' in A'. congruence.
Qed.

Lemma o_rot h n : In h (m_hes m) -> rot m h = Some n ->
  exists r, h_rev m h = Some r /\ In r (m_hes m) /\ h_next m r = Some n /\ In n (m_hes m) /\ h_src m n = h_src m h.
Proof.
  unfold rot. intros H E. destruct (h_rev m h) as [r|] eqn:R; [|discriminate].
  destruct (o_rev m O h r H R) as (Ir & Rr & _ & Sr). destruct (o_next m O r Ir) as (n' & En & In' & _ & _).
  rewrite E in En. injection En as <-. exists r. repeat (split; [assumption||reflexivity|]).
  destruct (o_rev m O r h Ir Rr) as (_ & _ & _ & Sh). symmetry. apply Sh. exact E.
Qed.
Lemma o_rot_in a b : In a (m_hes m) -> rot m a = Some b -> In b (m_hes m).
Proof. intros H E. destruct (o_rot a b H E) as (r & _ & _ & _ & I & _). exact I. Qed.
Lemma o_rot_src a b : In a (m_hes m) -> rot m a = Some b -> h_src m b = h_src m a.
Proof. intros H E. destruct (o_rot a b H E) as (r & _ & _ & _ & _ & I). exact I. Qed.
Lemma o_rot_inj a b c : In a (m_hes m) -> In b (m_hes m) -> rot m a = Some c -> rot m b = Some c -> a = b.
Proof.
  intros Ha Hb Ea Eb. destruct (o_rot a c Ha Ea) as (r & R1 & I1 & N1 & _). destruct (o_rot b c Hb Eb) as (r' & R2 & I2 & N2 & _).
  assert (r = r') by (eapply o_next_inj; eassumption). subst r'.
  destruct (o_rev m O _ _ Ha R1) as (_ & A & _). destruct (o_rev m O _ _ Hb R2) as (_ & B & _). congruence.
Qed.
Lemma rot_none h : In h (m_hes m) -> rot m h = None <-> h_rev m h = None.
Proof.
  intros H. unfold rot. destruct (h_rev m h) as [r|] eqn:E; [|tauto].
  destruct (o_rev m O h r H E) as (Ir & _). destruct (o_next m O r Ir) as (n & -> & _). split; discriminate.
Qed.
Lemma o_piter_src n a b : In a (m_hes m) -> piter (rot m) n a = Some b -> In b (m_hes m) /\ h_src m b = h_src m a.
Proof.
  revert a; induction n as [|n IH]; cbn [piter]; intros a Ha; [intros [= <-]; auto|].
  destruct (rot m a) as [c|] eqn:E; [|discriminate]. intros H. destruct (IH c (o_rot_in _ _ Ha E) H) as [H1 H2].
  split; [exact H1|]. rewrite H2. apply o_rot_src; assumption.
Qed.

(** ** The boundary walk: from an open half-edge to the open half-edge that
    starts where it ends, by turning around that vertex. *)
Definition bnf (b : nat) : option nat :=
  match h_next m b with Some n => last_of (rot m) (m_fresh m) n | None => None end.

Definition isB (b : nat) : Prop := In b (m_hes m) /\ h_rev m b = None.

Lemma bnf_spec b : isB b -> exists n k b', h_next m b = Some n /\ In n (m_hes m) /\ k <= m_fresh m /\
  piter (rot m) k n = Some b' /\ isB b' /\ bnf b = Some b' /\ h_src m b' = h_src m n.
Proof.
  intros [Hb Rb]. destruct (o_next m O b Hb) as (n & En & In_ & _ & _).
  destruct (orbit_dich (rot m) (m_hes m) o_rot_in o_rot_inj n In_) as [(k & y & Hk & H1 & H2)|(k & Hk & H1)].
  - destruct (o_piter_src k n y In_ H1) as [Iy Sy].
    assert (k <= m_fresh m) by (pose proof o_hlen; lia).
    exists n, k, y. split; [exact En|]. split; [exact In_|]. split; [assumption|]. split; [exact H1|].
    split; [split; [exact Iy|apply rot_none; assumption]|]. split; [|exact Sy].
    unfold bnf. rewrite En. eapply last_of_spec; eassumption.
  - exfalso. destruct k as [|k]; [lia|]. destruct (piter_some_le _ _ k _ _ H1) as (a & Ha); [lia|].
    rewrite (piter_S_r _ _ _ _ Ha) in H1. destruct (o_piter_src k n a In_ Ha) as [Ia _].
    destruct (o_rot a n Ia H1) as (r & R1 & I1 & N1 & _). assert (r = b) by (eapply o_next_inj; eassumption). subst r.
    destruct (o_rev m O a b Ia R1) as (_ & A & _). congruence.
Qed.

Lemma no_pre b n a : isB b -> h_next m b = Some n -> In a (m_hes m) -> rot m a = Some n -> False.
Proof.
  intros [Hb Rb] En Ia H1. destruct (o_rot a n Ia H1) as (r & R1 & I1 & N1 & _).
  assert (r = b) by (eapply o_next_inj; eassumption). subst r.
  destruct (o_rev m O a b Ia R1) as (_ & A & _). congruence.
Qed.

Lemma bnf_inj a b c : isB a -> isB b -> bnf a = Some c -> bnf b = Some c -> a = b.
Proof.
  intros Ba Bb Ea Eb.
  destruct (bnf_spec a Ba) as (n & k & c1 & En & In_ & _ & P & Bc & E & _). rewrite Ea in E. injection E as <-.
  destruct (bnf_spec b Bb) as (n' & k' & c2 & En' & In' & _ & P' & _ & E' & _). rewrite Eb in E'. injection E' as <-.
  assert (W : forall k c k' n n' a b, isB a -> isB b -> h_next m a = Some n -> h_next m b = Some n' -> In n (m_hes m) -> In n' (m_hes m) ->
    k <= k' -> piter (rot m) k n = Some c -> piter (rot m) k' n' = Some c -> a = b).
  { clear - O. intros k; induction k as [|k IH]; intros c k' n n' a b Ba Bb En En' In_ In' Hk P P'.
    - cbn [piter] in P. injection P as <-. destruct k' as [|k'].
      + cbn [piter] in P'. injection P' as <-. eapply o_next_inj; [apply Ba|apply Bb|eassumption|eassumption].
      + exfalso. destruct (piter_some_le _ _ k' _ _ P') as (d & Hd); [lia|]. rewrite (piter_S_r _ _ _ _ Hd) in P'.
        eapply no_pre; [exact Ba|exact En| |exact P']. apply (o_piter_src _ _ _ In' Hd).
    - destruct k' as [|k']; [lia|].
      destruct (piter_some_le _ _ k _ _ P) as (d & Hd); [lia|]. destruct (piter_some_le _ _ k' _ _ P') as (d' & Hd'); [lia|].
      rewrite (piter_S_r _ _ _ _ Hd) in P. rewrite (piter_S_r _ _ _ _ Hd') in P'.
      assert (d = d'). { eapply o_rot_inj; [apply (o_piter_src _ _ _ In_ Hd)|apply (o_piter_src _ _ _ In' Hd')|eassumption|eassumption]. }
      subst d'. apply (IH d k' n n' a b); try assumption. lia. }
  destruct (le_ge_dec k k').
  - eapply (W k c k' n n'); eassumption.
  - symmetry. eapply (W k' c k n' n); eassumption || exact g.
Qed.

(** Every open half-edge lies on a cycle of the boundary walk. *)
Lemma bnf_cyc b : isB b -> exists l, cyc bnf (b :: l) /\ NoDup (b :: l) /\ forall y, In y (b :: l) -> isB y.
Proof.
  intros Bb.
  assert (Q : forall x, In x (filter (fun h => ptr_eqb (h_rev m h) None) (m_hes m)) <-> isB x).
  { intros x. rewrite filter_In, ptr_eqb_eq. reflexivity. }
  destruct (orbit_cyc bnf (filter (fun h => ptr_eqb (h_rev m h) None) (m_hes m))) with (x := b) as (l & H1 & H2 & H3).
  - intros x y Hx E. apply Q in Hx. apply Q. destruct (bnf_spec x Hx) as (_ & _ & b' & _ & _ & _ & _ & B' & E' & _). congruence.
  - intros x y c Hx Hy. apply Q in Hx, Hy. apply bnf_inj; assumption.
  - intros x Hx. apply Q in Hx. destruct (bnf_spec x Hx) as (_ & _ & b' & _ & _ & _ & _ & B' & E' & _). congruence.
  - apply Q. exact Bb.
  - exists l. split; [exact H1|]. split; [exact H2|]. intros y Hy. apply Q, H3, Hy.
Qed.

End Facts.

(** ** The triangle loop leaves an open surface *)
Lemma forall2_nth {A B} (P : A -> B -> Prop) l l' i a :
  Forall2 P l l' -> nth_error l i = Some a -> exists b, nth_error l' i = Some b /\ P a b.
Proof.
  intros F. revert i; induction F as [|x y l l' H F IH]; intros [|i] E; cbn [nth_error] in *; try discriminate.
  - injection E as <-. exists y. auto.
  - exact (IH i E).
Qed.
Lemma forall2_nth_r {A B} (P : A -> B -> Prop) l l' i b :
  Forall2 P l l' -> nth_error l' i = Some b -> exists a, nth_error l i = Some a /\ P a b.
Proof.
  intros F. revert i; induction F as [|x y l l' H F IH]; intros [|i] E; cbn [nth_error] in *; try discriminate.
  - injection E as <-. exists x. auto.
  - exact (IH i E).
Qed.

(** The corner of a triangle that half-edge [h] belongs to. *)
Record Corner (T : list tri) m (cs : cstate) (h a b c n p f i : nat) : Prop := {
  co_t : exists t, nth_error T i = Some t /\ In (a, b) (tedges t) /\ In (b, c) (tedges t) /\ In (c, a) (tedges t);
  co_f : nth_error (m_faces m) i = Some f;
  co_h : c_em cs a b = Some h; co_n : c_em cs b c = Some n; co_p : c_em cs c a = Some p;
  co_hn : h_next m h = Some n; co_np : h_next m n = Some p; co_ph : h_next m p = Some h;
  co_fh : h_face m h = Some f; co_fn : h_face m n = Some f; co_fp : h_face m p = Some f;
  co_ff : f_he m f = Some h \/ f_he m f = Some n \/ f_he m f = Some p
}.

Lemma corner m0 T m cs a b h : TInv m0 T m cs -> c_em cs a b = Some h -> exists c n p f i, Corner T m cs h a b c n p f i.
Proof.
  intros TI H. destruct (em_hes _ _ _ _ (ti_c _ _ _ _ TI) _ _ _ H) as [_ I]. unfold edges in I. apply in_flat_map in I as (t & It & Ie).
  apply In_nth_error in It as (i & Hi). destruct (forall2_nth _ _ _ _ _ (ti_tri _ _ _ _ TI) Hi) as (f & Hf & X).
  destruct t as [[u v] w]. destruct X as (x & y & z & X1 & X2 & X3 & X4 & X5 & X6 & X7 & X8 & X9 & X10).
  cbn [tedges] in Ie. destruct Ie as [[= <- <-]|[[= <- <-]|[[= <- <-]|[]]]].
  - assert (h = x) by congruence. subst. exists w, y, z, f, i. split; try assumption; [|auto].
    exists (u, v, w). cbn [tedges In]. tauto.
  - assert (h = y) by congruence. subst. exists u, z, x, f, i. split; try assumption; [|auto].
    exists (u, v, w). cbn [tedges In]. tauto.
  - assert (h = z) by congruence. subst. exists v, x, y, f, i. split; try assumption; [|auto].
    exists (u, v, w). cbn [tedges In]. tauto.
Qed.

Lemma link_corner m0 T m cs a b c : TInv m0 T m cs -> link T a b c ->
  exists x y z f i, Corner T m cs x a b c y z f i.
Proof.
  intros TI (t & It & E1 & E2 & E3). apply In_nth_error in It as (i & Hi).
  destruct (ti_ok _ _ _ _ TI t (nth_error_In _ _ Hi)) as [D _].
  destruct (forall2_nth _ _ _ _ _ (ti_tri _ _ _ _ TI) Hi) as (f & Hf & X).
  destruct t as [[u v] w]. destruct X as (x & y & z & X1 & X2 & X3 & X4 & X5 & X6 & X7 & X8 & X9 & X10).
  cbn [tedges degenerate In] in *.
  assert (Q : (a = u /\ b = v /\ c = w) \/ (a = v /\ b = w /\ c = u) \/ (a = w /\ b = u /\ c = v)).
  { destruct E1 as [[= <- <-]|[[= <- <-]|[[= <- <-]|[]]]].
    - left. destruct E2 as [[= H1 H2]|[[= H1]|[[= H1 H2]|[]]]]; [exfalso; apply D; tauto|auto|exfalso; apply D; auto].
    - right; left. destruct E2 as [[= H1 H2]|[[= H1 H2]|[[= H1]|[]]]]; [exfalso; apply D; auto|exfalso; apply D; auto|auto].
    - right; right. destruct E2 as [[= H1]|[[= H1 H2]|[[= H1 H2]|[]]]]; [auto|exfalso; apply D; auto|exfalso; apply D; auto]. }
  destruct Q as [(-> & -> & ->)|[(-> & -> & ->)|(-> & -> & ->)]].
  - exists x, y, z, f, i. split; try assumption; [|auto]. exists (u, v, w). cbn [tedges In]. tauto.
  - exists y, z, x, f, i. split; try assumption; [|auto]. exists (u, v, w). cbn [tedges In]. tauto.
  - exists z, x, y, f, i. split; try assumption; [|auto]. exists (u, v, w). cbn [tedges In]. tauto.
Qed.

Lemma corner_same m0 T m cs h a b c n p f i h' a' b' c' n' p' f' i' :
  TInv m0 T m cs -> Corner T m cs h a b c n p f i -> Corner T m cs h' a' b' c' n' p' f' i' ->
  f = f' -> h' = h \/ h' = n \/ h' = p.
Proof.
  intros TI C C' <-. assert (i = i').
  { eapply (proj1 (NoDup_nth_error _)); [apply (ti_f _ _ _ _ TI)|apply nth_error_Some; rewrite (co_f _ _ _ _ _ _ _ _ _ _ _ C); discriminate|].
    rewrite (co_f _ _ _ _ _ _ _ _ _ _ _ C), (co_f _ _ _ _ _ _ _ _ _ _ _ C'). reflexivity. }
  subst i'. destruct (co_t _ _ _ _ _ _ _ _ _ _ _ C) as (t & Ht & E1 & E2 & E3). destruct (co_t _ _ _ _ _ _ _ _ _ _ _ C') as (t' & Ht' & E1' & _ & _).
  assert (t = t') by congruence. subst t'.
  destruct (ti_ok _ _ _ _ TI t (nth_error_In _ _ Ht)) as [D _].
  assert (Q : (a', b') = (a, b) \/ (a', b') = (b, c) \/ (a', b') = (c, a)).
  { destruct t as [[u v] w]. cbn [tedges degenerate In] in *.
    destruct E1 as [E1|[E1|[E1|[]]]]; injection E1 as <- <-;
    destruct E2 as [E2|[E2|[E2|[]]]]; injection E2; intros; subst; try (exfalso; apply D; tauto);
    destruct E1' as [E1'|[E1'|[E1'|[]]]]; injection E1' as <- <-; auto. }
  pose proof (co_h _ _ _ _ _ _ _ _ _ _ _ C'). destruct C. destruct Q as [[= -> ->]|[[= -> ->]|[= -> ->]]]; [left|right; left|right; right]; congruence.
Qed.

Lemma vnth_inj m a b v : VList m -> nth_error (m_verts m) a = Some v -> nth_error (m_verts m) b = Some v -> a = b.
Proof.
  intros [ND _] Ha Hb. eapply (proj1 (NoDup_nth_error _) ND); [apply nth_error_Some; congruence|congruence].
Qed.

Lemma em_src m0 T m cs a b h : TInv m0 T m cs -> c_em cs a b = Some h -> exists v, h_src m h = Some v /\ nth_error (m_verts m) a = Some v.
Proof.
  intros TI H. destruct (ci_src _ _ _ _ (ti_c _ _ _ _ TI) _ _ _ H) as [E L]. apply nth_error_Some in L.
  destruct (nth_error (m_verts m) a) as [v|]; [|congruence]. exists v. auto.
Qed.

Lemma em_src_inj m0 T m cs a b h a' b' h' : VList m -> TInv m0 T m cs -> c_em cs a b = Some h -> c_em cs a' b' = Some h' -> h_src m h = h_src m h' -> a = a'.
Proof.
  intros VL TI H H' E. destruct (em_src _ _ _ _ _ _ _ TI H) as (v & S1 & N1). destruct (em_src _ _ _ _ _ _ _ TI H') as (v' & S2 & N2).
  eapply vnth_inj; [exact VL|exact N1|]. congruence.
Qed.

Lemma TInv_Open m0 T m cs : VList m0 -> TInv m0 T m cs -> Open m.
Proof.
  intros V0 TI. assert (C := ti_c _ _ _ _ TI). assert (VL := CInv_VList _ _ _ _ V0 C).
  assert (Cor : forall h, In h (m_hes m) -> exists a b c n p f i, Corner T m cs h a b c n p f i).
  { intros h H. destruct (hes_em _ _ _ _ C h H) as (a & b & _ & E). exists a, b. eapply corner; eassumption. }
  assert (Eh : forall a b h, c_em cs a b = Some h -> In h (m_hes m)) by (intros a b h E; apply (em_hes _ _ _ _ C _ _ _ E)).
  assert (Ne : forall a b, In (a, b) (edges T) -> a <> b).
  { intros a b H. apply in_flat_map in H as (t & It & Ie). destruct (ti_ok _ _ _ _ TI t It) as [D _]. destruct t as [[u v] w].
    cbn [tedges degenerate In] in *. intros ->. apply D. destruct Ie as [[= -> ->]|[[= -> ->]|[[= -> ->]|[]]]]; auto. }
  split.
  - exact VL.
  - exact (ci_h _ _ _ _ C).
  - exact (ti_f _ _ _ _ TI).
  - intros h H. destruct (Cor h H) as (a & b & c & n & p & f & i & K). exists n. destruct K. repeat split.
    + assumption.
    + eapply Eh; eassumption.
    + congruence.
    + intros S. assert (b = a) by (eapply em_src_inj; [exact VL|exact TI|exact co_n0|exact co_h0|exact S]).
      apply (Ne a b); [apply (em_hes _ _ _ _ C _ _ _ co_h0)|congruence].
  - intros h H. destruct (Cor h H) as (a & b & c & n & p & f & i & []). cbn [piter]. rewrite co_hn0, co_np0, co_ph0. reflexivity.
  - intros h r H R. destruct (Cor h H) as (a & b & c & n & p & f & i & []).
    rewrite (ci_rev _ _ _ _ C _ _ _ co_h0) in R. split; [eapply Eh; exact R|]. split; [rewrite (ci_rev _ _ _ _ C _ _ _ R); exact co_h0|].
    split.
    + intros ->. pose proof (em_inj _ _ _ _ C _ _ _ _ _ co_h0 R) as [= X _]. apply (Ne a b); [apply (em_hes _ _ _ _ C _ _ _ co_h0)|exact X].
    + intros n' En. assert (n' = n) by congruence. subst n'. destruct (em_src _ _ _ _ _ _ _ TI R) as (v & S1 & N1).
      destruct (em_src _ _ _ _ _ _ _ TI co_n0) as (v' & S2 & N2). congruence.
  - intros h H. destruct (Cor h H) as (a & b & c & n & p & f & i & []). destruct (em_src _ _ _ _ _ _ _ TI co_h0) as (v & S1 & N1).
    exists v. split; [exact S1|]. eapply nth_error_In; exact N1.
  - intros h H. destruct (Cor h H) as (a & b & c & n & p & f & i & []). exists f. split; [assumption|]. eapply nth_error_In; eassumption.
  - intros h h' H H' E. destruct (Cor h H) as (a & b & c & n & p & f & i & K). destruct (Cor h' H') as (a' & b' & c' & n' & p' & f' & i' & K').
    assert (f = f') by (destruct K, K'; congruence).
    destruct (corner_same _ _ _ _ _ _ _ _ _ _ _ _ _ _ _ _ _ _ _ _ TI K K' H0) as [-> | [-> | ->]]; destruct K.
    + apply reaches_refl.
    + apply reaches_step; assumption.
    + eapply reaches_trans; apply reaches_step; eassumption.
  - intros f Hf. apply In_nth_error in Hf as (i & Hi). destruct (forall2_nth_r _ _ _ _ _ (ti_tri _ _ _ _ TI) Hi) as ([[a b] c] & Ht & x & y & z & X).
    destruct X as (X1 & X2 & X3 & X4 & X5 & X6 & X7 & X8 & X9 & X10). exists z. split; [exact X10|]. split; [eapply Eh; exact X3|exact X9].
  - intros v h Hv E. apply In_nth_error in Hv as (a & Ha). pose proof (ci_vhe _ _ _ _ C a v Ha) as X. rewrite E in X. destruct X as (b & X).
    split; [eapply Eh; exact X|]. destruct (em_src _ _ _ _ _ _ _ TI X) as (v' & S1 & N1). congruence.
  - exact (ci_bd _ _ _ _ C).
  - intros h h' n n' H H' En En' S1 S2. destruct (Cor h H) as (a & b & c & n1 & p & f & i & K). destruct (Cor h' H') as (a' & b' & c' & n1' & p' & f' & i' & K').
    destruct K, K'. assert (n1 = n) by congruence. assert (n1' = n') by congruence. subst n1 n1'.
    assert (a = a') by (eapply em_src_inj; [exact VL|exact TI|exact co_h0|exact co_h1|exact S1]).
    assert (b = b') by (eapply em_src_inj; [exact VL|exact TI|exact co_n0|exact co_n1|exact S2]). congruence.
  - intros h h' n n' H H' En En' S1 S2. destruct (Cor h H) as (a & b & c & n1 & p & f & i & K). destruct (Cor h' H') as (a' & b' & c' & n1' & p' & f' & i' & K').
    destruct K, K'. assert (n1 = n) by congruence. assert (n1' = n') by congruence. subst n1 n1'.
    assert (a = b') by (eapply em_src_inj; [exact VL|exact TI|exact co_h0|exact co_n1|exact S1]).
    assert (b = a') by (eapply em_src_inj; [exact VL|exact TI|exact co_n0|exact co_h1|exact S2]).
    rewrite (ci_rev _ _ _ _ C _ _ _ co_h0). congruence.
Qed.

(** ** mesh.cpp 287-298 *)
Lemma TInv_vhe m0 T m cs v h : VList m0 -> TInv m0 T m cs -> In v (m_verts m) -> In h (m_hes m) -> h_src m h = Some v -> TInv m0 T (set_v_he v (Some h) m) cs.
Proof.
  intros V0 TI Hv Hh Hs. destruct TI as [C F R K]. assert (VL := CInv_VList _ _ _ _ V0 C). split; [|exact F|exact R|exact K]. destruct C. split; try assumption.
  - destruct ci_v; split; assumption.
  - flds. intros a u Ha. destruct (Nat.eq_dec u v) as [->|D].
    + rewrite fupd_same. assert (Hh' := Hh). apply (in_map Some) in Hh'. rewrite ci_hes in Hh'. apply in_map_iff in Hh' as ([x y] & E & I). cbn [fst snd] in E.
      destruct (ci_src _ _ _ E) as [S1 _]. exists y. assert (x = a) by (eapply vnth_inj; [exact VL| |exact Ha]; congruence). congruence.
    + rewrite fupd_other by exact D. apply ci_vhe; assumption.
Qed.

Lemma advance_ok m v h : Open m -> In v (m_verts m) -> v_he m v = Some h ->
  forall k x fuel, In x (m_hes m) -> h_src m x = Some v -> (exists y, piter (rot m) k x = Some y /\ (h_rev m y = None \/ (0 < k /\ y = h))) -> k <= fuel ->
  exists m', advance_boundary fuel (Some v) (Some x) m = Ok (tt, m') /\ (m' = m \/ exists y, In y (m_hes m) /\ h_src m y = Some v /\ m' = set_v_he v (Some y) m).
Proof.
  intros O Hv Eh k. induction k as [|k IH]; intros x fuel Hx Sx (y & P & Hy) Hf.
  - cbn [piter] in P. injection P as <-. destruct Hy as [Hy|[Hy _]]; [|lia].
    exists (set_v_he v (Some x) m). split; [|right; exists x; auto].
    destruct fuel; cbn [advance_boundary]; rewrite (bind_ok _ _ _ _ _ (r_rev m x (o_hlive m O x Hx))), Hy; apply ww_vhe, (o_vlive m O v Hv).
  - cbn [piter] in P. destruct (rot m x) as [n|] eqn:E; [|discriminate].
    destruct (o_rot m O x n Hx E) as (r & R & Ir & Nr & In_ & Sn).
    assert (X : advance_boundary fuel (Some v) (Some x) m = if ptr_eqb (Some n) (Some h) then Ok (tt, m) else match fuel with O => NoFuel | S fuel' => advance_boundary fuel' (Some v) (Some n) m end).
    { destruct fuel; cbn [advance_boundary]; rewrite (bind_ok _ _ _ _ _ (r_rev m x (o_hlive m O x Hx))), R, (bind_ok _ _ _ _ _ (r_next m r (o_hlive m O r Ir))), Nr,
        (bind_ok _ _ _ _ _ (r_vhe m v (o_vlive m O v Hv))), Eh; destruct (ptr_eqb (Some n) (Some h)); reflexivity. }
    rewrite X. destruct (ptr_eqb (Some n) (Some h)) eqn:Q; [exists m; auto|].
    destruct fuel as [|fuel]; [lia|]. apply IH; [exact In_|congruence| |lia]. exists y. split; [exact P|].
    destruct Hy as [Hy|[_ ->]]; [left; exact Hy|]. right. split; [|reflexivity]. destruct k; [|lia].
    exfalso. cbn [piter] in P. injection P as ->. rewrite ptr_eqb_refl in Q. discriminate.
Qed.

Definition adv (v : nat) : M N unit := h <- ve_he (Some v) ;; fr <- get m_fresh ;; advance_boundary fr (Some v) h.

Lemma adv_ok m0 T m cs v h : VList m0 -> TInv m0 T m cs -> In v (m_verts m) -> v_he m v = Some h ->
  exists m' h', adv v m = Ok (tt, m') /\ TInv m0 T m' cs /\ m_verts m' = m_verts m /\ v_he m' v = Some h' /\ forall u, u <> v -> v_he m' u = v_he m u.
Proof.
  intros V0 TI Hv Eh. assert (O := TInv_Open _ _ _ _ V0 TI). destruct (o_vhe m O v h Hv Eh) as [Ih Sh].
  unfold adv. rewrite (bind_ok _ _ _ _ _ (r_vhe m v (o_vlive m O v Hv))), bind_get, Eh.
  assert (Hlen := o_hlen m O).
  assert (Q : exists k y, k <= m_fresh m /\ piter (rot m) k h = Some y /\ (h_rev m y = None \/ (0 < k /\ y = h))).
  { destruct (orbit_dich (rot m) (m_hes m) (o_rot_in m O) (o_rot_inj m O) h Ih) as [(k & y & Hk & P & Z)|(k & Hk & P)].
    - exists k, y. split; [lia|]. split; [exact P|]. left. apply (rot_none m O); [|exact Z]. apply (o_piter_src m O _ _ _ Ih P).
    - exists k, h. split; [lia|]. split; [exact P|]. right. split; [lia|reflexivity]. }
  destruct Q as (k & y & Hk & P & Z).
  destruct (advance_ok m v h O Hv Eh k h (m_fresh m) Ih Sh (ex_intro _ y (conj P Z)) Hk) as (m' & E & [->|(z & Iz & Sz & ->)]).
  - exists m, h. repeat (split; [assumption||reflexivity|]). reflexivity.
  - eexists _, z. split; [exact E|]. split; [apply TInv_vhe; assumption|]. split; [reflexivity|]. flds.
    split; [apply fupd_same|]. intros u Hu. apply fupd_other, Hu.
Qed.

Lemma adv_all m0 T cs : VList m0 -> forall l m, TInv m0 T m cs -> (forall v, In v l -> In v (m_verts m)) ->
  (forall v, In v l -> v_he m v <> None) ->
  exists m', mfor l adv m = Ok (tt, m') /\ TInv m0 T m' cs /\ m_verts m' = m_verts m /\ forall v, v_he m v <> None -> v_he m' v <> None.
Proof.
  intros V0 l. induction l as [|v l IH]; intros m TI Hl Hn.
  - exists m. auto.
  - destruct (v_he m v) as [h|] eqn:Eh; [|exfalso; apply (Hn v); [left; reflexivity|exact Eh]].
    destruct (adv_ok m0 T m cs v h V0 TI (Hl v (or_introl eq_refl)) Eh) as (m1 & h1 & E1 & TI1 & V1 & Ev & Eo).
    assert (K : forall u, v_he m u <> None -> v_he m1 u <> None).
    { intros u Hu. destruct (Nat.eq_dec u v) as [->|D]; [congruence|rewrite Eo by exact D; exact Hu]. }
    destruct (IH m1 TI1) as (m' & E & TI' & V' & K').
    + intros u Hu. rewrite V1. apply Hl. right; exact Hu.
    + intros u Hu. apply K, Hn. right; exact Hu.
    + exists m'. split; [cbn [mfor]; rewrite (bind_ok _ _ _ _ _ E1); exact E|]. split; [exact TI'|]. split; [congruence|auto].
Qed.

(** A vertex without half-edge is dereferenced. *)
Lemma adv_ub m0 T cs : VList m0 -> forall l m, TInv m0 T m cs -> (forall v, In v l -> In v (m_verts m)) ->
  (exists v, In v l /\ v_he m v = None) -> mfor l adv m = UB NullDeref.
Proof.
  intros V0 l. induction l as [|v l IH]; intros m TI Hl (u & Hu & Eu); [destruct Hu|].
  assert (O := TInv_Open _ _ _ _ V0 TI).
  destruct (v_he m v) as [h|] eqn:Eh.
  - destruct (adv_ok m0 T m cs v h V0 TI (Hl v (or_introl eq_refl)) Eh) as (m1 & h1 & E1 & TI1 & V1 & Ev & Eo).
    cbn [mfor]. rewrite (bind_ok _ _ _ _ _ E1). apply IH; [exact TI1|intros w Hw; rewrite V1; apply Hl; right; exact Hw|].
    exists u. destruct Hu as [->|Hu]; [congruence|]. split; [exact Hu|]. rewrite Eo; [exact Eu|congruence].
  - cbn [mfor]. unfold bind at 1, adv. rewrite (bind_ok _ _ _ _ _ (r_vhe m v (o_vlive m O v (Hl v (or_introl eq_refl))))), bind_get, Eh.
    destruct (m_fresh m); reflexivity.
Qed.

End BuildOpen.
