(** collapseFace, boundary flags, Euler characteristic and edit sequences. *)
From Coq Require Import List ZArith Arith Lia Bool.
From Verif Require Import Num Vec Heap Mesh Spec EditSpec EditRun Orbit Rings Exec Diamond Flip Split Remove Collapse EditFx Edits.
From Verif Require SplitV CollapseV.
Import ListNotations.
Local Open Scope mesh_scope.

Section Seqs.
Context {N : Num}.
Implicit Types m : mesh N.

(** The half-edge opposite to the next one survives a collapse. *)
Lemma collapse_keeps m he n r m' : Valid m -> In he (m_hes m) -> h_next m he = Some n -> h_rev m n = Some r ->
  collapseHE (Some he) m = Ok (true, m') -> In r (m_hes m').
Proof.
  intros V I En Er E. destruct (collapse_exec m V he I) as [E'|(a & b & hn & hp & rn & rp & u0 & u1 & u2 & u3 & f0 & f1 & o0 & o1 & o2 & o3 & Rab & Hab & C & R0 & R1 & R2 & R3 & _ & Ht & Hf)]; [congruence|].
  destruct (veqb (v_pos m u2) (v_pos m u2)); [|rewrite (Hf eq_refl) in E; discriminate].
  destruct (Ht eq_refl) as (m1 & E1 & T). assert (m1 = m') by congruence; subst m1.
  pose proof (cc_diamond _ _ _ _ _ _ _ _ _ _ _ _ _ C) as D.
  apply (CollapseV.in_hes m m' a b hn hp rn rp o0 o1 o2 o3 u0 u1 u2 u3 f0 f1 T).
  pose proof (CollapseV.oneq m a b hn hp rn rp o0 o1 o2 o3 u0 u1 u2 u3 f0 f1 V C R0 R1 R2 R3) as [OD ON].
  pose proof (CollapseV.ofacts m a b hn hp rn rp o0 o1 o2 o3 u0 u1 u2 u3 f0 f1 V C R0 R1 R2 R3) as (J0 & J1 & J2 & J3 & _).
  destruct D. destruct Hab as [->| ->].
  - assert (n = hn) by congruence; subst n. assert (r = o1) by congruence; subst r. split; [exact J1|apply ON; simpl; tauto].
  - assert (n = rn) by congruence; subst n. assert (r = o3) by congruence; subst r. split; [exact J3|apply ON; simpl; tauto].
Qed.

Lemma idx_ok m h : WF m -> In h (m_hes m) -> ((0 <=? h_idx m h) && (h_idx m h <? Z.of_nat (length (m_hes m))))%Z = true.
Proof.
  intros W Hv. apply In_nth_error in Hv as (i & Hi). destruct (wf_h_elem m W _ _ Hi) as (_ & E & _).
  assert (i < length (m_hes m)) by (apply nth_error_Some; congruence). rewrite E. apply andb_true_iff. split; [apply Z.leb_le|apply Z.ltb_lt]; lia.
Qed.

(** ** collapseFace *)
Lemma collapsed_posok m m' : Collapsed m m' -> PosOk m -> PosOk m'.
Proof.
  intros (he & I & u0 & u1 & u2 & u3 & f0 & f1 & X) P v Hv. destruct (ce_data _ _ _ _ _ _ _ _ _ X v) as [-> _]. apply P. apply (ce_verts _ _ _ _ _ _ _ _ _ X), Hv.
Qed.

Theorem collapseFace_top m f a b c : Valid m -> In f (m_faces m) -> Tri m f a b c ->
  (collapseFace (Some f) m = Abort AAssert /\ ~ PosOk m) \/
  exists r m', collapseFace (Some f) m = Ok (r, m') /\ Valid m' /\
    (r = true -> exists m1, Collapsed m m1 /\ Valid m1 /\ Collapsed m1 m') /\
    (r = false -> m' = m \/ Collapsed m m').
Proof.
  intros V If HT. assert (W := valid_wf m V).
  destruct (fring m W f If) as (h & l & Eh & Hr).
  assert (Ll : length (h :: l) = 3).
  { destruct HT as (x & y & z & HI & Nx & Ny & Nz & _). destruct Hr as (_ & Hnd & Hin).
    assert (Hx : In x (m_hes m)) by (apply HI; auto). 
    assert (Hxy : x <> y). { intros ->. assert (y = z) by congruence. subst z. apply (valid_noloops m V y Hx). rewrite (dst_next m y y W Hx Nx). reflexivity. }
    assert (Hy : In y (m_hes m)) by (apply HI; auto). assert (Hz : In z (m_hes m)) by (apply HI; auto).
    assert (Hyz : y <> z). { intros ->. apply (valid_noloops m V z Hz). rewrite (dst_next m z z W Hz Ny). reflexivity. }
    assert (Hxz : x <> z). { intros ->. apply (valid_noloops m V z Hz). rewrite (dst_next m z z W Hz Nz). reflexivity. }
    change 3 with (length [x; y; z]). apply Nat.le_antisymm; apply NoDup_incl_length.
    - exact Hnd.
    - intros w Hw. apply Hin, HI in Hw. simpl. intuition congruence.
    - repeat (apply NoDup_cons; [simpl; intuition congruence|]). apply NoDup_nil.
    - intros w Hw. apply Hin, HI. simpl in Hw. intuition congruence. }
  assert (Ih : In h (m_hes m)) by (apply Hr; left; reflexivity).
  destruct (wf_next m W h Ih) as (n & En & In_). destruct (wf_rev m W n In_) as (r & Er & Ir).
  unfold collapseFace.
  rewrite (bind_ok _ _ _ _ _ (f_halfedges_ok m W f h l If Eh Hr)).
  rewrite map_length, Ll. rewrite bind_assert by reflexivity. cbn [nth map]. cbv zeta.
  rewrite (bind_ok _ _ _ _ _ (r_next m h (h_alive m W _ Ih))), En, (bind_ok _ _ _ _ _ (r_rev m n (h_alive m W _ In_))), Er.
  destruct (collapse_top m h V Ih) as [[E P]|(b1 & m1 & E & V1 & Hf1 & Ht1)].
  - left. split; [|exact P]. unfold bind at 1. rewrite E. reflexivity.
  - rewrite (bind_ok _ _ _ _ _ E).
    assert (Ir1 : In r (m_hes m1)).
    { destruct b1; [exact (collapse_keeps m h n r m1 V Ih En Er E)|rewrite (Hf1 eq_refl); exact Ir]. }
    assert (W1 := valid_wf m1 V1).
    rewrite (bind_ok _ _ _ _ _ (r_hidx m1 r (h_alive m1 W1 _ Ir1))), bind_get, bind_assert by (apply idx_ok; assumption).
    assert (P1 : PosOk m -> PosOk m1).
    { destruct b1; [|rewrite (Hf1 eq_refl); auto]. destruct (Ht1 eq_refl) as (u0 & u1 & u2 & u3 & f0 & f1 & X & _).
      apply collapsed_posok. exists h. split; [exact Ih|]. exists u0, u1, u2, u3, f0, f1; exact X. }
    destruct (collapse_top m1 r V1 Ir1) as [[E2 P]|(b2 & m2 & E2 & V2 & Hf2 & Ht2)].
    + left. split; [|tauto]. unfold bind at 1. rewrite E2. reflexivity.
    + right. rewrite (bind_ok _ _ _ _ _ E2). exists (b1 && b2), m2. split; [reflexivity|]. split; [exact V2|].
      assert (Q1 : b1 = true -> Collapsed m m1).
      { intros H. destruct (Ht1 H) as (u0 & u1 & u2 & u3 & f0 & f1 & X & _). exists h. split; [exact Ih|]. exists u0, u1, u2, u3, f0, f1; exact X. }
      assert (Q2 : b2 = true -> Collapsed m1 m2).
      { intros H. destruct (Ht2 H) as (u0 & u1 & u2 & u3 & f0 & f1 & X & _). exists r. split; [exact Ir1|]. exists u0, u1, u2, u3, f0, f1; exact X. }
      destruct b1, b2; cbn [andb]; (split; [try discriminate|try discriminate]).
      * intros _. exists m1. auto.
      * intros _. right. rewrite (Hf2 eq_refl). auto.
      * intros _. right. rewrite (Hf1 eq_refl) in Q2. auto.
      * intros _. left. rewrite (Hf2 eq_refl). auto.
Qed.

(** A face that is not a triangle fails the assertion. *)
Theorem collapseFace_nontri m f : WF m -> In f (m_faces m) ->
  length (filter (fun h => ptr_eqb (h_face m h) (Some f)) (m_hes m)) <> 3 -> collapseFace (Some f) m = Abort AAssert.
Proof.
  intros W If HN. destruct (fring m W f If) as (h & l & Eh & Hr).
  assert (Ll : length (h :: l) <> 3).
  { intros E. apply HN. rewrite <- E. destruct Hr as (_ & Hnd & Hin). apply Permutation.Permutation_length, Permutation.NoDup_Permutation.
    - apply NoDup_filter, (wf_h_nodup m W).
    - exact Hnd.
    - intros y. rewrite Hin, filter_In, ptr_eqb_eq. tauto. }
  unfold collapseFace. rewrite (bind_ok _ _ _ _ _ (f_halfedges_ok m W f h l If Eh Hr)).
  rewrite map_length. destruct (Nat.eqb_spec (length (h :: l)) 3); [contradiction|]. reflexivity.
Qed.

(** ** Boundary flags *)
Lemma split_flags m m' he rev he0 he1 he2 he3 u0 u1 u2 u3 f0 f1 nh h01 h02 rn h11 h12 g0 g1 vn :
  WF m -> FlagsSym m ->
  SplitT m m' he rev he0 he1 he2 he3 u0 u1 u2 u3 f0 f1 nh h01 h02 rn h11 h12 g0 g1 vn -> FlagsSym m'.
Proof.
  intros W FS T y r Hy Er.
  pose proof (t_bd_old _ _ _ _ _ _ _ _ _ _ _ _ _ _ _ _ _ _ _ _ _ _ _ T) as BO.
  pose proof (t_bd_new _ _ _ _ _ _ _ _ _ _ _ _ _ _ _ _ _ _ _ _ _ _ _ T) as BN.
  destruct (t_r _ _ _ _ _ _ _ _ _ _ _ _ _ _ _ _ _ _ _ _ _ _ _ T) as (r_nh & r_rn & r_h01 & r_h02 & r_h11 & r_h12).
  apply (SplitV.in_hes _ _ _ _ _ _ _ _ _ _ _ _ _ _ _ _ _ _ _ _ _ _ _ T) in Hy as [Hy|Hy].
  - rewrite (t_r_old _ _ _ _ _ _ _ _ _ _ _ _ _ _ _ _ _ _ _ _ _ _ _ T y Hy) in Er.
    rewrite !BO; [apply FS; assumption|eapply (rev_in m W); eassumption|exact Hy].
  - rewrite !BN; [reflexivity| |simpl; intuition congruence].
    destruct Hy as [->|[->|[->|[->|[->| ->]]]]]; simpl; intuition congruence.
Qed.

Lemma split_flags_top m he b m' : Valid m -> FlagsSym m -> In he (m_hes m) -> splitHE (Some he) m = Ok (b, m') -> FlagsSym m'.
Proof.
  intros V FS I E. assert (W := valid_wf m V).
  destruct (split_top m he V I) as (b' & m1 & rev & s & d & R & Ss & Sd & E' & V' & Hb & Hf & Ht).
  assert (b' = b /\ m1 = m') as [-> ->] by (rewrite E in E'; split; congruence). clear E'.
  destruct b; [|rewrite (Hf eq_refl); exact FS].
  destruct (Ht eq_refl) as (u0 & u1 & u2 & u3 & f0 & f1 & vn & g0 & g1 & X).
  (* every half-edge of m' is old with old flags, or new and unflagged; old ones keep their opposite *)
  destruct (se_bd _ _ _ _ _ _ _ _ _ _ _ _ X) as [BO BN]. clear Ht.
  destruct Hb as [Hb _]. destruct (Hb eq_refl) as (B1 & B2 & C1 & C2). clear Hb.
  assert (Ir := rev_in m W _ _ I R). assert (Rr := rev_rev m W _ _ I R).
  assert (Sd' : h_src m rev = Some d) by (unfold dst_of in Sd; rewrite R in Sd; exact Sd).
  destruct (le_lt_dec (deg_of m d) (deg_of m s)) as [C|C].
  - destruct (diamond_exists m he rev W (valid_noloops m V) I R (valid_tri m V _ I B1) (valid_tri m V _ Ir B2))
      as (he0 & he1 & he2 & he3 & x0 & x1 & x2 & x3 & y0 & y1 & D).
    assert (x0 = s) by (pose proof (d_s_he _ _ _ _ _ _ _ _ _ _ _ _ _ D); congruence).
    assert (x2 = d) by (pose proof (d_s_rev _ _ _ _ _ _ _ _ _ _ _ _ _ D); congruence). subst x0 x2.
    destruct (split_T_exec m he rev he0 he1 he2 he3 s x1 d x3 y0 y1 W D C1 C2 C B1 B2) as (m1 & nh & h01 & h02 & rn & h11 & h12 & g0' & g1' & vn' & E1 & T).
    assert (m1 = m') by congruence; subst m1. eapply split_flags; eassumption.
  - rewrite (split_swap m he rev s d W I R Ss Sd' C) in E.
    destruct (diamond_exists m rev he W (valid_noloops m V) Ir Rr (valid_tri m V _ Ir B2) (valid_tri m V _ I B1))
      as (he0 & he1 & he2 & he3 & x0 & x1 & x2 & x3 & y0 & y1 & D).
    assert (x0 = d) by (pose proof (d_s_he _ _ _ _ _ _ _ _ _ _ _ _ _ D); congruence).
    assert (x2 = s) by (pose proof (d_s_rev _ _ _ _ _ _ _ _ _ _ _ _ _ D); congruence). subst x0 x2.
    destruct (split_T_exec m rev he he0 he1 he2 he3 d x1 s x3 y0 y1 W D C2 C1 ltac:(lia) B2 B1) as (m1 & nh & h01 & h02 & rn & h11 & h12 & g0' & g1' & vn' & E1 & T).
    assert (m1 = m') by congruence; subst m1. eapply split_flags; eassumption.
Qed.

Lemma flip_flags_top m he rev b m' : Valid m -> FlagsSym m -> In he (m_hes m) -> h_rev m he = Some rev ->
  piter (h_next m) 3 he = Some he -> piter (h_next m) 3 rev = Some rev -> flipHE (Some he) m = Ok (b, m') -> FlagsSym m'.
Proof.
  intros V FS I R T1 T2 E. assert (W := valid_wf m V).
  destruct (diamond_exists m he rev W (valid_noloops m V) I R T1 T2) as (he0 & he1 & he2 & he3 & u0 & u1 & u2 & u3 & f0 & f1 & D).
  destruct (flip_exec m he rev he0 he1 he2 he3 u0 u1 u2 u3 f0 f1 W D) as (b' & m1 & E' & Hf & Ht).
  assert (b' = b /\ m1 = m') as [-> ->] by (rewrite E in E'; split; congruence).
  destruct b; [destruct (Ht eq_refl) as (-> & _); exact FS|destruct (Hf eq_refl) as [-> _]; exact FS].
Qed.

Lemma collapse_flags_top m he b m' : Valid m -> FlagsSym m -> In he (m_hes m) -> collapseHE (Some he) m = Ok (b, m') -> FlagsSym m'.
Proof.
  intros V FS I E. assert (W := valid_wf m V).
  destruct (collapse_exec m V he I) as [E'|(a & c & hn & hp & rn & rp & u0 & u1 & u2 & u3 & f0 & f1 & o0 & o1 & o2 & o3 & Rab & Hab & C & R0 & R1 & R2 & R3 & _ & Ht & Hf)]; [assert (m' = m) by congruence; subst; exact FS|].
  destruct (veqb (v_pos m u2) (v_pos m u2)); [|rewrite (Hf eq_refl) in E; discriminate].
  destruct (Ht eq_refl) as (m1 & E1 & T). assert (m1 = m') by congruence; subst m1.
  pose proof (cc_diamond _ _ _ _ _ _ _ _ _ _ _ _ _ C) as D. pose proof (cc_bd _ _ _ _ _ _ _ _ _ _ _ _ _ C) as BD.
  assert (B0 : h_bd m o0 = false) by (rewrite <- (FS hp o0 (d_he1 _ _ _ _ _ _ _ _ _ _ _ _ _ D) R0); apply BD; simpl; tauto).
  assert (B1 : h_bd m o1 = false) by (rewrite <- (FS hn o1 (d_he0 _ _ _ _ _ _ _ _ _ _ _ _ _ D) R1); apply BD; simpl; tauto).
  assert (B2 : h_bd m o2 = false) by (rewrite <- (FS rp o2 (d_he3 _ _ _ _ _ _ _ _ _ _ _ _ _ D) R2); apply BD; simpl; tauto).
  assert (B3 : h_bd m o3 = false) by (rewrite <- (FS rn o3 (d_he2 _ _ _ _ _ _ _ _ _ _ _ _ _ D) R3); apply BD; simpl; tauto).
  destruct (c_rev_o _ _ _ _ _ _ _ _ _ _ _ _ _ _ _ _ _ _ T) as (P0 & P1 & P2 & P3).
  intros y r Hy Er. rewrite (c_bd _ _ _ _ _ _ _ _ _ _ _ _ _ _ _ _ _ _ T).
  destruct (Nat.eq_dec y o0) as [->|A0]; [congruence|]. destruct (Nat.eq_dec y o1) as [->|A1]; [congruence|].
  destruct (Nat.eq_dec y o2) as [->|A2]; [congruence|]. destruct (Nat.eq_dec y o3) as [->|A3]; [congruence|].
  rewrite (c_rev _ _ _ _ _ _ _ _ _ _ _ _ _ _ _ _ _ _ T) in Er by assumption. apply FS; [|exact Er].
  apply (CollapseV.in_hes m m' a c hn hp rn rp o0 o1 o2 o3 u0 u1 u2 u3 f0 f1 T), Hy.
Qed.

(** ** Euler characteristic *)
Lemma div2_add6 a : ((a + 6) / 2 = a / 2 + 3)%Z.
Proof. replace (a + 6)%Z with (a + 3 * 2)%Z by lia. apply Z.div_add. lia. Qed.

Lemma split_euler m m' he u0 u1 u2 u3 f0 f1 vn g0 g1 : SplitEffect m m' he u0 u1 u2 u3 f0 f1 vn g0 g1 -> euler m' = euler m.
Proof.
  intros X. unfold euler. rewrite (se_verts _ _ _ _ _ _ _ _ _ _ _ _ X), (se_faces _ _ _ _ _ _ _ _ _ _ _ _ X).
  destruct (se_hes _ _ _ _ _ _ _ _ _ _ _ _ X) as (l & -> & El). rewrite !app_length, El, !Nat2Z.inj_add.
  cbn [length]. change (Z.of_nat 6) with 6%Z. rewrite div2_add6. lia.
Qed.
Lemma flip_euler m m' he u0 u1 u2 u3 f0 f1 : FlipEffect m m' he u0 u1 u2 u3 f0 f1 -> euler m' = euler m.
Proof. intros X. destruct (fe_lists _ _ _ _ _ _ _ _ _ X) as (E1 & E2 & E3). unfold euler. rewrite E1, E2, E3. reflexivity. Qed.
Lemma collapse_euler m m' he u0 u1 u2 u3 f0 f1 : CollapseEffect m m' he u0 u1 u2 u3 f0 f1 -> euler m' = euler m.
Proof.
  intros X. unfold euler. rewrite (ce_nv _ _ _ _ _ _ _ _ _ X), (ce_nf _ _ _ _ _ _ _ _ _ X), (ce_nh _ _ _ _ _ _ _ _ _ X).
  rewrite !Nat2Z.inj_add. change (Z.of_nat 6) with 6%Z. rewrite (Z.add_comm 6), div2_add6. lia.
Qed.

(** ** Sequences of edits *)
Lemma collapsed_euler m m' : Collapsed m m' -> euler m' = euler m.
Proof. intros (he & _ & u0 & u1 & u2 & u3 & f0 & f1 & X). eapply collapse_euler; exact X. Qed.

Lemma edit_step m e : Valid m -> edit_arg m e ->
  (run_edit e m = Abort AAssert /\ ~ PosOk m) \/
  exists b m', run_edit e m = Ok (b, m') /\ Valid m' /\ euler m' = euler m.
Proof.
  intros V A. destruct e as [h|h|h|f]; cbn [run_edit edit_arg] in *.
  - right. destruct (split_top m h V A) as (b & m' & rev & s & d & R & Ss & Sd & E & V' & Hb & Hf & Ht). exists b, m'.
    split; [exact E|split; [exact V'|]]. destruct b; [|rewrite (Hf eq_refl); reflexivity].
    destruct (Ht eq_refl) as (u0 & u1 & u2 & u3 & f0 & f1 & vn & g0 & g1 & X). eapply split_euler; exact X.
  - right. destruct A as (I & T1 & T2). destruct (wf_rev m (valid_wf m V) h I) as (r & Er & Ir).
    destruct (flip_top m h r V I Er T1 (T2 r Er)) as (b & m' & E & V' & Hf & u0 & u1 & u2 & u3 & f0 & f1 & _ & _ & _ & _ & _ & Ht).
    exists b, m'. split; [exact E|split; [exact V'|]]. destruct b; [|rewrite (Hf eq_refl); reflexivity]. eapply flip_euler; apply Ht; reflexivity.
  - destruct (collapse_top m h V A) as [X|(b & m' & E & V' & Hf & Ht)]; [left; exact X|right].
    exists b, m'. split; [exact E|split; [exact V'|]]. destruct b; [|rewrite (Hf eq_refl); reflexivity].
    destruct (Ht eq_refl) as (u0 & u1 & u2 & u3 & f0 & f1 & X & _). eapply collapse_euler; exact X.
  - destruct A as (I & a & b & c & T). destruct (collapseFace_top m f a b c V I T) as [X|(r & m' & E & V' & Ht & Hf)]; [left; exact X|right].
    exists r, m'. split; [exact E|split; [exact V'|]]. destruct r.
    + destruct (Ht eq_refl) as (m1 & X1 & _ & X2). rewrite (collapsed_euler _ _ X2). apply collapsed_euler, X1.
    + destruct (Hf eq_refl) as [->|X]; [reflexivity|apply collapsed_euler, X].
Qed.

Theorem edits_top es : forall m, Valid m -> edit_args m es ->
  (run_edits es m = Abort AAssert /\ exists pre m1, Valid m1 /\ ~ PosOk m1 /\ run_edits pre m = Ok (tt, m1)) \/
  exists m', run_edits es m = Ok (tt, m') /\ Valid m' /\ euler m' = euler m.
Proof.
  induction es as [|e es IH]; intros m V A.
  - right. exists m. auto.
  - inversion A as [|? ? ? A1 A2]; subst. destruct (edit_step m e V A1) as [[E P]|(b & m1 & E & V1 & Eu)].
    + left. split; [cbn [run_edits fold_right]; unfold bind at 1; rewrite E; reflexivity|]. exists [], m. auto.
    + destruct (IH m1 V1 (A2 b m1 E)) as [[E2 (pre & m2 & V2 & P2 & E3)]|(m2 & E2 & V2 & Eu2)].
      * left. split; [cbn [run_edits fold_right]; rewrite (bind_ok _ _ _ _ _ E); exact E2|].
        exists (e :: pre), m2. split; [exact V2|split; [exact P2|]]. cbn [run_edits fold_right]. rewrite (bind_ok _ _ _ _ _ E). exact E3.
      * right. exists m2. split; [cbn [run_edits fold_right]; rewrite (bind_ok _ _ _ _ _ E); exact E2|]. split; [exact V2|congruence].
Qed.

(** With exact comparison of positions the assertion never fails. *)
Corollary edits_exact es : (forall p : vec N, veqb p p = true) -> forall m, Valid m -> edit_args m es ->
  exists m', run_edits es m = Ok (tt, m') /\ Valid m' /\ euler m' = euler m.
Proof.
  intros R m V A. destruct (edits_top es m V A) as [[_ (pre & m1 & _ & P & _)]|X]; [|exact X].
  exfalso. apply P. intros v _. apply R.
Qed.

End Seqs.
