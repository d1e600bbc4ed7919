(** Faces keep at least three corners under the edits; meshes after fillHoles. *)
From Coq Require Import List ZArith Arith Lia Bool Permutation.
From Verif Require Import Num Vec Heap Mesh Construct Spec BuildSpec BuildTri BuildProps Built EditSpec EditRun Orbit Rings Exec Diamond Flip Split Edits Seqs Fill FillT FillD FillO FillQ FillW FillSpec FillP.
From Verif Require SplitV.
Import ListNotations.
Local Open Scope mesh_scope.

Section E.
Context {N : Num}.
Implicit Types m : mesh N.

(** A triangle is not a pair of half-edges. *)
Lemma tri_not_pair m h : WF m -> NoLoops m -> In h (m_hes m) -> piter (h_next m) 3 h = Some h -> piter (h_next m) 2 h <> Some h.
Proof.
  intros W NL I T P. cbn [piter] in T, P. destruct (wf_next m W h I) as (n & En & In_). rewrite En in T, P. destruct (h_next m n) as [h'|] eqn:En'; [|discriminate]. injection P as ->. rewrite En in T. injection T as ->.
  apply (NL h I). rewrite (dst_next m h h W I En). reflexivity.
Qed.
Lemma at3_from m m' : WF m' -> NoLoops m' -> AtLeast3 m -> (forall h, In h (m_hes m') -> piter (h_next m') 3 h = Some h \/ In h (m_hes m) /\ h_next m' h = h_next m h) -> AtLeast3 m'.
Proof.
  intros W NL A H h I P. destruct (H h I) as [T | [I0 E]]; [exact (tri_not_pair m' h W NL I T P)|].
  destruct (wf_next m' W h I) as (n & En & In_). assert (P' := P). cbn [piter] in P'. rewrite En in P'. destruct (h_next m' n) as [h'|] eqn:En'; [|discriminate]. injection P' as ->.
  destruct (H n In_) as [T | [J0 E']]; [apply (tri_not_pair m' n W NL In_ T); cbn [piter]; rewrite En', En; reflexivity|].
  apply (A h I0). cbn [piter]. rewrite <- E, En, <- E', En'. reflexivity.
Qed.

Lemma collapsed_at3 m m' : Valid m' -> Collapsed m m' -> AtLeast3 m -> AtLeast3 m'.
Proof.
  intros V (he & _ & u0 & u1 & u2 & u3 & f0 & f1 & X) A. apply (at3_from m m' (valid_wf m' V) (valid_noloops m' V) A). intros h I. right. split; [apply (ce_hes _ _ _ _ _ _ _ _ _ X h), I|apply (ce_next _ _ _ _ _ _ _ _ _ X h I)].
Qed.
Lemma flip_at3 m he b m' : Valid m -> AtLeast3 m -> edit_arg m (EFlip he) -> flipHE (Some he) m = Ok (b, m') -> AtLeast3 m'.
Proof.
  intros V A (I & T1 & T2) E. assert (W := valid_wf m V). destruct (wf_rev m W he I) as (rev & R & Ir).
  destruct (flip_top m he rev V I R T1 (T2 rev R)) as (b0 & m0 & E0 & V' & _). assert (m0 = m') by congruence. subst m0.
  destruct (diamond_exists m he rev W (valid_noloops m V) I R T1 (T2 rev R)) as (he0 & he1 & he2 & he3 & u0 & u1 & u2 & u3 & f0 & f1 & D).
  destruct (flip_exec m he rev he0 he1 he2 he3 u0 u1 u2 u3 f0 f1 W D) as (b' & m1 & E' & Hf & Ht).
  assert (b' = b /\ m1 = m') as [-> ->] by (rewrite E in E'; split; congruence). destruct b; [|destruct (Hf eq_refl) as [-> _]; exact A]. destruct (Ht eq_refl) as (EM & _).
  apply (at3_from m m' (valid_wf m' V') (valid_noloops m' V') A). intros h Ih.
  assert (n1 := Flip.n_he m he rev he0 he1 he2 he3 u0 u1 u2 u3 f0 f1 D). assert (n2 := Flip.n_he1 m he rev he0 he1 he2 he3 u0 u1 u2 u3 f0 f1 D). assert (n3 := Flip.n_he2 m he rev he0 he1 he2 he3 u0 u1 u2 u3 f0 f1 D).
  assert (n4 := Flip.n_rev m he rev he0 he1 he2 he3 u0 u1 u2 u3 f0 f1 D). assert (n5 := Flip.n_he3 m he rev he0 he1 he2 he3 u0 u1 u2 u3 f0 f1 D). assert (n6 := Flip.n_he0 m he rev he0 he1 he2 he3 u0 u1 u2 u3 f0 f1 D).
  assert (no := Flip.n_oth m he rev he0 he1 he2 he3 u0 u1 u2 u3 f0 f1). rewrite <- EM in n1, n2, n3, n4, n5, n6, no.
  assert (Lh : m_hes m' = m_hes m) by (rewrite EM; reflexivity). rewrite Lh in Ih.
  assert (CL : h = he \/ h = he0 \/ h = he1 \/ h = rev \/ h = he2 \/ h = he3 \/ Flip.other he rev he0 he1 he2 he3 h) by (clear; unfold Flip.other; lia). destruct CL as [-> | [-> | [-> | [-> | [-> | [-> | O]]]]]]; [left|left|left|left|left|left|right; split; [exact Ih|exact (no h O)]];
    cbn [piter]; rewrite ?n1, ?n2, ?n3, ?n4, ?n5, ?n6, ?n1, ?n2, ?n3, ?n4, ?n5, ?n6; reflexivity.
Qed.
Lemma splitT_at3 m m' he rev he0 he1 he2 he3 u0 u1 u2 u3 f0 f1 nh h01 h02 rn h11 h12 g0 g1 vn : Valid m' -> AtLeast3 m ->
  SplitT m m' he rev he0 he1 he2 he3 u0 u1 u2 u3 f0 f1 nh h01 h02 rn h11 h12 g0 g1 vn -> AtLeast3 m'.
Proof.
  intros V' A T. apply (at3_from m m' (valid_wf m' V') (valid_noloops m' V') A). intros h Ih. apply (SplitV.in_hes _ _ _ _ _ _ _ _ _ _ _ _ _ _ _ _ _ _ _ _ _ _ _ T) in Ih.
  assert (no := t_n_oth _ _ _ _ _ _ _ _ _ _ _ _ _ _ _ _ _ _ _ _ _ _ _ T h). destruct (t_n _ _ _ _ _ _ _ _ _ _ _ _ _ _ _ _ _ _ _ _ _ _ _ T) as (n1 & n2 & n3 & n4 & n5 & n6 & n7 & n8 & n9 & n10 & n11 & n12).
  assert (K : forall a b c, h_next m' a = Some b -> h_next m' b = Some c -> h_next m' c = Some a -> piter (h_next m') 3 a = Some a) by (intros a b c E1 E2 E3; cbn [piter]; rewrite E1, E2, E3; reflexivity).
  destruct Ih as [Ih | [-> | [-> | [-> | [-> | [-> | ->]]]]]]; [|left; eauto..].
  destruct (Nat.eq_dec h he) as [->|]; [left; eauto|]. destruct (Nat.eq_dec h he0) as [->|]; [left; eauto|]. destruct (Nat.eq_dec h he1) as [->|]; [left; eauto|]. destruct (Nat.eq_dec h rev) as [->|]; [left; eauto|].
  destruct (Nat.eq_dec h he2) as [->|]; [left; eauto|]. destruct (Nat.eq_dec h he3) as [->|]; [left; eauto|]. right. auto.
Qed.
Lemma split_at3 m he b m' : Valid m -> AtLeast3 m -> In he (m_hes m) -> splitHE (Some he) m = Ok (b, m') -> AtLeast3 m'.
Proof.
  intros V A I E. assert (W := valid_wf m V). destruct (split_top m he V I) as (b' & m1 & rev & s & d & R & Ss & Sd & E' & V' & Hb & Hf & Ht).
  assert (b' = b /\ m1 = m') as [-> ->] by (rewrite E in E'; split; congruence). clear E'. destruct b; [|rewrite (Hf eq_refl); exact A].
  destruct Hb as [Hb _]. destruct (Hb eq_refl) as (B1 & B2 & C1 & C2). clear Hb Ht. assert (Ir := rev_in m W _ _ I R). assert (Rr := rev_rev m W _ _ I R).
  assert (Sd' : h_src m rev = Some d) by (unfold dst_of in Sd; rewrite R in Sd; exact Sd).
  destruct (le_lt_dec (deg_of m d) (deg_of m s)) as [C|C].
  - destruct (diamond_exists m he rev W (valid_noloops m V) I R (valid_tri m V _ I B1) (valid_tri m V _ Ir B2)) as (he0 & he1 & he2 & he3 & x0 & x1 & x2 & x3 & y0 & y1 & D).
    assert (x0 = s) by (pose proof (d_s_he _ _ _ _ _ _ _ _ _ _ _ _ _ D); congruence). assert (x2 = d) by (pose proof (d_s_rev _ _ _ _ _ _ _ _ _ _ _ _ _ D); congruence). subst x0 x2.
    destruct (split_T_exec m he rev he0 he1 he2 he3 s x1 d x3 y0 y1 W D C1 C2 C B1 B2) as (m1 & nh & h01 & h02 & rn & h11 & h12 & g0' & g1' & vn' & E1 & T). assert (m1 = m') by congruence; subst m1. eapply splitT_at3; eassumption.
  - rewrite (split_swap m he rev s d W I R Ss Sd' C) in E.
    destruct (diamond_exists m rev he W (valid_noloops m V) Ir Rr (valid_tri m V _ Ir B2) (valid_tri m V _ I B1)) as (he0 & he1 & he2 & he3 & x0 & x1 & x2 & x3 & y0 & y1 & D).
    assert (x0 = d) by (pose proof (d_s_he _ _ _ _ _ _ _ _ _ _ _ _ _ D); congruence). assert (x2 = s) by (pose proof (d_s_rev _ _ _ _ _ _ _ _ _ _ _ _ _ D); congruence). subst x0 x2.
    destruct (split_T_exec m rev he he0 he1 he2 he3 d x1 s x3 y0 y1 W D C2 C1 ltac:(lia) B2 B1) as (m1 & nh & h01 & h02 & rn & h11 & h12 & g0' & g1' & vn' & E1 & T). assert (m1 = m') by congruence; subst m1. eapply splitT_at3; eassumption.
Qed.
Lemma edits_at3 es : forall m m', Valid m -> AtLeast3 m -> edit_args m es -> run_edits es m = Ok (tt, m') -> Valid m' /\ AtLeast3 m'.
Proof.
  induction es as [|e es IH]; intros m m' V A EA R; [cbn in R; injection R as <-; auto|]. inversion EA as [|? ? ? A1 A2]; subst.
  destruct (edit_step m e V A1) as [[E P]|(b & m1 & E & V1 & Eu)]; [cbn [run_edits fold_right] in R; unfold bind at 1 in R; rewrite E in R; discriminate|].
  cbn [run_edits fold_right] in R. rewrite (bind_ok _ _ _ _ _ E) in R. apply (IH m1 m' V1); [|exact (A2 b m1 E)|exact R].
  destruct e as [h|h|h|f]; cbn [run_edit] in E.
  - exact (split_at3 m h b m1 V A A1 E).
  - exact (flip_at3 m h b m1 V A A1 E).
  - cbn [edit_arg] in A1. destruct (collapse_top m h V A1) as [[X _]|(b' & m2 & E' & _ & Hf & Ht)]; [congruence|]. assert (b' = b /\ m2 = m1) as [-> ->] by (rewrite E in E'; split; congruence).
    destruct b; [|rewrite (Hf eq_refl); exact A]. destruct (Ht eq_refl) as (u0 & u1 & u2 & u3 & f0 & f1 & X & _). apply (collapsed_at3 m m1 V1); [|exact A]. exists h. split; [exact A1|]. eauto 8.
  - destruct A1 as (I & x & y & z & T). destruct (collapseFace_top m f x y z V I T) as [[X _]|(r & m2 & E' & _ & Ht & Hf)]; [congruence|]. assert (r = b /\ m2 = m1) as [-> ->] by (rewrite E in E'; split; congruence).
    destruct b.
    + destruct (Ht eq_refl) as (m3 & X1 & V3 & X2). exact (collapsed_at3 m3 m1 V1 X2 (collapsed_at3 m m3 V3 X1 A)).
    + destruct (Hf eq_refl) as [->|X]; [exact A|exact (collapsed_at3 m m1 V1 X A)].
Qed.

(** Constructed meshes. *)
Lemma ring_pair_len m f l h : Fring m f l -> In h l -> 3 <= length l -> piter (h_next m) 2 h <> Some h.
Proof.
  intros (C & ND & _) I L P. destruct (cyc_rot_in _ l h C I) as (l' & C' & Pm). assert (ND' := Permutation_NoDup Pm ND). rewrite (Permutation_length Pm) in L.
  destruct l' as [|a [|b l']]; cbn [length] in L; [lia|lia|]. cbn [cyc chainto] in C'. destruct C' as (C1 & C2 & _). cbn [piter] in P. rewrite C1, C2 in P. injection P as ->. inversion ND' as [|? ? NI _]; subst. apply NI. cbn; auto.
Qed.
Definition Distinct m : Prop := forall f ring bs, In f (m_faces m) -> Corners m f ring bs -> NoDup bs.
Lemma nodup_of_map {A B} (g : A -> B) l : NoDup (map g l) -> NoDup l.
Proof. induction l as [|x l IH]; intros H; [constructor|]. cbn in H. inversion H; subst. constructor; [intros I; apply (in_map g) in I; contradiction|auto]. Qed.
Lemma built_faces m A : Built m A -> AtLeast3 m /\ Distinct m.
Proof.
  intros B. assert (V := so_valid _ _ (bu_surf _ _ B)). assert (W := valid_wf _ V). destruct (hole_faces m A B) as (holes & Ef & Ft & _ & HH & _).
  assert (K : forall f, In f (m_faces m) -> (exists a b c, Tri m f a b c) \/ (exists l, NoDup l /\ 3 <= length l /\ NoDup (map (h_src m) l) /\ (forall h, In h l <-> In h (m_hes m) /\ h_face m h = Some f))).
  { intros f If. rewrite Ef in If. apply in_app_or in If as [If | If].
    - left. clear - Ft If. induction Ft as [|x t fl T Fx Ft IH]; [destruct If|]. destruct If as [<- | If]; [|exact (IH If)]. destruct t as [[a b] c]. destruct Fx as (u & v & w & _ & _ & _ & T'). eauto.
    - right. destruct (HH f If) as (l & _ & A1 & A2 & A3 & A4 & _). exists l. auto. }
  assert (TT : forall f a b c h, Tri m f a b c -> In h (m_hes m) -> h_face m h = Some f -> piter (h_next m) 3 h = Some h).
  { intros f a b c h (x & y & z & FX & N1 & N2 & N3 & _) I E. destruct (proj1 (FX h) (conj I E)) as [-> | [-> | ->]]; cbn [piter]; rewrite ?N1, ?N2, ?N3, ?N1, ?N2, ?N3; reflexivity. }
  split.
  - intros h I. destruct (wf_face m W h I) as (f & Fh & If). destruct (K f If) as [(a & b & c & T) | (l & ND & L & _ & Il)].
    + exact (tri_not_pair m h W (valid_noloops m V) I (TT f a b c h T I Fh)).
    + destruct (fring_at m W h f I Fh) as (l' & R). apply (ring_pair_len m f (h :: l') h R (or_introl eq_refl)). replace (length (h :: l')) with (length l); [exact L|]. apply Permutation_length, NoDup_Permutation; [exact ND|apply R|]. intros y. rewrite Il. symmetry. apply R.
  - intros f ring bs If C. apply corners_ring in C as [R RB]. apply (nodup_of_map Some). rewrite <- RB. destruct (K f If) as [(a & b & c & T) | (l & ND & L & NS & Il)].
    + destruct T as (x & y & z & FX & N1 & N2 & N3 & _). destruct R as (C & ND & IR).
      assert (Ix : In x (m_hes m)) by (apply FX; auto). assert (Iy : In y (m_hes m)) by (apply FX; auto). assert (Iz : In z (m_hes m)) by (apply FX; auto).
      assert (NL := valid_noloops m V). assert (D1 := NL x Ix). rewrite (dst_next m x y W Ix N1) in D1. assert (D2 := NL y Iy). rewrite (dst_next m y z W Iy N2) in D2. assert (D3 := NL z Iz). rewrite (dst_next m z x W Iz N3) in D3.
      apply (Permutation_NoDup (l := map (h_src m) [x; y; z])).
      * apply Permutation_map, NoDup_Permutation; [|exact ND|intros h; rewrite IR, FX; cbn [In]; intuition]. constructor; [cbn [In]; intuition congruence|]. constructor; [cbn [In]; intuition congruence|]. constructor; [cbn [In]; tauto|constructor].
      * cbn [map]. constructor; [cbn [In]; intuition congruence|]. constructor; [cbn [In]; intuition congruence|]. constructor; [cbn [In]; tauto|constructor].
    + apply (Permutation_NoDup (l := map (h_src m) l)); [|exact NS]. apply Permutation_map, NoDup_Permutation; [exact ND|apply R|]. intros y. rewrite Il. symmetry. apply R.
Qed.
Lemma construct_faces ps ix m m' : construct ps ix m = Ok (tt, m') -> AtLeast3 m' /\ Distinct m'.
Proof. intros E. destruct (construct_built ps ix m m' E) as (us & l & out & rem & A & _ & _ & _ & _ & _ & _ & _ & B & _). exact (built_faces m' A B). Qed.
End E.
