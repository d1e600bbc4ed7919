(** Holes in flat regions are filled without folds. *)
From Coq Require Import Reals Lra Lia List ZArith Arith Bool.
From Verif Require Import Num NumInst Vec VecR Heap Mesh Spec GeomSpec Orbit Rings MeasureM Construct Wp Fill FillD FillT FillSpec FillQ FillW FillP FlatSpec FlatF SmoothP.
Import ListNotations.
Local Open Scope R_scope.

Lemma dot_vz (x : vecR) : dot vzero x = 0. Proof. dring. Qed.
Lemma id_zc (x : vecR) : cross vzero x = vzero. Proof. vring. Qed.
(** ** The polygon may start at any corner *)
Lemma up_cyc nrm (a b c : vecR) : faces_up nrm a b c -> faces_up nrm b c a.
Proof. intros (s & P & E). exists s. split; [exact P|]. rewrite <- E. symmetry. apply id_crossrot. Qed.
Section Rot.
Variables (nrm : vecR) (p p' : nat -> vecR) (n : nat).
Hypothesis Sh : forall i, (0 < i <= n)%nat -> p' (i - 1)%nat = p i.
Hypothesis La : p' n = p 0%nat.
Lemma unf_lt P i k : Unfolded nrm P i k -> (i < k)%nat.
Proof. induction 1; lia. Qed.
Lemma unf_shift i k : Unfolded nrm p i k -> (0 < i)%nat -> (k <= n)%nat -> Unfolded nrm p' (i - 1) (k - 1).
Proof.
  induction 1 as [i|i j k B U P1 IH1 P2 IH2]; intros L Lk.
  - replace (S i - 1)%nat with (S (i - 1)) by lia. constructor.
  - apply (uf_cut nrm p' (i - 1) (j - 1) (k - 1)); [lia| |apply IH1; lia|apply IH2; lia]. rewrite !Sh by lia. exact U.
Qed.
Lemma unf_reroot i k : Unfolded nrm p i k -> i = 0%nat -> (k <= n)%nat -> Unfolded nrm p' (k - 1) n -> Unfolded nrm p' 0 n.
Proof.
  induction 1 as [i|i j k B U P1 IH1 P2 IH2]; intros -> Lk T.
  - exact T.
  - apply IH1; [reflexivity|lia|]. assert (S2 := unf_shift j k P2 ltac:(lia) Lk). apply (uf_cut nrm p' (j - 1) (k - 1) n); [lia| |exact S2|exact T]. rewrite !Sh, La by lia. apply up_cyc, U.
Qed.
Lemma unf_rot1 : (0 < n)%nat -> Unfolded nrm p 0 n -> Unfolded nrm p' 0 n.
Proof. intros L H. apply (unf_reroot 0 n H eq_refl (le_n _)). replace n with (S (n - 1)) at 2 by lia. constructor. Qed.
End Rot.
Lemma unf_rot nrm (P : nat -> vecR) : forall b1 b2, (2 <= length (b1 ++ b2))%nat -> Unfolded nrm (fun i => P (nth i (b1 ++ b2) 0%nat)) 0 (length (b1 ++ b2) - 1) ->
  Unfolded nrm (fun i => P (nth i (b2 ++ b1) 0%nat)) 0 (length (b2 ++ b1) - 1).
Proof.
  induction b1 as [|x b1 IH]; intros b2 L H; [rewrite app_nil_r; exact H|].
  replace (b2 ++ x :: b1) with ((b2 ++ [x]) ++ b1) by (rewrite <- app_assoc; reflexivity). assert (EL : length (b1 ++ b2 ++ [x]) = length ((x :: b1) ++ b2)) by (rewrite !app_length; cbn [length]; lia).
  apply IH; [lia|]. rewrite EL. refine (unf_rot1 nrm _ _ _ _ _ _ H).
  - intros i Li. f_equal. replace (b1 ++ b2 ++ [x]) with ((b1 ++ b2) ++ [x]) by (rewrite <- app_assoc; reflexivity). cbn [app length] in *. rewrite app_nth1 by lia. destruct i as [|i]; [lia|]. cbn [nth]. f_equal. lia.
  - f_equal. replace (b1 ++ b2 ++ [x]) with ((b1 ++ b2) ++ [x]) by (rewrite <- app_assoc; reflexivity). cbn [app length]. replace (S (length (b1 ++ b2)) - 1)%nat with (length (b1 ++ b2)) by lia. rewrite nth_middle. reflexivity.
  - cbn [app length] in *. lia.
Qed.

(** ** One hole *)
Section One.
Variable cabs : R -> R.
Variables (m : mesh NumR) (nrm : vecR) (f h : nat) (l : list nat) (bound : R).
Hypothesis W : WF m.
Hypothesis Un : dot nrm nrm = 1.
Hypothesis FA : FlatAround nrm m f.
Hypothesis If : In f (m_faces m).
Hypothesis Eh : f_he m f = Some h.
Hypothesis Rg : Fring m f (h :: l).
Hypothesis L3 : (3 <= length (h :: l))%nat.
Let ring := h :: l.
Variable bs : list nat.
Hypothesis RB : map (h_src m) ring = map Some bs.
Let n := length bs.
Let p (i : nat) : vecR := v_pos m (nth i bs 0%nat).
Hypothesis UF : Unfolded nrm p 0 (n - 1).

Lemma fl_len : length ring = n.
Proof. rewrite <- (map_length (h_src m) ring), RB, map_length. reflexivity. Qed.
Lemma fl_corner j : (j < n)%nat -> exists y, nth_error ring j = Some y /\ In y (m_hes m) /\ h_face m y = Some f /\ h_src m y = Some (nth j bs 0%nat) /\ In (nth j bs 0%nat) (m_verts m).
Proof.
  intros L. destruct (nth_error ring j) as [y|] eqn:E; [|apply nth_error_None in E; rewrite fl_len in E; lia]. exists y. split; [reflexivity|].
  assert (Iy : In y (m_hes m) /\ h_face m y = Some f) by (destruct Rg as (_ & _ & R); apply R, (nth_error_In _ _ E)). destruct Iy as [Iy Fy]. split; [exact Iy|]. split; [exact Fy|].
  assert (Q : h_src m y = Some (nth j bs 0%nat)). { assert (X := map_nth_error (h_src m) j ring E). rewrite RB in X. assert (Y := map_nth_error (@Some nat) j bs (nth_error_nth' bs 0%nat L)). assert (K := eq_trans (eq_sym X) Y). injection K as K. exact K. }
  split; [exact Q|]. destruct (wf_src m W y Iy) as (s & Es & Is). rewrite Q in Es. injection Es as ->. exact Is.
Qed.
Lemma fl_pos i : (i < n)%nat -> b_pos (map Some bs) i m = Ok (p i, m).
Proof.
  intros L. unfold b_pos, at_. rewrite nth_error_map, (nth_error_nth' bs 0%nat L). cbn [option_map]. unfold bind, ret. destruct (fl_corner i L) as (_ & _ & _ & _ & _ & I). apply (pos_read m _ W I).
Qed.
Lemma ring_next j y : (j + 1 < n)%nat -> nth_error ring j = Some y -> exists z, nth_error ring (j + 1) = Some z /\ h_next m y = Some z.
Proof.
  intros L E. destruct (nth_error ring (j + 1)) as [z|] eqn:E'; [|apply nth_error_None in E'; rewrite fl_len in E'; lia]. exists z. split; [reflexivity|]. destruct Rg as (C & _ & _). cbn [cyc] in C. fold ring in C. 
  apply nth_error_split in E as (l1 & l2 & Er & Ll). rewrite Er in E'. rewrite nth_error_app2 in E' by lia. replace (j + 1 - length l1)%nat with 1%nat in E' by lia. cbn [nth_error] in E'. destruct l2 as [|z' l2]; [discriminate|]. cbn in E'. injection E' as ->.
  unfold ring in Er. destruct l1 as [|x l1]; cbn [app] in Er; injection Er as -> ->.
  - cbn [chainto] in C. apply C.
  - rewrite !chainto_app in C. cbn [chainto] in C. tauto.
Qed.

(** What lies behind the edges. *)
Lemma fl_behind j : (j + 1 < n)%nat -> exists q : vecR, (forall y, nth_error ring j = Some y -> opposite (Some y) m = Ok (q, m)) /\ faces_up nrm (p (j + 1)%nat) (p j) q.
Proof.
  intros L. destruct (fl_corner j ltac:(lia)) as (y & Ey & Iy & Fy & Sy & _). destruct (ring_next j y L Ey) as (z & Ez & Nz). destruct (fl_corner (j + 1) L) as (z' & Ez' & Iz & _ & Sz & _). rewrite Ez in Ez'. injection Ez' as <-.
  destruct (wf_rev m W y Iy) as (r & Er & Ir). assert (Sr : h_src m r = Some (nth (j + 1) bs 0%nat)) by (rewrite <- (wf_dst m W y z r Iy Nz Er); exact Sz).
  destruct (FA y r _ _ Iy Fy Er Sr Sy) as (g & a & Fg & _ & T & U). exists (v_pos m a). split; [|exact U]. intros y' Ey'. rewrite Ey in Ey'. injection Ey' as <-.
  destruct T as (x1 & x2 & x3 & M & N1 & N2 & N3 & S1 & S2 & S3).
  assert (NE : nth (j + 1) bs 0%nat <> nth j bs 0%nat /\ a <> nth (j + 1) bs 0%nat).
  { destruct U as (s & Ps & E). assert (K : forall x : vecR, vscale s nrm = x -> x <> vzero). { intros x <- K. apply (f_equal (fun x => dot x nrm)) in K. rewrite dot_scale, Un, dot_vz in K. lra. }
    split; intros K1; [|]; rewrite K1, vsub_self in E; symmetry in E; apply K in E; apply E; [apply id_zc|apply id_cz]. }
  assert (r = x1) as ->. { destruct (proj1 (M r) (conj Ir Fg)) as [-> | [-> | ->]]; [reflexivity| |]; exfalso; [rewrite S2 in Sr; injection Sr as Sr; destruct NE; congruence|rewrite S3 in Sr; injection Sr as Sr; destruct NE; congruence]. }
  assert (I2 : In x2 (m_hes m)) by (apply (proj2 (M x2)); auto). assert (I3 : In x3 (m_hes m)) by (apply (proj2 (M x3)); auto).
  destruct (wf_rev m W x2 I2) as (r2 & Er2 & Ir2). assert (Sr2 : h_src m r2 = Some a) by (rewrite <- (wf_dst m W x2 x3 r2 I2 N2 Er2); exact S3).
  unfold opposite, bind. rewrite (r_rev m y (h_alive m W y Iy)), Er, (r_next m x1 (h_alive m W x1 Ir)), N1, (dst_ok m W x2 r2 I2 Er2), Sr2. apply (pos_read m a W).
  destruct (wf_src m W x3 I3) as (v & Ev & Iv). rewrite S3 in Ev. injection Ev as ->. exact Iv.
Qed.
Lemma fl_plane i : (i < n)%nat -> dot (vsub (p i) (p 0%nat)) nrm = 0.
Proof.
  induction i as [|i IH]; intros L; [rewrite vsub_self; apply dot_vz|]. destruct (fl_behind i ltac:(lia)) as (q & _ & s & Ps & E). rewrite Nat.add_1_r in E.
  assert (K : dot (cross (vsub (p i) (p (S i))) (vsub q (p (S i)))) (vsub (p i) (p (S i))) = 0) by apply cross_orth1. rewrite E, dot_scale in K.
  assert (K' : dot (vsub (p i) (p (S i))) nrm = 0) by (rewrite dot_sym; apply Rmult_integral in K as [K | K]; [lra|exact K]). assert (I0 := IH ltac:(lia)). rewrite (id_sub (p i) (p (S i)) (p 0%nat)), I0 in K'.
  apply Rminus_diag_uniq in K'. symmetry. exact K'.
Qed.
Lemma fl_q : exists q : nat -> vecR, forall j, (j + 1 < n)%nat -> (forall y, nth_error ring j = Some y -> opposite (Some y) m = Ok (q j, m)) /\ faces_up nrm (p (j + 1)%nat) (p j) (q j).
Proof.
  assert (K : forall k, exists q : nat -> vecR, forall j, (j < k)%nat -> (j + 1 < n)%nat -> (forall y, nth_error ring j = Some y -> opposite (Some y) m = Ok (q j, m)) /\ faces_up nrm (p (j + 1)%nat) (p j) (q j)).
  { induction k as [|k (q & IH)]; [exists (fun _ => vzero); intros j L; lia|]. destruct (le_lt_dec n (k + 1)) as [L | L]; [exists q; intros j L1 L2; apply IH; lia|]. destruct (fl_behind k L) as (x & Hx).
    exists (fun j => if (j =? k)%nat then x else q j). intros j L1 L2. destruct (Nat.eqb_spec j k) as [-> | Ne]; [exact Hx|apply IH; lia]. }
  destruct (K n) as (q & H). exists q. intros j L. apply H; lia.
Qed.
Theorem one_flat : exists ts fs he m', holeFillMinDihedral (N := NumR) cabs (Some f) bound m = Ok (tt, m') /\ Tree (length ring) ts /\ Filled m f ring bs ts fs he m' /\
  forall i c k, In (i, c, k) ts -> faces_up nrm (p i) (p c) (p k).
Proof.
  destruct (hole_filled_by (N := NumR) cabs m f h l bound W If Eh Rg L3) as (bs' & ts & fs & he & m' & RUN & RB' & TR & FL & em & t & Em & Ft & Fq).
  assert (bs' = bs) as ->. { fold ring in RB'. rewrite RB in RB'. clear - RB'. revert bs' RB'. induction bs as [|x xs IH]; intros [|y ys] E; try discriminate; [reflexivity|]. cbn [map] in E. injection E as -> E. f_equal. apply IH, E. }
  exists ts, fs, he, m'. split; [exact RUN|]. split; [exact TR|]. split; [exact FL|]. destruct fl_q as (q & Hq).
  assert (HQ : forall j, (j + 1 < n)%nat -> opposite (em j (j + 1)%nat) m = Ok (q j, m)). { intros j L. rewrite (Em j L). destruct (fl_corner j ltac:(lia)) as (y & Ey & _). fold ring. rewrite Ey. apply (Hq j L), Ey. }
  assert (N3 : (3 <= n)%nat) by (rewrite <- fl_len; exact L3).
  destruct (tables_flat cabs m (map Some bs) em bound n p q fl_pos HQ nrm Un fl_plane (fun j L => proj2 (Hq j L)) N3) as (t' & Ft' & Cells). unfold n in Ft'. rewrite Ft in Ft'. injection Ft' as <-.
  refine (queue_flat n p nrm Un fl_plane t m Cells n [(0, n - 1)%nat] [] ts _ _ Fq).
  - intros i k [[= <- <-] | []]. split; [lia|]. split; [lia|exact UF].
  - intros i c k [].
Qed.
End One.

(** ** All holes *)
Lemma tri_keep (m : mesh NumR) hs gs m' g a b c : WF m -> Filling m hs gs m' -> In g (m_faces m) -> ~ In g hs -> Tri m g a b c -> Tri m' g a b c.
Proof.
  intros W F Ig Ng (x & y & z & M & N1 & N2 & N3 & S1 & S2 & S3). destruct (ring_keep m hs gs m' g [] W F Ig Ng) as [K _]. exists x, y, z.
  assert (SM : forall h, h = x \/ h = y \/ h = z -> SameHE m m' h). { intros k Hk. apply M in Hk as [Ik Fk]. exact (fw_same _ _ _ _ (fg_with _ _ _ _ F) k g Ik Fk Ng). }
  destruct (SM x (or_introl eq_refl)) as (A1 & A2 & _). destruct (SM y (or_intror (or_introl eq_refl))) as (B1 & B2 & _). destruct (SM z (or_intror (or_intror eq_refl))) as (C1 & C2 & _).
  split; [intros k; rewrite K; apply M|]. repeat split; congruence.
Qed.
Lemma flat_keep (m : mesh NumR) hs gs m' nrm f : WF m -> Filling m hs gs m' -> (forall g, In g hs -> Hole m g) -> In f (m_faces m) -> ~ In f hs -> FlatHole nrm m f -> FlatHole nrm m' f.
Proof.
  intros W F HH If Nf (Un & FA & ring & bs & C & UF). assert (FW := fg_with _ _ _ _ F). destruct (fw_verts _ _ _ _ FW) as (_ & EP & _). destruct (ring_keep m hs gs m' f ring W F If Nf) as [K KR].
  split; [exact Un|]. split.
  - intros y r u w Iy Fy Er Sw Su. destruct (proj1 (K y) (conj Iy Fy)) as [Iy0 Fy0]. destruct (fw_hes _ _ _ _ FW y Iy0) as (_ & E1 & E2). destruct (wf_rev m W y Iy0) as (r0 & Er0 & Ir0). assert (r0 = r) as -> by congruence.
    destruct (fw_hes _ _ _ _ FW r Ir0) as (_ & E3 & _). destruct (FA y r u w Iy0 Fy0 Er0) as (g & a & Fg & NH & T & U); [congruence|congruence|]. assert (Ng : ~ In g hs) by (intros X; apply NH, HH, X).
    assert (Ig : In g (m_faces m)). { destruct (wf_face m W r Ir0) as (g' & Eg & Ig). assert (g' = g) as -> by congruence. exact Ig. }
    exists g, a. destruct (fw_same _ _ _ _ FW r g Ir0 Fg Ng) as (_ & _ & _ & EF & _). split; [congruence|]. split.
    + intros [_ X]. apply NH. split; [exact Ig|]. intros k Ik Fk. destruct (fw_same _ _ _ _ FW k g Ik Fk Ng) as (_ & _ & _ & EFk & EB). rewrite <- EB. apply X; [apply (fw_hes _ _ _ _ FW k Ik)|congruence].
    + split; [exact (tri_keep m hs gs m' g w u a W F Ig Ng T)|rewrite EP; exact U].
  - exists ring, bs. split; [|rewrite EP; exact UF]. apply corners_ring in C as [C CB]. apply corners_ring. split; [apply KR, C|]. rewrite <- CB. apply map_ext_in. intros y Iy. destruct C as (_ & _ & C). apply C in Iy as [Iy _]. apply (fw_hes _ _ _ _ FW y Iy).
Qed.
Lemma patch_up (m : mesh NumR) nrm f ring bs ts fs he m' : WF m -> In f (m_faces m) -> Fring m f ring -> map (h_src m) ring = map Some bs -> (3 <= length ring)%nat -> Tree (length ring) ts -> Filled m f ring bs ts fs he m' ->
  (forall i c k, In (i, c, k) ts -> faces_up nrm (v_pos m (nth i bs 0%nat)) (v_pos m (nth c bs 0%nat)) (v_pos m (nth k bs 0%nat))) ->
  forall g, In g fs -> exists a b c, Tri m' g a b c /\ faces_up nrm (v_pos m a) (v_pos m b) (v_pos m c).
Proof.
  intros W If R RB L3 TR FL U g Ig. assert (F1 := filled_one m f ring bs ts fs he m' W If R RB L3 TR FL). assert (P := fw_patch _ _ _ _ (fg_with _ _ _ _ F1)). inversion P as [|? ? ? ? P1 _]; subst.
  destruct P1 as (ring' & bs' & _ & _ & _ & PT & _). destruct (PT g Ig) as (_ & (_ & _ & _ & a & b & c & _ & _ & _ & _ & _ & T) & _). exists a, b, c. split; [exact T|].
  destruct (forall2_in_r _ _ _ _ (fl_tri _ _ _ _ _ _ _ _ FL) Ig) as ([[i j] k] & It & _ & h0 & h1 & h2 & X0 & X1 & X2 & S0 & S1 & S2 & N0 & N1 & N2 & F0 & _).
  destruct (tr_rng _ _ TR i j k It) as [B Lk]. assert (LB : length bs = length ring) by (rewrite <- (map_length (h_src m) ring), RB, map_length; reflexivity).
  rewrite (nth_error_nth' bs (n := i) 0%nat) in S0 by lia. rewrite (nth_error_nth' bs (n := j) 0%nat) in S1 by lia. rewrite (nth_error_nth' bs (n := k) 0%nat) in S2 by lia. assert (UP := U i j k It). assert (I0 : In h0 (m_hes m')).
  { apply (w_he_in m f ring bs ts fs he m' R L3 TR FL i j h0); [|exact X0]. apply in_flat_map. exists (i, j, k). split; [exact It|left; reflexivity]. }
  destruct T as (x & y & z & M & E1 & E2 & E3 & T1 & T2 & T3).
  destruct (proj1 (M h0) (conj I0 F0)) as [-> | [-> | ->]].
  - assert (h1 = y) as -> by congruence. assert (h2 = z) as -> by congruence. assert (a = nth i bs 0%nat) as -> by congruence. assert (b = nth j bs 0%nat) as -> by congruence. assert (c = nth k bs 0%nat) as -> by congruence. exact UP.
  - assert (h1 = z) as -> by congruence. assert (h2 = x) as -> by congruence. assert (b = nth i bs 0%nat) as -> by congruence. assert (c = nth j bs 0%nat) as -> by congruence. assert (a = nth k bs 0%nat) as -> by congruence. apply up_cyc, up_cyc, UP.
  - assert (h1 = x) as -> by congruence. assert (h2 = y) as -> by congruence. assert (c = nth i bs 0%nat) as -> by congruence. assert (a = nth j bs 0%nat) as -> by congruence. assert (b = nth k bs 0%nat) as -> by congruence. apply up_cyc, UP.
Qed.
Section Top.
Variable cabs : R -> R.
(** The polygon as the program sees it. *)
Lemma flat_ring (m : mesh NumR) nrm f h : WF m -> FlatHole nrm m f -> In h (m_hes m) -> h_face m h = Some f ->
  exists l bs, Fring m f (h :: l) /\ map (h_src m) (h :: l) = map Some bs /\ ((3 <= length (h :: l))%nat -> Unfolded nrm (fun i => v_pos m (nth i bs 0%nat)) 0 (length bs - 1)).
Proof.
  intros W (_ & _ & ring & bs & C & UF) Ih Fh. apply corners_ring in C as [RG RB].
  assert (Ir : In h ring) by (apply RG; auto). apply in_split in Ir as (l1 & l2 & ->). rewrite map_app in RB.
  assert (SP : exists b1 b2, bs = b1 ++ b2 /\ map (h_src m) l1 = map Some b1 /\ map (h_src m) (h :: l2) = map Some b2).
  { clear - RB. revert bs RB. induction l1 as [|x l1 IH]; intros bs RB; [exists [], bs; auto|]. destruct bs as [|b bs]; [discriminate|]. cbn [map app] in RB. injection RB as E RB. destruct (IH bs RB) as (b1 & b2 & -> & E1 & E2). exists (b :: b1), b2. split; [reflexivity|]. split; [cbn [map]; f_equal; assumption|exact E2]. }
  destruct SP as (b1 & b2 & -> & E1 & E2). exists (l2 ++ l1), (b2 ++ b1).
  assert (RO : Fring m f (h :: l2 ++ l1)).
  { destruct RG as (C & ND & M). split; [destruct l1 as [|x l1]; cbn [app] in *; [rewrite app_nil_r; exact C|apply cyc_rot, C]|]. split.
    - apply (Permutation.Permutation_NoDup (Permutation.Permutation_app_comm l1 (h :: l2)) ND).
    - intros y. rewrite <- M, app_comm_cons, !in_app_iff. tauto. }
  split; [exact RO|]. split; [rewrite app_comm_cons, map_app, map_app; f_equal; assumption|]. intros L3. apply unf_rot; [|exact UF].
  assert (Q1 := f_equal (@length _) E1). assert (Q2 := f_equal (@length _) E2). rewrite !map_length in Q1, Q2. cbn [length] in L3, Q2. rewrite app_length in *. lia.
Qed.
(** One hole, with any bound. *)
Theorem hole_flat (m : mesh NumR) nrm f bound : WF m -> (forall ring, Fring m f ring -> (3 <= length ring)%nat) -> In f (m_faces m) -> FlatHole nrm m f -> exists gs m', holeFillMinDihedral (N := NumR) cabs (Some f) bound m = Ok (tt, m') /\ Filling m [f] [gs] m' /\
  forall g, In g gs -> exists a b c, Tri m' g a b c /\ faces_up nrm (v_pos m' a) (v_pos m' b) (v_pos m' c).
Proof.
  intros W A3 If FH. destruct (wf_fhe m W f If) as (h & Eh & Ih & Fh). destruct (flat_ring m nrm f h W FH Ih Fh) as (l & bs & R & RB & UF). assert (L3 := A3 _ R). specialize (UF L3).
  destruct FH as (Un & FA & _). destruct (one_flat cabs m nrm f h l bound W Un FA If Eh R L3 bs RB UF) as (ts & fs & he & m' & RUN & TR & FL & U). exists fs, m'. split; [exact RUN|].
  assert (F1 := filled_one m f (h :: l) bs ts fs he m' W If R RB L3 TR FL). split; [exact F1|]. destruct (fw_verts _ _ _ _ (fg_with _ _ _ _ F1)) as (_ & -> & _). exact (patch_up m nrm f (h :: l) bs ts fs he m' W If R RB L3 TR FL U).
Qed.
Definition Upw (m m' : mesh NumR) (f : nat) (fs : list nat) : Prop := forall nrm, FlatHole nrm m f -> forall g, In g fs -> exists a b c, Tri m' g a b c /\ faces_up nrm (v_pos m' a) (v_pos m' b) (v_pos m' c).
Lemma upw_one (m : mesh NumR) f fs m' : WF m -> (forall ring, Fring m f ring -> (3 <= length ring)%nat) -> In f (m_faces m) -> holeFillMinDihedral (N := NumR) cabs (Some f) PI m = Ok (tt, m') -> Filling m [f] [fs] m' -> Upw m m' f fs.
Proof.
  intros W A3 If RUN F nrm FH g Ig. destruct (hole_flat m nrm f PI W A3 If FH) as (gs & m2 & RUN2 & F2 & U). rewrite RUN in RUN2. injection RUN2 as <-. apply U.
  assert (FW := fg_with _ _ _ _ F). assert (FW2 := fg_with _ _ _ _ F2). assert (Ig' : In g (concat [fs])) by (cbn [concat]; rewrite app_nil_r; exact Ig).
  assert (Im : In g (m_faces m')) by (apply (fw_faces _ _ _ _ FW); right; exact Ig'). apply (fw_faces _ _ _ _ FW2) in Im as [[Im _] | Im]; [|cbn [concat] in Im; rewrite app_nil_r in Im; exact Im].
  exfalso. exact (proj2 (fw_new _ _ _ _ FW) g Ig' Im).
Qed.
Lemma hole_keep (m : mesh NumR) hs gs m' f : WF m -> Filling m hs gs m' -> ~ In f hs -> Hole m f -> Hole m' f.
Proof.
  intros W F Nf [If H]. destruct (ring_keep m hs gs m' f [] W F If Nf) as [K _]. split; [apply (fw_faces _ _ _ _ (fg_with _ _ _ _ F)); left; auto|].
  intros h Ih Fh. destruct (proj1 (K h) (conj Ih Fh)) as [Ih0 Fh0]. destruct (fw_same _ _ _ _ (fg_with _ _ _ _ F) h f Ih0 Fh0 Nf) as (_ & _ & _ & _ & EB). rewrite EB. apply H; assumption.
Qed.
Lemma flat_loop : forall is hs (m : mesh NumR), WF m -> NoDup hs -> Forall2 (fun i f => nth_error (m_faces m) i = Some f) is hs -> (forall f, In f hs -> Hole m f) -> (forall f ring, In f hs -> Fring m f ring -> (3 <= length ring)%nat) ->
  exists gs m', mfor is (fun i => bind (mesh_face (Z.of_nat i)) (fun f => triangulate (N := NumR) cabs f)) m = Ok (tt, m') /\ Filling m hs gs m' /\ Forall2 (Upw m m') hs gs.
Proof.
  induction is as [|i is IH]; intros hs m W ND Q HH A3; inversion Q as [|? f ? hs' X Q' E1 E2]; subst.
  - exists [], m. split; [reflexivity|]. split; [apply filling_nil, W|constructor].
  - inversion ND as [|? ? NI ND']; subst. assert (If := nth_error_In _ _ X). destruct (fring m W f If) as (h & l & Eh & R). assert (L3 := A3 f _ (or_introl eq_refl) R).
    destruct (hole_filled (N := NumR) cabs m f h l PI W If Eh R L3) as (bs & ts & fs & he & m1 & RUN & RB & TR & FL).
    assert (F1 := filled_one m f (h :: l) bs ts fs he m1 W If R RB L3 TR FL). assert (FW1 := fg_with _ _ _ _ F1). assert (W1 := fw_wf _ _ _ _ FW1). assert (U1 := upw_one m f fs m1 W (fun ring => A3 f ring (or_introl eq_refl)) If RUN F1).
    assert (HS : forall g, In g hs' -> In g (m_faces m) /\ ~ In g [f]).
    { intros g Ig. destruct (forall2_in_r _ _ _ _ Q' Ig) as (j & _ & Xj). split; [exact (nth_error_In _ _ Xj)|]. intros [<- | []]. exact (NI Ig). }
    assert (H1 : forall g, In g [f] -> Hole m g) by (intros g [<- | []]; apply HH; left; reflexivity).
    destruct (IH hs' m1) as (gs & m2 & RUN2 & F2 & U2).
    + exact W1.
    + exact ND'.
    + clear - Q' FW1 HS. assert (G : forall a b, Forall2 (fun i f => nth_error (m_faces m) i = Some f) a b -> (forall g, In g b -> ~ In g [f]) -> Forall2 (fun i f => nth_error (m_faces m1) i = Some f) a b).
      { intros a b K. induction K as [|x y a b Xy K IHK]; intros H; constructor; [apply (fw_kept _ _ _ _ FW1 x y Xy), H; left; reflexivity|apply IHK; intros; apply H; right; assumption]. }
      apply G; [exact Q'|intros g Ig; apply (HS g Ig)].
    + intros g Ig. apply (hole_keep m [f] [fs] m1 g W F1); [apply (HS g Ig)|apply HH; right; exact Ig].
    + intros g ring Ig Rg. destruct (HS g Ig) as [A B]. apply (A3 g ring (or_intror Ig)). apply (ring_keep m [f] [fs] m1 g ring W F1 A B), Rg.
    + exists (fs :: gs), m2. split; [|split; [apply (filling_cons m f fs m1 hs' gs m2 W NI (fun g K => proj1 (HS g K)) F1 F2)|constructor]].
      * cbn [mfor]. rewrite (bind_ok _ _ m tt m1); [exact RUN2|]. rewrite (bind_ok _ _ m (Some f) m); [exact RUN|]. rewrite mesh_face_eq, X. reflexivity.
      * intros nrm FH g Ig. destruct (U1 nrm FH g Ig) as (a & b & c & T & U). exists a, b, c. destruct (fw_verts _ _ _ _ (fg_with _ _ _ _ F2)) as (_ & -> & _). split; [|exact U].
        apply (tri_keep m1 hs' gs m2 g a b c W1 F2); [apply (fw_faces _ _ _ _ FW1); right; cbn [concat]; rewrite app_nil_r; exact Ig| |exact T].
        intros K. apply (proj2 (fw_new _ _ _ _ FW1) g); [cbn [concat]; rewrite app_nil_r; exact Ig|apply (HS g K)].
      * assert (HK : forall g, In g hs' -> In g hs') by auto. clear - U2 HS W F1 H1. induction U2 as [|g fs' hs' gs Ug U2 IHU]; constructor.
        -- destruct (HS g (or_introl eq_refl)) as [A B]. intros nrm FH. apply Ug. exact (flat_keep m [f] [fs] m1 nrm g W F1 H1 A B FH).
        -- apply IHU. intros k Ik. apply HS. right. exact Ik.
Qed.
Theorem fillHoles_flat (m : mesh NumR) : WF m -> AtLeast3 m -> exists gs m', fillHoles (N := NumR) cabs m = Ok (tt, m') /\ Filling m (filter (holeb m) (m_faces m)) gs m' /\ Forall2 (Upw m m') (filter (holeb m) (m_faces m)) gs.
Proof.
  intros W A. destruct (hole_indices_ok m W (m_faces m) [] eq_refl) as (is & R1 & R2).
  destruct (flat_loop is (filter (holeb m) (m_faces m)) m W) as (gs & m' & R3 & F); [apply NoDup_filter, W|exact R2|intros f I; apply filter_In in I as [I H]; apply holeb_iff; assumption|intros f ring _ R; exact (ring_ge3 m f ring A R)|].
  exists gs, m'. split; [|exact F]. unfold fillHoles. rewrite (bind_ok _ _ m (length (m_faces m)) m eq_refl), (bind_ok _ _ m is m R1). exact R3.
Qed.
End Top.
