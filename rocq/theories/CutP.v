(** Holes with four corners: which of the two ways to fill them is taken. *)
From Coq Require Import Reals Lra Lia List ZArith Arith Bool.
From Verif Require Import Num NumInst Vec VecR GeomSpec MeasureR MeasureM Heap Mesh Spec EditSpec Orbit Rings Exec SmoothP Wp Construct Fill FillD FillT FillO FillSpec FillQ FillW FillP FlatF FlatP CutSpec CutF.
Import ListNotations.
Local Open Scope R_scope.

Lemma beside_read (m : mesh NumR) f u w x h : Valid m -> In h (m_hes m) -> h_src m h = Some u -> dst_of m h = Some w -> Beside m f u w x -> opposite (Some h) m = Ok (v_pos m x, m).
Proof.
  intros V Ih Sh Dh (h' & r & g & Ih' & Fh' & Sh' & Er & Sr & Fr & T). assert (W := valid_wf m V).
  assert (h' = h) as ->. { apply (valid_noparallel m V h' h Ih' Ih); [congruence|]. unfold dst_of in *. rewrite Er. congruence. }
  destruct (wf_rev m W h Ih) as (r0 & Er0 & Ir). assert (r0 = r) as -> by congruence. destruct T as (x1 & x2 & x3 & M & N1 & N2 & N3 & S1 & S2 & S3).
  assert (L := valid_noloops m V). assert (DST : forall a b, In a (m_hes m) -> h_next m a = Some b -> h_src m a <> h_src m b).
  { intros a b Ia Eb K. apply (L a Ia). destruct (wf_rev m W a Ia) as (ra & Era & _). unfold dst_of. rewrite Era. rewrite <- (wf_dst m W a b ra Ia Eb Era). congruence. }
  assert (I1 : In x1 (m_hes m)) by (apply (proj2 (M x1)); auto). assert (I2 : In x2 (m_hes m)) by (apply (proj2 (M x2)); auto). assert (I3 : In x3 (m_hes m)) by (apply (proj2 (M x3)); auto).
  assert (r = x1) as ->. { destruct (proj1 (M r) (conj Ir Fr)) as [-> | [-> | ->]]; [reflexivity| |]; exfalso; [apply (DST x1 x2 I1 N1)|apply (DST x3 x1 I3 N3)]; congruence. }
  destruct (wf_rev m W x2 I2) as (r2 & Er2 & Ir2). assert (Sr2 : h_src m r2 = Some x) by (rewrite <- (wf_dst m W x2 x3 r2 I2 N2 Er2); exact S3).
  unfold opposite, bind. rewrite (r_rev m h (h_alive m W h Ih)), Er, (r_next m x1 (h_alive m W x1 Ir)), N1, (dst_ok m W x2 r2 I2 Er2), Sr2. apply (pos_read m x W).
  destruct (wf_src m W x3 I3) as (v & Ev & Iv). rewrite S3 in Ev. injection Ev as ->. exact Iv.
Qed.
Lemma patch_tri (m : mesh NumR) f ring bs ts fs he m' : WF m -> In f (m_faces m) -> Fring m f ring -> map (h_src m) ring = map Some bs -> (3 <= length ring)%nat -> Tree (length ring) ts -> Filled m f ring bs ts fs he m' ->
  Forall2 (fun t g => let '(i, j, k) := t in Tri m' g (nth i bs 0%nat) (nth j bs 0%nat) (nth k bs 0%nat)) ts fs.
Proof.
  intros W If R RB L3 TR FL. assert (F1 := filled_one m f ring bs ts fs he m' W If R RB L3 TR FL). assert (P := fw_patch _ _ _ _ (fg_with _ _ _ _ F1)). inversion P as [|? ? ? ? P1 _]; subst. clear P.
  destruct P1 as (ring' & bs' & _ & _ & _ & PT & _). assert (LB : length bs = length ring) by (rewrite <- (map_length (h_src m) ring), RB, map_length; reflexivity).
  assert (K := fl_tri _ _ _ _ _ _ _ _ FL). assert (IT : forall t, In t ts -> In t ts) by auto. assert (IG : forall g, In g fs -> In g fs) by auto. revert K IT IG. generalize ts at 1 2 4 as ts1. generalize fs at 1 2 4 as fs1. intros fs1 ts1 K. induction K as [|[[i j] k] g ts1 fs1 X K IH]; intros IT IG; constructor; [|apply IH; intros; [apply IT|apply IG]; right; assumption].
  assert (It := IT _ (or_introl eq_refl)). assert (Ig := IG _ (or_introl eq_refl)). destruct X as (_ & h0 & h1 & h2 & X0 & X1 & X2 & S0 & S1 & S2 & N0 & N1 & N2 & F0 & _).
  destruct (PT g Ig) as (_ & (_ & _ & _ & a & b & c & _ & _ & _ & _ & _ & T) & _). destruct (tr_rng _ _ TR i j k It) as [B Lk].
  rewrite (nth_error_nth' bs (n := i) 0%nat) in S0 by lia. rewrite (nth_error_nth' bs (n := j) 0%nat) in S1 by lia. rewrite (nth_error_nth' bs (n := k) 0%nat) in S2 by lia. assert (I0 : In h0 (m_hes m')).
  { apply (w_he_in m f ring bs ts fs he m' R L3 TR FL i j h0); [|exact X0]. apply in_flat_map. exists (i, j, k). split; [exact It|left; reflexivity]. }
  destruct T as (x & y & z & M & E1 & E2 & E3 & T1 & T2 & T3). exists h0, h1, h2. split; [|auto 8]. intros y'. rewrite M.
  destruct (proj1 (M h0) (conj I0 F0)) as [-> | [-> | ->]].
  - assert (h1 = y) as -> by congruence. assert (h2 = z) as -> by congruence. tauto.
  - assert (h1 = z) as -> by congruence. assert (h2 = x) as -> by congruence. tauto.
  - assert (h1 = x) as -> by congruence. assert (h2 = y) as -> by congruence. tauto.
Qed.
Section One.
Variables (cabs : R -> R) (m : mesh NumR) (f h : nat) (l : list nat) (a b c d x y z : nat) (bound : R).
Hypotheses (V : Valid m) (If : In f (m_faces m)) (Eh : f_he m f = Some h) (Rg : Fring m f (h :: l)) (RB : map (h_src m) (h :: l) = map Some [a; b; c; d]).
Hypotheses (Bx : Beside m f a b x) (By : Beside m f b c y) (Bz : Beside m f c d z).
Let ring := h :: l.
Let bs := [a; b; c; d].
Let W := valid_wf m V.
Let p (i : nat) : vecR := v_pos m (nth i bs 0%nat).
Let q (i : nat) : vecR := v_pos m (nth i [x; y; z] 0%nat).
Theorem cut_four : exists g1 g2 m', holeFillMinDihedral (N := NumR) cabs (Some f) bound m = Ok (tt, m') /\ FilledWith m [f] [[g1; g2]] m' /\
  if second cabs bound p q then Tri m' g1 a c d /\ Tri m' g2 a b c else Tri m' g1 a b d /\ Tri m' g2 b c d.
Proof.
  assert (L4 : length ring = 4%nat) by (unfold ring; rewrite <- (map_length (h_src m) (h :: l)), RB; reflexivity). assert (L3 : (3 <= length ring)%nat) by lia.
  destruct (hole_filled_by (N := NumR) cabs m f h l bound W If Eh Rg L3) as (bs' & ts & fs & he & m' & RUN & RB' & TR & FL & em & t & Em & Ft & Fq).
  assert (bs' = bs) as ->. { rewrite RB in RB'. fold bs in RB'. clear - RB'. revert bs' RB'. induction bs as [|x1 xs IH]; intros [|y1 ys] E; try discriminate; [reflexivity|]. cbn [map] in E. injection E as -> E. f_equal. apply IH, E. }
  assert (HP : forall i, (i < 4)%nat -> b_pos (map Some bs) i m = Ok (p i, m)) by (intros i L; apply (fl_pos m f h l W Rg L3 bs RB); exact L).
  assert (HQ : forall j, (j + 1 < 4)%nat -> opposite (em j (j + 1)%nat) m = Ok (q j, m)).
  { intros j L. rewrite (Em j L). destruct (fl_corner m f h l W Rg L3 bs RB j) as (e & Ee & Ie & Fe & Se & _); [cbn; lia|]. destruct (ring_next cabs m f h l bound Eh Rg L3 bs RB j e) as (e' & Ee' & Ne); [cbn; lia|exact Ee|].
    destruct (fl_corner m f h l W Rg L3 bs RB (j + 1)) as (e1 & Ee1 & Ie1 & _ & Se1 & _); [cbn; lia|]. assert (e1 = e') as -> by congruence. destruct (wf_rev m W e Ie) as (r & Er & _).
    assert (De : dst_of m e = Some (nth (j + 1) bs 0%nat)) by (unfold dst_of; rewrite Er, <- (wf_dst m W e e' r Ie Ne Er); exact Se1). rewrite Ee.
    apply (beside_read m f (nth j bs 0%nat) (nth (j + 1) bs 0%nat) (nth j [x; y; z] 0%nat) e V Ie Se De). destruct j as [|[|[|j]]]; [exact Bx|exact By|exact Bz|lia]. }
  destruct (tables_four cabs m (map Some bs) em bound p q HP HQ) as (t' & Ft' & O2 & O3 & O). change (length bs) with 4%nat in *. rewrite Ft in Ft'. injection Ft' as <-.
  assert (PT := patch_tri m f ring bs ts fs he m' W If Rg RB L3 TR FL). assert (F1 := filled_one m f ring bs ts fs he m' W If Rg RB L3 TR FL).
  assert (TS : ts = if second cabs bound p q then [(0, 2, 3); (0, 1, 2)]%nat else [(0, 1, 3); (1, 2, 3)]%nat).
  { revert Fq. cbn [Nat.sub fill_queue]. unfold o_at. cbn [Nat.ltb Nat.leb andb]. unfold bind. rewrite O. destruct (second cabs bound p q); cbn [ret later Nat.add Nat.eqb app fill_queue]; unfold o_at; cbn [Nat.ltb Nat.leb andb]; unfold bind; [rewrite O2|rewrite O3]; cbn [ret later Nat.add Nat.eqb app fill_queue]; intros K; injection K as <-; reflexivity. }
  rewrite TS in PT. destruct (second cabs bound p q); inversion PT as [|? g1 ? fs1 G1 PT1]; subst; inversion PT1 as [|? g2 ? fs2 G2 PT2]; subst; inversion PT2; subst; exists g1, g2, m'; (split; [exact RUN|]); (split; [exact (fg_with _ _ _ _ F1)|]); split; assumption.
Qed.
End One.
