(** denoiseL0Smooth moves locked vertices. *)
From Coq Require Import Reals Lra Bool List ZArith Arith Lia Permutation.
From Verif Require Import Num NumInst Vec VecR Heap Mesh Construct Spec BuildSpec GeomSpec Orbit Rings Queries Measure MeasureM Means MeasureR Diamond SmoothSpec Smooth SmoothP SmoothD SmoothR Lapl LaplSpec LaplP LaplM FilterSpec SmoothF Witness ExamplesR RegTet Fair FairW LinR L0 L0Spec L0P L0T.
Import ListNotations.
Local Open Scope R_scope.

Lemma sqlen_nonneg (v : vecR) : 0 <= sqlen v.
Proof. destruct v as [a b c]. unfold sqlen. rn. assert (0 <= a * a) by apply Rle_0_sqr. assert (0 <= b * b) by apply Rle_0_sqr. assert (0 <= c * c) by apply Rle_0_sqr. lra. Qed.
Lemma comb_scale (m : mesh NumR) k P t h : comb m k (fun v => vscale t (P v)) h = vscale t (comb m k P h).
Proof. unfold comb, lin4. destruct k as [[[k1 k2] k3] k4]. generalize (P (c1 m h)), (P (c2 m h)), (P (c3 m h)), (P (c4 m h)). intros. vring. Qed.
(** A minimum at the given positions is impossible unless the regularity term vanishes there. *)
Lemma round_moves (m : mesh NumR) hs K P lam al be : 0 < al -> 0 <= be -> 0 < total (map (fun h => sqlen (comb m (1, -1, 1, -1) P h)) hs) -> ~ l0_round m hs K P lam al be P P.
Proof.
  intros Hal Hbe HA (dl & H1 & H2). set (A := total (map (fun h => sqlen (comb m (1, -1, 1, -1) P h)) hs)) in *.
  set (C := total (map (fun v => sqlen (P v)) (m_verts m)) + be * total (map (fun h => sqlen (comb m (K h) P h)) hs)).
  assert (HC : 0 <= C). { unfold C. assert (0 <= total (map (fun v => sqlen (P v)) (m_verts m))) by (apply rsum_nonneg; intros; apply sqlen_nonneg). assert (0 <= be * total (map (fun h => sqlen (comb m (K h) P h)) hs)) by (apply Rmult_le_pos; [exact Hbe|apply rsum_nonneg; intros; apply sqlen_nonneg]). lra. }
  assert (PA : 0 < al * A) by (apply Rmult_lt_0_compat; assumption). set (s := al * A / (C + al * A)).
  assert (Hs : 0 < s <= 1). { unfold s. split; [apply Rdiv_lt_0_compat; lra|]. apply Rmult_le_reg_r with (C + al * A); [lra|]. unfold Rdiv. rewrite Rmult_assoc, Rinv_l by lra. lra. }
  assert (Es : s * (C + al * A) = al * A) by (unfold s; field; lra).
  destruct (H2 (fun v => vscale (1 - s) (P v))) as [Le _]. unfold energy in Le.
  assert (T0 : total (map (fun v => sqlen (vsub (P v) (P v))) (m_verts m)) = 0 * total (map (fun v => sqlen (P v)) (m_verts m))).
  { unfold total. rewrite <- (rsum_scal 0 (fun v => sqlen (P v))). apply rsum_ext. intros v _. destruct (P v). unfold sqlen, vsub, vadd, vneg. rn. ring. }
  assert (T1 : total (map (fun v => sqlen (vsub (vscale (1 - s) (P v)) (P v))) (m_verts m)) = s * s * total (map (fun v => sqlen (P v)) (m_verts m))).
  { unfold total. rewrite <- (rsum_scal (s * s) (fun v => sqlen (P v))). apply rsum_ext. intros v _. destruct (P v). unfold sqlen, vsub, vadd, vneg, Vec.vscale. rn. ring. }
  assert (T2 : total (map (fun h => sqlen (comb m (1, -1, 1, -1) (fun v => vscale (1 - s) (P v)) h)) hs) = (1 - s) * (1 - s) * A).
  { unfold total, A. unfold total. rewrite <- (rsum_scal ((1 - s) * (1 - s)) (fun h => sqlen (comb m (1, -1, 1, -1) P h))). apply rsum_ext. intros h _. rewrite comb_scale. destruct (comb m (1, -1, 1, -1) P h). unfold sqlen, Vec.vscale. rn. ring. }
  assert (T3 : total (map (fun h => sqlen (vsub (comb m (K h) (fun v => vscale (1 - s) (P v)) h) (dl h))) hs) <= total (map (fun h => sqlen (vsub (comb m (K h) P h) (dl h))) hs) + s * s * total (map (fun h => sqlen (comb m (K h) P h)) hs)).
  { clearbody s. clear - H1 Hs. unfold total. induction hs as [|h l IH]; [cbn; lra|]. cbn [map fold_right]. assert (IH' := IH (fun h Hh => H1 h (or_intror Hh))). destruct (H1 h (or_introl eq_refl)) as [Z Y]. cbv zeta in Z, Y. rewrite comb_scale.
    assert (G : sqlen (vsub (vscale (1 - s) (comb m (K h) P h)) (dl h)) <= sqlen (vsub (comb m (K h) P h) (dl h)) + s * s * sqlen (comb m (K h) P h)); [|lra].
    assert (Q := sqlen_nonneg (comb m (K h) P h)). destruct (Rlt_dec (sqlen (comb m (K h) P h)) (lam / be)) as [Lt|Ge].
    - rewrite (Z Lt). clear - Q Hs. destruct (comb m (K h) P h) as [a b c]. unfold sqlen, vsub, vadd, vneg, Vec.vscale, vzero, vfill in *. rn.
      set (q := a * a + b * b + c * c) in *. replace ((a * (1 - s) + - 0) * (a * (1 - s) + - 0) + (b * (1 - s) + - 0) * (b * (1 - s) + - 0) + (c * (1 - s) + - 0) * (c * (1 - s) + - 0)) with (q - (2 * s - s * s) * q) by (unfold q; ring).
      replace ((a + - 0) * (a + - 0) + (b + - 0) * (b + - 0) + (c + - 0) * (c + - 0)) with q by (unfold q; ring). assert (0 <= s * q) by (apply Rmult_le_pos; lra). replace ((2 * s - s * s) * q) with (2 * (s * q) - s * s * q) by ring. lra.
    - rewrite Y by lra. destruct (comb m (K h) P h) as [a b c]. unfold sqlen, vsub, vadd, vneg, Vec.vscale in *. rn. right. ring. }
  rewrite T0, T1, T2 in Le. fold A in Le.
  assert (T4 := Rmult_le_compat_l be _ _ Hbe T3). rewrite Rmult_plus_distr_l in T4.
  assert (X : al * ((1 - s) * (1 - s) * A) = al * A - 2 * s * (al * A) + s * s * (al * A)) by ring.
  assert (F : 2 * s * (al * A) <= s * s * (C + al * A)). { unfold C. rewrite X in Le. rewrite !Rmult_plus_distr_l. rewrite Rmult_0_l in Le. lra. }
  replace (s * s * (C + al * A)) with (s * (s * (C + al * A))) in F by ring. rewrite Es in F. assert (0 < s * (al * A)) by (apply Rmult_lt_0_compat; lra). lra.
Qed.

Lemma reps_nonempty (m : mesh NumR) hs : WF m -> EdgeReps m hs -> m_hes m <> [] -> exists h, In h hs.
Proof.
  intros W (_ & _ & H) Ne. destruct (m_hes m) as [|h l] eqn:E; [contradiction|]. assert (Ih : In h (m_hes m)) by (rewrite E; left; reflexivity). destruct (wf_rev m W h Ih) as (r & Er & _). rewrite E in *. destruct (H h r Ih Er) as [[A|A] _]; eauto.
Qed.
Section M.
Variable m : mesh NumR.
Hypothesis Vm : Valid m.
Hypothesis Cm : Closed m.
Hypothesis Pm : positions m = regR.
Let Wm := valid_wf m Vm.
Lemma reg_corners h : In h (m_hes m) -> let u := c1 m h in let a := c2 m h in let w := c3 m h in let b := c4 m h in
  In u (m_verts m) /\ In a (m_verts m) /\ In w (m_verts m) /\ In b (m_verts m) /\ u <> w /\ a <> u /\ a <> w /\ b <> u /\ b <> w.
Proof.
  intros Ih. destruct (corners_ok m Wm h Ih) as (_ & I1 & I2 & I3 & I4). cbv zeta. do 4 (split; [assumption|]).
  assert (G : forall h, In h (m_hes m) -> c1 m h <> c3 m h /\ c2 m h <> c1 m h /\ c2 m h <> c3 m h).
  { clear h Ih I1 I2 I3 I4. intros h Ih. unfold c1, c2, c3, tip. destruct (piter3 _ _ (valid_tri m Vm h Ih (Cm h Ih))) as (n & k & N1 & N2 & N3). assert (In' := next_in m Wm h n Ih N1). assert (Ik := next_in m Wm n k In' N2). rewrite N1.
    destruct (wf_src m Wm h Ih) as (u & Su & _). destruct (dst_ptr m h Wm Ih) as (w & Dw & _). destruct (dst_ptr m n Wm In') as (a & Da & _). rewrite Su, Dw, Da. cbn [vid].
    assert (Dn : forall x y, In x (m_hes m) -> h_next m x = Some y -> dst_of m x = h_src m y) by (intros x y Ix Nx; destruct (wf_rev m Wm x Ix) as (r & Er & _); unfold dst_of; rewrite Er; symmetry; apply (wf_dst m Wm x y r Ix Nx Er)).
    assert (Sn : h_src m n = Some w) by (rewrite <- (Dn h n Ih N1); exact Dw). assert (Sk : h_src m k = Some a) by (rewrite <- (Dn n k In' N2); exact Da). assert (Dk' : dst_of m k = Some u) by (rewrite (Dn k h Ik N3); exact Su).
    assert (L1 := valid_noloops m Vm h Ih). assert (L2 := valid_noloops m Vm n In'). assert (L3 := valid_noloops m Vm k Ik). rewrite Su, Dw in L1. rewrite Sn, Da in L2. rewrite Sk, Dk' in L3.
    split; [congruence|]. split; congruence. }
  destruct (G h Ih) as (A1 & A2 & A3). destruct (wf_rev m Wm h Ih) as (r & Er & Ir). destruct (G r Ir) as (B1 & B2 & B3).
  assert (E : c2 m r = c4 m h /\ c1 m r = c3 m h /\ c3 m r = c1 m h). { assert (Y := rev_rev m Wm h r Ih Er). unfold c1, c2, c3, c4. rewrite Er. unfold dst_of. rewrite Er, Y. auto. }
  destruct E as (E2 & E1 & E3). rewrite E1, E2, E3 in *. auto 8.
Qed.
Lemma reg_at v : In v (m_verts m) -> exists i, (i < 4)%nat /\ v = vat m i /\ v_pos m v = nth i regR vzero.
Proof. intros Iv. destruct (vat_of m v Iv) as (i & Hi & ->). rewrite (reg_len m Pm) in Hi. exists i. split; [exact Hi|]. split; [reflexivity|]. apply (reg_pos m Pm i Hi). Qed.
Lemma reg_bend h : In h (m_hes m) -> 0 < sqlen (comb m (1, -1, 1, -1) (v_pos m) h).
Proof.
  intros Ih. destruct (reg_corners h Ih) as (Iu & Ia & Iw & Ib & N1 & N2 & N3 & N4 & N5). unfold comb.
  destruct (reg_at _ Iu) as (i & Hi & Ei & ->). destruct (reg_at _ Ia) as (j & Hj & Ej & ->). destruct (reg_at _ Iw) as (k & Hk & Ek & ->). destruct (reg_at _ Ib) as (l & Hl & El & ->).
  assert (D1 : i <> k) by congruence. assert (D2 : j <> i) by congruence. assert (D3 : j <> k) by congruence. assert (D4 : l <> i) by congruence. assert (D5 : l <> k) by congruence. clear - Hi Hj Hk Hl D1 D2 D3 D4 D5.
  destruct i as [|[|[|[|i]]]]; try lia; destruct j as [|[|[|[|j]]]]; try lia; destruct k as [|[|[|[|k]]]]; try lia; destruct l as [|[|[|[|l]]]]; try lia; cbn [nth regR]; unfold sqlen, lin4, vadd, Vec.vscale, v3; rn; lra.
Qed.
Lemma reg_mean avg : getMeanEdgeLength m = Ok (avg, m) -> 0 < avg.
Proof.
  intros E. destruct (meanEdgeLength_ok m Wm) as (reps & RR & E'). rewrite E in E'. injection E' as ->.
  assert (Hne : m_hes m <> []). { assert (Hi : (0 < length (m_verts m))%nat) by (rewrite (reg_len m Pm); lia). destruct (wf_vhe m Wm _ (vat_in m 0 Hi)) as (h & _ & Ih & _). intros X. rewrite X in Ih. exact Ih. }
  destruct (reps_nonempty m reps Wm RR Hne) as (h0 & I0).
  assert (G : forall h, In h reps -> 0 < edge_length m h).
  { intros h Hh. assert (Ih : In h (m_hes m)) by (apply RR, Hh). destruct (reg_corners h Ih) as (Iu & _ & Iw & _ & N1 & _). unfold c1, c3 in *. unfold edge_length. destruct (wf_src m Wm h Ih) as (u & Su & _). destruct (dst_ptr m h Wm Ih) as (w & Dw & _). rewrite Su, Dw in *. cbn [vid] in *.
    assert (L : vlength (vsub (v_pos m u) (v_pos m w)) <> 0). { intros Z. assert (Q := sq_len (vsub (v_pos m u) (v_pos m w))). rewrite Z, Rmult_0_l in Q. 
      assert (P : 0 < dot (vsub (v_pos m u) (v_pos m w)) (vsub (v_pos m u) (v_pos m w))); [apply dot_pos|lra]. destruct (reg_at _ Iu) as (i & Hi & Ei & ->). destruct (reg_at _ Iw) as (j & Hj & Ej & ->). assert (D : i <> j) by congruence. clear - Hi Hj D.
      intros E. apply D. destruct i as [|[|[|[|i]]]]; try lia; destruct j as [|[|[|[|j]]]]; try lia; exfalso; cbn [nth regR] in E; injection E; unfold v3; rn; intros; lra. }
    assert (P := vlength_pos (vsub (v_pos m u) (v_pos m w))). change (0 < vlength (vsub (v_pos m u) (v_pos m w))). lra. }
  change (@ndiv NumR) with Rdiv. change (@nofZ NumR) with IZR. apply Rdiv_lt_0_compat; [|apply IZR_lt; destruct reps; [destruct I0|cbn [length]; lia]].
  change (@nzero NumR) with 0. assert (F := fold_R (map (edge_length m) reps) 0). assert (R0 : 0 < rsum (map (edge_length m) reps)).
  { destruct reps as [|x l]; [destruct I0|]. cbn [map]. rewrite rsum_cons. assert (X := G x (or_introl eq_refl)). assert (0 <= rsum (map (edge_length m) l)) by (apply rsum_nonneg; intros y Hy; apply Rlt_le, G; right; exact Hy). lra. }
  match goal with |- 0 < ?x => assert (F' : x = 0 + rsum (map (edge_length m) reps)) by exact F; rewrite F' end. lra.
Qed.
Lemma reg_l0 : exists m', denoiseL0Smooth (N := NumR) solution 1 999 m (Ok m') /\ exists v, In v (m_verts m) /\ v_pos m' v <> v_pos m v.
Proof.
  destruct (l0_ends 1 999 m Vm) as (m' & H & _); [lra|lra|]. exists m'. split; [exact H|]. destruct (l0_computes 1 999 m m' Vm) as (_ & avg & dih & EA & ED & sm & hs & K & cnt & Ps & _ & RH & _ & (E0 & Hr & Hb) & Em); [lra|lra|exact H|].
  assert (Ha := reg_mean avg EA). assert (S2 : 1.1 < sqrt 2). { rewrite <- (sqrt_square 1.1) by lra. apply sqrt_lt_1; lra. }
  assert (Ec : cnt = 1%nat). { destruct cnt as [|[|cnt]]; [cbn [pow] in Hb; lra|reflexivity|]. exfalso. destruct (Hr 1%nat ltac:(lia)) as [X _]. cbn [pow] in X. assert (0 < (sqrt 2 - 1.1) * avg) by (apply Rmult_lt_0_compat; lra). lra. }
  subst cnt. destruct (Hr 0%nat ltac:(lia)) as [_ R0]. rewrite E0 in R0.
  assert (Hi : incl hs (m_hes m)) by (intros h Hh; apply RH, Hh).
  assert (Dec : forall l, (forall v, In v l -> v_pos m' v = v_pos m v) \/ exists v, In v l /\ v_pos m' v <> v_pos m v).
  { induction l as [|v l [IH|(x & Ix & Nx)]]; [left; intros v []| |right; exists x; split; [right; exact Ix|exact Nx]].
    assert (Q : {v_pos m' v = v_pos m v} + {v_pos m' v <> v_pos m v}) by (destruct (v_pos m' v) as [a b c], (v_pos m v) as [x y z]; destruct (Req_EM_T a x); [subst|right; congruence]; destruct (Req_EM_T b y); [subst|right; congruence]; destruct (Req_EM_T c z); [subst; left; reflexivity|right; congruence]).
    destruct Q as [Q|Q]; [left; intros x [<- | Ix]; auto|right; exists v; split; [left; reflexivity|exact Q]]. }
  destruct (Dec (m_verts m)) as [Same|D]; [exfalso|exact D].
  apply (round_ext m Wm hs Hi K _ (v_pos m) _ _ _ _ (v_pos m) _ (v_pos m)) in R0; [|reflexivity|reflexivity|intros v Iv; rewrite <- (Em v Iv); apply Same, Iv].
  revert R0. apply round_moves.
  - cbn [pow]. rewrite Rinv_1. lra.
  - cbn [pow]. lra.
  - assert (Hne : m_hes m <> []). { assert (Hi0 : (0 < length (m_verts m))%nat) by (rewrite (reg_len m Pm); lia). destruct (wf_vhe m Wm _ (vat_in m 0 Hi0)) as (h & _ & Ih & _). intros X. rewrite X in Ih. exact Ih. }
    destruct (reps_nonempty m hs Wm RH Hne) as (h0 & I0). destruct hs as [|x l]; [destruct I0|]. cbn [map total fold_right]. assert (X := reg_bend x (Hi x (or_introl eq_refl))).
    assert (0 <= rsum (map (fun h => sqlen (comb m (1, -1, 1, -1) (v_pos m) h)) l)) by (apply rsum_nonneg; intros; apply sqlen_nonneg). unfold rsum in *. lra.
Qed.
End M.
Theorem l0_refuted : exists m m' : mesh NumR, Valid m /\ Closed m /\ positions m = regR /\ (forall v, In v (m_verts m) -> v_lock m v = true) /\
  denoiseL0Smooth (N := NumR) solution 1 999 m (Ok m') /\ exists v, In v (m_verts m) /\ v_pos m' v <> v_pos m v.
Proof.
  destruct regR_all as (m0 & _ & V & C & P & _ & _). set (m := locked m0). assert (Vl : Valid m) by apply locked_valid, V. destruct (reg_l0 m Vl C P) as (m' & H & Q).
  exists m, m'. split; [exact Vl|]. split; [exact C|]. split; [exact P|]. split; [reflexivity|]. split; [exact H|exact Q].
Qed.
Theorem l0_never_ex : exists (m : mesh NumR) avg, Valid m /\ Closed m /\ positions m = regR /\ getMeanEdgeLength m = Ok (avg, m) /\ 0 < avg.
Proof.
  destruct regR_all as (m & _ & V & C & P & _ & _). destruct (meanEdgeLength_ok m (valid_wf m V)) as (reps & _ & E). eexists m, _. split; [exact V|]. split; [exact C|]. split; [exact P|]. split; [exact E|]. exact (reg_mean m V C P _ E).
Qed.
