(** What the smoothing filters and the mesh Laplacians compute. *)
From Coq Require Import Reals Lra Bool List ZArith Arith Lia Permutation.
From Verif Require Import Num NumInst Vec VecR Heap Mesh Spec GeomSpec Orbit Rings Diamond Queries MeasureM Prog ProgP SmoothSpec Smooth SmoothP SmoothD SmoothR Lapl LaplSpec LaplP LaplM FilterSpec.
Import ListNotations.
Local Open Scope R_scope.

Section W.
Variable m : mesh NumR.
Hypothesis Wm : WF m.
Hypothesis NP : NoParallel m.

Lemma between_one y u v : In y (m_hes m) -> h_src m y = Some u -> dst_of m y = Some v -> between m u v = [y].
Proof.
  intros Iy Sy Dy. assert (ND : NoDup (between m u v)) by apply NoDup_filter, NoDup_filter, (wf_h_nodup m Wm).
  assert (P : Permutation (between m u v) [y]).
  { apply NoDup_Permutation; [exact ND|repeat constructor; intros []|]. intros z. rewrite between_in. split.
    - intros (Iz & Sz & Dz). left. apply NP; congruence.
    - intros [<- | []]. auto. }
  apply Permutation_sym, Permutation_length_1_inv in P. exact P.
Qed.
Lemma cot_formula_eq (p0 p1 p2 p3 : vec NumR) : @cot_formula NumR p0 p1 p2 p3 = (cotan p0 p2 p1 + cotan p0 p3 p1) / 2.
Proof. unfold cot_formula, cotan. cbv zeta. rewrite !nmax_R. rn. unfold Rdiv. ring. Qed.

(** The weight of a half-edge with a triangle on both sides. *)
Lemma tri_half f a b c : Tri m f a b c -> exists x, In x (m_hes m) /\ h_src m x = Some a /\ dst_of m x = Some b /\ ndst m x = Some c.
Proof.
  intros (x & y & z & H & N1 & N2 & N3 & Sx & Sy & Sz). assert (Ix : In x (m_hes m)) by (apply H; auto). assert (Iy : In y (m_hes m)) by (apply H; auto).
  assert (D : forall h k, In h (m_hes m) -> h_next m h = Some k -> dst_of m h = h_src m k).
  { intros h k Ih Nh. destruct (wf_rev m Wm h Ih) as (r & Er & _). rewrite (wf_dst m Wm h k r Ih Nh Er). unfold dst_of. rewrite Er. reflexivity. }
  exists x. split; [exact Ix|]. split; [exact Sx|]. split; [rewrite (D x y Ix N1); exact Sy|]. unfold ndst. rewrite N1, (D y z Iy N2). exact Sz.
Qed.
Lemma cot_weight_eq y u v x : In y (m_hes m) -> h_src m y = Some u -> dst_of m y = Some v -> cotangent_weight m u v x -> w_cot m y = x.
Proof.
  intros Iy Sy Dy (f & g & a & b & T1 & T2 & ->). destruct (tri_half _ _ _ _ T1) as (y' & I1 & S1 & D1 & E1). destruct (tri_half _ _ _ _ T2) as (r & I2 & S2 & D2 & E2).
  assert (y' = y) by (apply NP; congruence). subst y'. destruct (revm_ok m Wm y Iy) as (_ & Ir & _ & R1 & R2).
  assert (r = revm m y) by (apply NP; congruence). subst r. rewrite (w_cot_formula m Wm y Iy), Sy, Dy, E1, E2. cbn [pos_at]. apply cot_formula_eq.
Qed.
Lemma dist_length (p q : vec NumR) : @Vec.vlength NumR (Vec.vsub p q) = dist3 p q.
Proof. unfold Vec.vlength, dist3. rewrite dot_eq. unfold Vec.vsub, vadd, vneg. cbn [vx vy vz]. rn. reflexivity. Qed.
Lemma bel_weight_eq hh y u v x : In y (m_hes m) -> h_src m y = Some u -> dst_of m y = Some v -> heat_weight hh m u v x -> w_bel m hh y = x.
Proof.
  intros Iy Sy Dy ->. unfold w_bel, belkin_weight. rewrite Sy, Dy. cbn [pos_at]. rewrite dist_length. rn. rewrite Ropp_mult_distr_l. reflexivity.
Qed.
Lemma lmat_off (w : nat -> R) (weight : mesh NumR -> nat -> nat -> R -> Prop) : (forall y u v x, In y (m_hes m) -> h_src m y = Some u -> dst_of m y = Some v -> weight m u v x -> w y = x) -> off_diagonal weight m (entryR (lmat m w)).
Proof.
  intros Q i j u v Ne Ei Ej. assert (Hi : (i < length (m_verts m))%nat) by (apply nth_error_Some; congruence). assert (Hj : (j < length (m_verts m))%nat) by (apply nth_error_Some; congruence).
  rewrite (vat_nth m i Hi) in Ei. rewrite (vat_nth m j Hj) in Ej. injection Ei as <-. injection Ej as <-.
  rewrite lmat_entry by assumption. destruct (Nat.eqb_spec i j); [contradiction|]. unfold S_. split.
  - intros x (y & Iy & Sy & Dy) Wx. rewrite (between_one y _ _ Iy Sy Dy). cbn [map]. rewrite rsum_cons, (Q y _ _ x Iy Sy Dy Wx). cbn [rsum fold_right]. lra.
  - intros A. destruct (between m (vat m i) (vat m j)) as [|y l] eqn:E; [cbn; lra|]. exfalso. apply A. exists y. apply between_in. rewrite E. left; reflexivity.
Qed.
End W.

Theorem cotangent_entries (m : mesh NumR) : Valid m -> exists ts, getMeshLaplacian Cotangent m = Ok (ts, m) /\
  symmetric (length (m_verts m)) (entryR ts) /\ rows_vanish (length (m_verts m)) (entryR ts) /\ off_diagonal cotangent_weight m (entryR ts).
Proof.
  intros V. assert (W := valid_wf m V). exists (lmat m (w_cot m)). split; [apply (rows_ok m cot_row (w_cot m) (cot_row_ok m W))|].
  split; [apply lmat_sym; [exact W|apply w_cot_sym, W]|]. split; [apply lmat_rows; exact W|]. apply lmat_off; [exact W|apply (valid_noparallel m V)|]. apply cot_weight_eq; [exact W|apply (valid_noparallel m V)].
Qed.
Theorem belkin_entries (m : mesh NumR) : Valid m -> exists h ts, getMeanEdgeLength m = Ok (h, m) /\ getMeshLaplacian Belkin08 m = Ok (ts, m) /\
  symmetric (length (m_verts m)) (entryR ts) /\ rows_vanish (length (m_verts m)) (entryR ts) /\ (0 < h -> psd (length (m_verts m)) (entryR ts)) /\ off_diagonal (heat_weight h) m (entryR ts).
Proof.
  intros V. assert (W := valid_wf m V). destruct (meanEdgeLength_ok m W) as (reps & _ & Ea). set (h := ndiv _ _) in Ea. exists h, (lmat m (w_bel m h)). split; [exact Ea|].
  split; [unfold getMeshLaplacian, lap_belkin; rewrite (bind_ok _ _ _ _ _ Ea); apply (rows_ok m (@belkin_row NumR h) (w_bel m h) (belkin_row_ok m W h))|].
  split; [apply lmat_sym; [exact W|apply w_bel_sym, W]|]. split; [apply lmat_rows; exact W|]. split; [intros P; apply lmat_psd; [exact W|apply w_bel_sym, W|]; intros y _; apply w_bel_pos, P|].
  apply lmat_off; [exact W|apply (valid_noparallel m V)|]. apply bel_weight_eq.
Qed.

(** ** Smoothing *)
Section S.
Variable m : mesh NumR.
Hypothesis Vm : Valid m.
Let Wm := valid_wf m Vm.
Let NP := valid_noparallel m Vm.

Lemma tri3 h : In h (m_hes m) -> piter (h_next m) 3 h = Some h ->
  exists f a b c, Tri m f a b c /\ h_src m h = Some a /\ dst_of m h = Some b.
Proof.
  intros I B. destruct (piter3 _ _ B) as (n & k & N1 & N2 & N3). destruct (wf_face m Wm h I) as (f & Ef & If).
  assert (In' := next_in m Wm h n I N1). assert (Ik := next_in m Wm n k In' N2). destruct (wf_src m Wm h I) as (a & Sa & _). destruct (wf_src m Wm n In') as (b & Sb & _). destruct (wf_src m Wm k Ik) as (c & Sc & _).
  assert (Fn : h_face m n = Some f) by (rewrite (wf_face_next m Wm h n I N1); exact Ef). assert (Fk : h_face m k = Some f) by (rewrite (wf_face_next m Wm n k In' N2); exact Fn).
  exists f, a, b, c. split; [|split; [exact Sa|]].
  - exists h, n, k. split; [|auto 8]. intros y. split.
    + intros [Iy Fy]. assert (R := wf_face_orbit m Wm h y I Iy ltac:(congruence)). assert (C : cyc (h_next m) [h; n; k]) by (cbn [cyc chainto]; auto).
      assert (Q := cyc_reaches_in _ _ _ _ C (or_introl eq_refl) R). cbn [In] in Q. intuition auto.
    + intros [-> | [-> | ->]]; auto.
  - destruct (wf_rev m Wm h I) as (r & Er & _). unfold dst_of. rewrite Er, <- (wf_dst m Wm h n r I N1 Er). exact Sb.
Qed.
(** Away from the boundary the edges have their weights. *)
Lemma cot_inner y v w : In y (m_hes m) -> h_src m y = Some v -> dst_of m y = Some w -> ~ on_boundary m v -> cotangent_weight m v w (wgt m true y).
Proof.
  intros Iy Sy Dy NB. assert (B : forall h, In h (m_hes m) -> h_src m h = Some v -> h_bd m h = false) by (intros h Ih Sh; destruct (h_bd m h) eqn:E; [exfalso; apply NB; exists h; auto|reflexivity]).
  destruct (tri3 y Iy (valid_tri m Vm y Iy (B y Iy Sy))) as (f & a1 & b1 & c & T1 & E1 & E2). assert (a1 = v) by congruence. assert (b1 = w) by congruence. subst a1 b1.
  destruct (revm_ok m Wm y Iy) as (Er & Ir & _ & R1 & R2). destruct (wf_next m Wm _ Ir) as (n & En & In_).
  assert (Sn : h_src m n = Some v). { destruct (wf_rev m Wm _ Ir) as (r2 & Er2 & _). rewrite (wf_dst m Wm _ n r2 Ir En Er2). unfold dst_of in R2. rewrite Er2 in R2. congruence. }
  assert (P := valid_tri m Vm n In_ (B n In_ Sn)). destruct (piter3 _ _ P) as (k & l & N1 & N2 & N3).
  assert (Il := next_in m Wm k l (next_in m Wm n k In_ N1) N2). assert (l = revm m y) by (apply (next_inj m Wm l (revm m y) n Il Ir N3 En)). subst l.
  assert (P2 : piter (h_next m) 3 (revm m y) = Some (revm m y)) by (cbn [piter]; rewrite En, N1, N2; reflexivity).
  destruct (tri3 _ Ir P2) as (g & a2 & b2 & d & T2 & F1 & F2). assert (a2 = w) by congruence. assert (b2 = v) by congruence. subst a2 b2.
  exists f, g, c, d. split; [exact T1|]. split; [exact T2|]. apply (cot_weight_eq m Wm NP y v w _ Iy Sy Dy). exists f, g, c, d. auto.
Qed.

Definition dst_n (y : nat) : nat := match dst_of m y with Some d => d | None => 0%nat end.
Lemma dst_n_ok y : In y (m_hes m) -> dst_of m y = Some (dst_n y).
Proof. intros Hy. destruct (dst_pos m Wm y Hy) as (d & Ed & _). unfold dst_n. rewrite Ed. reflexivity. Qed.
Lemma wsum_gen cot l : forall (a : vec NumR) (w : R), fold_left (fun acc y => (@vadd NumR (fst acc) (@Vec.vscale NumR (wgt m cot y) (pos_at m (dst_of m y))), @nadd NumR (snd acc) (wgt m cot y))) l (a, w) =
  (V3 (N := NumR) (vx a + rsum (map (fun y => wgt m cot y * vx (pos_at m (dst_of m y))) l)) (vy a + rsum (map (fun y => wgt m cot y * vy (pos_at m (dst_of m y))) l)) (vz a + rsum (map (fun y => wgt m cot y * vz (pos_at m (dst_of m y))) l)),
   w + rsum (map (wgt m cot) l)).
Proof.
  induction l as [|y l IH]; intros a w; cbn [fold_left map].
  - destruct a as [x z u]. cbn [rsum fold_right vx vy vz]. rewrite !Rplus_0_r. reflexivity.
  - cbn [fst snd]. rewrite IH. rewrite !rsum_cons. unfold vadd, Vec.vscale. cbn [vx vy vz]. rn. f_equal; [f_equal|]; ring.
Qed.
Lemma adds_gen l : forall (a : vec NumR), fold_left (@vadd NumR) (map (fun y => pos_at m (dst_of m y)) l) a =
  V3 (N := NumR) (vx a + rsum (map (fun y => vx (pos_at m (dst_of m y))) l)) (vy a + rsum (map (fun y => vy (pos_at m (dst_of m y))) l)) (vz a + rsum (map (fun y => vz (pos_at m (dst_of m y))) l)).
Proof.
  induction l as [|y l IH]; intros a; cbn [fold_left map].
  - destruct a as [x z u]. cbn [rsum fold_right vx vy vz]. rewrite !Rplus_0_r. reflexivity.
  - rewrite IH, !rsum_cons. unfold vadd. cbn [vx vy vz]. rn. f_equal; ring.
Qed.
Definition mean_of (w : nat -> R) (l : list nat) (c : vec NumR) : Prop :=
  rsum (map w l) <> 0 /\
  vx c * rsum (map w l) = rsum (map (fun y => w y * vx (pos_at m (dst_of m y))) l) /\
  vy c * rsum (map w l) = rsum (map (fun y => w y * vy (pos_at m (dst_of m y))) l) /\
  vz c * rsum (map w l) = rsum (map (fun y => w y * vz (pos_at m (dst_of m y))) l).
Lemma vdiv_mean (p c : vec NumR) (s : R) : @Vec.vdiv NumR p s = Some c -> s <> 0 /\ vx c * s = vx p /\ vy c * s = vy p /\ vz c * s = vz p.
Proof.
  unfold Vec.vdiv. destruct (@neqb NumR s nzero) eqn:E; [discriminate|]. intros H. injection H as <-. assert (Ns : s <> 0).
  { intros ->. assert (T : @neqb NumR 0 nzero = true) by (apply Reqb_eq; reflexivity). congruence. }
  split; [exact Ns|]. cbn [vx vy vz]. rn. split; [|split]; field; exact Ns.
Qed.
Lemma lap_cv_mean cot i c : lap_cv m cot i = Some c -> mean_of (wgt m cot) (vert_ring m i) c.
Proof.
  unfold lap_cv. assert (E : wsum m cot (vert_ring m i) = _) by exact (wsum_gen cot (vert_ring m i) vzero (@nzero NumR)). rewrite E. cbn [fst snd]. intros H. apply vdiv_mean in H as (H0 & H1 & H2 & H3). unfold vzero, vfill in *. cbn [vx vy vz] in *. change (@nzero NumR) with 0 in *.
  rewrite !Rplus_0_l in *. split; [exact H0|]. auto.
Qed.
Lemma taubin_cv_mean i c : taubin_cv m i = Some c -> mean_of (fun _ => 1) (vert_ring m i) c.
Proof.
  unfold taubin_cv. rewrite (adds_gen (vert_ring m i) vzero). intros H. apply vdiv_mean in H as (H0 & H1 & H2 & H3). unfold vzero, vfill in *. cbn [vx vy vz] in *. change (@nzero NumR) with 0 in *.
  change (@nofZ NumR (Z.of_nat (length (vert_ring m i)))) with (IZR (Z.of_nat (length (vert_ring m i)))) in *. rewrite <- INR_IZR_INZ in *. rewrite !Rplus_0_l in *. unfold mean_of. rewrite rsum_ones.
  split; [exact H0|]. rewrite H1, H2, H3. split; [|split]; apply rsum_ext; intros; lra.
Qed.
Lemma towards_eq eps p c : @moved NumR eps p c = towards eps p c.
Proof. unfold moved, towards. cbv zeta. unfold Vec.vsub, Vec.vscale, vneg, vadd. cbn [vx vy vz]. rn. f_equal; ring. Qed.

Lemma pass_ok (cv : nat -> option (vec NumR)) (w : nat -> R) (weight : mesh NumR -> nat -> nat -> R -> Prop) eps m' : 
  (forall i c, cv i = Some c -> mean_of w (vert_ring m i) c) ->
  (forall y v u, In y (m_hes m) -> h_src m y = Some v -> dst_of m y = Some u -> ~ on_boundary m v -> weight m v u (w y)) ->
  posonly m m' -> (forall i, (i < length (m_verts m))%nat -> cv i <> None) -> (forall v, In v (m_verts m) -> v_pos m' v = newpos m cv eps v) ->
  smoothing_pass weight eps m m'.
Proof.
  intros Mean Wt P NN Q. split; [exact P|apply (newpos_kept m m' _ _ P Q)|]. intros v Iv Lv Bv. 
  assert (Fx : fixedb m v = false). { apply not_true_is_false. intros E. apply fixedb_spec in E as [E | E]; [congruence|contradiction]. }
  assert (Qv := Q v Iv). unfold newpos in Qv. rewrite Fx in Qv. apply In_nth_error in Iv as Ei. destruct Ei as [i Ei]. destruct (wf_v_elem m Wm i v Ei) as (_ & Ex & _). rewrite Ex, Nat2Z.id in Qv.
  assert (Hi : (i < length (m_verts m))%nat) by (apply nth_error_Some; congruence). destruct (cv i) as [c|] eqn:Ec; [|exfalso; apply (NN i Hi Ec)].
  rewrite (towards_eq eps) in Qv. assert (M := Mean i c Ec). destruct (vert_ring_ok m Wm i v Ei) as [(_ & Hnd & Hin) _].
  set (L := vert_ring m i) in *. set (WW := fun u => w (hd 0%nat (between m v u))).
  assert (EW : forall y, In y L -> WW (dst_n y) = w y). { intros y Hy. apply Hin in Hy as [Iy Sy]. unfold WW. rewrite (between_one m Wm NP y v (dst_n y) Iy Sy (dst_n_ok y Iy)). reflexivity. }
  exists (map dst_n L), WW, c. split; [|split; [|split; [|split]]].
  - clear - Wm NP Hnd Hin. assert (J : forall x y, In x L -> In y L -> dst_n x = dst_n y -> x = y).
    { intros x y Hx Hy E. apply Hin in Hx as [Ix Sx]. apply Hin in Hy as [Iy Sy]. apply NP; [exact Ix|exact Iy|congruence|]. rewrite (dst_n_ok x Ix), (dst_n_ok y Iy), E. reflexivity. }
    clear Hin. induction Hnd as [|x l Hx Hnd IH]; cbn [map]; constructor.
    + intros H. apply in_map_iff in H as (y & E & Hy). apply Hx. rewrite (J x y); [exact Hy|left; reflexivity|right; exact Hy|congruence].
    + apply IH. intros; apply J; try right; assumption.
  - intros u. rewrite in_map_iff. split.
    + intros (y & <- & Hy). apply Hin in Hy as [Iy Sy]. exists y. split; [exact Iy|]. split; [exact Sy|apply dst_n_ok, Iy].
    + intros (y & Iy & Sy & Dy). exists y. split; [unfold dst_n; rewrite Dy; reflexivity|apply Hin; auto].
  - intros u (y & Iy & Sy & Dy). assert (E : u = dst_n y) by (unfold dst_n; rewrite Dy; reflexivity). subst u. rewrite (EW y) by (apply Hin; auto). apply Wt; assumption.
  - unfold weighted_mean, total. rewrite !map_map. fold (rsum (map (fun x => WW (dst_n x)) L)). destruct M as (M0 & M1 & M2 & M3).
    assert (E0 : rsum (map (fun x => WW (dst_n x)) L) = rsum (map w L)) by (apply rsum_ext; exact EW).
    assert (EC : forall g : vec NumR -> R, fold_right Rplus 0 (map (fun x => WW (dst_n x) * g (v_pos m (dst_n x))) L) = rsum (map (fun y => w y * g (pos_at m (dst_of m y))) L)).
    { intros g. apply rsum_ext. intros y Hy. rewrite (EW y Hy). apply Hin in Hy as [Iy _]. rewrite (dst_n_ok y Iy). reflexivity. }
    rewrite E0, !EC. auto.
  - exact Qv.
Qed.
End S.

Lemma passes_cons weight (eps : nat -> R) n m m1 m' : smoothing_pass weight (eps 0%nat) m m1 -> smoothing_passes weight (fun i => eps (S i)) n m1 m' -> smoothing_passes weight eps (S n) m m'.
Proof.
  intros H (ms & E0 & En & Hs). exists (fun i => match i with O => m | S j => ms j end). split; [reflexivity|]. split; [exact En|]. intros [|i] Hi; [rewrite E0; exact H|]. apply Hs. lia.
Qed.

Theorem laplacian_computes eps (cot : bool) n : forall m m' : mesh NumR, Valid m -> smoothLaplacian (N := NumR) eps cot n m (Ok m') ->
  smoothing_passes (if cot then cotangent_weight else uniform_weight) (fun _ => eps) n m m'.
Proof.
  unfold smoothLaplacian. generalize 0%nat as it. induction n as [|n IH]; intros it m m' V H.
  - inversion H; subst. exists (fun _ => m'). split; [reflexivity|]. split; [reflexivity|]. intros i Hi. lia.
  - inversion H as [|? ? ? m1 ? A B|? ? ? ? A B]; subst; [|exfalso; apply (B m'); reflexivity].
    assert (W := valid_wf m V). destruct A as (o' & Ho' & Eo'). destruct (pass m W (lap_centroid cot) (lap_cv m cot) (loc_lap_centroid m _ cot) (lap_solo m cot W) eps) as (r & _ & U & C).
    specialize (U o' Ho'). rewrite <- Eo' in U. subst r. destruct C as [(mx & E & P & NN & Q) | (E & _)]; [|discriminate]. injection E as <-.
    apply (passes_cons _ (fun _ => eps) n m m1 m'); [|apply (IH (S it)); [apply (posonly_valid m m1 V P)|exact B]].
    apply (pass_ok m V (lap_cv m cot) (wgt m cot)); [intros i c; apply lap_cv_mean| |exact P|exact NN|exact Q].
    intros y v u Iy Sy Dy NB. destruct cot; [apply (cot_inner m V); assumption|reflexivity].
Qed.
Theorem taubin_computes a b n (m m' : mesh NumR) : Valid m -> smoothTaubin (N := NumR) a b n m (Ok m') ->
  smoothing_passes uniform_weight (fun i => if Nat.even i then a else - b) (n * 2) m m'.
Proof.
  unfold smoothTaubin. generalize (n * 2)%nat as k. intros k V. assert (G : forall k it m m', Valid m -> repeats (@taubin_step NumR a b) it k m (Ok m') -> smoothing_passes uniform_weight (fun i => if Nat.even (it + i) then a else - b) k m m'); [|intros H; apply (G k 0%nat m m' V H)].
  clear. induction k as [|n IH]; intros it m m' V H.
  - inversion H; subst. exists (fun _ => m'). split; [reflexivity|]. split; [reflexivity|]. intros i Hi. lia.
  - inversion H as [|? ? ? m1 ? A B|? ? ? ? A B]; subst; [|exfalso; apply (B m'); reflexivity].
    assert (W := valid_wf m V). destruct A as (o' & Ho' & Eo'). destruct (pass m W taubin_centroid (taubin_cv m) (loc_taubin_centroid m _) (taubin_solo m W) (if Nat.even it then a else @nopp NumR b)) as (r & _ & U & C).
    specialize (U o' Ho'). rewrite <- Eo' in U. subst r. destruct C as [(mx & E & P & NN & Q) | (E & _)]; [|discriminate]. injection E as <-.
    apply (passes_cons _ _ n m m1 m').
    + rewrite Nat.add_0_r. apply (pass_ok m V (taubin_cv m) (fun _ => 1)); [intros i c; apply taubin_cv_mean|reflexivity|exact P|exact NN|exact Q].
    + destruct (IH (S it) m1 m' (posonly_valid m m1 V P) B) as (ms & E0 & En & Hs). exists ms. split; [exact E0|]. split; [exact En|]. intros i Hi. specialize (Hs i Hi). rewrite Nat.add_succ_r. exact Hs.
Qed.
