(** The normal filters in exact arithmetic. *)
From Coq Require Import Reals Lra Bool List ZArith Arith Lia Permutation.
From Verif Require Import Num NumInst Vec VecR Heap Mesh Spec GeomSpec Orbit Rings Measure MeasureM Prog SmoothSpec Smooth SmoothD SmoothDn SmoothR FilterSpec SmoothF DenSpec DenoiseF.
Import ListNotations.
Local Open Scope R_scope.

Lemma sumv_perm l l' : Permutation l l' -> sumv l = sumv l'.
Proof.
  unfold sumv. induction 1 as [|x l l' _ IH|x y l|l l' l'' _ IH1 _ IH2]; cbn [fold_right]; [reflexivity|rewrite IH; reflexivity| |congruence].
  rewrite !vadd_assoc, (vadd_comm y x). reflexivity.
Qed.
Lemma total_perm l l' : Permutation l l' -> total l = total l'.
Proof. unfold total. induction 1; cbn [fold_right]; lra. Qed.
Lemma fold_sumv (F : nat -> vecR) l : forall a, fold_left (fun a y => vadd a (F y)) l a = vadd a (sumv (map F l)).
Proof.
  induction l as [|y l IH]; intros a; cbn [fold_left map]; unfold sumv; cbn [fold_right].
  - symmetry. apply vadd_zero.
  - rewrite IH. fold (sumv (map F l)). rewrite <- vadd_assoc. reflexivity.
Qed.
Lemma vadd_0l (a : vecR) : vadd vzero a = a.
Proof. rewrite vadd_comm. apply vadd_zero. Qed.

(** Rings and lists of half-edges. *)
Lemma sides_perm m f l : WF m -> Fring m f l -> Permutation l (sides m f).
Proof.
  intros W (_ & ND & H). apply NoDup_Permutation; [exact ND|apply NoDup_filter, (wf_h_nodup m W)|]. intros y. rewrite H. unfold sides. rewrite filter_In, <- ptr_eqb_eq. reflexivity.
Qed.
Lemma leaving_perm m v l : WF m -> Vring m v l -> Permutation l (leaving m v).
Proof.
  intros W (_ & ND & H). apply NoDup_Permutation; [exact ND|apply NoDup_filter, (wf_h_nodup m W)|]. intros y. rewrite H. unfold leaving. rewrite filter_In, <- ptr_eqb_eq. reflexivity.
Qed.

(** The kernel. *)
Lemma kern_kernel (x s : R) : kernel s x (@kern NumR x s).
Proof.
  unfold kernel, kern. cbv zeta. rn. unfold Rltb. split; [|split].
  - intros H. destruct (Rlt_dec x (2 * s)); [|lra]. unfold Rdiv. rewrite Rmult_1_l, Ropp_mult_distr_l. apply Rmult_comm.
  - intros [H1 H2]. destruct (Rlt_dec x (2 * s)); [lra|]. destruct (Rlt_dec x (4 * s)); [|lra]. assert (0 < s) by lra. rewrite Rabs_right by lra. unfold Rdiv. rewrite !Rmult_1_l. ring.
  - intros H1 H2. destruct (Rlt_dec x (2 * s)); [lra|]. destruct (Rlt_dec x (4 * s)); [lra|]. reflexivity.
Qed.

Lemma vdiv_move (S : vecR) (A : R) inc (p : vecR) : @Vec.vdiv NumR S A = Some inc -> vscale A (vsub (vadd p inc) p) = S.
Proof.
  intros H. apply vdiv_mean in H as (_ & X1 & X2 & X3). destruct S as [sx sy sz], inc as [ix iy iz], p as [px py pz]. cbn [vx vy vz] in *. unfold Vec.vsub, Vec.vscale, vneg, vadd. cbn [vx vy vz]. rn. f_equal; lra.
Qed.

Section P.
Variable m : mesh NumR.
Hypothesis W : WF m.

Lemma fring3_tri f h l v0 v1 v2 : Fring m f (h :: l) -> map (fun y => SmoothD.pos_at m (h_src m y)) (h :: l) = [v0; v1; v2] ->
  exists a b c, Tri m f a b c /\ v0 = v_pos m a /\ v1 = v_pos m b /\ v2 = v_pos m c.
Proof.
  intros (Hc & ND & Hin) E. destruct l as [|y [|z [|u l]]]; cbn [map] in E; try discriminate. injection E as <- <- <-.
  assert (I : forall k, In k [h; y; z] -> In k (m_hes m)) by (intros k Hk; apply Hin, Hk).
  destruct (wf_src m W h (I h (or_introl eq_refl))) as (a & Sa & _). destruct (wf_src m W y (I y (or_intror (or_introl eq_refl)))) as (b & Sb & _). destruct (wf_src m W z (I z (or_intror (or_intror (or_introl eq_refl))))) as (c & Sc & _).
  exists a, b, c. cbn [cyc chainto] in Hc. destruct Hc as (N1 & N2 & N3). rewrite Sa, Sb, Sc. cbn [SmoothD.pos_at]. split; [|auto].
  exists h, y, z. split; [|auto 8]. intros k. rewrite <- Hin. cbn [In]. intuition auto.
Qed.

(** Reindexed by face. *)
Lemma idx_face f : In f (m_faces m) -> nth_error (m_faces m) (Z.to_nat (f_idx m f)) = Some f.
Proof. intros If. apply In_nth_error in If as [i E]. destruct (wf_f_elem m W i f E) as (_ & Ei & _). rewrite Ei, Nat2Z.id. exact E. Qed.
Lemma jf_own y : In y (m_hes m) -> jf m y = Z.to_nat (f_idx m (own m y)).
Proof. intros Iy. unfold jf, own. destruct (wf_face m W y Iy) as (g & -> & _). reflexivity. Qed.
Lemma jr_across y : In y (m_hes m) -> jr m y = Z.to_nat (f_idx m (across m y)).
Proof. intros Iy. unfold jr, across. destruct (wf_rev m W y Iy) as (r & -> & Ir). apply jf_own, Ir. Qed.
Lemma own_in y : In y (m_hes m) -> In (own m y) (m_faces m).
Proof. intros Iy. unfold own. destruct (wf_face m W y Iy) as (g & -> & Ig). exact Ig. Qed.
Lemma across_in y : In y (m_hes m) -> In (across m y) (m_faces m).
Proof. intros Iy. unfold across. destruct (wf_rev m W y Iy) as (r & -> & Ir). apply own_in, Ir. Qed.

Lemma usum_eq (nw cc : nat -> vecR) (aa : nat -> R) (p : vecR) l : forall (a : R) (b : vecR),
  fold_left (fun acc y => (@nadd NumR (fst acc) (aa (jf m y)), vadd (snd acc) (vscale (@nmul NumR (aa (jf m y)) (dot (nw (jf m y)) (vsub (cc (jf m y)) p))) (nw (jf m y))))) l (a, b) =
  (a + total (map (fun y => aa (jf m y)) l), vadd b (sumv (map (fun y => vscale (aa (jf m y) * dot (nw (jf m y)) (vsub (cc (jf m y)) p)) (nw (jf m y))) l))).
Proof.
  induction l as [|y l IH]; intros a b; cbn [fold_left map].
  - unfold total, sumv. cbn [fold_right]. rewrite Rplus_0_r, vadd_zero. reflexivity.
  - cbn [fst snd]. rewrite IH. unfold total, sumv. cbn [fold_right]. rewrite vadd_assoc. rn. f_equal. lra.
Qed.

Lemma pass_spec (w : vecR -> vecR -> vecR -> vecR -> R -> R) (weight : R -> R -> R -> Prop) (x : vecR -> vecR -> vecR -> vecR -> R) m' :
  (forall ci cj ni nj a, w ci cj ni nj a = x ci cj ni nj * a) -> (forall ci cj ni nj, weight (dist3 ci cj) (dist3 ni nj) (x ci cj ni nj)) ->
  dn_loops (N := NumR) w m (Ok m') -> normal_pass weight m m'.
Proof.
  intros Hw Hx D. destruct (dn_values m W w m' D) as (nn & cc & nw & aa & P & F1 & F2 & F3). split; [exact P|].
  pose (g := fun f => Z.to_nat (f_idx m f)). exists (fun f => nn (g f)), (fun f => cc (g f)), (fun f => nw (g f)), (fun f => aa (g f)), (fun f1 f2 => x (cc (g f1)) (cc (g f2)) (nn (g f1)) (nn (g f2))).
  split; [|split; [|split]].
  - intros f If. destruct (F1 _ f (idx_face f If)) as (h & l & v0 & v1 & v2 & Eh & Hr & Ev & En & Ec & Ea). fold (g f) in *.
    destruct (fring3_tri f h l v0 v1 v2 Hr Ev) as (a & b & c & T & -> & -> & ->). exists a, b, c. split; [exact T|]. cbv zeta.
    set (X := Vec.cross _ _) in *.
    assert (NX : X <> vzero) by (intros Z; assert (Z2 : normalize X = None) by (etransitivity; [apply (f_equal (@normalize NumR)), Z|apply normalize_zero]); rewrite Z2 in En; discriminate).
    destruct (normalize_unit X NX) as (u & Eu & Lu & Su). assert (u = nn (g f)) by (clear - Eu En; congruence). subst u.
    assert (LX : vlength X <> 0) by (intros Z; apply NX, vlength_zero, Z). assert (PX := vlength_pos X).
    assert (Ea' : aa (g f) = vlength X / 2) by (rewrite Ea; rn; lra).
    split; [rewrite Ea'; lra|]. split; [exact Ea'|]. split; [replace (2 * aa (g f)) with (vlength X) by (rewrite Ea'; lra); exact Su|].
    apply vdiv_mean in Ec as (_ & E1 & E2 & E3). change (@nofZ NumR 3) with 3 in *. unfold Vec.vscale, vadd in *. cbn [vx vy vz] in *. rn. f_equal; lra.
  - intros f1 f2 _ _. apply Hx.
  - intros f If. destruct (F2 _ f (idx_face f If)) as (h & l & Eh & Hr & Q). fold (g f) in *. cbv zeta in Q |- *.
    assert (ES : fsum m w nn cc aa (g f) (h :: l) = sumv (map (fun h0 => vscale (x (cc (g f)) (cc (g (across m h0))) (nn (g f)) (nn (g (across m h0))) * aa (g (across m h0))) (nn (g (across m h0)))) (sides m f))).
    { unfold fsum. rewrite (fold_sumv (fun y => vscale (w (cc (g f)) (cc (jr m y)) (nn (g f)) (nn (jr m y)) (aa (jr m y))) (nn (jr m y)))), vadd_0l. rewrite <- (sumv_perm _ _ (Permutation_map _ (sides_perm m f _ W Hr))).
      f_equal. apply map_ext_in. intros y Iy. destruct Hr as (_ & _ & Hin). apply Hin in Iy as [Iy _]. rewrite Hw, (jr_across y Iy). reflexivity. }
    rewrite ES in Q. set (S := sumv _) in *. destruct (@neqb NumR (vlength S) nzero) eqn:Z.
    + apply Reqb_eq in Z. assert (Zs : S = vzero) by (apply vlength_zero, Z). rewrite Q. split; [rewrite Z, Zs; vring|]. split; [intros H; contradiction|reflexivity].
    + assert (NS : S <> vzero) by (intros H; assert (@neqb NumR (vlength S) nzero = true) by (apply Reqb_eq, vlength_zero, H); congruence).
      destruct (normalize_unit S NS) as (u & Eu & Lu & Su). assert (u = nw (g f)) by (unfold normalize in Eu; clear - Eu Q; congruence). subst u. split; [exact Su|]. split; [intros _; exact Lu|intros H; contradiction].
  - intros v Iv. apply In_nth_error in Iv as [i Ei]. destruct (F3 i v Ei) as (h & l & inc & Eh & Hr & Q1 & Q2). assert (EU : usum m nw cc aa (v_pos m v) (h :: l) = _) by exact (usum_eq nw cc aa (v_pos m v) (h :: l) 0 vzero). cbv zeta in Q1. rewrite EU in Q1. cbn [fst snd] in Q1. rewrite vadd_0l, Rplus_0_l in Q1.
    assert (E1 : total (map (fun y => aa (jf m y)) (h :: l)) = total (map (fun h => aa (g (own m h))) (leaving m v))).
    { rewrite <- (total_perm _ _ (Permutation_map _ (leaving_perm m v _ W Hr))). f_equal. apply map_ext_in. intros y Iy. destruct Hr as (_ & _ & Hin). apply Hin in Iy as [Iy _]. rewrite (jf_own y Iy). reflexivity. }
    assert (E2 : sumv (map (fun y => vscale (aa (jf m y) * dot (nw (jf m y)) (vsub (cc (jf m y)) (v_pos m v))) (nw (jf m y))) (h :: l)) =
      sumv (map (fun h => vscale (aa (g (own m h)) * dot (nw (g (own m h))) (vsub (cc (g (own m h))) (v_pos m v))) (nw (g (own m h)))) (leaving m v))).
    { rewrite <- (sumv_perm _ _ (Permutation_map _ (leaving_perm m v _ W Hr))). f_equal. apply map_ext_in. intros y Iy. destruct Hr as (_ & _ & Hin). apply Hin in Iy as [Iy _]. rewrite (jf_own y Iy). reflexivity. }
    assert (Q1' : @Vec.vdiv NumR (sumv (map (fun y => vscale (aa (jf m y) * dot (nw (jf m y)) (vsub (cc (jf m y)) (v_pos m v))) (nw (jf m y))) (h :: l))) (total (map (fun y => aa (jf m y)) (h :: l))) = Some inc) by exact Q1. clear Q1. rename Q1' into Q1.
    rewrite E1, E2 in Q1. cbv zeta. rewrite Q2. exact (vdiv_move _ _ _ _ Q1).
Qed.
End P.

Lemma vlen_dist (p q : vecR) : vlength (vsub p q) = dist3 p q.
Proof. apply dist_length. Qed.
Lemma gauss_pass s (m m' : mesh NumR) : WF m -> dn_loops (N := NumR) (wgt_gauss s) m (Ok m') -> normal_pass (gaussian_weight s) m m'.
Proof.
  intros W. apply (pass_spec m W _ (gaussian_weight s) (fun ci cj ni nj => @kern NumR (Vec.vlength (Vec.vsub ci cj)) s)).
  - intros. unfold wgt_gauss. rg.
  - intros. unfold gaussian_weight. rewrite <- vlen_dist. apply kern_kernel.
Qed.
Lemma bilateral_pass sc sn (m m' : mesh NumR) : WF m -> dn_loops (N := NumR) (wgt_bilateral sc sn) m (Ok m') -> normal_pass (bilateral_weight sc sn) m m'.
Proof.
  intros W. apply (pass_spec m W _ (bilateral_weight sc sn) (fun ci cj ni nj => @kern NumR (Vec.vlength (Vec.vsub ci cj)) sc * @kern NumR (Vec.vlength (Vec.vsub ni nj)) sn)).
  - intros. unfold wgt_bilateral. rg.
  - intros. exists (@kern NumR (Vec.vlength (Vec.vsub ci cj)) sc), (@kern NumR (Vec.vlength (Vec.vsub ni nj)) sn). rewrite <- !vlen_dist. split; [apply kern_kernel|]. split; [apply kern_kernel|reflexivity].
Qed.

Lemma denoise_steps (w : vecR -> vecR -> vecR -> vecR -> R -> R) (weight : R -> R -> R -> Prop) : (forall m m' : mesh NumR, WF m -> dn_loops (N := NumR) w m (Ok m') -> normal_pass weight m m') ->
  forall n it (m m' : mesh NumR), Valid m -> repeats (fun _ => dn_step (N := NumR) w) it n m (Ok m') -> denoising_passes weight n m m'.
Proof.
  intros Hp n. induction n as [|n IH]; intros it m m' V H.
  - inversion H; subst. exists (fun _ => m'), (fun _ => m'). split; [reflexivity|]. split; [reflexivity|]. intros i Hi. lia.
  - inversion H as [|? ? ? m1 ? A B|? ? ? ? A B]; subst; [|exfalso; apply (B m'); reflexivity].
    inversion A as [ms o T D|o T NO]; subst; [|exfalso; apply (NO m1); reflexivity].
    assert (Ps : posonly m ms). { destruct (taubin_det nhalf (@ndiv NumR (nofZ 53) (nofZ 100)) 3 m (valid_wf m V)) as (r & _ & U & C). unfold taubin_default in T. rewrite <- (U _ T) in C. destruct C as [(x & E & P & _) | E]; [|discriminate]. injection E as ->. exact P. }
    assert (Vs := posonly_valid m ms V Ps). assert (NPs := Hp ms m1 (valid_wf ms Vs) D).
    assert (V1 := posonly_valid ms m1 Vs (np_same _ _ _ NPs)). destruct (IH (S it) m1 m' V1 B) as (q & sm & E0 & En & Hs).
    exists (fun i => match i with O => m | S j => q j end), (fun i => match i with O => ms | S j => sm j end). split; [reflexivity|]. split; [exact En|]. intros [|i] Hi.
    + rewrite E0. split; [|exact NPs]. apply (taubin_computes nhalf (@ndiv NumR (nofZ 53) (nofZ 100)) 3 m ms V) in T. cbn [Nat.mul] in T.
      destruct T as (qs & Q0 & Q6 & Qs). exists qs. split; [exact Q0|]. split; [exact Q6|]. intros k Hk. specialize (Qs k Hk). destruct (Nat.even k).
      * replace (/ 2) with (@nhalf NumR) by (rn; lra). exact Qs.
      * exact Qs.
    + apply Hs. lia.
Qed.
Theorem gaussian_computes (sigma : R) n (m m' : mesh NumR) : Valid m -> denoiseNormalGaussian (N := NumR) sigma n m (Ok m') ->
  exists avg, getMeanEdgeLength m = Ok (avg, m) /\ denoising_passes (gaussian_weight (sigma * avg)) n m m'.
Proof. intros V H0. inversion H0 as [avg o E H]; subst. exists avg. split; [exact E|]. apply (denoise_steps _ _ (gauss_pass (sigma * avg)) n 0 m m' V H). Qed.
Theorem bilateral_computes (sc sn : R) n (m m' : mesh NumR) : Valid m -> denoiseNormalBilateral (N := NumR) sc sn n m (Ok m') ->
  exists avg, getMeanEdgeLength m = Ok (avg, m) /\ denoising_passes (bilateral_weight (sc * avg) sn) n m m'.
Proof. intros V H0. inversion H0 as [avg o E H]; subst. exists avg. split; [exact E|]. apply (denoise_steps _ _ (bilateral_pass (sc * avg) sn) n 0 m m' V H). Qed.
