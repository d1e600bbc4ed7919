(** The mixture of Gaussians: proofs. *)
From Coq Require Import Reals List ZArith Lra Lia Arith.
From Verif Require Import Num NumInst Vec VecR MeasureM Deriv Gmm GmmSpec.
Import ListNotations.
Local Open Scope R_scope.

(** ** Sums *)
Lemma rsum_scal {A} (a : R) (F : A -> R) l : rsum (map (fun x => a * F x) l) = a * rsum (map F l).
Proof. induction l as [|x l IH]; cbn [map]; rewrite ?rsum_cons; [cbn; ring|rewrite IH; ring]. Qed.
Lemma rsum_divr {A} (a : R) (F : A -> R) l : rsum (map (fun x => F x / a) l) = rsum (map F l) / a.
Proof. induction l as [|x l IH]; cbn [map]; rewrite ?rsum_cons; [cbn; unfold Rdiv; ring|rewrite IH; unfold Rdiv; ring]. Qed.
Lemma rsum_mono {A} (F G : A -> R) l : (forall x, In x l -> F x <= G x) -> rsum (map F l) <= rsum (map G l).
Proof. induction l as [|x l IH]; intros H; cbn [map]; rewrite ?rsum_cons; [lra|]. specialize (IH (fun y Hy => H y (or_intror Hy))). specialize (H x (or_introl eq_refl)). lra. Qed.
Lemma rsum_nonneg {A} (F : A -> R) l : (forall x, In x l -> 0 <= F x) -> 0 <= rsum (map F l).
Proof. induction l as [|x l IH]; intros H; cbn [map]; rewrite ?rsum_cons; [cbn; lra|]. specialize (IH (fun y Hy => H y (or_intror Hy))). specialize (H x (or_introl eq_refl)). lra. Qed.
Lemma rsum_pos {A} (F : A -> R) l x : (forall y, In y l -> 0 <= F y) -> In x l -> 0 < F x -> 0 < rsum (map F l).
Proof.
  induction l as [|y l IH]; intros H Hx Fx; [destruct Hx|]. cbn [map]. rewrite rsum_cons.
  assert (P := rsum_nonneg F l (fun z Hz => H z (or_intror Hz))). destruct Hx as [->|Hx]; [lra|].
  specialize (IH (fun z Hz => H z (or_intror Hz)) Hx Fx). specialize (H y (or_introl eq_refl)). lra.
Qed.
Lemma rsum_zeros {A} (l : list A) : rsum (map (fun _ => 0) l) = 0.
Proof. induction l as [|x l IH]; cbn [map]; rewrite ?rsum_cons; [reflexivity|lra]. Qed.
Lemma rsum_consts {A} (a : R) (l : list A) : rsum (map (fun _ => a) l) = INR (length l) * a.
Proof. induction l as [|x l IH]; cbn [map length]; rewrite ?rsum_cons; [cbn; ring|rewrite IH, S_INR; ring]. Qed.
Lemma rsum_swap {A B} (F : A -> B -> R) la lb : rsum (map (fun a => rsum (map (fun b => F a b) lb)) la) = rsum (map (fun b => rsum (map (fun a => F a b) la)) lb).
Proof.
  induction la as [|a la IH]; cbn [map]; rewrite ?rsum_cons.
  - symmetry. apply (rsum_zeros lb).
  - rewrite IH, <- rsum_plus. reflexivity.
Qed.
Lemma map_nth_seq {A B} (F : A -> B) d l : map (fun k => F (nth k l d)) (seq 0 (length l)) = map F l.
Proof.
  induction l as [|x l IH]; [reflexivity|]. cbn [length seq map]. f_equal. rewrite <- seq_shift, map_map. exact IH.
Qed.
Lemma combine_map {A B} (g : A -> B) l : combine (map g l) l = map (fun x => (g x, x)) l.
Proof. induction l as [|x l IH]; cbn; [reflexivity|now rewrite IH]. Qed.
Lemma fold_nadd (l : list R) : forall a : R, fold_left (@nadd NumR) l a = a + rsum l.
Proof. intros a. rewrite <- (map_id l) at 2. exact (fold_sum (fun x => x) l a). Qed.
Lemma fold_map_sum {A} (F : A -> R) l : fold_left (fun s i => @nadd NumR s (F i)) l 0 = rsum (map F l).
Proof. rewrite fold_sum. apply Rplus_0_l. Qed.

(** ** The densities *)
Lemma gauss_normal mu v x : gauss (N := NumR) (mu - x) v = normal mu v x.
Proof.
  unfold gauss, normal. cbn [ndiv nexp nmul nopp nhalf ntwo npi nsqrt NumR]. f_equal. f_equal. unfold Rdiv. rewrite Rinv_mult. ring.
Qed.
Lemma normal_pos mu v x : 0 < v -> 0 < normal mu v x.
Proof. intros H. unfold normal. apply Rdiv_lt_0_compat; [apply exp_pos|]. apply sqrt_lt_R0. assert (P := PI_RGT_0). nra. Qed.
Lemma ln_normal mu v x : 0 < v -> ln (normal mu v x) = - (x - mu) ^ 2 / (2 * v) - ln (2 * PI * v) / 2.
Proof.
  intros H. assert (P := PI_RGT_0). assert (Q : 0 < 2 * PI * v) by nra. assert (Sq := sqrt_lt_R0 _ Q). unfold normal.
  replace (exp (- (x - mu) ^ 2 / (2 * v)) / sqrt (2 * PI * v)) with (exp (- (x - mu) ^ 2 / (2 * v)) * / sqrt (2 * PI * v)) by reflexivity.
  rewrite ln_mult; [|apply exp_pos|apply Rinv_0_lt_compat, Sq]. rewrite ln_exp. rewrite ln_Rinv by exact Sq.
  assert (E : ln (2 * PI * v) = ln (sqrt (2 * PI * v)) + ln (sqrt (2 * PI * v))). { rewrite <- ln_mult by exact Sq. f_equal. symmetry. apply sqrt_sqrt. lra. }
  rewrite E. lra.
Qed.
Lemma ln_le_minus y : 0 < y -> ln y <= y - 1.
Proof. intros H. assert (E := exp_ineq1_le (ln y)). rewrite exp_ln in E by exact H. lra. Qed.

(** ** One iteration in closed form *)
Definition wgt (c : comp NumR) (x : R) : R := c_pi c * normal (c_mu c) (c_var c) x.
Definition gam (th : list (comp NumR)) (c : comp NumR) (x : R) : R := wgt c x / mixture th x.
Lemma resp_eq th x : resp (N := NumR) th x = map (fun c => gam th c x) th.
Proof.
  unfold resp, weigh. assert (E : forall c : comp NumR, @nmul NumR (c_pi c) (gauss (@nsub NumR (c_mu c) x) (c_var c)) = wgt c x) by (intros c; unfold wgt; rewrite <- gauss_normal; reflexivity).
  rewrite (map_ext _ _ E), map_map. apply map_ext. intros c. unfold gam. cbn [ndiv NumR nzero]. f_equal. rewrite fold_nadd. exact (Rplus_0_l _).
Qed.
Lemma em_step_eq xs th : em_step (N := NumR) xs th = map (fun c => em_comp (N := NumR) xs (map (gam th c) xs)) th.
Proof.
  unfold em_step. rewrite <- (map_nth_seq (fun c => em_comp (N := NumR) xs (map (gam th c) xs)) (@Cp NumR 0 0 0) th).
  apply map_ext_in. intros k Hk. apply in_seq in Hk. f_equal. rewrite map_map. apply map_ext. intros x. rewrite resp_eq.
  rewrite (nth_indep _ _ (gam th (@Cp NumR 0 0 0) x)) by (rewrite map_length; lia). exact (map_nth (fun c => gam th c x) th (@Cp NumR 0 0 0) k).
Qed.
Lemma em_comp_eq xs (g : R -> R) : xs <> [] -> rsum (map g xs) <> 0 ->
  let S := rsum (map g xs) in let mu := rsum (map (fun x => g x * x) xs) / S in
  em_comp (N := NumR) xs (map g xs) = @Cp NumR (S / INR (length xs)) mu (rsum (map (fun x => g x * (x - mu) ^ 2) xs) / S).
Proof.
  intros Hn HS S mu. assert (Ln : INR (length xs) <> 0) by (apply not_0_INR; destruct xs; [congruence|cbn; lia]).
  unfold em_comp. cbn [nofZ nmul NumR]. rewrite <- INR_IZR_INZ.
  assert (E1 : em_pi (N := NumR) (INR (length xs)) (map g xs) = S / INR (length xs)) by (unfold em_pi; rewrite (fold_map_sum (fun y : R => @ndiv NumR y (INR (length xs)))), map_map; exact (rsum_divr (INR (length xs)) g xs)).
  assert (EN : INR (length xs) * (S / INR (length xs)) = S) by (field; exact Ln).
  change (@num NumR) with R in *. cbv zeta. rewrite E1. rewrite EN. rewrite combine_map.
  assert (E2 : em_mu (N := NumR) S (map (fun x => (g x, x)) xs) = mu) by (unfold em_mu; rewrite (fold_map_sum (fun p : R * R => @ndiv NumR (@nmul NumR (fst p) (snd p)) S)), map_map; exact (rsum_divr S (fun x => g x * x) xs)).
  rewrite E2. f_equal. unfold em_var. rewrite (fold_map_sum (fun p : R * R => @ndiv NumR (@nmul NumR (@nmul NumR (fst p) (@nsub NumR (snd p) mu)) (@nsub NumR (snd p) mu)) S)), map_map.
  rewrite <- rsum_divr. apply rsum_ext. intros x _. cbn. unfold Rdiv. ring.
Qed.

Section Step.
Variables (xs : list R) (th : list (comp NumR)).
Hypothesis P : Proper th.
Hypothesis V : Varied xs.
Let n := INR (length xs).
Lemma xs_nonempty : xs <> [].
Proof. destruct V as (x & _ & Hx & _) ; destruct xs; [destruct Hx|discriminate]. Qed.
Lemma n_pos : 0 < n.
Proof. unfold n. assert (H := xs_nonempty). destruct xs; [congruence|]. apply lt_0_INR. cbn. lia. Qed.
Lemma th_nonempty : exists c, In c th.
Proof. destruct P as (_ & E). destruct th as [|c l]; [cbn in E; lra|exists c; now left]. Qed.
Lemma wgt_pos c x : In c th -> 0 < wgt c x.
Proof. intros Hc. destruct (proj1 P c Hc) as (A & B). unfold wgt. apply Rmult_lt_0_compat; [exact A|now apply normal_pos]. Qed.
Lemma mix_pos x : 0 < mixture th x.
Proof. destruct th_nonempty as (c & Hc). apply (rsum_pos (fun c => wgt c x) th c); [|exact Hc|now apply wgt_pos]. intros d Hd. left. now apply wgt_pos. Qed.
Lemma gam_pos c x : In c th -> 0 < gam th c x.
Proof. intros Hc. apply Rdiv_lt_0_compat; [now apply wgt_pos|apply mix_pos]. Qed.
Lemma gam_one x : rsum (map (fun c => gam th c x) th) = 1.
Proof. unfold gam. rewrite (rsum_divr (mixture th x) (fun c => wgt c x) th). unfold mixture at 1. apply Rinv_r. assert (M := mix_pos x). unfold mixture in M. unfold wgt. lra. Qed.
Definition Sg (c : comp NumR) : R := rsum (map (gam th c) xs).
Lemma Sg_pos c : In c th -> 0 < Sg c.
Proof. intros Hc. destruct V as (x & _ & Hx & _). apply (rsum_pos (gam th c) xs x); [|exact Hx|now apply gam_pos]. intros y _. left. now apply gam_pos. Qed.
Definition mu' (c : comp NumR) : R := rsum (map (fun x => gam th c x * x) xs) / Sg c.
Definition va' (c : comp NumR) : R := rsum (map (fun x => gam th c x * (x - mu' c) ^ 2) xs) / Sg c.
Lemma step_eq : em_step (N := NumR) xs th = map (fun c => @Cp NumR (Sg c / n) (mu' c) (va' c)) th.
Proof.
  rewrite em_step_eq. apply map_ext_in. intros c Hc. exact (em_comp_eq xs (gam th c) xs_nonempty (Rgt_not_eq _ _ (Sg_pos c Hc))).
Qed.
Lemma va_pos c : In c th -> 0 < va' c.
Proof.
  intros Hc. apply Rdiv_lt_0_compat; [|now apply Sg_pos]. destruct V as (x & y & Hx & Hy & D).
  assert (G : forall z, In z xs -> z <> mu' c -> 0 < rsum (map (fun x => gam th c x * (x - mu' c) ^ 2) xs)).
  { intros z Hz Nz. apply (rsum_pos (fun x => gam th c x * (x - mu' c) ^ 2) xs z); [|exact Hz|].
    - intros t _. apply Rmult_le_pos; [left; now apply gam_pos|apply pow2_ge_0].
    - apply Rmult_lt_0_compat; [now apply gam_pos|]. assert (z - mu' c <> 0) by lra. apply Rlt_le_trans with (Rsqr (z - mu' c)); [now apply Rsqr_pos_lt|unfold Rsqr; right; ring]. }
  destruct (Req_dec x (mu' c)) as [E|E]; [apply (G y Hy); congruence|exact (G x Hx E)].
Qed.
Lemma pis_one : rsum (map (fun c => Sg c / n) th) = 1.
Proof.
  rewrite (rsum_divr n Sg th). change (rsum (map Sg th)) with (rsum (map (fun c => rsum (map (fun x => gam th c x) xs)) th)). rewrite (rsum_swap (fun c x => gam th c x) th xs).
  rewrite (rsum_ext _ (fun _ => 1) xs) by (intros x _; apply gam_one). rewrite rsum_consts. unfold n. field. apply Rgt_not_eq, n_pos.
Qed.
Theorem step_proper : Proper (em_step (N := NumR) xs th).
Proof.
  rewrite step_eq. split.
  - intros c Hc. apply in_map_iff in Hc. destruct Hc as (d & <- & Hd). cbn [c_pi c_var]. split; [apply Rdiv_lt_0_compat; [now apply Sg_pos|apply n_pos]|now apply va_pos].
  - rewrite map_map. exact pis_one.
Qed.
Theorem step_mean : mixture_mean (em_step (N := NumR) xs th) = mean xs.
Proof.
  unfold mixture_mean, mean. rewrite step_eq, map_map. cbn [c_pi c_mu]. fold n.
  rewrite (rsum_ext _ (fun c => rsum (map (fun x => gam th c x * x) xs) / n) th) by (intros c Hc; unfold mu'; field; split; apply Rgt_not_eq; [apply n_pos|now apply Sg_pos]).
  rewrite (rsum_divr n (fun c => rsum (map (fun x => gam th c x * x) xs)) th). f_equal. rewrite (rsum_swap (fun c x => gam th c x * x) th xs).
  rewrite <- (map_id xs) at 2. apply rsum_ext. intros x _. rewrite (rsum_ext _ (fun c => x * gam th c x) th) by (intros; ring). rewrite rsum_scal, gam_one. ring.
Qed.
(** The weighted square about any centre. *)
Lemma about c a : In c th -> rsum (map (fun x => gam th c x * (x - a) ^ 2) xs) = Sg c * (va' c + (mu' c - a) ^ 2).
Proof.
  intros Hc. assert (Sp := Sg_pos c Hc). set (mu := mu' c).
  assert (E : rsum (map (fun x => gam th c x * (x - a) ^ 2) xs) = rsum (map (fun x => gam th c x * (x - mu) ^ 2) xs) + (2 * (mu - a) * (rsum (map (fun x => gam th c x * x) xs) - mu * Sg c) + (mu - a) ^ 2 * Sg c)).
  { rewrite (rsum_ext _ (fun x => gam th c x * (x - mu) ^ 2 + ((2 * (mu - a)) * (gam th c x * x) + ((mu - a) ^ 2 - 2 * (mu - a) * mu) * gam th c x)) xs) by (intros; ring).
    rewrite rsum_plus, rsum_plus, !rsum_scal. change (rsum (map (gam th c) xs)) with (Sg c). ring. }
  rewrite E. unfold va'. fold mu. replace (rsum (map (fun x => gam th c x * x) xs)) with (mu * Sg c) by (unfold mu, mu'; field; lra). field. lra.
Qed.
Theorem step_square : mixture_square (em_step (N := NumR) xs th) = mean (map (fun x => x ^ 2) xs).
Proof.
  unfold mixture_square, mean. rewrite step_eq, map_map, map_length. cbn [c_pi c_mu c_var]. fold n.
  rewrite (rsum_ext _ (fun c => rsum (map (fun x => gam th c x * x ^ 2) xs) / n) th).
  2:{ intros c Hc. rewrite (rsum_ext (fun x => gam th c x * x ^ 2) (fun x => gam th c x * (x - 0) ^ 2) xs) by (intros; ring). rewrite (about c 0 Hc). unfold Rdiv. ring. }
  rewrite (rsum_divr n (fun c => rsum (map (fun x => gam th c x * x ^ 2) xs)) th). f_equal. rewrite (rsum_swap (fun c x => gam th c x * x ^ 2) th xs).
  apply rsum_ext. intros x _. rewrite (rsum_ext _ (fun c => x ^ 2 * gam th c x) th) by (intros; ring). rewrite rsum_scal, gam_one. ring.
Qed.

(** ** The likelihood does not go down *)
Definition next (c : comp NumR) : comp NumR := @Cp NumR (Sg c / n) (mu' c) (va' c).
Lemma next_pos c x : In c th -> 0 < wgt (next c) x.
Proof. intros Hc. unfold wgt, next. cbn [c_pi c_mu c_var]. apply Rmult_lt_0_compat; [apply Rdiv_lt_0_compat; [now apply Sg_pos|apply n_pos]|apply normal_pos; now apply va_pos]. Qed.
Definition mix' (x : R) : R := rsum (map (fun c => wgt (next c) x) th).
Lemma mix'_pos x : 0 < mix' x.
Proof. destruct th_nonempty as (c & Hc). apply (rsum_pos (fun c => wgt (next c) x) th c); [|exact Hc|now apply next_pos]. intros d Hd. left. now apply next_pos. Qed.
Lemma mix'_eq x : mixture (em_step (N := NumR) xs th) x = mix' x.
Proof. unfold mixture, mix'. rewrite step_eq, map_map. reflexivity. Qed.
Lemma jensen x : rsum (map (fun c => gam th c x * (ln (wgt (next c) x) - ln (wgt c x))) th) <= ln (mix' x) - ln (mixture th x).
Proof.
  assert (M := mix_pos x). assert (M' := mix'_pos x). set (D := ln (mix' x) - ln (mixture th x)).
  assert (A : forall c, In c th -> gam th c x * (ln (wgt (next c) x) - ln (wgt c x)) <= gam th c x * D + (wgt (next c) x / mix' x - gam th c x)).
  { intros c Hc. assert (W := wgt_pos c x Hc). assert (W' := next_pos c x Hc). assert (G := gam_pos c x Hc).
    assert (Q : ln (wgt (next c) x * mixture th x / (wgt c x * mix' x)) <= wgt (next c) x * mixture th x / (wgt c x * mix' x) - 1).
    { apply ln_le_minus. apply Rdiv_lt_0_compat; now apply Rmult_lt_0_compat. }
    unfold Rdiv in Q at 1. rewrite ln_mult in Q; [|now apply Rmult_lt_0_compat|apply Rinv_0_lt_compat; now apply Rmult_lt_0_compat]. rewrite ln_Rinv in Q by now apply Rmult_lt_0_compat. rewrite !ln_mult in Q by assumption.
    apply (Rmult_le_compat_l (gam th c x)) in Q; [|lra].
    replace (gam th c x * (wgt (next c) x * mixture th x / (wgt c x * mix' x) - 1)) with (wgt (next c) x / mix' x - gam th c x) in Q by (unfold gam; field; repeat split; lra).
    unfold D. lra. }
  apply (Rle_trans _ _ _ (rsum_mono _ _ th A)). rewrite rsum_plus.
  rewrite (rsum_ext (fun c => gam th c x * D) (fun c => D * gam th c x) th) by (intros; ring). rewrite rsum_scal, gam_one.
  rewrite (rsum_ext _ (fun c => wgt (next c) x / mix' x + (-1) * gam th c x) th) by (intros; ring). rewrite rsum_plus, rsum_scal, gam_one, (rsum_divr (mix' x)). fold (mix' x). unfold Rdiv. rewrite Rinv_r by lra. lra.
Qed.
Lemma gibbs : 0 <= rsum (map (fun c => Sg c * (ln (Sg c / n) - ln (c_pi c))) th).
Proof.
  assert (Np := n_pos).
  assert (A : forall c, In c th -> Sg c - n * c_pi c <= Sg c * (ln (Sg c / n) - ln (c_pi c))).
  { intros c Hc. assert (Sp := Sg_pos c Hc). destruct (proj1 P c Hc) as (Pp & _). assert (Qp : 0 < Sg c / n) by now apply Rdiv_lt_0_compat.
    assert (Q := ln_le_minus (c_pi c * / (Sg c / n)) ltac:(apply Rmult_lt_0_compat; [exact Pp|now apply Rinv_0_lt_compat])).
    rewrite ln_mult, ln_Rinv in Q; [|exact Qp|exact Pp|now apply Rinv_0_lt_compat]. apply (Rmult_le_compat_l (Sg c)) in Q; [|lra].
    replace (Sg c * (c_pi c * / (Sg c / n) - 1)) with (n * c_pi c - Sg c) in Q by (cbn; field; split; apply Rgt_not_eq; assumption). change (@num NumR) with R in *. lra. }
  apply (Rle_trans _ (rsum (map (fun c => Sg c - n * c_pi c) th))); [|exact (rsum_mono _ _ th A)].
  rewrite (rsum_ext _ (fun c => Sg c + (- n) * c_pi c) th) by (intros; cbn; ring). rewrite rsum_plus, rsum_scal. match goal with |- 0 <= _ + _ * ?s => change s with (rsum (map (fun c : comp NumR => c_pi c) th)) end. rewrite (proj2 P).
  assert (E := pis_one). rewrite (rsum_divr n Sg th) in E. apply (f_equal (Rmult n)) in E. replace (n * (rsum (map Sg th) / n)) with (rsum (map Sg th)) in E by (field; lra). lra.
Qed.
Lemma normals c : In c th -> 0 <= rsum (map (fun x => gam th c x * (ln (normal (mu' c) (va' c) x) - ln (normal (c_mu c) (c_var c) x))) xs).
Proof.
  intros Hc. assert (Sp := Sg_pos c Hc). assert (Vp := va_pos c Hc). destruct (proj1 P c Hc) as (_ & Wp). set (v := c_var c) in *. set (v' := va' c) in *. set (mu := c_mu c) in *. change (@num NumR) with R in *.
  assert (Pi := PI_RGT_0). assert (C : ln (2 * PI * v) - ln (2 * PI * v') = ln v - ln v') by (rewrite !ln_mult by nra; lra).
  rewrite (rsum_ext _ (fun x => (- / (2 * v')) * (gam th c x * (x - mu' c) ^ 2) + (/ (2 * v) * (gam th c x * (x - mu) ^ 2) + (ln v - ln v') / 2 * gam th c x)) xs).
  2:{ intros x _. rewrite !ln_normal by assumption. replace (ln v - ln v') with (ln (2 * PI * v) - ln (2 * PI * v')) by exact C. unfold Rdiv. ring. }
  rewrite rsum_plus, rsum_plus, !rsum_scal. change (rsum (map (gam th c) xs)) with (Sg c). rewrite (about c mu Hc), (about c (mu' c) Hc). fold v'.
  assert (Q := ln_le_minus (v' * / v) ltac:(apply Rmult_lt_0_compat; [exact Vp|now apply Rinv_0_lt_compat])). rewrite ln_mult, ln_Rinv in Q; [|exact Wp|exact Vp|now apply Rinv_0_lt_compat].
  replace (- / (2 * v') * (Sg c * (v' + (mu' c - mu' c) ^ 2)) + (/ (2 * v) * (Sg c * (v' + (mu' c - mu) ^ 2)) + (ln v - ln v') / 2 * Sg c))
    with (Sg c / 2 * ((v' * / v - 1 - (ln v' + - ln v)) + (mu' c - mu) ^ 2 * / v)) by (field; lra).
  apply Rmult_le_pos; [lra|]. assert (0 <= (mu' c - mu) ^ 2 * / v) by (apply Rmult_le_pos; [apply pow2_ge_0|left; now apply Rinv_0_lt_compat]). lra.
Qed.
Theorem step_likelihood : log_likelihood th xs <= log_likelihood (em_step (N := NumR) xs th) xs.
Proof.
  unfold log_likelihood. rewrite (rsum_ext (fun x => ln (mixture (em_step (N := NumR) xs th) x)) (fun x => ln (mix' x)) xs) by (intros x _; now rewrite mix'_eq).
  assert (A : rsum (map (fun x => rsum (map (fun c => gam th c x * (ln (wgt (next c) x) - ln (wgt c x))) th)) xs) <= rsum (map (fun x => ln (mix' x) + (-1) * ln (mixture th x)) xs)) by (apply rsum_mono; intros x _; assert (J := jensen x); lra).
  rewrite rsum_plus, rsum_scal in A. rewrite (rsum_swap (fun x c => gam th c x * (ln (wgt (next c) x) - ln (wgt c x))) xs th) in A.
  assert (B : 0 <= rsum (map (fun c => rsum (map (fun x => gam th c x * (ln (wgt (next c) x) - ln (wgt c x))) xs)) th)).
  { apply (Rle_trans _ (rsum (map (fun c => Sg c * (ln (Sg c / n) - ln (c_pi c)) + rsum (map (fun x => gam th c x * (ln (normal (mu' c) (va' c) x) - ln (normal (c_mu c) (c_var c) x))) xs)) th))).
    - rewrite rsum_plus. assert (G := gibbs). assert (G2 := rsum_nonneg _ th normals). lra.
    - right. apply rsum_ext. intros c Hc. unfold Sg at 1. rewrite Rmult_comm. change (gam th c) with (fun x => gam th c x) at 1. rewrite <- rsum_scal, <- rsum_plus. apply rsum_ext. intros x _. unfold wgt, next. cbn [c_pi c_mu c_var].
      destruct (proj1 P c Hc) as (Pp & Wp). rewrite !ln_mult; [ring|exact Pp|now apply normal_pos|apply Rdiv_lt_0_compat; [now apply Sg_pos|apply n_pos]|apply normal_pos; now apply va_pos]. }
  lra.
Qed.
(** The means are between the least and the largest sample. *)
Theorem step_range a b : (forall x, In x xs -> a <= x <= b) -> forall c, In c (em_step (N := NumR) xs th) -> a < c_mu c < b.
Proof.
  intros H d Hd. rewrite step_eq in Hd. apply in_map_iff in Hd. destruct Hd as (c & <- & Hc). cbn [c_mu]. assert (Sp := Sg_pos c Hc).
  destruct V as (x & y & Hx & Hy & D).
  assert (G : forall (F : R -> R), (forall z, In z xs -> 0 <= F z) -> (exists z, In z xs /\ 0 < F z) -> 0 < rsum (map (fun x => gam th c x * F x) xs)).
  { intros F F0 (z & Hz & Fz). apply (rsum_pos (fun x => gam th c x * F x) xs z); [|exact Hz|].
    - intros t Ht. apply Rmult_le_pos; [left; now apply gam_pos|now apply F0].
    - apply Rmult_lt_0_compat; [now apply gam_pos|exact Fz]. }
  assert (B1 := H x Hx). assert (B2 := H y Hy).
  assert (L : 0 < rsum (map (fun x => gam th c x * (x - a)) xs)). { apply (G (fun z => z - a)); [intros z Hz; specialize (H z Hz); lra|]. destruct (Req_dec x a); [exists y|exists x]; split; [assumption|lra|assumption|lra]. }
  assert (U : 0 < rsum (map (fun x => gam th c x * (b - x)) xs)). { apply (G (fun z => b - z)); [intros z Hz; specialize (H z Hz); lra|]. destruct (Req_dec x b); [exists y|exists x]; split; [assumption|lra|assumption|lra]. }
  rewrite (rsum_ext _ (fun x => gam th c x * x + (- a) * gam th c x) xs) in L by (intros; ring). rewrite rsum_plus, rsum_scal in L.
  rewrite (rsum_ext _ (fun x => (-1) * (gam th c x * x) + b * gam th c x) xs) in U by (intros; ring). rewrite rsum_plus, !rsum_scal in U.
  change (rsum (map (gam th c) xs)) with (Sg c) in *. unfold mu'. set (S1 := rsum (map (fun x => gam th c x * x) xs)) in *.
  split; [apply (Rmult_lt_reg_r (Sg c)); [exact Sp|]|apply (Rmult_lt_reg_r (Sg c)); [exact Sp|]]; replace (S1 / Sg c * Sg c) with S1 by (field; lra); lra.
Qed.
End Step.

(** ** All iterations *)
Lemma start_proper maxK : Proper (em_start (N := NumR) maxK).
Proof.
  split; [|cbn; field]. intros c [<-|[<-|[<-|[]]]]; cbn; lra.
Qed.
Lemma em_S k xs : em (N := NumR) (S k) xs = em_step (N := NumR) xs (em (N := NumR) k xs). Proof. reflexivity. Qed.
Theorem em_proper k xs : Varied xs -> Proper (em (N := NumR) k xs).
Proof. intros V. induction k as [|k IH]; [apply start_proper|]. rewrite em_S. now apply step_proper. Qed.
Theorem em_length k xs : length (em (N := NumR) k xs) = 3%nat.
Proof. induction k as [|k IH]; [reflexivity|]. rewrite em_S. unfold em_step. rewrite map_length, seq_length. exact IH. Qed.
Theorem em_fits k xs : Varied xs -> log_likelihood (em (N := NumR) k xs) xs <= log_likelihood (em (N := NumR) (S k) xs) xs.
Proof. intros V. rewrite em_S. apply step_likelihood; [now apply em_proper|exact V]. Qed.
Theorem em_all k (xs : list R) : Varied xs -> (1 <= k)%nat ->
  let th := em (N := NumR) k xs in
  length th = 3%nat /\ Proper th /\ mixture_mean th = mean xs /\ mixture_square th = mean (map (fun x => x ^ 2) xs) /\
  log_likelihood (em_start (N := NumR) (max_all (N := NumR) xs)) xs <= log_likelihood th xs /\
  forall a b, (forall x, In x xs -> a <= x <= b) -> forall c, In c th -> a < c_mu c < b.
Proof.
  intros V Hk th. destruct k as [|k]; [lia|]. unfold th. rewrite em_S. assert (P := em_proper k xs V).
  split; [rewrite <- em_S; apply em_length|]. split; [now apply step_proper|]. split; [now apply step_mean|]. split; [now apply step_square|]. split.
  - rewrite <- em_S. clear P Hk th. induction (S k) as [|j IH]; [right; reflexivity|]. eapply Rle_trans; [exact IH|]. now apply em_fits.
  - intros a b H. exact (step_range xs _ P V a b H).
Qed.
(** ** Equal samples *)
Theorem em_equal (xs : list R) (a : R) th : Proper th -> xs <> [] -> (forall x, In x xs -> x = a) -> forall c, In c (em_step (N := NumR) xs th) -> c_mu c = a /\ c_var c = 0.
Proof.
  intros P Hn H c Hc. rewrite em_step_eq in Hc. apply in_map_iff in Hc. destruct Hc as (d & <- & Hd).
  assert (Sp : 0 < rsum (map (gam th d) xs)).
  { destruct xs as [|x l]; [congruence|]. apply (rsum_pos (gam th d) (x :: l) x); [|now left|now apply gam_pos]. intros y _. left. now apply gam_pos. }
  rewrite (em_comp_eq xs (gam th d) Hn (Rgt_not_eq _ _ Sp)). cbn [c_mu c_var].
  assert (E : rsum (map (fun x => gam th d x * x) xs) / rsum (map (gam th d) xs) = a).
  { rewrite (rsum_ext _ (fun x => a * gam th d x) xs) by (intros x Hx; rewrite (H x Hx); ring). rewrite rsum_scal. change (fun x => gam th d x) with (gam th d). field. lra. }
  rewrite E. split; [reflexivity|]. rewrite (rsum_ext _ (fun _ => 0) xs) by (intros x Hx; rewrite (H x Hx); ring). rewrite rsum_zeros. unfold Rdiv. apply Rmult_0_l.
Qed.
(** ** The radius *)
Lemma radius_bounds nceil (avgLen mu : R) : Ceiling nceil -> 0 < avgLen -> 0 < mu ->
  1 / (avgLen * mu) + 1 <= IZR (radius_of (N := NumR) nceil avgLen mu) < 1 / (avgLen * mu) + 2 /\ (2 <= radius_of (N := NumR) nceil avgLen mu)%Z.
Proof.
  intros C L A. unfold radius_of. cbv zeta. set (r := @ndiv NumR _ avgLen).
  assert (E : r = 1 / (avgLen * mu) + 1) by (unfold r; cbn; field; split; apply Rgt_not_eq; assumption). destruct (C r) as (C1 & C2).
  assert (Q : 0 < 1 / (avgLen * mu)) by (apply Rdiv_lt_0_compat; [lra|now apply Rmult_lt_0_compat]). clearbody r. subst r. split; [lra|].
  assert (H : 1 < IZR (nceil (1 / (avgLen * mu) + 1))) by lra. apply lt_IZR in H. lia.
Qed.
Lemma max_above : forall l (a : R), a <= fold_left (@nmax NumR) l a /\ forall x, In x l -> x <= fold_left (@nmax NumR) l a.
Proof.
  induction l as [|y l IH]; intros a; cbn [fold_left]; [split; [lra|intros x []]|]. destruct (IH (@nmax NumR a y)) as (A & B).
  assert (G : a <= @nmax NumR a y /\ y <= @nmax NumR a y) by (unfold nmax; cbn; unfold Rltb; destruct (Rlt_dec a y); lra).
  split; [lra|]. intros x [->|Hx]; [lra|now apply B].
Qed.
Lemma mean_nonzero (xs : list R) : Varied xs -> (forall x, In x xs -> 0 <= x) -> mean xs <> 0.
Proof.
  intros V H0. unfold mean. assert (Np := n_pos xs V). intros E. assert (Z : rsum xs = 0) by (apply (Rmult_eq_reg_r (/ INR (length xs))); [unfold Rdiv in E; lra|apply Rinv_neq_0_compat; lra]).
  destruct V as (x & y & Hx & Hy & D). assert (G : exists z, In z xs /\ 0 < z) by (assert (Q1 := H0 x Hx); assert (Q2 := H0 y Hy); destruct (Req_dec x 0); [exists y|exists x]; split; [assumption|lra|assumption|lra]).
  destruct G as (z & Hz & Pz). assert (Q := rsum_pos (fun t => t) xs z H0 Hz Pz). rewrite map_id in Q. lra.
Qed.
Theorem radius_ok nceil (avgLen : R) (xs : list R) : Ceiling nceil -> 0 < avgLen -> Varied xs -> (forall x, In x xs -> 0 <= x) ->
  exists mu, 0 < mu < max_all (N := NumR) xs /\ (exists p v, nth_error (em (N := NumR) 20 xs) 1 = Some (@Cp NumR p mu v)) /\
   1 / (avgLen * mu) + 1 <= IZR (patch_radius (N := NumR) nceil avgLen xs) < 1 / (avgLen * mu) + 2 /\ (2 <= patch_radius (N := NumR) nceil avgLen xs)%Z.
Proof.
  intros C L V H0. destruct (em_all 20 xs V ltac:(lia)) as (Len & P & _ & _ & _ & Rg). unfold patch_radius. generalize dependent (em (N := NumR) 20 xs). intros th Len P Rg.
  assert (Bd : forall x, In x xs -> 0 <= x <= max_all (N := NumR) xs) by (intros x Hx; split; [now apply H0|exact (proj2 (max_above xs 0) x Hx)]).
  destruct th as [|a [|c [|d [|]]]]; try discriminate Len. cbn [nth]. destruct (Rg 0 _ Bd c (or_intror (or_introl eq_refl))) as (A & B). exists (c_mu c). change (@num NumR) with R in *. split; [lra|].
  split; [destruct c as [p mu v]; exists p, v; reflexivity|]. exact (radius_bounds nceil avgLen (c_mu c) C L A).
Qed.
(** ** Concrete samples *)
Theorem equal_samples : exists xs : list R, xs <> [] /\ (forall x, In x xs -> 0 <= x) /\ (forall c, In c (em (N := NumR) 1 xs) -> c_var c = 0) /\ ~ Proper (em (N := NumR) 1 xs).
Proof.
  exists [1; 1]. assert (H : forall x, In x [1; 1] -> x = 1) by (intros x [<-|[<-|[]]]; reflexivity).
  assert (E : forall c, In c (em (N := NumR) 1 [1; 1]) -> c_var c = 0).
  { intros c Hc. rewrite em_S in Hc. apply (em_equal [1; 1] 1 (em (N := NumR) 0 [1; 1]) (start_proper _) ltac:(discriminate) H c Hc). }
  split; [discriminate|]. split; [intros x Hx; rewrite (H x Hx); lra|]. split; [exact E|]. intros [P _].
  assert (L := em_length 1 [1; 1]). destruct (em (N := NumR) 1 [1; 1]) as [|c l]; [discriminate L|].
  destruct (P c (or_introl eq_refl)) as [_ V]. rewrite (E c (or_introl eq_refl)) in V. change (@num NumR) with R in *. lra.
Qed.
Definition up1 (x : R) : Z := if Req_EM_T (IZR (up x) - 1) x then (up x - 1)%Z else up x.
Lemma fit_case : Varied [0; 1; 1] /\ Ceiling up1.
Proof.
  split; [exists 0, 1; split; [now left|]; split; [right; now left|lra]|]. intros x. unfold up1. destruct (archimed x) as [A B].
  destruct (Req_EM_T (IZR (up x) - 1) x) as [E|E]; [rewrite minus_IZR; lra|lra].
Qed.
