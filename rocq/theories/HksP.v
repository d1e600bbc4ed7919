(** Heat kernel signatures: what is computed. *)
From Coq Require Import Reals Lra Lia List Arith ZArith Permutation.
From Verif Require Import Num NumInst Heap LaplSpec MeasureM LaplP LinR Hks HksSpec HksR.
Import ListNotations.
Local Open Scope R_scope.

(** ** The formula *)
Lemma heat_entry K lam U x t : @hks_entry NumR K lam U x t = heat K lam U x t.
Proof.
  unfold hks_entry, heat. induction K as [|K IH]; [reflexivity|]. rewrite seq_S, fold_left_app, IH. cbn [fold_left Nat.add sum_to].
  cbn [num nadd nmul nexp nopp NumR]. f_equal. replace (- t * lam K) with (- (t * lam K)) by ring. ring.
Qed.
Lemma limit_ok l : @hks_limit NumR ln l = limit_time l.
Proof.
  unfold hks_limit, limit_time, nmax. cbn [num ndiv nmul nofZ nltb neps12 NumR]. replace (10 ^ 12) with 1000000000000 by ring.
  unfold Rmax. destruct (Rle_dec (/ 1000000000000) l) as [Le | Nle].
  - destruct (Rltb (/ 1000000000000) l) eqn:E; [reflexivity|]. assert (~ / 1000000000000 < l) by (intros H; rewrite (proj2 (Rltb_lt _ _) H) in E; discriminate).
    replace l with (/ 1000000000000) by lra. reflexivity.
  - destruct (Rltb (/ 1000000000000) l) eqn:E; [apply Rltb_lt in E; lra|reflexivity].
Qed.
Lemma ln10_pos : 0 < ln 10. Proof. rewrite <- ln_1. apply ln_increasing; lra. Qed.
Lemma limit_pos l : 0 < limit_time l.
Proof. unfold limit_time. apply Rdiv_lt_0_compat; [assert (P := ln10_pos); lra|]. apply Rlt_le_trans with (/ 1000000000000); [lra|apply Rmax_l]. Qed.
Lemma limit_anti a b : a <= b -> limit_time b <= limit_time a.
Proof.
  intros H. unfold limit_time. assert (P := ln10_pos). apply Rmult_le_compat_l; [lra|]. apply Rinv_le_contravar.
  - apply Rlt_le_trans with (/ 1000000000000); [lra|apply Rmax_l].
  - apply Rle_max_compat_l, H.
Qed.
Definition time_at (a b : R) (k j : nat) : R := exp (ln a + INR j * ((ln b - ln a) / (INR k - 1))).
Lemma times_ok a b k : @hks_times NumR ln a b k = map (time_at a b k) (seq 0 k).
Proof. unfold hks_times. apply map_ext. intros j. unfold time_at. cbn [num nadd nmul nexp nofZ ndiv nsub NumR]. rewrite <- INR_IZR_INZ, minus_IZR, <- INR_IZR_INZ. reflexivity. Qed.
Lemma times_geometric a b k : (2 <= k)%nat -> 0 < a -> 0 < b -> Geometric k a b (time_at a b k).
Proof.
  intros Hk Ha Hb. assert (P : 0 < INR k - 1) by (apply le_INR in Hk; cbn in Hk; lra). split; [|split; [|split]].
  - unfold time_at. cbn [INR]. rewrite Rmult_0_l, Rplus_0_r. apply exp_ln, Ha.
  - unfold time_at. rewrite minus_INR by lia. cbn [INR]. replace (ln a + (INR k - 1) * ((ln b - ln a) / (INR k - 1))) with (ln b) by (field; lra). apply exp_ln, Hb.
  - intros j _. apply exp_pos.
  - exists (exp ((ln b - ln a) / (INR k - 1))). split; [apply exp_pos|]. intros j _. unfold time_at. rewrite <- exp_plus, S_INR. f_equal. ring.
Qed.

Section Run.
Variables (eigs : nat -> (nat -> nat -> R) -> nat -> option ((nat -> R) * (nat -> nat -> R))) (n : nat) (L : nat -> nat -> R) (K nT : nat).
Notation run := (@getHeatKernelSignatures NumR ln eigs n L (Z.of_nat K) nT).
Lemma hks_run lam U : eigs n L K = Some (lam, U) -> (2 <= K < n)%nat ->
  run = Ok (map (fun x => map (fun j => heat K lam U x (time_at (limit_time (lam (K - 1)%nat)) (limit_time (lam 1%nat)) nT j)) (seq 0 nT)) (seq 0 n)).
Proof.
  intros E H. unfold getHeatKernelSignatures. rewrite (proj2 (Z.ltb_lt _ _)) by lia. cbn [negb]. rewrite (proj2 (Z.ltb_ge _ _)) by lia. rewrite Nat2Z.id.
  change (eigs n L K) with (eigs n L K) in E. rewrite E. rewrite (proj2 (Z.ltb_ge _ _)) by lia. f_equal. apply map_ext. intros x. rewrite !limit_ok, times_ok, map_map. apply map_ext. intros j. apply heat_entry.
Qed.
Lemma at_table (F : nat -> nat -> R) x j : (x < n)%nat -> (j < nT)%nat -> at2 (map (fun x => map (F x) (seq 0 nT)) (seq 0 n)) x j = F x j.
Proof.
  intros Hx Hj. unfold at2. rewrite (nth_indep _ [] (map (F 0%nat) (seq 0 nT))) by (rewrite map_length, seq_length; exact Hx).
  rewrite (map_nth (fun x => map (F x) (seq 0 nT))), seq_nth by exact Hx. cbn [Nat.add].
  rewrite (nth_indep _ 0 (F x 0%nat)) by (rewrite map_length, seq_length; exact Hj). rewrite (map_nth (F x)), seq_nth by exact Hj. reflexivity.
Qed.
Lemma dims_table (F : nat -> nat -> R) : dims (map (fun x => map (F x) (seq 0 nT)) (seq 0 n)) n nT.
Proof.
  split; [rewrite map_length, seq_length; reflexivity|]. intros x Hx. rewrite (nth_indep _ [] (map (F 0%nat) (seq 0 nT))) by (rewrite map_length, seq_length; exact Hx).
  rewrite (map_nth (fun x => map (F x) (seq 0 nT))), map_length, seq_length. reflexivity.
Qed.
Theorem hks_ok lam U : eigs n L K = Some (lam, U) -> (2 <= K < n)%nat -> (2 <= nT)%nat -> exists H T, run = Ok H /\ dims H n nT /\
  Geometric nT (limit_time (lam (K - 1)%nat)) (limit_time (lam 1%nat)) T /\ forall x j, (x < n)%nat -> (j < nT)%nat -> at2 H x j = heat K lam U x (T j).
Proof.
  intros E HK HT. rewrite (hks_run lam U E HK). eexists. eexists. split; [reflexivity|]. split; [apply (dims_table (fun x j => heat K lam U x (time_at (limit_time (lam (K - 1)%nat)) (limit_time (lam 1%nat)) nT j)))|].
  split; [apply times_geometric; [exact HT|apply limit_pos|apply limit_pos]|]. intros x j Hx Hj. apply (at_table (fun x j => heat K lam U x (time_at (limit_time (lam (K - 1)%nat)) (limit_time (lam 1%nat)) nT j)) x j Hx Hj).
Qed.
End Run.

(** ** Bounds *)
Section Bounds.
Variables (n : nat) (L : nat -> nat -> R) (K : nat) (lam : nat -> R) (U : nat -> nat -> R).
Hypothesis Sp : Spectrum n L K lam U.
Lemma heat_nonneg x t : 0 <= heat K lam U x t.
Proof. apply sum_to_nonneg. intros i _. apply Rmult_le_pos; [apply Rlt_le, exp_pos|apply Rle_0_sqr]. Qed.
Lemma bessel x : (x < n)%nat -> sum_to K (fun i => U x i * U x i) <= 1.
Proof.
  intros Hx. set (r := fun y => delta x y - sum_to K (fun i => U x i * U y i)).
  assert (O : forall j, (j < K)%nat -> inner n r (fun y => U y j) = 0).
  { intros j Hj. unfold r. rewrite inner_minus, (inner_sum n K (U x) (fun i y => U y i)). unfold inner at 1. rewrite sum_delta by exact Hx.
    rewrite (sum_to_ext K _ (fun i => delta j i * U x i)); [rewrite sum_delta by exact Hj; ring|]. intros i Hi. rewrite (u_gram n L K lam U Sp i j Hi Hj), delta_sym. ring. }
  assert (Q : inner n r r = r x).
  { unfold r at 1. rewrite inner_minus, (inner_sum n K (U x) (fun i y => U y i)). unfold inner at 1. rewrite sum_delta by exact Hx.
    rewrite (sum_to_ext K _ (fun _ => 0)); [rewrite sum_to_0; ring|]. intros i Hi. rewrite inner_sym, (O i Hi). ring. }
  assert (P : 0 <= inner n r r) by (apply sum_to_nonneg; intros; apply Rle_0_sqr). rewrite Q in P. unfold r, delta in P. rewrite Nat.eqb_refl in P. lra.
Qed.
Lemma heat_trace t : sum_to n (fun x => heat K lam U x t) = sum_to K (fun i => exp (- (t * lam i))).
Proof. unfold heat. rewrite sum_to_swap. apply sum_to_ext. intros i Hi. rewrite sum_to_scal. assert (Q := sp_unit _ _ _ _ _ Sp i Hi). unfold inner in Q. rewrite Q. ring. Qed.
Hypothesis Nn : forall i, (i < K)%nat -> 0 <= lam i.
Lemma heat_decay x s t : s <= t -> heat K lam U x t <= heat K lam U x s.
Proof.
  intros H. apply sum_to_le. intros i Hi. apply Rmult_le_compat_r; [apply Rle_0_sqr|]. assert (A := Nn i Hi).
  assert (Q : - (t * lam i) <= - (s * lam i)) by nra. destruct Q as [Q | Q]; [left; apply exp_increasing, Q|rewrite Q; right; reflexivity].
Qed.
Lemma heat_le_1 x t : (x < n)%nat -> 0 <= t -> heat K lam U x t <= 1.
Proof.
  intros Hx Ht. apply Rle_trans with (heat K lam U x 0); [apply heat_decay, Ht|]. unfold heat. rewrite (sum_to_ext K _ (fun i => U x i * U x i)); [apply bessel, Hx|].
  intros i _. rewrite Rmult_0_l, Ropp_0, exp_0. ring.
Qed.
(** One eigenvalue zero: the constant function. *)
Lemma heat_ge x t : symmetric n L -> rows_vanish n L -> (2 <= K)%nat -> 0 < lam 1%nat -> (forall i j, (i <= j < K)%nat -> lam i <= lam j) -> (x < n)%nat -> 1 / INR n <= heat K lam U x t.
Proof.
  intros Sy Rv HK Pos Srt Hx. set (one := fun _ : nat => 1).
  assert (E1 : Eigen n L 0 one).
  { intros y Hy. unfold applied, one. rewrite (sum_to_ext n _ (L y)) by (intros; ring). rewrite (Rv y Hy). ring. }
  assert (C : forall j, (1 <= j < K)%nat -> inner n one (fun y => U y j) = 0).
  { intros j Hj. assert (Q := eigen_orth n L 0 (lam j) one (fun y => U y j) Sy E1 (sp_eigen _ _ _ _ _ Sp j ltac:(lia))).
    assert (0 < lam j) by (assert (lam 1%nat <= lam j) by (apply Srt; lia); lra). nra. }
  set (c := inner n one (fun y => U y 0%nat)). set (r := fun y => one y - c * U y 0%nat).
  assert (Z : forall y, (y < n)%nat -> r y = 0).
  { destruct (zero_or_not n r) as [Nz | Z]; [exfalso|exact Z].
    assert (Er : Eigen n L 0 r).
    { intros y Hy. unfold r. rewrite applied_minus, (E1 y Hy). unfold applied. rewrite (sum_to_ext n _ (fun z => c * (L y z * U z 0%nat))) by (intros; ring).
      rewrite sum_to_scal. assert (Q := sp_eigen _ _ _ _ _ Sp 0%nat ltac:(lia) y Hy). unfold applied in Q. rewrite Q.
      assert (Q' := eigen_orth n L 0 (lam 0%nat) one (fun y => U y 0%nat) Sy E1 (sp_eigen _ _ _ _ _ Sp 0%nat ltac:(lia))). fold c in Q'.
      replace (c * (lam 0%nat * U y 0%nat)) with ((lam 0%nat * c) * U y 0%nat) by ring. rewrite <- Q'. ring. }
    assert (Or : forall i, (i < K)%nat -> inner n (fun y => U y i) r = 0).
    { intros i Hi. rewrite inner_sym. unfold r. rewrite inner_minus. unfold inner at 2. rewrite (sum_to_ext n _ (fun y => c * (U y 0%nat * U y i))) by (intros; ring). rewrite sum_to_scal.
      fold (inner n (fun y => U y 0%nat) (fun y => U y i)). rewrite (u_gram n L K lam U Sp 0 i ltac:(lia) Hi). destruct i as [|i]; [unfold delta; cbn [Nat.eqb]; fold c; ring|].
      rewrite (C (S i)) by lia. unfold delta. cbn [Nat.eqb]. ring. }
    assert (Q := sp_least _ _ _ _ _ Sp 0 r Nz Er Or 1%nat ltac:(lia)). rewrite Rabs_R0, Rabs_pos_eq in Q by lra. lra. }
  assert (cc : c * c = INR n).
  { transitivity (inner n one one); [|unfold inner, one; rewrite (sum_to_ext n _ (fun _ => 1)) by (intros; ring); rewrite sum_to_const; ring].
    unfold inner. rewrite (sum_to_ext n (fun x => one x * one x) (fun y => c * (one y * U y 0%nat))).
    - rewrite sum_to_scal. reflexivity.
    - intros y Hy. specialize (Z y Hy). unfold r, one in *. nra. }
  assert (Pn : 0 < INR n) by (apply lt_0_INR; lia).
  assert (Ux : U x 0%nat * U x 0%nat = 1 / INR n).
  { specialize (Z x Hx). unfold r, one in Z. rewrite <- cc in *. assert (c <> 0) by (intros ->; lra). assert (Q : U x 0%nat = / c) by (apply Rmult_eq_reg_l with c; [rewrite Rinv_r by assumption; lra|assumption]). rewrite Q. field. assumption. }
  assert (L0 : lam 0%nat = 0).
  { assert (Q' := eigen_orth n L 0 (lam 0%nat) one (fun y => U y 0%nat) Sy E1 (sp_eigen _ _ _ _ _ Sp 0%nat ltac:(lia))). fold c in Q'.
    assert (c <> 0) by (intros E; rewrite E in cc; lra). apply Rmult_eq_reg_r with c; [lra|assumption]. }
  rewrite <- Ux. unfold heat. destruct K as [|K']; [lia|]. clear - Ux L0. 
  assert (G : forall k, U x 0%nat * U x 0%nat <= sum_to (S k) (fun i => exp (- (t * lam i)) * (U x i * U x i))).
  { induction k as [|k IH]; [cbn [sum_to]; rewrite L0, Rmult_0_r, Ropp_0, exp_0; lra|]. cbn [sum_to] in *.
    assert (0 <= exp (- (t * lam (S k))) * (U x (S k) * U x (S k))) by (apply Rmult_le_pos; [apply Rlt_le, exp_pos|apply Rle_0_sqr]). lra. }
  apply G.
Qed.
End Bounds.
