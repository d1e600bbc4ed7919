(** Principal curvatures over the real numbers. *)
From Coq Require Import Reals Lra List ZArith Bool.
From Verif Require Import Num NumInst Vec Bounds GeomSpec VecR Features.
Local Open Scope R_scope.

(** [w] in the plane of the frame is an eigenvector, for [k], of the tensor with
    entries m00 m01 m01 m11 in the frame (u, v). *)
Definition eigen (m00 m01 m11 : R) (u v w : vecR) (k : R) : Prop :=
  exists x y, w = vadd (vscale x u) (vscale y v) /\ m00 * x + m01 * y = k * x /\ m01 * x + m11 * y = k * y.
Definition orthonormal (u v : vecR) : Prop := vlength u = 1 /\ vlength v = 1 /\ dot u v = 0.

Lemma jacobi_t (h : R) (t : R) : t = (if Rltb h 0 then 1 / (h - sqrt (1 + h * h)) else 1 / (h + sqrt (1 + h * h))) -> 1 - t * t = 2 * h * t.
Proof.
  intros ->. assert (Q : 0 < sqrt (1 + h * h)) by (apply sqrt_lt_R0; nra). assert (S : sqrt (1 + h * h) * sqrt (1 + h * h) = 1 + h * h) by (apply sqrt_sqrt; nra).
  set (q := sqrt (1 + h * h)) in *. clearbody q. destruct (Rltb h 0) eqn:E.
  - apply Rltb_lt in E. assert (D : h - q <> 0) by lra. apply (Rmult_eq_reg_r ((h - q) * (h - q))); [|nra].
    transitivity ((h - q) * (h - q) - 1); [field; exact D|]. transitivity (2 * h * (h - q)); [nra|field; exact D].
  - apply Rltb_false in E. assert (D : h + q <> 0) by lra. apply (Rmult_eq_reg_r ((h + q) * (h + q))); [|nra].
    transitivity ((h + q) * (h + q) - 1); [field; exact D|]. transitivity (2 * h * (h + q)); [nra|field; exact D].
Qed.
Lemma jacobi_ok (a b d : R) : let '(t, c, s) := @jacobi NumR a b d in
  s = t * c /\ c * c + s * s = 1 /\ (1 - t * t) * b = (d - a) * t.
Proof.
  unfold jacobi. rn. destruct (Reqb b 0) eqn:E.
  - apply Reqb_eq in E. subst. repeat split; ring.
  - apply Reqb_false in E. set (h := / 2 * (d - a) / b). set (t := if Rltb h 0 then _ else _). assert (J := jacobi_t h t eq_refl). clearbody t.
    assert (Q : 0 < sqrt (1 + t * t)) by (apply sqrt_lt_R0; nra). assert (S : sqrt (1 + t * t) * sqrt (1 + t * t) = 1 + t * t) by (apply sqrt_sqrt; nra). set (q := sqrt (1 + t * t)) in *. clearbody q.
    split; [reflexivity|]. split.
    + replace (1 / q * (1 / q) + t * (1 / q) * (t * (1 / q))) with ((1 + t * t) / (q * q)) by (field; lra). rewrite S. field. nra.
    + rewrite J. unfold h. field. exact E.
Qed.
Lemma combo_len u v x y : orthonormal u v -> dot (vadd (vscale x u) (vscale y v)) (vadd (vscale x u) (vscale y v)) = x * x + y * y.
Proof.
  intros (U & V & W). assert (UU : dot u u = 1) by (rewrite <- vlength_sq, U; rg). assert (VV : dot v v = 1) by (rewrite <- vlength_sq, V; rg).
  transitivity (x * x * dot u u + 2 * (x * y) * dot u v + y * y * dot v v); [dring|]. rewrite UU, VV, W. rn. ring.
Qed.
Lemma unit_len (w : vecR) : dot w w = 1 -> vlength w = 1.
Proof. intros H. unfold Vec.vlength. rewrite H. rn. apply sqrt_1. Qed.

(** cross n t, for n = u x v, rotates t by a right angle in the plane of u and v. *)
Lemma rot90 u v x y : orthonormal u v -> cross (cross u v) (vadd (vscale x u) (vscale y v)) = vadd (vscale (- y) u) (vscale x v).
Proof.
  intros (U & V & W). assert (UU : dot u u = 1) by (rewrite <- vlength_sq, U; rg). assert (VV : dot v v = 1) by (rewrite <- vlength_sq, V; rg).
  assert (T : forall p q r : vecR, cross (cross p q) r = vsub (vscale (dot p r) q) (vscale (dot q r) p)) by (intros; rewrite !dot_eq; vring).
  rewrite T. replace (dot u (vadd (vscale x u) (vscale y v))) with (x * dot u u + y * dot u v) by dring. replace (dot v (vadd (vscale x u) (vscale y v))) with (x * dot u v + y * dot v v) by dring.
  rewrite UU, VV, W. vring.
Qed.

Lemma principal_ok (a b d : R) (u v : vecR) : orthonormal u v ->
  exists (kM km : R) (tM tm : vecR), @principal NumR a b d u v (cross u v) = Some (kM, km, tM, tm) /\ kM >= km /\ kM + km = a + d /\ kM * km = a * d - b * b /\
   ((Rabs (km - kM) < / 10 ^ 6 /\ tM = vzero /\ tm = vzero) \/
    (/ 10 ^ 6 <= Rabs (km - kM) /\ vlength tM = 1 /\ vlength tm = 1 /\ dot tM tm = 0 /\ eigen a b d u v tM km /\ eigen a b d u v tm kM)).
Proof.
  intros O. assert (J := jacobi_ok a b d). unfold principal. destruct (@jacobi NumR a b d) as [[t c] s]. destruct J as (Es & U1 & Et). rn.
  assert (Esum : (a - t * b) + (d + t * b) = a + d) by ring.
  assert (Etc : c * ((1 - t * t) * b) = c * ((d - a) * t)) by (rewrite Et; reflexivity).
  assert (Eprod : (a - t * b) * (d + t * b) = a * d - b * b) by (assert (Et2 : b * ((1 - t * t) * b) = b * ((d - a) * t)) by (rewrite Et; reflexivity); rl).
  assert (N1 : forall x y, x * x + y * y = 1 -> normalize (cross (cross u v) (vadd (vscale x u) (vscale y v))) = Some (vadd (vscale (- y) u) (vscale x v)) /\ vlength (vadd (vscale x u) (vscale y v)) = 1 /\ vlength (vadd (vscale (- y) u) (vscale x v)) = 1
     /\ dot (vadd (vscale x u) (vscale y v)) (vadd (vscale (- y) u) (vscale x v)) = 0).
  { intros x y H. rewrite (rot90 u v x y O). assert (L2 : vlength (vadd (vscale (- y) u) (vscale x v)) = 1) by (apply unit_len; rewrite (combo_len u v _ _ O); rewrite <- H; rn; ring).
    split; [|split; [|split; [exact L2|]]].
    - unfold normalize. rewrite L2. rewrite vdiv_ok by lra. f_equal. replace (/ 1) with 1 by field. apply vscale_one.
    - apply unit_len. rewrite (combo_len u v _ _ O). exact H.
    - destruct O as (Hu & Hv & Huv). assert (UU : dot u u = 1) by (rewrite <- vlength_sq, Hu; rg). assert (VV : dot v v = 1) by (rewrite <- vlength_sq, Hv; rg).
      transitivity (x * - y * dot u u + (x * x - y * y) * dot u v + x * y * dot v v); [dring|]. rewrite UU, VV, Huv. rn. ring. }
  assert (M : vsub (vscale c u) (vscale s v) = vadd (vscale c u) (vscale (- s) v)) by vring.
  destruct (Rltb (a - t * b) (d + t * b)) eqn:E.
  - apply Rltb_lt in E. rewrite M. destruct (N1 c (- s) ltac:(lra)) as (Nz & L1 & L2 & D0). rewrite Nz. unfold neps6. cbn [NumR].
    destruct (Rltb (Rabs (a - t * b - (d + t * b))) (/ 10 ^ 6)) eqn:F.
    + do 4 eexists. split; [reflexivity|]. split; [lra|]. split; [lra|]. split; [lra|]. left. apply Rltb_lt in F. tauto.
    + do 4 eexists. split; [reflexivity|]. split; [lra|]. split; [lra|]. split; [lra|]. right. apply Rltb_false in F. split; [exact F|]. split; [exact L1|]. split; [exact L2|]. split; [exact D0|]. split.
      * exists c, (- s). split; [reflexivity|]. subst s. split; [ring|]. lra.
      * exists (- - s), c. split; [reflexivity|]. subst s. split; [lra|ring].
  - apply Rltb_false in E. destruct (N1 s c ltac:(lra)) as (Nz & L1 & L2 & D0). rewrite Nz. unfold neps6. cbn [NumR].
    destruct (Rltb (Rabs (d + t * b - (a - t * b))) (/ 10 ^ 6)) eqn:F.
    + do 4 eexists. split; [reflexivity|]. split; [lra|]. split; [lra|]. split; [lra|]. left. apply Rltb_lt in F. tauto.
    + do 4 eexists. split; [reflexivity|]. split; [lra|]. split; [lra|]. split; [lra|]. right. apply Rltb_false in F. split; [exact F|]. split; [exact L1|]. split; [exact L2|]. split; [exact D0|]. split.
      * exists s, c. split; [reflexivity|]. subst s. split; [lra|ring].
      * exists (- c), s. split; [reflexivity|]. subst s. split; [ring|lra].
Qed.
(** The returned directions are exchanged: with the tensor diag(0, 1) the direction
    returned for k_max = 1 is an eigenvector for 0 and not for 1. *)
Lemma principal_swapped : exists (a b d : R) (u v : vecR) (kM km : R) (tM tm : vecR), orthonormal u v /\ @principal NumR a b d u v (cross u v) = Some (kM, km, tM, tm) /\
  tM <> vzero /\ ~ eigen a b d u v tM kM /\ ~ eigen a b d u v tm km.
Proof.
  set (u := v3 1 0 0). set (v := v3 0 1 0).
  assert (O : orthonormal u v). { split; [|split]; [apply unit_len| apply unit_len|]; subst u v; rewrite dot_eq; unfold v3; rl. }
  destruct (principal_ok 0 0 1 u v O) as (kM & km & tM & tm & E & G & S & P & D). exists 0, 0, 1, u, v, kM, km, tM, tm. split; [exact O|]. split; [exact E|].
  assert (K : kM = 1 /\ km = 0). { assert (km = 0 \/ km = 1) by (assert (km * (km - 1) = 0) by nra; destruct (Rmult_integral _ _ H); [left|right]; lra). destruct H; subst; lra. }
  destruct K as [-> ->]. destruct D as [(A & _) | (_ & L1 & L2 & D0 & (x & y & Ex & X1 & X2) & (x' & y' & Ex' & Y1 & Y2))].
  { exfalso. replace (0 - 1) with (- (1)) in A by ring. rewrite Rabs_Ropp, Rabs_R1 in A. assert (/ 10 ^ 6 < 1) by (apply Rmult_lt_reg_r with (10 ^ 6); [lra|]; rewrite Rinv_l; lra). lra. }
  assert (C : forall x y, vadd (vscale x u) (vscale y v) = v3 x y 0) by (intros; subst u v; vring).
  assert (Hy : y = 0) by lra. assert (Hx' : x' = 0) by lra. subst y x'. rewrite C in Ex, Ex'. split; [intros Z; rewrite Z in L1; rewrite (proj2 (vlength_zero vzero) eq_refl) in L1; rl|].
  split.
  - intros (p & q & W & W1 & W2). rewrite C, Ex in W. injection W as Wx Wy. rn. assert (x = 0) by lra. rewrite Ex in L1. unfold Vec.vlength in L1. subst x. rewrite H in L1. rewrite dot_eq in L1. unfold v3 in L1. rn. replace (0 * 0 + 0 * 0 + 0 * 0) with 0 in L1 by ring. rewrite sqrt_0 in L1. lra.
  - intros (p & q & W & W1 & W2). rewrite C, Ex' in W. injection W as Wx Wy. rn. assert (y' = 0) by lra. rewrite Ex' in L2. unfold Vec.vlength in L2. subst y'. rewrite H in L2. rewrite dot_eq in L2. unfold v3 in L2. rn. replace (0 * 0 + 0 * 0 + 0 * 0) with 0 in L2 by ring. rewrite sqrt_0 in L2. lra.
Qed.
