(** The least squares problem of the derivatives of the curvatures. *)
From Coq Require Import Reals Lra Lia List ZArith Bool Arith.
From Verif Require Import Num NumInst Vec GeomSpec VecR LaplSpec LinR Heap Features FeaturesR Tensor TensorSpec TensorR Deriv DerivSpec.
Import ListNotations.
Local Open Scope R_scope.

Lemma cubic_eq (t t' : cubic NumR) : c0 t = c0 t' -> c1 t = c1 t' -> c2 t = c2 t' -> c3 t = c3 t' -> t = t'.
Proof. destruct t, t'. cbn. intros -> -> -> ->. reflexivity. Qed.
Lemma cubic_dec (t t' : cubic NumR) : t <> t' -> c0 t - c0 t' <> 0 \/ c1 t - c1 t' <> 0 \/ c2 t - c2 t' <> 0 \/ c3 t - c3 t' <> 0.
Proof.
  intros H. destruct (Req_dec (c0 t - c0 t') 0) as [A | A]; [|auto]. destruct (Req_dec (c1 t - c1 t') 0) as [B | B]; [|auto]. destruct (Req_dec (c2 t - c2 t') 0) as [C | C]; [|auto]. destruct (Req_dec (c3 t - c3 t') 0) as [D | D]; [|auto].
  exfalso. apply H, cubic_eq; change (@num NumR) with R in *; lra.
Qed.
Section Fit.
Variables u0 v0 u1 v1 u2 v2 : R.
Hypothesis D : u0 * v1 - u1 * v0 <> 0.
Definition sq3 (u v x y z w : R) : R := (x * u + y * v) ^ 2 + 2 * (y * u + z * v) ^ 2 + (z * u + w * v) ^ 2.
Lemma sq3_pos u v x y z w : 0 <= sq3 u v x y z w.
Proof. unfold sq3. assert (A := pow2_ge_0 (x * u + y * v)). assert (B := pow2_ge_0 (y * u + z * v)). assert (C := pow2_ge_0 (z * u + w * v)). lra. Qed.
Lemma sq3_zero u v x y z w : sq3 u v x y z w = 0 -> x * u + y * v = 0 /\ y * u + z * v = 0 /\ z * u + w * v = 0.
Proof.
  unfold sq3. intros E. assert (A := pow2_ge_0 (x * u + y * v)). assert (B := pow2_ge_0 (y * u + z * v)). assert (C := pow2_ge_0 (z * u + w * v)).
  assert (S : forall r, r ^ 2 = 0 -> r = 0) by (intros r Hr; apply Rsqr_0_uniq; rewrite <- Hr; unfold Rsqr; ring). repeat split; apply S; lra.
Qed.
Lemma squares_pos4 x y z w : x <> 0 \/ y <> 0 \/ z <> 0 \/ w <> 0 -> 0 < sq3 u0 v0 x y z w + sq3 u1 v1 x y z w + sq3 u2 v2 x y z w.
Proof.
  intros H. assert (P0 := sq3_pos u0 v0 x y z w). assert (P1 := sq3_pos u1 v1 x y z w). assert (P2 := sq3_pos u2 v2 x y z w).
  destruct (Rlt_dec 0 (sq3 u0 v0 x y z w + sq3 u1 v1 x y z w)) as [G | G]; [lra|]. exfalso.
  destruct (sq3_zero u0 v0 x y z w ltac:(lra)) as (A & B & C). destruct (sq3_zero u1 v1 x y z w ltac:(lra)) as (A' & B' & C').
  assert (K : forall a b, a * u0 + b * v0 = 0 -> a * u1 + b * v1 = 0 -> a = 0 /\ b = 0).
  { intros a b E E'. assert (X : a * (u0 * v1 - u1 * v0) = 0) by (replace (a * (u0 * v1 - u1 * v0)) with ((a * u0 + b * v0) * v1 - (a * u1 + b * v1) * v0) by ring; rewrite E, E'; ring).
    assert (Y : b * (u0 * v1 - u1 * v0) = 0) by (replace (b * (u0 * v1 - u1 * v0)) with ((a * u1 + b * v1) * u0 - (a * u0 + b * v0) * u1) by ring; rewrite E, E'; ring).
    destruct (Rmult_integral _ _ X); [|contradiction]. destruct (Rmult_integral _ _ Y); [|contradiction]. split; assumption. }
  destruct (K _ _ A A'), (K _ _ B B'), (K _ _ C C'). tauto.
Qed.
Variables f0 k0 l0 f1 k1 l1 f2 k2 l2 : R.
Definition fit4R : fit4 (N := NumR) := Fit4 (N := NumR) (u0 * u0 + u1 * u1 + u2 * u2) (u0 * v0 + u1 * v1 + u2 * v2) (v0 * v0 + v1 * v1 + v2 * v2)
  (u0 * f0 + u1 * f1 + u2 * f2) ((v0 * f0 + 2 * u0 * k0) + (v1 * f1 + 2 * u1 * k1) + (v2 * f2 + 2 * u2 * k2))
  ((2 * v0 * k0 + u0 * l0) + (2 * v1 * k1 + u1 * l1) + (2 * v2 * k2 + u2 * l2)) (v0 * l0 + v1 * l1 + v2 * l2).
Lemma fit4_sym : symmetric 4 (fit4_matrix (N := NumR) fit4R).
Proof. intros i j Hi Hj. destruct i as [|[|[|[|]]]]; try lia; destruct j as [|[|[|[|]]]]; try lia; reflexivity. Qed.
Lemma fit4_posdef : posdef 4 (fit4_matrix (N := NumR) fit4R).
Proof.
  intros x (i & Hi & Ni). assert (H : x 0%nat <> 0 \/ x 1%nat <> 0 \/ x 2%nat <> 0 \/ x 3%nat <> 0) by (destruct i as [|[|[|[|]]]]; [auto|auto|auto|auto|lia]).
  assert (Q := squares_pos4 _ _ _ _ H).
  replace (qform 4 (fit4_matrix (N := NumR) fit4R) x) with (sq3 u0 v0 (x 0%nat) (x 1%nat) (x 2%nat) (x 3%nat) + sq3 u1 v1 (x 0%nat) (x 1%nat) (x 2%nat) (x 3%nat) + sq3 u2 v2 (x 0%nat) (x 1%nat) (x 2%nat) (x 3%nat)); [exact Q|].
  unfold qform, fit4_matrix, fit4R, sq3. cbn [sum_to g00 g01 g33 h0 h1 h2 h3]. rn. ring.
Qed.
Definition er3 (u v f k l x y z w : R) : R := (x * u + y * v - f) ^ 2 + 2 * (y * u + z * v - k) ^ 2 + (z * u + w * v - l) ^ 2.
Definition err4 (x y z w : R) : R := er3 u0 v0 f0 k0 l0 x y z w + er3 u1 v1 f1 k1 l1 x y z w + er3 u2 v2 f2 k2 l2 x y z w.
Lemma fit4_min solve : ExactSolver solve -> let t := fit4_solve (N := NumR) solve fit4R in forall t', t' <> t -> err4 (c0 t) (c1 t) (c2 t) (c3 t) < err4 (c0 t') (c1 t') (c2 t') (c3 t').
Proof.
  intros HS t t' Ne. assert (X := HS 4%nat _ (fit4_rhs (N := NumR) fit4R) fit4_sym fit4_posdef). assert (X0 := X 0%nat ltac:(lia)). assert (X1 := X 1%nat ltac:(lia)). assert (X2 := X 2%nat ltac:(lia)). assert (X3 := X 3%nat ltac:(lia)). clear X.
  cbn [sum_to fit4_matrix fit4_rhs] in X0, X1, X2, X3.
  change (solve 4%nat (fit4_matrix (N := NumR) fit4R) (fit4_rhs (N := NumR) fit4R) 0%nat) with (c0 t) in *. change (solve 4%nat (fit4_matrix (N := NumR) fit4R) (fit4_rhs (N := NumR) fit4R) 1%nat) with (c1 t) in *.
  change (solve 4%nat (fit4_matrix (N := NumR) fit4R) (fit4_rhs (N := NumR) fit4R) 2%nat) with (c2 t) in *. change (solve 4%nat (fit4_matrix (N := NumR) fit4R) (fit4_rhs (N := NumR) fit4R) 3%nat) with (c3 t) in *.
  unfold fit4R in X0, X1, X2, X3. cbn [g00 g01 g33 h0 h1 h2 h3] in X0, X1, X2, X3. change (@num NumR) with R in *. rn.
  assert (Q := squares_pos4 _ _ _ _ (cubic_dec t' t Ne)). set (x := c0 t) in *. set (y := c1 t) in *. set (z := c2 t) in *. set (w := c3 t) in *. set (dx := c0 t' - x) in *. set (dy := c1 t' - y) in *. set (dz := c2 t' - z) in *. set (dw := c3 t' - w) in *.
  replace (c0 t') with (x + dx) by (unfold dx; ring). replace (c1 t') with (y + dy) by (unfold dy; ring). replace (c2 t') with (z + dz) by (unfold dz; ring). replace (c3 t') with (w + dw) by (unfold dw; ring). clearbody x y z w dx dy dz dw.
  set (A := u0 * u0 + u1 * u1 + u2 * u2) in *. set (B := u0 * v0 + u1 * v1 + u2 * v2) in *. set (C := v0 * v0 + v1 * v1 + v2 * v2) in *.
  set (b0 := u0 * f0 + u1 * f1 + u2 * f2) in *. set (b1 := v0 * f0 + 2 * u0 * k0 + (v1 * f1 + 2 * u1 * k1) + (v2 * f2 + 2 * u2 * k2)) in *. set (b2 := 2 * v0 * k0 + u0 * l0 + (2 * v1 * k1 + u1 * l1) + (2 * v2 * k2 + u2 * l2)) in *. set (b3 := v0 * l0 + v1 * l1 + v2 * l2) in *.
  assert (E : err4 (x + dx) (y + dy) (z + dz) (w + dw) - err4 x y z w = (sq3 u0 v0 dx dy dz dw + sq3 u1 v1 dx dy dz dw + sq3 u2 v2 dx dy dz dw)
    + 2 * (dx * (A * x + B * y - b0) + dy * (B * x + (2 * A + C) * y + 2 * B * z - b1) + dz * (2 * B * y + (A + 2 * C) * z + B * w - b2) + dw * (B * z + C * w - b3)))
    by (unfold err4, er3, sq3, A, B, C, b0, b1, b2, b3; ring).
  clearbody A B C b0 b1 b2 b3. rewrite Rplus_0_l in X0, X1, X2, X3.
  replace (A * x + B * y - b0) with 0 in E by lra. replace (B * x + (2 * A + C) * y + 2 * B * z - b1) with 0 in E by lra. replace (2 * B * y + (A + 2 * C) * z + B * w - b2) with 0 in E by lra. replace (B * z + C * w - b3) with 0 in E by lra.
  lra.
Qed.
End Fit.

(** The entries of a form in a frame. *)
Definition entries (F : frame NumR) (B : vecR -> vecR -> R) (t : tensor NumR) : Prop :=
  t00 t = B (fr_u F) (fr_u F) /\ t01 t = B (fr_u F) (fr_v F) /\ t01 t = B (fr_v F) (fr_u F) /\ t11 t = B (fr_v F) (fr_v F).
Lemma fit4_best solve (F : frame NumR) (p0 p1 p2 : vecR) B0 B1 B2 m0 m1 m2 : ExactSolver solve -> FaceFrame F p0 p1 p2 -> 0 < vlength (cross (vsub p1 p0) (vsub p2 p0)) ->
  entries F B0 m0 -> entries F B1 m1 -> entries F B2 m2 ->
  BestFit3 F (fit4_solve (N := NumR) solve (fit4_system (N := NumR) F p0 p1 p2 m0 m1 m2)) p0 p1 p2 B0 B1 B2.
Proof.
  intros HS HF P (E00 & E01 & E02 & E03) (E10 & E11 & E12 & E13) (E20 & E21 & E22 & E23). unfold BestFit3. cbv zeta.
  set (u0 := dot (vsub p2 p1) (fr_u F)). set (v0 := dot (vsub p2 p1) (fr_v F)). set (u1 := dot (vsub p0 p2) (fr_u F)). set (v1 := dot (vsub p0 p2) (fr_v F)). set (u2 := dot (vsub p1 p0) (fr_u F)). set (v2 := dot (vsub p1 p0) (fr_v F)).
  change (@num NumR) with R in *.
  assert (E : fit4_system (N := NumR) F p0 p1 p2 m0 m1 m2 = fit4R u0 v0 u1 v1 u2 v2 (t00 m2 - t00 m1) (t01 m2 - t01 m1) (t11 m2 - t11 m1) (t00 m0 - t00 m2) (t01 m0 - t01 m2) (t11 m0 - t11 m2) (t00 m1 - t00 m0) (t01 m1 - t01 m0) (t11 m1 - t11 m0)).
  { unfold fit4_system, fit4_edge, fit4R, tsub. cbv zeta. cbn [g00 g01 g33 h0 h1 h2 h3 t00 t01 t11]. fold u0 v0 u1 v1 u2 v2. rn. clearbody u0 v0 u1 v1 u2 v2. f_equal; change (@num NumR) with R in *; ring. }
  rewrite E. intros t' Ne. assert (Dt := edges_det F p0 p1 p2 HF P). fold u0 v0 u1 v1 in Dt. assert (H := fit4_min u0 v0 u1 v1 u2 v2 Dt _ _ _ _ _ _ _ _ _ solve HS t' Ne). cbv zeta in H.
  assert (T : forall t, total_misfit3 F t [(vsub p1 p0, change B0 B1); (vsub p2 p1, change B1 B2); (vsub p0 p2, change B2 B0)] = err4 u0 v0 u1 v1 u2 v2 (t00 m2 - t00 m1) (t01 m2 - t01 m1) (t11 m2 - t11 m1) (t00 m0 - t00 m2) (t01 m0 - t01 m2) (t11 m0 - t11 m2) (t00 m1 - t00 m0) (t01 m1 - t01 m0) (t11 m1 - t11 m0) (c0 t) (c1 t) (c2 t) (c3 t)).
  { intros t. destruct HF as [O _]. destruct O as [Ou Ov _ Ouv _ _]. unfold total_misfit3, misfit3, cform, change, err4, er3. cbn [map fold_right fst snd]. cbv zeta. rewrite Ou, Ov, Ouv, (dot_sym (fr_v F) (fr_u F)), Ouv. fold u0 v0 u1 v1 u2 v2.
    rewrite <- E00, <- E01, <- E02, <- E03, <- E10, <- E11, <- E12, <- E13, <- E20, <- E21, <- E22, <- E23. rn. clearbody u0 v0 u1 v1 u2 v2. clear - t. change (@num NumR) with R in *. ring. }
  rewrite !T. exact H.
Qed.

(** The forms at the corners. *)
Lemma some_inj {A} (a b : A) : Some a = Some b -> a = b. Proof. intros E. injection E. auto. Qed.
Lemma third_form (F0 : frame NumR) (t0 : cubic NumR) (x y z : vecR) : thirdForm (N := NumR) t0 (in_frame (N := NumR) x F0) (in_frame (N := NumR) y F0) (in_frame (N := NumR) z F0) = cform F0 t0 x y z.
Proof. unfold thirdForm, in_frame, cform. cbn [fst snd]. cbv zeta. rn. change (@num NumR) with R. generalize (dot x (fr_u F0)), (dot x (fr_v F0)), (dot y (fr_u F0)), (dot y (fr_v F0)), (dot z (fr_u F0)), (dot z (fr_v F0)). intros. change (@num NumR) with R in *. ring. Qed.
Lemma corner_ok F (x : pc NumR) (n : vecR) t : Orthonormal F -> vlength n = 1 -> corner_form (N := NumR) cos sin F x n = Some t -> exists B, AtCorner F n x B /\ entries F B t.
Proof.
  intros O Un E. unfold corner_form in E. destruct (rotationFromTwoVectors (N := NumR) cos sin (fr_n F) n) as [Q|] eqn:EQ; [|discriminate E]. apply some_inj in E. subst t.
  exists (fun y z => shape x (mapp (N := NumR) Q y) (mapp (N := NumR) Q z)). split.
  - exists (mapp (N := NumR) Q). split; [apply rot_ok; [apply unit_dot, (on_n _ O)|exact Un|exact EQ]|reflexivity].
  - unfold entries, shape, secondForm.
    set (a1 := dot (mapp (N := NumR) Q (fr_u F)) (t_max x)). set (a2 := dot (mapp (N := NumR) Q (fr_u F)) (t_min x)). set (a3 := dot (mapp (N := NumR) Q (fr_v F)) (t_max x)). set (a4 := dot (mapp (N := NumR) Q (fr_v F)) (t_min x)). clearbody a1 a2 a3 a4.
    cbn [t00 t01 t11 fst snd]. rn. generalize (k_max x), (k_min x). intros. change (@num NumR) with R in *. repeat split; ring.
Qed.
Lemma corner_some F (x : pc NumR) (n : vecR) : Orthonormal F -> vlength n = 1 -> -1 < dot (fr_n F) n -> exists t, corner_form (N := NumR) cos sin F x n = Some t.
Proof.
  intros O Un D. unfold corner_form. destruct (rot_some (fr_n F) n) as [Q ->]; [apply unit_dot, (on_n _ O)|exact Un|exact D|]. eauto.
Qed.

(** The principal directions. *)
Lemma principal_span (a b d : R) (u v n : vecR) x : @principal NumR a b d u v n = Some x -> exists p q : R, t_max (N := NumR) x = vadd (vscale p u) (vscale q v).
Proof.
  unfold principal. destruct (@jacobi NumR a b d) as [[t c] s].
  assert (Z : exists p q : R, vzero = vadd (vscale p u) (vscale q v)) by (exists 0, 0; vring).
  destruct (nltb _ _); (destruct (normalize _) as [w|]; [|discriminate]); (destruct (nltb _ _); intros E; injection E as <-; cbn [t_max]; [exact Z|]).
  - exists c, (- s). vring.
  - exists s, c. reflexivity.
Qed.
Lemma principal_some (a b d : R) (u v n : vecR) : dot v v = 1 -> dot n n = 1 -> dot n v = 0 -> cross n u <> vzero -> vscale (vlength (cross n u)) v = cross n u -> exists x, @principal NumR a b d u v n = Some x.
Proof.
  intros Vv Nn Nv Cn Sv. assert (J := jacobi_ok a b d). unfold principal. destruct (@jacobi NumR a b d) as [[t c] s]. destruct J as (_ & U1 & _).
  assert (K : forall p q : R, p * p + q * q = 1 -> exists w, normalize (cross n (vadd (vscale p u) (vscale q v))) = Some w).
  { intros p q Hpq. destruct (normalize_unit (cross n (vadd (vscale p u) (vscale q v)))) as (w & Ew & _); [|eauto]. intros Z.
    set (k := vlength (cross n u)) in *. assert (Pk : 0 < k) by (apply nonzero_len, Cn).
    assert (E : cross n (vadd (vscale p u) (vscale q v)) = vadd (vscale (p * k) v) (vscale q (cross n v))) by (transitivity (vadd (vscale p (cross n u)) (vscale q (cross n v))); [vring|rewrite <- Sv; vring]).
    assert (D1 : dot (cross n (vadd (vscale p u) (vscale q v))) v = p * k) by (rewrite E; transitivity (p * k * dot v v); [dring|rewrite Vv; rg]).
    assert (D2 : dot (cross n (vadd (vscale p u) (vscale q v))) (cross n v) = q).
    { rewrite E. transitivity (q * (dot n n * dot v v - dot n v * dot n v)); [dring|]. rewrite Vv, Nn, Nv. rg. }
    rewrite Z in D1, D2. assert (X1 : p * k = 0) by (rewrite <- D1; dring). assert (X2 : q = 0) by (rewrite <- D2; dring). destruct (Rmult_integral _ _ X1) as [P0 | P0]; [rewrite P0, X2 in Hpq; lra|change (@num NumR) with R in *; lra]. }
  match goal with |- context [if ?x then (_, _, _) else _] => destruct x end.
  - destruct (K c (- s)) as [w Ew]; [rewrite <- U1; ring|]. assert (X : vsub (vscale c u) (vscale s v) = vadd (vscale c u) (vscale (- s) v)) by vring. rewrite X, Ew. destruct (nltb _ _); eauto.
  - destruct (K s c) as [w Ew]; [rewrite <- U1; ring|]. rewrite Ew. destruct (nltb _ _); eauto.
Qed.
Lemma in_plane_span F (p q : R) : dot (fr_u F) (fr_u F) = 1 -> dot (fr_v F) (fr_v F) = 1 -> dot (fr_u F) (fr_v F) = 0 -> in_plane F (vadd (vscale p (fr_u F)) (vscale q (fr_v F))) = vadd (vscale p (fr_u F)) (vscale q (fr_v F)).
Proof.
  intros U V W. unfold in_plane. assert (X : dot (vadd (vscale p (fr_u F)) (vscale q (fr_v F))) (fr_u F) = p).
  { transitivity (p * dot (fr_u F) (fr_u F) + q * dot (fr_u F) (fr_v F)); [dring|]. rewrite U, W. rg. }
  assert (Y : dot (vadd (vscale p (fr_u F)) (vscale q (fr_v F))) (fr_v F) = q).
  { transitivity (p * dot (fr_u F) (fr_v F) + q * dot (fr_v F) (fr_v F)); [dring|]. rewrite V, W. rg. }
  rewrite X, Y. reflexivity.
Qed.

(** The principal directions are interchanged ([principal_ok]), so the form is the wrong one. *)
Theorem shape_wrong (F : frame NumR) (t : tensor NumR) : Orthonormal F -> fr_n F = cross (fr_u F) (fr_v F) ->
  exists x, @principal NumR (t00 t) (t01 t) (t11 t) (fr_u F) (fr_v F) (fr_n F) = Some x /\
   (k_max (N := NumR) x - k_min (N := NumR) x < / 10 ^ 6 -> forall y z, shape x y z = 0) /\
   (/ 10 ^ 6 <= k_max (N := NumR) x - k_min (N := NumR) x -> forall y z, shape x (in_plane F y) (in_plane F z) = (t00 t + t11 t) * dot (in_plane F y) (in_plane F z) - form F t (in_plane F y) (in_plane F z)).
Proof.
  intros O En. destruct F as [u v n], t as [a b d]. cbn [fr_u fr_v fr_n t00 t01 t11] in *. subst n. destruct O as [Ou Ov _ Ouv _ _]. cbn [fr_u fr_v fr_n] in *.
  assert (ON : orthonormal u v) by (repeat split; [apply unit_dot, Ou|apply unit_dot, Ov|exact Ouv]).
  destruct (principal_ok a b d u v ON) as (kM & km & tM & tm & E & Ge & S1 & S2 & Cs). exists (kM, km, tM, tm). split; [exact E|]. cbn [k_max k_min]. change (@num NumR) with R in *.
  assert (A : Rabs (km - kM) = kM - km) by (rewrite Rabs_minus_sym; apply Rabs_right; lra). rewrite A in Cs. split.
  - intros Lt y z. destruct Cs as [(_ & -> & ->) | (Ge2 & _)]; [|lra]. unfold shape. cbn [k_max k_min t_max t_min]. transitivity (kM * (dot y vzero * dot z vzero) + km * (dot y vzero * dot z vzero)); [reflexivity|]. assert (Z : dot y vzero = 0) by dring. rewrite Z. rg.
  - intros Ge2 y z. destruct Cs as [(Lt & _) | (_ & LM & Lm & Dt & (x1 & y1 & E1 & E1a & E1b) & (x2 & y2 & E2 & E2a & E2b))]; [lra|].
    apply unit_dot in LM, Lm. rewrite E1 in LM, Dt. rewrite E2 in Lm, Dt. rewrite (combo_len u v x1 y1 ON) in LM. rewrite (combo_len u v x2 y2 ON) in Lm.
    assert (D : x1 * x2 + y1 * y2 = 0) by (rewrite <- Dt; transitivity (x1 * x2 * dot u u + (x1 * y2 + y1 * x2) * dot u v + y1 * y2 * dot v v); [rewrite Ou, Ov, Ouv; ring|dring]).
    unfold shape, in_plane, form. cbn [k_max k_min t_max t_min fr_u fr_v t00 t01 t11]. rewrite E1, E2.
    set (p := dot y u). set (q := dot y v). set (p' := dot z u). set (q' := dot z v).
    assert (C1 : forall s t x' y' : R, dot (vadd (vscale s u) (vscale t v)) (vadd (vscale x' u) (vscale y' v)) = s * x' + t * y').
    { intros. transitivity (s * x' * dot u u + (s * y' + t * x') * dot u v + t * y' * dot v v); [dring|]. rewrite Ou, Ov, Ouv. rg. }
    assert (C2 : forall s t : R, dot (vadd (vscale s u) (vscale t v)) u = s) by (intros; transitivity (s * dot u u + t * dot u v); [dring|rewrite Ou, Ouv; rg]).
    assert (C3 : forall s t : R, dot (vadd (vscale s u) (vscale t v)) v = t) by (intros; transitivity (s * dot u v + t * dot v v); [dring|rewrite Ov, Ouv; rg]).
    rewrite !C1, !C2, !C3. clearbody p q p' q'. clear C1 C2 C3 E1 E2 Dt E. change (@num NumR) with R in *. rn.
    (* kM tM tM + km tm tm = (a + d) I - S, entry by entry *)
    assert (R : (x2 = - y1 /\ y2 = x1) \/ (x2 = y1 /\ y2 = - x1)).
    { assert (L1 : x1 * x1 + y1 * y1 = 1) by exact LM. assert (L2 : x2 * x2 + y2 * y2 = 1) by exact Lm.
      assert (T : (x1 * y2 - y1 * x2) * (x1 * y2 - y1 * x2) = 1) by (replace ((x1 * y2 - y1 * x2) * (x1 * y2 - y1 * x2)) with ((x1 * x1 + y1 * y1) * (x2 * x2 + y2 * y2) - (x1 * x2 + y1 * y2) * (x1 * x2 + y1 * y2)) by ring; rewrite L1, L2, D; ring).
      assert (T2 : x1 * y2 - y1 * x2 = 1 \/ x1 * y2 - y1 * x2 = -1) by (destruct (Rmult_integral (x1 * y2 - y1 * x2 - 1) (x1 * y2 - y1 * x2 + 1)); [replace ((x1 * y2 - y1 * x2 - 1) * (x1 * y2 - y1 * x2 + 1)) with ((x1 * y2 - y1 * x2) * (x1 * y2 - y1 * x2) - 1) by ring; rewrite T; ring|left; lra|right; lra]).
      assert (X2 : x2 = - y1 * (x1 * y2 - y1 * x2)) by (transitivity (x2 * (x1 * x1 + y1 * y1) - x1 * (x1 * x2 + y1 * y2)); [rewrite L1, D; ring|ring]).
      assert (Y2 : y2 = x1 * (x1 * y2 - y1 * x2)) by (transitivity (y2 * (x1 * x1 + y1 * y1) - y1 * (x1 * x2 + y1 * y2)); [rewrite L1, D; ring|ring]).
      destruct T2 as [T2 | T2]; rewrite T2 in X2, Y2; [left|right]; split; lra. }
    assert (L1 : x1 * x1 + y1 * y1 = 1) by exact LM. rn. change (@num NumR) with R in *.
    assert (Q : a * x1 + b * y1 = km * x1 /\ b * x1 + d * y1 = km * y1 /\ - a * y1 + b * x1 = - (kM * y1) /\ - b * y1 + d * x1 = kM * x1) by (destruct R as [[-> ->] | [-> ->]]; repeat split; lra).
    assert (SS : x2 * x2 = y1 * y1 /\ y2 * y2 = x1 * x1 /\ x2 * y2 = - (x1 * y1)) by (destruct R as [[-> ->] | [-> ->]]; repeat split; ring). destruct SS as (SS1 & SS2 & SS3).
    destruct Q as (Q1 & Q2 & Q3 & Q4). clear R.
    assert (A0 : a = km * (x1 * x1) + kM * (y1 * y1)) by (transitivity ((a * x1 + b * y1) * x1 - (- a * y1 + b * x1) * y1); [transitivity (a * (x1 * x1 + y1 * y1)); [rewrite L1; ring|ring]|rewrite Q1, Q3; ring]).
    assert (B0 : b = (km - kM) * (x1 * y1)) by (transitivity ((a * x1 + b * y1) * y1 + (- a * y1 + b * x1) * x1); [transitivity (b * (x1 * x1 + y1 * y1)); [rewrite L1; ring|ring]|rewrite Q1, Q3; ring]).
    assert (D0 : d = km * (y1 * y1) + kM * (x1 * x1)) by (transitivity ((b * x1 + d * y1) * y1 + (- b * y1 + d * x1) * x1); [transitivity (d * (x1 * x1 + y1 * y1)); [rewrite L1; ring|ring]|rewrite Q2, Q4; ring]).
    transitivity (kM * (p * p' * (x1 * x1) + (p * q' + q * p') * (x1 * y1) + q * q' * (y1 * y1)) + km * (p * p' * (x2 * x2) + (p * q' + q * p') * (x2 * y2) + q * q' * (y2 * y2))); [ring|]. rewrite SS1, SS2, SS3.
    transitivity ((a + d) * (p * p' + q * q') - (a * (p * p') + b * (p * q' + q * p') + d * (q * q'))); [|ring]. rewrite A0, B0, D0.
    ring.
Qed.
