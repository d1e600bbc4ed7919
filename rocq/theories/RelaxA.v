(** The vectors of the relaxation. *)
From Coq Require Import Reals Lra Lia List ZArith Bool Arith Permutation.
From Verif Require Import Num NumInst Vec Heap Mesh Spec GeomSpec VecR Measure MeasureR TensorR Tensor Relax RelaxSpec.
Import ListNotations.
Local Open Scope R_scope.

Lemma normalize_some (a u : vecR) : normalize a = Some u -> a <> vzero /\ vlength u = 1 /\ vscale (vlength a) u = a.
Proof.
  intros E. assert (Na : a <> vzero) by (intros ->; rewrite normalize_zero in E; discriminate). destruct (normalize_unit a Na) as (u' & E' & U & S). rewrite E' in E. injection E as <-. auto.
Qed.
Lemma vdiv_some (a c : vecR) (s : R) : vdiv a s = Some c -> s <> 0 /\ c = vscale (/ s) a.
Proof.
  intros E. destruct (Req_dec s 0) as [->|Hs]; [rewrite vdiv_zero in E; discriminate|]. rewrite (vdiv_ok a s Hs) in E. injection E as <-. auto.
Qed.
Lemma turn_app (n0 n1 x : vecR) : vlength n0 = 1 -> vlength n1 = 1 -> mapp (N := NumR) (turn (N := NumR) cos sin n0 n1) x = turned n0 n1 x.
Proof.
  intros U0 U1. unfold turn, turned. cbv zeta. set (a := cross n0 n1). set (d := dot n0 n1).
  assert (E : vlength a * vlength a + d * d = 1).
  { rewrite vlength_sq. unfold a, d. rewrite cross_lagrange. rewrite <- !vlength_sq, U0, U1. lra. }
  assert (P := vlength_pos a). assert (K : cos (@natan2 NumR (vlength a) d) = d /\ sin (@natan2 NumR (vlength a) d) = vlength a \/ a = vzero).
  { destruct (Req_dec (vlength a) 0) as [Z|Z]; [right; apply vlength_zero, Z|left; apply atan2_sin; [lra|exact E]]. }
  set (t := @natan2 NumR (vlength a) d) in *.
  assert (X : forall c s, mapp (N := NumR) (madd3 (N := NumR) (madd3 (N := NumR) (mid3 (N := NumR)) (mscale3 (N := NumR) s (matrixCrossProd (N := NumR) a))) (mmul3 (N := NumR) (mscale3 (N := NumR) (1 - c) (matrixCrossProd (N := NumR) a)) (matrixCrossProd (N := NumR) a))) x
     = vadd (vadd x (vscale s (cross a x))) (vscale (1 - c) (cross a (cross a x)))).
  { intros c s. destruct a as [a b e], x as [x y z]. unfold mapp, matrixCrossProd, madd3, mscale3, mmul3, mrow, mcol, mid3. cbn [mr0 mr1 mr2]. rewrite !dot_eq. unfold vadd, vscale, cross, vzero, vfill. rn. f_equal; rg. }
  unfold rotationAxisAngle. etransitivity; [apply (X (cos t) (sin t))|]. destruct K as [[-> ->]|Z]; [reflexivity|].
  assert (Y : forall c s c' s' : R, vadd (vadd x (vscale s (cross vzero x))) (vscale c (cross vzero (cross vzero x))) = vadd (vadd x (vscale s' (cross vzero x))) (vscale c' (cross vzero (cross vzero x)))).
  { intros c s c' s'. destruct x as [x y z]. unfold cross, vadd, vscale, vzero, vfill. rn. f_equal; rg. }
  rewrite Z. apply Y.
Qed.
Lemma turned_same (n x : vecR) : turned n n x = x.
Proof.
  unfold turned. cbv zeta. replace (cross n n) with (vzero : vecR) by (destruct n; unfold cross, vzero, vfill; rn; f_equal; rg). generalize (vlength (vzero : vecR)) (1 - dot n n). intros s c. destruct x as [x y z]. unfold cross, vadd, vscale, vzero, vfill. rn. f_equal; rg.
Qed.
(** Where the vector n0 goes. *)
Lemma turned_n0 (n0 n1 : vecR) : vlength n0 = 1 -> vlength n1 = 1 ->
  let s := vlength (cross n0 n1) in let c := dot n0 n1 in
  turned n0 n1 n0 = vadd (vscale (1 - s * c - (1 - c) * (s * s)) n0) (vscale s n1).
Proof.
  intros U0 U1 s c. assert (D0 : dot n0 n0 = 1) by (rewrite <- vlength_sq, U0; lra). 
  assert (E1 : cross (cross n0 n1) n0 = vsub n1 (vscale c n0)).
  { transitivity (vsub (vscale (dot n0 n0) n1) (vscale c n0)); [|rewrite D0, vscale_one; reflexivity]. unfold c. rewrite !dot_eq. destruct n0 as [x0 y0 z0], n1 as [x1 y1 z1]. unfold cross, vsub, vadd, vneg, vscale, vzero, vfill. rn. f_equal; rg. }
  assert (E2 : cross (cross n0 n1) (cross (cross n0 n1) n0) = vscale (- (s * s)) n0).
  { transitivity (vsub (vscale (dot (cross n0 n1) n0) (cross n0 n1)) (vscale (dot (cross n0 n1) (cross n0 n1)) n0)).
    - rewrite !dot_eq. generalize (cross n0 n1). intros w. destruct n0 as [x0 y0 z0], w as [x1 y1 z1]. unfold cross, vsub, vadd, vneg, vscale, vzero, vfill. rn. f_equal; rg.
    - rewrite cross_orth1, <- vlength_sq. fold s. generalize (cross n0 n1). intros w. generalize (s * s). intros q. destruct n0 as [x0 y0 z0], w as [x1 y1 z1]. unfold cross, vsub, vadd, vneg, vscale, vzero, vfill. rn. f_equal; rg. }
  unfold turned. cbv zeta. rewrite E2, E1. fold s c. clearbody s c. destruct n0 as [x0 y0 z0], n1 as [x1 y1 z1]. unfold vsub, vadd, vneg, vscale, vzero, vfill. rn. f_equal; rg.
Qed.
(** ** The turned side *)
Lemma rot90_away (p0 p1 p2 e : vecR) : rot90 (N := NumR) p0 p1 p2 = Some e -> AwayFrom p0 p1 p2 (vscale (/ 2) e).
Proof.
  unfold rot90. destruct (normalize (vsub p0 p1)) as [e10|] eqn:E0; [|discriminate]. destruct (normalize (vsub p2 p1)) as [e12|] eqn:E2; [|discriminate].
  destruct (normalize (cross e12 (cross e12 e10))) as [x|] eqn:Ex; [|discriminate]. intros H. injection H as <-.
  apply normalize_some in E0, E2, Ex. destruct E0 as (N0 & U0 & S0), E2 as (N2 & U2 & S2), Ex as (Nc & Ux & Sx).
  set (A := vlength (vsub p0 p1)) in *. set (B := vlength (vsub p2 p1)) in *.
  assert (HA : A <> 0) by (intros Z; apply N0, vlength_zero, Z). assert (HB : B <> 0) by (intros Z; apply N2, vlength_zero, Z).
  assert (PA : 0 <= A) by apply vlength_pos.
  assert (D2 : dot e12 e12 = 1) by (rewrite <- vlength_sq, U2; lra).
  set (t := A / B * dot e12 e10). exists t. cbv zeta.
  assert (Eq : vsub p0 (vadd p1 (vscale t (vsub p2 p1))) = vscale (- A) (cross e12 (cross e12 e10))).
  { assert (X : vsub p0 (vadd p1 (vscale t (vsub p2 p1))) = vsub (vsub p0 p1) (vscale t (vsub p2 p1))) by (generalize (vsub p2 p1); intros w; clearbody t; destruct p0, p1, w; unfold vsub, vadd, vneg, vscale, vzero, vfill; rn; f_equal; rg).
    rewrite X, <- S0, <- S2. rewrite vscale_mul. replace (t * B) with (A * dot e12 e10) by (unfold t; field; exact HB).
    transitivity (vscale A (vsub (vscale (dot e12 e12) e10) (vscale (dot e12 e10) e12))).
    - rewrite D2, vscale_one. generalize (dot e12 e10). intros q. clearbody A. destruct e10, e12. unfold vsub, vadd, vneg, vscale, vzero, vfill. rn. f_equal; rg.
    - rewrite !dot_eq. clearbody A. destruct e10, e12. unfold cross, vsub, vadd, vneg, vscale, vzero, vfill. rn. f_equal; rg. }
  rewrite Eq. assert (L : vlength (vscale (- A) (cross e12 (cross e12 e10))) = A * vlength (cross e12 (cross e12 e10))) by (rewrite vlength_scale, Rabs_Ropp, Rabs_pos_eq by exact PA; reflexivity).
  split; [|split].
  - rewrite <- S2. rewrite dot_scale, (dot_sym _ (vscale B e12)), dot_scale, (dot_sym e12), cross_orth1. lra.
  - intros Z. apply Nc, vlength_zero. assert (Z' : vscale (- A) (cross e12 (cross e12 e10)) = vzero) by (rewrite <- Eq, <- Z; apply vsub_self).
    apply vlength_zero in Z'. rewrite L in Z'. apply Rmult_integral in Z'. destruct Z'; [contradiction|assumption].
  - rewrite L. rewrite <- Sx at 2. set (C := vlength (cross e12 (cross e12 e10))). clearbody A B C. rewrite !vscale_mul. f_equal. change (@num NumR) with R in *. cbn. field.
Qed.

Lemma rot90_some (p0 p1 p2 : vecR) : 0 < tri_area p0 p1 p2 -> exists e, rot90 (N := NumR) p0 p1 p2 = Some e.
Proof.
  unfold tri_area. intros P. assert (L : 0 < vlength (cross (vsub p1 p0) (vsub p2 p0))) by lra.
  assert (C : cross (vsub p2 p1) (vsub p0 p1) = cross (vsub p1 p0) (vsub p2 p0)) by vring.
  assert (N0 : vsub p0 p1 <> vzero). { intros Z. rewrite Z in C. assert (Q : cross (vsub p2 p1) vzero = (vzero : vecR)) by vring. rewrite Q in C. rewrite <- C in L. assert (Y := proj2 (vlength_zero vzero) eq_refl). lra. }
  assert (N2 : vsub p2 p1 <> vzero). { intros Z. rewrite Z in C. assert (Q : cross vzero (vsub p0 p1) = (vzero : vecR)) by vring. rewrite Q in C. rewrite <- C in L. assert (Y := proj2 (vlength_zero vzero) eq_refl). lra. }
  destruct (normalize_unit _ N0) as (e10 & E0 & U0 & S0). destruct (normalize_unit _ N2) as (e12 & E2 & U2 & S2). unfold rot90. rewrite E0, E2.
  assert (Nc : cross e12 (cross e12 e10) <> vzero).
  { intros Z. assert (K : dot (cross e12 (cross e12 e10)) (cross e12 (cross e12 e10)) = 0) by (rewrite <- vlength_sq, (proj2 (vlength_zero _) Z); lra).
    rewrite cross_lagrange in K. rewrite (dot_sym e12 (cross e12 e10)), cross_orth1 in K. assert (D2 : dot e12 e12 = 1) by (rewrite <- vlength_sq, U2; lra). rewrite D2 in K.
    assert (Z' : cross e12 e10 = vzero) by (apply dot_zero; lra). rewrite <- S0, <- S2 in C.
    assert (X : cross (vscale (vlength (vsub p2 p1)) e12) (vscale (vlength (vsub p0 p1)) e10) = vscale (vlength (vsub p2 p1)) (vscale (vlength (vsub p0 p1)) (cross e12 e10))) by (generalize (vlength (vsub p2 p1)) (vlength (vsub p0 p1)); intros A B; vring).
    rewrite X, Z' in C. rewrite <- C in L. rewrite vscale_mul, vlength_scale, (proj2 (vlength_zero vzero) eq_refl) in L. lra. }
  destruct (normalize_unit _ Nc) as (x & Ex & _). rewrite Ex. eexists. reflexivity.
Qed.
Lemma vsub_zero_eq (a b : vecR) : vsub a b = vzero -> a = b.
Proof. destruct a, b. unfold vsub, vzero, vfill. rn. intros H. injection H as H0 H1 H2. f_equal; lra. Qed.
Lemma cross_foot (p0 p1 p2 : vecR) t : cross (vsub p1 p0) (vsub p2 p0) = cross (vsub p2 p1) (vsub p0 (vadd p1 (vscale t (vsub p2 p1)))).
Proof. vring. Qed.
(** The turned side, from the normal of the triangle. *)
Lemma away_formula (p0 p1 p2 e n : vecR) : AwayFrom p0 p1 p2 e -> Normal p0 p1 p2 n -> e = vscale (- / 2) (cross n (vsub p2 p1)).
Proof.
  intros (t & D & Nq & E) (U & s & Ps & Es). cbv zeta in *. set (w := vsub p0 (vadd p1 (vscale t (vsub p2 p1)))) in *. set (d := vsub p2 p1) in *.
  assert (Nw : vlength w <> 0). { intros Z. apply vlength_zero in Z. apply Nq. apply vsub_zero_eq. exact Z. }
  assert (Pw := vlength_pos w). assert (C : cross (vsub p1 p0) (vsub p2 p0) = cross d w) by (unfold w, d; apply cross_foot).
  assert (Dww : dot w w = vlength w * vlength w) by (rewrite vlength_sq; reflexivity).
  assert (Ddd : dot d d = vlength d * vlength d) by (rewrite vlength_sq; reflexivity).
  assert (Ls : s = vlength d * vlength w).
  { assert (Q : s * s = vlength d * vlength w * (vlength d * vlength w)).
    { transitivity (dot (vscale s n) (vscale s n)); [rewrite dot_scale, (dot_sym n), dot_scale, <- vlength_sq, U; change (@num NumR) with R in *; ring|]. rewrite Es, C, cross_lagrange, (dot_sym d w), D, Dww, Ddd. change (@num NumR) with R in *. ring. }
    assert (Pd := vlength_pos d). assert (Pdw : 0 <= vlength d * vlength w) by (apply Rmult_le_pos; assumption). change (@num NumR) with R in *. generalize dependent (vlength d * vlength w). intros q. intros. nra. }
  assert (Nd : vlength d <> 0) by (intros Z; rewrite Z in Ls; lra).
  assert (X : vscale s (cross n d) = vscale (vlength d * vlength d) w).
  { assert (X1 : vscale s (cross n d) = cross (vscale s n) d) by (generalize s; intros; vring). rewrite X1, Es, C.
    transitivity (vsub (vscale (dot d d) w) (vscale (dot w d) d)); [rewrite !dot_eq; clearbody w d; destruct w, d; unfold cross, vsub, vadd, vneg, vscale; rn; f_equal; rg|]. rewrite D, Ddd. generalize (vlength d * vlength d). intros q. clearbody w d. vring. }
  assert (Y : cross n d = vscale (vlength d / vlength w) w).
  { rewrite <- (vscale_one (cross n d)). replace 1 with (/ s * s) by (field; lra). rewrite <- vscale_mul, X, vscale_mul. f_equal. rewrite Ls. change (@num NumR) with R in *. cbn. field. auto. }
  rewrite Y. rewrite <- (vscale_one e). replace 1 with (/ vlength w * vlength w) by (apply Rinv_l, Nw). rewrite <- vscale_mul, E, !vscale_mul. f_equal. change (@num NumR) with R in *. cbn. field. exact Nw.
Qed.
(** The turn takes n0 to n1 only in special cases. *)
Lemma turned_hits (n0 n1 : vecR) : vlength n0 = 1 -> vlength n1 = 1 -> cross n0 n1 <> vzero -> (turned n0 n1 n0 = n1 <-> dot n0 n1 = 0).
Proof.
  intros U0 U1 Nc. assert (T := turned_n0 n0 n1 U0 U1). cbv zeta in T. set (s := vlength (cross n0 n1)) in *. set (c := dot n0 n1) in *.
  assert (E : s * s + c * c = 1). { unfold s, c. rewrite vlength_sq, cross_lagrange, <- !vlength_sq, U0, U1. lra. }
  assert (Ps : 0 <= s) by apply vlength_pos. assert (Ns : s <> 0) by (intros Z; apply Nc, vlength_zero, Z). split.
  - intros H. rewrite T in H. set (q := 1 - s * c - (1 - c) * (s * s)) in *. assert (K : vscale (s - 1) (cross n0 n1) = vzero).
    { assert (K1 : cross n0 (vadd (vscale q n0) (vscale s n1)) = vscale s (cross n0 n1)) by (generalize q s; intros; vring). rewrite H in K1.
      assert (K2 : vscale (s - 1) (cross n0 n1) = vsub (vscale s (cross n0 n1)) (cross n0 n1)) by (generalize s (cross n0 n1); intros; vring). rewrite K2, <- K1. apply vsub_self. }
    apply vlength_zero in K. rewrite vlength_scale in K. fold s in K. apply Rmult_integral in K. destruct K as [K|K]; [|contradiction]. assert (s = 1) by (revert K; unfold Rabs; destruct (Rcase_abs _); lra). nra.
  - intros Z. rewrite T, Z in *. assert (s = 1) by nra. rewrite H. replace (1 - 1 * 0 - (1 - 0) * (1 * 1)) with 0 by ring. clear. vring.
Qed.
(** How far the turned side leans out of the plane orthogonal to n1. *)
Lemma turned_lean (n0 n1 e : vecR) : vlength n0 = 1 -> vlength n1 = 1 -> dot e n0 = 0 ->
  let c := dot n0 n1 in let s := vlength (cross n0 n1) in dot (turned n0 n1 e) n1 = ((1 - c) * (c * c) + c * (1 - s)) * dot e n1.
Proof.
  intros U0 U1 O c s. assert (E : s * s + c * c = 1). { unfold s, c. rewrite vlength_sq, cross_lagrange, <- !vlength_sq, U0, U1. lra. }
  assert (D1 : dot n1 n1 = 1) by (rewrite <- vlength_sq, U1; lra). assert (D0 : dot n0 n0 = 1) by (rewrite <- vlength_sq, U0; lra).
  unfold turned. cbv zeta. fold c s. rewrite !dot_add, !dot_scale.
  assert (K1 : dot (cross (cross n0 n1) e) n1 = - c * dot e n1).
  { transitivity (dot e n0 * dot n1 n1 - c * dot e n1); [|rewrite O; change (@num NumR) with R in *; ring]. unfold c. rewrite !dot_eq. destruct n0, n1, e. unfold cross. rn. rg. }
  assert (K2 : dot (cross (cross n0 n1) (cross (cross n0 n1) e)) n1 = - (s * s) * dot e n1).
  { transitivity (dot (cross n0 n1) e * dot (cross n0 n1) n1 - dot (cross n0 n1) (cross n0 n1) * dot e n1).
    - generalize (cross n0 n1). intros a. rewrite !dot_eq. clearbody c s. destruct n1, e, a. unfold cross. rn. rg.
    - rewrite cross_orth2, <- vlength_sq. fold s. change (@num NumR) with R in *. ring. }
  rewrite K1, K2. replace (s * s) with (1 - c * c) by lra. change (@num NumR) with R in *. ring.
Qed.
