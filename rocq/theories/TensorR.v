(** Rotations, frames and fits over the real numbers. *)
From Coq Require Import Reals Lra Lia List Bool Arith Nsatz.
From Verif Require Import Num NumInst Vec GeomSpec VecR Heap Mesh Spec LaplSpec LaplP LinR Curv Tensor TensorSpec.
Import ListNotations.
Local Open Scope R_scope.

(** ** An exact solver exists: elimination of the last unknown. *)
Fixpoint solveR (n : nat) (A : nat -> nat -> R) (b : nat -> R) : nat -> R :=
  match n with
  | O => fun _ => 0
  | S k => let x := solveR k (fun i j => A i j - A i k * A k j / A k k) (fun i => b i - A i k * b k / A k k) in
           ext k x ((b k - sum_to k (fun j => A k j * x j)) / A k k)
  end.
Lemma solveR_ok : ExactSolver solveR.
Proof.
  intros n. induction n as [|n IH]; intros A b Sy P; [intros; lia|]. assert (Ha := posdef_diag n A P). assert (Na : A n n <> 0) by lra.
  cbn [solveR]. set (B := fun i j => A i j - A i n * A n j / A n n). set (c := fun i => b i - A i n * b n / A n n). set (x := solveR n B c).
  assert (Hx : forall i, (i < n)%nat -> sum_to n (fun j => B i j * x j) = c i).
  { apply IH.
    - intros i j Hi Hj. unfold B. rewrite (Sy i j), (Sy i n), (Sy n j) by lia. field. exact Na.
    - intros y (i & Hi & Ni). unfold B. rewrite qform_schur by assumption. set (s := sum_to n (fun j => A n j * y j)).
      assert (Q : 0 < qform (S n) A (ext n y (- s / A n n))) by (apply P; exists i; split; [lia|rewrite ext_other by exact Hi; exact Ni]).
      rewrite (qform_ext n A y _ Sy) in Q. fold s in Q. replace (qform n A y - s * s / A n n) with (qform n A y + 2 * (- s / A n n) * s + - s / A n n * (- s / A n n) * A n n) by (field; exact Na). exact Q. }
  clearbody x. set (s := sum_to n (fun j => A n j * x j)). intros i Hi. cbn [sum_to]. rewrite ext_last.
  rewrite (sum_to_ext n _ (fun j => A i j * x j)) by (intros j Hj; rewrite ext_other by exact Hj; reflexivity).
  destruct (Nat.eq_dec i n) as [-> | Ne]; [fold s; field; exact Na|].
  assert (Hi' : (i < n)%nat) by lia. assert (E := Hx i Hi'). unfold B, c in E.
  rewrite (sum_to_ext n _ (fun j => A i j * x j - (A i n / A n n) * (A n j * x j))) in E by (intros j Hj; field; exact Na).
  rewrite sum_to_minus, sum_to_scal in E. fold s in E. apply (Rplus_eq_reg_r (- (A i n / A n n * s))).
  transitivity (sum_to n (fun j => A i j * x j) - A i n / A n n * s + A i n * ((b n - s) / A n n)); [ring|]. rewrite E. field. exact Na.
Qed.

(** ** Rodrigues' formula *)
Definition rodr (c s : R) (k x : vecR) : vecR := vadd (vadd (vscale c x) (vscale s (cross k x))) (vscale ((1 - c) * dot k x) k).
Lemma axis_angle (t : R) (k x : vecR) : dot k k = 1 -> mapp (N := NumR) (rotationAxisAngle (N := NumR) cos sin t k) x = rodr (cos t) (sin t) k x.
Proof.
  intros U. destruct k as [a b d], x as [x y z]. rewrite dot_eq in U. cbn [vx vy vz] in U.
  unfold mapp, rotationAxisAngle, rodr, matrixCrossProd, madd3, mscale3, mmul3, mrow, mcol, mid3. cbv zeta. cbn [mr0 mr1 mr2]. rewrite !dot_eq. unfold vadd, vscale, cross. rn. set (c := cos t). set (s := sin t). clearbody c s.
  f_equal; rn; nsatz.
Qed.
Lemma rodr_rotation c s k : dot k k = 1 -> c * c + s * s = 1 -> Rotation (rodr c s k).
Proof.
  intros U V. split.
  - intros x y. destruct k, x, y. unfold rodr. rewrite !dot_eq. unfold vadd, vscale, cross. rn. f_equal; rg.
  - intros t x. destruct k, x. unfold rodr. rewrite !dot_eq. unfold vadd, vscale, cross. rn. f_equal; rg.
  - intros x y. destruct k as [a b d], x as [x1 x2 x3], y as [y1 y2 y3]. rewrite dot_eq in U. cbn [vx vy vz] in U. unfold rodr. rewrite !dot_eq. unfold vadd, vscale, cross. rn. nsatz.
  - intros x y. destruct k as [a b d], x as [x1 x2 x3], y as [y1 y2 y3]. rewrite dot_eq in U. cbn [vx vy vz] in U. unfold rodr. rewrite !dot_eq. unfold vadd, vscale, cross. rn. f_equal; rn; nsatz.
Qed.
Lemma unit_dot (a : vecR) : vlength a = 1 <-> dot a a = 1.
Proof. rewrite <- vlength_sq. assert (P := vlength_pos a). split; intros H; [rewrite H; rg|nra]. Qed.
Lemma id_rotation : Rotation (fun x => x). Proof. split; reflexivity. Qed.
Lemma mid_app (x : vecR) : mapp (N := NumR) (mid3 (N := NumR)) x = x.
Proof. destruct x. unfold mapp, mid3. cbn [mr0 mr1 mr2]. rewrite !dot_eq. rn. f_equal; rg. Qed.
Lemma rotation_ext R R' : (forall x, R x = R' x) -> Rotation R' -> Rotation R.
Proof. intros E H. destruct H as [Ha Hs Hd Hc]. split; intros; rewrite !E; auto. Qed.
Lemma atan2_sin (s d : R) : 0 < s -> s * s + d * d = 1 -> cos (@natan2 NumR s d) = d /\ sin (@natan2 NumR s d) = s.
Proof.
  intros Hs E. destruct (atan2_cos s d Hs) as [[B1 B2] C]. rewrite E, sqrt_1, Rmult_1_r in C. split; [exact C|].
  assert (P := sin_gt_0 _ B1 B2). assert (Q := sin2_cos2 (@natan2 NumR s d)). unfold Rsqr in Q. rewrite C in Q. set (w := sin (@natan2 NumR s d)) in *. clearbody w. nra.
Qed.
Lemma neg_eq (a b : vecR) : dot a a = 1 -> dot b b = 1 -> dot a b = 1 -> a = b.
Proof.
  intros A B C. assert (Z : dot (vsub a b) (vsub a b) = 0) by (replace (dot (vsub a b) (vsub a b)) with (dot a a + dot b b - 2 * dot a b) by dring; lra).
  apply dot_zero in Z. destruct a as [a1 a2 a3], b as [c1 c2 c3]. unfold vsub, vadd, vneg, vzero, vfill in Z. rn. injection Z as Z1 Z2 Z3. f_equal; lra.
Qed.
Lemma cross_self (a : vecR) : cross a a = vzero. Proof. vring. Qed.
Lemma tiny : 0 < / 10 ^ 12 < 1.
Proof. split; [apply Rinv_0_lt_compat, pow_lt; lra|]. replace (10 ^ 12) with 1000000000000 by ring. lra. Qed.
Lemma rot_ok (a b : vecR) Rm : vlength a = 1 -> vlength b = 1 -> rotationFromTwoVectors (N := NumR) cos sin a b = Some Rm -> Carries (mapp (N := NumR) Rm) a b.
Proof.
  intros Ua Ub. apply unit_dot in Ua, Ub. unfold rotationFromTwoVectors. cbv zeta.
  assert (L := cross_lagrange a b). rewrite Ua, Ub in L. set (c := dot a b) in *. assert (LP := vlength_pos (cross a b)). assert (LS := vlength_sq (cross a b)). set (s := vlength (cross a b)) in *.
  assert (E1 : s * s + c * c = 1) by (rewrite LS, L; ring).
  change (@nltb NumR) with Rltb. change (@nabs NumR) with Rabs. change (@neps12 NumR) with (/ 10 ^ 12).
  assert (TE : 0 < / 10 ^ 12) by (apply Rinv_0_lt_compat, pow_lt; lra).
  destruct (Rle_lt_or_eq_dec 0 s LP) as [Sp | Sz].
  - destruct (atan2_cos s c Sp) as [[B1 B2] _]. destruct (atan2_sin s c Sp E1) as [C1 C2]. set (th := @natan2 NumR s c) in *. rewrite (Rabs_pos_eq th) by lra.
    destruct (Rltb th (/ 10 ^ 12)) eqn:T.
    + intros [= <-]. apply Rltb_lt in T. split.
      * exact (rotation_ext _ _ mid_app id_rotation).
      * apply mid_app.
      * right. fold s c. split; [|split; [|apply mid_app]].
        -- rewrite <- C2. assert (H := sin_lt_x th B1). lra.
        -- rewrite <- C1. assert (PI2 : / 10 ^ 12 < PI / 2) by (assert (H := PI2_1); assert (H' := tiny); lra).
           apply cos_gt_0; lra.
    + destruct (normalize_unit (cross a b)) as (k & En & Uk & Sk); [intros Z; unfold s in Sp; rewrite Z in Sp; assert (vlength (vzero : vecR) = 0) by (apply vlength_zero; reflexivity); lra|].
      rewrite En. intros [= <-]. apply unit_dot in Uk. assert (X : forall x, mapp (N := NumR) (rotationAxisAngle (N := NumR) cos sin th k) x = rodr c s k x) by (intros x; rewrite axis_angle by exact Uk; rewrite C1, C2; reflexivity).
      fold s in Sk. split.
      * apply (rotation_ext _ _ X). apply rodr_rotation; [exact Uk|lra].
      * rewrite X, <- Sk. destruct k as [k1 k2 k3]. rewrite dot_eq in Uk. cbn [vx vy vz] in Uk. unfold rodr. rewrite !dot_eq. unfold vadd, Vec.vscale, cross. rn. clear - Uk. f_equal; rn; nsatz.
      * left. rewrite X. assert (Q : rodr c s k a = vadd (vscale c a) (cross (cross a b) a)).
        { rewrite <- Sk. assert (O : dot k a = 0) by (assert (O := cross_orth1 a b); rewrite <- Sk, dot_scale in O; destruct (Rmult_integral _ _ O); [lra|assumption]). unfold rodr. rewrite O. destruct k, a. unfold vadd, Vec.vscale, cross. rn. f_equal; rg. }
        rewrite Q. unfold c. clear - Ua. destruct a as [a1 a2 a3], b as [c1 c2 c3]. rewrite dot_eq in Ua. cbn [vx vy vz] in Ua. rewrite dot_eq. unfold vadd, Vec.vscale, cross. rn. f_equal; rn; nsatz.
  - assert (Z : cross a b = vzero) by (apply vlength_zero; unfold s in Sz; lra). rewrite Z. rewrite normalize_zero. destruct (Rltb _ _) eqn:T; [|discriminate]. intros [= <-].
    assert (CC : c = 1 \/ c = -1) by (assert (H : (c - 1) * (c + 1) = 0) by (rewrite <- Sz in E1; lra); destruct (Rmult_integral _ _ H); [left|right]; lra).
    assert (c = 1).
    { destruct CC as [H | H]; [exact H|]. exfalso. rewrite <- Sz, H in T. apply Rltb_lt in T. cbn [natan2 NumR] in T. destruct (Rlt_dec 0 (-1)); [lra|]. destruct (Rlt_dec (-1) 0); [|lra]. destruct (Rle_dec 0 0); [|lra].
      replace (0 / -1) with 0 in T by field. rewrite atan_0, Rplus_0_l in T. assert (H2 := PI2_1). rewrite Rabs_pos_eq in T by lra. assert (H' := tiny). lra. }
    assert (a = b) by (apply neg_eq; assumption). subst b. split; [exact (rotation_ext _ _ mid_app id_rotation)|apply mid_app|left; apply mid_app].
Qed.
(** It exists unless b = - a. *)
Lemma rot_some (a b : vecR) : vlength a = 1 -> vlength b = 1 -> -1 < dot a b -> exists Rm, rotationFromTwoVectors (N := NumR) cos sin a b = Some Rm.
Proof.
  intros Ua Ub H. apply unit_dot in Ua, Ub. unfold rotationFromTwoVectors. cbv zeta. destruct (@nltb NumR _ _) eqn:T; [eauto|].
  destruct (Rle_lt_or_eq_dec 0 _ (vlength_pos (cross a b))) as [Sp | Sz].
  - destruct (normalize_unit (cross a b)) as (k & -> & _); [intros Z; rewrite Z in Sp; assert (vlength (vzero : vecR) = 0) by (apply vlength_zero; reflexivity); lra|]. eauto.
  - exfalso. assert (L := cross_lagrange a b). rewrite Ua, Ub, <- vlength_sq, <- Sz in L. assert (c1 : dot a b = 1) by (assert (Q : (dot a b - 1) * (dot a b + 1) = 0) by lra; destruct (Rmult_integral _ _ Q); lra).
    rewrite c1, <- Sz in T. change (@nltb NumR) with Rltb in T. apply Rltb_false in T. cbn [natan2 nabs neps12 NumR] in T. destruct (Rlt_dec 0 1); [|lra]. replace (0 / 1) with 0 in T by field. rewrite atan_0, Rabs_R0 in T.
    assert (0 < / 10 ^ 12) by (apply Rinv_0_lt_compat, pow_lt; lra). lra.
Qed.

(** ** Frames of triangles *)
Lemma cross_cyc (a b c : vecR) : cross (vsub c b) (vsub a c) = cross (vsub b a) (vsub c a). Proof. vring. Qed.
Lemma dot_scale_r (s : R) (a b : vecR) : dot a (vscale s b) = s * dot a b. Proof. dring. Qed.
Lemma scale_orth (s : R) (a b : vecR) : 0 < s -> dot (vscale s a) b = 0 -> dot a b = 0.
Proof. intros P H. rewrite dot_scale in H. destruct (Rmult_integral _ _ H); [lra|assumption]. Qed.
Lemma nonzero_len (a : vecR) : a <> vzero <-> 0 < vlength a.
Proof. assert (P := vlength_pos a). split; intros H; [|intros Z; apply vlength_zero in Z; lra]. destruct (Rle_lt_or_eq_dec _ _ P) as [Q | Q]; [exact Q|]. exfalso. apply H, vlength_zero. lra. Qed.
Lemma normalize_some (a u : vecR) : normalize a = Some u -> 0 < vlength a /\ dot u u = 1 /\ vscale (vlength a) u = a.
Proof.
  intros E. assert (NZ : a <> vzero) by (intros ->; rewrite normalize_zero in E; discriminate). destruct (normalize_unit a NZ) as (u' & E' & Un & Sc). rewrite E in E'. injection E' as <-.
  split; [apply nonzero_len, NZ|]. split; [apply unit_dot, Un|exact Sc].
Qed.
Lemma frame_ok (a b c : vecR) : 0 < vlength (cross (vsub b a) (vsub c a)) -> exists F, face_frame (N := NumR) a b c = Some F /\ FaceFrame F a b c.
Proof.
  intros P. unfold face_frame. cbv zeta. rewrite cross_cyc.
  assert (N0 : vsub c b <> vzero) by (intros Z; apply nonzero_len in P; apply P; rewrite <- cross_cyc, Z; vring).
  destruct (normalize_unit _ N0) as (u & Eu & Uu & Su). rewrite Eu. apply unit_dot in Uu. apply nonzero_len in N0.
  destruct (normalize_unit _ (proj2 (nonzero_len _) P)) as (n & En & Un & Sn). rewrite En. apply unit_dot in Un.
  assert (UN : dot u n = 0) by (apply (scale_orth (vlength (vsub c b))); [exact N0|]; rewrite Su, dot_sym; apply (scale_orth (vlength (cross (vsub b a) (vsub c a)))); [exact P|]; rewrite Sn, <- cross_cyc; apply cross_orth1).
  assert (L : dot (cross n u) (cross n u) = 1) by (rewrite cross_lagrange, Un, Uu, (dot_sym n u), UN; rg).
  assert (NC : cross n u <> vzero) by (intros Z; rewrite Z in L; assert (dot (vzero : vecR) vzero = 0) by (rewrite dot_eq; unfold vzero, vfill; rn; ring); lra).
  destruct (normalize_unit _ NC) as (v & Ev & Uv & Sv). rewrite Ev. apply unit_dot in L. rewrite L, vscale_one in Sv. subst v. apply unit_dot in L.
  exists (Fr u (cross n u) n). split; [reflexivity|]. split; [split; cbn [fr_u fr_v fr_n]|exact Sn]; [exact Uu|exact L|exact Un|rewrite dot_sym; apply cross_orth2|exact UN|apply cross_orth1].
Qed.
Lemma frame_inv (a b c : vecR) F : face_frame (N := NumR) a b c = Some F -> 0 < vlength (cross (vsub b a) (vsub c a)).
Proof.
  unfold face_frame. cbv zeta. rewrite cross_cyc. destruct (normalize (vsub c b)); [|discriminate]. destruct (normalize (cross (vsub b a) (vsub c a))) as [n|] eqn:E; [|discriminate]. intros _. apply normalize_some in E. apply E.
Qed.

(** ** The fit *)
Lemma tensor_eq (t t' : tensor NumR) : t00 t = t00 t' -> t01 t = t01 t' -> t11 t = t11 t' -> t = t'.
Proof. destruct t, t'. cbn. intros -> -> ->. reflexivity. Qed.
Lemma tensor_dec (t t' : tensor NumR) : t <> t' -> t00 t - t00 t' <> 0 \/ t01 t - t01 t' <> 0 \/ t11 t - t11 t' <> 0.
Proof.
  intros H. destruct (Req_dec (t00 t - t00 t') 0) as [A | A]; [|auto]. destruct (Req_dec (t01 t - t01 t') 0) as [B | B]; [|auto]. destruct (Req_dec (t11 t - t11 t') 0) as [C | C]; [|auto].
  exfalso. apply H, tensor_eq; change (@num NumR) with R in *; lra.
Qed.
Section Fit.
(** Coordinates of the edges and of the changes of the normals. *)
Variables u0 v0 u1 v1 u2 v2 : R.
Hypothesis D : u0 * v1 - u1 * v0 <> 0.
Lemma squares_pos x y z : x <> 0 \/ y <> 0 \/ z <> 0 ->
  0 < (x * u0 + y * v0) ^ 2 + (y * u0 + z * v0) ^ 2 + ((x * u1 + y * v1) ^ 2 + (y * u1 + z * v1) ^ 2) + ((x * u2 + y * v2) ^ 2 + (y * u2 + z * v2) ^ 2).
Proof.
  intros H. assert (P := fun r : R => pow2_ge_0 r). 
  set (p := x * u0 + y * v0). set (q := y * u0 + z * v0). set (p' := x * u1 + y * v1). set (q' := y * u1 + z * v1).
  assert (Q : 0 <= (x * u2 + y * v2) ^ 2 + (y * u2 + z * v2) ^ 2) by (assert (A := P (x * u2 + y * v2)); assert (B := P (y * u2 + z * v2)); lra).
  assert (Z : ~ (p = 0 /\ q = 0 /\ p' = 0 /\ q' = 0)).
  { intros (A & B & A' & B'). assert (X : x * (u0 * v1 - u1 * v0) = 0) by (replace (x * (u0 * v1 - u1 * v0)) with (p * v1 - p' * v0) by (unfold p, p'; ring); rewrite A, A'; ring).
    assert (Y : y * (u0 * v1 - u1 * v0) = 0) by (replace (y * (u0 * v1 - u1 * v0)) with (q * v1 - q' * v0) by (unfold q, q'; ring); rewrite B, B'; ring).
    assert (W : z * (u0 * v1 - u1 * v0) = 0) by (replace (z * (u0 * v1 - u1 * v0)) with (u0 * q' - u1 * q) by (unfold q, q'; ring); rewrite B, B'; ring).
    destruct (Rmult_integral _ _ X); [|contradiction]. destruct (Rmult_integral _ _ Y); [|contradiction]. destruct (Rmult_integral _ _ W); [|contradiction]. tauto. }
  assert (Pp := P p). assert (Pq := P q). assert (Pp' := P p'). assert (Pq' := P q'). clearbody p q p' q'.
  destruct (Rlt_dec 0 (p ^ 2 + q ^ 2 + (p' ^ 2 + q' ^ 2))) as [G | G]; [lra|]. exfalso. apply Z.
  assert (S : forall r, r ^ 2 = 0 -> r = 0) by (intros r Hr; apply Rsqr_0_uniq; rewrite <- Hr; unfold Rsqr; ring).
  repeat split; apply S; lra.
Qed.
Variables f0 g0 f1 g1 f2 g2 : R.
Definition fitR : fit (N := NumR) := Fit (N := NumR) (u0 * u0 + u1 * u1 + u2 * u2) (u0 * v0 + u1 * v1 + u2 * v2) (v0 * v0 + v1 * v1 + v2 * v2)
  (f0 * u0 + f1 * u1 + f2 * u2) ((f0 * v0 + g0 * u0) + (f1 * v1 + g1 * u1) + (f2 * v2 + g2 * u2)) (g0 * v0 + g1 * v1 + g2 * v2).
Lemma fit_sym : symmetric 3 (fit_matrix (N := NumR) fitR).
Proof. intros i j Hi Hj. destruct i as [|[|[|]]]; try lia; destruct j as [|[|[|]]]; try lia; reflexivity. Qed.
Lemma fit_posdef : posdef 3 (fit_matrix (N := NumR) fitR).
Proof.
  intros x (i & Hi & Ni). assert (H : x 0%nat <> 0 \/ x 1%nat <> 0 \/ x 2%nat <> 0) by (destruct i as [|[|[|]]]; [auto|auto|auto|lia]).
  assert (Q := squares_pos _ _ _ H). replace (qform 3 (fit_matrix (N := NumR) fitR) x) with ((x 0%nat * u0 + x 1%nat * v0) ^ 2 + (x 1%nat * u0 + x 2%nat * v0) ^ 2 + ((x 0%nat * u1 + x 1%nat * v1) ^ 2 + (x 1%nat * u1 + x 2%nat * v1) ^ 2) + ((x 0%nat * u2 + x 1%nat * v2) ^ 2 + (x 1%nat * u2 + x 2%nat * v2) ^ 2)); [exact Q|].
  unfold qform, fit_matrix, fitR. cbn [sum_to a00 a01 a22 b0 b1 b2]. rn. ring.
Qed.
Definition errR (x y z : R) : R :=
  (x * u0 + y * v0 - f0) ^ 2 + (y * u0 + z * v0 - g0) ^ 2 + ((x * u1 + y * v1 - f1) ^ 2 + (y * u1 + z * v1 - g1) ^ 2) + ((x * u2 + y * v2 - f2) ^ 2 + (y * u2 + z * v2 - g2) ^ 2).
Lemma fit_min solve : ExactSolver solve -> let t := fit_solve (N := NumR) solve fitR in forall t', t' <> t -> errR (t00 t) (t01 t) (t11 t) < errR (t00 t') (t01 t') (t11 t').
Proof.
  intros HS t t' Ne. assert (X := HS 3%nat _ (fit_rhs (N := NumR) fitR) fit_sym fit_posdef). assert (X0 := X 0%nat ltac:(lia)). assert (X1 := X 1%nat ltac:(lia)). assert (X2 := X 2%nat ltac:(lia)). clear X.
  cbn [sum_to fit_matrix fit_rhs] in X0, X1, X2. change (solve 3%nat (fit_matrix (N := NumR) fitR) (fit_rhs (N := NumR) fitR) 0%nat) with (t00 t) in *. change (solve 3%nat (fit_matrix (N := NumR) fitR) (fit_rhs (N := NumR) fitR) 1%nat) with (t01 t) in *. change (solve 3%nat (fit_matrix (N := NumR) fitR) (fit_rhs (N := NumR) fitR) 2%nat) with (t11 t) in *.
  unfold fitR in X0, X1, X2. cbn [a00 a01 a22 b0 b1 b2] in X0, X1, X2. change (@num NumR) with R in *. rn.
  assert (Q := squares_pos _ _ _ (tensor_dec t' t Ne)). set (x := t00 t) in *. set (y := t01 t) in *. set (z := t11 t) in *. set (dx := t00 t' - x) in *. set (dy := t01 t' - y) in *. set (dz := t11 t' - z) in *.
  replace (t00 t') with (x + dx) by (unfold dx; ring). replace (t01 t') with (y + dy) by (unfold dy; ring). replace (t11 t') with (z + dz) by (unfold dz; ring). clearbody x y z dx dy dz.
  assert (E : errR (x + dx) (y + dy) (z + dz) - errR x y z = ((dx * u0 + dy * v0) ^ 2 + (dy * u0 + dz * v0) ^ 2 + ((dx * u1 + dy * v1) ^ 2 + (dy * u1 + dz * v1) ^ 2) + ((dx * u2 + dy * v2) ^ 2 + (dy * u2 + dz * v2) ^ 2))
    + 2 * (dx * ((u0 * u0 + u1 * u1 + u2 * u2) * x + (u0 * v0 + u1 * v1 + u2 * v2) * y - (f0 * u0 + f1 * u1 + f2 * u2))
         + dy * ((u0 * v0 + u1 * v1 + u2 * v2) * x + (u0 * u0 + u1 * u1 + u2 * u2 + (v0 * v0 + v1 * v1 + v2 * v2)) * y + (u0 * v0 + u1 * v1 + u2 * v2) * z - (f0 * v0 + g0 * u0 + (f1 * v1 + g1 * u1) + (f2 * v2 + g2 * u2)))
         + dz * ((u0 * v0 + u1 * v1 + u2 * v2) * y + (v0 * v0 + v1 * v1 + v2 * v2) * z - (g0 * v0 + g1 * v1 + g2 * v2)))) by (unfold errR; ring).
  rewrite Rplus_0_l in X0, X1, X2.
  replace ((u0 * u0 + u1 * u1 + u2 * u2) * x + (u0 * v0 + u1 * v1 + u2 * v2) * y - (f0 * u0 + f1 * u1 + f2 * u2)) with 0 in E by lra.
  replace ((u0 * v0 + u1 * v1 + u2 * v2) * x + (u0 * u0 + u1 * u1 + u2 * u2 + (v0 * v0 + v1 * v1 + v2 * v2)) * y + (u0 * v0 + u1 * v1 + u2 * v2) * z - (f0 * v0 + g0 * u0 + (f1 * v1 + g1 * u1) + (f2 * v2 + g2 * u2))) with 0 in E by lra.
  replace ((u0 * v0 + u1 * v1 + u2 * v2) * y + (v0 * v0 + v1 * v1 + v2 * v2) * z - (g0 * v0 + g1 * v1 + g2 * v2)) with 0 in E by lra.
  lra.
Qed.
End Fit.
Lemma edges_det (F : frame NumR) (a b c : vecR) : FaceFrame F a b c -> 0 < vlength (cross (vsub b a) (vsub c a)) ->
  dot (vsub c b) (fr_u F) * dot (vsub a c) (fr_v F) - dot (vsub a c) (fr_u F) * dot (vsub c b) (fr_v F) <> 0.
Proof.
  intros [O Sn] P E. assert (L : dot (vsub c b) (fr_u F) * dot (vsub a c) (fr_v F) - dot (vsub a c) (fr_u F) * dot (vsub c b) (fr_v F) = dot (cross (vsub c b) (vsub a c)) (cross (fr_u F) (fr_v F))) by (destruct F as [u v n]; cbn [fr_u fr_v fr_n]; dring).
  rewrite L, cross_cyc, <- Sn, dot_scale in E. destruct (Rmult_integral _ _ E) as [Z | Z]; [lra|].
  destruct O as [Ou Ov On Ouv Oun Ovn]. destruct F as [u v n]. cbn [fr_u fr_v fr_n] in *.
  assert (G : dot n (cross u v) * dot n (cross u v) = 1); [|rewrite Z in G; lra].
  assert (I : forall a b c : vecR, dot a (cross b c) * dot a (cross b c) = dot a a * (dot b b * dot c c - dot b c * dot b c) - dot a b * (dot a b * dot c c - dot b c * dot a c) + dot a c * (dot a b * dot b c - dot b b * dot a c)) by dring.
  rewrite I, On, Ou, Ov, Ouv, (dot_sym n u), Oun, (dot_sym n v), Ovn. ring.
Qed.
Lemma fit_best solve (F : frame NumR) (p0 p1 p2 n0 n1 n2 : vecR) : ExactSolver solve -> FaceFrame F p0 p1 p2 -> 0 < vlength (cross (vsub p1 p0) (vsub p2 p0)) ->
  BestFit F (fit_solve (N := NumR) solve (fit_system (N := NumR) F p0 p1 p2 n0 n1 n2)) p0 p1 p2 n0 n1 n2.
Proof.
  intros HS HF P. unfold BestFit. cbv zeta.
  set (u0 := dot (vsub p2 p1) (fr_u F)). set (v0 := dot (vsub p2 p1) (fr_v F)). set (u1 := dot (vsub p0 p2) (fr_u F)). set (v1 := dot (vsub p0 p2) (fr_v F)). set (u2 := dot (vsub p1 p0) (fr_u F)). set (v2 := dot (vsub p1 p0) (fr_v F)).
  set (f0 := dot (vsub n2 n1) (fr_u F)). set (g0 := dot (vsub n2 n1) (fr_v F)). set (f1 := dot (vsub n0 n2) (fr_u F)). set (g1 := dot (vsub n0 n2) (fr_v F)). set (f2 := dot (vsub n1 n0) (fr_u F)). set (g2 := dot (vsub n1 n0) (fr_v F)).
  assert (E : fit_system (N := NumR) F p0 p1 p2 n0 n1 n2 = fitR u0 v0 u1 v1 u2 v2 f0 g0 f1 g1 f2 g2) by (unfold fit_system, fit_edge, fitR; cbv zeta; cbn [a00 a01 a22 b0 b1 b2]; fold u0 v0 u1 v1 u2 v2 f0 g0 f1 g1 f2 g2; f_equal; rn; ring).
  rewrite E. intros t' Ne. assert (Dt := edges_det F p0 p1 p2 HF P). fold u0 v0 u1 v1 in Dt. assert (H := fit_min u0 v0 u1 v1 u2 v2 Dt f0 g0 f1 g1 f2 g2 solve HS t' Ne). cbv zeta in H.
  assert (T : forall t, total_misfit F t [(vsub p1 p0, vsub n1 n0); (vsub p2 p1, vsub n2 n1); (vsub p0 p2, vsub n0 n2)] = errR u0 v0 u1 v1 u2 v2 f0 g0 f1 g1 f2 g2 (t00 t) (t01 t) (t11 t)).
  { intros t. destruct HF as [O _]. destruct O as [Ou Ov _ Ouv _ _]. unfold total_misfit, misfit, form, errR. cbn [map fold_right fst snd]. rewrite Ou, Ov, Ouv, (dot_sym (fr_v F) (fr_u F)), Ouv. fold u0 v0 u1 v1 u2 v2 f0 g0 f1 g1 f2 g2. rn. ring. }
  rewrite !T. exact H.
Qed.
