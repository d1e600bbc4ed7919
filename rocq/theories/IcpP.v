(** solveRigidICP: proofs. *)
From Coq Require Import Reals List ZArith Lra Lia Arith.
From Verif Require Import Num NumInst Vec VecR GeomSpec MeasureM Tensor GmmP Icp IcpSpec.
Import ListNotations.
Local Open Scope R_scope.
Notation mapp := (@Tensor.mapp NumR).
Notation mmul3 := (@Tensor.mmul3 NumR).
Notation mtr3 := (@Icp.mtr3 NumR).
Notation mdiag3 := (@Icp.mdiag3 NumR).
Notation det3 := (@Icp.det3 NumR).
Notation mcol := (@Tensor.mcol NumR).

Ltac munf := unfold Tensor.mapp, Tensor.mmul3, Icp.mtr3, Icp.mdiag3, Icp.det3, Tensor.mrow, Tensor.mcol, sqlen in *; cbv zeta in *; cbn [mr0 mr1 mr2 Vec.vx Vec.vy Vec.vz] in *.
Ltac mdestr := repeat match goal with A : matR |- _ => destruct A as [? ? ?] | A : mat3 NumR |- _ => destruct A as [? ? ?] end; vdestr.
Ltac mring := intros; mdestr; munf; rewrite ?dot_eq; unfold vsub, vadd, vneg, Vec.vscale, cross, vzero, vfill, v3; rn; change (@num NumR) with R in *; try ring.
Lemma sq_dot (a : vecR) : sqlen a = dot a a. Proof. mring. Qed.
Lemma sq_nonneg (a : vecR) : 0 <= sqlen a.
Proof. unfold sqlen. assert (A := pow2_ge_0 (vx a)). assert (B := pow2_ge_0 (vy a)). assert (C := pow2_ge_0 (vz a)). change (@num NumR) with R in *. lra. Qed.

(** ** Columns *)
Definition col (A : matR) (k : nat) : vecR := match k with O => mcol A vx | S O => mcol A vy | _ => mcol A vz end.
(** Three orthonormal vectors. *)
Definition ortho (a b c : vecR) : Prop := dot a a = 1 /\ dot b b = 1 /\ dot c c = 1 /\ dot a b = 0 /\ dot b c = 0 /\ dot c a = 0.
Definition det (a b c : vecR) : R := dot a (cross b c).
Lemma det_rows A : det3 A = det (col A 0) (col A 1) (col A 2). Proof. unfold det, col. mring. Qed.
Lemma app_cols A (x : vecR) : mapp A x = vadd (vscale (vx x) (col A 0)) (vadd (vscale (vy x) (col A 1)) (vscale (vz x) (col A 2))).
Proof. unfold col. mdestr. munf. rewrite ?dot_eq. unfold vadd, Vec.vscale. rn. f_equal; ring. Qed.
Lemma sq_cols A (x : vecR) : sqlen (mapp A x) = (vx x) ^ 2 * dot (col A 0) (col A 0) + (vy x) ^ 2 * dot (col A 1) (col A 1) + (vz x) ^ 2 * dot (col A 2) (col A 2)
  + 2 * (vx x * vy x) * dot (col A 0) (col A 1) + 2 * (vy x * vz x) * dot (col A 1) (col A 2) + 2 * (vz x * vx x) * dot (col A 2) (col A 0).
Proof. unfold col. mring. Qed.
Lemma ortho_cols A : Orthogonal A <-> ortho (col A 0) (col A 1) (col A 2).
Proof.
  split.
  - intros H. assert (E : forall x y z : R, sqlen (mapp A (v3 x y z)) = sqlen (v3 x y z)) by (intros; apply H).
    assert (E1 := E 1 0 0). assert (E2 := E 0 1 0). assert (E3 := E 0 0 1). assert (E4 := E 1 1 0). assert (E5 := E 0 1 1). assert (E6 := E 1 0 1). clear E.
    rewrite sq_cols in E1, E2, E3, E4, E5, E6. unfold sqlen, v3 in *. rn. repeat split; lra.
  - intros (A1 & A2 & A3 & A4 & A5 & A6) x. rewrite sq_cols, A1, A2, A3, A4, A5, A6. unfold sqlen. ring.
Qed.
Lemma gram (a b c : vecR) : det a b c ^ 2 = dot a a * (dot b b * dot c c - dot b c * dot b c) - dot a b * (dot a b * dot c c - dot b c * dot c a) + dot c a * (dot a b * dot b c - dot b b * dot c a).
Proof. unfold det. mring. Qed.
Lemma det_sq a b c : ortho a b c -> det a b c ^ 2 = 1.
Proof. intros (A1 & A2 & A3 & A4 & A5 & A6). rewrite gram, A1, A2, A3, A4, A5, A6. ring. Qed.
Lemma det_cycle (a b c : vecR) : det b c a = det a b c. Proof. unfold det. mring. Qed.
Lemma lagrange (a b c d : vecR) : dot (cross a b) (cross c d) = dot a c * dot b d - dot a d * dot b c. Proof. mring. Qed.
Lemma zero_sq (v : vecR) : dot v v = 0 -> v = vzero.
Proof.
  destruct v as [x y z]. rewrite dot_eq. rn. intros H. assert (x = 0 /\ y = 0 /\ z = 0) as (-> & -> & ->) by (change (@num NumR) with R in *; repeat split; nra). reflexivity.
Qed.
Lemma cross_col a b c : ortho a b c -> cross b c = vscale (det a b c) a.
Proof.
  intros O. assert (D := det_sq _ _ _ O). destruct O as (A1 & A2 & A3 & A4 & A5 & A6).
  assert (E : dot (vsub (cross b c) (vscale (det a b c) a)) (vsub (cross b c) (vscale (det a b c) a)) = 0).
  { transitivity (dot (cross b c) (cross b c) - 2 * det a b c * det a b c + det a b c ^ 2 * dot a a); [unfold det; mring|]. rewrite lagrange, A1, A2, A3, A5. rewrite D. nra. }
  apply zero_sq in E. transitivity (vadd (vsub (cross b c) (vscale (det a b c) a)) (vscale (det a b c) a)); [vring|]. rewrite E. vring.
Qed.
Lemma ortho_cycle a b c : ortho a b c -> ortho b c a. Proof. unfold ortho. tauto. Qed.
(** ** Orthonormal vectors span the space *)
Lemma expand (a b c x : vecR) : vscale (det a b c) x = vadd (vscale (dot x a) (cross b c)) (vadd (vscale (dot x b) (cross c a)) (vscale (dot x c) (cross a b))).
Proof. unfold det. mdestr. munf. rewrite ?dot_eq. unfold vadd, Vec.vscale, cross. rn. f_equal; ring. Qed.
Lemma parseval a b c (x : vecR) : ortho a b c -> sqlen x = dot x a ^ 2 + dot x b ^ 2 + dot x c ^ 2.
Proof.
  intros O. assert (D := det_sq _ _ _ O). assert (E := expand a b c x).
  rewrite (cross_col a b c O), (cross_col b c a (ortho_cycle _ _ _ O)), (cross_col c a b (ortho_cycle _ _ _ (ortho_cycle _ _ _ O))) in E.
  rewrite (det_cycle a b c) in E. replace (det c a b) with (det a b c) in E by (rewrite (det_cycle b c a), (det_cycle a b c); reflexivity).
  assert (E2 : vscale (det a b c) x = vscale (det a b c) (vadd (vscale (dot x a) a) (vadd (vscale (dot x b) b) (vscale (dot x c) c)))) by (rewrite E, !vscale_addv, !vscale_mul; rewrite (Rmult_comm (dot x a)), (Rmult_comm (dot x b)), (Rmult_comm (dot x c)); reflexivity).
  apply (f_equal (fun v => dot x (vscale (det a b c) v))) in E2. set (d := det a b c) in *. clearbody d.
  assert (F : forall v w : vecR, dot v (vscale d (vscale d w)) = d ^ 2 * dot v w) by mring. rewrite !F, D in E2.
  assert (G : dot x (vadd (vscale (dot x a) a) (vadd (vscale (dot x b) b) (vscale (dot x c) c))) = dot x a ^ 2 + dot x b ^ 2 + dot x c ^ 2).
  { set (p := dot x a). set (q := dot x b). set (r := dot x c). transitivity (p * dot x a + q * dot x b + r * dot x c); [clearbody p q r; mring|]. unfold p, q, r. change (@num NumR) with R. ring. }
  rewrite G in E2. rewrite sq_dot. lra.
Qed.

(** ** The trace inequality *)
Lemma unit_le (a b : vecR) : dot a a = 1 -> dot b b = 1 -> -1 <= dot a b <= 1.
Proof.
  intros A B. assert (E1 := sq_nonneg (vsub a b)). assert (E2 := sq_nonneg (vadd a b)). rewrite !sq_dot in *.
  replace (dot (vsub a b) (vsub a b)) with (dot a a - 2 * dot a b + dot b b) in E1 by mring. replace (dot (vadd a b) (vadd a b)) with (dot a a + 2 * dot a b + dot b b) in E2 by mring. lra.
Qed.
Lemma trace_bound a b c u v w (s0 s1 s2 : R) : ortho a b c -> ortho u v w -> s1 <= s0 -> s2 <= s1 -> 0 <= s2 ->
  s0 * dot a u + s1 * dot b v + s2 * dot c w <= s0 + s1 + det a b c * det u v w * s2.
Proof.
  intros O P H1 H2 H3. assert (D := det_sq _ _ _ O). assert (D' := det_sq _ _ _ P).
  assert (Oc := O). assert (Pc := P). destruct O as (A1 & A2 & A3 & A4 & A5 & A6), P as (B1 & B2 & B3 & B4 & B5 & B6).
  assert (Z0 := unit_le a u A1 B1). assert (Z1 := unit_le b v A2 B2). assert (Z2 := unit_le c w A3 B3).
  set (x := det a b c) in *. set (y := det u v w) in *.
  assert (K : x * y = 1 \/ x * y = -1). { assert (x = 1 \/ x = -1) as [->| ->] by (assert ((x - 1) * (x + 1) = 0) as Q by lra; apply Rmult_integral in Q; destruct Q; [left|right]; lra);
    assert (y = 1 \/ y = -1) as [->| ->] by (assert ((y - 1) * (y + 1) = 0) as Q by lra; apply Rmult_integral in Q; destruct Q; [left|right]; lra); lra. }
  destruct K as [K|K]; rewrite K; [nra|].
  assert (C0 : dot b v * dot c w - dot b w * dot c v = - dot a u).
  { rewrite <- lagrange. rewrite (cross_col a b c Oc), (cross_col u v w Pc). fold x y. transitivity (x * y * dot a u); [mring|rewrite K; ring]. }
  assert (C1 : dot c w * dot a u - dot c u * dot a w = - dot b v).
  { rewrite <- lagrange. rewrite (cross_col b c a (ortho_cycle _ _ _ Oc)), (cross_col v w u (ortho_cycle _ _ _ Pc)). rewrite (det_cycle a b c), (det_cycle u v w). fold x y. transitivity (x * y * dot b v); [mring|rewrite K; ring]. }
  assert (C2 : dot a u * dot b v - dot a v * dot b u = - dot c w).
  { rewrite <- lagrange. rewrite (cross_col c a b (ortho_cycle _ _ _ (ortho_cycle _ _ _ Oc))), (cross_col w u v (ortho_cycle _ _ _ (ortho_cycle _ _ _ Pc))). rewrite (det_cycle b c a), (det_cycle v w u), (det_cycle a b c), (det_cycle u v w). fold x y. transitivity (x * y * dot c w); [mring|rewrite K; ring]. }
  assert (P0 := parseval u v w a Pc). assert (P1 := parseval u v w b Pc). assert (P2 := parseval u v w c Pc). rewrite sq_dot in P0, P1, P2. rewrite A1 in P0. rewrite A2 in P1. rewrite A3 in P2.
  set (T := dot a u + dot b v + dot c w).
  assert (Q : 0 <= (1 - T) * (3 + T)).
  { assert (Q0 : (1 - T) * (3 + T) = (dot a v - dot b u) ^ 2 + (dot b w - dot c v) ^ 2 + (dot c u - dot a w) ^ 2) by (unfold T; nra).
    rewrite Q0. assert (W1 := pow2_ge_0 (dot a v - dot b u)). assert (W2 := pow2_ge_0 (dot b w - dot c v)). assert (W3 := pow2_ge_0 (dot c u - dot a w)). lra. }
  assert (T <= 1) by (destruct (Rle_lt_dec T 1); [assumption|exfalso; assert (0 < T - 1) by lra; assert (0 < 3 + T) by lra; nra]).
  unfold T in *. nra.
Qed.

(** ** Rotations *)
Lemma app_add A (x y : vecR) : mapp A (vadd x y) = vadd (mapp A x) (mapp A y).
Proof. mdestr. munf. rewrite ?dot_eq. unfold vadd. rn. f_equal; ring. Qed.
Lemma app_sub A (x y : vecR) : mapp A (vsub x y) = vsub (mapp A x) (mapp A y).
Proof. mdestr. munf. rewrite ?dot_eq. unfold vsub, vadd, vneg. rn. f_equal; ring. Qed.
Lemma app_scale A s (x : vecR) : mapp A (vscale s x) = vscale s (mapp A x).
Proof. mdestr. munf. rewrite ?dot_eq. unfold Vec.vscale. rn. f_equal; ring. Qed.
Lemma keeps_dot A (x y : vecR) : Orthogonal A -> dot (mapp A x) (mapp A y) = dot x y.
Proof.
  intros H. assert (P : forall a b : vecR, dot a b = (sqlen (vadd a b) - sqlen a - sqlen b) / 2) by (intros; mdestr; munf; rewrite ?dot_eq; unfold vadd; rn; field).
  rewrite (P (mapp A x)), (P x y), <- app_add, !H. reflexivity.
Qed.
Lemma keeps_ortho A a b c : Orthogonal A -> ortho a b c -> ortho (mapp A a) (mapp A b) (mapp A c).
Proof. intros H. unfold ortho. rewrite !(keeps_dot A _ _ H). tauto. Qed.
Lemma det_app A a b c : det (mapp A a) (mapp A b) (mapp A c) = det3 A * det a b c.
Proof. unfold det. mring. Qed.
Lemma det_svd U s V : det3 (mmul3 (mdiag3 U s) (mtr3 V)) = det3 U * (vx s * vy s * vz s) * det3 V.
Proof. mring. Qed.
Lemma det_uv U V : det3 (mmul3 U (mtr3 V)) = det3 U * det3 V.
Proof. mring. Qed.
Lemma app_svd U s V (x : vecR) : mapp (mmul3 (mdiag3 U s) (mtr3 V)) x = mapp U (v3 (vx s * dot (col V 0) x) (vy s * dot (col V 1) x) (vz s * dot (col V 2) x)).
Proof. unfold col. mdestr. munf. rewrite ?dot_eq. unfold v3. rn. f_equal; ring. Qed.
Lemma rot_svd U V : Orthogonal U -> Orthogonal V -> Rotation (mmul3 (mdiag3 U (v3 1 1 (det3 (mmul3 U (mtr3 V))))) (mtr3 V)).
Proof.
  intros HU HV. assert (OU := proj1 (ortho_cols U) HU). assert (OV := proj1 (ortho_cols V) HV). assert (DU := det_sq _ _ _ OU). assert (DV := det_sq _ _ _ OV). rewrite <- det_rows in DU, DV.
  rewrite det_uv. set (du := det3 U) in *. set (dv := det3 V) in *. change (@num NumR) with R in *. split.
  - intros x. rewrite app_svd, HU. rewrite (parseval _ _ _ x OV). rewrite !(dot_sym x). unfold sqlen, v3. rn. change (@num NumR) with R in *.
    replace ((du * dv * dot (col V 2) x) ^ 2) with (du ^ 2 * dv ^ 2 * dot (col V 2) x ^ 2) by (change (@num NumR) with R; ring). rewrite DU, DV. change (@num NumR) with R. ring.
  - rewrite det_svd. fold du dv. unfold v3. rn. change (@num NumR) with R in *. transitivity (du ^ 2 * dv ^ 2); [ring|rewrite DU, DV; ring].
Qed.
Definition inner3 (A B : matR) : R := dot (mr0 A) (mr0 B) + dot (mr1 A) (mr1 B) + dot (mr2 A) (mr2 B).
Lemma inner_svd Q U s V : inner3 Q (mmul3 (mdiag3 U s) (mtr3 V)) = vx s * dot (col U 0) (mapp Q (col V 0)) + vy s * dot (col U 1) (mapp Q (col V 1)) + vz s * dot (col U 2) (mapp Q (col V 2)).
Proof. unfold inner3, col. mring. Qed.
Lemma best_rotation M U s V Q : SvdOf M (U, s, V) -> Rotation Q ->
  inner3 Q M <= inner3 (mmul3 (mdiag3 U (v3 1 1 (det3 (mmul3 U (mtr3 V))))) (mtr3 V)) M.
Proof.
  intros (HU & HV & -> & S1 & S2 & S3) (HQ & DQ). assert (OU := proj1 (ortho_cols U) HU). assert (OV := proj1 (ortho_cols V) HV).
  rewrite inner_svd. assert (OQ := keeps_ortho Q _ _ _ HQ OV).
  assert (B := trace_bound _ _ _ _ _ _ (vx s) (vy s) (vz s) OU OQ S1 S2 S3). rewrite det_app, DQ, <- !det_rows in B.
  eapply Rle_trans; [exact B|]. right. rewrite inner_svd. rewrite det_uv.
  assert (E : forall k, dot (col U k) (mapp (mmul3 (mdiag3 U (v3 1 1 (det3 U * det3 V))) (mtr3 V)) (col V k)) = match k with O | S O => 1 | _ => det3 U * det3 V end * dot (col U k) (col U k) -> True) by auto. clear E.
  destruct OU as (U0 & U1 & U2 & U3 & U4 & U5), OV as (V0 & V1 & V2 & V3' & V4 & V5).
  rewrite !app_svd. rewrite !app_cols. rewrite V0, V1, V2, V3', V4, V5. rewrite !(dot_sym (col V 1) (col V 0)), (dot_sym (col V 2) (col V 1)), (dot_sym (col V 0) (col V 2)), V3', V4, V5. unfold v3. rn.
  assert (L : forall (a b c d : vecR) (p q r : R), dot a (vadd (vscale p b) (vadd (vscale q c) (vscale r d))) = p * dot a b + q * dot a c + r * dot a d) by mring.
  rewrite !L. rewrite U0, U1, U2, (dot_sym (col U 0) (col U 2)), (dot_sym (col U 1) (col U 0)), (dot_sym (col U 2) (col U 1)), U3, U4, U5. change (@num NumR) with R. ring.
Qed.

(** ** Centred points *)
Definition vsum (l : list vecR) : vecR := v3 (rsum (map vx l)) (rsum (map vy l)) (rsum (map vz l)).
Lemma fold_vadd l : forall a : vecR, fold_left (@vadd NumR) l a = vadd a (vsum l).
Proof.
  induction l as [|x l IH]; intros a; cbn [fold_left].
  { destruct a. unfold vsum, vadd, v3. cbn [map rsum fold_right]. rn. f_equal; ring. }
  rewrite IH. unfold vsum. cbn [map]. rewrite !rsum_cons. destruct a, x. unfold vadd, v3. rn. f_equal; ring.
Qed.
Lemma vmean_eq l : l <> [] -> vmean (N := NumR) l = vscale (/ INR (length l)) (vsum l).
Proof.
  intros H. unfold vmean. cbv zeta. rewrite fold_vadd. replace (vadd vzero (vsum l)) with (vsum l) by (destruct (vsum l); unfold vadd, vzero, vfill; rn; f_equal; ring). cbn [nofZ NumR]. rewrite <- INR_IZR_INZ. unfold Vec.vscale. rn. f_equal; unfold Rdiv; ring.
Qed.
Lemma len_pos {A} (l : list A) : l <> [] -> 0 < INR (length l).
Proof. destruct l; [congruence|]. intros _. apply lt_0_INR. cbn. lia. Qed.
Definition sums (l : list (vecR * vecR)) (F : vecR * vecR -> R) : R := rsum (map F l).
Lemma cov_inner Q l : rsum (map (fun p => dot (snd p) (mapp Q (fst p))) l) = inner3 Q (covariance (N := NumR) l).
Proof.
  assert (G : forall a : matR, inner3 Q (fold_left (fun a p => madd3 (N := NumR) a (Mat (vscale (vx (snd p)) (fst p)) (vscale (vy (snd p)) (fst p)) (vscale (vz (snd p)) (fst p)))) l a) = inner3 Q a + rsum (map (fun p => dot (snd p) (mapp Q (fst p))) l)).
  { induction l as [|p l IH]; intros a; cbn [fold_left map]; [cbn; ring|]. rewrite IH, rsum_cons. destruct p as [x y]. cbn [fst snd].
    replace (inner3 Q (madd3 (N := NumR) a (Mat (vscale (vx y) x) (vscale (vy y) x) (vscale (vz y) x)))) with (inner3 Q a + dot y (mapp Q x)); [ring|]. unfold inner3, madd3. mring. }
  unfold covariance. rewrite G. unfold inner3 at 1, mzero3. cbn [mr0 mr1 mr2]. rewrite !dot_eq. unfold vzero, vfill. rn. ring.
Qed.
Lemma lin1 (w a b u v z : vecR) : dot (vsub a (vadd (vscale (vx b) u) (vadd (vscale (vy b) v) (vscale (vz b) z)))) w =
  (vx w * vx a + (vy w * vy a + vz w * vz a)) + ((- dot u w) * vx b + ((- dot v w) * vy b + (- dot z w) * vz b)).
Proof. mring. Qed.
Lemma lin2 (a b x y t : vecR) : sqlen (vsub (vsub y b) (vsub x a)) + (2 * dot (vsub (vsub y b) (vsub x a)) (vsub b (vadd a t)) + sqlen (vsub b (vadd a t))) = sqlen (vsub y (vadd x t)).
Proof. mring. Qed.
Lemma lin3 (a y : vecR) : sqlen (vsub y a) = sqlen a + sqlen y + -2 * dot y a.
Proof. mring. Qed.
Lemma lin4 (a y : vecR) : sqlen (vsub y (vadd a (vsub y a))) = 0.
Proof. mring. Qed.
Lemma lin5 (a y t : vecR) : dot (vsub y (vadd a t)) (vsub y (vadd a t)) = sqlen (vsub y a) + (-2 * dot (vsub y a) t + sqlen t).
Proof. mring. Qed.
Section Centre.
Variable l : list (vecR * vecR).
Hypothesis Hl : l <> [].
Let n := INR (length l).
Let xm : vecR := vmean (N := NumR) (map fst l).
Let ym : vecR := vmean (N := NumR) (map snd l).
Let c := map (fun p => (vsub (fst p) xm, vsub (snd p) ym)) l.
Lemma centred (f : vecR * vecR -> vecR) (g : vecR -> R) : (forall a b, g (vsub a b) = g a - g b) -> (forall s a, g (vscale s a) = s * g a) -> g (vsum (map f l)) = rsum (map (fun p => g (f p)) l) ->
  rsum (map (fun p => g (vsub (f p) (vmean (N := NumR) (map f l)))) l) = 0.
Proof.
  intros G1 G2 G3. rewrite (rsum_ext _ (fun p => g (f p) + (-1) * g (vmean (N := NumR) (map f l))) l) by (intros; rewrite G1; ring).
  rewrite rsum_plus, rsum_consts. rewrite vmean_eq by (destruct l; [congruence|discriminate]). rewrite G2, G3, map_length. field. assert (P := len_pos l Hl). lra.
Qed.
(** The residuals of a motion about the means. *)
Definition resid (Q : matR) (p : vecR * vecR) : vecR := vsub (snd p) (mapp Q (fst p)).
Lemma resid_sum Q (w : vecR) : rsum (map (fun p => dot (resid Q p) w) c) = 0.
Proof.
  unfold c. rewrite map_map. unfold resid. cbn [fst snd].
  assert (L1 : forall f : vecR * vecR -> vecR, vx (vsum (map f l)) = rsum (map (fun p => vx (f p)) l) /\ vy (vsum (map f l)) = rsum (map (fun p => vy (f p)) l) /\ vz (vsum (map f l)) = rsum (map (fun p => vz (f p)) l)) by (intros f; unfold vsum, v3; rn; rewrite !map_map; auto).
  assert (C : forall f : vecR * vecR -> vecR, rsum (map (fun p => vx (vsub (f p) (vmean (N := NumR) (map f l)))) l) = 0 /\ rsum (map (fun p => vy (vsub (f p) (vmean (N := NumR) (map f l)))) l) = 0 /\ rsum (map (fun p => vz (vsub (f p) (vmean (N := NumR) (map f l)))) l) = 0).
  { intros f. destruct (L1 f) as (A & B & D). split; [|split].
    - apply (centred f (fun v : vecR => vx v)); [intros [? ? ?] [? ? ?]; unfold vsub, vadd, vneg; rn; ring|intros ? [? ? ?]; unfold Vec.vscale; rn; try apply Rmult_comm; reflexivity|exact A].
    - apply (centred f (fun v : vecR => vy v)); [intros [? ? ?] [? ? ?]; unfold vsub, vadd, vneg; rn; ring|intros ? [? ? ?]; unfold Vec.vscale; rn; try apply Rmult_comm; reflexivity|exact B].
    - apply (centred f (fun v : vecR => vz v)); [intros [? ? ?] [? ? ?]; unfold vsub, vadd, vneg; rn; ring|intros ? [? ? ?]; unfold Vec.vscale; rn; try apply Rmult_comm; reflexivity|exact D]. }
  destruct (C fst) as (X0 & X1 & X2), (C snd) as (Y0 & Y1 & Y2). fold xm in X0, X1, X2. fold ym in Y0, Y1, Y2.
  set (u := col Q 0). set (v := col Q 1). set (z := col Q 2).
  rewrite (rsum_ext _ (fun p => (vx w * vx (vsub (snd p) ym) + (vy w * vy (vsub (snd p) ym) + vz w * vz (vsub (snd p) ym))) + ((- dot u w) * vx (vsub (fst p) xm) + ((- dot v w) * vy (vsub (fst p) xm) + (- dot z w) * vz (vsub (fst p) xm)))) l).
  2:{ intros p _. rewrite app_cols. fold u v z. apply lin1. }
  rewrite !rsum_plus, !rsum_scal. change (@num NumR) with R in X0, X1, X2, Y0, Y1, Y2 |- *. rewrite X0, X1, X2, Y0, Y1, Y2. change (@num NumR) with R. ring.
Qed.
Lemma misfit_split Q t : misfit l Q t = rsum (map (fun p => sqlen (resid Q p)) c) / n + sqlen (vsub ym (vadd (mapp Q xm) t)).
Proof.
  assert (Np := len_pos l Hl). set (w := vsub ym (vadd (mapp Q xm) t)). unfold misfit. fold n.
  replace (rsum (map (fun p => sqlen (vsub (snd p) (vadd (mapp Q (fst p)) t))) l)) with (rsum (map (fun p => sqlen (resid Q p) + (2 * dot (resid Q p) w + sqlen w)) c)).
  - rewrite !rsum_plus, rsum_scal, resid_sum, rsum_consts. unfold c at 2. rewrite map_length. fold n. field. unfold n. lra.
  - unfold c. rewrite map_map. apply rsum_ext. intros p _. unfold resid. cbn [fst snd]. rewrite app_sub. unfold w. apply lin2.
Qed.
Lemma resid_inner Q : Orthogonal Q -> rsum (map (fun p => sqlen (resid Q p)) c) = rsum (map (fun p => sqlen (fst p) + sqlen (snd p)) c) - 2 * inner3 Q (covariance (N := NumR) c).
Proof.
  intros H. rewrite <- cov_inner. rewrite (rsum_ext _ (fun p => (sqlen (fst p) + sqlen (snd p)) + (-2) * dot (snd p) (mapp Q (fst p))) c); [rewrite rsum_plus, rsum_scal; change (@num NumR) with R; ring|].
  intros p _. unfold resid. rewrite <- (H (fst p)). apply lin3.
Qed.
Variable svd : matR -> matR * vecR * matR.
Hypothesis Hs : SvdOf (covariance (N := NumR) c) (svd (covariance (N := NumR) c)).
Theorem rigid_ok : let '(R, t, e) := rigid (N := NumR) svd l in
  Rotation R /\ (forall Q s, Rotation Q -> misfit l R t <= misfit l Q s) /\ e = misfit l R t + sqlen t.
Proof.
  unfold rigid. cbv zeta. fold xm ym. fold c. destruct (svd (covariance (N := NumR) c)) as [[U s] V] eqn:E. assert (Hs' := Hs). destruct Hs' as (HU & HV & _).
  change (@none_ NumR) with 1. set (R := mmul3 (mdiag3 U _) (mtr3 V)).
  assert (RR : Rotation R) by (exact (rot_svd U V HU HV)). split; [exact RR|]. set (t := vsub ym (mapp R xm)).
  assert (T0 : sqlen (vsub ym (vadd (mapp R xm) t)) = 0) by (unfold t; apply lin4).
  assert (Np := len_pos l Hl). split.
  - intros Q s' HQ. rewrite !misfit_split, T0. rewrite !resid_inner by (apply HQ || apply RR).
    assert (B := best_rotation _ U s V Q Hs HQ). change (inner3 Q (covariance (N := NumR) c) <= inner3 R (covariance (N := NumR) c)) in B. assert (S0 := sq_nonneg (vsub ym (vadd (mapp Q xm) s'))).
    assert (D : (rsum (map (fun p => sqlen (fst p) + sqlen (snd p)) c) - 2 * inner3 R (covariance (N := NumR) c)) / n <= (rsum (map (fun p => sqlen (fst p) + sqlen (snd p)) c) - 2 * inner3 Q (covariance (N := NumR) c)) / n).
    { unfold Rdiv. apply Rmult_le_compat_r; [left; apply Rinv_0_lt_compat; exact Np|]. lra. }
    lra.
  - rewrite misfit_split, T0, Rplus_0_r. cbn [ndiv nofZ nzero NumR]. rewrite <- INR_IZR_INZ. fold n. rewrite fold_nadd.
    replace (rsum (map (fun p => dot (vsub (snd p) (vadd (mapp R (fst p)) t)) (vsub (snd p) (vadd (mapp R (fst p)) t))) c)) with (rsum (map (fun p => sqlen (resid R p) + ((-2) * dot (resid R p) t + sqlen t)) c)).
    + rewrite !rsum_plus, rsum_scal, resid_sum, rsum_consts. unfold c at 2. rewrite map_length. fold n. change (@num NumR) with Rdefinitions.R. field. unfold n. lra.
    + apply rsum_ext. intros p _. unfold resid. symmetry. apply lin5.
Qed.
End Centre.

(** ** The pairs *)
Lemma sq_dist_eq (f g : list R) : sq_dist (N := NumR) f g = sig_dist f g.
Proof.
  unfold sq_dist, sig_dist. rewrite fold_nadd. change (@nzero NumR) with 0. rewrite Rplus_0_l. apply rsum_ext. intros p _. rn. ring.
Qed.
Lemma nearest_ok (tgt : list (feature NumR)) f :
  match nearest tgt f with
  | (d, Some g) => In g tgt /\ d = sig_dist f (snd g) /\ d < 10 ^ 20 /\ forall g', In g' tgt -> d <= sig_dist f (snd g')
  | (d, None) => forall g, In g tgt -> 10 ^ 20 <= sig_dist f (snd g)
  end.
Proof.
  unfold nearest.
  set (st := fun (best : R * option (feature NumR)) (g : feature NumR) => let dist := sq_dist (N := NumR) f (snd g) in if nltb dist (fst best) then (dist, Some g) else best).
  change (match fold_left st tgt (10 ^ 20, None) with
  | (d, Some g) => In g tgt /\ d = sig_dist f (snd g) /\ d < 10 ^ 20 /\ forall g', In g' tgt -> d <= sig_dist f (snd g')
  | (d, None) => forall g, In g tgt -> 10 ^ 20 <= sig_dist f (snd g)
  end).
  assert (G : forall l best,
    let best' := fold_left st l best in
    fst best' <= fst best /\ (forall g, In g l -> fst best' <= sig_dist f (snd g)) /\
    match snd best' with Some g => (In g l /\ fst best' = sig_dist f (snd g) /\ fst best' < fst best) \/ best' = best | None => best' = best end).
  { induction l as [|g l IH]; intros best; cbn [fold_left].
    - cbv zeta. split; [apply Rle_refl|]. split; [intros ? []|]. destruct best as [? [g|]]; cbn [snd]; auto.
    - cbv zeta. destruct (IH (st best g)) as (A & B & C). set (b' := fold_left st l (st best g)) in *.
      assert (S : st best g = if nltb (sq_dist (N := NumR) f (snd g)) (fst best) then (sq_dist (N := NumR) f (snd g), Some g) else best) by reflexivity.
      assert (T : (nltb (Num := NumR) (sq_dist (N := NumR) f (snd g)) (fst best) = true /\ sig_dist f (snd g) < fst best) \/ (nltb (Num := NumR) (sq_dist (N := NumR) f (snd g)) (fst best) = false /\ fst best <= sig_dist f (snd g))).
      { rewrite sq_dist_eq. cbn [nltb NumR]. unfold Rltb. destruct (Rlt_dec (sig_dist f (snd g)) (fst best)) as [L|L]; [left|right]; split; auto; apply Rnot_lt_le; exact L. }
      destruct T as [[T1 T2]|[T1 T2]]; rewrite T1 in S.
      + rewrite S in A, C. cbn [fst] in A. rewrite sq_dist_eq in A. split; [lra|]. split; [intros g' [<-|H]; [exact A|now apply B]|].
        destruct (snd b') as [g'|] eqn:E.
        * destruct C as [(C1 & C2 & C3)|C]; [left; split; [now right|split; [exact C2|]]; cbn [fst] in C3; rewrite sq_dist_eq in C3; lra|].
          left. rewrite C in E |- *. cbn [fst snd] in *. injection E as <-. rewrite sq_dist_eq. split; [now left|]. split; [reflexivity|exact T2].
        * rewrite C in E. discriminate E.
      + rewrite S in A, C. split; [exact A|]. split; [intros g' [<-|H]; [lra|now apply B]|].
        destruct (snd b') as [g'|] eqn:E; [|exact C]. destruct C as [(C1 & C2 & C3)|C]; [left; split; [now right|split; assumption]|now right]. }
  destruct (G tgt (10 ^ 20, None)) as (A & B & C). destruct (fold_left st tgt (10 ^ 20, None)) as [d [g|]]; cbn [fst snd] in *.
  - destruct C as [(C1 & C2 & C3)|C]; [repeat split; auto|discriminate C].
  - intros g Hg. assert (X := B g Hg). injection C as ->. exact X.
Qed.
Lemma matches_ok (tgt src : list (feature NumR)) :
  match matches tgt src with
  | Some l => Forall2 (Paired tgt) src l
  | None => exists s, In s src /\ forall g, In g tgt -> 10 ^ 20 <= sig_dist (snd s) (snd g)
  end.
Proof.
  induction src as [|s src IH]; cbn [matches]; [constructor|]. assert (X := nearest_ok tgt (snd s)). destruct (nearest tgt (snd s)) as [d [g|]]; cbn [snd].
  - destruct (matches tgt src) as [l|]; [constructor; [|exact IH]|destruct IH as (s' & A & B); exists s'; split; [now right|exact B]].
    destruct X as (A & B & C & D). split; [reflexivity|]. exists g. rewrite <- B. auto.
  - exists s. split; [now left|exact X].
Qed.
Lemma vmean_middle l : l <> [] -> vmean (N := NumR) l = middle l.
Proof. intros H. rewrite (vmean_eq l H). unfold vsum, middle, v3, Vec.vscale. rn. f_equal; unfold Rdiv; apply Rmult_comm. Qed.
Lemma covariance_eq l : covariance (N := NumR) l = Mat (N := NumR)
   (V3 (N := NumR) (rsum (map (fun p : vecR * vecR => vx (snd p) * vx (fst p)) l)) (rsum (map (fun p : vecR * vecR => vx (snd p) * vy (fst p)) l)) (rsum (map (fun p : vecR * vecR => vx (snd p) * vz (fst p)) l)))
   (V3 (N := NumR) (rsum (map (fun p : vecR * vecR => vy (snd p) * vx (fst p)) l)) (rsum (map (fun p : vecR * vecR => vy (snd p) * vy (fst p)) l)) (rsum (map (fun p : vecR * vecR => vy (snd p) * vz (fst p)) l)))
   (V3 (N := NumR) (rsum (map (fun p : vecR * vecR => vz (snd p) * vx (fst p)) l)) (rsum (map (fun p : vecR * vecR => vz (snd p) * vy (fst p)) l)) (rsum (map (fun p : vecR * vecR => vz (snd p) * vz (fst p)) l))).
Proof.
  assert (G : forall a : matR, fold_left (fun a p => madd3 (N := NumR) a (Mat (vscale (vx (snd p)) (fst p)) (vscale (vy (snd p)) (fst p)) (vscale (vz (snd p)) (fst p)))) l a = madd3 (N := NumR) a (Mat (N := NumR)
   (V3 (N := NumR) (rsum (map (fun p : vecR * vecR => vx (snd p) * vx (fst p)) l)) (rsum (map (fun p : vecR * vecR => vx (snd p) * vy (fst p)) l)) (rsum (map (fun p : vecR * vecR => vx (snd p) * vz (fst p)) l)))
   (V3 (N := NumR) (rsum (map (fun p : vecR * vecR => vy (snd p) * vx (fst p)) l)) (rsum (map (fun p : vecR * vecR => vy (snd p) * vy (fst p)) l)) (rsum (map (fun p : vecR * vecR => vy (snd p) * vz (fst p)) l)))
   (V3 (N := NumR) (rsum (map (fun p : vecR * vecR => vz (snd p) * vx (fst p)) l)) (rsum (map (fun p : vecR * vecR => vz (snd p) * vy (fst p)) l)) (rsum (map (fun p : vecR * vecR => vz (snd p) * vz (fst p)) l))))).
  { induction l as [|[x y] l IH]; intros a; cbn [fold_left map].
    - destruct a as [[? ? ?] [? ? ?] [? ? ?]]. cbn [rsum fold_right]. unfold madd3, vadd. cbn [mr0 mr1 mr2 Vec.vx Vec.vy Vec.vz]. rn. f_equal; f_equal; ring.
    - rewrite IH, !rsum_cons. destruct a as [[? ? ?] [? ? ?] [? ? ?]], x, y. unfold madd3, vadd, Vec.vscale. cbn [mr0 mr1 mr2 Vec.vx Vec.vy Vec.vz fst snd]. rn. f_equal; f_equal; ring. }
  unfold covariance. rewrite G. unfold mzero3, madd3, vadd, vzero, vfill. cbn [mr0 mr1 mr2 Vec.vx Vec.vy Vec.vz]. rn. f_equal; f_equal; ring.
Qed.
Lemma cross_cov l : l <> [] -> covariance (N := NumR) (map (fun p => (vsub (fst p) (vmean (N := NumR) (map fst l)), vsub (snd p) (vmean (N := NumR) (map snd l)))) l) = cross_covariance l.
Proof.
  intros H. rewrite !vmean_middle by (destruct l; [congruence|discriminate]). rewrite covariance_eq. unfold cross_covariance. cbv zeta. rewrite !map_map. reflexivity.
Qed.
Theorem icp_ok svd (tgt src : list (feature NumR)) : src <> [] ->
  match solveRigidICP (N := NumR) svd tgt src with
  | Some (Q, t, e) => exists l, Forall2 (Paired tgt) src l /\ (SvdOf (cross_covariance l) (svd (cross_covariance l)) -> Rotation Q /\ (forall Q' t', Rotation Q' -> misfit l Q t <= misfit l Q' t') /\ e = misfit l Q t + sqlen t)
  | None => exists s, In s src /\ forall g, In g tgt -> 10 ^ 20 <= sig_dist (snd s) (snd g)
  end.
Proof.
  intros H. unfold solveRigidICP. assert (M := matches_ok tgt src). destruct (matches tgt src) as [l|]; [|exact M].
  assert (L : l <> []) by (intros ->; inversion M; congruence). destruct (rigid svd l) as [[Q t] e] eqn:E. exists l. split; [exact M|]. intros S.
  assert (X := rigid_ok l L svd). rewrite (cross_cov l L), E in X. exact (X S).
Qed.
