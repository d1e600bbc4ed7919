(** Vector arithmetic over the real numbers. *)
From Coq Require Import Reals Lra List ZArith Bool.
From Verif Require Import Num NumInst Vec Bounds GeomSpec.
Local Open Scope R_scope.

Ltac rn := cbn [NumR num nzero none_ ntwo nhalf nquarter neighth neps6 neps12 neps20 nbig12 nbig20 npi nofZ
  nadd nsub nmul ndiv nopp nabs nsqrt nltb nleb neqb nfinite nacos natan2 nexp vx vy vz] in *.
Notation vscale := (@Vec.vscale NumR).
Notation vdiv := (@Vec.vdiv NumR).
Notation vsubs := (@Vec.vsubs NumR).
Notation ssubv := (@Vec.ssubv NumR).
Notation vlength := (@Vec.vlength NumR).
Notation dot := (@Vec.dot NumR).
Notation dihedral := (@Vec.dihedral NumR).

Lemma v3_eq (x y z x' y' z' : R) : x = x' -> y = y' -> z = z' -> v3 x y z = v3 x' y' z'.
Proof. congruence. Qed.
Ltac rg := rn; ring.
Ltac rl := rn; lra.
Ltac vdestr := repeat match goal with v : vec NumR |- _ => destruct v as [? ? ?] end.
Ltac vring := intros; vdestr; unfold vsub, vadd, vneg, vscale, vzero, vfill, cross, v3; rn; f_equal; rn; try rg.

Lemma vadd_comm (a b : vecR) : vadd a b = vadd b a. Proof. vring. Qed.
Lemma vadd_assoc (a b c : vecR) : vadd a (vadd b c) = vadd (vadd a b) c. Proof. vring. Qed.
Lemma vadd_zero (a : vecR) : vadd a vzero = a. Proof. vring. Qed.
Lemma vsub_self (a : vecR) : vsub a a = vzero. Proof. vring. Qed.
Lemma vsub_comp (a b : vecR) : vsub a b = v3 (vx a - vx b) (vy a - vy b) (vz a - vz b). Proof. vring. Qed.
Lemma vscale_one (a : vecR) : vscale 1 a = a. Proof. vring. Qed.
Lemma vscale_mul (s t : R) (a : vecR) : vscale s (vscale t a) = vscale (s * t) a. Proof. vring. Qed.
Lemma vscale_addv (s : R) (a b : vecR) : vscale s (vadd a b) = vadd (vscale s a) (vscale s b). Proof. vring. Qed.
Lemma vscale_adds (s t : R) (a : vecR) : vscale (s + t) a = vadd (vscale s a) (vscale t a). Proof. vring. Qed.

Lemma Reqb_false a b : Reqb a b = false <-> a <> b.
Proof. unfold Reqb. destruct (Req_EM_T a b); split; congruence. Qed.
Lemma Rltb_false a b : Rltb a b = false <-> b <= a.
Proof. unfold Rltb. destruct (Rlt_dec a b); split; try congruence; rl. Qed.
Lemma Rleb_false a b : Rleb a b = false <-> b < a.
Proof. unfold Rleb. destruct (Rle_dec a b); split; try congruence; rl. Qed.

Lemma vdiv_ok (a : vecR) (s : R) : s <> 0 -> vdiv a s = Some (vscale (/ s) a).
Proof. intros H. unfold vdiv. rn. rewrite (proj2 (Reqb_false s 0) H). f_equal. Qed.
Lemma vdiv_zero (a : vecR) : vdiv a 0 = None.
Proof. unfold vdiv. rn. rewrite (proj2 (Reqb_eq 0 0) eq_refl). reflexivity. Qed.

Lemma dot_eq (a b : vecR) : dot a b = vx a * vx b + vy a * vy b + vz a * vz b.
Proof. unfold dot. rn. rg. Qed.
Ltac dring := intros; vdestr; rewrite ?dot_eq; unfold vsub, vadd, vneg, vscale, vzero, vfill, cross, v3; rn; try rg.
Lemma dot_sym (a b : vecR) : dot a b = dot b a. Proof. rewrite !dot_eq. rn. rg. Qed.
Lemma dot_add (a b c : vecR) : dot (vadd a b) c = dot a c + dot b c. Proof. dring. Qed.
Lemma dot_scale (s : R) (a b : vecR) : dot (vscale s a) b = s * dot a b. Proof. dring. Qed.
Lemma dot_pos (a : vecR) : 0 <= dot a a.
Proof. rewrite dot_eq. nra. Qed.
Lemma dot_zero (a : vecR) : dot a a = 0 -> a = vzero.
Proof. rewrite dot_eq. destruct a as [x y z]. rn. intros H. unfold vzero, vfill. rn. f_equal; rn; nra. Qed.
Lemma cross_anti (a b : vecR) : cross a b = vneg (cross b a). Proof. vring. Qed.
Lemma cross_add (a b c : vecR) : cross (vadd a b) c = vadd (cross a c) (cross b c). Proof. vring. Qed.
Lemma cross_scale (s : R) (a b : vecR) : cross (vscale s a) b = vscale s (cross a b). Proof. vring. Qed.
Lemma cross_orth1 (a b : vecR) : dot (cross a b) a = 0. Proof. dring. Qed.
Lemma cross_orth2 (a b : vecR) : dot (cross a b) b = 0. Proof. dring. Qed.
Lemma cross_lagrange (a b : vecR) : dot (cross a b) (cross a b) = dot a a * dot b b - dot a b * dot a b. Proof. dring. Qed.

Lemma vlength_pos (a : vecR) : 0 <= vlength a.
Proof. unfold vlength. rn. apply sqrt_pos. Qed.
Lemma vlength_sq (a : vecR) : vlength a * vlength a = dot a a.
Proof. unfold vlength. rn. apply sqrt_sqrt, dot_pos. Qed.
Lemma vlength_zero (a : vecR) : vlength a = 0 <-> a = vzero.
Proof.
  split; [intros H; apply dot_zero; rewrite <- vlength_sq, H; rg|intros ->].
  unfold vlength. rn. rewrite dot_eq. unfold vzero, vfill. rn. replace (0 * 0 + 0 * 0 + 0 * 0) with 0 by rg. apply sqrt_0.
Qed.
Lemma vlength_scale (s : R) (a : vecR) : vlength (vscale s a) = Rabs s * vlength a.
Proof.
  unfold vlength. rn. rewrite <- (sqrt_Rsqr_abs s), <- sqrt_mult; [|unfold Rsqr; nra|apply dot_pos]. f_equal. unfold Rsqr. dring.
Qed.
Lemma normalize_unit (a : vecR) : a <> vzero -> exists u, normalize a = Some u /\ vlength u = 1 /\ vscale (vlength a) u = a.
Proof.
  intros H. assert (L : vlength a <> 0) by (intros X; apply H, vlength_zero, X).
  exists (vscale (/ vlength a) a). split; [apply vdiv_ok, L|]. assert (P := vlength_pos a). split.
  - rewrite vlength_scale, Rabs_right; [rn; field; exact L|]. apply Rle_ge, Rlt_le, Rinv_0_lt_compat. rl.
  - rewrite vscale_mul. replace (vlength a * / vlength a) with 1 by (rn; field; exact L). apply vscale_one.
Qed.
Lemma normalize_zero : normalize (vzero : vecR) = None.
Proof. unfold normalize. rewrite (proj2 (vlength_zero vzero) eq_refl). apply vdiv_zero. Qed.
(** v - s and s - v multiply. *)
Lemma vsubs_wrong : exists (v : vecR) (s : R), vsubs v s <> v3 (vx v - s) (vy v - s) (vz v - s) /\ ssubv s v <> v3 (s - vx v) (s - vy v) (s - vz v).
Proof.
  exists (v3 1 1 1), 1. split; unfold vsubs, ssubv, vscale, v3; rn; intros H; injection H; rl.
Qed.

(** Cauchy-Schwarz and the triangle inequality. *)
Lemma cauchy_sq (a b : vecR) : dot a b * dot a b <= dot a a * dot b b.
Proof. assert (H := dot_pos (cross a b)). rewrite cross_lagrange in H. rl. Qed.
Lemma cauchy (a b : vecR) : Rabs (dot a b) <= vlength a * vlength b.
Proof.
  apply Rsqr_incr_0_var; [|apply Rmult_le_pos; apply vlength_pos].
  rewrite <- Rsqr_abs. unfold Rsqr. assert (H := cauchy_sq a b). rewrite <- !vlength_sq in H. rl.
Qed.
Lemma vlength_tri (a b : vecR) : vlength (vadd a b) <= vlength a + vlength b.
Proof.
  apply Rsqr_incr_0_var; [|assert (A := vlength_pos a); assert (B := vlength_pos b); rl]. unfold Rsqr. rewrite vlength_sq.
  replace (dot (vadd a b) (vadd a b)) with (dot a a + 2 * dot a b + dot b b) by dring.
  assert (C := cauchy a b). assert (D := Rle_abs (dot a b)). rewrite <- (vlength_sq a), <- (vlength_sq b). rl.
Qed.
Lemma vsub_sym_len (a b : vecR) : vlength (vsub a b) = vlength (vsub b a).
Proof. unfold vlength. rn. f_equal. dring. Qed.

Lemma nmax_R (a b : R) : @nmax NumR a b = Rmax a b.
Proof. unfold nmax, Rmax. rn. unfold Rltb. destruct (Rlt_dec a b), (Rle_dec a b); rl. Qed.
Lemma nmin_R (a b : R) : @nmin NumR a b = Rmin a b.
Proof. unfold nmin, Rmin. rn. unfold Rltb. destruct (Rlt_dec b a), (Rle_dec a b); rl. Qed.

(** ** dihedral *)
(** The two (unnormalised) face normals the code uses. *)
Definition nrm (a b c : vecR) : vecR := cross (vsub b a) (vsub c a).
Lemma dihedral_angle (a b c d : vecR) : nrm a b c <> vzero -> nrm d b c <> vzero ->
  let n1 := nrm a b c in let n4 := nrm d b c in
  dihedral a b c d = acos (dot n1 n4 / (vlength n1 * vlength n4)) /\
  -1 <= dot n1 n4 / (vlength n1 * vlength n4) <= 1 /\
  0 <= dihedral a b c d <= PI /\
  cos (dihedral a b c d) * (vlength n1 * vlength n4) = dot n1 n4.
Proof.
  intros H1 H4 n1 n4. assert (L1 : vlength n1 <> 0) by (intros X; apply H1, vlength_zero, X). assert (L4 : vlength n4 <> 0) by (intros X; apply H4, vlength_zero, X).
  assert (P1 := vlength_pos n1). assert (P4 := vlength_pos n4). assert (P : 0 < vlength n1 * vlength n4) by (apply Rmult_lt_0_compat; rl).
  assert (C := cauchy n1 n4). assert (C1 := Rle_abs (dot n1 n4)). assert (C2 := Rle_abs (- dot n1 n4)). rewrite Rabs_Ropp in C2.
  assert (B : -1 <= dot n1 n4 / (vlength n1 * vlength n4) <= 1).
  { split; [apply (Rmult_le_reg_r (vlength n1 * vlength n4)); [exact P|]|apply (Rmult_le_reg_r (vlength n1 * vlength n4)); [exact P|]];
      unfold Rdiv; rewrite Rmult_assoc, Rinv_l by rl; rl. }
  assert (E : dihedral a b c d = acos (dot n1 n4 / (vlength n1 * vlength n4))).
  { unfold dihedral. fold (nrm a b c). fold (nrm d b c). fold n1 n4. rn. rewrite (proj2 (Reqb_false (vlength n1) 0) L1), (proj2 (Reqb_false (vlength n4) 0) L4). cbn [orb].
    f_equal. rewrite nmax_R, nmin_R. rewrite Rmin_left by rl. rewrite Rmax_right by rl. reflexivity. }
  split; [exact E|]. split; [exact B|]. split; [rewrite E; apply acos_bound|]. rewrite E, cos_acos by rl. unfold Rdiv. rewrite Rmult_assoc, Rinv_l by rl. rg.
Qed.
Lemma dihedral_degenerate (a b c d : vecR) : nrm a b c = vzero \/ nrm d b c = vzero -> dihedral a b c d = 0.
Proof.
  intros H. unfold dihedral. fold (nrm a b c). fold (nrm d b c). rn.
  assert (X : Reqb (vlength (nrm a b c)) 0 || Reqb (vlength (nrm d b c)) 0 = true); [|rewrite X; reflexivity].
  apply orb_true_iff. rewrite !Reqb_eq, !vlength_zero. exact H.
Qed.
Lemma nrm_swap (a b c : vecR) : nrm a c b = vneg (nrm a b c). Proof. unfold nrm. apply cross_anti. Qed.
Lemma vneg_len (a : vecR) : vlength (vneg a) = vlength a.
Proof. unfold vlength. rn. f_equal. dring. Qed.
Lemma dihedral_swap (a b c d : vecR) : dihedral a c b d = dihedral a b c d.
Proof.
  unfold dihedral. fold (nrm a b c) (nrm d b c) (nrm a c b) (nrm d c b). rewrite (nrm_swap a b c), (nrm_swap d b c), !vneg_len.
  replace (dot (vneg (nrm a b c)) (vneg (nrm d b c))) with (dot (nrm a b c) (nrm d b c)) by dring. reflexivity.
Qed.
Lemma dihedral_rev (a b c d : vecR) : dihedral d b c a = dihedral a b c d.
Proof.
  unfold dihedral. fold (nrm a b c) (nrm d b c). rewrite (dot_sym (nrm d b c)).
  replace (nmul (vlength (nrm d b c)) (vlength (nrm a b c))) with (nmul (vlength (nrm a b c)) (vlength (nrm d b c))) by (rn; rg).
  rewrite orb_comm. reflexivity.
Qed.
