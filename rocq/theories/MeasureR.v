(** Areas over the real numbers. *)
From Coq Require Import Reals Lra Lia List ZArith Bool Arith.
From Verif Require Import Num NumInst Vec Bounds GeomSpec VecR Measure.
Import ListNotations.
Local Open Scope R_scope.
Notation corner_area := (@Measure.corner_area NumR).

(** Area of the triangle a b c: half the length of the cross product. *)
Definition tri_area (a b c : vecR) : R := / 2 * vlength (cross (vsub b a) (vsub c a)).

Lemma area_rot (a b c : vecR) : tri_area b c a = tri_area a b c.
Proof.
  unfold tri_area, vlength. rn. f_equal. f_equal. dring.
Qed.
Lemma area_swap (a b c : vecR) : tri_area a c b = tri_area a b c.
Proof. unfold tri_area, vlength. rn. f_equal. f_equal. dring. Qed.
Lemma area_nonneg (a b c : vecR) : 0 <= tri_area a b c.
Proof. unfold tri_area. assert (H := vlength_pos (cross (vsub b a) (vsub c a))). lra. Qed.

Lemma obtuse_iff (a b c : vecR) : @obtuse NumR a b c = true <->
  dot (vsub b a) (vsub c a) < 0 \/ dot (vsub c b) (vsub a b) < 0 \/ dot (vsub a c) (vsub b c) < 0.
Proof.
  assert (D0 : 2 * dot (vsub b a) (vsub c a) = dot (vsub b a) (vsub b a) + dot (vsub a c) (vsub a c) - dot (vsub c b) (vsub c b)) by dring.
  assert (D1 : 2 * dot (vsub c b) (vsub a b) = dot (vsub b a) (vsub b a) + dot (vsub c b) (vsub c b) - dot (vsub a c) (vsub a c)) by dring.
  assert (D2 : 2 * dot (vsub a c) (vsub b c) = dot (vsub a c) (vsub a c) + dot (vsub c b) (vsub c b) - dot (vsub b a) (vsub b a)) by dring.
  unfold obtuse. rewrite <- !vlength_sq in D0, D1, D2.
  assert (P0 := vlength_pos (vsub b a)). assert (P1 := vlength_pos (vsub c b)). assert (P2 := vlength_pos (vsub a c)).
  set (l0 := vlength (vsub b a)) in *. set (l1 := vlength (vsub c b)) in *. set (l2 := vlength (vsub a c)) in *.
  set (d0 := dot (vsub b a) (vsub c a)) in *. set (d1 := dot (vsub c b) (vsub a b)) in *. set (d2 := dot (vsub a c) (vsub b c)) in *.
  clearbody l0 l1 l2 d0 d1 d2. unfold sort3, insert_sorted. rn.
  assert (E : d0 < 0 \/ d1 < 0 \/ d2 < 0 <-> l0 * l0 + l2 * l2 < l1 * l1 \/ l0 * l0 + l1 * l1 < l2 * l2 \/ l2 * l2 + l1 * l1 < l0 * l0) by (split; intros H; lra).
  rewrite E. clear E D0 D1 D2.
  destruct (Rltb l1 l0) eqn:E1; [apply Rltb_lt in E1|apply Rltb_false in E1].
  - destruct (Rltb l2 l1) eqn:E2; [apply Rltb_lt in E2|apply Rltb_false in E2].
    + rewrite Rltb_lt. split; [intros; right; right; lra|intros [H|[H|H]]; nra].
    + destruct (Rltb l2 l0) eqn:E3; [apply Rltb_lt in E3|apply Rltb_false in E3].
      * rewrite Rltb_lt. split; [intros; right; right; lra|intros [H|[H|H]]; nra].
      * rewrite Rltb_lt. split; [intros; right; left; lra|intros [H|[H|H]]; nra].
  - destruct (Rltb l2 l0) eqn:E2; [apply Rltb_lt in E2|apply Rltb_false in E2].
    + rewrite Rltb_lt. split; [intros; left; lra|intros [H|[H|H]]; nra].
    + destruct (Rltb l2 l1) eqn:E3; [apply Rltb_lt in E3|apply Rltb_false in E3].
      * rewrite Rltb_lt. split; [intros; left; lra|intros [H|[H|H]]; nra].
      * rewrite Rltb_lt. split; [intros; right; left; lra|intros [H|[H|H]]; nra].
Qed.
Lemma obtuse_rot (a b c : vecR) : @obtuse NumR b c a = @obtuse NumR a b c.
Proof.
  apply eq_true_iff_eq. rewrite !obtuse_iff. tauto.
Qed.
Lemma dot_swap (a b : vecR) : dot a b = dot b a. Proof. apply dot_sym. Qed.
Lemma obtuse_flip (a b c : vecR) : @obtuse NumR a c b = @obtuse NumR a b c.
Proof.
  apply eq_true_iff_eq. rewrite !obtuse_iff.
  rewrite (dot_sym (vsub c a) (vsub b a)), (dot_sym (vsub b c) (vsub a c)), (dot_sym (vsub a b) (vsub c b)). tauto.
Qed.

(** Sum of the three parts. *)
Definition guard : R := / 10 ^ 20.
Lemma guard_pos : 0 < guard. Proof. apply Rinv_0_lt_compat. lra. Qed.
Lemma corners_obtuse (a b c : vecR) : @obtuse NumR a b c = true ->
  corner_area a b c + corner_area b c a + corner_area c a b = tri_area a b c.
Proof.
  intros O. unfold Measure.corner_area. rewrite (obtuse_rot a b c), O. replace (@obtuse NumR c a b) with true by (rewrite <- (obtuse_rot c a b); auto). cbn [negb].
  assert (A1 : vlength (cross (vsub c b) (vsub a b)) = 2 * tri_area a b c) by (rewrite <- (area_rot a b c); unfold tri_area; lra).
  assert (A2 : vlength (cross (vsub a c) (vsub b c)) = 2 * tri_area a b c) by (rewrite <- (area_rot a b c), <- (area_rot b c a); unfold tri_area; lra).
  assert (A0 : vlength (cross (vsub b a) (vsub c a)) = 2 * tri_area a b c) by (unfold tri_area; lra).
  rewrite A0, A1, A2. apply obtuse_iff in O. assert (S := area_nonneg a b c). set (A := tri_area a b c) in *. clearbody A. clear A0 A1 A2.
  assert (L01 : 0 <= dot (vsub b a) (vsub c a) + dot (vsub c b) (vsub a b)).
  { replace (dot (vsub b a) (vsub c a) + dot (vsub c b) (vsub a b)) with (dot (vsub b a) (vsub b a)) by dring. apply dot_pos. }
  assert (L12 : 0 <= dot (vsub c b) (vsub a b) + dot (vsub a c) (vsub b c)).
  { replace (dot (vsub c b) (vsub a b) + dot (vsub a c) (vsub b c)) with (dot (vsub c b) (vsub c b)) by dring. apply dot_pos. }
  assert (L02 : 0 <= dot (vsub b a) (vsub c a) + dot (vsub a c) (vsub b c)).
  { replace (dot (vsub b a) (vsub c a) + dot (vsub a c) (vsub b c)) with (dot (vsub c a) (vsub c a)) by dring. apply dot_pos. }
  set (d0 := dot (vsub b a) (vsub c a)) in *. set (d1 := dot (vsub c b) (vsub a b)) in *. set (d2 := dot (vsub a c) (vsub b c)) in *. clearbody d0 d1 d2. rn.
  destruct (Rltb d0 0) eqn:E0; [apply Rltb_lt in E0|apply Rltb_false in E0];
    (destruct (Rltb d1 0) eqn:E1; [apply Rltb_lt in E1|apply Rltb_false in E1]);
    (destruct (Rltb d2 0) eqn:E2; [apply Rltb_lt in E2|apply Rltb_false in E2]); lra.
Qed.
Lemma corners_acute (a b c : vecR) : @obtuse NumR a b c = false ->
  (corner_area a b c + corner_area b c a + corner_area c a b) * (2 * tri_area a b c + guard) = tri_area a b c * (2 * tri_area a b c).
Proof.
  intros O. unfold Measure.corner_area. rewrite (obtuse_rot a b c), O. replace (@obtuse NumR c a b) with false by (rewrite <- (obtuse_rot c a b); auto). cbn [negb].
  unfold cot.
  assert (C : forall x y z : vecR, vlength (cross (vsub x y) (vsub z y)) = 2 * tri_area y x z) by (intros; unfold tri_area; lra).
  rewrite !C. 
  assert (R1 : tri_area b c a = tri_area a b c) by apply area_rot. assert (R2 : tri_area c a b = tri_area a b c) by (rewrite <- (area_rot c a b); reflexivity).
  assert (R3 : tri_area b a c = tri_area a b c) by (rewrite area_swap; exact R1). assert (R4 : tri_area a c b = tri_area a b c) by apply area_swap. assert (R5 : tri_area c b a = tri_area a b c) by (rewrite area_swap; exact R2).
  rewrite ?R1, ?R2, ?R3, ?R4, ?R5.
  assert (XX : (2 * tri_area a b c) * (2 * tri_area a b c) = dot (cross (vsub b a) (vsub c a)) (cross (vsub b a) (vsub c a))) by (rewrite <- vlength_sq; unfold tri_area; lra).
  assert (AP := area_nonneg a b c). set (A := tri_area a b c) in *. assert (GP := guard_pos).
  replace (@neps20 NumR) with guard by reflexivity. rn. set (g := guard) in *.
  assert (K : forall x y, / 8 * x * x * y = / 8 * (x * x) * y) by (intros; ring). rewrite !K, !vlength_sq. clear K.
  unfold Rdiv. set (q := / (2 * A + g)). assert (Q : q * (2 * A + g) = 1) by (unfold q; apply Rinv_l; lra). clearbody q A g.
  match goal with |- ?l = _ => set (L := l) end.
  assert (EL : L = / 4 * (dot (vsub b a) (vsub b a) * dot (vsub a c) (vsub b c) + dot (vsub c b) (vsub c b) * dot (vsub b a) (vsub c a) + dot (vsub c a) (vsub c a) * dot (vsub a b) (vsub c b)) * (q * (2 * A + g))).
  { unfold L. rewrite (dot_sym (vsub b c) (vsub a c)), (dot_sym (vsub c b) (vsub a b)), (dot_sym (vsub c a) (vsub b a)).
    replace (dot (vsub a b) (vsub a b)) with (dot (vsub b a) (vsub b a)) by dring. replace (dot (vsub a c) (vsub a c)) with (dot (vsub c a) (vsub c a)) by dring. replace (dot (vsub b c) (vsub b c)) with (dot (vsub c b) (vsub c b)) by dring. rn. field. }
  rewrite EL, Q. clear EL L.
  assert (ID : dot (vsub b a) (vsub b a) * dot (vsub a c) (vsub b c) + dot (vsub c b) (vsub c b) * dot (vsub b a) (vsub c a) + dot (vsub c a) (vsub c a) * dot (vsub a b) (vsub c b) = 2 * dot (cross (vsub b a) (vsub c a)) (cross (vsub b a) (vsub c a))) by dring.
  rewrite ID, <- XX. lra.
Qed.
(** swapping the other two corners does not matter *)
Lemma corner_flip (a b c : vecR) : corner_area a c b = corner_area a b c.
Proof.
  unfold Measure.corner_area. rewrite obtuse_flip, (dot_sym (vsub c a) (vsub b a)).
  assert (E : vlength (cross (vsub c a) (vsub b a)) = vlength (cross (vsub b a) (vsub c a))) by (unfold vlength; rn; f_equal; dring). rewrite E. destruct (negb (obtuse a b c)); [|reflexivity]. rn. ring.
Qed.
