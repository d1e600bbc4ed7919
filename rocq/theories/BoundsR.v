(** Bounding boxes and Triangle::closestPoint over the real numbers. *)
From Coq Require Import Reals Lra List ZArith Bool.
From Verif Require Import Num NumInst Vec Bounds GeomSpec VecR.
Import ListNotations.
Local Open Scope R_scope.

Lemma edist_len (a b : vecR) : vlength (vsub a b) = edist a b.
Proof. unfold vlength, edist, X, Y, Z_. rn. f_equal. dring. Qed.
Lemma edist_sym (a b : vecR) : edist a b = edist b a.
Proof. rewrite <- !edist_len. apply vsub_sym_len. Qed.
Lemma edist_pos (a b : vecR) : 0 <= edist a b.
Proof. rewrite <- edist_len. apply vlength_pos. Qed.
Lemma edist_self (a : vecR) : edist a a = 0.
Proof. unfold edist. replace (_ + _ + _) with 0 by ring. apply sqrt_0. Qed.

(** ** boxes *)
Lemma box_within_refl b : box_within b b.
Proof. unfold box_within. repeat split; lra. Qed.
Lemma box_within_trans a b c : box_within a b -> box_within b c -> box_within a c.
Proof. unfold box_within. intros H K. repeat split; lra. Qed.
Lemma in_box_within a b x : box_within a b -> in_box a x -> in_box b x.
Proof. unfold box_within, in_box. intros H K. repeat split; lra. Qed.

Ltac mm := unfold vmin, vmax; rn; rewrite ?nmin_R, ?nmax_R; rn.
Ltac mmb := repeat match goal with
  | |- context [Rmin ?a ?b] => pose proof (Rmin_l a b); pose proof (Rmin_r a b); generalize dependent (Rmin a b); intros
  | |- context [Rmax ?a ?b] => pose proof (Rmax_l a b); pose proof (Rmax_r a b); generalize dependent (Rmax a b); intros
  end.
Lemma box_add_within b p : box_within b (box_add b p).
Proof.
  unfold box_within, box_add, X, Y, Z_. rn. cbn [bmin bmax]. mm. mmb. repeat split; lra.
Qed.
Lemma box_add_in b p : in_box (box_add b p) p.
Proof.
  unfold in_box, box_add, X, Y, Z_. rn. cbn [bmin bmax]. mm. mmb. repeat split; lra.
Qed.
Lemma box_add_least b p B : box_within b B -> in_box B p -> box_within (box_add b p) B.
Proof.
  unfold in_box, box_within, box_add, X, Y, Z_. rn. cbn [bmin bmax]. mm. intros H K.
  repeat split; try (apply Rmin_glb; lra); try (apply Rmax_lub; lra).
Qed.
Lemma box_merge_l a b : box_within a (box_merge a b).
Proof. unfold box_within, box_merge, X, Y, Z_. rn. cbn [bmin bmax]. mm. mmb. repeat split; lra. Qed.
Lemma box_merge_r a b : box_within b (box_merge a b).
Proof. unfold box_within, box_merge, X, Y, Z_. rn. cbn [bmin bmax]. mm. mmb. repeat split; lra. Qed.
Lemma box_merge_least a b B : box_within a B -> box_within b B -> box_within (box_merge a b) B.
Proof.
  unfold box_within, box_merge, X, Y, Z_. rn. cbn [bmin bmax]. mm. intros H K.
  repeat split; try (apply Rmin_glb; lra); try (apply Rmax_lub; lra).
Qed.

Lemma fold_within (ps : list vecR) : forall b, box_within b (fold_left box_add ps b).
Proof. induction ps as [|p ps IH]; intros b; cbn [fold_left]; [apply box_within_refl|]. eapply box_within_trans; [apply box_add_within|apply IH]. Qed.
Lemma fold_in (ps : list vecR) : forall b p, In p ps -> in_box (fold_left box_add ps b) p.
Proof.
  induction ps as [|q ps IH]; [intros b p []|]. intros b p [-> | H]; cbn [fold_left]; [|apply IH, H].
  eapply in_box_within; [apply fold_within|apply box_add_in].
Qed.
Lemma fold_least (ps : list vecR) : forall b B, box_within b B -> (forall p, In p ps -> in_box B p) -> box_within (fold_left box_add ps b) B.
Proof.
  induction ps as [|q ps IH]; intros b B Hb H; cbn [fold_left]; [exact Hb|]. apply IH; [|intros p K; apply H; right; exact K].
  apply box_add_least; [exact Hb|apply H; left; reflexivity].
Qed.
Lemma box0_add (p : vecR) : moderate p -> box_add box0 p = Box p p.
Proof.
  unfold moderate, box_add, box0. destruct p as [x y z]. unfold X, Y, Z_. cbn [bmin bmax]. unfold vmin, vmax, vfill. rn. rewrite !nmin_R, !nmax_R. rn.
  intros (A & B & C). unfold Rabs in *. f_equal; f_equal; rn;
    first [rewrite Rmin_right; [reflexivity|]|rewrite Rmax_right; [reflexivity|]]; destruct (Rcase_abs x), (Rcase_abs y), (Rcase_abs z); lra.
Qed.
Lemma fold_smallest (ps : list vecR) B : ps <> [] -> Forall moderate ps -> (forall p, In p ps -> in_box B p) -> box_within (fold_left box_add ps box0) B.
Proof.
  intros H M K. destruct ps as [|p ps]; [congruence|]. cbn [fold_left]. inversion M as [|? ? Mp Ms]; subst. rewrite (box0_add p Mp).
  apply fold_least; [|intros q Q; apply K; right; exact Q]. assert (P := K p (or_introl eq_refl)). unfold in_box in P. unfold box_within. cbn [bmin bmax]. repeat split; lra.
Qed.

Lemma vsub_X (a b : vecR) : vx (vsub a b) = X a - X b. Proof. unfold X. dring. Qed.
Lemma vsub_Y (a b : vecR) : vy (vsub a b) = Y a - Y b. Proof. unfold Y. dring. Qed.
Lemma vsub_Z (a b : vecR) : vz (vsub a b) = Z_ a - Z_ b. Proof. unfold Z_. dring. Qed.

Lemma box_inside_iff b p : @box_inside NumR b p = true <-> in_box b p.
Proof.
  unfold box_inside, off_slab, in_box, X, Y, Z_. rn. cbn [vget]. rewrite negb_true_iff, !orb_false_iff, !Rltb_false. tauto.
Qed.

(** One coordinate of the distance to the box: no larger than the gap to any point of the box. *)
Definition slab (lo hi x : R) : R := if Rltb x lo || Rltb hi x then Rmin (Rabs (lo - x)) (Rabs (hi - x)) * Rmin (Rabs (lo - x)) (Rabs (hi - x)) else 0.
Lemma slab_le lo hi x y : lo <= y <= hi -> slab lo hi x <= (x - y) * (x - y).
Proof.
  intros H. unfold slab. destruct (Rltb x lo) eqn:A; [|destruct (Rltb hi x) eqn:B].
  - apply Rltb_lt in A. cbn [orb]. rewrite (Rabs_right (lo - x)), (Rabs_right (hi - x)) by lra. rewrite Rmin_left by lra. nra.
  - apply Rltb_lt in B. cbn [orb]. rewrite (Rabs_left1 (lo - x)), (Rabs_left1 (hi - x)) by lra. rewrite Rmin_right by lra. nra.
  - cbn [orb]. apply (Rle_0_sqr (x - y)).
Qed.
Lemma slab_pos lo hi x : 0 <= slab lo hi x.
Proof. unfold slab. destruct (_ || _); [apply (Rle_0_sqr (Rmin _ _))|lra]. Qed.
Lemma box_distance_slabs b p : @box_distance NumR b p =
  sqrt (slab (X (bmin b)) (X (bmax b)) (X p) + slab (Y (bmin b)) (Y (bmax b)) (Y p) + slab (Z_ (bmin b)) (Z_ (bmax b)) (Z_ p)).
Proof.
  unfold box_distance, slab, off_slab. cbn [fold_left vget]. unfold vabs. cbn [vx vy vz]. rewrite !vsub_X, !vsub_Y, !vsub_Z. rewrite !nmin_R. rn. unfold X, Y, Z_. f_equal.
  destruct (Rltb (vx p) (vx (bmin b)) || Rltb (vx (bmax b)) (vx p)), (Rltb (vy p) (vy (bmin b)) || Rltb (vy (bmax b)) (vy p)), (Rltb (vz p) (vz (bmin b)) || Rltb (vz (bmax b)) (vz p)); rn; ring.
Qed.
Lemma box_distance_le b p x : in_box b x -> @box_distance NumR b p <= edist p x.
Proof.
  intros (HX & HY & HZ). rewrite box_distance_slabs. unfold edist. apply sqrt_le_1_alt.
  assert (A := slab_le _ _ (X p) _ HX). assert (B := slab_le _ _ (Y p) _ HY). assert (C := slab_le _ _ (Z_ p) _ HZ). lra.
Qed.
(** The lower bound is attained: the box has a point at that distance. *)
Lemma slab_attained lo hi x : lo <= hi -> exists y, lo <= y <= hi /\ (x - y) * (x - y) = slab lo hi x.
Proof.
  intros H. unfold slab. destruct (Rltb x lo) eqn:A; [|destruct (Rltb hi x) eqn:B].
  - apply Rltb_lt in A. exists lo. cbn [orb]. rewrite (Rabs_right (lo - x)), (Rabs_right (hi - x)) by lra. rewrite Rmin_left by lra. split; [lra|ring].
  - apply Rltb_lt in B. exists hi. cbn [orb]. rewrite (Rabs_left1 (lo - x)), (Rabs_left1 (hi - x)) by lra. rewrite Rmin_right by lra. split; [lra|ring].
  - apply Rltb_false in A. apply Rltb_false in B. exists x. cbn [orb]. split; [lra|ring].
Qed.
Lemma box_distance_attained b p : (exists x, in_box b x) -> exists x, in_box b x /\ @box_distance NumR b p = edist p x.
Proof.
  intros (x0 & HX & HY & HZ).
  destruct (slab_attained (X (bmin b)) (X (bmax b)) (X p)) as (x & Hx & Ex); [lra|].
  destruct (slab_attained (Y (bmin b)) (Y (bmax b)) (Y p)) as (y & Hy & Ey); [lra|].
  destruct (slab_attained (Z_ (bmin b)) (Z_ (bmax b)) (Z_ p)) as (z & Hz & Ez); [lra|].
  exists (v3 x y z). split; [unfold in_box, X, Y, Z_, v3 in *; rn; tauto|]. rewrite box_distance_slabs. unfold edist. rewrite <- Ex, <- Ey, <- Ez. reflexivity.
Qed.

(** ** the triangle *)
Lemma in_tri_box t x B : in_triangle t x -> in_box B (tp0 t) -> in_box B (tp1 t) -> in_box B (tp2 t) -> in_box B x.
Proof.
  intros (u & v & w & Hu & Hv & Hw & S & EX & EY & EZ) (A0 & A1 & A2) (B0 & B1 & B2) (C0 & C1 & C2). unfold in_box. rewrite EX, EY, EZ.
  assert (W : w = 1 - u - v) by lra. subst w.
  assert (L : forall lo hi a b c, lo <= a <= hi -> lo <= b <= hi -> lo <= c <= hi -> lo <= u * a + v * b + (1 - u - v) * c <= hi).
  { intros lo hi a b c Ha Hb Hc. assert (u * lo <= u * a <= u * hi) by (split; apply Rmult_le_compat_l; lra).
    assert (v * lo <= v * b <= v * hi) by (split; apply Rmult_le_compat_l; lra).
    assert ((1 - u - v) * lo <= (1 - u - v) * c <= (1 - u - v) * hi) by (split; apply Rmult_le_compat_l; lra). lra. }
  split; [|split]; apply L; assumption.
Qed.
Lemma tri_bounds_in t : in_box (tri_bounds t) (tp0 t) /\ in_box (tri_bounds t) (tp1 t) /\ in_box (tri_bounds t) (tp2 t).
Proof.
  unfold tri_bounds. split; [|split].
  - eapply in_box_within; [apply box_add_within|]. eapply in_box_within; [apply box_add_within|]. apply box_add_in.
  - eapply in_box_within; [apply box_add_within|]. apply box_add_in.
  - apply box_add_in.
Qed.
Lemma in_tri_bounds t x : in_triangle t x -> in_box (tri_bounds t) x.
Proof. intros H. destruct (tri_bounds_in t) as (A & B & C). eapply in_tri_box; eassumption. Qed.

Lemma in_tri_0 t : in_triangle t (tp0 t).
Proof. exists 1, 0, 0. repeat split; try lra; ring. Qed.
Lemma in_tri_1 t : in_triangle t (tp1 t).
Proof. exists 0, 1, 0. repeat split; try lra; ring. Qed.
Lemma in_tri_2 t : in_triangle t (tp2 t).
Proof. exists 0, 0, 1. repeat split; try lra; ring. Qed.
Lemma in_tri_01 t s : 0 <= s <= 1 -> in_triangle t (vadd (tp0 t) (vscale s (vsub (tp1 t) (tp0 t)))).
Proof. intros H. exists (1 - s), s, 0. unfold X, Y, Z_. repeat split; try lra; dring. Qed.
Lemma in_tri_02 t s : 0 <= s <= 1 -> in_triangle t (vadd (tp0 t) (vscale s (vsub (tp2 t) (tp0 t)))).
Proof. intros H. exists (1 - s), 0, s. unfold X, Y, Z_. repeat split; try lra; dring. Qed.

Lemma div_unit a b : 0 <= a -> b < 0 -> 0 <= a / (a - b) <= 1.
Proof.
  intros A B. assert (P : 0 < a - b) by lra. split.
  - apply Rmult_le_pos; [exact A|]. apply Rlt_le, Rinv_0_lt_compat, P.
  - apply (Rmult_le_reg_r (a - b)); [exact P|]. unfold Rdiv. rewrite Rmult_assoc, Rinv_l by lra. lra.
Qed.
(** What the code computes, case by case. *)
Lemma tri_closest_cases t q :
  let p0 := tp0 t in let p1 := tp1 t in let p2 := tp2 t in let r := @tri_closest NumR t q in
  (r = p0 /\ dot (vsub p1 p0) (vsub q p0) <= 0 /\ dot (vsub p2 p0) (vsub q p0) <= 0) \/ r = p1 \/ r = p2 \/
  (exists s, 0 <= s <= 1 /\ r = vadd p0 (vscale s (vsub p1 p0))) \/
  (exists s, 0 <= s <= 1 /\ r = vadd p0 (vscale s (vsub p2 p0))).
Proof.
  unfold tri_closest. set (d1 := dot (vsub (tp1 t) (tp0 t)) (vsub q (tp0 t))). set (d2 := dot (vsub (tp2 t) (tp0 t)) (vsub q (tp0 t))).
  set (d3 := dot (vsub (tp1 t) (tp0 t)) (vsub q (tp2 t))). set (d4 := dot (vsub (tp2 t) (tp0 t)) (vsub q (tp2 t))). clearbody d1 d2 d3 d4. rn.
  destruct (Rleb d1 0 && Rleb d2 0) eqn:C1; [apply andb_true_iff in C1; rewrite !Rleb_le in C1; tauto|].
  destruct (Rleb 0 d3 && Rleb d4 d3) eqn:C2; [tauto|]. destruct (Rleb 0 d4 && Rleb d3 d4) eqn:C3; [tauto|].
  rewrite andb_false_iff, !Rleb_false in C1, C2, C3. assert (D3 : d3 < 0) by lra. assert (D4 : d4 < 0) by lra. right; right; right.
  destruct (Rleb (d1 * d4 - d3 * d2) 0 && Rleb 0 d1 && Rleb d3 0) eqn:C4.
  - left. rewrite !andb_true_iff, !Rleb_le in C4. exists (d1 / (d1 - d3)). split; [apply div_unit; lra|reflexivity].
  - rewrite !andb_false_iff, !Rleb_false in C4.
    assert (D2 : 0 < d2 /\ d3 * d2 - d1 * d4 <= 0).
    { destruct (Rlt_le_dec d1 0) as [G|G]; [split; nra|]. assert (P : 0 < d1 * d4 - d3 * d2) by lra. split; [nra|lra]. }
    assert (C5 : Rleb (d3 * d2 - d1 * d4) 0 && Rleb 0 d2 && Rleb d4 0 = true) by (rewrite !andb_true_iff, !Rleb_le; lra).
    rewrite C5. right. exists (d2 / (d2 - d4)). split; [apply div_unit; lra|reflexivity].
Qed.
Lemma tri_closest_in t q : in_triangle t (@tri_closest NumR t q).
Proof.
  destruct (tri_closest_cases t q) as [(-> & _) | [-> | [-> | [(s & S & ->) | (s & S & ->)]]]];
    [apply in_tri_0|apply in_tri_1|apply in_tri_2|apply in_tri_01, S|apply in_tri_02, S].
Qed.
(** In the region of the first corner the answer is right. *)
Lemma tri_closest_p0 t q x : dot (vsub (tp1 t) (tp0 t)) (vsub q (tp0 t)) <= 0 -> dot (vsub (tp2 t) (tp0 t)) (vsub q (tp0 t)) <= 0 ->
  in_triangle t x -> @tri_closest NumR t q = tp0 t /\ edist q (tp0 t) <= edist q x.
Proof.
  intros H1 H2 (u & v & w & Hu & Hv & Hw & S & EX & EY & EZ). split.
  - unfold tri_closest. cbn [nleb nzero NumR]. rewrite (proj2 (Rleb_le _ _) H1), (proj2 (Rleb_le _ _) H2). reflexivity.
  - unfold edist. apply sqrt_le_1_alt. rewrite dot_eq, !vsub_X, !vsub_Y, !vsub_Z in H1, H2. rewrite EX, EY, EZ.
    assert (W : u = 1 - v - w) by lra. subst u. set (q0 := X q) in *. set (q1 := Y q) in *. set (q2 := Z_ q) in *.
    set (a0 := X (tp0 t)) in *. set (a1 := Y (tp0 t)) in *. set (a2 := Z_ (tp0 t)) in *. set (b0 := X (tp1 t)) in *. set (b1 := Y (tp1 t)) in *. set (b2 := Z_ (tp1 t)) in *.
    set (c0 := X (tp2 t)) in *. set (c1 := Y (tp2 t)) in *. set (c2 := Z_ (tp2 t)) in *. clearbody q0 q1 q2 a0 a1 a2 b0 b1 b2 c0 c1 c2. clear EX EY EZ.
    set (e0 := v * (b0 - a0) + w * (c0 - a0)). set (e1 := v * (b1 - a1) + w * (c1 - a1)). set (e2 := v * (b2 - a2) + w * (c2 - a2)).
    assert (E : e0 * (q0 - a0) + e1 * (q1 - a1) + e2 * (q2 - a2) <= 0).
    { replace (_ + _ + _) with (v * ((b0 - a0) * (q0 - a0) + (b1 - a1) * (q1 - a1) + (b2 - a2) * (q2 - a2)) + w * ((c0 - a0) * (q0 - a0) + (c1 - a1) * (q1 - a1) + (c2 - a2) * (q2 - a2))) by (unfold e0, e1, e2; ring).
      assert (T : forall k z, 0 <= k -> z <= 0 -> k * z <= 0) by (intros; nra). assert (T1 := T v _ Hv H1). assert (T2 := T w _ Hw H2). lra. }
    replace (q0 - ((1 - v - w) * a0 + v * b0 + w * c0)) with ((q0 - a0) - e0) by (unfold e0; ring).
    replace (q1 - ((1 - v - w) * a1 + v * b1 + w * c1)) with ((q1 - a1) - e1) by (unfold e1; ring).
    replace (q2 - ((1 - v - w) * a2 + v * b2 + w * c2)) with ((q2 - a2) - e2) by (unfold e2; ring). clearbody e0 e1 e2. nra.
Qed.

(** [r] is nearest to [q] if no point of the triangle lies in front of it. *)
Lemma nearest_if q r x : dot (vsub x r) (vsub q r) <= 0 -> edist q r <= edist q x.
Proof.
  intros H. unfold edist. apply sqrt_le_1_alt. rewrite dot_eq, !vsub_X, !vsub_Y, !vsub_Z in H.
  set (q0 := X q) in *. set (q1 := Y q) in *. set (q2 := Z_ q) in *. set (r0 := X r) in *. set (r1 := Y r) in *. set (r2 := Z_ r) in *. set (x0 := X x) in *. set (x1 := Y x) in *. set (x2 := Z_ x) in *.
  clearbody q0 q1 q2 r0 r1 r2 x0 x1 x2. assert (S0 := Rle_0_sqr (x0 - r0)). assert (S1 := Rle_0_sqr (x1 - r1)). assert (S2 := Rle_0_sqr (x2 - r2)). unfold Rsqr in S0, S1, S2.
  match goal with |- ?l <= ?r => replace r with (l + ((x0 - r0) * (x0 - r0) + (x1 - r1) * (x1 - r1) + (x2 - r2) * (x2 - r2)) - 2 * ((x0 - r0) * (q0 - r0) + (x1 - r1) * (q1 - r1) + (x2 - r2) * (q2 - r2))) by ring end.
  lra.
Qed.

(** In the region of the third corner. *)
Lemma tri_closest_p2 t q x : 0 <= dot (vsub (tp2 t) (tp0 t)) (vsub q (tp2 t)) ->
  dot (vsub (tp1 t) (tp0 t)) (vsub q (tp2 t)) < dot (vsub (tp2 t) (tp0 t)) (vsub q (tp2 t)) ->
  in_triangle t x -> edist q (@tri_closest NumR t q) <= edist q x.
Proof.
  intros H4 H3 Hx.
  destruct (Rleb (dot (vsub (tp1 t) (tp0 t)) (vsub q (tp0 t))) 0 && Rleb (dot (vsub (tp2 t) (tp0 t)) (vsub q (tp0 t))) 0) eqn:C1.
  { apply andb_true_iff in C1. rewrite !Rleb_le in C1. destruct (tri_closest_p0 t q x (proj1 C1) (proj2 C1) Hx) as [-> L]. exact L. }
  assert (E : @tri_closest NumR t q = tp2 t).
  { unfold tri_closest. rn. rewrite C1. clear C1 Hx. revert H3 H4. generalize (dot (vsub (tp1 t) (tp0 t)) (vsub q (tp2 t))) (dot (vsub (tp2 t) (tp0 t)) (vsub q (tp2 t))). intros d3 d4 H3 H4.
    rewrite (proj2 (Rleb_false d4 d3)) by lra. rewrite andb_false_r. rewrite (proj2 (Rleb_le 0 d4)), (proj2 (Rleb_le d3 d4)) by lra. reflexivity. }
  rewrite E. apply nearest_if. destruct Hx as (u & v & w & Hu & Hv & Hw & S & EX & EY & EZ).
  rewrite !dot_eq, !vsub_X, !vsub_Y, !vsub_Z in *. rewrite EX, EY, EZ. assert (W : w = 1 - u - v) by lra. subst w. clear E EX EY EZ.
  set (d4 := (X (tp2 t) - X (tp0 t)) * (X q - X (tp2 t)) + (Y (tp2 t) - Y (tp0 t)) * (Y q - Y (tp2 t)) + (Z_ (tp2 t) - Z_ (tp0 t)) * (Z_ q - Z_ (tp2 t))) in *.
  set (d3 := (X (tp1 t) - X (tp0 t)) * (X q - X (tp2 t)) + (Y (tp1 t) - Y (tp0 t)) * (Y q - Y (tp2 t)) + (Z_ (tp1 t) - Z_ (tp0 t)) * (Z_ q - Z_ (tp2 t))) in *.
  match goal with |- ?g <= 0 => replace g with (- (u * d4) - v * (d4 - d3)) by (unfold d3, d4; ring) end. clearbody d3 d4. assert (0 <= u * d4) by (apply Rmult_le_pos; assumption). assert (0 <= v * (d4 - d3)) by (apply Rmult_le_pos; lra). lra.
Qed.

(** In the region of the edge between the first and the third corner, if the
    tests for the second corner and the first edge do not take the query before. *)
Lemma tri_closest_p02 t q x :
  let d1 := dot (vsub (tp1 t) (tp0 t)) (vsub q (tp0 t)) in let d2 := dot (vsub (tp2 t) (tp0 t)) (vsub q (tp0 t)) in
  let d3 := dot (vsub (tp1 t) (tp0 t)) (vsub q (tp2 t)) in let d4 := dot (vsub (tp2 t) (tp0 t)) (vsub q (tp2 t)) in
  0 <= d2 -> d4 <= 0 -> d3 < 0 -> d3 * d2 <= d1 * d4 -> d1 < 0 \/ d3 * d2 < d1 * d4 ->
  in_triangle t x -> edist q (@tri_closest NumR t q) <= edist q x.
Proof.
  intros d1 d2 d3 d4 H2 H4 H3 Hb Hs Hx.
  destruct (Rleb d1 0 && Rleb d2 0) eqn:C1.
  { apply andb_true_iff in C1. rewrite !Rleb_le in C1. destruct (tri_closest_p0 t q x (proj1 C1) (proj2 C1) Hx) as [-> L]. exact L. }
  destruct (Req_dec d4 0) as [Z4|N4]; [apply tri_closest_p2; [fold d4; lra|fold d3 d4; lra|exact Hx]|].
  assert (E : @tri_closest NumR t q = vadd (tp0 t) (vscale (d2 / (d2 - d4)) (vsub (tp2 t) (tp0 t)))).
  { unfold tri_closest. fold d1 d2 d3 d4. rn. rewrite C1. clear C1 Hx. clearbody d1 d2 d3 d4.
    rewrite (proj2 (Rleb_false 0 d3)) by lra. cbn [andb]. rewrite (proj2 (Rleb_false 0 d4)) by lra. cbn [andb].
    assert (C : Rleb (d1 * d4 - d3 * d2) 0 && Rleb 0 d1 && Rleb d3 0 = false).
    { destruct Hs as [Hs|Hs]; [rewrite (proj2 (Rleb_false 0 d1)) by lra; rewrite andb_false_r; reflexivity|]. rewrite (proj2 (Rleb_false (d1 * d4 - d3 * d2) 0)) by lra. reflexivity. }
    rewrite C. rewrite (proj2 (Rleb_le (d3 * d2 - d1 * d4) 0)), (proj2 (Rleb_le 0 d2)), (proj2 (Rleb_le d4 0)) by lra. reflexivity. }
  rewrite E. apply nearest_if. destruct Hx as (u & v & w & Hu & Hv & Hw & S & EX & EY & EZ).
  set (k := d2 / (d2 - d4)) in *. assert (K : k * (d2 - d4) = d2) by (unfold k; field; lra).
  assert (A2 : d2 - d4 = dot (vsub (tp2 t) (tp0 t)) (vsub (tp2 t) (tp0 t))) by (unfold d2, d4; rewrite !dot_eq, !vsub_X, !vsub_Y, !vsub_Z; ring).
  assert (A1 : d1 - d3 = dot (vsub (tp1 t) (tp0 t)) (vsub (tp2 t) (tp0 t))) by (unfold d1, d3; rewrite !dot_eq, !vsub_X, !vsub_Y, !vsub_Z; ring).
  assert (G : dot (vsub x (vadd (tp0 t) (vscale k (vsub (tp2 t) (tp0 t))))) (vsub q (vadd (tp0 t) (vscale k (vsub (tp2 t) (tp0 t))))) = v * (d1 - k * (d1 - d3)) + (w - k) * (d2 - k * (d2 - d4))).
  { rewrite A1, A2. unfold d1, d2. rewrite !dot_eq, !vsub_X, !vsub_Y, !vsub_Z. rewrite EX, EY, EZ. assert (W : u = 1 - v - w) by lra. subst u. clear. unfold X, Y, Z_, vsub, vadd, vneg, vscale. rn. ring. }
  rewrite G. replace (d2 - k * (d2 - d4)) with 0 by lra.
  assert (P : (d1 - k * (d1 - d3)) * (d2 - d4) <= 0) by (replace ((d1 - k * (d1 - d3)) * (d2 - d4)) with (d1 * (d2 - d4) - (k * (d2 - d4)) * (d1 - d3)) by ring; rewrite K; lra).
  assert (Pos : 0 < d2 - d4) by lra. assert (Q : d1 - k * (d1 - d3) <= 0) by (clear - P Pos; nra). clear - Q Hv. nra.
Qed.

(** The answer always lies on one of the two edges at the first corner. *)
Lemma tri_closest_edges t q : on_segment (tp0 t) (tp1 t) (@tri_closest NumR t q) \/ on_segment (tp0 t) (tp2 t) (@tri_closest NumR t q).
Proof.
  destruct (tri_closest_cases t q) as [(-> & _) | [-> | [-> | [(s & S & ->) | (s & S & ->)]]]].
  - left. exists 0. repeat split; try lra; ring.
  - left. exists 1. repeat split; try lra; ring.
  - right. exists 1. repeat split; try lra; ring.
  - left. exists s. unfold X, Y, Z_. repeat split; try lra; dring.
  - right. exists s. unfold X, Y, Z_. repeat split; try lra; dring.
Qed.
(** So no point strictly inside a triangle is its own closest point. *)
Lemma tri_closest_inside t u v w x : cross (vsub (tp1 t) (tp0 t)) (vsub (tp2 t) (tp0 t)) <> v3 0 0 0 -> 0 < u -> 0 < v -> 0 < w -> u + v + w = 1 ->
  x = v3 (u * X (tp0 t) + v * X (tp1 t) + w * X (tp2 t)) (u * Y (tp0 t) + v * Y (tp1 t) + w * Y (tp2 t)) (u * Z_ (tp0 t) + v * Z_ (tp1 t) + w * Z_ (tp2 t)) ->
  in_triangle t x /\ @tri_closest NumR t x <> x.
Proof.
  intros Nd Hu Hv Hw S Ex. split; [subst x; exists u, v, w; unfold X, Y, Z_, v3; rn; repeat split; lra|]. intros E.
  assert (U : u = 1 - v - w) by lra. clear S.
  destruct (tri_closest_edges t x) as [(s & _ & E0 & E1 & E2)|(s & _ & E0 & E1 & E2)]; rewrite E, Ex in E0, E1, E2; apply Nd; clear E Ex Nd; subst u; unfold cross, vsub, vadd, vneg, v3, X, Y, Z_ in *; rn;
    destruct t as [[a0 a1 a2] [b0 b1 b2] [c0 c1 c2]]; cbn [tp0 tp1 tp2 vx vy vz] in *; rn.
  - assert (C0 : c0 - a0 = (s - v) / w * (b0 - a0)) by (apply (Rmult_eq_reg_l w); [|lra]; replace (w * ((s - v) / w * (b0 - a0))) with ((s - v) * (b0 - a0)) by (field; lra); lra).
    assert (C1 : c1 - a1 = (s - v) / w * (b1 - a1)) by (apply (Rmult_eq_reg_l w); [|lra]; replace (w * ((s - v) / w * (b1 - a1))) with ((s - v) * (b1 - a1)) by (field; lra); lra).
    assert (C2 : c2 - a2 = (s - v) / w * (b2 - a2)) by (apply (Rmult_eq_reg_l w); [|lra]; replace (w * ((s - v) / w * (b2 - a2))) with ((s - v) * (b2 - a2)) by (field; lra); lra).
    f_equal; nra.
  - assert (C0 : b0 - a0 = (s - w) / v * (c0 - a0)) by (apply (Rmult_eq_reg_l v); [|lra]; replace (v * ((s - w) / v * (c0 - a0))) with ((s - w) * (c0 - a0)) by (field; lra); lra).
    assert (C1 : b1 - a1 = (s - w) / v * (c1 - a1)) by (apply (Rmult_eq_reg_l v); [|lra]; replace (v * ((s - w) / v * (c1 - a1))) with ((s - w) * (c1 - a1)) by (field; lra); lra).
    assert (C2 : b2 - a2 = (s - w) / v * (c2 - a2)) by (apply (Rmult_eq_reg_l v); [|lra]; replace (v * ((s - w) / v * (c2 - a2))) with ((s - w) * (c2 - a2)) by (field; lra); lra).
    f_equal; nra.
Qed.

(** A query above the interior of a right triangle: the answer is a corner. *)
Definition unit_tri : triangle NumR := Tri (v3 0 0 0) (v3 1 0 0) (v3 0 1 0).
Ltac rdec := repeat match goal with
  | |- context [Rleb ?a ?b] => first [rewrite (proj2 (Rleb_le a b)) by lra | rewrite (proj2 (Rleb_false a b)) by lra]
  | |- context [Rltb ?a ?b] => first [rewrite (proj2 (Rltb_lt a b)) by lra | rewrite (proj2 (Rltb_false a b)) by lra]
  end.
Lemma tri_closest_wrong : exists t q x, in_triangle t x /\ edist q x < edist q (@tri_closest NumR t q).
Proof.
  exists unit_tri, (v3 (/ 4) (/ 4) 1), (v3 (/ 4) (/ 4) 0). split.
  - exists (/ 2), (/ 4), (/ 4). unfold unit_tri, X, Y, Z_, v3. cbn [tp0 tp1 tp2]. rn. repeat split; lra.
  - assert (E : @tri_closest NumR unit_tri (v3 (/ 4) (/ 4) 1) = v3 0 (/ 4) 0 \/ @tri_closest NumR unit_tri (v3 (/ 4) (/ 4) 1) = v3 1 0 0 \/ @tri_closest NumR unit_tri (v3 (/ 4) (/ 4) 1) = v3 (/ 4) 0 0).
    { unfold tri_closest, unit_tri, v3. cbn [tp0 tp1 tp2]. rewrite !dot_eq. unfold vsub, vadd, vneg, vscale. rn. rdec. cbn [andb].
      first [right; left; reflexivity | left; f_equal; rn; lra | right; right; f_equal; rn; lra]. }
    unfold edist. apply sqrt_lt_1_alt. destruct E as [-> | [-> | ->]]; unfold X, Y, Z_, v3; rn; lra.
Qed.
