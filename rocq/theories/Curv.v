(** Vertex::K over the real numbers: angles of triangles, angle defects, and their sum. *)
From Coq Require Import Reals Lra Lia List ZArith Bool Arith Permutation.
From Verif Require Import Num NumInst Vec Heap Mesh Spec Orbit Rings Exec Diamond Queries Bounds GeomSpec VecR Measure MeasureR MeasureM SmoothSpec.
Import ListNotations.
Local Open Scope mesh_scope.
Local Open Scope R_scope.

(** ** Angles of a triangle *)
Definition ang (p0 p1 p2 : vecR) : R := @natan2 NumR (vlength (cross (vsub p1 p0) (vsub p2 p0))) (dot (vsub p1 p0) (vsub p2 p0)).

Lemma atan2_pos (s d : R) : 0 < s -> @natan2 NumR s d = PI / 2 - atan (d / s).
Proof.
  intros Hs. cbn [natan2 NumR]. destruct (Rlt_dec 0 d) as [Hd | Hd]; [|destruct (Rlt_dec d 0) as [Hd' | Hd']].
  - rewrite <- atan_inv by (apply Rdiv_lt_0_compat; lra). f_equal. field. lra.
  - destruct (Rle_dec 0 s); [|lra]. replace (s / d) with (- (/ ((- d) / s))) by (field; lra). rewrite atan_opp, atan_inv by (apply Rdiv_lt_0_compat; lra).
    replace (- d / s) with (- (d / s)) by (field; lra). rewrite atan_opp. lra.
  - assert (d = 0) by lra. subst d. destruct (Rlt_dec 0 s); [|lra]. replace (0 / s) with 0 by (field; lra). rewrite atan_0. lra.
Qed.
Lemma atan2_cos (s d : R) : 0 < s -> 0 < @natan2 NumR s d < PI /\ cos (@natan2 NumR s d) * sqrt (s * s + d * d) = d.
Proof.
  intros Hs. rewrite (atan2_pos s d Hs). assert (B := atan_bound (d / s)). split; [lra|]. rewrite cos_shift, sin_atan. unfold Rsqr.
  assert (P : 0 < s * s + d * d) by nra. replace (1 + d / s * (d / s)) with ((s * s + d * d) / (s * s)) by (field; lra).
  rewrite sqrt_div by nra. rewrite sqrt_square by lra. assert (0 < sqrt (s * s + d * d)) by (apply sqrt_lt_R0, P). field. split; lra.
Qed.
(** x y + y z + z x = 1 with positive sums: the cotangents of the angles of a triangle. *)
Lemma atan3 (x y z : R) : x * y + y * z + z * x = 1 -> 0 < x + y -> atan x + atan y + atan z = PI / 2.
Proof.
  intros E P. set (s := atan x + atan y). assert (Bx := atan_bound x). assert (By := atan_bound y).
  assert (S1 : 0 < s) by (unfold s; assert (H := atan_increasing (- y) x ltac:(lra)); rewrite atan_opp in H; lra).
  assert (S2 : s < PI) by (unfold s; lra).
  assert (T : atan z = PI / 2 - s).
  { rewrite <- (atan_tan (PI / 2 - s)) by lra. f_equal. unfold tan. rewrite sin_shift, cos_shift.
    assert (Q : sin s <> 0) by (apply Rgt_not_eq, sin_gt_0; assumption).
    apply (Rmult_eq_reg_r (sin s)); [|exact Q]. unfold Rdiv. rewrite (Rmult_assoc (cos s)), Rinv_l by exact Q. unfold s. rewrite sin_plus, cos_plus, !sin_atan, !cos_atan. unfold Rsqr.
    set (a := sqrt (1 + x * x)). set (b := sqrt (1 + y * y)). assert (A : 0 < a) by (apply sqrt_lt_R0; nra). assert (B : 0 < b) by (apply sqrt_lt_R0; nra).
    replace (z * (x / a * (1 / b) + 1 / a * (y / b))) with ((z * x + y * z) / (a * b)) by (field; lra).
    replace (1 / a * (1 / b) - x / a * (y / b)) with ((1 - x * y) / (a * b)) by (field; lra). replace (z * x + y * z) with (1 - x * y) by lra. ring. }
  rewrite T. unfold s. lra.
Qed.

Definition area2 (a b c : vecR) : R := vlength (cross (vsub b a) (vsub c a)).
Lemma area2_rot (a b c : vecR) : area2 b c a = area2 a b c.
Proof. assert (H := area_rot a b c). unfold tri_area in H. unfold area2. lra. Qed.
Lemma ang_sum (a b c : vecR) : 0 < tri_area a b c -> ang a b c + ang b c a + ang c a b = PI.
Proof.
  intros P. unfold ang. change (vlength (cross (vsub b a) (vsub c a))) with (area2 a b c). change (vlength (cross (vsub c b) (vsub a b))) with (area2 b c a). change (vlength (cross (vsub a c) (vsub b c))) with (area2 c a b).
  rewrite <- (area2_rot c a b), !(area2_rot a b c). assert (S : 0 < area2 a b c) by (unfold tri_area in P; unfold area2; lra). assert (SS : area2 a b c * area2 a b c = dot (cross (vsub b a) (vsub c a)) (cross (vsub b a) (vsub c a))) by apply vlength_sq.
  rewrite !atan2_pos by exact S. set (s := area2 a b c) in *.
  set (d1 := dot (vsub b a) (vsub c a)). set (d2 := dot (vsub c b) (vsub a b)). set (d3 := dot (vsub a c) (vsub b c)).
  assert (E : d1 * d2 + d2 * d3 + d3 * d1 = s * s) by (rewrite SS; unfold d1, d2, d3; dring).
  assert (F : d1 + d2 = dot (vsub b a) (vsub b a)) by (unfold d1, d2; dring).
  assert (G : 0 < d1 + d2).
  { rewrite F. destruct (Rle_lt_or_eq_dec _ _ (dot_pos (vsub b a))) as [H | H]; [exact H|]. exfalso. symmetry in H. apply dot_zero in H. 
    assert (Z : dot (cross (vsub b a) (vsub c a)) (cross (vsub b a) (vsub c a)) = 0) by (rewrite H; dring). nra. }
  clearbody s d1 d2 d3. assert (T := atan3 (d1 / s) (d2 / s) (d3 / s)).
  assert (A : d1 / s * (d2 / s) + d2 / s * (d3 / s) + d3 / s * (d1 / s) = 1).
  { replace (d1 / s * (d2 / s) + d2 / s * (d3 / s) + d3 / s * (d1 / s)) with ((d1 * d2 + d2 * d3 + d3 * d1) / (s * s)) by (field; lra). rewrite E. field. lra. }
  assert (B : 0 < d1 / s + d2 / s) by (replace (d1 / s + d2 / s) with ((d1 + d2) / s) by (field; lra); apply Rdiv_lt_0_compat; lra).
  specialize (T A B). lra.
Qed.
Lemma ang_flip (a b c : vecR) : ang a c b = ang a b c.
Proof. unfold ang. rewrite (dot_sym (vsub c a)). f_equal. rewrite cross_anti. apply vneg_len. Qed.
(** The angle at [a] of the triangle a, b, c, as everyone knows it. *)
Definition is_angle (a b c : vecR) (t : R) : Prop := 0 < t < PI /\ cos t * (vlength (vsub b a) * vlength (vsub c a)) = dot (vsub b a) (vsub c a).
Lemma ang_is_angle (a b c : vecR) : 0 < tri_area a b c -> is_angle a b c (ang a b c).
Proof.
  intros P. unfold is_angle, ang. assert (S : 0 < area2 a b c) by (unfold tri_area in P; unfold area2; lra). unfold area2 in S. destruct (atan2_cos _ (dot (vsub b a) (vsub c a)) S) as [B C]. split; [exact B|]. rewrite <- C at 2. f_equal.
  rewrite vlength_sq, cross_lagrange. apply Rsqr_inj; [apply Rmult_le_pos; apply vlength_pos|apply sqrt_pos|]. unfold Rsqr. 
  replace (dot (vsub b a) (vsub b a) * dot (vsub c a) (vsub c a) - dot (vsub b a) (vsub c a) * dot (vsub b a) (vsub c a) + dot (vsub b a) (vsub c a) * dot (vsub b a) (vsub c a)) with (dot (vsub b a) (vsub b a) * dot (vsub c a) (vsub c a)) by ring.
  rewrite sqrt_sqrt by (apply Rmult_le_pos; apply dot_pos). rewrite <- !vlength_sq. ring.
Qed.

(** The part of a non-degenerate triangle is positive. *)
Lemma corner_pos (a b c : vecR) : 0 < tri_area a b c -> 0 < corner_area a b c.
Proof.
  intros P. unfold Measure.corner_area. destruct (@obtuse NumR a b c) eqn:O; cbn [negb].
  - unfold tri_area in P. destruct (nltb _ _); rn; lra.
  - assert (NO : ~ (dot (vsub b a) (vsub c a) < 0 \/ dot (vsub c b) (vsub a b) < 0 \/ dot (vsub a c) (vsub b c) < 0)) by (intros H; apply obtuse_iff in H; congruence).
    assert (S1 : 0 < vlength (cross (vsub b a) (vsub c a))) by (unfold tri_area in P; lra).
    unfold cot. assert (GP := guard_pos). replace (@neps20 NumR) with guard by reflexivity. set (g := guard) in *. clearbody g.
    assert (C : forall x y z : vecR, vlength (cross (vsub x y) (vsub z y)) = 2 * tri_area y x z) by (intros; unfold tri_area; lra). rewrite !C.
    assert (R4 : tri_area c a b = tri_area a b c) by (rewrite <- (area_rot c a b); reflexivity). assert (R5 : tri_area b a c = tri_area a b c) by (rewrite area_swap; apply area_rot). rewrite R4, R5. set (A := tri_area a b c) in *. clearbody A.
    rn. assert (K : forall x y, / 8 * x * x * y = / 8 * (x * x) * y) by (intros; ring). rewrite !K, !vlength_sq. clear K.
    set (db := dot (vsub a b) (vsub c b)). set (dc := dot (vsub a c) (vsub b c)).
    assert (Db : 0 <= db) by (unfold db; rewrite dot_sym; apply Rnot_lt_le; tauto). assert (Dc : 0 <= dc) by (unfold dc; apply Rnot_lt_le; tauto).
    assert (Lab : 0 < dot (vsub b a) (vsub b a)).
    { destruct (Rle_lt_or_eq_dec _ _ (dot_pos (vsub b a))) as [H | H]; [exact H|]. exfalso. symmetry in H. apply dot_zero in H. 
      assert (Z : cross (vsub b a) (vsub c a) = vzero) by (rewrite H; vring). rewrite Z in S1. rewrite (proj2 (vlength_zero vzero) eq_refl) in S1. lra. }
    assert (Lac : 0 < dot (vsub c a) (vsub c a)).
    { destruct (Rle_lt_or_eq_dec _ _ (dot_pos (vsub c a))) as [H | H]; [exact H|]. exfalso. symmetry in H. apply dot_zero in H. 
      assert (Z : cross (vsub b a) (vsub c a) = vzero) by (rewrite H; vring). rewrite Z in S1. rewrite (proj2 (vlength_zero vzero) eq_refl) in S1. lra. }
    assert (Lbc : 0 < db + dc).
    { assert (E : db + dc = dot (vsub c b) (vsub c b)) by (unfold db, dc; dring). rewrite E. destruct (Rle_lt_or_eq_dec _ _ (dot_pos (vsub c b))) as [H | H]; [exact H|]. exfalso. symmetry in H. apply dot_zero in H.
      assert (Z : cross (vsub b a) (vsub c a) = cross (vsub b a) (vsub c b)) by vring. rewrite Z, H in S1. assert (Z2 : cross (vsub b a) vzero = vzero) by vring. rewrite Z2 in S1. rewrite (proj2 (vlength_zero vzero) eq_refl) in S1. lra. }
    set (lb := dot (vsub b a) (vsub b a)) in *. set (lc := dot (vsub c a) (vsub c a)) in *. clearbody db dc lb lc. assert (Q : 0 < / (2 * A + g)) by (apply Rinv_0_lt_compat; lra). unfold Rdiv. set (q := / (2 * A + g)) in *. clearbody q.
    destruct (Rle_lt_or_eq_dec _ _ Db) as [Hb | <-].
    + assert (0 < / 8 * lc * (db * q)) by (apply Rmult_lt_0_compat; [lra|apply Rmult_lt_0_compat; lra]). assert (0 <= / 8 * lb * (dc * q)) by (apply Rmult_le_pos; [lra|apply Rmult_le_pos; lra]). lra.
    + assert (0 < / 8 * lb * (dc * q)) by (apply Rmult_lt_0_compat; [lra|apply Rmult_lt_0_compat; lra]). lra.
Qed.

(** ** Sums around a closed list *)
Fixpoint pathsum {A} (F : A -> A -> R) (x : A) (t : list A) (z : A) : R := match t with [] => F x z | y :: t' => F x y + pathsum F y t' z end.
Definition cycsum {A} (F : A -> A -> R) (l : list A) : R := match l with [] => 0 | x :: t => pathsum F x t x end.
Lemma pathsum_app {A} (F : A -> A -> R) t : forall x y z, pathsum F x (t ++ [y]) z = pathsum F x t y + F y z.
Proof. induction t as [|a t IH]; intros; cbn [pathsum app]; [reflexivity|]. rewrite IH. ring. Qed.
Lemma pathsum_rev {A} (F : A -> A -> R) : (forall a b, F a b = F b a) -> forall t x z, pathsum F z (rev t) x = pathsum F x t z.
Proof. intros S. induction t as [|a t IH]; intros; cbn [pathsum rev]; [apply S|]. rewrite pathsum_app, IH, (S a x). ring. Qed.
Lemma cycsum_rot {A} (F : A -> A -> R) x l : cycsum F (l ++ [x]) = cycsum F (x :: l).
Proof. destruct l as [|y t]; [reflexivity|]. cbn [cycsum app pathsum]. rewrite pathsum_app. ring. Qed.
Lemma cycsum_rev {A} (F : A -> A -> R) l : (forall a b, F a b = F b a) -> cycsum F (rev l) = cycsum F l.
Proof. intros S. destruct l as [|x t]; [reflexivity|]. cbn [rev]. rewrite cycsum_rot. cbn [cycsum]. apply pathsum_rev, S. Qed.
Lemma pathsum_index {A} (d : A) (F : A -> A -> R) t : forall x z, rsum (map (fun i => F (nth i (x :: t ++ [z]) d) (nth (i + 1) (x :: t ++ [z]) d)) (seq 0 (S (length t)))) = pathsum F x t z.
Proof.
  induction t as [|y t IH]; intros x z; [cbn; lra|]. cbn [length]. rewrite <- cons_seq. rewrite map_cons, rsum_cons. cbn [pathsum]. f_equal. rewrite <- IH. rewrite <- seq_shift, map_map. apply rsum_ext. intros i _. reflexivity.
Qed.
Lemma cget_cyc (x : vecR) t i : (i <= S (length t))%nat -> cget (x :: t) i = nth i (x :: t ++ [x]) vzero.
Proof.
  intros Hi. unfold cget. cbn [length]. destruct (Nat.eq_dec i (S (length t))) as [-> | Ne].
  - rewrite Nat.mod_same by lia. cbn [nth]. rewrite app_nth2, Nat.sub_diag by lia. reflexivity.
  - rewrite Nat.mod_small by lia. change (x :: t ++ [x]) with ((x :: t) ++ [x]). rewrite app_nth1 by (cbn; lia). reflexivity.
Qed.
Lemma cget_sum (F : vecR -> vecR -> R) (l : list vecR) : rsum (map (fun i => F (cget l i) (cget l (i + 1))) (seq 0 (length l))) = cycsum F l.
Proof.
  destruct l as [|x t]; [reflexivity|]. cbn [cycsum]. rewrite <- (pathsum_index vzero F t x x). cbn [length]. apply rsum_ext. intros i Hi. apply in_seq in Hi. rewrite !cget_cyc by lia. reflexivity.
Qed.
Lemma ring_rev (p0 : vecR) ps : @ring_area NumR p0 (rev ps) = @ring_area NumR p0 ps.
Proof.
  unfold ring_area. rewrite !fold_sum. f_equal. rewrite !(cget_sum (fun a b => corner_area p0 a b)). apply cycsum_rev. intros; apply corner_flip.
Qed.

(** ** Corner quantities summed over vertices and over faces *)
Implicit Types m : mesh NumR.
Definition Corner := vecR -> vecR -> vecR -> R.
Definition at_v m (v : nat) : list nat := filter (fun h => ptr_eqb (h_src m h) (Some v)) (m_hes m).
Definition at_f m (f : nat) : list nat := filter (fun h => ptr_eqb (h_face m h) (Some f)) (m_hes m).
Definition hcor (C : Corner) m (h : nat) : R := C (pos_at m (h_src m h)) (pos_at m (dst_of m h)) (pos_at m (dst_of m (rot_of m h))).
Definition fcor (C : Corner) m (h : nat) : R := C (pos_at m (h_src m h)) (pos_at m (dst_of m h)) (pos_at m (prev_src m h)).
Definition csym (C : Corner) : Prop := forall a b c, C a c b = C a b c.
Lemma at_v_in m v h : In h (at_v m v) <-> In h (m_hes m) /\ h_src m h = Some v.
Proof.
  unfold at_v. rewrite filter_In. split; intros [A B]; (split; [exact A|]).
  - destruct (h_src m h) as [s|]; [|discriminate]. cbn in B. apply Nat.eqb_eq in B. congruence.
  - rewrite B. cbn. apply Nat.eqb_refl.
Qed.
Lemma at_f_in m f h : In h (at_f m f) <-> In h (m_hes m) /\ h_face m h = Some f.
Proof.
  unfold at_f. rewrite filter_In. split; intros [A B]; (split; [exact A|]).
  - destruct (h_face m h) as [s|]; [|discriminate]. cbn in B. apply Nat.eqb_eq in B. congruence.
  - rewrite B. cbn. apply Nat.eqb_refl.
Qed.
Lemma ring_sum C m v h l : WF m -> Vring m v (h :: l) ->
  cycsum (C (v_pos m v)) (map (fun y => pos_at m (dst_of m y)) (h :: l)) = rsum (map (hcor C m) (at_v m v)).
Proof.
  intros W Hr. destruct Hr as (Hc & Hnd & Hin). revert Hc Hnd Hin. generalize (h :: l). clear h l. intros l Hc Hnd Hin. rewrite <- (cget_sum (C (v_pos m v))). rewrite map_length.
  transitivity (rsum (map (hcor C m) l)).
  - rewrite <- (map_seq_nth (hcor C m) l). apply rsum_ext. intros i Hi. apply in_seq in Hi. destruct Hi as [_ Hi]. cbn [Nat.add] in Hi.
    assert (Hn := cyc_nth _ l Hc i Hi). unfold hcor. assert (Ii : In (nth i l 0%nat) l) by (apply nth_In; exact Hi). apply Hin in Ii. destruct Ii as [Ii Si]. rewrite Si. cbn [pos_at].
    unfold rot_of. rewrite Hn. unfold cget. rewrite map_length. rewrite (Nat.mod_small i) by exact Hi.
    set (G := fun y => pos_at m (dst_of m y)). assert (Nth : forall k, (k < length l)%nat -> nth k (map G l) vzero = G (nth k l 0%nat)).
    { intros k Hk. rewrite (nth_indep (map G l) vzero (G 0%nat)) by (rewrite map_length; exact Hk). apply map_nth. }
    rewrite !Nth; [reflexivity|apply Nat.mod_upper_bound; lia|exact Hi].
  - apply rsum_perm, Permutation_map. apply NoDup_Permutation; [exact Hnd|apply NoDup_filter, (wf_h_nodup m W)|]. intros y. rewrite Hin, at_v_in. reflexivity.
Qed.
Lemma inner_tri m h : Valid m -> In h (m_hes m) -> h_bd m h = false -> exists y z, h_next m h = Some y /\ h_next m y = Some z /\ h_next m z = Some h /\ In y (m_hes m) /\ In z (m_hes m).
Proof.
  intros V Hh B. assert (W := valid_wf m V). destruct (piter3 _ _ (valid_tri m V h Hh B)) as (y & z & E1 & E2 & E3). exists y, z.
  assert (Iy := next_in m W h y Hh E1). assert (Iz := next_in m W y z Iy E2). tauto.
Qed.
Lemma inner_bd m v h : ~ on_boundary m v -> In h (at_v m v) -> h_bd m h = false.
Proof. intros NB Hh. apply at_v_in in Hh. destruct (h_bd m h) eqn:B; [|reflexivity]. exfalso. apply NB. exists h. tauto. Qed.
Lemma closed_inner m v : Closed m -> ~ on_boundary m v.
Proof. intros C (h & Ih & _ & B). rewrite (C h Ih) in B. discriminate. Qed.
Lemma rot_at m v h : WF m -> In h (at_v m v) -> rot m h = Some (rot_of m h) /\ In (rot_of m h) (at_v m v) /\ In h (m_hes m).
Proof.
  intros W Hh. apply at_v_in in Hh. destruct Hh as [Ih Sh]. destruct (rot_some m W h Ih) as (r & n & _ & _ & E & _ & In_). unfold rot_of. rewrite E. split; [reflexivity|]. split; [|exact Ih]. apply at_v_in. split; [exact In_|]. rewrite (rot_src m W h n Ih E). exact Sh.
Qed.
Lemma prev_rot m v h : Valid m -> ~ on_boundary m v -> In h (at_v m v) -> prev_src m (rot_of m h) = dst_of m h.
Proof.
  intros V NB Hh. assert (W := valid_wf m V). destruct (rot_at m v h W Hh) as (E & J & Ih). destruct (rot_some m W h Ih) as (r & n & Er & En & E' & Ir & In_). assert (n = rot_of m h) by congruence. subst n.
  destruct (inner_tri m _ V In_ (inner_bd m v _ NB J)) as (y & z & E1 & E2 & E3 & Iy & Iz). assert (r = z) by exact (next_inj m W r z _ Ir Iz En E3). subst r.
  unfold prev_src, next_of, dst_of. rewrite E1, E2, Er. reflexivity.
Qed.
Lemma hcor_rot C m v h : csym C -> Valid m -> ~ on_boundary m v -> In h (at_v m v) -> hcor C m h = fcor C m (rot_of m h).
Proof.
  intros S V NB Hh. assert (W := valid_wf m V). unfold hcor, fcor. rewrite (prev_rot m v h V NB Hh), S. destruct (rot_at m v h W Hh) as (_ & J & _). apply at_v_in in Hh. apply at_v_in in J. rewrite (proj2 Hh), (proj2 J). reflexivity.
Qed.
(** The rotation permutes the half-edges of each vertex. *)
Lemma rot_perm_v m v : WF m -> Permutation (map (rot_of m) (at_v m v)) (at_v m v).
Proof.
  intros W. assert (NH : NoDup (at_v m v)) by (apply NoDup_filter, (wf_h_nodup m W)).
  assert (R := fun h => rot_at m v h W).
  apply NoDup_Permutation_bis.
  - apply (NoDup_nth _ 0%nat). intros i j Hi Hj E. rewrite map_length in Hi, Hj. rewrite !(nth_indep (map (rot_of m) (at_v m v)) 0%nat (rot_of m 0%nat)) in E by (rewrite map_length; assumption). rewrite !map_nth in E.
    destruct (R _ (nth_In _ 0%nat Hi)) as (R1 & _ & I1). destruct (R _ (nth_In _ 0%nat Hj)) as (R2 & _ & I2). rewrite E in R1.
    apply (proj1 (NoDup_nth (at_v m v) 0%nat) NH i j Hi Hj). exact (rot_inj m W _ _ _ I1 I2 R1 R2).
  - rewrite map_length. lia.
  - intros k Hk. apply in_map_iff in Hk. destruct Hk as (h & <- & Hh). apply R, Hh.
Qed.
Lemma vsum_fcor C m v : csym C -> Valid m -> ~ on_boundary m v -> rsum (map (hcor C m) (at_v m v)) = rsum (map (fcor C m) (at_v m v)).
Proof.
  intros S V NB. assert (W := valid_wf m V). rewrite (rsum_ext (hcor C m) (fun h => fcor C m (rot_of m h))) by (intros h Hh; exact (hcor_rot C m v h S V NB Hh)).
  rewrite <- (map_map (rot_of m) (fcor C m)). apply rsum_perm, Permutation_map, rot_perm_v, W.
Qed.
Lemma fsum_fcor C m f : Valid m -> Closed m -> In f (m_faces m) -> exists a b c, Spec.Tri m f a b c /\ a <> b /\ b <> c /\ c <> a /\
  rsum (map (fcor C m) (at_f m f)) = C (v_pos m a) (v_pos m b) (v_pos m c) + C (v_pos m b) (v_pos m c) (v_pos m a) + C (v_pos m c) (v_pos m a) (v_pos m b).
Proof.
  intros V Cl Hf. assert (W := valid_wf m V). destruct (valid_face_tri m f V Cl Hf) as (x & y & z & a & b & c & (Hc & Hnd & Hin) & T & Nab & Nbc & Nca & Sx & Sy & Sz & Ex & Ey & Ez & Ix & Iy & Iz).
  exists a, b, c. repeat (split; [assumption|]).
  assert (P : Permutation (at_f m f) [x; y; z]) by (apply NoDup_Permutation; [apply NoDup_filter, (wf_h_nodup m W)|exact Hnd|]; intros k; rewrite Hin, at_f_in; reflexivity).
  rewrite (rsum_perm _ _ (Permutation_map (fcor C m) P)). cbn [map rsum fold_right]. unfold fcor, prev_src, next_of. rewrite ?Ex, ?Ey, ?Ez, ?Ex, ?Ey.
  rewrite (dst_next m x y W Ix Ex), (dst_next m y z W Iy Ey), (dst_next m z x W Iz Ez), Sx, Sy, Sz. cbn [pos_at]. ring.
Qed.
Lemma corner_total C m : csym C -> Valid m -> Closed m ->
  rsum (map (fun v => rsum (map (hcor C m) (at_v m v))) (m_verts m)) = rsum (map (fun f => rsum (map (fcor C m) (at_f m f))) (m_faces m)).
Proof.
  intros S V Cl. assert (W := valid_wf m V). rewrite (rsum_ext _ (fun v => rsum (map (fcor C m) (at_v m v)))) by (intros; apply vsum_fcor; [assumption|assumption|apply closed_inner; assumption]).
  unfold at_v, at_f. rewrite (rsum_key (fcor C m) (h_src m) (m_verts m) (wf_v_nodup m W) (m_hes m) (wf_src m W)).
  rewrite (rsum_key (fcor C m) (h_face m) (m_faces m) (wf_f_nodup m W) (m_hes m) (wf_face m W)). reflexivity.
Qed.

(** ** Vertex::K *)
Lemma volonoi_at m v : WF m -> In v (m_verts m) -> v_volonoi (Some v) m = Ok (rsum (map (hcor corner_area m) (at_v m v)), m).
Proof. intros W Hv. exact (volonoi_sum m v W Hv). Qed.
Lemma K_at m v : WF m -> In v (m_verts m) ->
  v_K (Some v) m = Ok ((2 * PI - rsum (map (hcor ang m) (at_v m v))) / rsum (map (hcor corner_area m) (at_v m v)), m).
Proof.
  intros W Hv. destruct (vring m W v Hv) as (h & l & Eh & Hr). assert (Vo := volonoi_at m v W Hv). unfold v_volonoi in Vo. unfold v_K.
  rewrite (bind_ok _ _ _ _ _ (v_positions_ok m v h l W Hv Eh Hr)) in Vo. rewrite (bind_ok _ _ _ _ _ (pos_read m v W Hv)) in Vo. unfold ret in Vo.
  rewrite (bind_ok _ _ _ _ _ (v_positions_ok m v h l W Hv Eh Hr)). rewrite (bind_ok _ _ _ _ _ (pos_read m v W Hv)). unfold ret. apply (f_equal (fun r => match r with Ok (x, _) => x | _ => 0 end)) in Vo.
  rewrite ring_rev, Vo. do 2 f_equal. rewrite fold_sum.
  assert (S := cget_sum (ang (v_pos m v)) (rev (map (fun y => pos_at m (dst_of m y)) (h :: l)))). rewrite cycsum_rev in S by (intros; apply ang_flip). rewrite (ring_sum ang m v h l W Hr) in S.
  unfold ang in S at 1. rewrite S. rn. cbn [npi NumR nzero]. unfold Rdiv. f_equal. ring.
Qed.
Lemma rsum_pos l : (forall x, In x l -> 0 <= x) -> 0 <= rsum l.
Proof. induction l as [|x l IH]; intros H; [cbn; lra|]. rewrite rsum_cons. assert (A := H x (or_introl eq_refl)). assert (B := IH (fun y Y => H y (or_intror Y))). lra. Qed.
Lemma rsum_pos_lt l : l <> [] -> (forall x, In x l -> 0 < x) -> 0 < rsum l.
Proof. destruct l as [|x l]; [congruence|]. intros _ H. rewrite rsum_cons. assert (A := H x (or_introl eq_refl)). assert (B := rsum_pos l (fun y Y => Rlt_le _ _ (H y (or_intror Y)))). lra. Qed.
Definition NonDegenerate m : Prop := forall f a b c, In f (m_faces m) -> Spec.Tri m f a b c -> 0 < tri_area (v_pos m a) (v_pos m b) (v_pos m c).
(** The same for the triangles at one vertex. *)
Definition NonDegenerateAt m (v : nat) : Prop := forall f b c, In f (m_faces m) -> Spec.Tri m f v b c -> 0 < tri_area (v_pos m v) (v_pos m b) (v_pos m c).
Lemma nd_at m v : NonDegenerate m -> NonDegenerateAt m v.
Proof. intros ND f b c. apply ND. Qed.

(** The triangle to which a half-edge belongs. *)
Lemma he_tri m h : Valid m -> In h (m_hes m) -> h_bd m h = false -> exists f a b c, In f (m_faces m) /\ h_face m h = Some f /\ Spec.Tri m f a b c /\ a <> b /\ b <> c /\ c <> a /\ h_src m h = Some a /\ dst_of m h = Some b /\ prev_src m h = Some c.
Proof.
  intros V Hh B. assert (W := valid_wf m V). assert (NL := valid_noloops m V). destruct (inner_tri m h V Hh B) as (y & z & Ex & Ey & Ez & Iy & Iz).
  destruct (wf_face m W h Hh) as (f & Fx & If). destruct (wf_src m W h Hh) as (a & Sx & Ia). destruct (wf_src m W y Iy) as (b & Sy & Ib). destruct (wf_src m W z Iz) as (c & Sz & Ic).
  assert (Nab := noloop_next m h a b y W NL Hh Ex Sx Sy). assert (Nbc := noloop_next m y b c z W NL Iy Ey Sy Sz). assert (Nca := noloop_next m z c a h W NL Iz Ez Sz Sx).
  assert (Nxy : h <> y) by congruence. assert (Nyz : y <> z) by congruence. assert (Nzx : z <> h) by congruence.
  exists f, a, b, c. split; [exact If|]. split; [exact Fx|]. split.
  - exists h, y, z. split; [|tauto]. destruct (fring_at m W h f Hh Fx) as (l & Hc & Hnd & Hin). 
    assert (L : h :: l = [h; y; z]).
    { clear - Hc Hnd Ex Ey Ez Nxy Nyz Nzx. cbn [cyc] in Hc.
      destruct l as [|a1 l]; [cbn [chainto] in Hc; congruence|]. destruct Hc as [H1 Hc]. assert (a1 = y) by congruence; subst a1.
      destruct l as [|b1 l]; [cbn [chainto] in Hc; congruence|]. destruct Hc as [H2 Hc]. assert (b1 = z) by congruence; subst b1.
      destruct l as [|c1 l]; [reflexivity|]. destruct Hc as [H3 Hc]. assert (c1 = h) by congruence; subst c1.
      exfalso. inversion Hnd as [|? ? Hno _]; subst. apply Hno. right; right; left; reflexivity. }
    rewrite L in Hin. intros k. rewrite <- Hin. cbn [In]. intuition.
  - split; [exact Nab|]. split; [exact Nbc|]. split; [exact Nca|]. split; [exact Sx|]. split; [rewrite (dst_next m h y W Hh Ex); exact Sy|]. unfold prev_src, next_of. rewrite Ex, Ey. exact Sz.
Qed.
Lemma volonoi_positive m v : Valid m -> ~ on_boundary m v -> NonDegenerateAt m v -> In v (m_verts m) -> 0 < rsum (map (hcor corner_area m) (at_v m v)).
Proof.
  intros V NB ND Hv. assert (W := valid_wf m V). rewrite (vsum_fcor corner_area m v corner_flip V NB). apply rsum_pos_lt.
  - destruct (wf_vhe m W v Hv) as (h & _ & Ih & Sh). assert (X : In h (at_v m v)) by (apply at_v_in; tauto). destruct (at_v m v); [destruct X|discriminate].
  - intros x X. apply in_map_iff in X. destruct X as (h & <- & Hh). assert (B := inner_bd m v h NB Hh). apply at_v_in in Hh. destruct Hh as [Ih Sh]. destruct (he_tri m h V Ih B) as (f & a & b & c & If & Ff & T & _ & _ & _ & Sa & Db & Pc).
    assert (a = v) by congruence. subst a. unfold fcor. rewrite Sa, Db, Pc. cbn [pos_at]. apply corner_pos, (ND f b c If T).
Qed.

(** The half-edges from a vertex that is not on the boundary are the triangles at it. *)
Definition face_of m (h : nat) : nat := match h_face m h with Some f => f | None => 0%nat end.
Lemma faces_at {X} (G : nat -> X) m v : Valid m -> ~ on_boundary m v -> let L := map (fun h => (face_of m h, G h)) (at_v m v) in
  NoDup (map fst L) /\ (forall f, In f (map fst L) <-> In f (m_faces m) /\ exists b c, Spec.Tri m f v b c) /\
  (forall f x b c, In (f, x) L -> Spec.Tri m f v b c -> exists h, x = G h /\ In h (at_v m v) /\ h_src m h = Some v /\ dst_of m h = Some b /\ prev_src m h = Some c /\ In f (m_faces m)).
Proof.
  intros V NB. assert (W := valid_wf m V). assert (NL := valid_noloops m V). cbn zeta. rewrite !map_map. cbn [fst snd]. unfold face_of. set (fo := fun h => match h_face m h with Some f => f | None => 0%nat end).
  (* the half-edge of a face that starts at v *)
  assert (U : forall h f b c, In h (at_v m v) -> h_face m h = Some f -> Spec.Tri m f v b c -> exists y z, h_next m h = Some y /\ h_next m y = Some z /\ h_src m y = Some b /\ h_src m z = Some c /\ (forall k, In k (m_hes m) /\ h_face m k = Some f <-> k = h \/ k = y \/ k = z) /\ b <> v /\ c <> v).
  { intros h f b c Hh Fh (x & y & z & Hin & Ex & Ey & Ez & Sx & Sy & Sz). apply at_v_in in Hh. destruct Hh as [Ih Sh].
    assert (Ix : In x (m_hes m)) by (apply Hin; tauto). assert (Iy : In y (m_hes m)) by (apply Hin; tauto). assert (Iz : In z (m_hes m)) by (apply Hin; tauto).
    assert (Nvb := noloop_next m x v b y W NL Ix Ex Sx Sy). assert (Ncv := noloop_next m z c v x W NL Iz Ez Sz Sx).
    assert (D : h = x \/ h = y \/ h = z) by (apply Hin; tauto). destruct D as [-> | [-> | ->]]; [|congruence|congruence]. exists y, z. split; [exact Ex|]. split; [exact Ey|]. split; [exact Sy|]. split; [exact Sz|]. split; [exact Hin|]. split; [congruence|exact Ncv]. }
  split; [|split].
  - apply (NoDup_nth _ 0%nat). intros i j Hi Hj E. rewrite map_length in Hi, Hj. rewrite !(nth_indep (map fo (at_v m v)) 0%nat (fo 0%nat)) in E by (rewrite map_length; assumption). rewrite !map_nth in E.
    assert (Ii := nth_In (at_v m v) 0%nat Hi). assert (Ij := nth_In (at_v m v) 0%nat Hj). apply (proj1 (NoDup_nth (at_v m v) 0%nat) (NoDup_filter _ (wf_h_nodup m W)) i j Hi Hj).
    set (h := nth i (at_v m v) 0%nat) in *. set (k := nth j (at_v m v) 0%nat) in *. clearbody h k.
    destruct (proj1 (at_v_in _ _ _) Ii) as [Jh Sh]. destruct (proj1 (at_v_in _ _ _) Ij) as [Jk Sk].
    destruct (he_tri m h V Jh (inner_bd m v h NB Ii)) as (f & a & b & c & If & Ff & T & _ & _ & _ & Sa & _). assert (a = v) by congruence. subst a.
    destruct (U h f b c Ii Ff T) as (y & z & Ey & Ez & Sy & Sz & All & Nb & Nc). destruct (wf_face m W k Jk) as (g & Fg & _). unfold fo in E. rewrite Ff, Fg in E. subst g.
    assert (D : k = h \/ k = y \/ k = z) by (apply All; tauto). destruct D as [D | [D | D]]; [auto|subst; congruence|subst; congruence].
  - intros f. rewrite in_map_iff. split.
    + intros (h & E & Hh). destruct (proj1 (at_v_in _ _ _) Hh) as [Jh Sh]. destruct (he_tri m h V Jh (inner_bd m v h NB Hh)) as (g & a & b & c & If & Ff & T & _ & _ & _ & Sa & _). unfold fo in E. rewrite Ff in E. subst g. assert (a = v) by congruence. subst a. split; [exact If|]. exists b, c. exact T.
    + intros (If & b & c & (x & y & z & Hin & Ex & Ey & Ez & Sx & _)). assert (Ix : In x (m_hes m) /\ h_face m x = Some f) by (apply Hin; tauto). exists x. unfold fo. rewrite (proj2 Ix). split; [reflexivity|]. apply at_v_in. tauto.
  - intros f t b c Hin T. apply in_map_iff in Hin. destruct Hin as (h & E & Hh). injection E as E1 <-. destruct (proj1 (at_v_in _ _ _) Hh) as [Jh Sh]. destruct (wf_face m W h Jh) as (g & Fg & Ig). unfold fo in E1. rewrite Fg in E1. subst g.
    destruct (U h f b c Hh Fg T) as (y & z & Ey & Ez & Sy & Sz & _). exists h. split; [reflexivity|]. split; [exact Hh|]. split; [exact Sh|]. split; [rewrite (dst_next m h y W Jh Ey); exact Sy|]. split; [unfold prev_src, next_of; rewrite Ey, Ez; exact Sz|exact Ig].
Qed.

(** At a vertex: the angle defect over the area. *)
Theorem K_defect m v : Valid m -> ~ on_boundary m v -> NonDegenerateAt m v -> In v (m_verts m) -> exists (A : R) (L : list (nat * R)),
  v_volonoi (Some v) m = Ok (A, m) /\ 0 < A /\
  NoDup (map fst L) /\ (forall f, In f (map fst L) <-> In f (m_faces m) /\ exists b c, Spec.Tri m f v b c) /\
  (forall f t b c, In (f, t) L -> Spec.Tri m f v b c -> is_angle (v_pos m v) (v_pos m b) (v_pos m c) t) /\
  v_K (Some v) m = Ok ((2 * PI - fold_right Rplus 0 (map snd L)) / A, m).
Proof.
  intros V NB ND Hv. assert (W := valid_wf m V). exists (rsum (map (hcor corner_area m) (at_v m v))), (map (fun h => (face_of m h, fcor ang m h)) (at_v m v)).
  split; [exact (volonoi_at m v W Hv)|]. split; [exact (volonoi_positive m v V NB ND Hv)|].
  destruct (faces_at (fcor ang m) m v V NB) as (F1 & F2 & F3). split; [exact F1|]. split; [exact F2|]. split.
  - intros f t b c Hin T. destruct (F3 f t b c Hin T) as (h & -> & _ & Sh & Db & Pc & If). unfold fcor. rewrite Sh, Db, Pc. cbn [pos_at]. apply ang_is_angle, (ND f b c If T).
  - rewrite map_map. cbn [snd]. rewrite (K_at m v W Hv). rewrite (vsum_fcor ang m v ang_flip V NB). reflexivity.
Qed.

(** Gauss-Bonnet: on a closed mesh the curvature integrates to 2 pi times the Euler characteristic. *)
Lemma rsum_const {A} (x : R) (l : list A) : rsum (map (fun _ => x) l) = INR (length l) * x.
Proof. induction l as [|y l IH]; [cbn; lra|]. rewrite map_cons, rsum_cons, IH. cbn [length]. rewrite S_INR. ring. Qed.
Lemma closed_count m : Valid m -> Closed m -> length (m_hes m) = (3 * length (m_faces m))%nat.
Proof.
  intros V Cl. assert (W := valid_wf m V). apply INR_eq. rewrite mult_INR. assert (H := rsum_key (fun _ => 1) (h_face m) (m_faces m) (wf_f_nodup m W) (m_hes m) (wf_face m W)). rewrite rsum_const in H.
  rewrite (rsum_ext _ (fun _ => 3)) in H.
  - rewrite rsum_const in H. cbn [INR]. lra.
  - intros f Hf. destruct (valid_face_tri m f V Cl Hf) as (x & y & z & a & b & c & (Hc & Hnd & Hin) & _).
    assert (P : Permutation (at_f m f) [x; y; z]) by (apply NoDup_Permutation; [apply NoDup_filter, (wf_h_nodup m W)|exact Hnd|]; intros k; rewrite Hin, at_f_in; reflexivity).
    fold (at_f m f). rewrite (rsum_perm _ _ (Permutation_map _ P)). cbn. lra.
Qed.
Theorem gauss_bonnet m : Valid m -> Closed m -> NonDegenerate m -> exists A K : nat -> R,
  (forall v, In v (m_verts m) -> v_volonoi (Some v) m = Ok (A v, m) /\ v_K (Some v) m = Ok (K v, m)) /\
  fold_right Rplus 0 (map (fun v => K v * A v) (m_verts m)) = 2 * PI * IZR (euler m).
Proof.
  intros V Cl ND. assert (W := valid_wf m V). exists (fun v => rsum (map (hcor corner_area m) (at_v m v))). exists (fun v => (2 * PI - rsum (map (hcor ang m) (at_v m v))) / rsum (map (hcor corner_area m) (at_v m v))).
  split; [intros v Hv; split; [exact (volonoi_at m v W Hv)|exact (K_at m v W Hv)]|].
  match goal with |- fold_right Rplus 0 ?l = _ => change (rsum l = 2 * PI * IZR (euler m)) end.
  rewrite (rsum_ext _ (fun v => 2 * PI + (- 1) * rsum (map (hcor ang m) (at_v m v)))).
  2: { intros v Hv. assert (P := volonoi_positive m v V (closed_inner m v Cl) (nd_at m v ND) Hv). cbn beta. field. lra. }
  rewrite rsum_plus, rsum_const. 
  assert (Sc : forall (F : nat -> R) l, rsum (map (fun v => -1 * F v) l) = - rsum (map F l)) by (intros F l; induction l as [|x l IH]; [cbn; lra|]; rewrite !map_cons, !rsum_cons, IH; ring).
  rewrite Sc. rewrite (corner_total ang m ang_flip V Cl).
  rewrite (rsum_ext _ (fun _ => PI)).
  2: { intros f Hf. destruct (fsum_fcor ang m f V Cl Hf) as (a & b & c & T & _ & _ & _ & ->). apply ang_sum, (ND f a b c Hf T). }
  rewrite rsum_const. destruct (numEdges_ok m W) as (n & _ & Hn & Hz). assert (C := closed_count m V Cl). unfold euler. rewrite <- Hz. rewrite plus_IZR, minus_IZR, <- !INR_IZR_INZ.
  assert (E : 3 * INR (length (m_faces m)) = 2 * INR n) by (apply (f_equal INR) in C; rewrite Hn in C; rewrite !mult_INR in C; cbn [INR] in C; lra).
  replace (INR n) with (3 / 2 * INR (length (m_faces m))) by lra. lra.
Qed.
