(** Cotangent weights on scaled meshes: the guard on the sine does not scale. *)
From Coq Require Import Reals Lra Lia List ZArith Bool Arith.
From Verif Require Import Num NumInst Vec Heap Mesh Construct Spec BuildSpec Built Orbit Rings Exec Diamond Witness Examples ExamplesR GeomSpec VecR Measure MeasureR MeasureM Smooth SmoothSpec Curv CurvN CurvW RegTet SmoothD FilterSpec LaplSpec Lapl LaplP LaplM CotPsd SmoothF LapGrad WholeSpec RigidSpec ScaleSpec ScaleM ScaleS ScaleR AreaW.
Import ListNotations.
Local Open Scope R_scope.

Lemma rmul_max k a b : 0 < k -> k * Rmax a b = Rmax (k * a) (k * b).
Proof. intros H. unfold Rmax. destruct (Rle_dec a b), (Rle_dec (k * a) (k * b)); try reflexivity; exfalso; [apply n, Rmult_le_compat_l; lra|apply n, (Rmult_le_reg_l k); assumption]. Qed.
Section C.
Variable c : R.
Hypothesis Hc : 0 < c.
Notation T := (grow c).
Lemma cotan_scaled a b d : cotan (T a) (T b) (T d) = c * c * dot (vsub a b) (vsub d b) / Rmax (c * c * vlength (cross (vsub a b) (vsub d b))) (/ 10 ^ 6).
Proof. unfold cotan. rewrite !grow_sub, grow_cross, grow_dot, t_length2 by exact Hc. reflexivity. Qed.
Lemma cotan_same a b d : / 10 ^ 6 <= vlength (cross (vsub a b) (vsub d b)) -> / 10 ^ 6 <= c * c * vlength (cross (vsub a b) (vsub d b)) -> cotan (T a) (T b) (T d) = cotan a b d.
Proof.
  intros H1 H2. rewrite cotan_scaled. unfold cotan. set (s := vlength _) in *. change (@num NumR) with R in *. rewrite !Rmax_left by assumption. assert (0 < / 10 ^ 6) by lra. field. split; lra.
Qed.
Section M.
Variable m : mesh NumR.
Hypothesis V : Valid m.
Hypothesis Cl : Closed m.
Let W := valid_wf m V.
(** No triangle is tiny, in either unit. *)
Hypothesis Big : forall f x y z, In f (m_faces m) -> Spec.Tri m f x y z -> / 10 ^ 6 <= 2 * tri_area (v_pos m x) (v_pos m y) (v_pos m z) /\ / 10 ^ 6 <= 2 * tri_area (T (v_pos m x)) (T (v_pos m y)) (T (v_pos m z)).
Lemma hcot_same y : In y (m_hes m) -> hcot (scaled c m) y = hcot m y.
Proof.
  intros Hy. destruct (he_tri m y V Hy (Cl y Hy)) as (f & a & b & d & If & Fy & Tr & N1 & N2 & N3 & Sa & Db & Pc).
  assert (Nd : ndst m y = Some d). { destruct (closed_next3 m y V Cl Hy) as (k & z & En & Ek & Ez & Ik & Iz). unfold ndst. rewrite En, (dst_next m k z W Ik Ek). unfold prev_src, next_of in Pc. rewrite En, Ek in Pc. exact Pc. }
  unfold hcot. change (h_src (scaled c m) y) with (h_src m y). change (ndst (scaled c m) y) with (ndst m y). change (dst_of (scaled c m) y) with (dst_of m y). rewrite Sa, Nd, Db. cbn [pos_at].
  change (v_pos (scaled c m) a) with (T (v_pos m a)). change (v_pos (scaled c m) b) with (T (v_pos m b)). change (v_pos (scaled c m) d) with (T (v_pos m d)).
  destruct (Big f a b d If Tr) as [B1 B2]. rewrite <- !(area_rot (v_pos m a)), <- !(area_rot (T (v_pos m a))) in *. rewrite <- !(area_rot (v_pos m b)), <- !(area_rot (T (v_pos m b))) in *. unfold tri_area in B1, B2. rewrite !grow_sub, grow_cross, t_length2 in B2 by exact Hc. change (@num NumR) with R in *.
  apply cotan_same; lra.
Qed.
Lemma weight_same y : In y (m_hes m) -> wgt (scaled c m) true y = wgt m true y.
Proof.
  intros Hy. change (w_cot (scaled c m) y = w_cot m y). rewrite (wcot_half m V y Hy), (wcot_half (scaled c m) (scaled_valid c m V) y Hy). change (revm (scaled c m) y) with (revm m y).
  destruct (revm_ok m W y Hy) as (_ & Ir & _). rewrite (hcot_same y Hy), (hcot_same _ Ir). reflexivity.
Qed.
Lemma ring_in i y : In y (vert_ring m i) -> In y (m_hes m).
Proof. unfold vert_ring. destruct (nth_error (m_verts m) i) as [v|] eqn:E; [|intros []]. intros I. destruct (ring_of_ring m v W (nth_error_In _ _ E)) as [Hr _]. apply Hr, I. Qed.
Lemma cot_scale : (forall h, In h (m_hes m) -> he_cotWeight (Some h) (scaled c m) = scaled_out c same (he_cotWeight (Some h) m)) /\
  getMeshLaplacian (N := NumR) Cotangent (scaled c m) = scaled_out c same (getMeshLaplacian (N := NumR) Cotangent m) /\
  forall (eps : R) o, smoothLaplacian (N := NumR) eps true 1 m o -> smoothLaplacian (N := NumR) eps true 1 (scaled c m) (scaled_res c o).
Proof.
  assert (W' := move_wf c m W). split; [|split].
  - intros h Ih. rewrite (cot_ok m W h Ih), (cot_ok (scaled c m) W' h Ih). cbn [scaled_out]. rewrite (weight_same h Ih). reflexivity.
  - assert (E1 := rows_ok m cot_row (w_cot m) (cot_row_ok m W)). assert (E2 := rows_ok (scaled c m) cot_row (w_cot (scaled c m)) (cot_row_ok (scaled c m) W')).
    change (getMeshLaplacian (N := NumR) Cotangent m = Ok (lmat m (w_cot m), m)) in E1. change (getMeshLaplacian (N := NumR) Cotangent (scaled c m) = Ok (lmat (scaled c m) (w_cot (scaled c m)), scaled c m)) in E2. rewrite E1, E2. cbn [scaled_out]. unfold same.
    assert (E : lmat (scaled c m) (w_cot (scaled c m)) = lmat m (w_cot m)); [|rewrite E; reflexivity]. unfold lmat. change (length (m_verts (scaled c m))) with (length (m_verts m)). f_equal. apply map_ext_in. intros i _. unfold lrow. rewrite (ring_move c).
    change (didx (scaled c m)) with (didx m). f_equal; [|f_equal; f_equal; f_equal]; apply map_ext_in; intros y Hy; [rewrite (weight_same y (ring_in i y Hy)) || (unfold w_cot; rewrite (weight_same y (ring_in i y Hy))); reflexivity|apply (weight_same y (ring_in i y Hy))].
  - intros eps o H. unfold smoothLaplacian in *. inversion H as [|? ? ? m1 ? A B|? ? ? ? A B]; subst.
    + apply rep_S with (scaled c m1); [apply (lap_step_moves c eps true m (Ok m1) W (fun i y Hy => weight_same y (ring_in i y Hy)) A)|]. inversion B; subst. apply rep_0.
    + apply rep_fail; [apply (lap_step_moves c eps true m o W (fun i y Hy => weight_same y (ring_in i y Hy)) A)|]. intros m1 E. destruct o as [m2| | |]; try discriminate. apply (B m2 eq_refl).
Qed.
End M.
End C.

(** ** The regular tetrahedron with corners at (1,1,1) and so on, in a unit that is 10000 times larger *)
Section Tet.
Variable m : mesh NumR.
Hypothesis S0 : SurfaceOf m (triples ix_tetra).
Hypothesis P : positions m = regR.
Let V := so_valid _ _ S0.
Let W := valid_wf m V.
Let C := tetraR_closed m S0.
Lemma reg_tri f a b d : In f (m_faces m) -> Spec.Tri m f a b d ->
  dot (vsub (v_pos m a) (v_pos m d)) (vsub (v_pos m b) (v_pos m d)) = 4 /\ vlength (cross (vsub (v_pos m a) (v_pos m d)) (vsub (v_pos m b) (v_pos m d))) = R_sqrt.sqrt 48.
Proof.
  intros If T. destruct (tet_tri m regR S0 P f a b d If T) as (i & j & k & Hin & _ & _ & _ & <- & <- & <-).
  set (X := cross _ _). assert (D : dot (vsub (nth i regR vzero) (nth k regR vzero)) (vsub (nth j regR vzero) (nth k regR vzero)) = 4 /\ dot X X = 48).
  { unfold X. tricase Hin; cbn [regR nth]; rewrite !dot_eq; unfold cross, vsub, vadd, vneg, v3; rn; change (@num NumR) with R; split; field. }
  destruct D as [D1 D2]. split; [exact D1|]. change (vlength X) with (R_sqrt.sqrt (dot X X)). rewrite D2. reflexivity.
Qed.
Lemma reg_hcot c y : 0 < c -> In y (m_hes m) -> hcot (scaled c m) y = c * c * 4 / Rmax (c * c * R_sqrt.sqrt 48) (/ 10 ^ 6).
Proof.
  intros Hc Hy. destruct (he_tri m y V Hy (C y Hy)) as (f & a & b & d & If & Fy & Tr & N1 & N2 & N3 & Sa & Db & Pc).
  assert (Nd : ndst m y = Some d). { destruct (closed_next3 m y V C Hy) as (k & z & En & Ek & Ez & Ik & Iz). unfold ndst. rewrite En, (dst_next m k z W Ik Ek). unfold prev_src, next_of in Pc. rewrite En, Ek in Pc. exact Pc. }
  unfold hcot. change (h_src (scaled c m) y) with (h_src m y). change (ndst (scaled c m) y) with (ndst m y). change (dst_of (scaled c m) y) with (dst_of m y). rewrite Sa, Nd, Db. cbn [pos_at].
  change (v_pos (scaled c m) a) with (grow c (v_pos m a)). change (v_pos (scaled c m) b) with (grow c (v_pos m b)). change (v_pos (scaled c m) d) with (grow c (v_pos m d)). rewrite (cotan_scaled c Hc).
  destruct (reg_tri f a b d If Tr) as [-> ->]. reflexivity.
Qed.
Lemma reg_weight c y : 0 < c -> In y (m_hes m) -> wgt (scaled c m) true y = c * c * 4 / Rmax (c * c * R_sqrt.sqrt 48) (/ 10 ^ 6).
Proof.
  intros Hc Hy. change (w_cot (scaled c m) y = c * c * 4 / Rmax (c * c * R_sqrt.sqrt 48) (/ 10 ^ 6)). rewrite (wcot_half (scaled c m) (scaled_valid c m V) y Hy). change (revm (scaled c m) y) with (revm m y).
  destruct (revm_ok m W y Hy) as (_ & Ir & _). rewrite (reg_hcot c y Hc Hy), (reg_hcot c _ Hc Ir). lra.
Qed.
Lemma sqrt48 : 6 < R_sqrt.sqrt 48 < 7.
Proof. assert (Q := sqrt_sqrt 48 ltac:(lra)). assert (0 < R_sqrt.sqrt 48) by (apply sqrt_lt_R0; lra). set (s := R_sqrt.sqrt 48) in *. split; nra. Qed.
Lemma reg_big y : In y (m_hes m) -> / 2 < wgt m true y.
Proof.
  intros Hy. assert (E : scaled 1 m = m). { unfold scaled, at_positions. destruct m. cbn. f_equal. apply FunctionalExtensionality.functional_extensionality. intros v. unfold grow. apply vec_ext; cbn; ring. }
  rewrite <- E. rewrite (reg_weight 1 y) by (lra || exact Hy). destruct sqrt48 as [L1 L2]. set (s := R_sqrt.sqrt 48) in *. rewrite Rmax_left by lra. apply (Rmult_lt_reg_r s); [lra|]. unfold Rdiv. rewrite !Rmult_1_l, Rmult_assoc, Rinv_l by lra. lra.
Qed.
Lemma reg_small y : In y (m_hes m) -> wgt (scaled (/ 10000) m) true y = / 25.
Proof.
  intros Hy. rewrite (reg_weight (/ 10000) y) by (lra || exact Hy). destruct sqrt48 as [L1 L2]. rewrite Rmax_right by lra. lra.
Qed.
End Tet.
Theorem unit_refuted : exists (m : mesh NumR) (c : R), Valid m /\ Closed m /\ NonDegenerate m /\ 0 < c /\
  (forall h, In h (m_hes m) -> exists w, he_cotWeight (Some h) m = Ok (w, m) /\ / 2 < w /\ he_cotWeight (Some h) (scaled c m) = Ok (/ 25, scaled c m)) /\
  getMeshLaplacian (N := NumR) Cotangent (scaled c m) <> scaled_out c same (getMeshLaplacian (N := NumR) Cotangent m).
Proof.
  destruct regR_all as (m & _ & V & C & P & _ & S0). assert (W := valid_wf m V). exists m, (/ 10000). split; [exact V|]. split; [exact C|]. split.
  { intros f a b d If T. destruct (reg_tri m S0 P f b d a If) as [_ E]; [destruct T as (x & y & z & F & A1 & A2 & A3 & A4 & A5 & A6); exists y, z, x; split; [intros h; rewrite (F h); tauto|tauto]|]. unfold tri_area. rewrite E. change (@num NumR) with R. assert (Q := sqrt48). lra. }
  split; [lra|]. assert (W' := move_wf (/ 10000) m W). split.
  - intros h Hh. exists (wgt m true h). split; [apply (cot_ok m W h Hh)|]. split; [apply (reg_big m S0 P h Hh)|]. rewrite (cot_ok (scaled (/ 10000) m) W' h Hh), (reg_small m S0 P h Hh). reflexivity.
  - assert (E1 := rows_ok m cot_row (w_cot m) (cot_row_ok m W)). assert (E2 := rows_ok (scaled (/ 10000) m) cot_row (w_cot (scaled (/ 10000) m)) (cot_row_ok (scaled (/ 10000) m) W')).
    change (getMeshLaplacian (N := NumR) Cotangent m = Ok (lmat m (w_cot m), m)) in E1. change (getMeshLaplacian (N := NumR) Cotangent (scaled (/ 10000) m) = Ok (lmat (scaled (/ 10000) m) (w_cot (scaled (/ 10000) m)), scaled (/ 10000) m)) in E2. rewrite E1, E2. cbn [scaled_out]. unfold same. intros E.
    assert (X : lmat (scaled (/ 10000) m) (w_cot (scaled (/ 10000) m)) = lmat m (w_cot m)) by congruence. clear E E1 E2. unfold lmat in X. change (length (m_verts (scaled (/ 10000) m))) with (length (m_verts m)) in X.
    assert (L := reg_len m P). rewrite L in X. cbn [seq map concat] in X. unfold lrow in X. rewrite (ring_move (/ 10000)) in X.
    destruct (ring_head m W 0 ltac:(lia)) as (y & l & _ & _ & Ey). rewrite Ey in X.
    cbn [map app] in X. injection X as X _. assert (Iy : In y (m_hes m)) by (apply (ring_in m V 0 y); rewrite Ey; left; reflexivity). unfold w_cot in X. rewrite (reg_small m S0 P y Iy) in X. assert (B := reg_big m S0 P y Iy). lra.
Qed.
Lemma unit_case : exists m : mesh NumR, Valid m /\ Closed m /\ length (m_verts m) = 4%nat /\
  forall c f x y z, / 1000 <= c -> In f (m_faces m) -> Spec.Tri m f x y z -> / 10 ^ 6 <= 2 * tri_area (v_pos m x) (v_pos m y) (v_pos m z) /\ / 10 ^ 6 <= 2 * tri_area (grow c (v_pos m x)) (grow c (v_pos m y)) (grow c (v_pos m z)).
Proof.
  destruct regR_all as (m & _ & V & C & P & _ & S0). exists m. split; [exact V|]. split; [exact C|]. split; [apply (reg_len m P)|].
  - intros c f a b d Hc If T. assert (c * c >= / 1000 * / 1000) by nra. destruct (reg_tri m S0 P f b d a If) as [_ E]; [destruct T as (x & y & z & F & A1 & A2 & A3 & A4 & A5 & A6); exists y, z, x; split; [intros h; rewrite (F h); tauto|tauto]|].
    unfold tri_area. rewrite !grow_sub, grow_cross, t_length2 by lra. rewrite E. change (@num NumR) with R. destruct sqrt48 as [L1 L2]. set (s := R_sqrt.sqrt 48) in *. split; nra.
Qed.
Lemma grow_ex : grow 1000 (V3 (N := NumR) 1 2 3) = V3 (N := NumR) 1000 2000 3000.
Proof. unfold grow. apply vec_ext; cbn; lra. Qed.
