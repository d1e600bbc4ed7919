(** A tetrahedron that is so small that the cotangent operator is not the gradient of its area. *)
From Coq Require Import Reals Lra Lia List ZArith Bool Arith Permutation.
From Verif Require Import Num NumInst Vec Heap Mesh Construct Spec BuildSpec Built Orbit Rings Exec Diamond Witness Examples ExamplesR GeomSpec VecR Measure MeasureR MeasureM SmoothSpec Curv CurvN CurvW RegTet SmoothD FilterSpec LaplSpec Lapl LaplP LaplM CotPsd SmoothF LapGrad AreaSpec AreaGrad.
Import ListNotations.
Local Open Scope R_scope.

Definition tinyR : list vecR := [v3 (/ 10000) (/ 10000) (/ 10000); v3 (/ 10000) (- / 10000) (- / 10000); v3 (- / 10000) (/ 10000) (- / 10000); v3 (- / 10000) (- / 10000) (/ 10000)].
Lemma tinyR_distinct : PosDistinct tinyR.
Proof.
  intros i j p q Hi Hj E. apply veqb_real in E. subst q.
  destruct i as [|[|[|[|i]]]]; cbn [tinyR nth_error] in Hi; [| | | |destruct i; discriminate Hi]; injection Hi as <-;
  destruct j as [|[|[|[|j]]]]; cbn [tinyR nth_error] in Hj; try reflexivity; try (destruct j; discriminate Hj); exfalso; injection Hj; unfold v3; rn; intros; lra.
Qed.
Section T.
Variable m : mesh NumR.
Hypothesis S0 : SurfaceOf m (triples ix_tetra).
Hypothesis Pm : positions m = tinyR.
Let L := R_sqrt.sqrt (48 / 10 ^ 16).
Lemma tiny_area f a b c : In f (m_faces m) -> Spec.Tri m f a b c -> 2 * tri_area (v_pos m a) (v_pos m b) (v_pos m c) = L.
Proof.
  intros If T. destruct (tet_tri m tinyR S0 Pm f a b c If T) as (i & j & k & Hin & _ & _ & _ & <- & <- & <-). unfold tri_area, L.
  assert (Q : dot (cross (vsub (nth j tinyR vzero) (nth i tinyR vzero)) (vsub (nth k tinyR vzero) (nth i tinyR vzero))) (cross (vsub (nth j tinyR vzero) (nth i tinyR vzero)) (vsub (nth k tinyR vzero) (nth i tinyR vzero))) = 48 / 10 ^ 16).
  { tricase Hin; cbn [tinyR nth]; rewrite dot_eq; unfold cross, vsub, vadd, vneg, v3; rn; change (@num NumR) with R; field. }
  rewrite <- Q. change (R_sqrt.sqrt (dot ?x ?x)) with (vlength x). change (@num NumR) with R in *. 
  match goal with |- 2 * (/ 2 * ?x) = ?y => change y with x; field end.
Qed.
Lemma tiny_L : 0 < L < / 10 ^ 6.
Proof.
  unfold L. split; [apply sqrt_lt_R0; lra|]. rewrite <- (sqrt_Rsqr (/ 10 ^ 6)) by lra. apply sqrt_lt_1; unfold Rsqr; lra.
Qed.
(** What pulls the first vertex outwards. *)
Lemma tiny_terms f b c v : In f (m_faces m) -> Spec.Tri m f v b c ->
  0 < dot (vadd (vscale (cotan (v_pos m v) (v_pos m c) (v_pos m b) / 2) (vsub (v_pos m v) (v_pos m b))) (vscale (cotan (v_pos m v) (v_pos m b) (v_pos m c) / 2) (vsub (v_pos m v) (v_pos m c)))) (v_pos m v).
Proof.
  intros If T. assert (D : exists q, 0 < q /\ dot (vsub (v_pos m v) (v_pos m c)) (vsub (v_pos m b) (v_pos m c)) = q /\ dot (vsub (v_pos m v) (v_pos m b)) (vsub (v_pos m c) (v_pos m b)) = q /\
    dot (vsub (v_pos m v) (v_pos m b)) (v_pos m v) = q /\ dot (vsub (v_pos m v) (v_pos m c)) (v_pos m v) = q).
  { destruct (tet_tri m tinyR S0 Pm f v b c If T) as (i & j & k & Hin & _ & _ & _ & <- & <- & <-). exists (4 / 10 ^ 8). split; [lra|].
    tricase Hin; cbn [tinyR nth]; rewrite !dot_eq; unfold cross, vsub, vadd, vneg, v3; rn; change (@num NumR) with R; repeat split; field. }
  destruct D as (q & Pq & D1 & D2 & D3 & D4). unfold cotan. rewrite dot_add, !dot_scale, D3, D4. rewrite D1, D2. change (@num NumR) with R in *.
  assert (G : forall x, 0 < q / Rmax x (/ 10 ^ 6) / 2 * q).
  { intros x. assert (0 < Rmax x (/ 10 ^ 6)) by (apply Rlt_le_trans with (/ 10 ^ 6); [lra|apply Rmax_r]). assert (0 < / Rmax x (/ 10 ^ 6)) by (apply Rinv_0_lt_compat; assumption). unfold Rdiv. repeat apply Rmult_lt_0_compat; lra. }
  apply Rplus_lt_0_compat; apply G.
Qed.
End T.
Theorem tiny_gradient : exists (m : mesh NumR) v d ts l, Valid m /\ Closed m /\ NonDegenerate m /\ nth_error (m_verts m) 0 = Some v /\ Lapl.getMeshLaplacian (N := NumR) Lapl.Cotangent m = Ok (ts, m) /\
  derivable_pt_lim (fun t => surface_area (moved m v d t)) 0 l /\ l <> sum_to (length (m_verts m)) (fun j => entry (N := NumR) ts 0 j * dot (nth j (map (v_pos m) (m_verts m)) vzero) d).
Proof.
  destruct (tet_mesh _ _ _ _ tinyR_distinct) as (m & _ & S0 & Pm). change (positions m = tinyR) in Pm. assert (V := so_valid _ _ S0). assert (W := valid_wf m V). assert (C := tetraR_closed m S0). destruct tiny_L as [L0 L1].
  assert (ND : NonDegenerate m). { intros f a b c If T. assert (Q := tiny_area m S0 Pm f a b c If T). change (@num NumR) with R in *. lra. }
  assert (Ln : length (m_verts m) = 4%nat) by (rewrite <- (map_length (v_pos m)); change (map (v_pos m) (m_verts m)) with (positions m); rewrite Pm; reflexivity).
  destruct (nth_error (m_verts m) 0) as [v|] eqn:Ev; [|apply nth_error_None in Ev; lia]. assert (Iv := nth_error_In _ _ Ev).
  assert (NDv : NonDegenerateAt m v) by (intros f b c If T; exact (ND f v b c If T)).
  exists m, v, (v_pos m v), (lmat m (w_cot m)), (dot (vsum (map (grad_at m v) (at_v m v))) (v_pos m v)). split; [exact V|]. split; [exact C|]. split; [exact ND|]. split; [exact Ev|]. split; [apply (rows_ok m cot_row (w_cot m) (cot_row_ok m W))|].
  split; [exact (area_deriv m V C v Iv NDv (v_pos m v))|].
  assert (Hk := lapp_k m v _ V C L0 (fun f b c If T => tiny_area m S0 Pm f v b c If T)).
  assert (P : 0 < dot (lapp m v) (v_pos m v)).
  { rewrite (lapp_corners m V C), dot_vsum_r. apply rsum_pos_lt.
    - destruct (wf_vhe m W v Iv) as (h & _ & Ih & Sh). assert (X : In h (at_v m v)) by (apply at_v_in; tauto). destruct (at_v m v); [destruct X|discriminate].
    - intros x X. apply in_map_iff in X. destruct X as (g & <- & X). apply in_map_iff in X. destruct X as (y & <- & Hy). destruct (tri_at m V C v y Hy) as (f & b & c & If & _ & T & _ & _ & _ & Db & Pc & _). rewrite Db, Pc. cbn [SmoothD.pos_at].
      exact (tiny_terms m S0 Pm f b c v If T). }
  assert (R1 := row_apply m (w_cot m) (v_pos m) (fun x => dot x (v_pos m v)) 0 W (linear_dot (v_pos m v)) ltac:(lia)). assert (E0 : vat m 0 = v) by (unfold vat; rewrite (nth_error_nth _ _ _ Ev); reflexivity). rewrite E0 in R1.
  change (sum_to (length (m_verts m)) (fun j => entryR (lmat m (w_cot m)) 0 j * dot (v_pos m (vat m j)) (v_pos m v)) = dot (lapp m v) (v_pos m v)) in R1.
  assert (R2 : sum_to (length (m_verts m)) (fun j => entry (N := NumR) (lmat m (w_cot m)) 0 j * dot (nth j (map (v_pos m) (m_verts m)) vzero) (v_pos m v)) = dot (lapp m v) (v_pos m v)).
  { rewrite <- R1. apply sum_to_ext. intros j Hj. unfold vat. rewrite (nth_indep _ vzero (v_pos m 0%nat)) by (rewrite map_length; exact Hj). rewrite map_nth. reflexivity. }
  intros E. rewrite R2 in E. rewrite Hk, dot_scale in E, P. set (l := dot (vsum (map (grad_at m v) (at_v m v))) (v_pos m v)) in *. change (@num NumR) with R in *. set (s := R_sqrt.sqrt (48 / 10 ^ 16)) in *. rewrite Rmax_right in E, P by lra.
  assert (Q : l * (1 - s / (/ 10 ^ 6)) = 0) by lra. apply Rmult_integral in Q. destruct Q as [Q | Q]; [rewrite Q in P; lra|]. assert (s / / 10 ^ 6 < 1); [|lra]. unfold Rdiv. rewrite Rinv_inv. lra.
Qed.
Lemma big_case : exists m : mesh NumR, Valid m /\ Closed m /\ length (m_verts m) = 4%nat /\ (forall f a b c, In f (m_faces m) -> Spec.Tri m f a b c -> / 10 ^ 6 <= 2 * tri_area (v_pos m a) (v_pos m b) (v_pos m c)).
Proof.
  destruct regR_all as (m & _ & V & C & P & _ & S0). exists m. split; [exact V|]. split; [exact C|]. split; [apply (reg_len m P)|]. intros f a b c If T.
  destruct (tet_tri m regR S0 P f a b c If T) as (i & j & k & Hin & _ & _ & _ & <- & <- & <-). unfold tri_area.
  assert (Q : dot (cross (vsub (nth j regR vzero) (nth i regR vzero)) (vsub (nth k regR vzero) (nth i regR vzero))) (cross (vsub (nth j regR vzero) (nth i regR vzero)) (vsub (nth k regR vzero) (nth i regR vzero))) = 48).
  { tricase Hin; cbn [regR nth]; rewrite dot_eq; unfold cross, vsub, vadd, vneg, v3; rn; rg. }
  set (X := cross _ _) in *. assert (1 <= vlength X); [|change (@num NumR) with R in *; lra]. rewrite <- R_sqrt.sqrt_1. change (vlength X) with (R_sqrt.sqrt (dot X X)). rewrite Q. apply sqrt_le_1_alt. lra.
Qed.
