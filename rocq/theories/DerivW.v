(** The bilinear form whose change is fitted is not the second fundamental form: the regular tetrahedron. *)
From Coq Require Import Reals List Lra Lia.
From Verif Require Import Num NumInst Vec GeomSpec VecR Heap Mesh Construct Spec BuildSpec Wp Rings Measure MeasureM Curv LaplSpec LinR Features Tensor TensorSpec TensorR TensorM TensorS TensorW RegTet Deriv DerivSpec DerivR DerivO.
From Verif Require Import Num NumInst Vec Heap Mesh Construct Spec BuildSpec BuildProps Built Orbit Rings Exec Diamond Queries Refuse Witness Examples GeomSpec ExamplesR VecR Measure MeasureR MeasureM Means SmoothSpec Curv CurvN CurvW RegTet L0W LinR Features FeaturesR Tensor TensorSpec TensorR TensorM TensorS.
Import ListNotations.
Local Open Scope R_scope.
Lemma mmap_princ (m0 : mesh NumR) (L : list (tensor NumR * frame NumR)) (g : tensor NumR * frame NumR -> pc NumR) :
  (forall x, In x L -> principal (N := NumR) (t00 (fst x)) (t01 (fst x)) (t11 (fst x)) (fr_u (snd x)) (fr_v (snd x)) (fr_n (snd x)) = Some (g x)) ->
  mmap (fun x => lift (principal (N := NumR) (t00 (fst x)) (t01 (fst x)) (t11 (fst x)) (fr_u (snd x)) (fr_v (snd x)) (fr_n (snd x)))) L m0 = Ok (map g L, m0).
Proof.
  induction L as [|x L IH]; intros H; [reflexivity|]. cbn [mmap map]. rewrite (H x (or_introl eq_refl)). cbn [lift]. rewrite bind_ret. rewrite (bind_ok _ _ _ _ _ (IH (fun y Iy => H y (or_intror Iy)))). reflexivity.
Qed.
Theorem form_wrong solve : ExactSolver solve -> exists (m : mesh NumR) n T G L K, mesh_of regR ix_tetra = Ok m /\ getCurvatureTensors (N := NumR) cos sin solve m = Ok (L, m) /\ CurvTensors m n T G L /\
  getPrincipalCurvatures (N := NumR) cos sin solve false m = Ok (K, m) /\ length K = 4%nat /\
  forall i t F x, nth_error L i = Some (t, F) -> nth_error K i = Some x ->
    vlength (t_max x) = 1 /\ dot (t_max x) (t_min x) = 0 /\
    form F t (t_max x) (t_max x) = 1 / 3 / sqrt 3 /\ shape x (t_max x) (t_max x) = 1 / sqrt 3.
Proof.
  intros HS. destruct regR_all as (m & E & V & C & P & _ & S). assert (W := valid_wf m V). assert (P3 : 0 < sqrt 3) by (apply sqrt_lt_R0; lra).
  destruct tensor_case as (m' & n0 & E' & V' & C' & ND & Ge & _). assert (m' = m) by congruence. subst m'.
  destruct (tensors_total solve m n0 HS V C ND Ge) as (L & n & T & G & EL & CT). assert (HL := ct_length _ _ _ _ _ CT).
  set (g := fun x : tensor NumR * frame NumR => (1 / sqrt 3, 1 / 3 / sqrt 3, fr_u (snd x), fr_v (snd x)) : pc NumR).
  assert (AT : forall i t F, nth_error L i = Some (t, F) -> t = Tn (N := NumR) (1 / 3 / sqrt 3) 0 (1 / sqrt 3) /\ vlength (fr_u F) = 1 /\ vlength (fr_v F) = 1 /\ dot (fr_u F) (fr_v F) = 0 /\ normalize (cross (fr_n F) (fr_u F)) = Some (fr_v F)).
  { intros i t F Et. assert (Li : (i < length (m_verts m))%nat) by (rewrite <- HL; apply nth_error_Some; congruence). destruct (nth_error (m_verts m) i) as [v|] eqn:Ev; [|apply nth_error_None in Ev; lia].
    destruct (sp_vertex m vzero (sqrt 3) V C (reg_spherical m S P) (reg_big m S P) n T G L i v t F CT Ev Et) as (d & l & Nb & A & Uu & Su & Nv & Sn & Pl & ->).
    rewrite (proj1 (reg_dist m S P v d A)). destruct (normalize_some _ _ Nv) as (Pc & Uv & Sv).
    assert (E8 : (sqrt 8 / (2 * sqrt 3)) ^ 2 = 2 / 3).
    { replace ((sqrt 8 / (2 * sqrt 3)) ^ 2) with ((sqrt 8 * sqrt 8) / (4 * (sqrt 3 * sqrt 3))) by (field; lra). rewrite !sqrt_sqrt by lra. field. }
    split; [apply tensor_eq; cbn [t00 t01 t11]; [rewrite E8; change (@num NumR) with R; rn; field; lra|reflexivity|change (@num NumR) with R; rn; field; lra]|]. split; [exact Uu|]. split; [apply unit_dot in Uv; exact (proj2 (unit_dot _) Uv) || exact Uv|]. split; [|exact Nv].
    rewrite dot_sym. apply (scale_orth _ _ _ Pc). rewrite Sv. apply cross_orth2. }
  assert (LT : 1 / 3 / sqrt 3 + / 10 ^ 6 <= 1 / sqrt 3).
  { assert (sqrt 3 < 2) by (rewrite <- (sqrt_square 2) by lra; apply sqrt_lt_1; lra). apply (Rmult_le_reg_r (sqrt 3)); [exact P3|]. replace ((1 / 3 / sqrt 3 + / 10 ^ 6) * sqrt 3) with (1 / 3 + / 10 ^ 6 * sqrt 3) by (field; lra). replace (1 / sqrt 3 * sqrt 3) with 1 by (field; lra). lra. }
  exists m, n, T, G, L, (map g L). split; [exact E|]. split; [exact EL|]. split; [exact CT|]. split; [|split].
  - unfold getPrincipalCurvatures. rewrite (bind_ok _ _ _ _ _ EL), bind_ret. apply mmap_princ. intros [t F] Ix. apply In_nth_error in Ix. destruct Ix as [i Ei]. destruct (AT i t F Ei) as (-> & _ & _ & _ & Nv). cbn [fst snd t00 t01 t11].
    rewrite principal_diag; [|lra|exact Nv]. replace (Rltb (1 / sqrt 3 - 1 / 3 / sqrt 3) (/ 10 ^ 6)) with false by (symmetry; apply Rltb_false; lra). reflexivity.
  - rewrite map_length, HL. apply (reg_len m P).
  - intros i t F x Et Ex. rewrite (map_nth_error _ _ _ Et) in Ex. apply some_inj in Ex. subst x. destruct (AT i t F Et) as (-> & Uu & Uv & O & _). unfold g, shape, form, k_max, k_min, t_max, t_min. cbn [fst snd t00 t01 t11]. assert (U2 := Uu). apply unit_dot in U2. rewrite !U2, !O. split; [exact Uu|]. split; [reflexivity|]. change (@num NumR) with R in *; split; rn; ring.
Qed.
Lemma frame_case : exists (F : frame NumR) (t : tensor NumR), Orthonormal F /\ fr_n F = cross (fr_u F) (fr_v F) /\ t00 t <> t11 t.
Proof.
  exists (Fr (N := NumR) (v3 1 0 0) (v3 0 1 0) (v3 0 0 1)), (Tn (N := NumR) 1 0 2). split; [constructor; cbn [fr_u fr_v fr_n]; unfold dot, v3; rg|]. split; [cbn [fr_u fr_v fr_n]; unfold cross, v3; rn; f_equal; rg|]. cbn [t00 t11]. rn. lra.
Qed.
(** Nothing is returned if a face, which may be a hole, is not a triangle. *)
Theorem deriv_never {N : Num} ncos nsin ldlt (m : mesh N) f vs : WF m -> In f (m_faces m) -> f_vertices (Some f) m = Ok (vs, m) -> length vs <> 3%nat ->
  forall b out m', getPrincipalCurvaturesWithDerivatives (N := N) ncos nsin ldlt b m <> Ok (out, m').
Proof.
  intros W If Ev L3 b out m' H. unfold getPrincipalCurvaturesWithDerivatives in H. apply bind_inv in H. destruct H as (L & m1 & E & _).
  exact (proj1 (poly_never ncos nsin ldlt m f vs W If Ev L3) L m1 E).
Qed.
