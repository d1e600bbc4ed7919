(** The curvature tensors of surfaces inscribed in a sphere. *)
From Coq Require Import Reals Lra Lia List ZArith Bool Arith Permutation.
From Verif Require Import Num NumInst Vec Heap Mesh Spec Orbit Rings Exec Diamond Queries GeomSpec VecR Measure MeasureR MeasureM Means SmoothSpec Curv CurvN CurvW LinR Features FeaturesR Tensor TensorSpec TensorR TensorM.
Import ListNotations.
Local Open Scope mesh_scope.
Local Open Scope R_scope.
Implicit Types m : mesh NumR.

(** ** Vectors *)
Lemma gram (x y u v : vecR) : dot x (cross u v) * dot y (cross u v) =
  dot x y * (dot u u * dot v v - dot u v * dot u v) - dot x u * (dot y u * dot v v - dot u v * dot y v) + dot x v * (dot y u * dot u v - dot u u * dot y v).
Proof. dring. Qed.
Lemma parseval F (x y : vecR) : Orthonormal F -> dot x y = dot x (fr_u F) * dot y (fr_u F) + dot x (fr_v F) * dot y (fr_v F) + dot x (fr_n F) * dot y (fr_n F).
Proof.
  intros [Uu Uv Un Ouv Oun Ovn]. destruct F as [u v n]. cbn [fr_u fr_v fr_n] in *. rewrite (dot_sym u n) in Oun. rewrite (dot_sym v n) in Ovn.
  assert (G1 := gram n n u v). assert (G2 := gram x n u v). assert (G3 := gram y n u v). assert (G4 := gram x y u v). rewrite Uu, Uv, Ouv, ?Un, ?Oun, ?Ovn in *.
  set (k := dot n (cross u v)) in *. set (a := dot x (cross u v)) in *. set (b := dot y (cross u v)) in *. change (@num NumR) with R in *. rn.
  assert (E : dot x n * dot y n = a * b) by (replace (a * b) with ((a * k) * (b * k)) by (replace ((a * k) * (b * k)) with (a * b * (k * k)) by ring; rewrite G1; ring); rewrite G2, G3; ring).
  rewrite E, G4. symmetry. rg.
Qed.
Lemma form_iso F (s : R) (x y : vecR) : Orthonormal F -> form F (Tn (N := NumR) s 0 s) x y = s * (dot x y - dot x (fr_n F) * dot y (fr_n F)).
Proof. intros O. rewrite (parseval F x y O). unfold form. cbn [t00 t01 t11]. change (@num NumR) with R. rn. generalize (dot x (fr_u F)), (dot y (fr_u F)), (dot x (fr_v F)), (dot y (fr_v F)), (dot x (fr_n F)), (dot y (fr_n F)). intros. rg. Qed.
Lemma misfit_pos F t x : 0 <= misfit F t x.
Proof. unfold misfit. change (@num NumR) with R. apply Rplus_le_le_0_compat; apply pow2_ge_0. Qed.
Lemma best_exact F (t t' : tensor NumR) (a b c na nb nc : vecR) : BestFit F t a b c na nb nc -> misfit F t' (vsub b a, vsub nb na) = 0 -> misfit F t' (vsub c b, vsub nc nb) = 0 -> misfit F t' (vsub a c, vsub na nc) = 0 -> t = t'.
Proof.
  intros B E1 E2 E3. destruct (Req_dec (t00 t) (t00 t')) as [D0 | D0]; [destruct (Req_dec (t01 t) (t01 t')) as [D1 | D1]; [destruct (Req_dec (t11 t) (t11 t')) as [D2 | D2]; [apply tensor_eq; assumption|]|]|]; exfalso.
  all: assert (Ne : t' <> t) by (intros ->; congruence); specialize (B t' Ne); unfold total_misfit in B; cbn [map fold_right] in B; rewrite E1, E2, E3 in B;
    assert (P1 := misfit_pos F t (vsub b a, vsub nb na)); assert (P2 := misfit_pos F t (vsub c b, vsub nc nb)); assert (P3 := misfit_pos F t (vsub a c, vsub na nc)); lra.
Qed.
Lemma misfit_iso F (s : R) (e dn : vecR) : Orthonormal F -> dn = vscale s e -> misfit F (Tn (N := NumR) s 0 s) (e, dn) = 0.
Proof.
  intros O ->. unfold misfit. cbn [fst snd]. rewrite !(form_iso F _ _ _ O), !dot_scale. destruct O as [Uu Uv Un Ouv Oun Ovn]. rewrite Oun, Ovn. change (@num NumR) with R. rn. ring.
Qed.
(** A face whose normals are the radii of a sphere. *)
Lemma sphere_tensor F t (a b c o na nb nc : vecR) (r : R) : 0 < r -> FaceFrame F a b c -> BestFit F t a b c na nb nc ->
  vscale r na = vsub a o -> vscale r nb = vsub b o -> vscale r nc = vsub c o -> t = Tn (N := NumR) (/ r) 0 (/ r).
Proof.
  intros P [O _] B Ea Eb Ec.
  assert (K : forall x y nx ny : vecR, vscale r nx = vsub x o -> vscale r ny = vsub y o -> vsub ny nx = vscale (/ r) (vsub y x)).
  { intros x y nx ny Ex Ey. replace (vsub y x) with (vsub (vsub y o) (vsub x o)) by vring. rewrite <- Ex, <- Ey. destruct nx, ny. unfold vsub, vadd, vneg, Vec.vscale. rn. f_equal; rn; field; lra. }
  apply (best_exact F t _ a b c na nb nc B); (apply misfit_iso; [exact O|apply K; assumption]).
Qed.
(** The form of such a face, seen from a vertex. *)
Lemma sphere_form F (r : R) (Q : vecR -> vecR) (n x y : vecR) : Orthonormal F -> Rotation Q -> Q n = fr_n F -> form F (Tn (N := NumR) (/ r) 0 (/ r)) (Q x) (Q y) = / r * (dot x y - dot x n * dot y n).
Proof. intros O RQ E. rewrite (form_iso F _ _ _ O), <- E, !(rt_dot Q RQ). reflexivity. Qed.
(** On a sphere the angle between a vertex normal and a face normal is not small. *)
Lemma proj_dot (n f e : vecR) (k : R) : dot (vsub n (vscale k f)) e = dot n e - k * dot e f. Proof. dring. Qed.
Lemma proj_sq (n f : vecR) (k : R) : dot (vsub n (vscale k f)) (vsub n (vscale k f)) = dot n n - 2 * k * dot n f + k * k * dot f f. Proof. dring. Qed.
Lemma sphere_angle (n nf e : vecR) (r : R) : 0 < r -> dot n n = 1 -> dot nf nf = 1 -> dot e nf = 0 -> 2 * r * dot n e = - dot e e -> 0 < vlength e -> 2 * (/ 10 ^ 12) * r <= vlength e -> / 10 ^ 12 <= vlength (cross n nf).
Proof.
  intros P Un Uf O E EP L. set (eps := / 10 ^ 12) in *. assert (Pe : 0 < eps) by apply tiny. assert (LP := vlength_pos (cross n nf)). assert (LS := vlength_sq (cross n nf)). rewrite cross_lagrange, Un, Uf in LS.
  assert (ES := vlength_sq e). assert (CS := cauchy_sq (vsub n (vscale (dot n nf) nf)) e). rewrite proj_dot, proj_sq, O, Un, Uf, <- ES in CS. rewrite <- ES in E.
  set (x := vlength (cross n nf)) in *. set (l := vlength e) in *. set (d := dot n nf) in *. set (k := dot n e) in *. clearbody x l d k. change (@num NumR) with R in *. rn.
  assert (E2 : 4 * (r * r) * (k * k) = l * l * (l * l)) by (replace (4 * (r * r) * (k * k)) with ((2 * r * k) * (2 * r * k)) by ring; rewrite E; ring).
  assert (CS2 : k * k <= x * x * (l * l)) by (replace (x * x) with (1 - d * d) by lra; lra).
  assert (Pl : 0 < l * l) by (apply Rmult_lt_0_compat; lra).
  assert (C3 : l * l <= 4 * (r * r) * (x * x)).
  { apply (Rmult_le_reg_r (l * l)); [exact Pl|]. rewrite <- E2. replace (4 * (r * r) * (x * x) * (l * l)) with (4 * (r * r) * (x * x * (l * l))) by ring. apply Rmult_le_compat_l; [|exact CS2]. assert (0 < r * r) by (apply Rmult_lt_0_compat; lra). lra. }
  assert (C4 : l <= 2 * r * x).
  { apply Rsqr_incr_0_var; [unfold Rsqr; lra|]. apply Rmult_le_pos; lra. }
  apply (Rmult_le_reg_l (2 * r)); [lra|]. lra.
Qed.
(** The tangent of an edge. *)
Lemma sphere_edge (p q o n : vecR) (r : R) : 0 < r -> vlength (vsub p o) = r -> vlength (vsub q o) = r -> vscale r n = vsub p o -> 2 * r * dot n (vsub q p) = - dot (vsub q p) (vsub q p).
Proof.
  intros P Lp Lq E. replace (2 * r * dot n (vsub q p)) with (2 * dot (vscale r n) (vsub q p)) by (rewrite dot_scale; rg). rewrite E.
  assert (S1 := vlength_sq (vsub p o)). assert (S2 := vlength_sq (vsub q o)). rewrite Lp in S1. rewrite Lq in S2.
  assert (I : dot (vsub q o) (vsub q o) = dot (vsub p o) (vsub p o) + 2 * dot (vsub p o) (vsub q p) + dot (vsub q p) (vsub q p)) by dring. change (@num NumR) with R in *. rn. lra.
Qed.

(** ** The principal curvatures of a diagonal tensor *)
Lemma principal_diag (a d : R) (u v n : vecR) : a < d -> normalize (cross n u) = Some v -> @principal NumR a 0 d u v n = Some (d, a, if Rltb (d - a) (/ 10 ^ 6) then vzero else u, if Rltb (d - a) (/ 10 ^ 6) then vzero else v).
Proof.
  intros H E. unfold principal, jacobi. rn. replace (Reqb 0 0) with true by (symmetry; apply Reqb_eq; reflexivity). rn.
  replace (a - 0 * 0) with a by ring. replace (d + 0 * 0) with d by ring. replace (Rltb a d) with true by (symmetry; apply Rltb_lt; exact H).
  assert (X : @Vec.vsub NumR (vscale 1 u) (vscale 0 v) = u) by (clear; destruct u, v; unfold vsub, vadd, vneg, Vec.vscale; rn; f_equal; rg).
  match goal with |- context [cross n ?y] => replace y with u by (symmetry; exact X) end. rewrite E.
  rewrite Rabs_minus_sym, (Rabs_right (d - a)) by lra. destruct (Rltb (d - a) (/ 10 ^ 6)); reflexivity.
Qed.

(** ** Meshes *)
Lemma sp_nd m o r : Spherical m o r -> NonDegenerate m.
Proof.
  intros [P On Out] f a b c If T. assert (H := Out f a b c If T). unfold tri_area. assert (Q : cross (vsub (v_pos m b) (v_pos m a)) (vsub (v_pos m c) (v_pos m a)) <> vzero).
  { intros Z. rewrite Z in H. assert (E : dot vzero (vsub (v_pos m a) o) = 0) by dring. rewrite E in H. lra. }
  apply nonzero_len in Q. lra.
Qed.
Lemma adj_in m v w : WF m -> adj m v w -> In v (m_verts m) /\ In w (m_verts m).
Proof. intros W (h & Ih & Sh & Dh). split; [apply (src_in m W h v Ih Sh)|]. destruct (dst_ptr m h W Ih) as (d & Dd & Id). congruence. Qed.
Lemma scale_inj (r : R) (a b : vecR) : r <> 0 -> vscale r a = vscale r b -> a = b.
Proof.
  intros H E. assert (E2 : vscale (/ r) (vscale r a) = vscale (/ r) (vscale r b)) by (rewrite E; reflexivity).
  assert (K : forall x : vecR, vscale (/ r) (vscale r x) = x) by (intros [x y z]; unfold Vec.vscale; rn; f_equal; rn; field; exact H). rewrite !K in E2. exact E2.
Qed.
Lemma sp_normal m o r v : Valid m -> Closed m -> Spherical m o r -> In v (m_verts m) -> exists n, v_normal (Some v) m = Ok (n, m) /\ vlength n = 1 /\ vscale r n = vsub (v_pos m v) o.
Proof.
  intros V C S Hv. assert (W := valid_wf m V). assert (ND := sp_nd m o r S). destruct S as [P On Out].
  destruct (normal_side m v (vsub (v_pos m v) o) V (closed_inner m v C) (nd_at m v ND) Hv) as (n & E & U & Sd); [intros f b c If T; apply (Out f v b c If T)|].
  exists n. split; [exact E|]. split; [exact U|].
  destruct (normal_sphere m v o r n m V (closed_inner m v C) (nd_at m v ND) Hv P (On v Hv)) as [H | H]; [intros w A; apply On, (adj_in m v w W A)|exact E|exact H|].
  exfalso. assert (D : dot (vscale r n) (vsub (v_pos m v) o) = - dot (vsub (v_pos m v) o) (vsub (v_pos m v) o)) by (rewrite H; dring). rewrite dot_scale in D.
  assert (Q := dot_pos (vsub (v_pos m v) o)). assert (0 < r * dot n (vsub (v_pos m v) o)) by (apply Rmult_lt_0_compat; assumption). change (@num NumR) with R in *. lra.
Qed.
Lemma normalize_of (c v : vecR) : c <> vzero -> vlength v = 1 -> vscale (vlength c) v = c -> normalize c = Some v.
Proof.
  intros NZ U E. destruct (normalize_unit c NZ) as (u & Eu & _ & Su). rewrite Eu. f_equal. apply (scale_inj (vlength c)); [apply nonzero_len in NZ; lra|congruence].
Qed.
Lemma mean_const {A} (wt : A -> R) (x : R) (K : list A) (g : A -> R) : K <> [] -> (forall k, In k K -> 0 < wt k) -> (forall k, In k K -> g k = x) ->
  fold_right Rplus 0 (map (fun k => wt k * g k) K) / fold_right Rplus 0 (map wt K) = x.
Proof.
  intros NE Pw Eg. assert (E : fold_right Rplus 0 (map (fun k => wt k * g k) K) = x * fold_right Rplus 0 (map wt K)).
  { clear NE Pw. induction K as [|k K IH]; [cbn; ring|]. cbn [map fold_right]. rewrite IH by (intros; apply Eg; right; assumption). rewrite (Eg k (or_introl eq_refl)). ring. }
  assert (P : 0 < fold_right Rplus 0 (map wt K)).
  { clear E Eg. destruct K as [|k K]; [congruence|]. cbn [map fold_right]. assert (0 < wt k) by (apply Pw; left; reflexivity). assert (0 <= fold_right Rplus 0 (map wt K)); [|lra].
    assert (Q : forall j, In j K -> 0 < wt j) by (intros; apply Pw; right; assumption). clear - Q. induction K as [|j K IH]; [cbn; lra|]. cbn [map fold_right]. assert (0 < wt j) by (apply Q; left; reflexivity). assert (H0 := IH (fun i H => Q i (or_intror H))). lra. }
  rewrite E. field. lra.
Qed.
Section Sphere.
Variable m : mesh NumR.
Variables (o : vecR) (r : R).
Hypothesis V : Valid m.
Hypothesis C : Closed m.
Hypothesis S : Spherical m o r.
Hypothesis Big : forall v w, adj m v w -> 2 * (/ 10 ^ 12) * r <= vlength (vsub (v_pos m w) (v_pos m v)).
Let W := valid_wf m V.
Let P := sp_r m o r S.
Lemma sp_vertex n T G L i v t F : CurvTensors m n T G L -> nth_error (m_verts m) i = Some v -> nth_error L i = Some (t, F) ->
  exists d l, v_neighbors (Some v) m = Ok (Some d :: l, m) /\ adj m v d /\ vlength (fr_u F) = 1 /\ vscale (vlength (vsub (v_pos m d) (v_pos m v))) (fr_u F) = vsub (v_pos m d) (v_pos m v) /\
    normalize (cross (fr_n F) (fr_u F)) = Some (fr_v F) /\ vscale r (fr_n F) = vsub (v_pos m v) o /\ 0 < vlength (vsub (v_pos m d) (v_pos m v)) /\
    t = Tn (N := NumR) (/ r * (1 - (vlength (vsub (v_pos m d) (v_pos m v)) / (2 * r)) ^ 2)) 0 (/ r).
Proof.
  intros [_ CN CF CV] Ev Et. assert (Hv : In v (m_verts m)) by (eapply nth_error_In; exact Ev). destruct (CV i v t F Ev Et) as [(En & d & l & Nb & Uu & Su & Nz & Uv & Sv) (K & K1 & K2 & K3 & K4)].
  assert (A : adj m v d).
  { destruct (vring m W v Hv) as (h & k & Eh & Hr). rewrite (v_neighbors_ok m W v h k Hv Eh Hr) in Nb. cbn [map] in Nb. injection Nb as Dh _. destruct Hr as (_ & _ & Hin). exists h. rewrite <- and_assoc. split; [apply Hin; left; reflexivity|exact Dh]. }
  assert (NR : forall w, In w (m_verts m) -> vlength (n w) = 1 /\ vscale r (n w) = vsub (v_pos m w) o).
  { intros w Hw. destruct (sp_normal m o r w V C S Hw) as (x & Ex & Ux & Sx). destruct (CN w Hw) as [En' _]. rewrite Ex in En'. injection En' as <-. auto. }
  destruct (NR v Hv) as [Un Sn]. assert (Pl : 0 < vlength (vsub (v_pos m d) (v_pos m v))).
  { apply Rlt_le_trans with (2 * / 10 ^ 12 * r); [|apply Big, A]. assert (T0 := tiny). apply Rmult_lt_0_compat; [|exact P]. lra. }
  exists d, l. split; [exact Nb|]. split; [exact A|]. split; [exact Uu|]. split; [exact Su|]. split; [rewrite En; apply normalize_of; assumption|]. split; [rewrite En; exact Sn|]. split; [exact Pl|].
  assert (Ed := sphere_edge (v_pos m v) (v_pos m d) o (n v) r P (sp_on m o r S v Hv) (sp_on m o r S d (proj2 (adj_in m v d W A))) Sn).
  rewrite <- vlength_sq in Ed. rewrite <- Su, dot_scale_r in Ed at 1. set (len := vlength (vsub (v_pos m d) (v_pos m v))) in *.
  assert (UN : dot (fr_u F) (n v) = - (len / (2 * r))).
  { apply (Rmult_eq_reg_l (2 * r * len)); [|apply Rgt_not_eq, Rmult_lt_0_compat; lra]. rewrite dot_sym. transitivity (2 * r * (len * dot (n v) (fr_u F))); [rg|]. rewrite Ed. rn. field. lra. }
  assert (VN : dot (fr_v F) (n v) = 0 /\ dot (fr_u F) (fr_v F) = 0).
  { apply nonzero_len in Nz. rewrite (dot_sym (fr_u F)). split; (apply (scale_orth (vlength (cross (n v) (fr_u F)))); [exact Nz|]); rewrite Sv; [apply cross_orth1|apply cross_orth2]. }
  destruct VN as [VN UV]. apply unit_dot in Uu, Uv, Un.
  assert (FK : forall k x y, In k K -> form (G (fst k)) (T (fst k)) (snd (snd k) x) (snd (snd k) y) = / r * (dot x y - dot x (n v) * dot y (n v))).
  { intros [f [w Q]] x y Ik. cbn [fst snd]. destruct (K3 f w Q Ik) as (_ & _ & CQ). assert (If : In f (map fst K)) by (apply in_map_iff; exists (f, (w, Q)); auto). apply K2 in If. destruct If as [If (b & c & Tf)].
    assert (Ib : In b (m_verts m) /\ In c (m_verts m) /\ adj m v b).
    { destruct Tf as (x1 & x2 & x3 & Tin & E1 & E2 & E3 & S1 & S2 & S3). assert (I1 : In x1 (m_hes m)) by (apply Tin; tauto). split; [apply (src_in m W x2 b); [apply Tin; tauto|exact S2]|]. split; [apply (src_in m W x3 c); [apply Tin; tauto|exact S3]|]. exists x1. split; [exact I1|]. split; [exact S1|]. rewrite (dst_next m x1 x2 W I1 E1). exact S2. }
    destruct Ib as (Ib & Ic & Ab). destruct (CF f v b c If Tf) as [FF BF]. assert (ET := sphere_tensor _ _ _ _ _ o _ _ _ r P FF BF Sn (proj2 (NR b Ib)) (proj2 (NR c Ic))). rewrite ET. destruct FF as [O Sc].
    apply sphere_form; [exact O|apply CQ|]. destruct (ca_to _ _ _ CQ) as [H | (Sm & _ & _)]; [exact H|]. exfalso.
    assert (EO : dot (vsub (v_pos m b) (v_pos m v)) (fr_n (G f)) = 0).
    { rewrite dot_sym. apply (scale_orth (vlength (cross (vsub (v_pos m b) (v_pos m v)) (vsub (v_pos m c) (v_pos m v))))); [assert (X := sp_nd m o r S f v b c If Tf); unfold tri_area in X; lra|]. rewrite Sc. apply cross_orth1. }
    assert (PB : 0 < vlength (vsub (v_pos m b) (v_pos m v))). { apply Rlt_le_trans with (2 * / 10 ^ 12 * r); [|apply Big, Ab]. assert (T0 := tiny). apply Rmult_lt_0_compat; [|exact P]. lra. }
    assert (SA := sphere_angle (n v) (fr_n (G f)) (vsub (v_pos m b) (v_pos m v)) r P Un (on_n _ O) EO (sphere_edge _ _ o _ r P (sp_on m o r S v Hv) (sp_on m o r S b Ib) Sn) PB (Big v b Ab)). lra. }
  assert (NE : K <> []).
  { intros ->. destruct A as (h & Ih & Sh & _). destruct (he_tri m h V Ih (C h Ih)) as (f & a0 & b & c & If & _ & Tf & _ & _ & _ & Sa & _). assert (a0 = v) by congruence. subst a0. assert (X : In f (map fst (@nil (nat * (R * (vecR -> vecR)))))) by (apply K2; split; [exact If|exists b, c; exact Tf]). destruct X. }
  assert (PK : forall k, In k K -> 0 < fst (snd k)) by (intros [f [w Q]] Ik; apply (K3 f w Q Ik)).
  cbv zeta in K4. destruct K4 as (E0 & E1 & E2).
  rewrite (mean_const (fun k => fst (snd k)) _ K _ NE PK (fun k Ik => FK k (fr_u F) (fr_u F) Ik)) in E0.
  rewrite (mean_const (fun k => fst (snd k)) _ K _ NE PK (fun k Ik => FK k (fr_u F) (fr_v F) Ik)) in E1.
  rewrite (mean_const (fun k => fst (snd k)) _ K _ NE PK (fun k Ik => FK k (fr_v F) (fr_v F) Ik)) in E2.
  rewrite Uu, UN in E0. rewrite UV, VN in E1. rewrite Uv, VN in E2. apply tensor_eq; cbn [t00 t01 t11]; [rewrite E0|rewrite E1|rewrite E2]; rn; [field; lra|ring|ring].
Qed.
Notation SphereCurv := (TensorSpec.SphereCurv m o r).
Lemma sp_principal n T G L i v x : CurvTensors m n T G L -> nth_error (m_verts m) i = Some v -> nth_error L i = Some x ->
  exists y, principal (N := NumR) (t00 (fst x)) (t01 (fst x)) (t11 (fst x)) (fr_u (snd x)) (fr_v (snd x)) (fr_n (snd x)) = Some y /\ SphereCurv v y.
Proof.
  destruct x as [t F]. cbn [fst snd]. intros CT Ev Et. destruct (sp_vertex n T G L i v t F CT Ev Et) as (d & l & Nb & A & Uu & Su & Nv & Sn & Pl & ->). cbn [t00 t01 t11]. set (len := vlength (vsub (v_pos m d) (v_pos m v))) in *.
  assert (Pr : 0 < / r) by (apply Rinv_0_lt_compat, P). assert (Pq : 0 < (len / (2 * r)) ^ 2) by (apply pow_lt, Rdiv_lt_0_compat; lra).
  assert (Lt : / r * (1 - (len / (2 * r)) ^ 2) < / r) by (rewrite <- (Rmult_1_r (/ r)) at 2; apply Rmult_lt_compat_l; lra).
  rewrite (principal_diag _ _ _ _ _ Lt Nv). eexists. split; [reflexivity|]. unfold TensorSpec.SphereCurv. exists d, l. split; [exact Nb|]. cbv zeta. fold len. split; [field; lra|]. split; [field; lra|].
  destruct (Rltb (/ r - / r * (1 - (len / (2 * r)) ^ 2)) (/ 10 ^ 6)) eqn:B.
  - split; [auto|]. apply Rltb_lt in B. intros H. lra.
  - apply Rltb_false in B. split; [intros H; lra|]. intros _. split; [exact Su|]. destruct (normalize_some _ _ Nv) as (Pc & Uv & Sv). split; [apply unit_dot, Uv|].
    split; [apply (scale_orth _ _ _ Pc); rewrite Sv; apply cross_orth2|]. rewrite <- Sn. rewrite dot_scale_r. assert (Z : dot (fr_v F) (fr_n F) = 0) by (apply (scale_orth _ _ _ Pc); rewrite Sv; apply cross_orth1). rewrite Z. rg.
Qed.
Lemma sp_curv solve n T G L : getCurvatureTensors (N := NumR) cos sin solve m = Ok (L, m) -> CurvTensors m n T G L ->
  exists K, getPrincipalCurvatures (N := NumR) cos sin solve false m = Ok (K, m) /\ Forall2 SphereCurv (m_verts m) K.
Proof.
  intros E CT. unfold getPrincipalCurvatures. rewrite (bind_ok _ _ _ _ _ E), bind_ret.
  assert (HL := ct_length _ _ _ _ _ CT). assert (AT : forall i v x, nth_error (m_verts m) i = Some v -> nth_error L i = Some x -> exists y, principal (N := NumR) (t00 (fst x)) (t01 (fst x)) (t11 (fst x)) (fr_u (snd x)) (fr_v (snd x)) (fr_n (snd x)) = Some y /\ SphereCurv v y) by (intros i v x; apply sp_principal with n T G; exact CT).
  clear E CT. revert HL AT. generalize (m_verts m). induction L as [|x L IH]; intros vs HL AT; destruct vs as [|v vs]; try discriminate HL.
  - exists []. split; [reflexivity|constructor].
  - destruct (AT 0%nat v x eq_refl eq_refl) as (y & Ey & Sy). destruct (IH vs) as (K & EK & FK); [injection HL as HL; exact HL|intros i w z Ew Ez; apply (AT (Datatypes.S i) w z Ew Ez)|].
    exists (y :: K). split; [|constructor; assumption]. cbn [mmap]. rewrite Ey. cbn [lift]. rewrite bind_ret. rewrite (bind_ok _ _ _ _ _ EK). reflexivity.
Qed.
Theorem sphere_curv solve : ExactSolver solve -> (exists K, getPrincipalCurvatures (N := NumR) cos sin solve false m = Ok (K, m) /\ Forall2 SphereCurv (m_verts m) K) \/ getPrincipalCurvatures (N := NumR) cos sin solve false m = Abort AThrow.
Proof.
  intros HS. destruct (tensors_ok solve m HS V C (sp_nd m o r S)) as [(L & n & T & G & E & CT) | E]; [left; exact (sp_curv solve n T G L E CT)|].
  right. unfold getPrincipalCurvatures, bind. rewrite E. reflexivity.
Qed.
(** If neighbours are not too far apart, nothing throws. *)
Definition Spread : Prop := forall v l w, In v (m_verts m) -> v_neighbors (Some v) m = Ok (l, m) -> In (Some w) l -> - (r * r) <= INR (length l) * dot (vsub (v_pos m v) o) (vsub (v_pos m w) o) /\ vlength (vsub (v_pos m w) (v_pos m v)) < 2 * r.
Lemma sphere_gentle : Spread -> Gentle m (nrm m).
Proof.
  intros Near. assert (Rr : 0 < r * r) by (apply Rmult_lt_0_compat; exact P).
  assert (NR : forall w, In w (m_verts m) -> v_normal (Some w) m = Ok (nrm m w, m) /\ vlength (nrm m w) = 1 /\ vscale r (nrm m w) = vsub (v_pos m w) o).
  { intros w Hw. destruct (sp_normal m o r w V C S Hw) as (x & Ex & Ux & Sx). unfold nrm. rewrite Ex. auto. }
  assert (NB : forall v l w, In v (m_verts m) -> v_neighbors (Some v) m = Ok (l, m) -> In (Some w) l -> adj m v w).
  { intros v l w Hv El Iw. destruct (vring m W v Hv) as (h & k & Eh & Hr). rewrite (v_neighbors_ok m W v h k Hv Eh Hr) in El. injection El as <-. change (In (Some w) (map (dst_of m) (h :: k))) in Iw. apply in_map_iff in Iw.
    destruct Iw as (y & Dy & Iy). destruct Hr as (_ & _ & Hin). apply Hin in Iy. exists y. tauto. }
  constructor.
    - intros v Hv. apply NR, Hv.
    - intros f v b c If T. assert (Hv : In v (m_verts m)) by (destruct T as (x & y & z & Hin & _ & _ & _ & Sx & _); apply (src_in m W x v); [apply Hin; tauto|exact Sx]). destruct (NR v Hv) as (_ & _ & Sn).
      assert (Out := sp_out m o r S f v b c If T). rewrite <- Sn, dot_scale_r, dot_sym in Out. apply (Rmult_lt_reg_l r); [exact P|]. rewrite Rmult_0_r. exact Out.
    - intros v w A Z. destruct (adj_in m v w W A) as [Hv Hw]. destruct (NR v Hv) as (_ & Un & Sn). assert (Ed := sphere_edge _ _ o _ r P (sp_on m o r S v Hv) (sp_on m o r S w Hw) Sn).
      assert (Par := cross_zero_par _ _ Un Z). set (e := vsub (v_pos m w) (v_pos m v)) in *. apply unit_dot in Un. assert (E2 : dot e e = dot (nrm m v) e * dot (nrm m v) e) by (rewrite Par at 1 2; rewrite dot_scale, dot_scale_r, Un; rg).
      destruct (vring m W v Hv) as (h & k & Eh & Hr). assert (Iw : In (Some w) (map (dst_of m) (h :: k))) by (destruct A as (y & Iy & Sy & Dy); rewrite <- Dy; apply in_map; destruct Hr as (_ & _ & Hin); apply Hin; auto).
      destruct (Near v _ w Hv (v_neighbors_ok m W v h k Hv Eh Hr) Iw) as [_ Far]. fold e in Far. assert (L0 := vlength_pos e). assert (L2 := vlength_sq e). rewrite <- L2 in Ed, E2. 
      assert (PB : 0 < vlength e). { apply Rlt_le_trans with (2 * / 10 ^ 12 * r); [|apply Big, A]. assert (T0 := tiny). apply Rmult_lt_0_compat; [|exact P]. lra. }
      set (x := vlength e) in *. set (y := dot (nrm m v) e) in *. change (@num NumR) with R in *. rn. clearbody x y. clear - Ed E2 Far PB P. assert (Py : (x - y) * (x + y) = 0) by lra. destruct (Rmult_integral _ _ Py) as [Q | Q].
      + assert (y = x) by lra. subst y. assert (0 < r * x) by (apply Rmult_lt_0_compat; assumption). assert (0 < x * x) by (apply Rmult_lt_0_compat; assumption). lra.
      + assert (y = - x) by lra. subst y. assert (x * (x - 2 * r) = 0) by lra. destruct (Rmult_integral _ _ H); lra.
    - intros v l w Hv El Iw. assert (A := NB v l w Hv El Iw). destruct (Near v l w Hv El Iw) as [Q _]. destruct (NR v Hv) as (_ & _ & S1). destruct (NR w (proj2 (adj_in m v w W A))) as (_ & _ & S2). rewrite <- S1, <- S2, dot_scale, dot_scale_r in Q.
      apply (Rmult_le_reg_l (r * r)); [exact Rr|]. change (@num NumR) with R in *. lra.
Qed.
Theorem sphere_total solve : ExactSolver solve -> Spread -> exists K, getPrincipalCurvatures (N := NumR) cos sin solve false m = Ok (K, m) /\ Forall2 SphereCurv (m_verts m) K.
Proof.
  intros HS Near. destruct (tensors_total solve m (nrm m) HS V C (sp_nd m o r S) (sphere_gentle Near)) as (L & n & T & G & E & CT). exact (sp_curv solve n T G L E CT).
Qed.
End Sphere.
