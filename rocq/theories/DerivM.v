(** smoothingTensors and getPrincipalCurvaturesWithDerivatives on closed surfaces of triangles. *)
From Coq Require Import Reals Lra Lia List ZArith Bool Arith Permutation.
From Verif Require Import Num NumInst Vec Heap Mesh Spec Orbit Rings Exec Queries GeomSpec VecR Measure MeasureR MeasureM Means SmoothSpec Curv CurvN CurvW LinR Features FeaturesR Tensor TensorSpec TensorR TensorM TensorS Deriv DerivSpec DerivR LaplP L0T L0W.
Import ListNotations.
Local Open Scope mesh_scope.
Local Open Scope R_scope.
Implicit Types m : mesh NumR.

Lemma normalize_id (a : vecR) : vlength a = 1 -> normalize a = Some a.
Proof. intros U. apply normalize_of; [intros Z; apply unit_dot in U; rewrite Z in U; assert (X : dot (@Vec.vzero NumR) (@Vec.vzero NumR) = 0) by dring; change (@num NumR) with R in *; lra|exact U|rewrite U; vring]. Qed.
Lemma form_right (F0 : frame NumR) (t0 : tensor NumR) (x y : vecR) : formR (N := NumR) t0 (in_frame (N := NumR) x F0) (in_frame (N := NumR) y F0) = form F0 t0 x y.
Proof. unfold formR, in_frame, form. cbn [fst snd]. rn. change (@num NumR) with R. generalize (dot x (fr_u F0)), (dot x (fr_v F0)), (dot y (fr_u F0)), (dot y (fr_v F0)). intros. change (@num NumR) with R in *. ring. Qed.
Lemma unit_ge (a b : vecR) : vlength a = 1 -> vlength b = 1 -> dot a b <> -1 -> -1 < dot a b.
Proof.
  intros A B N. apply unit_dot in A, B. assert (P : 0 <= dot (vadd a b) (vadd a b)) by (rewrite <- vlength_sq; assert (Q := vlength_pos (vadd a b)); apply Rmult_le_pos; exact Q).
  assert (E : dot (vadd a b) (vadd a b) = dot a a + 2 * dot a b + dot b b) by dring. rewrite E, A, B in P. change (@num NumR) with R in *. lra.
Qed.
Section Thr.
Variable thr : Prop.
Variable solve : nat -> (nat -> nat -> R) -> (nat -> R) -> nat -> R.
Hypothesis HS : ExactSolver solve.
Variable m : mesh NumR.
Hypothesis V : Valid m.
Hypothesis C : Closed m.
Hypothesis ND : NonDegenerate m.
Let W := valid_wf m V.
Variable n : nat -> vecR.
Hypothesis GT : thr \/ Gentle m n.
Hypothesis Un : forall v, In v (m_verts m) -> vlength (n v) = 1.

(** ** Tables *)
Definition tabf {X} (d : X) (L : list X) (v : nat) : X := nth (Z.to_nat (v_idx m v)) L d.
Lemma tabf_nth {X} (d : X) L i v x : nth_error (m_verts m) i = Some v -> nth_error L i = Some x -> tabf d L v = x.
Proof. intros Ev Ex. unfold tabf. rewrite (proj1 (proj2 (wf_v_elem m W i v Ev))), Nat2Z.id. exact (nth_error_nth L i d Ex). Qed.
Lemma tabf_map {X} (d : X) L : length L = length (m_verts m) -> map (tabf d L) (m_verts m) = L.
Proof.
  intros E. apply nth_ext with d d; [rewrite map_length; auto|]. intros i Hi. rewrite map_length in Hi.
  destruct (nth_error (m_verts m) i) as [v|] eqn:Ev; [|apply nth_error_None in Ev; lia]. destruct (nth_ex _ L i v E Ev) as [x Ex].
  rewrite (nth_error_nth L i d Ex). apply (nth_error_nth (map (tabf d L) (m_verts m)) i d). rewrite nth_error_map, Ev. cbn [option_map]. f_equal. exact (tabf_nth d L i v x Ev Ex).
Qed.
Lemma tab_get {X} (d : X) L v : length L = length (m_verts m) -> In v (m_verts m) -> tab_at (N := NumR) L (v_idx m v) m = Ok (tabf d L v, m).
Proof.
  intros E Hv. destruct (idx_nth m V v Hv) as (i & Ei & Ex). destruct (nth_ex _ L i v E Ei) as [x Hx]. rewrite (tabf_nth d L i v x Ei Hx), Ex. exact (tab_ok L i x m Hx).
Qed.

(** ** Rotations between the normals of adjacent vertices, and of a vertex and a face *)
Lemma adj_rot v w : adj m v w -> rotationFromTwoVectors (N := NumR) cos sin (n v) (n w) = None -> thr.
Proof.
  intros A Nn. destruct GT as [t | Ge]; [exact t|]. exfalso. destruct (adj_in m v w W A) as [Iv Iw].
  destruct (rot_some (n v) (n w)) as [Q EQ]; [exact (Un v Iv)|exact (Un w Iw)| |congruence]. apply unit_ge; [exact (Un v Iv)|exact (Un w Iw)|]. intros D.
  destruct A as (h & Ih & Sh & Dh). destruct (he_tri m h V Ih (C h Ih)) as (f & a & b & c & If & Ff & T & Nab & Nbc & Nca & Sa & Db & Pc). assert (a = v) by congruence. assert (b = w) by congruence. subst a b.
  assert (G1 := ge_front m n Ge f v w c If T). assert (G2 := ge_front m n Ge f w c v If (tri_rot m f v w c T)).
  assert (E : cross (vsub (v_pos m c) (v_pos m w)) (vsub (v_pos m v) (v_pos m w)) = cross (vsub (v_pos m w) (v_pos m v)) (vsub (v_pos m c) (v_pos m v))) by vring. rewrite E in G2.
  assert (N : n v = vscale (-1) (n w)).
  { apply neg_eq; [apply unit_dot, Un, Iv| |]. - assert (U := Un w Iw). apply unit_dot in U. rewrite <- U. dring. - transitivity (-1 * dot (n v) (n w)); [dring|]. rewrite D. rg. }
  rewrite N, dot_scale in G1. change (@num NumR) with R in *. lra.
Qed.
Lemma front_pos f v b c (F : frame NumR) : In f (m_faces m) -> Spec.Tri m f v b c -> FaceFrame F (v_pos m v) (v_pos m b) (v_pos m c) -> Gentle m n -> -1 < dot (n v) (fr_n F).
Proof.
  intros If T [O Sc] Ge. assert (Q := ge_front m n Ge f v b c If T). rewrite <- Sc, dot_scale_r in Q. assert (P := vlength_pos (cross (vsub (v_pos m b) (v_pos m v)) (vsub (v_pos m c) (v_pos m v)))).
  apply Rlt_trans with 0; [lra|]. apply Rnot_le_lt. intros Le. assert (Q2 := Rmult_le_compat_l _ _ _ P Le). rewrite Rmult_0_r in Q2. change (@num NumR) with R in *. lra.
Qed.

(** ** Smoothing *)
Definition t0F : tensor NumR * frame NumR := (Tn (N := NumR) 0 0 0, Fr (N := NumR) vzero vzero vzero).
Section Smooth.
Variable L : list (tensor NumR * frame NumR).
Hypothesis HL : length L = length (m_verts m).
Notation A v := (tabf t0F L v).
Hypothesis HF : forall v, In v (m_verts m) -> fr_n (snd (A v)) = n v /\ vlength (fr_u (snd (A v))) = 1 /\ vlength (fr_v (snd (A v))) = 1.
Variable avg : R.
Definition wtR (v w : nat) : R := exp (- (1 / 2) * (vlength (vsub (v_pos m v) (v_pos m w)) / avg) ^ 2).
Lemma wt_eq v w : near_weight (N := NumR) avg (v_pos m v) (v_pos m w) = wtR v w.
Proof. unfold near_weight, wtR. cbv zeta. change (@nexp NumR) with exp. f_equal. set (d := @Vec.vlength NumR _). clearbody d. rn. change (@num NumR) with R in *. unfold Rdiv. ring. Qed.
Definition SmStep (v : nat) (a : tensor NumR * R) (y : nat) (b : tensor NumR * R) : Prop :=
  exists w Q, dst_of m y = Some w /\ Carries Q (n v) (n w) /\
   let F := snd (A v) in let g x z := form (snd (A w)) (fst (A w)) (Q x) (Q z) in
   t00 (fst b) = t00 (fst a) + wtR v w * g (fr_u F) (fr_u F) /\ t01 (fst b) = t01 (fst a) + wtR v w * g (fr_u F) (fr_v F) /\ t11 (fst b) = t11 (fst a) + wtR v w * g (fr_v F) (fr_v F) /\
   snd b = snd a + wtR v w.
Notation fos f := (fold_right Rplus 0 f).
Lemma sm_steps v : forall l a b, steps (SmStep v) a l b -> exists K : list (nat * (vecR -> vecR)),
  map (fun k => Some (fst k)) K = map (dst_of m) l /\ (forall w Q, In (w, Q) K -> Carries Q (n v) (n w)) /\
  let F := snd (A v) in
  let S (x y : vecR) := fos (map (fun k => wtR v (fst k) * form (snd (A (fst k))) (fst (A (fst k))) (snd k x) (snd k y)) K) in
  t00 (fst b) = t00 (fst a) + S (fr_u F) (fr_u F) /\ t01 (fst b) = t01 (fst a) + S (fr_u F) (fr_v F) /\ t11 (fst b) = t11 (fst a) + S (fr_v F) (fr_v F) /\
  snd b = snd a + fos (map (fun k => wtR v (fst k)) K).
Proof.
  induction 1 as [a|a y b l c (w & Q & Dw & HQ & E0 & E1 & E2 & E3) _ IH].
  - exists []. split; [reflexivity|]. split; [intros w Q []|]. cbn [map fold_right fst snd]. cbv zeta. change (@num NumR) with R. repeat split; symmetry; apply Rplus_0_r.
  - destruct IH as (K & EK & PK & S0 & S1 & S2 & S3). exists ((w, Q) :: K). split; [cbn [map fst]; rewrite EK, Dw; reflexivity|]. split.
    + intros w' Q' [H | H]; [injection H as <- <-; auto|apply PK, H].
    + cbv zeta in *. cbn [map fold_right fst snd] in *. change (@num NumR) with R in *.
      rewrite S0, S1, S2, S3, E0, E1, E2, E3. repeat split; ring.
Qed.
Lemma smooth_tensor_ot v : In v (m_verts m) -> OT thr (smooth_tensor (N := NumR) cos sin L avg (Some v)) m (Smoothed m avg n (fun w => A w) v).
Proof.
  intros Hv. unfold smooth_tensor. apply (ot_get thr _ _ _ m _ (r_vidx m v (v_alive m W _ Hv))). apply (ot_get thr _ _ _ m _ (tab_get t0F L v HL Hv)). cbv zeta.
  destruct (vring m W v Hv) as (h & l & Eh & Hr). destruct (HF v Hv) as (Nv & Uu & Uv).
  eapply ot_bind; [apply (ot_circ thr m v h l _ (SmStep v) _ W Hv Eh Hr)|].
  - intros y a Iy Sy. destruct (dst_ptr m y W Iy) as (d & Dd & Id). assert (Ad : adj m v d) by (exists y; auto). destruct (HF d Id) as (Nd & _ & _).
    apply (ot_get thr _ _ _ m _ (dst_of_ok m W y Iy)). rewrite Dd. apply (ot_get thr _ _ _ m _ (pos_read m v W Hv)). apply (ot_get thr _ _ _ m _ (pos_read m d W Id)).
    apply (ot_get thr _ _ _ m _ (r_vidx m d (v_alive m W _ Id))). apply (ot_get thr _ _ _ m _ (tab_get t0F L d HL Id)). rewrite Nv, Nd.
    eapply ot_bind; [apply (ot_lift thr _ m (fun Q => rotationFromTwoVectors (N := NumR) cos sin (n v) (n d) = Some Q)); [auto|exact (adj_rot v d Ad)]|]. intros Q EQ.
    assert (CQ := rot_ok (n v) (n d) Q (Un v Hv) (Un d Id) EQ). destruct (ca_rot _ _ _ CQ) as [_ _ Rd _].
    assert (Nu : forall x, vlength x = 1 -> normalize (mapp (N := NumR) Q x) = Some (mapp (N := NumR) Q x)) by (intros x Ux; apply normalize_id, unit_dot; rewrite Rd; apply unit_dot, Ux).
    rewrite (Nu _ Uu), (Nu _ Uv). cbn [lift].
    apply (ot_get thr _ _ (mapp (N := NumR) Q (fr_u (snd (A v)))) m _ eq_refl). apply (ot_get thr _ _ (mapp (N := NumR) Q (fr_v (snd (A v)))) m _ eq_refl).
    apply ot_ret. split; [reflexivity|]. exists d, (mapp (N := NumR) Q). split; [exact Dd|]. split; [exact CQ|]. cbv zeta. cbn [fst snd tadd tscale t00 t01 t11]. rewrite !form_right, wt_eq. rn. repeat split.
  - intros s St. apply ot_ret. destruct (sm_steps v _ _ _ St) as (K & EK & PK & S0 & S1 & S2 & S3). cbv zeta in *. cbn [fst snd] in *.
    exists (map (dst_of m) (h :: l)), K. split; [exact (v_neighbors_ok m W v h l Hv Eh Hr)|]. split; [exact EK|]. split; [exact PK|]. cbv zeta. unfold tdiv. cbn [t00 t01 t11] in *. rn. change (@num NumR) with R in *. rewrite S0, S1, S2, S3. repeat split.
Qed.
End Smooth.
Lemma combine_snd {X Y} (a : list X) (b : list Y) : length a = length b -> map snd (combine a b) = b /\ map fst (combine a b) = a.
Proof. revert b. induction a as [|x a IH]; intros [|y b] E; try discriminate E; [auto|]. cbn in *. destruct (IH b) as [-> ->]; auto. Qed.
Lemma smoothing_ot L : length L = length (m_verts m) ->
  (forall v, In v (m_verts m) -> fr_n (snd (tabf t0F L v)) = n v /\ vlength (fr_u (snd (tabf t0F L v))) = 1 /\ vlength (fr_v (snd (tabf t0F L v))) = 1) ->
  OT thr (smoothingTensors (N := NumR) cos sin L) m (fun L' => exists avg, getMeanEdgeLength m = Ok (avg, m) /\ length L' = length (m_verts m) /\ map snd L' = map snd L /\
    forall v, In v (m_verts m) -> Smoothed m avg n (fun w => tabf t0F L w) v (fst (tabf t0F L' v))).
Proof.
  intros HL HF. unfold smoothingTensors. apply (ot_get thr _ _ _ m _ (eq_refl : get m_verts m = Ok (m_verts m, m))).
  destruct (meanEdgeLength_ok m W) as (reps & _ & Ea). apply (ot_get thr _ _ _ m _ Ea). match type of Ea with _ = Ok (?x, _) => set (avg := x : R) in * end.
  eapply ot_bind; [apply (ot_mmap thr _ (fun v t => Smoothed m avg n (fun w => tabf t0F L w) v t)); intros v Hv; apply smooth_tensor_ot; assumption|].
  intros ts Hts. apply ot_ret. exists avg. split; [exact Ea|]. destruct (forall2_nth _ _ _ Hts) as [Lt Pt].
  assert (Lc : length ts = length (map snd L)) by (rewrite map_length; congruence). assert (Lc2 : length (combine ts (map snd L)) = length (m_verts m)) by (rewrite combine_length, <- Lc; lia).
  split; [exact Lc2|]. split; [apply combine_snd, Lc|]. intros v Hv. destruct (idx_nth m V v Hv) as (i & Ei & _). destruct (nth_ex _ ts i v Lt Ei) as [t Et]. destruct (nth_ex _ (combine ts (map snd L)) i v Lc2 Ei) as [x Ex].
  rewrite (tabf_nth t0F _ i v x Ei Ex). assert (Ft : fst x = t). { assert (E := f_equal (fun l => nth_error l i) (proj2 (combine_snd _ _ Lc))). cbv beta in E. rewrite nth_error_map, Ex, Et in E. cbn in E. congruence. }
  rewrite Ft. exact (Pt i v t Ei Et).
Qed.
End Thr.
