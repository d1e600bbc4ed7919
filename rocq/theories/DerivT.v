(** getPrincipalCurvaturesWithDerivatives on closed surfaces of triangles. *)
From Coq Require Import Reals Lra Lia List ZArith Bool Arith Permutation.
From Verif Require Import Num NumInst Vec Heap Mesh Spec Orbit Rings Exec Queries GeomSpec VecR Measure MeasureR MeasureM Means SmoothSpec Curv CurvN CurvW LinR Features FeaturesR Tensor TensorSpec TensorR TensorM TensorS Deriv DerivSpec DerivR DerivM LaplP L0T L0W.
Import ListNotations.
Local Open Scope mesh_scope.
Local Open Scope R_scope.
Implicit Types m : mesh NumR.

(** The frames of the vertices. *)
Record GoodFrame (n : vecR) (F : frame NumR) : Prop := {
  gf_n : fr_n F = n; gf_u : vlength (fr_u F) = 1; gf_v : vlength (fr_v F) = 1; gf_uv : dot (fr_u F) (fr_v F) = 0; gf_nv : dot n (fr_v F) = 0;
  gf_c : cross n (fr_u F) <> vzero; gf_s : vscale (vlength (cross n (fr_u F))) (fr_v F) = cross n (fr_u F) }.
Lemma good_of m n T G v t F : AtVertex m n T G v t F -> GoodFrame (n v) F.
Proof.
  intros [(En & d & l & _ & Uu & _ & Cn & Uv & Sv) _]. assert (P : 0 < vlength (cross (n v) (fr_u F))) by (apply nonzero_len, Cn). constructor; auto.
  - rewrite dot_sym. apply (scale_orth _ _ _ P). rewrite Sv. dring.
  - rewrite dot_sym. apply (scale_orth _ _ _ P). rewrite Sv. dring.
Qed.
Lemma bf3_rot F t (a b c : vecR) Ba Bb Bc : BestFit3 F t a b c Ba Bb Bc -> BestFit3 F t b c a Bb Bc Ba.
Proof.
  unfold BestFit3. cbv zeta. intros H t' Ne. specialize (H t' Ne). unfold total_misfit3 in *. cbn [map fold_right] in *. change (@num NumR) with R in *. lra.
Qed.
Section Thr.
Variable thr : Prop.
Variable solve : nat -> (nat -> nat -> R) -> (nat -> R) -> nat -> R.
Hypothesis HS : ExactSolver solve.
Variable m : mesh NumR.
Hypothesis V : Valid m.
Hypothesis C : Closed m.
Hypothesis ND : NonDegenerate m.
Let W := valid_wf m V.
Variable n : nat -> vecR.
Hypothesis GT : thr \/ Gentle m n.
Hypothesis Un : forall v, In v (m_verts m) -> vlength (n v) = 1.
Notation tabf := (tabf m).

Definition p0 : pc NumR := (0, 0, vzero, vzero).
Definition princ (x : tensor NumR * frame NumR) : option (pc NumR) := @principal NumR (t00 (fst x)) (t01 (fst x)) (t11 (fst x)) (fr_u (snd x)) (fr_v (snd x)) (fr_n (snd x)).
Section Table.
Variable tf : list (tensor NumR * frame NumR).
Hypothesis Ltf : length tf = length (m_verts m).
Hypothesis GF : forall v, In v (m_verts m) -> GoodFrame (n v) (snd (tabf t0F tf v)).
Lemma tf_in x : In x tf -> exists v, In v (m_verts m) /\ tabf t0F tf v = x.
Proof. intros I. rewrite <- (tabf_map m V t0F tf Ltf) in I. apply in_map_iff in I. destruct I as (v & E & Iv). exists v. auto. Qed.
Lemma princ_ot : OT thr (mmap (fun x => lift (principal (t00 (fst x)) (t01 (fst x)) (t11 (fst x)) (fr_u (snd x)) (fr_v (snd x)) (fr_n (snd x)))) tf) m (Forall2 (fun x y => princ x = Some y) tf).
Proof.
  apply ot_mmap. intros x Ix. destruct (tf_in x Ix) as (v & Iv & Ex). destruct (GF v Iv) as [Gn Gu Gv Guv Gnv Gc Gs]. rewrite Ex in *.
  assert (Unv := Un v Iv). rewrite <- Gn in Gnv, Gc, Gs, Unv.
  destruct (principal_some (t00 (fst x)) (t01 (fst x)) (t11 (fst x)) (fr_u (snd x)) (fr_v (snd x)) (fr_n (snd x))) as [y Ey]; [apply unit_dot, Gv|apply unit_dot, Unv|exact Gnv|exact Gc|exact Gs|].
  apply ot_lift; [intros z Ez; exact Ez|]. intros X. change (princ x = None) in X. change (princ x = Some y) in Ey. congruence.
Qed.
Variable K : list (pc NumR).
Hypothesis HK : Forall2 (fun x y => princ x = Some y) tf K.
Lemma LK : length K = length (m_verts m).
Proof. rewrite <- Ltf. exact (proj1 (forall2_nth _ _ _ HK)). Qed.
Lemma K_at v : In v (m_verts m) -> princ (tabf t0F tf v) = Some (tabf p0 K v).
Proof.
  intros Iv. destruct (idx_nth m V v Iv) as (i & Ei & _). destruct (nth_ex _ tf i v Ltf Ei) as [x Ex]. destruct (nth_ex _ K i v LK Ei) as [y Ey].
  rewrite (tabf_nth m V t0F tf i v x Ei Ex), (tabf_nth m V p0 K i v y Ei Ey). exact (proj2 (forall2_nth _ _ _ HK) i x y Ex Ey).
Qed.
Notation Kt := (combine K (map (fun x => fr_n (snd x)) tf)).
Notation P v := (tabf p0 K v).
Lemma combine_nth_error {X Y} (a : list X) (b : list Y) i x y : nth_error a i = Some x -> nth_error b i = Some y -> nth_error (combine a b) i = Some (x, y).
Proof. revert a b. induction i as [|i IH]; intros [|x' a] [|y' b]; cbn; try discriminate; [congruence|apply IH]. Qed.
Lemma Kt_get v : In v (m_verts m) -> tab_at (N := NumR) Kt (v_idx m v) m = Ok ((P v, n v), m).
Proof.
  intros Iv. destruct (idx_nth m V v Iv) as (i & Ei & Ex0). destruct (nth_ex _ tf i v Ltf Ei) as [x Ex]. destruct (nth_ex _ K i v LK Ei) as [y Ey]. rewrite Ex0.
  assert (Gn := gf_n _ _ (GF v Iv)). rewrite (tabf_nth m V t0F tf i v x Ei Ex) in Gn. rewrite (tabf_nth m V p0 K i v y Ei Ey).
  apply tab_ok. apply combine_nth_error; [exact Ey|]. rewrite nth_error_map, Ex. cbn [option_map]. rewrite Gn. reflexivity.
Qed.

(** ** Faces *)
Definition FaceD (f : nat) (x : cubic NumR * frame NumR) : Prop := forall a b c, Spec.Tri m f a b c -> FaceFrame (snd x) (v_pos m a) (v_pos m b) (v_pos m c) /\
  exists Ba Bb Bc, AtCorner (snd x) (n a) (P a) Ba /\ AtCorner (snd x) (n b) (P b) Bb /\ AtCorner (snd x) (n c) (P c) Bc /\ BestFit3 (snd x) (fst x) (v_pos m a) (v_pos m b) (v_pos m c) Ba Bb Bc.
Lemma corner_ot f v b c F : In f (m_faces m) -> Spec.Tri m f v b c -> In v (m_verts m) -> FaceFrame F (v_pos m v) (v_pos m b) (v_pos m c) ->
  OT thr (lift (corner_form (N := NumR) cos sin F (P v) (n v))) m (fun t => exists B, AtCorner F (n v) (P v) B /\ entries F B t).
Proof.
  intros If T Iv HF. apply ot_lift.
  - intros t Et. apply (corner_ok F (P v) (n v) t (proj1 HF) (Un v Iv) Et).
  - intros X. destruct GT as [t | Ge]; [exact t|]. exfalso. destruct (corner_some F (P v) (n v) (proj1 HF) (Un v Iv)) as [t Et]; [rewrite dot_sym; exact (front_pos m n f v b c F If T HF Ge)|congruence].
Qed.
Lemma face_deriv_ot f : In f (m_faces m) -> OT thr (face_deriv (N := NumR) cos sin solve Kt (Some f)) m (FaceD f).
Proof.
  intros If. destruct (valid_face_tri m f V C If) as (x & y & z & a & b & c & _ & T & Nab & Nbc & Nca & _).
  destruct (tri_face_ring m f a b c W If T Nab Nbc Nca) as (h & l & Eh & Hr & Ia & Ib & Ic & E). assert (FV := f_vertices_ok m W f h l If Eh Hr).
  assert (X : exists a b c, Spec.Tri m f a b c /\ In a (m_verts m) /\ In b (m_verts m) /\ In c (m_verts m) /\ f_vertices (Some f) m = Ok ([Some a; Some b; Some c], m)).
  { destruct E as [E | [E | E]]; rewrite E in FV; [exists a, b, c|exists b, c, a|exists c, a, b]; repeat split; auto; [apply tri_rot, T|apply tri_rot, tri_rot, T]. }
  clear a b c T Nab Nbc Nca Ia Ib Ic E FV h l Eh Hr x y z. destruct X as (a & b & c & T & Ia & Ib & Ic & FV).
  assert (P1 := ND f a b c If T). assert (P2 : 0 < vlength (cross (vsub (v_pos m b) (v_pos m a)) (vsub (v_pos m c) (v_pos m a)))) by (unfold tri_area in P1; lra).
  destruct (frame_ok _ _ _ P2) as (F & EF & HF).
  unfold face_deriv. apply (ot_get thr _ _ _ m _ FV). cbv iota.
  apply (ot_get thr _ _ _ m _ (pos_read m a W Ia)). apply (ot_get thr _ _ _ m _ (pos_read m b W Ib)). apply (ot_get thr _ _ _ m _ (pos_read m c W Ic)).
  apply (ot_get thr _ _ _ m _ (r_vidx m a (v_alive m W _ Ia))). apply (ot_get thr _ _ _ m _ (r_vidx m b (v_alive m W _ Ib))). apply (ot_get thr _ _ _ m _ (r_vidx m c (v_alive m W _ Ic))).
  rewrite EF. cbn [lift]. apply (ot_get thr _ _ F m _ eq_refl).
  apply (ot_get thr _ _ _ m _ (Kt_get a Ia)). cbn [fst snd]. eapply ot_bind; [apply (corner_ot f a b c F If T Ia HF)|]. intros m0 (B0 & AB0 & EB0).
  apply (ot_get thr _ _ _ m _ (Kt_get b Ib)). cbn [fst snd]. eapply ot_bind; [apply (corner_ot f b c a F If (tri_rot m f a b c T) Ib (ff_rot _ _ _ _ HF))|]. intros m1 (B1 & AB1 & EB1).
  apply (ot_get thr _ _ _ m _ (Kt_get c Ic)). cbn [fst snd]. eapply ot_bind; [apply (corner_ot f c a b F If (tri_rot m f b c a (tri_rot m f a b c T)) Ic (ff_rot _ _ _ _ (ff_rot _ _ _ _ HF)))|]. intros m2 (B2 & AB2 & EB2).
  apply ot_ret. intros a' b' c' T'. cbn [fst snd]. assert (Bf := fit4_best solve F _ _ _ B0 B1 B2 m0 m1 m2 HS HF P2 EB0 EB1 EB2). match type of Bf with BestFit3 _ ?x _ _ _ _ _ _ => set (t := x) in * end. clearbody t.
  destruct (tri_rotation m f a b c a' b' c' T T') as [(<- & <- & <-) | [(<- & <- & <-) | (<- & <- & <-)]].
  - split; [exact HF|]. exists B0, B1, B2. auto.
  - split; [apply ff_rot, ff_rot, HF|]. exists B2, B0, B1. split; [exact AB2|split; [exact AB0|split; [exact AB1|apply bf3_rot, bf3_rot, Bf]]].
  - split; [apply ff_rot, HF|]. exists B1, B2, B0. split; [exact AB1|split; [exact AB2|split; [exact AB0|apply bf3_rot, Bf]]].
Qed.
Definition d0F : cubic NumR * frame NumR := (Cb (N := NumR) 0 0 0 0, Fr (N := NumR) vzero vzero vzero).
Definition tabff {X} (d : X) (L : list X) (f : nat) : X := nth (Z.to_nat (f_idx m f)) L d.
Lemma tabff_get {X} (d : X) L f : length L = length (m_faces m) -> In f (m_faces m) -> tab_at (N := NumR) L (f_idx m f) m = Ok (tabff d L f, m).
Proof.
  intros E Hf. destruct (fidx_nth m V f Hf) as (i & Ei & Ex). destruct (nth_ex _ L i f E Ei) as [x Hx]. unfold tabff. rewrite Ex, Nat2Z.id, (nth_error_nth L i d Hx). exact (tab_ok L i x m Hx).
Qed.
Section Faces.
Variable ft : list (cubic NumR * frame NumR).
Hypothesis Hft : Forall2 FaceD (m_faces m) ft.
Lemma Lft : length ft = length (m_faces m). Proof. exact (proj1 (forall2_nth _ _ _ Hft)). Qed.
Notation D f := (tabff d0F ft f).
Lemma D_at f : In f (m_faces m) -> FaceD f (D f).
Proof.
  intros Hf. destruct (fidx_nth m V f Hf) as (i & Ei & Ex). destruct (nth_ex _ ft i f Lft Ei) as [x Hx]. unfold tabff. rewrite Ex, Nat2Z.id, (nth_error_nth ft i d0F Hx). exact (proj2 (forall2_nth _ _ _ Hft) i f x Ei Hx).
Qed.

(** ** Vertices *)
Notation fos f := (fold_right Rplus 0 f).
Definition Contrib3 (v : nat) (F : frame NumR) (a : cubic NumR * R) (y : nat) (b : cubic NumR * R) : Prop :=
  exists w Rm, v_volonoiIn (Some v) (Some (face_of m y)) m = Ok (w, m) /\ 0 < w /\ Carries (mapp (N := NumR) Rm) (n v) (fr_n (snd (D (face_of m y)))) /\
    b = (cadd (N := NumR) (fst a) (cscale (N := NumR) w (carried3 (N := NumR) Rm F (fst (D (face_of m y))) (snd (D (face_of m y))))), snd a + w).
Lemma steps_sum3 v F : forall l a b, steps (Contrib3 v F) a l b -> exists K : list (nat * (R * (vecR -> vecR))),
  map fst K = map (face_of m) l /\ (forall f w Q, In (f, (w, Q)) K -> v_volonoiIn (Some v) (Some f) m = Ok (w, m) /\ 0 < w /\ Carries Q (n v) (fr_n (snd (D f)))) /\
  let S (x y z : vecR) := fos (map (fun k => fst (snd k) * cform (snd (D (fst k))) (fst (D (fst k))) (snd (snd k) x) (snd (snd k) y) (snd (snd k) z)) K) in
  c0 (fst b) = c0 (fst a) + S (fr_u F) (fr_u F) (fr_u F) /\ c1 (fst b) = c1 (fst a) + S (fr_u F) (fr_u F) (fr_v F) /\ c2 (fst b) = c2 (fst a) + S (fr_u F) (fr_v F) (fr_v F) /\ c3 (fst b) = c3 (fst a) + S (fr_v F) (fr_v F) (fr_v F) /\
  snd b = snd a + fos (map (fun k => fst (snd k)) K).
Proof.
  induction 1 as [a|a y b l c (w & Rm & E1 & E2 & E3 & ->) _ IH].
  - exists []. split; [reflexivity|]. split; [intros f w Q []|]. cbn [map fold_right fst snd]. change (@num NumR) with R. repeat split; symmetry; apply Rplus_0_r.
  - destruct IH as (K' & EK & PK & S0 & S1 & S2 & S3 & S4). exists ((face_of m y, (w, mapp (N := NumR) Rm)) :: K'). split; [cbn [map fst]; rewrite EK; reflexivity|]. split.
    + intros f w' Q [H | H]; [injection H as <- <- <-; auto|apply PK, H].
    + cbv zeta in *. cbn [map fold_right fst snd cadd cscale carried3 c0 c1 c2 c3] in *. rewrite !third_form in *. rn. change (@num NumR) with R in *.
      split; [rewrite S0; ring|]. split; [rewrite S1; ring|]. split; [rewrite S2; ring|]. split; [rewrite S3; ring|]. rewrite S4. ring.
Qed.
(** A trilinear form at a vector of the plane, from its four coefficients. *)
Lemma cube_expand (G0 : frame NumR) (k : cubic NumR) (Q : vecR -> vecR) (u v : vecR) (p q : R) : Rotation Q ->
  cform G0 k (Q (vadd (vscale p u) (vscale q v))) (Q (vadd (vscale p u) (vscale q v))) (Q (vadd (vscale p u) (vscale q v))) =
  p * p * p * cform G0 k (Q u) (Q u) (Q u) + 3 * (p * p * q) * cform G0 k (Q u) (Q u) (Q v) + 3 * (p * q * q) * cform G0 k (Q u) (Q v) (Q v) + q * q * q * cform G0 k (Q v) (Q v) (Q v).
Proof.
  intros [Ra Rs _ _]. rewrite Ra, !Rs. unfold cform. cbv zeta. rewrite !dot_add, !dot_scale.
  generalize (dot (Q u) (fr_u G0)), (dot (Q u) (fr_v G0)), (dot (Q v) (fr_u G0)), (dot (Q v) (fr_v G0)), (c0 k), (c1 k), (c2 k), (c3 k). intros. rn. change (@num NumR) with R in *. ring.
Qed.
Lemma fos_lin {X} (K' : list X) (f g h i : X -> R) (a b c d : R) : fos (map (fun k => a * f k + b * g k + c * h k + d * i k) K') = a * fos (map f K') + b * fos (map g K') + c * fos (map h K') + d * fos (map i K').
Proof. induction K' as [|x K' IH]; cbn [map fold_right]; [ring|]. rewrite IH. ring. Qed.
Lemma vertex_deriv_ot v F : In v (m_verts m) -> GoodFrame (n v) F -> OT thr (vertex_deriv (N := NumR) cos sin ft (Some v) F (P v)) m
  (fun e => (exists p q : R, t_max (N := NumR) (P v) = vadd (vscale p (fr_u F)) (vscale q (fr_v F))) -> VertexDeriv m n F (P v) (fun f => fst (D f)) (fun f => snd (D f)) v e).
Proof.
  intros Hv [Gn Gu Gv Guv Gnv Gc Gs]. unfold vertex_deriv. rewrite Gn.
  destruct (vring m W v Hv) as (h & l & Eh & Hr). assert (Hin := Hr). destruct Hin as (_ & Nd & Hin).
  eapply ot_bind; [apply (ot_circ thr m v h l _ (Contrib3 v F) _ W Hv Eh Hr)|].
  - intros y a Iy Sy. assert (B := C y Iy). destruct (he_tri m y V Iy B) as (f & a0 & b & c & If & Ff & T & Nab & Nbc & Nca & Sa & Db & Pc). assert (a0 = v) by congruence. subst a0.
    apply (ot_get thr _ _ _ m _ (r_face m y (h_alive m W _ Iy))). rewrite Ff. apply (ot_get thr _ _ _ m _ (r_fidx m f (f_alive m W _ If))).
    apply (ot_get thr _ _ _ m _ (tabff_get d0F ft f Lft If)). destruct (D_at f If v b c T) as [FF _].
    eapply ot_bind; [apply (ot_lift thr _ m (fun Rm => rotationFromTwoVectors (N := NumR) cos sin (n v) (fr_n (snd (D f))) = Some Rm)); [auto|]|].
    { intros Nn. destruct GT as [t | Ge]; [exact t|]. exfalso. destruct (rot_some (n v) (fr_n (snd (D f)))) as [Rm ER]; [exact (Un v Hv)|apply unit_dot, (on_n _ (proj1 FF))|exact (front_pos m n f v b c _ If T FF Ge)|congruence]. }
    intros Rm ER. apply (ot_get thr _ _ _ m _ (volonoiIn_ok m f v b c W If T Nab Nbc Nca)). apply ot_ret. cbn [fst snd]. split; [reflexivity|].
    assert (Fo : face_of m y = f) by (unfold face_of; rewrite Ff; reflexivity). unfold Contrib3. rewrite Fo.
    exists (Measure.corner_area (v_pos m v) (v_pos m b) (v_pos m c)), Rm. split; [exact (volonoiIn_ok m f v b c W If T Nab Nbc Nca)|]. split; [apply corner_pos, (ND f v b c If T)|]. split; [|reflexivity].
    apply rot_ok; [exact (Un v Hv)|apply unit_dot, (on_n _ (proj1 FF))|exact ER].
  - intros s St. apply ot_ret. destruct (steps_sum3 v F _ _ _ St) as (K' & EK & PK & S0 & S1 & S2 & S3 & S4). intros (p & q & Etm).
    exists K'. destruct (faces_at (fun _ => tt) m v V (closed_inner m v C)) as (F1 & F2 & _). rewrite map_map in F1, F2. cbn [fst] in F1, F2.
    assert (Pm : Permutation (map (face_of m) (h :: l)) (map (face_of m) (at_v m v))) by (apply Permutation_map, NoDup_Permutation; [exact Nd|apply NoDup_filter, (wf_h_nodup m W)|]; intros y; rewrite Hin, at_v_in; reflexivity).
    split; [rewrite EK; apply (Permutation_NoDup (Permutation_sym Pm)), F1|]. split.
    { intros f. rewrite EK, <- F2. split; apply Permutation_in; [exact Pm|apply Permutation_sym, Pm]. }
    split; [exact PK|]. cbv zeta in *. cbn [fst snd czero c0 c1 c2 c3] in *.
    assert (X : forall x, thirdForm (N := NumR) (cdiv (N := NumR) (fst s) (snd s)) (in_frame (N := NumR) x F) (in_frame (N := NumR) x F) (in_frame (N := NumR) x F) =
      fos (map (fun k => fst (snd k) * cform (snd (D (fst k))) (fst (D (fst k))) (snd (snd k) (in_plane F x)) (snd (snd k) (in_plane F x)) (snd (snd k) (in_plane F x))) K') / fos (map (fun k => fst (snd k)) K')).
    { intros x. rewrite third_form. unfold cform at 1, in_plane. cbv zeta. set (px := dot x (fr_u F)). set (qx := dot x (fr_v F)).
      assert (Ex : map (fun k => fst (snd k) * cform (snd (D (fst k))) (fst (D (fst k))) (snd (snd k) (vadd (vscale px (fr_u F)) (vscale qx (fr_v F)))) (snd (snd k) (vadd (vscale px (fr_u F)) (vscale qx (fr_v F)))) (snd (snd k) (vadd (vscale px (fr_u F)) (vscale qx (fr_v F))))) K' =
        map (fun k => px * px * px * (fst (snd k) * cform (snd (D (fst k))) (fst (D (fst k))) (snd (snd k) (fr_u F)) (snd (snd k) (fr_u F)) (snd (snd k) (fr_u F))) + 3 * (px * px * qx) * (fst (snd k) * cform (snd (D (fst k))) (fst (D (fst k))) (snd (snd k) (fr_u F)) (snd (snd k) (fr_u F)) (snd (snd k) (fr_v F)))
          + 3 * (px * qx * qx) * (fst (snd k) * cform (snd (D (fst k))) (fst (D (fst k))) (snd (snd k) (fr_u F)) (snd (snd k) (fr_v F)) (snd (snd k) (fr_v F))) + qx * qx * qx * (fst (snd k) * cform (snd (D (fst k))) (fst (D (fst k))) (snd (snd k) (fr_v F)) (snd (snd k) (fr_v F)) (snd (snd k) (fr_v F)))) K').
      { apply map_ext_in. intros [f [w Q]] Ik. cbn [fst snd]. destruct (PK f w Q Ik) as (_ & _ & CQ). rewrite (cube_expand _ _ Q (fr_u F) (fr_v F) px qx (ca_rot _ _ _ CQ)). rn. change (@num NumR) with R in *. ring. }
      rewrite Ex, fos_lin. clear Ex. unfold cdiv. cbn [c0 c1 c2 c3] in *. rn. change (@num NumR) with R in *. rewrite S0, S1, S2, S3, S4. rewrite !Rplus_0_l. clearbody px qx. unfold Rdiv. ring. }
    split; [|exact (X (t_min (P v)))]. specialize (X (t_max (P v))). rewrite Etm, (in_plane_span F p q) in X; [rewrite Etm; exact X|apply unit_dot, Gu|apply unit_dot, Gv|exact Guv].
Qed.
End Faces.
End Table.
End Thr.
