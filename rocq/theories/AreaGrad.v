(** The cotangent operator applied to the positions is the gradient of the area of the surface, and the energy of
    the positions is twice the area. *)
From Coq Require Import Reals Lra Lia List ZArith Bool Arith Permutation.
From Verif Require Import Num NumInst Vec Heap Mesh Spec Orbit Rings Exec Diamond GeomSpec VecR Measure MeasureR MeasureM Curv CurvN Smooth SmoothD SmoothSpec FilterSpec LaplSpec Lapl LaplP LaplM CotPsd SmoothF LapGrad AreaSpec.
From Verif Require SimplifyP.
Import ListNotations.
Local Open Scope R_scope.

(** ** The area of a triangle with a moving corner. *)
Lemma cross_moved (a b c d : vecR) t : cross (vsub b (vadd a (vscale t d))) (vsub c (vadd a (vscale t d))) = vadd (cross (vsub b a) (vsub c a)) (vscale t (cross d (vsub b c))).
Proof. vring. Qed.
Lemma dot_line (X Y : vecR) t : dot (vadd X (vscale t Y)) (vadd X (vscale t Y)) = dot X X + 2 * t * dot X Y + t * t * dot Y Y.
Proof. rewrite !dot_eq. destruct X, Y. unfold vadd, vscale. rn. rg. Qed.
Lemma triple (X d e : vecR) : dot X (cross d e) = dot (cross e X) d.
Proof. rewrite !dot_eq. destruct X, d, e. unfold cross. rn. rg. Qed.
Lemma lim_val f x l l' : l = l' -> derivable_pt_lim f x l -> derivable_pt_lim f x l'. Proof. intros ->; auto. Qed.
Lemma lim_ext f g x l : (forall t, f t = g t) -> derivable_pt_lim f x l -> derivable_pt_lim g x l.
Proof. intros E H e P. destruct (H e P) as [d D]. exists d. intros h Hh Hd. rewrite <- !E. exact (D h Hh Hd). Qed.
Lemma length_line (X Y : vecR) : 0 < vlength X -> derivable_pt_lim (fun t => vlength (vadd X (vscale t Y))) 0 (dot X Y / vlength X).
Proof.
  intros P. assert (P2 : 0 < dot X X) by (rewrite <- vlength_sq; apply Rmult_lt_0_compat; assumption).
  assert (D1 : derivable_pt_lim (fun t => dot X X + 2 * dot X Y * t + dot Y Y * (t * t)) 0 (2 * dot X Y)).
  { apply (lim_val _ _ (0 + 2 * dot X Y * 1 + dot Y Y * (1 * 0 + 0 * 1))); [ring|].
    apply (derivable_pt_lim_plus (fun t => dot X X + 2 * dot X Y * t) (fun t => dot Y Y * (t * t))).
    - apply (derivable_pt_lim_plus (fun _ => dot X X) (fun t => 2 * dot X Y * t)); [apply derivable_pt_lim_const|]. apply (derivable_pt_lim_scal (fun t => t)). apply derivable_pt_lim_id.
    - apply (derivable_pt_lim_scal (fun t => t * t)). apply (derivable_pt_lim_mult (fun t => t) (fun t => t)); apply derivable_pt_lim_id. }
  assert (D2 := derivable_pt_lim_comp _ R_sqrt.sqrt 0 _ (/ (2 * R_sqrt.sqrt (dot X X))) D1). cbn beta in D2.
  assert (Z : dot X X + 2 * dot X Y * 0 + dot Y Y * (0 * 0) = dot X X) by (change (@num NumR) with R in *; ring). rewrite Z in D2. specialize (D2 (derivable_pt_lim_sqrt _ P2)).
  replace (dot X Y / vlength X) with (/ (2 * R_sqrt.sqrt (dot X X)) * (2 * dot X Y)); cycle 1.
  { change (R_sqrt.sqrt (dot X X)) with (vlength X). change (@num NumR) with R in *. field. lra. }
  eapply lim_ext; [|exact D2]. intros t. unfold comp. change (vlength (vadd X (vscale t Y))) with (R_sqrt.sqrt (dot (vadd X (vscale t Y)) (vadd X (vscale t Y)))). rewrite dot_line. f_equal. change (@num NumR) with R in *. ring.
Qed.
Lemma area_line (a b c d : vecR) : 0 < tri_area a b c ->
  derivable_pt_lim (fun t => tri_area (vadd a (vscale t d)) b c) 0 (dot (vscale (/ 2) (cross (vscale (/ vlength (cross (vsub b a) (vsub c a))) (cross (vsub b a) (vsub c a))) (vsub c b))) d).
Proof.
  intros P. set (X := cross (vsub b a) (vsub c a)) in *. assert (L : 0 < vlength X) by (unfold tri_area in P; fold X in P; lra).
  assert (D := derivable_pt_lim_scal _ (/ 2) 0 _ (length_line X (cross d (vsub b c)) L)).
  replace (dot (vscale (/ 2) (cross (vscale (/ vlength X) X) (vsub c b))) d) with (/ 2 * (dot X (cross d (vsub b c)) / vlength X)); cycle 1.
  { rewrite triple. rewrite dot_scale. replace (cross (vscale (/ vlength X) X) (vsub c b)) with (vscale (/ vlength X) (cross (vsub b c) X)); [rewrite dot_scale; change (@num NumR) with R in *; field; lra|]. clearbody X. generalize (/ vlength X). clear. intros k. vring. }
  eapply lim_ext; [|exact D]. intros t. unfold mult_real_fct, tri_area. rewrite cross_moved. reflexivity.
Qed.
Lemma deriv_sum {A} (F : A -> R -> R) (g : A -> R) x l : (forall a, In a l -> derivable_pt_lim (F a) x (g a)) -> derivable_pt_lim (fun t => rsum (map (fun a => F a t) l)) x (rsum (map g l)).
Proof.
  induction l as [|a l IH]; intros H; cbn [map]; [exact (derivable_pt_lim_const 0 x)|]. rewrite rsum_cons.
  apply (lim_ext (fun t => F a t + rsum (map (fun a => F a t) l))); [intros t; rewrite rsum_cons; reflexivity|].
  apply (derivable_pt_lim_plus (F a) (fun t => rsum (map (fun a => F a t) l))); [apply H; left; reflexivity|apply IH; intros b Hb; apply H; right; exact Hb].
Qed.

Section M.
Variable m : mesh NumR.
Hypothesis V : Valid m.
Hypothesis Cl : Closed m.
Let W := valid_wf m V.
Notation P := (SmoothD.pos_at m).
Lemma moved_valid v d t : In v (m_verts m) -> Valid (moved m v d t).
Proof. intros Iv. exact (posonly_valid m _ V (SimplifyP.posonly_setpos m v _ Iv)). Qed.
Lemma face_area_moved v d t f a b c : In v (m_verts m) -> In f (m_faces m) -> Spec.Tri m f a b c -> a <> b -> b <> c -> c <> a ->
  face_area (moved m v d t) f = tri_area (v_pos (moved m v d t) a) (v_pos (moved m v d t) b) (v_pos (moved m v d t) c).
Proof.
  intros Iv If T N1 N2 N3. unfold face_area. rewrite (f_area_ok (moved m v d t) f a b c (valid_wf _ (moved_valid v d t Iv)) If); [reflexivity|exact T|exact N1|exact N2|exact N3].
Qed.
Variable v : nat.
Hypothesis Iv : In v (m_verts m).
Hypothesis ND : NonDegenerateAt m v.
Definition grad_at (y : nat) : vecR := vscale (/ 2) (cross (unit_n m v y) (vsub (P (prev_src m y)) (P (dst_of m y)))).
Lemma tri_deriv d f b c x y z : In f (m_faces m) -> Spec.Tri m f v b c -> v <> b -> b <> c -> c <> v ->
  h_src m x = Some v -> h_src m y = Some b -> h_src m z = Some c -> h_next m x = Some y -> h_next m y = Some z -> In x (m_hes m) -> (forall k, In k [x; y; z] <-> In k (m_hes m) /\ h_face m k = Some f) ->
  derivable_pt_lim (fun t => face_area (moved m v d t) f) 0 (rsum (map (fun y => dot (grad_at y) d) (filter (fun h => ptr_eqb (h_face m h) (Some f)) (at_v m v)))).
Proof.
  intros If T N1 N2 N3 Sx Sy Sz Ex Ey Ix Hin.
  assert (PP : Permutation (filter (fun h => ptr_eqb (h_face m h) (Some f)) (at_v m v)) [x]).
  { apply NoDup_Permutation; [apply NoDup_filter, NoDup_filter, (wf_h_nodup m W)|constructor; [intros []|constructor]|]. intros k. rewrite filter_In, at_v_in, ptr_eqb_eq. split.
    - intros [[Ik Sk] Fk]. assert (K : In k [x; y; z]) by (apply Hin; tauto). destruct K as [K | [K | [K | []]]]; subst k; [left; reflexivity|congruence|congruence].
    - intros [<- | []]. assert (K : In x [x; y; z]) by (left; reflexivity). apply Hin in K. tauto. }
  rewrite (rsum_perm _ _ (Permutation_map _ PP)). cbn [map rsum fold_right]. rewrite Rplus_0_r.
  apply (lim_ext (fun t => tri_area (vadd (v_pos m v) (vscale t d)) (v_pos m b) (v_pos m c))).
  - intros t. rewrite (face_area_moved v d t f v b c Iv If T N1 N2 N3). unfold moved. cbn [v_pos set_v_pos]. rewrite fupd_same, !fupd_other by congruence. reflexivity.
  - assert (D := area_line (v_pos m v) (v_pos m b) (v_pos m c) d (ND f b c If T)). unfold grad_at, unit_n. unfold prev_src, next_of. rewrite Ex, Ey, Sz, (dst_next m x y W Ix Ex), Sy. cbn [SmoothD.pos_at]. exact D.
Qed.
Lemma face_deriv d f : In f (m_faces m) -> derivable_pt_lim (fun t => face_area (moved m v d t) f) 0 (rsum (map (fun y => dot (grad_at y) d) (filter (fun h => ptr_eqb (h_face m h) (Some f)) (at_v m v)))).
Proof.
  intros If. destruct (valid_face_tri m f V Cl If) as (x & y & z & a & b & c & (Hc & Hnd & Hin) & T & Nab & Nbc & Nca & Sx & Sy & Sz & Ex & Ey & Ez & Ix & Iy & Iz).
  destruct (Nat.eq_dec a v) as [->|Na]; [exact (tri_deriv d f b c x y z If T Nab Nbc Nca Sx Sy Sz Ex Ey Ix Hin)|].
  destruct (Nat.eq_dec b v) as [->|Nb]; [refine (tri_deriv d f c a y z x If (tri_rot _ _ _ _ _ T) Nbc Nca Nab Sy Sz Sx Ey Ez Iy _); intros k; rewrite <- Hin; cbn; tauto|].
  destruct (Nat.eq_dec c v) as [->|Nc]; [refine (tri_deriv d f a b z x y If (tri_rot _ _ _ _ _ (tri_rot _ _ _ _ _ T)) Nca Nab Nbc Sz Sx Sy Ez Ex Iz _); intros k; rewrite <- Hin; cbn; tauto|].
  assert (E : filter (fun h => ptr_eqb (h_face m h) (Some f)) (at_v m v) = []).
  { destruct (filter _ (at_v m v)) as [|k l] eqn:E; [reflexivity|exfalso]. assert (K : In k (filter (fun h => ptr_eqb (h_face m h) (Some f)) (at_v m v))) by (rewrite E; left; reflexivity).
    rewrite filter_In, at_v_in, ptr_eqb_eq in K. destruct K as [[Ik Sk] Fk]. assert (K : In k [x; y; z]) by (apply Hin; tauto). destruct K as [K | [K | [K | []]]]; subst k; congruence. }
  rewrite E. cbn [map rsum fold_right]. apply (lim_ext (fun _ => tri_area (v_pos m a) (v_pos m b) (v_pos m c))); [|apply derivable_pt_lim_const].
  intros t. rewrite (face_area_moved v d t f a b c Iv If T Nab Nbc Nca). unfold moved. cbn [v_pos set_v_pos]. rewrite !fupd_other by congruence. reflexivity.
Qed.
Lemma dot_vsum_r l (d : vecR) : dot (vsum l) d = rsum (map (fun x => dot x d) l).
Proof. exact (linear_sum _ l (linear_dot d)). Qed.
(** The derivative of the area, for triangles of any size. *)
Theorem area_deriv d : derivable_pt_lim (fun t => surface_area (moved m v d t)) 0 (dot (vsum (map grad_at (at_v m v))) d).
Proof.
  eapply lim_val.
  - etransitivity; [|symmetry; rewrite dot_vsum_r, map_map; reflexivity]. apply (rsum_key (fun y => dot (grad_at y) d) (h_face m) (m_faces m) (wf_f_nodup m W) (at_v m v)). intros h Hh. apply at_v_in in Hh. exact (wf_face m W h (proj1 Hh)).
  - apply (lim_ext (fun t => rsum (map (fun f => face_area (moved m v d t) f) (m_faces m)))); [reflexivity|]. apply (deriv_sum (fun f t => face_area (moved m v d t) f) (fun f => rsum (map (fun y => dot (grad_at y) d) (filter (fun h => ptr_eqb (h_face m h) (Some f)) (at_v m v))))). intros f If. exact (face_deriv d f If).
Qed.
End M.
Lemma nd_big (m : mesh NumR) v : (forall f b c, In f (m_faces m) -> Spec.Tri m f v b c -> / 10 ^ 6 <= 2 * tri_area (v_pos m v) (v_pos m b) (v_pos m c)) -> NonDegenerateAt m v.
Proof. intros B f b c If T. assert (Q := B f b c If T). assert (0 < / 10 ^ 6) by (apply Rinv_0_lt_compat, pow_lt; lra). change (@num NumR) with R in *. lra. Qed.
(** The row of the operator. *)
Theorem area_gradient (m : mesh NumR) : Valid m -> Closed m -> exists ts, Lapl.getMeshLaplacian (N := NumR) Lapl.Cotangent m = Ok (ts, m) /\ forall i v, nth_error (m_verts m) i = Some v -> (forall f b c, In f (m_faces m) -> Spec.Tri m f v b c -> / 10 ^ 6 <= 2 * tri_area (v_pos m v) (v_pos m b) (v_pos m c)) ->
  forall d, derivable_pt_lim (fun t => surface_area (moved m v d t)) 0 (sum_to (length (m_verts m)) (fun j => entry (N := NumR) ts i j * dot (nth j (map (v_pos m) (m_verts m)) vzero) d)).
Proof.
  intros V C. assert (W := valid_wf m V). exists (lmat m (w_cot m)). split; [apply (rows_ok m cot_row (w_cot m) (cot_row_ok m W))|]. intros i v Hi B d. assert (Iv := nth_error_In _ _ Hi). assert (Li : (i < length (m_verts m))%nat) by (apply nth_error_Some; congruence).
  assert (Ev : vat m i = v) by (unfold vat; rewrite (nth_error_nth _ _ _ Hi); reflexivity).
  eapply lim_val; [|exact (area_deriv m V C v Iv (nd_big m v B) d)]. unfold grad_at. rewrite <- (lapp_big m V C v B). 
  assert (R1 := row_apply m (w_cot m) (v_pos m) (fun x => dot x d) i W (linear_dot d) Li). rewrite Ev in R1. etransitivity; [exact (eq_sym R1)|]. apply sum_to_ext. intros j Hj. f_equal. f_equal. unfold vat.
  rewrite (nth_indep _ vzero (v_pos m 0%nat)) by (rewrite map_length; exact Hj). rewrite map_nth. reflexivity.
Qed.

(** ** The energy of the positions. *)
Lemma heron (a b c : vecR) : dot (vsub a c) (vsub b c) * dot (vsub a b) (vsub a b) + dot (vsub c a) (vsub b a) * dot (vsub b c) (vsub b c) + dot (vsub a b) (vsub c b) * dot (vsub c a) (vsub c a) = 2 * dot (cross (vsub b a) (vsub c a)) (cross (vsub b a) (vsub c a)).
Proof. rewrite !dot_eq. destruct a, b, c. unfold cross, vsub, vadd, vneg. rn. rg. Qed.
Lemma cot_area (a b c : vecR) : / 10 ^ 6 <= 2 * tri_area a b c ->
  cotan a c b * dot (vsub a b) (vsub a b) + cotan c a b * dot (vsub b c) (vsub b c) + cotan a b c * dot (vsub c a) (vsub c a) = 4 * tri_area a b c.
Proof.
  intros B. unfold tri_area in *. set (s := vlength (cross (vsub b a) (vsub c a))) in *. assert (P0 : 0 < / 10 ^ 6) by (apply Rinv_0_lt_compat, pow_lt; lra).
  assert (B' : / 10 ^ 6 <= s) by (change (@num NumR) with R in *; lra).
  assert (L1 : vlength (cross (vsub a c) (vsub b c)) = s). { unfold s. replace (cross (vsub a c) (vsub b c)) with (cross (vsub b a) (vsub c a)) by (clear; vring). reflexivity. }
  assert (L2 : vlength (cross (vsub a b) (vsub c b)) = s). { unfold s. rewrite cross_swap_len. replace (cross (vsub c b) (vsub a b)) with (cross (vsub b a) (vsub c a)) by (clear; vring). reflexivity. }
  assert (L3 : vlength (cross (vsub c a) (vsub b a)) = s) by (unfold s; apply cross_swap_len).
  unfold cotan. change (Vec.vlength (N := NumR)) with vlength in *. rewrite L1, L2, L3. rewrite (Rmax_left s) by exact B'.
  assert (H := heron a b c). rewrite <- (vlength_sq (cross (vsub b a) (vsub c a))) in H. fold s in H. change (@num NumR) with R in *. 
  replace (4 * (/ 2 * s)) with ((2 * (s * s)) * / s) by (field; lra). rewrite <- H. unfold Rdiv. ring.
Qed.
Section E.
Variable m : mesh NumR.
Hypothesis V : Valid m.
Hypothesis Cl : Closed m.
Let W := valid_wf m V.
Definition crd (c : vecR -> R) (i : nat) : R := c (v_pos m (vat m i)).
Definition esq (y : nat) : R := dot (vsub (MeasureM.pos_at m (h_src m y)) (MeasureM.pos_at m (dst_of m y))) (vsub (MeasureM.pos_at m (h_src m y)) (MeasureM.pos_at m (dst_of m y))).
Lemma at_crd c p v : p = Some v -> In v (m_verts m) -> at_ m (crd c) p = c (v_pos m v).
Proof. intros -> Hv. destruct (vat_of m v Hv) as (i & Hi & ->). rewrite (at_vat m W (crd c) i Hi). reflexivity. Qed.
Lemma dsq_sum y : In y (m_hes m) -> dsq m (crd vx) y + dsq m (crd vy) y + dsq m (crd vz) y = esq y.
Proof.
  intros Hy. destruct (wf_src m W y Hy) as (a & Ea & Ia). destruct (dst_some m W y Hy) as (b & Eb & Ib). unfold dsq, esq. rewrite !(at_crd _ _ a Ea Ia), !(at_crd _ _ b Eb Ib), Ea, Eb. cbn [MeasureM.pos_at].
  generalize (v_pos m a) (v_pos m b). clear. intros p q. rewrite dot_eq. destruct p, q. unfold vsub, vadd, vneg. rn. rg.
Qed.
Hypothesis B : forall f a b c, In f (m_faces m) -> Spec.Tri m f a b c -> / 10 ^ 6 <= 2 * tri_area (v_pos m a) (v_pos m b) (v_pos m c).
Lemma energy_face f : In f (m_faces m) -> rsum (map (fun h => hcot m h * esq h) (at_f m f)) = 4 * face_area m f.
Proof.
  intros Hf. destruct (valid_face_tri m f V Cl Hf) as (p & q & r & a & b & c & (Hc & Hnd & Hin) & T & Nab & Nbc & Nca & Sx & Sy & Sz & Ex & Ey & Ez & Ix & Iy & Iz).
  assert (P : Permutation (at_f m f) [p; q; r]) by (apply NoDup_Permutation; [apply NoDup_filter, (wf_h_nodup m W)|exact Hnd|]; intros k; rewrite Hin, at_f_in; reflexivity).
  rewrite (rsum_perm _ _ (Permutation_map _ P)). cbn [map rsum fold_right]. unfold hcot, esq, ndst. rewrite Ex, Ey, Ez.
  rewrite (dst_next m p q W Ix Ex), (dst_next m q r W Iy Ey), (dst_next m r p W Iz Ez), Sx, Sy, Sz. cbn [MeasureM.pos_at SmoothD.pos_at].
  unfold face_area. rewrite (f_area_ok m f a b c W Hf T Nab Nbc Nca). rewrite <- (cot_area _ _ _ (B f a b c Hf T)).
  rewrite (cotan_sym (v_pos m b) (v_pos m a) (v_pos m c)), (cotan_sym (v_pos m c) (v_pos m b) (v_pos m a)). change (@num NumR) with R in *. ring.
Qed.
Lemma energy_area : qform (length (m_verts m)) (entryR (lmat m (w_cot m))) (crd vx) + qform (length (m_verts m)) (entryR (lmat m (w_cot m))) (crd vy) + qform (length (m_verts m)) (entryR (lmat m (w_cot m))) (crd vz) = 2 * surface_area m.
Proof.
  rewrite !(lmat_qform m W (w_cot m) (w_cot_sym m W)). fold (dsq m (crd vx)) (dsq m (crd vy)) (dsq m (crd vz)).
  change (/ 2 * rsum (map (fun h => w_cot m h * dsq m (crd vx) h) (m_hes m)) + / 2 * rsum (map (fun h => w_cot m h * dsq m (crd vy) h) (m_hes m)) + / 2 * rsum (map (fun h => w_cot m h * dsq m (crd vz) h) (m_hes m)) = 2 * surface_area m).
  rewrite !(cot_energy m V).
  rewrite <- !Rmult_plus_distr_l, <- !rsum_plus. rewrite (rsum_ext _ (fun h => hcot m h * esq h)) by (intros h Hh; rewrite <- (dsq_sum h Hh); ring).
  rewrite <- (rsum_key (fun h => hcot m h * esq h) (h_face m) (m_faces m) (wf_f_nodup m W) (m_hes m) (wf_face m W)).
  rewrite (rsum_ext _ (fun f => 4 * face_area m f)) by (intros f Hf; exact (energy_face f Hf)). rewrite rsum_scal. unfold surface_area. change (fold_right Rplus 0) with rsum. lra.
Qed.
End E.
Theorem energy_is_area (m : mesh NumR) : Valid m -> Closed m -> (forall f a b c, In f (m_faces m) -> Spec.Tri m f a b c -> / 10 ^ 6 <= 2 * tri_area (v_pos m a) (v_pos m b) (v_pos m c)) ->
  exists ts, Lapl.getMeshLaplacian (N := NumR) Lapl.Cotangent m = Ok (ts, m) /\
  let E c := qform (length (m_verts m)) (entry (N := NumR) ts) (fun i => c (nth i (map (v_pos m) (m_verts m)) vzero)) in E vx + E vy + E vz = 2 * surface_area m.
Proof.
  intros V C B. assert (W := valid_wf m V). exists (lmat m (w_cot m)). split; [apply (rows_ok m cot_row (w_cot m) (cot_row_ok m W))|]. cbv zeta. rewrite <- (energy_area m V C B).
  assert (Q : forall c : vecR -> R, qform (length (m_verts m)) (entry (N := NumR) (lmat m (w_cot m))) (fun i => c (nth i (map (v_pos m) (m_verts m)) vzero)) = qform (length (m_verts m)) (entry (N := NumR) (lmat m (w_cot m))) (crd m c)).
  { intros c. unfold qform. apply sum_to_ext. intros i Hi. apply sum_to_ext. intros j Hj. unfold crd, vat. rewrite !(nth_indep _ vzero (v_pos m 0%nat)) by (rewrite map_length; assumption). rewrite !map_nth. reflexivity. }
  rewrite !Q. reflexivity.
Qed.

(** ** Tiny triangles: the operator is too small. *)
Lemma cot_triangle_k (a b c n : vecR) : 0 < vlength (cross (vsub b a) (vsub c a)) -> vscale (vlength (cross (vsub b a) (vsub c a))) n = cross (vsub b a) (vsub c a) ->
  vadd (vscale (cotan a c b / 2) (vsub a b)) (vscale (cotan a b c / 2) (vsub a c)) = vscale (vlength (cross (vsub b a) (vsub c a)) / Rmax (vlength (cross (vsub b a) (vsub c a))) (/ 10 ^ 6)) (vscale (/ 2) (cross n (vsub c b))).
Proof.
  intros B E. set (s := vlength (cross (vsub b a) (vsub c a))) in *.
  assert (L1 : vlength (cross (vsub a c) (vsub b c)) = s). { unfold s. replace (cross (vsub a c) (vsub b c)) with (cross (vsub b a) (vsub c a)) by (clear; vring). reflexivity. }
  assert (L2 : vlength (cross (vsub a b) (vsub c b)) = s). { unfold s. rewrite cross_swap_len. replace (cross (vsub c b) (vsub a b)) with (cross (vsub b a) (vsub c a)) by (clear; vring). reflexivity. }
  unfold cotan. change (Vec.vlength (N := NumR)) with vlength in *. rewrite L1, L2. set (D := Rmax s (/ 10 ^ 6)).
  assert (I : vadd (vscale (dot (vsub a c) (vsub b c)) (vsub a b)) (vscale (dot (vsub a b) (vsub c b)) (vsub a c)) = cross (cross (vsub b a) (vsub c a)) (vsub c b)).
  { clear. rewrite !dot_eq. vring. }
  assert (X : vscale s (cross n (vsub c b)) = cross (cross (vsub b a) (vsub c a)) (vsub c b)) by (rewrite <- E; generalize s (vsub c b); clear; vring).
  rewrite <- X in I. transitivity (vscale (/ 2 * / D) (vscale s (cross n (vsub c b)))); [rewrite <- I|]; unfold Rdiv.
  - generalize (dot (vsub a c) (vsub b c)) (dot (vsub a b) (vsub c b)) (vsub a b) (vsub a c) (/ D). clear. intros p q u v k. vring.
  - generalize (cross n (vsub c b)) (/ D) s. clear. intros u k s. vring.
Qed.
Lemma vsum_scale {A} k (F : A -> vecR) l : vsum (map (fun x => vscale k (F x)) l) = vscale k (vsum (map F l)).
Proof. induction l as [|x l IH]; cbn [map]; [cbn; vring|]. rewrite !vsum_cons, IH. generalize (F x) (vsum (map F l)). clear. vring. Qed.
Lemma lapp_k (m : mesh NumR) v L : Valid m -> Closed m -> 0 < L -> (forall f b c, In f (m_faces m) -> Spec.Tri m f v b c -> 2 * tri_area (v_pos m v) (v_pos m b) (v_pos m c) = L) ->
  lapp m v = vscale (L / Rmax L (/ 10 ^ 6)) (vsum (map (grad_at m v) (at_v m v))).
Proof.
  intros V C PL B. rewrite (lapp_corners m V C), <- vsum_scale. apply vsum_ext. intros y Hy. destruct (tri_at m V C v y Hy) as (f & b & c & If & _ & T & _ & _ & _ & Db & Pc & _). unfold grad_at, unit_n. rewrite Db, Pc. cbn [MeasureM.pos_at SmoothD.pos_at]. cbv zeta.
  assert (Bf := B f b c If T). unfold tri_area in Bf. set (s := vlength (cross (vsub (v_pos m b) (v_pos m v)) (vsub (v_pos m c) (v_pos m v)))) in *. assert (s = L) by (change (@num NumR) with R in *; lra). rewrite <- H.
  apply cot_triangle_k; fold s; [change (@num NumR) with R in *; lra|]. rewrite vscale_mul, Rinv_r, vscale_one by (change (@num NumR) with R in *; lra). reflexivity.
Qed.
