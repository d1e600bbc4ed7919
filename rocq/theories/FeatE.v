(** The cotangent operator of a connected closed surface is positive definite on functions that vanish somewhere. *)
From Coq Require Import Reals Lra Lia List ZArith Bool Arith Permutation.
From Verif Require Import Num NumInst Vec Heap Mesh Spec Orbit Rings Exec Diamond GeomSpec VecR Measure MeasureR MeasureM Curv Smooth SmoothD FilterSpec LaplSpec Lapl LaplP LaplM SmoothF CotPsd.
Import ListNotations.
Local Open Scope R_scope.
Lemma rsum_zero {A} (F : A -> R) l : (forall x, In x l -> 0 <= F x) -> rsum (map F l) = 0 -> forall x, In x l -> F x = 0.
Proof.
  induction l as [|a l IH]; intros H E x []; cbn [map] in E; rewrite rsum_cons in E; assert (N := rsum_nonneg F l (fun y I => H y (or_intror I))); assert (Ha := H a (or_introl eq_refl)).
  - subst. lra.
  - apply IH; [intros y I; apply H; right; exact I|lra|assumption].
Qed.
Lemma dirichlet_zero (a b c : vecR) (x y z : R) : 0 < tri_area a b c -> cotan a c b * (x - y) ^ 2 + cotan b a c * (y - z) ^ 2 + cotan c b a * (z - x) ^ 2 = 0 -> x = y /\ y = z.
Proof.
  intros Ar. unfold cotan. set (e := Vec.vsub b a). set (f := Vec.vsub c a).
  assert (C1 : Vec.cross (Vec.vsub a c) (Vec.vsub b c) = Vec.cross e f) by (unfold e, f; vring).
  assert (C3 : Vec.cross (Vec.vsub c b) (Vec.vsub a b) = Vec.cross e f) by (unfold e, f; vring).
  rewrite C1, C3. set (D := Rmax (Vec.vlength (Vec.cross e f)) (/ 10 ^ 6)).
  assert (P : 0 < D) by (apply Rlt_le_trans with (/ 10 ^ 6); [apply Rinv_0_lt_compat, pow_lt; lra|apply Rmax_r]).
  set (g := vsub (vscale (y - x) f) (vscale (z - x) e)).
  assert (Q : Vec.dot (Vec.vsub a c) (Vec.vsub b c) * (x - y) ^ 2 + Vec.dot e f * (y - z) ^ 2 + Vec.dot (Vec.vsub c b) (Vec.vsub a b) * (z - x) ^ 2 = dot g g).
  { unfold g, e, f. rewrite !dot_eq. destruct a as [a0 a1 a2], b as [b0 b1 b2], c as [c0 c1 c2]. unfold vsub, vadd, vneg, vscale. rn. cbn [vx vy vz]. ring. }
  unfold Rdiv. replace (Vec.dot (Vec.vsub a c) (Vec.vsub b c) * / D * (x - y) ^ 2 + Vec.dot e f * / D * (y - z) ^ 2 + Vec.dot (Vec.vsub c b) (Vec.vsub a b) * / D * (z - x) ^ 2)
    with ((Vec.dot (Vec.vsub a c) (Vec.vsub b c) * (x - y) ^ 2 + Vec.dot e f * (y - z) ^ 2 + Vec.dot (Vec.vsub c b) (Vec.vsub a b) * (z - x) ^ 2) * / D) by ring.
  rewrite Q. intros Z. assert (IP := Rinv_0_lt_compat D P). assert (G0 : dot g g = 0) by (destruct (Rmult_integral _ _ Z); [assumption|lra]).
  assert (Gz : g = vzero) by (apply dot_zero, G0).
  assert (N : vlength (cross e f) <> 0) by (unfold tri_area in Ar; fold e f in Ar; intros Z0; rewrite Z0 in Ar; lra).
  assert (Z1 : vscale (y - x) (cross e f) = cross e g) by (unfold g; vring). rewrite Gz in Z1.
  assert (Z2 : vscale (z - x) (cross e f) = cross f g) by (unfold g; vring). rewrite Gz in Z2.
  assert (Y : y - x = 0). { assert (L := f_equal vlength Z1). rewrite vlength_scale in L. replace (vlength (cross e vzero)) with 0 in L by (replace (cross e vzero) with (vzero : vecR) by vring; symmetry; apply vlength_zero; reflexivity). destruct (Rmult_integral _ _ L) as [L'|L']; [|contradiction]. destruct (Req_dec (y - x) 0) as [|X]; [assumption|]. apply Rabs_no_R0 in X. contradiction. }
  assert (Y' : z - x = 0). { assert (L := f_equal vlength Z2). rewrite vlength_scale in L. replace (cross f vzero) with (vzero : vecR) in L by vring. rewrite (proj2 (vlength_zero vzero) eq_refl) in L. destruct (Rmult_integral _ _ L) as [L'|L']; [|contradiction]. destruct (Req_dec (z - x) 0) as [|X]; [assumption|]. apply Rabs_no_R0 in X. contradiction. }
  lra.
Qed.

Section M.
Variable m : mesh NumR.
Hypothesis V : Valid m.
Hypothesis Cl : Closed m.
Hypothesis ND : NonDegenerate m.
Let W := valid_wf m V.
Let n := length (m_verts m).
Lemma cot_face_zero x f : In f (m_faces m) -> rsum (map (fun h => hcot m h * dsq m x h) (at_f m f)) = 0 -> forall h, In h (at_f m f) -> at_ m x (h_src m h) = at_ m x (dst_of m h).
Proof.
  intros Hf. destruct (valid_face_tri m f V Cl Hf) as (p & q & r & a & b & c & (Hc & Hnd & Hin) & T & Nab & Nbc & Nca & Sx & Sy & Sz & Ex & Ey & Ez & Ix & Iy & Iz).
  assert (P : Permutation (at_f m f) [p; q; r]) by (apply NoDup_Permutation; [apply NoDup_filter, (wf_h_nodup m W)|exact Hnd|]; intros k; rewrite Hin, at_f_in; reflexivity).
  rewrite (rsum_perm _ _ (Permutation_map _ P)). cbn [map rsum fold_right]. unfold hcot, dsq, ndst. rewrite Ex, Ey, Ez.
  assert (Dp := dst_next m p q W Ix Ex). assert (Dq := dst_next m q r W Iy Ey). assert (Dr := dst_next m r p W Iz Ez). rewrite Dp, Dq, Dr, Sx, Sy, Sz. cbn [pos_at]. intros E h Hh.
  assert (D := dirichlet_zero (v_pos m a) (v_pos m b) (v_pos m c) (at_ m x (Some a)) (at_ m x (Some b)) (at_ m x (Some c)) (ND f a b c Hf T)).
  destruct D as [D1 D2]; [lra|].
  apply (Permutation_in _ P) in Hh. destruct Hh as [<-|[<-|[<-|[]]]]; [rewrite Dp, Sx, Sy|rewrite Dq, Sy, Sz|rewrite Dr, Sz, Sx]; congruence.
Qed.
Lemma cot_zero x : qform n (entryR (lmat m (w_cot m))) x = 0 -> forall h, In h (m_hes m) -> at_ m x (h_src m h) = at_ m x (dst_of m h).
Proof.
  rewrite (lmat_qform m W (w_cot m) (w_cot_sym m W)). fold (dsq m x). change (/ 2 * rsum (map (fun h => w_cot m h * dsq m x h) (m_hes m)) = 0 -> forall h, In h (m_hes m) -> at_ m x (h_src m h) = at_ m x (dst_of m h)). rewrite (cot_energy m V).
  rewrite <- (rsum_key (fun h => hcot m h * dsq m x h) (h_face m) (m_faces m) (wf_f_nodup m W) (m_hes m) (wf_face m W)).
  intros E h Hh. apply Rmult_integral in E. destruct E as [E|E]; [lra|]. destruct (wf_face m W h Hh) as (f & Ef & If). 
  assert (Z := rsum_zero _ _ (fun f Hf => cot_energy_face m V Cl x f Hf) E f If).
  apply (cot_face_zero x f If Z). apply at_f_in. auto.
Qed.
End M.
