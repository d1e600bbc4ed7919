(** The cotangent operator of a closed mesh is positive semidefinite: its quadratic form is the
    sum of the Dirichlet energies of the triangles. *)
From Coq Require Import Reals Lra Lia List ZArith Bool Arith Permutation.
From Verif Require Import Num NumInst Vec Heap Mesh Spec Orbit Rings Exec Diamond GeomSpec VecR Measure MeasureM Curv Smooth SmoothD FilterSpec LaplSpec Lapl LaplP LaplM SmoothF.
Import ListNotations.
Local Open Scope R_scope.

Lemma cross_swap_len (a b : vecR) : vlength (cross a b) = vlength (cross b a).
Proof. rewrite (cross_anti a b). rewrite <- (vscale_one (cross b a)) at 2. replace (vneg (cross b a)) with (vscale (-1) (cross b a)) by vring. rewrite !vlength_scale. f_equal. rewrite Rabs_left, Rabs_right by lra. lra. Qed.
Lemma cotan_sym (a b c : vecR) : cotan a b c = cotan c b a.
Proof. unfold cotan. rewrite (dot_sym (vsub a b) (vsub c b)), (cross_swap_len (vsub a b) (vsub c b)). reflexivity. Qed.
(** The Dirichlet energy of the linear function with values x, y, z at the corners. *)
Lemma dirichlet (a b c : vecR) (x y z : R) : 0 <= cotan a c b * (x - y) ^ 2 + cotan b a c * (y - z) ^ 2 + cotan c b a * (z - x) ^ 2.
Proof.
  unfold cotan. set (e := Vec.vsub b a). set (f := Vec.vsub c a).
  assert (C1 : Vec.cross (Vec.vsub a c) (Vec.vsub b c) = Vec.cross e f) by (unfold e, f; vring).
  assert (C3 : Vec.cross (Vec.vsub c b) (Vec.vsub a b) = Vec.cross e f) by (unfold e, f; vring).
  rewrite C1, C3. set (D := Rmax (Vec.vlength (Vec.cross e f)) (/ 10 ^ 6)).
  assert (P : 0 < D) by (apply Rlt_le_trans with (/ 10 ^ 6); [apply Rinv_0_lt_compat, pow_lt; lra|apply Rmax_r]).
  set (g := vsub (vscale (y - x) f) (vscale (z - x) e)).
  assert (Q : Vec.dot (Vec.vsub a c) (Vec.vsub b c) * (x - y) ^ 2 + Vec.dot e f * (y - z) ^ 2 + Vec.dot (Vec.vsub c b) (Vec.vsub a b) * (z - x) ^ 2 = dot g g).
  { unfold g, e, f. rewrite !dot_eq. destruct a as [a0 a1 a2], b as [b0 b1 b2], c as [c0 c1 c2]. unfold vsub, vadd, vneg, vscale. rn. cbn [vx vy vz]. ring. }
  assert (N : 0 <= dot g g) by apply dot_pos. unfold Rdiv. replace (Vec.dot (Vec.vsub a c) (Vec.vsub b c) * / D * (x - y) ^ 2 + Vec.dot e f * / D * (y - z) ^ 2 + Vec.dot (Vec.vsub c b) (Vec.vsub a b) * / D * (z - x) ^ 2)
    with ((Vec.dot (Vec.vsub a c) (Vec.vsub b c) * (x - y) ^ 2 + Vec.dot e f * (y - z) ^ 2 + Vec.dot (Vec.vsub c b) (Vec.vsub a b) * (z - x) ^ 2) * / D) by ring.
  rewrite Q. apply Rmult_le_pos; [exact N|apply Rlt_le, Rinv_0_lt_compat, P].
Qed.

Section M.
Variable m : mesh NumR.
Hypothesis V : Valid m.
Hypothesis Cl : Closed m.
Let W := valid_wf m V.
(** The cotangent opposite to a half-edge, times the squared difference along it. *)
Definition hcot (y : nat) : R := cotan (pos_at m (h_src m y)) (pos_at m (ndst m y)) (pos_at m (dst_of m y)).
Lemma wcot_half y : In y (m_hes m) -> w_cot m y = (hcot y + hcot (revm m y)) / 2.
Proof.
  intros Hy. rewrite (w_cot_formula m W y Hy), cot_formula_eq. unfold hcot. destruct (revm_ok m W y Hy) as (_ & _ & _ & D1 & D2). rewrite D1, D2.
  rewrite (cotan_sym (pos_at m (h_src m (revm m y))) _ (pos_at m (h_src m y))). reflexivity.
Qed.
Definition dsq (x : nat -> R) (y : nat) : R := (at_ m x (h_src m y) - at_ m x (dst_of m y)) ^ 2.
Lemma cot_energy x : rsum (map (fun h => w_cot m h * dsq x h) (m_hes m)) = rsum (map (fun h => hcot h * dsq x h) (m_hes m)).
Proof.
  assert (E : rsum (map (fun h => hcot (revm m h) * dsq x h) (m_hes m)) = rsum (map (fun h => hcot h * dsq x h) (m_hes m))).
  { rewrite <- (rsum_rev m W (fun h => hcot h * dsq x h)). apply rsum_ext. intros h Hh. destruct (revm_ok m W h Hh) as (_ & _ & _ & D1 & D2). unfold dsq. rewrite D1, D2. ring. }
  rewrite (rsum_ext (fun h => w_cot m h * dsq x h) (fun h => / 2 * (hcot h * dsq x h) + / 2 * (hcot (revm m h) * dsq x h))) by (intros h Hh; rewrite (wcot_half h Hh); lra).
  rewrite rsum_plus, !rsum_scal, E. lra.
Qed.
Lemma cot_energy_face x f : In f (m_faces m) -> 0 <= rsum (map (fun h => hcot h * dsq x h) (at_f m f)).
Proof.
  intros Hf. destruct (valid_face_tri m f V Cl Hf) as (p & q & r & a & b & c & (Hc & Hnd & Hin) & T & Nab & Nbc & Nca & Sx & Sy & Sz & Ex & Ey & Ez & Ix & Iy & Iz).
  assert (P : Permutation (at_f m f) [p; q; r]) by (apply NoDup_Permutation; [apply NoDup_filter, (wf_h_nodup m W)|exact Hnd|]; intros k; rewrite Hin, at_f_in; reflexivity).
  rewrite (rsum_perm _ _ (Permutation_map _ P)). cbn [map rsum fold_right]. unfold hcot, dsq, ndst. rewrite Ex, Ey, Ez.
  rewrite (dst_next m p q W Ix Ex), (dst_next m q r W Iy Ey), (dst_next m r p W Iz Ez), Sx, Sy, Sz. cbn [pos_at].
  assert (D := dirichlet (v_pos m a) (v_pos m b) (v_pos m c) (at_ m x (Some a)) (at_ m x (Some b)) (at_ m x (Some c))). 
  rewrite (cotan_sym (v_pos m b) (v_pos m a) (v_pos m c)) in D. rewrite (cotan_sym (v_pos m c) (v_pos m b) (v_pos m a)) in D.
  rewrite (cotan_sym (v_pos m b) (v_pos m a) (v_pos m c)), (cotan_sym (v_pos m c) (v_pos m b) (v_pos m a)). lra.
Qed.
Lemma cot_psd : psd (length (m_verts m)) (entryR (lmat m (w_cot m))).
Proof.
  intros x. rewrite (lmat_qform m W (w_cot m) (w_cot_sym m W)). fold (dsq x). change (0 <= / 2 * rsum (map (fun h => w_cot m h * dsq x h) (m_hes m))). rewrite cot_energy.
  rewrite <- (rsum_key (fun h => hcot h * dsq x h) (h_face m) (m_faces m) (wf_f_nodup m W) (m_hes m) (wf_face m W)).
  apply Rmult_le_pos; [lra|]. apply rsum_nonneg. intros f Hf. exact (cot_energy_face x f Hf).
Qed.
End M.
Theorem cotangent_psd (m : mesh NumR) : Valid m -> Closed m -> exists ts, getMeshLaplacian Cotangent m = Ok (ts, m) /\ psd (length (m_verts m)) (entryR ts).
Proof. intros V C. exists (lmat m (w_cot m)). split; [apply (rows_ok m cot_row (w_cot m) (cot_row_ok m (valid_wf m V)))|exact (cot_psd m V C)]. Qed.
