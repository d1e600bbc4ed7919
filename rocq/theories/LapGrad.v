(** The cotangent operator applied to the positions. *)
From Coq Require Import Reals Lra Lia List ZArith Bool Arith Permutation.
From Verif Require Import Num NumInst Vec Heap Mesh Spec Orbit Rings Exec Diamond Queries GeomSpec VecR Measure MeasureR MeasureM SmoothSpec FilterSpec SmoothD SmoothF Curv CurvN LaplSpec Lapl LaplP LaplM CotPsd LinR.
Import ListNotations.
Local Open Scope R_scope.
Implicit Types m : mesh NumR.
Local Notation vsum := CurvN.vsum.

(** A row of a Laplacian applied to values at the vertices. *)
Definition atp (x : nat -> R) (p : ptr) : R := match p with Some v => x v | None => 0 end.
Lemma lmat_apply m (w : nat -> R) (x : nat -> R) i : WF m -> (i < length (m_verts m))%nat ->
  sum_to (length (m_verts m)) (fun j => entryR (lmat m w) i j * x (vat m j)) = rsum (map (fun y => w y * (x (vat m i) - atp x (dst_of m y))) (at_v m (vat m i))).
Proof.
  intros W Hi. rewrite (sum_to_ext _ _ (fun j => (if Nat.eqb i j then D_ m w i * x (vat m i) else 0) + - 1 * (S_ m w i j * x (vat m j)))).
  2:{ intros j Hj. rewrite (lmat_entry m W w i j Hi Hj). destruct (Nat.eqb_spec i j) as [->|]; lra. }
  rewrite sum_to_plus, sum_to_one, sum_to_scal by exact Hi.
  assert (E : sum_to (length (m_verts m)) (fun j => S_ m w i j * x (vat m j)) = rsum (map (fun y => w y * atp x (dst_of m y)) (at_v m (vat m i)))).
  { rewrite <- (rsum_key (fun h => w h * atp x (dst_of m h)) (dst_of m) (m_verts m) (wf_v_nodup m W) (at_v m (vat m i))) by (intros h Hh; apply at_v_in in Hh as [Hh _]; apply (dst_some m W), Hh).
    rewrite <- (sum_to_list 0%nat). apply sum_to_ext. intros j Hj. fold (vat m j). unfold S_. rewrite Rmult_comm, <- rsum_scal. apply rsum_ext. intros h Hh. apply between_in in Hh. destruct Hh as (_ & _ & Dh). rewrite Dh. cbn [atp]. ring. }
  rewrite E. unfold D_. rewrite Rmult_comm, <- rsum_scal, <- rsum_scal, <- rsum_plus. apply rsum_ext. intros y _. ring.
Qed.

(** One triangle. *)
Lemma cot_triangle (a b c n : vecR) : / 10 ^ 6 <= vlength (cross (vsub b a) (vsub c a)) -> vscale (vlength (cross (vsub b a) (vsub c a))) n = cross (vsub b a) (vsub c a) ->
  vadd (vscale (cotan a c b / 2) (vsub a b)) (vscale (cotan a b c / 2) (vsub a c)) = vscale (/ 2) (cross n (vsub c b)).
Proof.
  intros B E. set (s := vlength (cross (vsub b a) (vsub c a))) in *. assert (Ps : 0 < s) by lra.
  assert (L1 : vlength (cross (vsub a c) (vsub b c)) = s). { unfold s. replace (cross (vsub a c) (vsub b c)) with (cross (vsub b a) (vsub c a)) by (clear; vring). reflexivity. }
  assert (L2 : vlength (cross (vsub a b) (vsub c b)) = s). { unfold s. rewrite cross_swap_len. replace (cross (vsub c b) (vsub a b)) with (cross (vsub b a) (vsub c a)) by (clear; vring). reflexivity. }
  unfold cotan. change (Vec.vlength (N := NumR)) with vlength in *. rewrite L1, L2. rewrite (Rmax_left s) by exact B.
  assert (I : vadd (vscale (dot (vsub a c) (vsub b c)) (vsub a b)) (vscale (dot (vsub a b) (vsub c b)) (vsub a c)) = cross (cross (vsub b a) (vsub c a)) (vsub c b)).
  { clear. rewrite !dot_eq. vring. }
  assert (X : vscale s (cross n (vsub c b)) = cross (cross (vsub b a) (vsub c a)) (vsub c b)) by (rewrite <- E; generalize s (vsub c b); clear; vring).
  assert (Y : cross n (vsub c b) = vscale (/ s) (cross (cross (vsub b a) (vsub c a)) (vsub c b))) by (rewrite <- X, vscale_mul, Rinv_l, vscale_one by lra; reflexivity).
  rewrite Y, <- I. unfold Rdiv. generalize (dot (vsub a c) (vsub b c)) (dot (vsub a b) (vsub c b)) (vsub a b) (vsub a c) (/ s). clear. intros p q u v k. vring.
Qed.

Lemma vadd4 (a b c d : vecR) : vadd (vadd a b) (vadd c d) = vadd (vadd a c) (vadd b d). Proof. vring. Qed.
Lemma vsum_add {A} (F G : A -> vecR) l : vsum (map (fun x => vadd (F x) (G x)) l) = vadd (vsum (map F l)) (vsum (map G l)).
Proof. induction l as [|x l IH]; cbn [map]; [symmetry; apply vadd_zero|]. rewrite !vsum_cons, IH. apply vadd4. Qed.
Lemma half_split (a b : vecR) (p q : R) : vscale ((p + q) / 2) (vsub a b) = vadd (vscale (p / 2) (vsub a b)) (vscale (q / 2) (vsub a b)).
Proof. generalize (vsub a b). unfold Rdiv. generalize (/ 2). vring. Qed.

Section G.
Variable m : mesh NumR.
Hypothesis V : Valid m.
Hypothesis Cl : Closed m.
Let W := valid_wf m V.
Variable v : nat.
Hypothesis Hv : In v (m_verts m).
Let NB : ~ on_boundary m v := closed_inner m v Cl.
Notation P p := (pos_at m p).
Lemma tri_at y : In y (at_v m v) -> exists f b c, In f (m_faces m) /\ face_of m y = f /\ Spec.Tri m f v b c /\ v <> b /\ b <> c /\ c <> v /\ dst_of m y = Some b /\ prev_src m y = Some c /\ ndst m y = Some c.
Proof.
  intros Hy. apply at_v_in in Hy. destruct Hy as [Iy Sy]. destruct (he_tri m y V Iy (Cl y Iy)) as (f & a & b & c & If & Fy & T & N1 & N2 & N3 & Sa & Db & Pc). assert (a = v) by congruence. subst a.
  exists f, b, c. repeat (split; [try assumption; try congruence|]).
  - unfold face_of. rewrite Fy. reflexivity.
  - destruct (closed_next3 m y V Cl Iy) as (k & z & En & Ek & Ez & Ik & Iz). unfold ndst. rewrite En, (dst_next m k z W Ik Ek). unfold prev_src, next_of in Pc. rewrite En, Ek in Pc. exact Pc.
Qed.
(** The sum around a vertex does not depend on where one starts. *)
Lemma ring_shift (F : ptr -> vecR) : vsum (map (fun y => F (prev_src m y)) (at_v m v)) = vsum (map (fun y => F (dst_of m y)) (at_v m v)).
Proof.
  rewrite <- (vsum_perm _ _ (Permutation_map (fun y => F (prev_src m y)) (rot_perm_v m v W))), map_map. apply vsum_ext. intros y Hy. rewrite (prev_rot m v y V NB Hy). reflexivity.
Qed.
Definition lapp : vecR := vsum (map (fun y => vscale (w_cot m y) (vsub (v_pos m v) (P (dst_of m y)))) (at_v m v)).
Lemma lapp_corners : lapp = vsum (map (fun y => vadd (vscale (cotan (v_pos m v) (P (prev_src m y)) (P (dst_of m y)) / 2) (vsub (v_pos m v) (P (dst_of m y)))) (vscale (cotan (v_pos m v) (P (dst_of m y)) (P (prev_src m y)) / 2) (vsub (v_pos m v) (P (prev_src m y))))) (at_v m v)).
Proof.
  rewrite vsum_add. rewrite <- (vsum_perm _ _ (Permutation_map (fun y => vscale (cotan (v_pos m v) (P (dst_of m y)) (P (prev_src m y)) / 2) (vsub (v_pos m v) (P (prev_src m y)))) (rot_perm_v m v W))), map_map, <- vsum_add.
  unfold lapp. apply vsum_ext. intros y Hy. destruct (tri_at y Hy) as (f & b & c & _ & _ & _ & _ & _ & _ & Db & Pc & Nc). assert (Hy' := proj1 (at_v_in m v y) Hy). destruct Hy' as [Iy Sy].
  rewrite (wcot_half m V y Iy). unfold hcot. destruct (revm_ok m W y Iy) as (Er & Ir & _ & D1 & D2). rewrite (prev_rot m v y V NB Hy). rewrite <- D1, D2, Sy.
  assert (Q : ndst m (revm m y) = dst_of m (rot_of m y)). { destruct (rot_at m v y W Hy) as (E & _ & _). unfold rot in E. rewrite Er in E. unfold ndst. rewrite E. reflexivity. }
  rewrite Q, Db, Pc, Nc. cbn [pos_at MeasureM.pos_at SmoothD.pos_at]. rewrite (cotan_sym (v_pos m b) (SmoothD.pos_at m (dst_of m (rot_of m y)))). 
  apply half_split.
Qed.
(** With triangles that are not tiny. *)
Definition unit_n (y : nat) : vecR := let X := cross (vsub (P (dst_of m y)) (v_pos m v)) (vsub (P (prev_src m y)) (v_pos m v)) in vscale (/ vlength X) X.
Lemma lapp_big : (forall f b c, In f (m_faces m) -> Spec.Tri m f v b c -> / 10 ^ 6 <= 2 * tri_area (v_pos m v) (v_pos m b) (v_pos m c)) ->
  lapp = vsum (map (fun y => vscale (/ 2) (cross (unit_n y) (vsub (P (prev_src m y)) (P (dst_of m y))))) (at_v m v)).
Proof.
  intros B. rewrite lapp_corners. apply vsum_ext. intros y Hy. destruct (tri_at y Hy) as (f & b & c & If & _ & T & _ & _ & _ & Db & Pc & _). unfold unit_n. rewrite Db, Pc. cbn [MeasureM.pos_at SmoothD.pos_at]. cbv zeta.
  assert (Bf := B f b c If T). unfold tri_area in Bf. set (s := vlength (cross (vsub (v_pos m b) (v_pos m v)) (vsub (v_pos m c) (v_pos m v)))) in *. assert (P0 : 0 < / 10 ^ 6) by (apply Rinv_0_lt_compat, pow_lt; lra).
  apply cot_triangle; fold s; [lra|]. rewrite vscale_mul, Rinv_r, vscale_one by lra. reflexivity.
Qed.
End G.
Definition linear (c : vecR -> R) : Prop := (forall a b, c (vadd a b) = c a + c b) /\ (forall k a, c (vscale k a) = k * c a).
Lemma linear_zero c : linear c -> c vzero = 0.
Proof. intros [_ S]. assert (Q := S 0 vzero). replace (vscale 0 vzero) with (vzero : vecR) in Q by vring. lra. Qed.
Lemma linear_sub c a b : linear c -> c (vsub a b) = c a - c b.
Proof. intros [A S]. replace (vsub a b) with (vadd a (vscale (-1) b)) by vring. rewrite A, S. lra. Qed.
Lemma linear_sum c l : linear c -> c (vsum l) = rsum (map c l).
Proof. intros H. assert (Z := linear_zero c H). destruct H as [A _]. induction l as [|x l IH]; [exact Z|]. cbn [map]. rewrite vsum_cons, A, rsum_cons, IH. reflexivity. Qed.
Lemma linear_coord : linear vx /\ linear vy /\ linear vz.
Proof. split; [|split]; (split; [intros [] []|intros k []]); unfold vadd, vscale; rn; rg. Qed.
Lemma linear_dot n : linear (fun x => dot x n).
Proof. split; intros; [apply dot_add|apply dot_scale]. Qed.
(** A row of the operator applied to vectors at the vertices. *)
Lemma row_apply m (w : nat -> R) (x : nat -> vecR) c i : WF m -> linear c -> (i < length (m_verts m))%nat ->
  sum_to (length (m_verts m)) (fun j => entryR (lmat m w) i j * c (x (vat m j))) = c (vsum (map (fun y => vscale (w y) (vsub (x (vat m i)) (match dst_of m y with Some d => x d | None => vzero end))) (at_v m (vat m i)))).
Proof.
  intros W Hc Hi. rewrite (lmat_apply m w (fun u => c (x u)) i W Hi), (linear_sum c _ Hc), map_map. apply rsum_ext. intros y Hy. apply at_v_in in Hy. destruct (dst_some m W y (proj1 Hy)) as (d & Ed & _). rewrite Ed. cbn [atp].
  rewrite (proj2 Hc), (linear_sub c _ _ Hc). reflexivity.
Qed.
