(** Smoothing the regular tetrahedron with its corners listed in two orders. *)
From Coq Require Import Reals Lra Lia List ZArith Bool Arith Permutation.
From Verif Require Import Num NumInst Vec VecR Heap Mesh Construct Spec BuildSpec BuildProps Built Rings Witness Examples GeomSpec ExamplesR Prog SmoothSpec Smooth SmoothP SmoothD SmoothR MeasureM LaplP LaplM FilterSpec SmoothF RegTet CurvW OrderSpec Order OrderM OrderX.
Import ListNotations.
Local Open Scope R_scope.

Lemma reg_cotan_b i j k : (i < 4)%nat -> (j < 4)%nat -> (k < 4)%nat -> i <> j -> j <> k -> i <> k -> cotan (nth i regB vzero) (nth j regB vzero) (nth k regB vzero) = kappa.
Proof.
  intros Hi Hj Hk N1 N2 N3. unfold cotan, kappa, Vec.vlength. rewrite !dot_eq.
  assert (E : forall a b c d : R, a = c -> b = d -> a / Rmax (sqrt b) (/ 10 ^ 6) = c / Rmax (sqrt d) (/ 10 ^ 6)) by (intros; subst; reflexivity).
  destruct i as [|[|[|[|i]]]]; try lia; destruct j as [|[|[|[|j]]]]; try lia; destruct k as [|[|[|[|k]]]]; try lia; cbn [nth regB]; apply E; unfold cross, vsub, vadd, vneg, v3; rn; ring.
Qed.

Section B.
Variable m : mesh NumR.
Hypothesis Vm : Valid m.
Hypothesis Cm : Closed m.
Hypothesis Pm : positions m = regB.
Let Wm := valid_wf m Vm.
Lemma reg_len_b : length (m_verts m) = 4%nat.
Proof. apply (f_equal (@length _)) in Pm. unfold positions in Pm. rewrite map_length in Pm. exact Pm. Qed.
Lemma reg_pos_b i : (i < 4)%nat -> v_pos m (vat m i) = nth i regB vzero.
Proof. intros Hi. rewrite <- Pm. unfold positions, vat. rewrite (nth_indep _ vzero (v_pos m 0%nat)) by (rewrite map_length, reg_len_b; exact Hi). rewrite map_nth. reflexivity. Qed.
Lemma reg_nobd_b v : ~ on_boundary m v.
Proof. intros (h & Ih & _ & B). rewrite (Cm h Ih) in B. discriminate. Qed.
Lemma tri_verts_b f a b c : Spec.Tri m f a b c -> In a (m_verts m) /\ In b (m_verts m) /\ In c (m_verts m) /\ a <> b /\ b <> c /\ a <> c.
Proof.
  intros (x & y & z & H & N1 & N2 & N3 & Sx & Sy & Sz). assert (Ix : In x (m_hes m)) by (apply H; auto). assert (Iy : In y (m_hes m)) by (apply H; auto). assert (Iz : In z (m_hes m)) by (apply H; auto).
  split; [apply (src_in m Wm x a Ix Sx)|]. split; [apply (src_in m Wm y b Iy Sy)|]. split; [apply (src_in m Wm z c Iz Sz)|].
  assert (D : forall h k u v, In h (m_hes m) -> h_next m h = Some k -> h_src m h = Some u -> h_src m k = Some v -> u <> v).
  { intros h k u v Ih Nh Su Sv E. subst v. destruct (wf_rev m Wm h Ih) as (r & Er & _). apply (valid_noloops m Vm h Ih). unfold dst_of. rewrite Er, <- (wf_dst m Wm h k r Ih Nh Er). congruence. }
  split; [apply (D x y); assumption|]. split; [apply (D y z); assumption|]. intros E. apply (D z x c a Iz N3 Sz Sx). congruence.
Qed.
Lemma reg_weight_b y : In y (m_hes m) -> wgt m true y = kappa.
Proof.
  intros Iy. destruct (wf_src m Wm y Iy) as (v & Sy & Iv). destruct (dst_pos m Wm y Iy) as (w & Dy & Iw & _).
  destruct (cot_inner m Vm y v w Iy Sy Dy (reg_nobd_b v)) as (f & g & a & b & T1 & T2 & ->).
  apply tri_verts_b in T1 as (_ & _ & Ia & A1 & A2 & A3). apply tri_verts_b in T2 as (_ & _ & Ib & B1 & B2 & B3).
  destruct (vat_of m v Iv) as (i & Hi & ->). destruct (vat_of m w Iw) as (j & Hj & ->). destruct (vat_of m a Ia) as (k & Hk & ->). destruct (vat_of m b Ib) as (l & Hl & ->). rewrite reg_len_b in Hi, Hj, Hk, Hl.
  rewrite !reg_pos_b by assumption. rewrite (reg_cotan_b i k j), (reg_cotan_b i l j); try assumption; try (intros ->; congruence). lra.
Qed.
Lemma reg_cv_b i : (i < 4)%nat -> exists c, lap_cv m true i = Some c.
Proof.
  intros Hi. assert (Hi' : (i < length (m_verts m))%nat) by (rewrite reg_len_b; exact Hi). destruct (vert_ring_ok m Wm i (vat m i) (vat_nth m i Hi')) as [(_ & _ & Hin) Hn].
  unfold lap_cv. assert (E : wsum m true (vert_ring m i) = _) by exact (wsum_gen m true (vert_ring m i) vzero (@nzero NumR)). rewrite E. cbn [fst snd]. unfold Vec.vdiv. rewrite reqb_false; [eauto|].
  assert (P : 0 < rsum (map (wgt m true) (vert_ring m i))); [|change (@nzero NumR) with 0; lra].
  assert (Q : forall y, In y (vert_ring m i) -> wgt m true y = kappa) by (intros y Hy; apply reg_weight_b; apply Hin in Hy; apply Hy). assert (K := kappa_pos).
  revert Hn Q. generalize (vert_ring m i). intros l Hn Q. destruct l as [|y l]; [contradiction|]. cbn [map]. rewrite rsum_cons, (Q y (or_introl eq_refl)).
  assert (0 <= rsum (map (wgt m true) l)); [|lra]. apply rsum_nonneg. intros x Hx. rewrite (Q x (or_intror Hx)). lra.
Qed.
Lemma reg_cot_pass_b eps : exists m', smoothLaplacian (N := NumR) eps true 1 m (Ok m').
Proof.
  destruct (pass m Wm (lap_centroid true) (lap_cv m true) (loc_lap_centroid m _ true) (lap_solo m true Wm) eps) as (r & (o & Ho & Er) & _ & C).
  destruct C as [(m' & E & _) | (_ & i & Hi & Ei)]; [|rewrite reg_len_b in Hi; destruct (reg_cv_b i Hi) as (c & Ec); congruence].
  exists m'. apply (rep_S _ 0%nat 0%nat m m'); [exists o; split; [exact Ho|congruence]|apply rep_0].
Qed.
End B.


Lemma smoothing_order_ex : exists (m m' : mesh NumR) v v' m1 m1' m2 m2', mesh_of regR ix_tetra = Ok m /\ mesh_of regB ix_tetra = Ok m' /\ SameSurface (N := NumR) m m' /\ Closed m /\
  (forall u u', In u (m_verts m) -> In u' (m_verts m') -> v_pos m u = v_pos m' u' -> v_lock m u = v_lock m' u') /\ (forall u, In u (m_verts m) -> v_lock m u = false) /\ In v (m_verts m) /\ In v' (m_verts m') /\ v_pos m v = v_pos m' v' /\
  nth_error (m_verts m) 0 = Some v /\ nth_error (m_verts m') 1 = Some v' /\
  smoothLaplacian (N := NumR) (/ 2) true 1 m (Ok m1) /\ smoothLaplacian (N := NumR) (/ 2) true 1 m' (Ok m1') /\ smoothTaubin (N := NumR) (/ 2) (/ 3) 4 m (Ok m2) /\ smoothTaubin (N := NumR) (/ 2) (/ 3) 4 m' (Ok m2').
Proof.
  destruct measured_ex as (m & m' & v & v' & E & E' & SS & Iv & Iv' & Q & _ & _ & N1 & N2).
  destruct regR_all as (n & En & V & C & P & L & _). assert (n = m) by congruence. subst n.
  destruct (tet_mesh _ _ _ _ regB_distinct) as (n & En' & S' & P'). change (mesh_of regB ix_tetra = Ok n) in En'. assert (n = m') by congruence. subst n. assert (V' := so_valid _ _ S'). assert (C' := tetraR_closed m' S').
  assert (NN : NoNaN regB ix_tetra) by (intros i p _ _; apply veqb_real; reflexivity).
  destruct (reg_cot_pass m V C P (/ 2)) as (m1 & H1). destruct (reg_cot_pass_b m' V' C' P' (/ 2)) as (m1' & H1').
  destruct (taubin_total (/ 2) (/ 3) 4 m (valid_wf m V)) as (m2 & H2 & _). destruct (taubin_total (/ 2) (/ 3) 4 m' (valid_wf m' V')) as (m2' & H2' & _).
  exists m, m', v, v', m1, m1', m2, m2'. split; [exact E|]. split; [exact E'|]. split; [exact SS|]. split; [exact C|]. assert (L' : forall u, In u (m_verts m') -> v_lock m' u = false) by apply (faithful regB ix_tetra m' NN E'). split; [intros u u' A B _; rewrite (L u A), (L' u' B); reflexivity|]. split; [exact L|]. auto 20.
Qed.
