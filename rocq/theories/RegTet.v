(** A regular tetrahedron with real coordinates: all its cotangent weights are equal. *)
From Coq Require Import Reals Lra Lia List ZArith Bool Arith.
From Verif Require Import Num NumInst Vec VecR Heap Mesh Construct Spec BuildSpec BuildProps Built Rings Witness Examples GeomSpec ExamplesR Prog SmoothSpec Smooth SmoothP SmoothD SmoothR MeasureM LaplP LaplM FilterSpec SmoothF.
Import ListNotations.
Local Open Scope R_scope.

Definition regR : list vecR := [v3 1 1 1; v3 1 (-1) (-1); v3 (-1) 1 (-1); v3 (-1) (-1) 1].
Lemma regR_distinct : PosDistinct regR.
Proof.
  intros i j p q Hi Hj E. apply veqb_real in E. subst q.
  destruct i as [|[|[|[|i]]]]; cbn [regR nth_error] in Hi; [| | | |destruct i; discriminate Hi]; injection Hi as <-;
  destruct j as [|[|[|[|j]]]]; cbn [regR nth_error] in Hj; try reflexivity; try (destruct j; discriminate Hj); exfalso; injection Hj; unfold v3; rn; intros; lra.
Qed.
Lemma regR_mesh : exists m : mesh NumR, mesh_of regR ix_tetra = Ok m /\ SurfaceOf m (triples ix_tetra) /\ positions m = regR.
Proof.
  destruct (ex_tetra_welded (fun x => x) (fun x => x) (fun x _ => x)) as (D & ND & NE & _ & F).
  apply (accepts_manifold regR ix_tetra regR ix_tetra); [|exact D|exact ND|exact NE|exact F].
  apply Welded_id.
  - intros i p _ _. apply veqb_real. reflexivity.
  - exact regR_distinct.
  - apply rangeb_ok. reflexivity.
  - intros j Hj. cbn [regR length] in Hj. destruct j as [|[|[|[|j]]]]; [exists 0%nat|exists 1%nat|exists 2%nat|exists 4%nat|lia]; (split; [reflexivity|]); intros k' j' Lk Hk;
      destruct k' as [|[|[|[|k']]]]; try lia; cbn [ix_tetra nth_error] in Hk; injection Hk as <-; lia.
Qed.
Lemma regR_all : exists m : mesh NumR, mesh_of regR ix_tetra = Ok m /\ Valid m /\ Closed m /\ positions m = regR /\ (forall v, In v (m_verts m) -> v_lock m v = false) /\ SurfaceOf m (triples ix_tetra).
Proof.
  destruct regR_mesh as (m & E & S & P). exists m. split; [exact E|]. split; [exact (so_valid _ _ S)|]. split; [exact (tetraR_closed m S)|]. split; [exact P|].
  assert (NN : NoNaN regR ix_tetra) by (intros i p _ _; apply veqb_real; reflexivity). split; [apply (faithful regR ix_tetra m NN E)|exact S].
Qed.

Definition kappa : R := 4 / Rmax (sqrt 48) (/ 10 ^ 6).
Lemma kappa_pos : 0 < kappa.
Proof. unfold kappa. apply Rdiv_lt_0_compat; [lra|]. apply Rlt_le_trans with (sqrt 48); [apply sqrt_lt_R0; lra|apply Rmax_l]. Qed.
Lemma reg_cotan i j k : (i < 4)%nat -> (j < 4)%nat -> (k < 4)%nat -> i <> j -> j <> k -> i <> k -> cotan (nth i regR vzero) (nth j regR vzero) (nth k regR vzero) = kappa.
Proof.
  intros Hi Hj Hk N1 N2 N3. unfold cotan, kappa, Vec.vlength. rewrite !dot_eq.
  assert (E : forall a b c d : R, a = c -> b = d -> a / Rmax (sqrt b) (/ 10 ^ 6) = c / Rmax (sqrt d) (/ 10 ^ 6)) by (intros; subst; reflexivity).
  destruct i as [|[|[|[|i]]]]; try lia; destruct j as [|[|[|[|j]]]]; try lia; destruct k as [|[|[|[|k]]]]; try lia; cbn [nth regR]; apply E; unfold cross, vsub, vadd, vneg, v3; rn; ring.
Qed.

Section M.
Variable m : mesh NumR.
Hypothesis Vm : Valid m.
Hypothesis Cm : Closed m.
Hypothesis Pm : positions m = regR.
Let Wm := valid_wf m Vm.
Lemma reg_len : length (m_verts m) = 4%nat.
Proof. apply (f_equal (@length _)) in Pm. unfold positions in Pm. rewrite map_length in Pm. exact Pm. Qed.
Lemma reg_pos i : (i < 4)%nat -> v_pos m (vat m i) = nth i regR vzero.
Proof. intros Hi. rewrite <- Pm. unfold positions, vat. rewrite (nth_indep _ vzero (v_pos m 0%nat)) by (rewrite map_length, reg_len; exact Hi). rewrite map_nth. reflexivity. Qed.
Lemma reg_nobd v : ~ on_boundary m v.
Proof. intros (h & Ih & _ & B). rewrite (Cm h Ih) in B. discriminate. Qed.
Lemma tri_verts f a b c : Tri m f a b c -> In a (m_verts m) /\ In b (m_verts m) /\ In c (m_verts m) /\ a <> b /\ b <> c /\ a <> c.
Proof.
  intros (x & y & z & H & N1 & N2 & N3 & Sx & Sy & Sz). assert (Ix : In x (m_hes m)) by (apply H; auto). assert (Iy : In y (m_hes m)) by (apply H; auto). assert (Iz : In z (m_hes m)) by (apply H; auto).
  split; [apply (src_in m Wm x a Ix Sx)|]. split; [apply (src_in m Wm y b Iy Sy)|]. split; [apply (src_in m Wm z c Iz Sz)|].
  assert (D : forall h k u v, In h (m_hes m) -> h_next m h = Some k -> h_src m h = Some u -> h_src m k = Some v -> u <> v).
  { intros h k u v Ih Nh Su Sv E. subst v. destruct (wf_rev m Wm h Ih) as (r & Er & _). apply (valid_noloops m Vm h Ih). unfold dst_of. rewrite Er, <- (wf_dst m Wm h k r Ih Nh Er). congruence. }
  split; [apply (D x y); assumption|]. split; [apply (D y z); assumption|]. intros E. apply (D z x c a Iz N3 Sz Sx). congruence.
Qed.
Lemma reg_weight y : In y (m_hes m) -> wgt m true y = kappa.
Proof.
  intros Iy. destruct (wf_src m Wm y Iy) as (v & Sy & Iv). destruct (dst_pos m Wm y Iy) as (w & Dy & Iw & _).
  destruct (cot_inner m Vm y v w Iy Sy Dy (reg_nobd v)) as (f & g & a & b & T1 & T2 & ->).
  apply tri_verts in T1 as (_ & _ & Ia & A1 & A2 & A3). apply tri_verts in T2 as (_ & _ & Ib & B1 & B2 & B3).
  destruct (vat_of m v Iv) as (i & Hi & ->). destruct (vat_of m w Iw) as (j & Hj & ->). destruct (vat_of m a Ia) as (k & Hk & ->). destruct (vat_of m b Ib) as (l & Hl & ->). rewrite reg_len in Hi, Hj, Hk, Hl.
  rewrite !reg_pos by assumption. rewrite (reg_cotan i k j), (reg_cotan i l j); try assumption; try (intros ->; congruence). lra.
Qed.
Lemma reg_cv i : (i < 4)%nat -> exists c, lap_cv m true i = Some c.
Proof.
  intros Hi. assert (Hi' : (i < length (m_verts m))%nat) by (rewrite reg_len; exact Hi). destruct (vert_ring_ok m Wm i (vat m i) (vat_nth m i Hi')) as [(_ & _ & Hin) Hn].
  unfold lap_cv. assert (E : wsum m true (vert_ring m i) = _) by exact (wsum_gen m true (vert_ring m i) vzero (@nzero NumR)). rewrite E. cbn [fst snd]. unfold Vec.vdiv. rewrite reqb_false; [eauto|].
  assert (P : 0 < rsum (map (wgt m true) (vert_ring m i))); [|change (@nzero NumR) with 0; lra].
  assert (Q : forall y, In y (vert_ring m i) -> wgt m true y = kappa) by (intros y Hy; apply reg_weight; apply Hin in Hy; apply Hy). assert (K := kappa_pos).
  revert Hn Q. generalize (vert_ring m i). intros l Hn Q. destruct l as [|y l]; [contradiction|]. cbn [map]. rewrite rsum_cons, (Q y (or_introl eq_refl)).
  assert (0 <= rsum (map (wgt m true) l)); [|lra]. apply rsum_nonneg. intros x Hx. rewrite (Q x (or_intror Hx)). lra.
Qed.
Lemma reg_cot_pass eps : exists m', smoothLaplacian (N := NumR) eps true 1 m (Ok m').
Proof.
  destruct (pass m Wm (lap_centroid true) (lap_cv m true) (loc_lap_centroid m _ true) (lap_solo m true Wm) eps) as (r & (o & Ho & Er) & _ & C).
  destruct C as [(m' & E & _) | (_ & i & Hi & Ei)]; [|rewrite reg_len in Hi; destruct (reg_cv i Hi) as (c & Ec); congruence].
  exists m'. apply (rep_S _ 0%nat 0%nat m m'); [exists o; split; [exact Ho|congruence]|apply rep_0].
Qed.
End M.

(** Cotangent smoothing of the regular tetrahedron ends normally. *)
Lemma smoothing_ex : exists m m1 m2 : mesh NumR, mesh_of regR ix_tetra = Ok m /\ Valid m /\ length (m_verts m) = 4%nat /\ (forall v, In v (m_verts m) -> v_lock m v = false /\ ~ on_boundary m v) /\
  smoothLaplacian (N := NumR) (/ 2) true 1 m (Ok m1) /\ smoothTaubin (N := NumR) (/ 2) (/ 3) 4 m (Ok m2).
Proof.
  destruct regR_all as (m & E & V & C & P & L & _). destruct (reg_cot_pass m V C P (/ 2)) as (m1 & H1). destruct (taubin_total (/ 2) (/ 3) 4 m (valid_wf m V)) as (m2 & H2 & _).
  exists m, m1, m2. split; [exact E|]. split; [exact V|]. split; [apply (reg_len m P)|]. split; [intros v Iv; split; [apply L, Iv|apply reg_nobd, C]|]. split; [exact H1|exact H2].
Qed.
(** All its edges have a cotangent weight. *)
Lemma weights_ex : exists m : mesh NumR, mesh_of regR ix_tetra = Ok m /\ Valid m /\ (exists u v, adj m u v) /\ forall u v, adj m u v -> cotangent_weight m u v kappa.
Proof.
  destruct regR_all as (m & E & V & C & P & L & _). assert (W := valid_wf m V). exists m. split; [exact E|]. split; [exact V|]. split.
  - assert (H0 : (0 < length (m_verts m))%nat) by (rewrite (reg_len m P); lia). destruct (wf_vhe m W _ (vat_in m 0 H0)) as (h & _ & Ih & Sh). destruct (dst_pos m W h Ih) as (d & Ed & _). exists (vat m 0), d, h. auto.
  - intros u v (h & Ih & Sh & Dh). rewrite <- (reg_weight m V C P h Ih). apply (cot_inner m V h u v Ih Sh Dh). apply reg_nobd, C.
Qed.
