(** The queue of simplifyQEM in exact arithmetic. *)
From Coq Require Import Reals Lra Bool List ZArith Arith Lia.
From Verif Require Import Num NumInst Vec VecR Heap Mesh Construct Spec GeomSpec Orbit Rings Queries Indices Means MeasureM FilterSpec LaplP LaplM LinR Prog ProgP SmoothSpec SmoothP Wp Simplify Qem L0Spec QemSpec QemR.
Import ListNotations.
Local Open Scope R_scope.

Lemma mats_app L L' i j : mats (L ++ L') i j = mats L i j + mats L' i j.
Proof. unfold mats, total. rewrite map_app. apply rsum_app. Qed.
Section M.
Variable m : mesh NumR.
Hypothesis Vm : Valid m.
Let Wm := valid_wf m Vm.
Local Open Scope nat_scope.

(** The vector whose products are the quadric of face [f]. *)
Definition kf (f : nat) : four := hom (N := NumR) (face_normal m f) (- dot (face_normal m f) (v_pos m (c1 m (vid (f_he m f))))).
Definition at_vertex (l : list nat) (v : nat) : list four := map kf (filter (corner m v) (filter (fun f => negb (flagged m f)) l)).
Definition Quads (Qs : list (mat4 NumR)) (l : list nat) : Prop :=
  length Qs = length (m_verts m) /\ forall k v, nth_error (m_verts m) k = Some v -> exists Q, nth_error Qs k = Some Q /\ forall i j, Q i j = mats (at_vertex l v) i j.

Lemma flagged_ok f : In f (m_faces m) -> f_isBoundary (Some f) m = Ok (flagged m f, m).
Proof.
  intros If. assert (H := wp_f_isBoundary (fun _ => False) m Wm f (fun b m' => m' = m /\ b = flagged m f) If).
  assert (G : wp (fun _ => False) (f_isBoundary (Some f)) m (fun b m' => m' = m /\ b = flagged m f)).
  { apply H. intros b Hb. split; [reflexivity|]. apply eq_true_iff_eq. rewrite Hb. unfold flagged. rewrite existsb_exists. split.
    - intros (h & Ih & Fh & Bh). exists h. split; [exact Ih|]. rewrite Fh, Bh. cbn [ptr_eqb]. rewrite Nat.eqb_refl. reflexivity.
    - intros (h & Ih & E). apply andb_true_iff in E as [E1 E2]. exists h. split; [exact Ih|]. split; [|exact E2]. destruct (h_face m h) as [g|]; [|discriminate]. cbn in E1. apply Nat.eqb_eq in E1. congruence. }
  unfold wp in G. destruct (f_isBoundary (Some f) m) as [[b m']| | |]; try contradiction. destruct G as [-> ->]. reflexivity.
Qed.
Lemma vread k v : nth_error (m_verts m) k = Some v -> ve_idx (Some v) m = Ok (Z.of_nat k, m) /\ ve_pos (Some v) m = Ok (v_pos m v, m).
Proof. intros Hk. destruct (wf_v_elem m Wm k v Hk) as (Lv & Xv & _). rewrite <- Xv. split; [apply r_vidx, Lv|apply r_pos, Lv]. Qed.
Lemma inc_ok (Qs : list (mat4 NumR)) k Q K : nth_error Qs k = Some Q -> mat_inc (N := NumR) Qs (Z.of_nat k) K m = Ok (setnth Qs k (madd (N := NumR) Q K), m).
Proof. intros E. unfold mat_inc, mat_at, bind. destruct (Z.ltb_spec (Z.of_nat k) 0); [lia|]. rewrite Nat2Z.id, E. reflexivity. Qed.
Lemma at_ok (Qs : list (mat4 NumR)) k Q : nth_error Qs k = Some Q -> mat_at (N := NumR) Qs (Z.of_nat k) m = Ok (Q, m).
Proof. intros E. unfold mat_at. destruct (Z.ltb_spec (Z.of_nat k) 0); [lia|]. rewrite Nat2Z.id, E. reflexivity. Qed.
Lemma at_snoc l f v : at_vertex (l ++ [f]) v = at_vertex l v ++ (if negb (flagged m f) && corner m v f then [kf f] else []).
Proof.
  unfold at_vertex. rewrite filter_app. cbn [filter]. destruct (flagged m f); cbn [negb andb]; [rewrite !app_nil_r; reflexivity|]. rewrite filter_app. cbn [filter]. rewrite map_app. destruct (corner m v f); reflexivity.
Qed.
Lemma quads_same Qs l f : Quads Qs l -> (forall v, negb (flagged m f) && corner m v f = false) -> Quads Qs (l ++ [f]).
Proof. intros [L H] C. split; [exact L|]. intros k v Hk. destruct (H k v Hk) as (Q & E & F). exists Q. split; [exact E|]. intros i j. rewrite at_snoc, C, app_nil_r. apply F. Qed.
Lemma vdivR (a : vecR) (s : R) : s <> 0%R -> Vec.vdiv (N := NumR) a s = Some (vscale (/ s) a).
Proof.
  intros E. unfold Vec.vdiv. change (@neqb NumR) with Reqb. unfold Reqb. change (@nzero NumR) with 0%R. destruct (Req_EM_T s 0); [contradiction|]. reflexivity.
Qed.
Lemma face_step Qs l i f : Quads Qs l -> nth_error (m_faces m) i = Some f -> exists Qs', face_quadric (N := NumR) Qs i m = Ok (Some Qs', m) /\ Quads Qs' (l ++ [f]).
Proof.
  intros HQ E. assert (If := nth_error_In _ _ E). unfold face_quadric.
  assert (EF : mesh_face (Z.of_nat i) m = Ok (Some f, m)) by (rewrite mesh_face_eq, E; reflexivity). rewrite (bind_ok _ _ _ _ _ EF), (bind_ok _ _ _ _ _ (flagged_ok f If)).
  destruct (flagged m f) eqn:Ff; [exists Qs; split; [reflexivity|apply quads_same; [exact HQ|rewrite Ff; reflexivity]]|].
  assert (Nh : hole m f = false). { destruct (hole m f) eqn:Hf; [|reflexivity]. destruct (wf_fhe m Wm f If) as (h & _ & Ih & Fh). assert (B := proj1 (hole_spec m f) Hf h Ih Fh). assert (X : flagged m f = true); [|congruence].
    unfold flagged. apply existsb_exists. exists h. split; [exact Ih|]. rewrite Fh, B. cbn [ptr_eqb]. rewrite Nat.eqb_refl. reflexivity. }
  destruct (surface_tri m f Vm If Nh) as (x & y & z & a & b & c & Ex & K & E1 & E2 & E3 & Sx & Sy & Sz & Nab & Nbc & Nca & Ia & Ib & Ic).
  assert (Ix : In x (m_hes m)) by (apply K; tauto). assert (Iy : In y (m_hes m)) by (apply K; tauto). assert (Iz : In z (m_hes m)) by (apply K; tauto).
  assert (R : Fring m f [x; y; z]). { split; [cbn [cyc chainto]; auto|]. split; [|intros h; cbn [In]; rewrite K; split; intros Q; intuition]. assert (x <> y) by congruence. assert (y <> z) by congruence. assert (z <> x) by congruence. clear - H H0 H1. repeat constructor; cbn [In]; intuition. }
  rewrite (bind_ok _ _ _ _ _ (f_vertices_ok m Wm f x [y; z] If Ex R)). cbn [map]. rewrite Sx, Sy, Sz.
  destruct (In_nth_error _ _ Ia) as (ia & Ha). destruct (In_nth_error _ _ Ib) as (ib & Hb). destruct (In_nth_error _ _ Ic) as (ic & Hc).
  destruct (vread ia a Ha) as [Xa Pa]. destruct (vread ib b Hb) as [Xb Pb]. destruct (vread ic c Hc) as [Xc Pc].
  rewrite (bind_ok _ _ _ _ _ Pb), (bind_ok _ _ _ _ _ Pa), (bind_ok _ _ _ _ _ Pc). cbv zeta.
  set (nn := cross (vsub (v_pos m b) (v_pos m a)) (vsub (v_pos m c) (v_pos m a))).
  assert (Dp : (vlength nn + / 10 ^ 12)%R <> 0%R). { assert (P := vlength_pos nn). assert (0 < / 10 ^ 12)%R by (apply Rinv_0_lt_compat, pow_lt; lra). lra. }
  assert (EL : lift (Vec.vdiv (N := NumR) nn (nadd (vlength nn) neps12)) m = Ok (vscale (/ (vlength nn + / 10 ^ 12)) nn, m)).
  { change (nadd (vlength nn) neps12) with (vlength nn + / 10 ^ 12)%R. rewrite (vdivR nn _ Dp). reflexivity. }
  rewrite (bind_ok _ _ _ _ _ EL). clear EL.
  assert (Cs : c1 m x = a /\ c3 m x = b /\ c2 m x = c).
  { assert (Dn : forall p q, In p (m_hes m) -> h_next m p = Some q -> dst_of m p = h_src m q) by (intros p q Ip Nx; destruct (wf_rev m Wm p Ip) as (r & Er & _); unfold dst_of; rewrite Er; symmetry; apply (wf_dst m Wm p q r Ip Nx Er)).
    unfold c1, c2, c3, tip. rewrite Sx, E1, (Dn x y Ix E1), Sy, (Dn y z Iy E2), Sz. auto. }
  destruct Cs as (C1 & C3 & C2).
  assert (EN : vscale (/ (vlength nn + / 10 ^ 12)) nn = face_normal m f) by (unfold face_normal, qem_normal; rewrite Ex; cbn [vid]; rewrite C1, C2, C3; reflexivity). rewrite EN.
  destruct HQ as [LQ HQ]. destruct (HQ ia a Ha) as (Qa & Ea & Fa). destruct (HQ ib b Hb) as (Qb & Eb & Fb). destruct (HQ ic c Hc) as (Qc & Ec & Fc).
  assert (Dab : ia <> ib) by congruence. assert (Dbc : ib <> ic) by congruence. assert (Dca : ic <> ia) by congruence.
  assert (La : ia < length Qs) by (apply nth_error_Some; congruence). assert (Lb : ib < length Qs) by (apply nth_error_Some; congruence). assert (Lc : ic < length Qs) by (apply nth_error_Some; congruence).
  set (Kf := quadric (N := NumR) (face_normal m f) (v_pos m a)).
  assert (EK : forall i j, Kf i j = (kf f i * kf f j)%R) by (intros p q; unfold Kf, quadric, kf; rewrite Ex; cbn [vid]; rewrite C1; reflexivity).
  rewrite (bind_ok _ _ _ _ _ Xa), (bind_ok _ _ _ _ _ (inc_ok Qs ia Qa Kf Ea)).
  set (Q1 := setnth Qs ia (madd (N := NumR) Qa Kf)). assert (G1 : forall k, nth_error Q1 k = if Nat.eqb ia k then Some (madd (N := NumR) Qa Kf) else nth_error Qs k) by (intros k; apply set_lt, La). assert (L1 : length Q1 = length Qs) by apply setnth_length. clearbody Q1.
  assert (Eb1 : nth_error Q1 ib = Some Qb). { rewrite G1. destruct (Nat.eqb_spec ia ib); [contradiction|exact Eb]. }
  rewrite (bind_ok _ _ _ _ _ Xb), (bind_ok _ _ _ _ _ (inc_ok Q1 ib Qb Kf Eb1)).
  set (Q2 := setnth Q1 ib (madd (N := NumR) Qb Kf)). assert (G2 : forall k, nth_error Q2 k = if Nat.eqb ib k then Some (madd (N := NumR) Qb Kf) else nth_error Q1 k) by (intros k; apply set_lt; lia). assert (L2 : length Q2 = length Qs) by (unfold Q2; rewrite setnth_length; exact L1). clearbody Q2.
  assert (Ec2 : nth_error Q2 ic = Some Qc). { rewrite G2, G1. destruct (Nat.eqb_spec ib ic); [contradiction|]. destruct (Nat.eqb_spec ia ic); [congruence|exact Ec]. }
  rewrite (bind_ok _ _ _ _ _ Xc), (bind_ok _ _ _ _ _ (inc_ok Q2 ic Qc Kf Ec2)).
  set (Q3 := setnth Q2 ic (madd (N := NumR) Qc Kf)). assert (G3 : forall k, nth_error Q3 k = if Nat.eqb ic k then Some (madd (N := NumR) Qc Kf) else nth_error Q2 k) by (intros k; apply set_lt; lia). assert (L3 : length Q3 = length Qs) by (unfold Q3; rewrite setnth_length; exact L2). clearbody Q3.
  exists Q3. split; [reflexivity|]. split; [lia|]. intros k v Hk.
  assert (CN : corner m v f = true <-> v = a \/ v = b \/ v = c).
  { unfold corner. rewrite existsb_exists. split.
    - intros (h & Ih & Eh). apply andb_true_iff in Eh as [X1 X2]. destruct (h_face m h) as [g|] eqn:Fh; [|discriminate]. cbn in X1. apply Nat.eqb_eq in X1. subst g. destruct (h_src m h) as [u|] eqn:Sh; [|discriminate]. cbn in X2. apply Nat.eqb_eq in X2. subst u.
      destruct (proj1 (K h) (conj Ih Fh)) as [-> | [-> | ->]]; [left|right; left|right; right]; congruence.
    - assert (FF : forall h, h = x \/ h = y \/ h = z -> In h (m_hes m) /\ h_face m h = Some f) by (intros h Hh; apply K, Hh).
      intros [-> | [-> | ->]]; [exists x; destruct (FF x) as [I F]; [tauto|]; rewrite F, Sx|exists y; destruct (FF y) as [I F]; [tauto|]; rewrite F, Sy|exists z; destruct (FF z) as [I F]; [tauto|]; rewrite F, Sz]; (split; [exact I|]); cbn [ptr_eqb]; rewrite !Nat.eqb_refl; reflexivity. }
  assert (Hit : forall Q, (v = a \/ v = b \/ v = c) -> (forall i j, Q i j = mats (at_vertex l v) i j) -> forall i j, madd (N := NumR) Q Kf i j = mats (at_vertex (l ++ [f]) v) i j).
  { intros Q Hv FQ p q. rewrite at_snoc, Ff, (proj2 CN Hv). cbn [negb andb]. rewrite mats_app. unfold madd. change (@nadd NumR) with Rplus. rewrite FQ, EK. f_equal. unfold mats, total. cbn [map fold_right]. symmetry. apply Rplus_0_r. }
  rewrite G3. destruct (Nat.eqb_spec ic k) as [<-|D3]; [exists (madd (N := NumR) Qc Kf); split; [reflexivity|]; assert (v = c) by congruence; subst v; apply Hit; [tauto|exact Fc]|].
  rewrite G2. destruct (Nat.eqb_spec ib k) as [<-|D2]; [exists (madd (N := NumR) Qb Kf); split; [reflexivity|]; assert (v = b) by congruence; subst v; apply Hit; [tauto|exact Fb]|].
  rewrite G1. destruct (Nat.eqb_spec ia k) as [<-|D1]; [exists (madd (N := NumR) Qa Kf); split; [reflexivity|]; assert (v = a) by congruence; subst v; apply Hit; [tauto|exact Fa]|].
  destruct (HQ k v Hk) as (Q & EQ & FQ). exists Q. split; [exact EQ|]. intros p q. rewrite at_snoc, Ff. cbn [negb andb]. destruct (corner m v f) eqn:Cv; [|rewrite app_nil_r; apply FQ].
  exfalso. assert (U := NoDup_nth_error (m_verts m)). assert (ND : NoDup (m_verts m)) by apply (wf_v_nodup m Wm). destruct (proj1 CN eq_refl) as [-> | [-> | ->]]; [apply D1|apply D2|apply D3]; apply (proj1 U ND); [apply nth_error_Some; congruence|congruence|apply nth_error_Some; congruence|congruence|apply nth_error_Some; congruence|congruence].
Qed.
Lemma faces_run l2 : forall l1 Qs, m_faces m = l1 ++ l2 -> Quads Qs l1 -> exists Qs', face_quadrics (N := NumR) Qs (seq (length l1) (length l2)) m = Ok (Some Qs', m) /\ Quads Qs' (m_faces m).
Proof.
  induction l2 as [|f l2 IH]; intros l1 Qs E H; cbn [length seq face_quadrics]; [exists Qs; rewrite E, app_nil_r; split; [reflexivity|exact H]|].
  assert (Ef : nth_error (m_faces m) (length l1) = Some f) by (rewrite E, nth_error_app2, Nat.sub_diag by lia; reflexivity).
  destruct (face_step Qs l1 (length l1) f H Ef) as (Q1 & E1 & H1). rewrite (bind_ok _ _ _ _ _ E1).
  destruct (IH (l1 ++ [f]) Q1) as (Q2 & E2 & H2); [rewrite <- app_assoc; exact E|exact H1|]. rewrite app_length in E2. cbn [length] in E2. rewrite Nat.add_1_r in E2. exists Q2. auto.
Qed.
Lemma quadrics_ok : exists Qs, all_quadrics (N := NumR) m = Ok (Some Qs, m) /\ Quads Qs (m_faces m).
Proof.
  apply (faces_run (m_faces m) [] (repeat mat0 (length (m_verts m)))); [reflexivity|]. split; [apply repeat_length|]. intros k v Hk. exists mat0. split; [|reflexivity].
  assert (L : k < length (m_verts m)) by (apply nth_error_Some; congruence). clear - L. revert k L. induction (length (m_verts m)) as [|n IH]; intros k L; [lia|]. destruct k as [|k]; [reflexivity|]. cbn. apply IH. lia.
Qed.
(** What is read for the half-edge [h]. *)
Definition Read (h : nat) (d : ptr * (mat4 NumR * mat4 NumR) * (vecR * vecR)) : Prop :=
  let '(p, (q1, q2), (p1, p2)) := d in p = Some h /\ p1 = v_pos m (c1 m h) /\ p2 = v_pos m (c3 m h) /\
  forall i j, (q1 i j + q2 i j)%R = mats (at_vertex (m_faces m) (c1 m h) ++ at_vertex (m_faces m) (c3 m h)) i j.
Lemma edge_read Qs i h : Quads Qs (m_faces m) -> nth_error (m_hes m) i = Some h -> exists d, edge_data (N := NumR) Qs i m = Ok (d, m) /\ Read h d.
Proof.
  intros [_ HQ] E. assert (Ih := nth_error_In _ _ E). unfold edge_data.
  assert (EH : mesh_halfedge (Z.of_nat i) m = Ok (Some h, m)) by (rewrite mesh_halfedge_eq, E; reflexivity).
  rewrite (bind_ok _ _ _ _ _ EH). destruct (wf_src m Wm h Ih) as (u & Su & Iu). destruct (dst_ptr m h Wm Ih) as (w & Dw & Iw).
  rewrite (bind_ok _ _ _ _ _ (r_src m h (h_alive m Wm h Ih))), Su, (bind_ok _ _ _ _ _ (dst_of_ok m Wm h Ih)), Dw.
  destruct (In_nth_error _ _ Iu) as (iu & Hu). destruct (In_nth_error _ _ Iw) as (iw & Hw). destruct (vread iu u Hu) as [Xu Pu]. destruct (vread iw w Hw) as [Xw Pw]. destruct (HQ iu u Hu) as (Qu & Eu & Fu). destruct (HQ iw w Hw) as (Qw & Ew & Fw).
  rewrite (bind_ok _ _ _ _ _ Xu), (bind_ok _ _ _ _ _ Xw), (bind_ok _ _ _ _ _ (at_ok Qs iu Qu Eu)), (bind_ok _ _ _ _ _ (at_ok Qs iw Qw Ew)), (bind_ok _ _ _ _ _ Pu), (bind_ok _ _ _ _ _ Pw).
  eexists. split; [reflexivity|]. unfold Read, c1, c3. rewrite Su, Dw. cbn [vid]. split; [reflexivity|]. split; [reflexivity|]. split; [reflexivity|]. intros p q. rewrite mats_app, Fu, Fw. reflexivity.
Qed.
Lemma edges_run Qs l2 : Quads Qs (m_faces m) -> forall l1, m_hes m = l1 ++ l2 -> exists ds, mmap (edge_data (N := NumR) Qs) (seq (length l1) (length l2)) m = Ok (ds, m) /\ Forall2 Read l2 ds.
Proof.
  intros HQ. induction l2 as [|h l2 IH]; intros l1 E; cbn [length seq mmap]; [exists []; split; [reflexivity|constructor]|].
  assert (Eh : nth_error (m_hes m) (length l1) = Some h) by (rewrite E, nth_error_app2, Nat.sub_diag by lia; reflexivity).
  destruct (edge_read Qs (length l1) h HQ Eh) as (d & E1 & H1). rewrite (bind_ok _ _ _ _ _ E1).
  destruct (IH (l1 ++ [h])) as (ds & E2 & H2); [rewrite <- app_assoc; exact E|]. rewrite app_length in E2. cbn [length] in E2. rewrite Nat.add_1_r in E2. rewrite (bind_ok _ _ _ _ _ E2). exists (d :: ds). split; [reflexivity|constructor; assumption].
Qed.
Local Open Scope R_scope.
Lemma lin_kf f p : lin (kf f) (hom1 p) = dot (face_normal m f) (vsub p (v_pos m (c1 m (vid (f_he m f))))).
Proof.
  unfold lin, kf, hom1, hom. rewrite !dot_eq. destruct (face_normal m f) as [a b c], p as [x y z], (v_pos m (c1 m (vid (f_he m f)))) as [u v w]. unfold vsub, vadd, vneg. rn. ring.
Qed.
Lemma at_edge h : at_vertex (m_faces m) (c1 m h) ++ at_vertex (m_faces m) (c3 m h) = map kf (edge_faces m h).
Proof. unfold edge_faces, faces_at, inner_faces. rewrite map_app. reflexivity. Qed.
Lemma err_edge h p : err (map kf (edge_faces m h)) (hom1 p) = edge_error m h p.
Proof. unfold err, edge_error, total. rewrite map_map. apply rsum_ext. intros f _. rewrite lin_kf. reflexivity. Qed.
Lemma spread_edge h : mspread (map kf (edge_faces m h)) = edge_spread m h.
Proof.
  assert (G : forall i j (fi fj : vecR -> R), (forall n d, hom (N := NumR) n d i = fi n) -> (forall n d, hom (N := NumR) n d j = fj n) -> mats (map kf (edge_faces m h)) i j = gram (map (face_normal m) (edge_faces m h)) fi fj).
  { intros i j fi fj Hi Hj. unfold mats, gram, total. rewrite !map_map. apply rsum_ext. intros f _. unfold kf. rewrite Hi, Hj. reflexivity. }
  unfold mspread, edge_spread, spread. rewrite !(G 0%nat 0%nat vx vx), !(G 0%nat 1%nat vx vy), !(G 0%nat 2%nat vx vz), !(G 1%nat 1%nat vy vy), !(G 1%nat 2%nat vy vz), !(G 2%nat 2%nat vz vz) by reflexivity. reflexivity.
Qed.
(** The nodes that go into the queue. *)
Definition entry_of (h : nat) (e : node NumR) : Prop := n_he e = Some h /\ qem_entry m h (n_value e) (n_v e).
Theorem queue_ok : exists Qs ds, all_quadrics (N := NumR) m = Ok (Some Qs, m) /\ all_edges (N := NumR) Qs (length (m_hes m)) m = Ok (ds, m) /\
  (forall que, Forall2 (is_node (N := NumR) solution4) ds que -> Forall2 entry_of (m_hes m) que) /\ exists que, Forall2 (is_node (N := NumR) solution4) ds que.
Proof.
  destruct quadrics_ok as (Qs & EQ & HQ). destruct (edges_run Qs (m_hes m) HQ [] eq_refl) as (ds & ED & HD). exists Qs, ds. split; [exact EQ|]. split; [exact ED|].
  assert (G : forall h d, Read h d -> (forall e, is_node (N := NumR) solution4 d e -> entry_of h e) /\ exists e, is_node (N := NumR) solution4 d e).
  { intros h [[p [q1 q2]] [p1 p2]] (-> & -> & -> & Hq). assert (Hq' : forall i j, (i < 4)%nat -> (j < 4)%nat -> q1 i j + q2 i j = mats (map kf (edge_faces m h)) i j) by (intros i j _ _; rewrite <- at_edge; apply Hq).
    split.
    - intros e [E1 E2]. split; [exact E1|]. destruct (computeQEM_ok _ q1 q2 _ _ _ _ Hq' E2) as (A & B & C). rewrite err_edge in A. rewrite spread_edge in B, C. split; [exact A|]. split; [|exact C].
      intros S q Nq. rewrite <- !err_edge. apply B; assumption.
    - destruct (computeQEM_exists _ q1 q2 (v_pos m (c1 m h)) (v_pos m (c3 m h)) Hq') as (c & v & E). exists (Node c (Some h) v). split; [reflexivity|exact E]. }
  clear ED. split.
  - intros que Hq. revert que Hq. induction HD as [|h d hs ds Hd _ IH]; intros que Hq; inversion Hq; subst; constructor; [apply (proj1 (G h d Hd)); assumption|apply IH; assumption].
  - induction HD as [|h d hs ds Hd _ (que & IH)]; [exists []; constructor|]. destruct (proj2 (G h d Hd)) as (e & He). exists (e :: que). constructor; assumption.
Qed.
End M.
