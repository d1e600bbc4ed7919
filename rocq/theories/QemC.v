(** When simplifyQEM contracts an edge. *)
From Coq Require Import Reals Lra Bool List ZArith Arith Lia.
From Verif Require Import Num NumInst Vec VecR Heap Mesh Construct Spec BuildSpec GeomSpec EditSpec Orbit Rings Exec Edits Queries Indices Means MeasureM FilterSpec LaplP LaplM LinR Prog ProgP SmoothSpec Smooth SmoothP SmoothEx Wp RemeshSpec Simplify SimplifyP SimplifyT RemeshR Qem QemP L0Spec QemSpec QemR QemM QemT SmoothD.
Import ListNotations.

Section C.
Variable m : mesh NumR.
Hypothesis Vm : Valid m.
Let Wm := valid_wf m Vm.

Lemma has_ptr u a b c : existsb (ptr_eqb (Some u)) [Some a; Some b; Some c] = true <-> u = a \/ u = b \/ u = c.
Proof. cbn [existsb ptr_eqb]. rewrite !orb_true_iff, !Nat.eqb_eq. intuition discriminate. Qed.
(** The corners of a triangle as the code reads them. *)
Lemma tri_facts f : In f (m_faces m) -> hole m f = false -> exists a b c, f_vertices (Some f) m = Ok ([Some a; Some b; Some c], m) /\
  In a (m_verts m) /\ In b (m_verts m) /\ In c (m_verts m) /\ c1 m (vid (f_he m f)) = a /\ c3 m (vid (f_he m f)) = b /\ c2 m (vid (f_he m f)) = c /\
  (exists x, In x (m_hes m) /\ h_face m x = Some f /\ h_src m x = Some a /\ dst_of m x = Some b) /\
  (exists x, In x (m_hes m) /\ h_face m x = Some f /\ h_src m x = Some b /\ dst_of m x = Some c) /\
  (exists x, In x (m_hes m) /\ h_face m x = Some f /\ h_src m x = Some c /\ dst_of m x = Some a) /\
  forall x v, In x (m_hes m) -> h_face m x = Some f -> h_src m x = Some v -> v = a \/ v = b \/ v = c.
Proof.
  intros If Nh. destruct (surface_tri m f Vm If Nh) as (x & y & z & a & b & c & Ex & K & E1 & E2 & E3 & Sx & Sy & Sz & Nab & Nbc & Nca & Ia & Ib & Ic).
  assert (Kx : In x (m_hes m) /\ h_face m x = Some f) by (apply K; tauto). assert (Ky : In y (m_hes m) /\ h_face m y = Some f) by (apply K; tauto). assert (Kz : In z (m_hes m) /\ h_face m z = Some f) by (apply K; tauto).
  assert (R : Fring m f [x; y; z]). { split; [cbn [cyc chainto]; auto|]. split; [|intros h; cbn [In]; rewrite K; split; intros Q; intuition]. assert (x <> y) by congruence. assert (y <> z) by congruence. assert (z <> x) by congruence. clear - H H0 H1. repeat constructor; cbn [In]; intuition. }
  assert (Dn : forall p q, In p (m_hes m) -> h_next m p = Some q -> dst_of m p = h_src m q) by (intros p q Ip Nx; destruct (wf_rev m Wm p Ip) as (r & Er & _); unfold dst_of; rewrite Er; symmetry; apply (wf_dst m Wm p q r Ip Nx Er)).
  assert (D1 := Dn x y (proj1 Kx) E1). assert (D2 := Dn y z (proj1 Ky) E2). assert (D3 := Dn z x (proj1 Kz) E3). rewrite Sy in D1. rewrite Sz in D2. rewrite Sx in D3.
  exists a, b, c. split; [rewrite (f_vertices_ok m Wm f x [y; z] If Ex R); cbn [map]; rewrite Sx, Sy, Sz; reflexivity|]. split; [exact Ia|]. split; [exact Ib|]. split; [exact Ic|].
  rewrite Ex. cbn [vid]. unfold c1, c2, c3, tip. rewrite Sx, D1, E1, D2. cbn [vid]. split; [reflexivity|]. split; [reflexivity|]. split; [reflexivity|].
  split; [exists x; tauto|]. split; [exists y; tauto|]. split; [exists z; tauto|].
  intros q v Iq Fq Sq. destruct (proj1 (K q) (conj Iq Fq)) as [-> | [-> | ->]]; [left|right; left|right; right]; congruence.
Qed.
Definition has (f v : nat) : Prop := exists x, In x (m_hes m) /\ h_face m x = Some f /\ h_src m x = Some v.
Lemma flips_exact u w p : u <> w -> forall fs, (forall f, In f fs -> In f (m_faces m) /\ hole m f = false) -> forall b, exists b', face_flips (N := NumR) (Some u) (Some w) p (map Some fs) b m = Ok (b', m) /\
  (b' = true <-> b = true \/ exists f, In f fs /\ has f u /\ has f w /\ ~ (/ 10 ^ 12 < tilt m u w p f)%R).
Proof.
  intros Nuw. induction fs as [|f fs IH]; intros H b; cbn [map face_flips]; [exists b; split; [reflexivity|]; split; [auto|intros [E | (f & [] & _)]; exact E]|].
  specialize (IH (fun g Hg => H g (or_intror Hg))). destruct (H f (or_introl eq_refl)) as [If Nh].
  destruct (tri_facts f If Nh) as (a & b0 & c & EV & Ia & Ib & Ic & Ca & Cb & Cc & (x & Ix & Fx & Sx & _) & (y & Iy & Fy & Sy & _) & (z & Iz & Fz & Sz & _) & All).
  assert (Hc : forall v, has f v <-> v = a \/ v = b0 \/ v = c). { intros v. split; [intros (q & Iq & Fq & Sq); exact (All q v Iq Fq Sq)|]. intros [-> | [-> | ->]]; [exists x|exists y|exists z]; auto. }
  rewrite (bind_ok _ _ _ _ _ EV).
  assert (EP : mmap ve_pos [Some a; Some b0; Some c] m = Ok ([v_pos m a; v_pos m b0; v_pos m c], m)).
  { unfold mmap, bind. rewrite (r_pos m a (v_alive m Wm a Ia)), (r_pos m b0 (v_alive m Wm b0 Ib)), (r_pos m c (v_alive m Wm c Ic)). reflexivity. }
  rewrite (bind_ok _ _ _ _ _ EP).
  assert (Skip : (~ has f u \/ ~ has f w) -> forall b, exists b', face_flips (N := NumR) (Some u) (Some w) p (map Some fs) b m = Ok (b', m) /\ (b' = true <-> b = true \/ exists f0, (f = f0 \/ In f0 fs) /\ has f0 u /\ has f0 w /\ ~ (/ 10 ^ 12 < tilt m u w p f0)%R)).
  { intros Hn b1. destruct (IH b1) as (b' & E & G). exists b'. split; [exact E|]. rewrite G. split; (intros [Q | (f0 & I0 & R0)]; [left; exact Q|right; exists f0]); [split; [right; exact I0|exact R0]|]. destruct I0 as [<- | I0]; [tauto|split; [exact I0|exact R0]]. }
  destruct (existsb (ptr_eqb (Some u)) [Some a; Some b0; Some c]) eqn:Eu; [|apply Skip; left; rewrite Hc, <- has_ptr, Eu; discriminate].
  destruct (existsb (ptr_eqb (Some w)) [Some a; Some b0; Some c]) eqn:Ew; [|apply Skip; right; rewrite Hc, <- has_ptr, Ew; discriminate]. clear Skip. cbn [negb orb].
  apply has_ptr in Eu. apply has_ptr in Ew. assert (Hu : has f u) by (apply Hc; exact Eu). assert (Hw : has f w) by (apply Hc; exact Ew).
  set (t := tilt m u w p f).
  assert (ET : exists r0 r1 r2, put_bar (Some u) (Some w) [Some a; Some b0; Some c] [v_pos m a; v_pos m b0; v_pos m c] p = [r0; r1; r2] /\
    @ndiv NumR (Vec.dot (Vec.cross (Vec.vsub (v_pos m c) (v_pos m a)) (Vec.vsub (v_pos m b0) (v_pos m a))) (Vec.cross (Vec.vsub r2 r0) (Vec.vsub r1 r0)))
      (nmul (Vec.vlength (Vec.cross (Vec.vsub (v_pos m c) (v_pos m a)) (Vec.vsub (v_pos m b0) (v_pos m a)))) (Vec.vlength (Vec.cross (Vec.vsub r2 r0) (Vec.vsub r1 r0)))) = t).
  { unfold t, tilt. rewrite Ca, Cb, Cc. cbn [put_bar ptr_eqb]. destruct (Nat.eqb a u || Nat.eqb a w) eqn:Ea; [exists p, (v_pos m b0), (v_pos m c); split; reflexivity|].
    apply orb_false_iff in Ea as [Ea1 Ea2]. apply Nat.eqb_neq in Ea1, Ea2.
    replace (Nat.eqb b0 u || Nat.eqb b0 w) with true; [exists (v_pos m a), p, (v_pos m c); split; reflexivity|]. symmetry. apply orb_true_iff. rewrite !Nat.eqb_eq. destruct Eu as [E | [E | E]], Ew as [E' | [E' | E']]; subst; auto; congruence. }
  destruct ET as (r0 & r1 & r2 & EB & ET). rewrite EB. cbv zeta. rewrite ET.
  destruct (IH (if @nleb NumR t neps12 then true else b)) as (b' & E & G). exists b'. split; [exact E|]. rewrite G.
  change (@nleb NumR t neps12) with (Rleb t (/ 10 ^ 12)). unfold Rleb. destruct (Rle_dec t (/ 10 ^ 12)) as [Q | Q].
  - split; [intros _|auto]. right. exists f. split; [left; reflexivity|]. split; [exact Hu|]. split; [exact Hw|]. unfold t in Q. lra.
  - split; (intros [R | (f0 & I0 & R0)]; [left; exact R|]); [right; exists f0; split; [right; exact I0|exact R0]|]. destruct I0 as [<- | I0]; [|right; exists f0; auto]. destruct R0 as (_ & _ & R0). destruct R0. unfold t in Q. lra.
Qed.
Lemma low_exact vs : (forall v, In v vs -> In v (m_verts m)) -> exists b, low_degree (N := NumR) (map Some vs) m = Ok (b, m) /\ (b = true <-> exists v, In v vs /\ deg_of m v < 4).
Proof.
  induction vs as [|v vs IH]; intros H; cbn [map low_degree]; [exists false; split; [reflexivity|]; split; [discriminate|intros (v & [] & _)]|].
  rewrite (bind_ok _ _ _ _ _ (deg_ok m v Wm (H v (or_introl eq_refl)))). destruct (Z.ltb_spec (Z.of_nat (deg_of m v)) 4) as [L | L].
  - exists true. split; [reflexivity|]. split; [intros _|reflexivity]. exists v. split; [left; reflexivity|lia].
  - destruct IH as (b & E & G); [intros w Hw; apply H; right; exact Hw|]. exists b. split; [exact E|]. rewrite G. split; intros (w & Iw & Lw); exists w; (split; [|exact Lw]); [right; exact Iw|]. destruct Iw as [<- | Iw]; [lia|exact Iw].
Qed.
Lemma nb_exact v : In v (m_verts m) -> exists vs, v_neighbors (Some v) m = Ok (map Some vs, m) /\ forall w, In w vs <-> adj m v w.
Proof.
  intros Iv. destruct (vring m Wm v Iv) as (h & l & Eh & R). rewrite (v_neighbors_ok m Wm v h l Iv Eh R). destruct R as (_ & _ & R). set (ls := h :: l) in *. clearbody ls.
  assert (G : forall l', (forall y, In y l' -> In y (m_hes m)) -> exists vs, map (dst_of m) l' = map Some vs /\ forall w, In w vs <-> exists y, In y l' /\ dst_of m y = Some w).
  { induction l' as [|y l' IH]; intros Hi; [exists []; split; [reflexivity|]; intros w; split; [intros []|intros (y & [] & _)]|]. destruct IH as (vs & E & G); [intros z Hz; apply Hi; right; exact Hz|].
    destruct (dst_pos m Wm y (Hi y (or_introl eq_refl))) as (d & Ed & _). exists (d :: vs). cbn [map]. rewrite Ed, E. split; [reflexivity|]. intros w. cbn [In]. rewrite G. split.
    - intros [<- | (z & Iz & Ez)]; [exists y; auto|exists z; auto].
    - intros (z & [<- | Iz] & Ez); [left; congruence|right; exists z; auto]. }
  destruct (G ls) as (vs & E & K); [intros y Hy; apply R, Hy|]. exists vs. rewrite E. split; [reflexivity|]. intros w. rewrite K. unfold adj. split; intros (y & A & B); exists y; [apply R in A; tauto|]. split; [apply R; tauto|tauto].
Qed.
Lemma fc_exact v : In v (m_verts m) -> exists fs, v_faces (Some v) m = Ok (map Some fs, m) /\ forall f, In f fs <-> exists h, In h (m_hes m) /\ h_src m h = Some v /\ h_face m h = Some f.
Proof.
  intros Iv. destruct (vring m Wm v Iv) as (h & l & Eh & R). rewrite (v_faces_ok m Wm v h l Iv Eh R). destruct R as (_ & _ & R). set (ls := h :: l) in *. clearbody ls.
  assert (G : forall l', (forall y, In y l' -> In y (m_hes m)) -> exists vs, map (h_face m) l' = map Some vs /\ forall w, In w vs <-> exists y, In y l' /\ h_face m y = Some w).
  { induction l' as [|y l' IH]; intros Hi; [exists []; split; [reflexivity|]; intros w; split; [intros []|intros (y & [] & _)]|]. destruct IH as (vs & E & G); [intros z Hz; apply Hi; right; exact Hz|].
    destruct (wf_face m Wm y (Hi y (or_introl eq_refl))) as (d & Ed & _). exists (d :: vs). cbn [map]. rewrite Ed, E. split; [reflexivity|]. intros w. cbn [In]. rewrite G. split.
    - intros [<- | (z & Iz & Ez)]; [exists y; auto|exists z; auto].
    - intros (z & [<- | Iz] & Ez); [left; congruence|right; exists z; auto]. }
  destruct (G ls) as (vs & E & K); [intros y Hy; apply R, Hy|]. exists vs. rewrite E. split; [reflexivity|]. intros w. rewrite K. split; intros (y & A & B); exists y; [apply R in A; tauto|]. split; [apply R; tauto|tauto].
Qed.
Lemma pmem_map w vs : pmem (Some w) (map Some vs) = true <-> In w vs.
Proof.
  unfold pmem. rewrite existsb_exists. split.
  - intros (x & Ix & E). apply in_map_iff in Ix as (y & <- & Iy). cbn in E. apply Nat.eqb_eq in E. subst. exact Iy.
  - intros I. exists (Some w). split; [apply in_map, I|]. cbn. apply Nat.eqb_refl.
Qed.
Lemma filter_some si sj : filter (fun v => pmem v (map Some si)) (map Some sj) = map Some (filter (fun v => pmem (Some v) (map Some si)) sj).
Proof. induction sj as [|v sj IH]; [reflexivity|]. cbn [map filter]. destruct (pmem (Some v) (map Some si)); cbn [map]; rewrite IH; reflexivity. Qed.
Lemma bd_exact v : In v (m_verts m) -> exists b, v_isBoundary (Some v) m = Ok (b, m) /\ (b = true <-> on_boundary m v).
Proof.
  intros Iv. assert (G := wp_v_isBoundary (fun _ => False) m Wm v (fun b m' => m' = m /\ (b = true <-> on_boundary m v)) Iv (fun b Hb => conj eq_refl Hb)).
  unfold wp in G. destruct (v_isBoundary (Some v) m) as [[b m']| | |]; try contradiction. destruct G as [-> G]. exists b. auto.
Qed.

Theorem qem_edge_exact h p : In h (m_hes m) ->
  (contractible m h p /\ exists six ck ok m1, collapseHE (Some h) (set_v_pos (c1 m h) p m) = Ok (ok, m1) /\ qem_edge (N := NumR) (repeat false (length (m_verts m))) (Some h) p m = Ok (Some (six, ck, ok), m1)) \/
  (~ contractible m h p /\ qem_edge (N := NumR) (repeat false (length (m_verts m))) (Some h) p m = Ok (None, m)).
Proof.
  intros Ih. destruct (wf_src m Wm h Ih) as (u & Su & Iu). destruct (dst_pos m Wm h Ih) as (w & Dw & Iw & _). assert (Nuw : u <> w) by (intros ->; apply (valid_noloops m Vm h Ih); congruence).
  assert (Cu : c1 m h = u) by (unfold c1; rewrite Su; reflexivity). assert (Cw : c3 m h = w) by (unfold c3; rewrite Dw; reflexivity).
  destruct (In_nth_error _ _ Iu) as (iu & Hu). destruct (In_nth_error _ _ Iw) as (iw & Hw). destruct (vread m Vm iu u Hu) as [Xu _]. destruct (vread m Vm iw w Hw) as [Xw _].
  assert (FA : forall i v, nth_error (m_verts m) i = Some v -> flag_at (repeat false (length (m_verts m))) (Z.of_nat i) m = Ok (false, m)).
  { intros i v Ei. unfold flag_at. destruct (Z.ltb_spec (Z.of_nat i) 0); [lia|]. rewrite Nat2Z.id. rewrite nth_error_repeat by (apply nth_error_Some; congruence). reflexivity. }
  assert (ES : he_src (Some h) m = Ok (Some u, m)) by (rewrite (r_src m h (h_alive m Wm h Ih)), Su; reflexivity).
  assert (ED : he_dst (Some h) m = Ok (Some w, m)) by (rewrite (dst_of_ok m Wm h Ih), Dw; reflexivity).
  assert (EVu : mesh_vertex (Z.of_nat iu) m = Ok (Some u, m)) by (rewrite mesh_vertex_eq, Hu; reflexivity).
  assert (EVw : mesh_vertex (Z.of_nat iw) m = Ok (Some w, m)) by (rewrite mesh_vertex_eq, Hw; reflexivity).
  unfold qem_edge.
  rewrite (bind_ok _ _ _ _ _ ES), (bind_ok _ _ _ _ _ Xu), (bind_ok _ _ _ _ _ ED), (bind_ok _ _ _ _ _ Xw), (bind_ok _ _ _ _ _ EVu), (bind_ok _ _ _ _ _ EVw), (bind_ok _ _ _ _ _ Xu), (bind_ok _ _ _ _ _ (FA iu u Hu)), (bind_ok _ _ _ _ _ Xw), (bind_ok _ _ _ _ _ (FA iw w Hw)).
  assert (NO : forall X : Prop, ~ contractible m h p -> forall r, r = Ok (None, m) -> (contractible m h p /\ X) \/ (~ contractible m h p /\ r = @Ok (option (list ptr * list bool * bool) * mesh NumR) (None, m))).
  { intros X Hn r E. right. split; [exact Hn|exact E]. }
  destruct (bd_exact u Iu) as (bu & EBu & HBu). rewrite (bind_ok _ _ _ _ _ EBu). destruct bu; [apply NO; [intros [[C _] _ _ _]; rewrite Cu in C; apply C, HBu; reflexivity|reflexivity]|].
  destruct (bd_exact w Iw) as (bw & EBw & HBw). rewrite (bind_ok _ _ _ _ _ EBw). destruct bw; [apply NO; [intros [[_ C] _ _ _]; rewrite Cw in C; apply C, HBw; reflexivity|reflexivity]|].
  assert (Bu : ~ on_boundary m u) by (intros C; apply HBu in C; discriminate). assert (Bw : ~ on_boundary m w) by (intros C; apply HBw in C; discriminate). clear HBu HBw.
  rewrite (bind_ok _ _ _ _ _ (deg_ok m u Wm Iu)). destruct (Z.leb_spec (Z.of_nat (deg_of m u)) 3) as [L|Du]; [apply NO; [intros [_ [C _] _ _]; rewrite Cu in C; lia|reflexivity]|].
  rewrite (bind_ok _ _ _ _ _ (deg_ok m w Wm Iw)). destruct (Z.leb_spec (Z.of_nat (deg_of m w)) 3) as [L|Dw3]; [apply NO; [intros [_ [_ C] _ _]; rewrite Cw in C; lia|reflexivity]|].
  destruct (fc_exact u Iu) as (fu & EFu & HFu). destruct (fc_exact w Iw) as (fw & EFw & HFw). rewrite (bind_ok _ _ _ _ _ EFu), (bind_ok _ _ _ _ _ EFw). rewrite <- map_app.
  assert (Inn : forall a x, ~ on_boundary m a -> In x (m_hes m) -> h_src m x = Some a -> h_bd m x = false) by (intros a x B Ix Sx; apply not_true_is_false; intros C; apply B; exists x; auto).
  assert (FF : forall f, In f (fu ++ fw) -> In f (m_faces m) /\ hole m f = false).
  { assert (G : forall a x f, ~ on_boundary m a -> In x (m_hes m) -> h_src m x = Some a -> h_face m x = Some f -> In f (m_faces m) /\ hole m f = false).
    { intros a x f Ba Ix Sx Fx. destruct (wf_face m Wm x Ix) as (f' & Ef & If). replace f' with f in If by congruence. split; [exact If|]. destruct (hole m f) eqn:Hf; [|reflexivity]. specialize (Inn a x Ba Ix Sx). rewrite (proj1 (hole_spec m f) Hf x Ix Fx) in Inn. discriminate. }
    intros f Hf. apply in_app_iff in Hf as [Hf | Hf]; [apply HFu in Hf as (x & Ix & Sx & Fx); exact (G u x f Bu Ix Sx Fx)|apply HFw in Hf as (x & Ix & Sx & Fx); exact (G w x f Bw Ix Sx Fx)]. }
  destruct (wf_rev m Wm h Ih) as (r & Er & Ir). assert (Sr : h_src m r = Some w) by (unfold dst_of in Dw; rewrite Er in Dw; exact Dw).
  assert (Dr : dst_of m r = Some u). { unfold dst_of. rewrite (proj1 (wf_rev_invol m Wm h r Ih Er)). exact Su. }
  destruct (flips_exact u w p Nuw (fu ++ fw) FF false) as (fl & EFl & HFl). rewrite (bind_ok _ _ _ _ _ EFl).
  (* the faces with both corners are the two faces at the edge *)
  assert (TwoIn : forall f k, In k (m_hes m) -> k = h \/ h_rev m h = Some k -> h_face m k = Some f -> In f (fu ++ fw) /\ has f u /\ has f w).
  { assert (G : forall a b k f, In a (m_verts m) -> In k (m_hes m) -> h_src m k = Some a -> dst_of m k = Some b -> h_face m k = Some f -> has f a /\ has f b).
    { intros a b k f _ Ik Sk Dk Fk. split; [exists k; auto|]. destruct (wf_next m Wm k Ik) as (n & En & In_). exists n. split; [exact In_|]. split; [rewrite (wf_face_next m Wm k n Ik En); exact Fk|]. destruct (wf_rev m Wm k Ik) as (q & Eq & _). rewrite (wf_dst m Wm k n q Ik En Eq). unfold dst_of in Dk. rewrite Eq in Dk. exact Dk. }
    intros f k Ik Hk Fk. destruct Hk as [-> | Hk]; [destruct (G u w h f Iu Ih Su Dw Fk); split; [apply in_app_iff; left; apply HFu; exists h; auto|auto]|].
    assert (k = r) by congruence. subst k. destruct (G w u r f Iw Ir Sr Dr Fk). split; [apply in_app_iff; right; apply HFw; exists r; auto|auto]. }
  assert (TwoOut : forall f, In f (fu ++ fw) -> has f u -> has f w -> exists k, In k (m_hes m) /\ (k = h \/ h_rev m h = Some k) /\ h_face m k = Some f).
  { intros f Hf Hfu Hfw. destruct (FF f Hf) as [If Nh]. destruct (tri_facts f If Nh) as (a & b & c & _ & _ & _ & _ & _ & _ & _ & (x & Ix & Fx & Sx & Dx) & (y & Iy & Fy & Sy & Dy) & (z & Iz & Fz & Sz & Dz) & All).
    destruct Hfu as (q1 & Iq1 & Fq1 & Sq1). destruct Hfw as (q2 & Iq2 & Fq2 & Sq2). assert (A1 := All q1 u Iq1 Fq1 Sq1). assert (A2 := All q2 w Iq2 Fq2 Sq2).
    assert (K : forall k, In k (m_hes m) -> h_face m k = Some f -> (h_src m k = Some u /\ dst_of m k = Some w) \/ (h_src m k = Some w /\ dst_of m k = Some u) -> exists k, In k (m_hes m) /\ (k = h \/ h_rev m h = Some k) /\ h_face m k = Some f).
    { intros k Ik Fk [[S1 S2] | [S1 S2]]; exists k; (split; [exact Ik|split; [|exact Fk]]); [left|right].
      - apply (valid_noparallel m Vm); congruence.
      - rewrite Er. f_equal. apply (valid_noparallel m Vm); congruence. }
    destruct A1 as [-> | [-> | ->]], A2 as [-> | [-> | ->]]; try contradiction; [apply (K x)|apply (K z)|apply (K x)|apply (K y)|apply (K z)|apply (K y)]; auto. }
  destruct fl.
  { apply NO; [|reflexivity]. intros [_ _ _ C]. destruct (proj1 HFl eq_refl) as [Q | (f & Hf & H1 & H2 & Ht)]; [discriminate|]. destruct (TwoOut f Hf H1 H2) as (k & Ik & Hk & Fk). apply Ht. rewrite Cu, Cw in C. exact (C f k Ik Hk Fk). }
  assert (CT : forall f k, In k (m_hes m) -> k = h \/ h_rev m h = Some k -> h_face m k = Some f -> (/ 10 ^ 12 < tilt m u w p f)%R).
  { intros f k Ik Hk Fk. destruct (TwoIn f k Ik Hk Fk) as (A & B & C). destruct (Rlt_dec (/ 10 ^ 12) (tilt m u w p f)) as [Q | Q]; [exact Q|]. assert (X : false = true); [|discriminate]. apply HFl. right. exists f. auto. }
  clear TwoIn TwoOut HFl EFl FF.
  destruct (nb_exact u Iu) as (si & ESi & HSi). destruct (nb_exact w Iw) as (sj & ESj & HSj). rewrite (bind_ok _ _ _ _ _ ESi), (bind_ok _ _ _ _ _ ESj), filter_some.
  destruct (low_exact (filter (fun v => pmem (Some v) (map Some si)) sj)) as (lo & ELo & HLo). { intros v Hv. apply filter_In in Hv as [Hv _]. apply HSj in Hv as (x & Ix & _ & Dx). destruct (dst_pos m Wm x Ix) as (d & Ed & Id & _). replace v with d by congruence. exact Id. }
  rewrite (bind_ok _ _ _ _ _ ELo). destruct lo.
  { apply NO; [|reflexivity]. intros [_ _ C _]. destruct (proj1 HLo eq_refl) as (v & Hv & Lv). apply filter_In in Hv as [Hv1 Hv2]. apply pmem_map in Hv2. rewrite Cu, Cw in C. specialize (C v (proj1 (HSi v) Hv2) (proj1 (HSj v) Hv1)). lia. }
  assert (CC : forall x, adj m u x -> adj m w x -> 4 <= deg_of m x).
  { intros x A B. destruct (le_lt_dec 4 (deg_of m x)) as [Q | Q]; [exact Q|]. assert (X : false = true); [|discriminate]. apply HLo. exists x. split; [apply filter_In; split; [apply HSj, B|apply pmem_map, HSi, A]|exact Q]. }
  assert (CON : contractible m h p). { constructor; rewrite ?Cu, ?Cw; [auto|lia|exact CC|exact CT]. }
  left. split; [exact CON|].
  assert (Nx : forall k, In k (m_hes m) -> exists n, he_next (Some k) m = Ok (Some n, m) /\ In n (m_hes m)). { intros k Ik. destruct (wf_next m Wm k Ik) as (n & En & In_). exists n. split; [rewrite (r_next m k (h_alive m Wm k Ik)), En; reflexivity|exact In_]. }
  destruct (Nx h Ih) as (n1 & E1 & I1). destruct (Nx n1 I1) as (n2 & E2 & I2). destruct (Nx r Ir) as (r1 & E3 & I3). destruct (Nx r1 I3) as (r2 & E4 & _).
  assert (ER : he_rev (Some h) m = Ok (Some r, m)) by (rewrite (r_rev m h (h_alive m Wm h Ih)), Er; reflexivity).
  rewrite (bind_ok _ _ _ _ _ E1), (bind_ok _ _ _ _ _ E2), (bind_ok _ _ _ _ _ ER), (bind_ok _ _ _ _ _ E3), (bind_ok _ _ _ _ _ E4). rewrite (bind_ok _ _ _ _ _ (ww_pos m u p (v_alive m Wm u Iu))).
  rewrite Cu. set (mp := set_v_pos u p m). assert (PO := posonly_setpos m u p Iu). change (posonly m mp) in PO.
  assert (Xp : ve_idx (Some u) mp = Ok (Z.of_nat iu, mp)). { destruct (wf_v_elem m Wm iu u Hu) as (Lv & Xv & _). rewrite <- Xv. exact (r_vidx mp u Lv). }
  rewrite (bind_ok _ _ _ _ _ Xp).
  assert (FS : flag_set (repeat false (length (m_verts m))) (Z.of_nat iu) mp = Ok (setnth (repeat false (length (m_verts m))) iu true, mp)).
  { unfold flag_set, bind. assert (X := FA iu u Hu). unfold flag_at in *. destruct (Z.ltb_spec (Z.of_nat iu) 0); [lia|]. rewrite Nat2Z.id in *. destruct (nth_error (repeat false (length (m_verts m))) iu); [|discriminate]. reflexivity. }
  rewrite (bind_ok _ _ _ _ _ FS). destruct (collapse_top mp h (posonly_valid m mp Vm PO) Ih) as [[_ NP] | (b & m2 & E & _)]; [destruct (NP (posok_R mp))|].
  rewrite (bind_ok _ _ _ _ _ E). eexists; eexists; exists b, m2. split; [exact E|reflexivity].
Qed.
End C.

(** The first contraction of a trial. *)
Theorem loop_first target nr (m : mesh NumR) que nr' m' : Valid m -> (nr < target)%Z -> Forall2 (entry_of m) (m_hes m) que -> queue_loop (N := NumR) target que [] (repeat false (length (m_verts m))) nr m (Ok (nr', m')) ->
  (nr' = nr /\ m' = m /\ forall e h, In e que -> n_he e = Some h -> ~ contractible m h (n_v e)) \/
  exists e h ok m1 rest six ck, In e que /\ n_he e = Some h /\ contractible m h (n_v e) /\ (forall e' h', In e' que -> n_he e' = Some h' -> (n_value e' < n_value e)%R -> ~ contractible m h' (n_v e')) /\
    collapseHE (Some h) (set_v_pos (c1 m h) (n_v e) m) = Ok (ok, m1) /\ queue_loop (N := NumR) target rest six ck (if ok then nr + 2 else nr)%Z m1 (Ok (nr', m')).
Proof.
  intros V Ht Fe Q.
  assert (Hq : forall e, In e que -> exists h, n_he e = Some h /\ In h (m_hes m)). { clear - Fe. induction Fe as [|h e hs que [A _] _ IH]; intros x Hx; [destruct Hx|]. destruct Hx as [<- | Hx]; [exists h; split; [exact A|left; reflexivity]|]. destruct (IH x Hx) as (k & B & C). exists k. split; [exact B|right; exact C]. }
  assert (No : forall e h, In e que -> n_he e = Some h -> qem_edge (N := NumR) (repeat false (length (m_verts m))) (n_he e) (n_v e) m = Ok (None, m) -> ~ contractible m h (n_v e)).
  { intros e h Ie Eh E C. destruct (Hq e Ie) as (h0 & E0 & I0). replace h0 with h in * by congruence. destruct (qem_edge_exact m V h (n_v e) I0) as [(_ & six & ck & ok & m1 & _ & F) | [Nc _]]; [rewrite Eh in E; congruence|contradiction]. }
  destruct (first_least target (repeat false (length (m_verts m))) nr m que nr' m' V (Nat.eq_le_incl _ _ (eq_sym (repeat_length _ _))) Ht Hq Q) as [(A & B & C) | (e & six & ck' & ok & m1 & rest & A & B & C & D)].
  - left. split; [exact A|]. split; [exact B|]. intros e h Ie Eh. apply (No e h Ie Eh), C, Ie.
  - right. destruct (Hq e A) as (h & Eh & Ih). unfold accepts in B. rewrite Eh in B. destruct (qem_edge_exact m V h (n_v e) Ih) as [(Con & six2 & ck2 & ok2 & m2 & E2 & F2) | [_ P2]]; [|congruence].
     assert (X : Some (six2, ck2, ok2) = Some (six, ck', ok) /\ m2 = m1) by (split; congruence). destruct X as [X ->]. injection X as -> -> ->.
    exists e, h, ok, m1, rest, six, ck'. split; [exact A|]. split; [exact Eh|]. split; [exact Con|]. split; [|split; [exact E2|exact C]].
    intros e' h' Ie' Eh' L. apply (No e' h' Ie' Eh'), D; assumption.
Qed.
