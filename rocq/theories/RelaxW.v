(** Regions for the relaxation: a vertex in a flat face, and a corner of a regular tetrahedron. *)
From Coq Require Import Reals Lra Lia List ZArith Bool Arith Permutation Floats. From Coq Require Import Reals.
From Verif Require Import Num NumInst Vec Heap Mesh Construct Spec BuildSpec BuildProps Weld Built Orbit Rings Exec Diamond Witness Examples GeomSpec Bounds Indices ExamplesR VecR Measure MeasureR MeasureM SmoothSpec FilterSpec Smooth SmoothD FrontS Curv CurvN CurvW RegTet Lapl LaplSpec LaplP LaplM CotPsd LinR Tensor TensorSpec TensorR TensorM TensorS TensorW FeatSpec FeatW CoherentR LapGrad Relax RelaxSpec RelaxA RelaxP RelaxQ RelaxR.
Import ListNotations.
Local Open Scope mesh_scope.
Local Open Scope R_scope.

Lemma closed_of (m : mesh NumR) ts : SurfaceOf m ts -> forallb (fun e => Built.memb (snd e, fst e) (edges ts)) (edges ts) = true -> Closed m.
Proof.
  intros S C h Ih. assert (V := so_valid _ _ S). assert (W := valid_wf m V). destruct (wf_src m W h Ih) as (u & Su & Iu). destruct (wf_rev m W h Ih) as (r & Er & Ir). destruct (wf_src m W r Ir) as (v & Sv & Iv).
  destruct (In_nth_error _ _ Iu) as (a & Ha). destruct (In_nth_error _ _ Iv) as (b & Hb).
  assert (K : he_is m h a b) by (split; [exact Ih|]; exists u, v; repeat (split; [assumption|]); unfold dst_of; rewrite Er; exact Sv).
  destruct (h_bd m h) eqn:B; [|reflexivity]. exfalso. apply (so_flags _ _ S h a b K) in B. rewrite forallb_forall in C.
  destruct B as [[B1 B2] | [B1 B2]]; apply B2; apply Built.memb_in; exact (C _ B1).
Qed.
Lemma surf_tri (m : mesh NumR) ts ps : SurfaceOf m ts -> Closed m -> positions m = ps -> forall f a b c, In f (m_faces m) -> Spec.Tri m f a b c ->
  exists i j k, In (i, j, k) (flat_map rots ts) /\ nth_error (m_verts m) i = Some a /\ nth_error (m_verts m) j = Some b /\ nth_error (m_verts m) k = Some c /\
    nth i ps vzero = v_pos m a /\ nth j ps vzero = v_pos m b /\ nth k ps vzero = v_pos m c.
Proof.
  intros S C P f a b c If T. assert (V := so_valid _ _ S). assert (W := valid_wf m V).
  destruct (so_tris _ _ S) as (holes & Ef & F & Hh).
  assert (Hn : holes = []). { destruct holes as [|f' hs]; [reflexivity|]. exfalso. assert (If' : In f' (m_faces m)) by (rewrite Ef; apply in_or_app; right; left; reflexivity). destruct (wf_fhe m W f' If') as (h & _ & Ih & Fh). destruct (Hh f' h (or_introl eq_refl) Ih Fh) as [B _]. rewrite (C h Ih) in B. discriminate. }
  rewrite Hn, app_nil_r in Ef. rewrite Ef in If. destruct (Built.forall2_nth' _ _ _ F f If) as (((i & j) & k) & It & Fi). destruct Fi as (u & v & w & Hu & Hv & Hw & T').
  assert (Q : forall i v, nth_error (m_verts m) i = Some v -> nth i ps vzero = v_pos m v) by (intros i0 v0 Hv0; rewrite <- P; unfold positions; apply nth_error_nth; rewrite nth_error_map, Hv0; reflexivity).
  destruct (tri_rotation m f a b c u v w T T') as [(-> & -> & ->) | [(-> & -> & ->) | (-> & -> & ->)]]; [exists i, j, k|exists j, k, i|exists k, i, j]; (split; [apply in_flat_map; exists (i, j, k); split; [exact It|cbn; tauto]|]); auto 10.
Qed.
(** Acute corners give positive weights. *)
Lemma acute_weights (m : mesh NumR) l : Valid m -> Closed m -> (forall v, In v l -> In v (m_verts m)) ->
  (forall f a b c, In f (m_faces m) -> Spec.Tri m f a b c -> In a l \/ In b l -> 0 < dot (vsub (v_pos m a) (v_pos m c)) (vsub (v_pos m b) (v_pos m c))) -> GoodWeights m l.
Proof.
  intros V C Il A. assert (W := valid_wf m V).
  assert (Hc : forall y v, In y (m_hes m) -> In v l -> h_src m y = Some v \/ dst_of m y = Some v -> 0 < hcot m y).
  { intros y v Iy Hv Q. destruct (he_tri m y V Iy (C y Iy)) as (f & a & b & c & If & Fy & T & N1 & N2 & N3 & Sa & Db & Pc).
    assert (Nc : ndst m y = Some c). { destruct (closed_next3 m y V C Iy) as (k & z & En & Ek & Ez & Ik & Iz). unfold ndst. rewrite En, (dst_next m k z W Ik Ek). unfold prev_src, next_of in Pc. rewrite En, Ek in Pc. exact Pc. }
    unfold hcot. rewrite Sa, Db, Nc. cbn [SmoothD.pos_at]. unfold cotan.
    assert (D := A f a b c If T (match Q with or_introl Q => or_introl (eq_ind_r (fun x => In x l) Hv (f_equal (fun p => match p with Some x => x | None => 0%nat end) (eq_trans (eq_sym Sa) Q))) | or_intror Q => or_intror (eq_ind_r (fun x => In x l) Hv (f_equal (fun p => match p with Some x => x | None => 0%nat end) (eq_trans (eq_sym Db) Q))) end)).
    apply Rdiv_lt_0_compat; [exact D|]. apply Rlt_le_trans with (/ 10 ^ 6); [apply Rinv_0_lt_compat, pow_lt; lra|apply Rmax_r]. }
  assert (P : forall y v, In y (m_hes m) -> In v l -> h_src m y = Some v -> 0 < w_cot m y).
  { intros y v Iy Hv Sy. rewrite (wcot_half m V y Iy). destruct (revm_ok m W y Iy) as (Er & Ir & _ & D1 & D2). assert (H1 := Hc y v Iy Hv (or_introl Sy)). assert (H2 := Hc (revm m y) v Ir Hv (or_intror (eq_trans D2 Sy))). lra. }
  intros v Hv. split.
  - intros h w m' Ih Sh Ew. rewrite (cot_ok m W h Ih) in Ew. injection Ew as <- _. apply Rlt_le. exact (P h v Ih Hv Sh).
  - destruct (vring m W v (Il v Hv)) as (h & r & Eh & (_ & _ & Hin)). destruct (proj1 (Hin h) (or_introl eq_refl)) as [Ih Sh]. exists h, (w_cot m h), m. split; [exact Ih|]. split; [exact Sh|]. split; [exact (cot_ok m W h Ih)|exact (P h v Ih Hv Sh)].
Qed.
(** The region of the first vertex, the others are locked. *)
Lemma but_region (m : mesh NumR) : Valid m -> (1 < length (m_verts m))%nat -> (exists w, adj m (nth 0 (m_verts m) 0%nat) w) -> Region (lock_but m) [nth 0 (m_verts m) 0%nat].
Proof.
  intros V L (w & Aw). assert (W := valid_wf m V). set (v := nth 0 (m_verts m) 0%nat) in *. constructor.
  - constructor; [intros []|constructor].
  - intros u [<-|[]]. apply nth_In. change (m_verts (lock_but m)) with (m_verts m). lia.
  - intros u x [<-|[]] _. destruct (Nat.eq_dec x v) as [->|N]; [left; left; reflexivity|right]. unfold lock_but. cbn [v_lock with_lock]. fold v. destruct (Nat.eqb_spec x v); [contradiction|reflexivity].
  - intros u Hu. change (In u (m_verts m)) in Hu. destruct (Nat.eq_dec u v) as [->|N].
    + exists w. destruct Aw as (h & Ih & Sh & Dh). split; [apply (reach_edge (lock_but m) _ v _ (reach_here (lock_but m) v)); exists h; auto|]. destruct (dst_some m W h Ih) as (d & Ed & Id). assert (d = w) by congruence. subst d. split; [exact Id|].
      intros [Z|[]]. apply (valid_noloops m V h Ih); congruence.
    + exists u. split; [apply reach_here|]. split; [exact Hu|]. intros [Z|[]]. congruence.
Qed.
(** ** A corner of a regular tetrahedron *)
Theorem dome_case : exists (m : mesh NumR) v n k, Valid m /\ Closed m /\ NonDegenerate m /\ Region m [v] /\ GoodWeights m [v] /\ Dome m v n k /\ v_pos m v = v3 1 1 1 /\ positions m = regR.
Proof.
  destruct regR_all as (m0 & _ & V0 & C0 & P & _ & S0). assert (L := reg_len m0 P). assert (W0 := valid_wf m0 V0). assert (Sp0 := reg_spherical m0 S0 P).
  assert (V := but_valid m0 V0). set (m := lock_but m0) in *. assert (C : Closed m) by exact C0. assert (Sp : Spherical m vzero (R_sqrt.sqrt 3)) by (destruct Sp0; constructor; assumption). assert (ND := sp_nd m _ _ Sp).
  set (v := nth 0 (m_verts m0) 0%nat). assert (E0 : nth_error (m_verts m0) 0 = Some v) by (apply nth_error_nth'; lia). assert (Iv : In v (m_verts m)) by (apply nth_In; change (m_verts m) with (m_verts m0); lia).
  assert (Pv : v_pos m v = v3 1 1 1). { assert (X : nth_error (positions m0) 0 = Some (v_pos m0 v)) by (unfold positions; rewrite nth_error_map, E0; reflexivity). rewrite P in X. cbn in X. injection X as X. symmetry. exact X. }
  destruct (sp_normal m vzero (R_sqrt.sqrt 3) v V C Sp Iv) as (n & En & Un & Sn). assert (S3 : 0 < R_sqrt.sqrt 3) by (apply sqrt_lt_R0; lra). assert (Q3 : R_sqrt.sqrt 3 * R_sqrt.sqrt 3 = 3) by (apply sqrt_sqrt; lra).
  assert (Dn : forall p : vecR, dot p n * R_sqrt.sqrt 3 = dot p (v3 1 1 1)).
  { intros p. rewrite Rmult_comm. replace (v3 1 1 1) with (vscale (R_sqrt.sqrt 3) n) by (rewrite Sn, Pv; unfold vzero, vfill, v3; vring). rewrite (dot_sym p (vscale _ _)), dot_scale, (dot_sym n). reflexivity. }
  assert (TT : forall f a b c, In f (m_faces m) -> Spec.Tri m f a b c -> exists i j k, In (i, j, k) (flat_map rots (triples ix_tetra)) /\ nth_error (m_verts m0) i = Some a /\ nth_error (m_verts m0) j = Some b /\ nth_error (m_verts m0) k = Some c /\ nth i regR vzero = v_pos m a /\ nth j regR vzero = v_pos m b /\ nth k regR vzero = v_pos m c) by exact (tet_tri m0 regR S0 P).
  assert (Uq : forall i, nth_error (m_verts m0) i = Some v -> i = 0%nat) by (intros i Hi; apply (proj1 (NoDup_nth_error (m_verts m0)) (wf_v_nodup m0 W0)); [apply nth_error_Some; congruence|congruence]).
  exists m, v, n, (- / R_sqrt.sqrt 3). split; [exact V|]. split; [exact C|]. split; [exact ND|]. split; [|split; [|split; [|split; [exact Pv|exact P]]]].
  - apply but_region; [exact V0|lia|]. exists (nth 1 (m_verts m0) 0%nat). apply (tet_adj m0 S0 0%nat 1%nat); [exact E0|apply nth_error_nth'; lia|lia|lia|discriminate].
  - apply acute_weights; [exact V|exact C|intros u [<-|[]]; exact Iv|]. intros f a b c If T _. destruct (TT f a b c If T) as (i & j & k & Hin & _ & _ & _ & <- & <- & <-). tricase Hin; cbn [regR nth]; rewrite dot_eq; unfold vsub, vadd, vneg, v3; rn; lra.
  - split; [exact En|]. split; [|split].
    + intros u (h & Ih & Sh & Dh). destruct (dst_some m (valid_wf m V) h Ih) as (d & Ed & Id). assert (d = u) by congruence. subst d. apply (Rmult_eq_reg_r (R_sqrt.sqrt 3)); [|lra]. change (@num NumR) with R in *. rewrite Dn. replace (- / R_sqrt.sqrt 3 * R_sqrt.sqrt 3) with (-1) by (field; lra).
      assert (Nu : u <> v) by (intros ->; apply (valid_noloops m V h Ih); congruence). change (In u (m_verts m0)) in Id. apply In_nth_error in Id. destruct Id as (i & Ei). assert (Li : (i < 4)%nat) by (rewrite <- L; apply nth_error_Some; congruence).
      assert (X : nth_error (positions m0) i = Some (v_pos m0 u)) by (unfold positions; rewrite nth_error_map, Ei; reflexivity). rewrite P in X. change (v_pos m u) with (v_pos m0 u).
      destruct i as [|[|[|[|i]]]]; [exfalso; apply Nu; congruence| | | |lia]; cbn in X; injection X as <-; rewrite dot_eq; unfold v3; rn; rg.
    + apply (Rmult_lt_reg_r (R_sqrt.sqrt 3)); [exact S3|]. change (@num NumR) with R in *. rewrite Dn, Pv, dot_eq. replace (- / R_sqrt.sqrt 3 * R_sqrt.sqrt 3) with (-1) by (field; lra). unfold v3. rn. lra.
    + intros f b c n0 If T (U0 & s & Ps & Es). destruct (TT f v b c If T) as (i & j & k & Hin & Hi & Hj & Hk & Pi & Pj & Pk). apply Uq in Hi. subst i. 
      apply (Rmult_lt_reg_r (R_sqrt.sqrt 3)); [exact S3|]. change (@num NumR) with R in *. rewrite Dn, Rmult_0_l. apply (Rmult_lt_reg_l s); [exact Ps|]. rewrite Rmult_0_r. replace (s * dot n0 (v3 1 1 1)) with (dot (vscale s n0) (v3 1 1 1)) by (rewrite dot_scale; reflexivity).
      rewrite Es, <- Pi, <- Pj, <- Pk. tricase Hin; cbn [regR nth]; rewrite dot_eq; unfold cross, vsub, vadd, vneg, v3; rn; lra.
Qed.
(** ** A vertex in a face of a tetrahedron *)
Definition ix_kis : list nat := [0;1;2; 0;2;3; 0;3;1; 2;1;4; 3;2;4; 1;3;4]%nat.
Definition kisR : list vecR := [v3 0 0 0; v3 2 0 0; v3 (-1) 2 0; v3 (-1) (-2) 0; v3 0 0 (-3)].
Definition kisF : list (vec (Witness.NF (fun x => x) (fun x => x) (fun x _ => x))) := map (fun x => Witness.pt (fun x => x) (fun x => x) (fun x _ => x) x 0 0) [0;1;2;3;4]%float.
Lemma kis_check : Witness.with_mesh (fun x => x) (fun x => x) (fun x _ => x) (mesh_of kisF ix_kis) (fun m => true) = true.
Proof. vm_cast_no_check (eq_refl true). Qed.
Lemma kis_mesh : exists m : mesh NumR, mesh_of kisR ix_kis = Ok m /\ SurfaceOf m (triples ix_kis) /\ positions m = kisR.
Proof.
  assert (Wd : Welded kisF ix_kis kisF ix_kis) by (apply weld_Welded; [apply nonanb_ok; vm_cast_no_check (eq_refl true)|vm_cast_no_check (eq_refl (Some (kisF, ix_kis)))]).
  assert (D : Nat.divide 3 (length ix_kis)) by (apply divide_mod; reflexivity).
  assert (ND : forall t, In t (triples ix_kis) -> ~ degenerate t) by (apply nodegb_ok; reflexivity).
  assert (NE' : NoDup (edges (triples ix_kis))) by (apply nodupb_ok; reflexivity).
  assert (C := kis_check). apply with_ok in C as (m & E & _). assert (F := fans_of_ok kisF ix_kis kisF ix_kis m Wd D ND NE' E).
  apply (accepts_manifold kisR ix_kis kisR ix_kis); [|exact D|exact ND|exact NE'|exact F]. clear m E F Wd.
  apply Welded_id.
  - intros i p _ _. apply veqb_real. reflexivity.
  - intros i j p q Hi Hj E. apply veqb_real in E. subst q. destruct i as [|[|[|[|[|i]]]]]; cbn [kisR nth_error] in Hi; try (destruct i; discriminate Hi); injection Hi as <-;
    destruct j as [|[|[|[|[|j]]]]]; cbn [kisR nth_error] in Hj; try reflexivity; try (destruct j; discriminate Hj); exfalso; injection Hj; unfold v3; rn; intros; lra.
  - apply rangeb_ok. reflexivity.
  - intros j Hj. assert (Q : exists k, nth_error ix_kis k = Some j /\ forallb (fun x => Nat.ltb x j) (firstn k ix_kis) = true).
    { change (length kisR) with 5%nat in Hj. destruct j as [|[|[|[|[|j]]]]]; [exists 0%nat|exists 1%nat|exists 2%nat|exists 5%nat|exists 11%nat|lia]; split; reflexivity. }
    destruct Q as (k & Ek & Q). exists k. split; [exact Ek|]. intros k' j' Lk Ej. rewrite forallb_forall in Q. apply Nat.ltb_lt, Q. apply nth_error_In with k'. rewrite (firstn_nth_error k ix_kis k' Lk); exact Ej.
Qed.
Ltac kiscase H := cbn [flat_map rots triples ix_kis app In] in H; repeat (destruct H as [H | H]; [first [discriminate H | injection H; clear H; intros; subst]|]); [..|destruct H].
Theorem flat_case : exists (m : mesh NumR) v, Valid m /\ Closed m /\ NonDegenerate m /\ Region m [v] /\ GoodWeights m [v] /\ NotTiny m [v] /\ Flat m [v] (v3 0 0 1) /\ positions m = kisR.
Proof.
  destruct kis_mesh as (m0 & _ & S0 & P). assert (V0 := so_valid _ _ S0). assert (C0 : Closed m0) by (apply (closed_of m0 _ S0); reflexivity).
  assert (L : length (m_verts m0) = 5%nat) by (rewrite <- (map_length (v_pos m0)); change (map (v_pos m0) (m_verts m0)) with (positions m0); rewrite P; reflexivity). assert (W0 := valid_wf m0 V0).
  assert (V := but_valid m0 V0). set (m := lock_but m0) in *. assert (C : Closed m) by exact C0.
  set (v := nth 0 (m_verts m0) 0%nat). assert (E0 : nth_error (m_verts m0) 0 = Some v) by (apply nth_error_nth'; lia). assert (Iv : In v (m_verts m)) by (apply nth_In; change (m_verts m) with (m_verts m0); lia).
  assert (TT : forall f a b c, In f (m_faces m) -> Spec.Tri m f a b c -> exists i j k, In (i, j, k) (flat_map rots (triples ix_kis)) /\ nth_error (m_verts m0) i = Some a /\ nth_error (m_verts m0) j = Some b /\ nth_error (m_verts m0) k = Some c /\ nth i kisR vzero = v_pos m a /\ nth j kisR vzero = v_pos m b /\ nth k kisR vzero = v_pos m c) by exact (surf_tri m0 _ kisR S0 C0 P).
  assert (Uq : forall i, nth_error (m_verts m0) i = Some v -> i = 0%nat) by (intros i Hi; apply (proj1 (NoDup_nth_error (m_verts m0)) (wf_v_nodup m0 W0)); [apply nth_error_Some; congruence|congruence]).
  assert (Cr : forall f b c, In f (m_faces m) -> Spec.Tri m f v b c -> exists s, 4 <= s /\ cross (vsub (v_pos m b) (v_pos m v)) (vsub (v_pos m c) (v_pos m v)) = vscale s (v3 0 0 1)).
  { intros f b c If T. destruct (TT f v b c If T) as (i & j & k & Hin & Hi & Hj & Hk & <- & <- & <-). apply Uq in Hi. subst i. exists 4. split; [lra|]. kiscase Hin; cbn [kisR nth]; unfold cross, vsub, vadd, vneg, v3, vscale; rn; f_equal; rg. }
  assert (Un : vlength (v3 0 0 1) = 1). { change (R_sqrt.sqrt (dot (v3 0 0 1) (v3 0 0 1)) = 1). rewrite dot_eq. unfold v3. rn. replace (0 * 0 + 0 * 0 + 1 * 1) with 1 by ring. apply R_sqrt.sqrt_1. }
  exists m, v. split; [exact V|]. split; [exact C|]. split; [|split; [|split; [|split; [|split; [|exact P]]]]].
  - intros f a b c If T. destruct (TT f a b c If T) as (i & j & k & Hin & _ & _ & _ & <- & <- & <-). 
    kiscase Hin; cbn [kisR nth]; (eapply area_from_dot; [|rewrite dot_eq; unfold cross, vsub, vadd, vneg, v3; rn; reflexivity]); lra.
  - apply but_region; [exact V0|lia|]. destruct (vring m0 W0 v Iv) as (h & r & Eh & (_ & _ & Hin)). destruct (proj1 (Hin h) (or_introl eq_refl)) as [Ih Sh]. destruct (dst_some m0 W0 h Ih) as (d & Ed & _). exists d, h. auto.
  - apply acute_weights; [exact V|exact C|intros u [<-|[]]; exact Iv|]. intros f a b c If T Hab. destruct (TT f a b c If T) as (i & j & k & Hin & Hi & Hj & _ & <- & <- & <-).
    assert (Q : i = 0%nat \/ j = 0%nat) by (destruct Hab as [[<-|[]]|[<-|[]]]; [left|right]; apply Uq; assumption). kiscase Hin; try (exfalso; destruct Q; discriminate); cbn [kisR nth]; rewrite dot_eq; unfold vsub, vadd, vneg, v3; rn; lra.
  - intros f u b c [<-|[]] If T. destruct (Cr f b c If T) as (s & Ps & E). unfold tri_area. rewrite E, vlength_scale, Un, Rabs_right by lra. assert (/ 10 ^ 6 <= 1) by (rewrite <- Rinv_1; apply Rinv_le_contravar; lra). lra.
  - intros f u b c [<-|[]] If T. destruct (Cr f b c If T) as (s & Ps & E). split; [exact Un|]. exists s. split; [lra|symmetry; exact E].
Qed.
Theorem rest_final (m : mesh NumR) l T b x : Valid m -> Closed m -> NonDegenerate m -> Region m l -> NotTiny m l -> (forall v, In v l -> Pull m T v (b v)) -> Poisson m l b x ->
  (forall f v b c n0 n1, In v l -> In f (m_faces m) -> Spec.Tri m f v b c -> Normal (v_pos m v) (v_pos m b) (v_pos m c) n0 -> Mean3 (T v) (T b) (T c) n1 -> n1 = n0) ->
  (forall v, In v l -> x v = v_pos m v) <-> Poisson m l (fun _ => vzero) (v_pos m).
Proof.
  intros V C ND Rg B Hb Hx Hs. rewrite (rest_equation m V C ND l Rg x T b B Hb Hx Hs). split.
  - intros H. apply (vec_poisson m V l); [reflexivity|]. intros v Hv. etransitivity; [|exact (H v Hv)]. reflexivity.
  - intros H v Hv. etransitivity; [|exact (poisson_vec m V l Rg (fun _ => vzero) (v_pos m) v H Hv)]. reflexivity.
Qed.
Lemma rest_case : exists (m : mesh NumR) v T b x, Valid m /\ Closed m /\ NonDegenerate m /\ Region m [v] /\ NotTiny m [v] /\ (forall u, In u [v] -> Pull m T u (b u)) /\ Poisson m [v] b x /\
  (forall f u b c n0 n1, In u [v] -> In f (m_faces m) -> Spec.Tri m f u b c -> Normal (v_pos m u) (v_pos m b) (v_pos m c) n0 -> Mean3 (T u) (T b) (T c) n1 -> n1 = n0) /\ ExactSolver solveR.
Proof.
  destruct flat_case as (m & v & V & C & ND & Rg & G & NT & F & _). exists m, v. assert (I1 : In v [v]) by (left; reflexivity).
  assert (U := proj2 (flat_normal m V C ND [v] Rg _ v F I1)).
  assert (Hn : forall u, In u [v] -> v_normal (Some u) m = Ok (v3 0 0 1, m)) by (intros u Hu; apply (flat_normal m V C ND [v] Rg _ u F Hu)).
  destruct (relaxed_from m V C ND [v] Rg solveR solveR_ok _ (normals_steady m V [v] Rg _ Hn U G) (means_steady m [v] _ U)) as (x & E & b & Hb & Hx).
  exists (T0 [v] (v3 0 0 1)), b. eexists. split; [exact V|]. split; [exact C|]. split; [exact ND|]. split; [exact Rg|]. split; [exact NT|]. split; [exact Hb|]. split; [exact Hx|]. split; [|exact solveR_ok].
  intros f u b' c n0 n1 Hu If Tf (U0 & s0 & P0 & E0) M1. rewrite (mean_is [v] _ U u b' c n1 Hu M1). destruct (F f u b' c Hu If Tf) as (_ & s1 & P1 & E1). apply (unit_dir _ n0 s1 s0); auto. congruence.
Qed.
(** The turn misses by a lot: it takes (1,0,0) to a vector that is not even close to (3/5,4/5,0). *)
Lemma turn_misses : exists n0 n1 : vecR, vlength n0 = 1 /\ vlength n1 = 1 /\ 0 < dot n0 n1 /\ turned n0 n1 n0 <> n1.
Proof.
  exists (v3 1 0 0), (v3 (3 / 5) (4 / 5) 0).
  assert (U0 : vlength (v3 1 0 0) = 1). { change (R_sqrt.sqrt (dot (v3 1 0 0) (v3 1 0 0)) = 1). rewrite dot_eq. unfold v3. rn. replace (1 * 1 + 0 * 0 + 0 * 0) with 1 by ring. apply R_sqrt.sqrt_1. }
  assert (U1 : vlength (v3 (3 / 5) (4 / 5) 0) = 1). { change (R_sqrt.sqrt (dot (v3 (3 / 5) (4 / 5) 0) (v3 (3 / 5) (4 / 5) 0)) = 1). rewrite dot_eq. unfold v3. rn. replace (3 / 5 * (3 / 5) + 4 / 5 * (4 / 5) + 0 * 0) with 1 by field. apply R_sqrt.sqrt_1. }
  assert (D : dot (v3 1 0 0) (v3 (3 / 5) (4 / 5) 0) = 3 / 5) by (rewrite dot_eq; unfold v3; rn; rg).
  split; [exact U0|]. split; [exact U1|]. split; [change (@num NumR) with R in *; rewrite D; lra|]. intros E. apply (turned_hits _ _ U0 U1) in E; [change (@num NumR) with R in *; lra|].
  unfold cross, v3, vzero, vfill. rn. intros Z. injection Z. intros. lra.
Qed.
Lemma turn_case : vlength (v3 1 0 0) = 1 /\ vlength (v3 0 1 0) = 1 /\ cross (v3 1 0 0) (v3 0 1 0) <> (vzero : vecR).
Proof.
  split; [|split].
  - change (R_sqrt.sqrt (dot (v3 1 0 0) (v3 1 0 0)) = 1). rewrite dot_eq. unfold v3. rn. replace (1 * 1 + 0 * 0 + 0 * 0) with 1 by ring. apply R_sqrt.sqrt_1.
  - change (R_sqrt.sqrt (dot (v3 0 1 0) (v3 0 1 0)) = 1). rewrite dot_eq. unfold v3. rn. replace (0 * 0 + 1 * 1 + 0 * 0) with 1 by ring. apply R_sqrt.sqrt_1.
  - unfold cross, v3, vzero, vfill. rn. intros Z. injection Z. intros. lra.
Qed.
Theorem dome_final : forall sparse, ExactSolver sparse -> exists (m : mesh NumR) v n k x, Valid m /\ Closed m /\ NonDegenerate m /\ Region m [v] /\ (forall u, adj m v u -> dot (v_pos m u) n = k) /\ k < dot (v_pos m v) n /\
  v_normal (Some v) m = Ok (n, m) /\ relaxed (N := NumR) cos sin sparse [v] m = Ok (x, m) /\ dot (x v) n < k.
Proof.
  intros sparse HS. destruct dome_case as (m & v & n & k & V & C & ND & Rg & G & D & _). destruct (dome_through m v n k sparse V C ND Rg G D HS) as (x & E & Hx). destruct D as (En & Hk & Hv & _). exists m, v, n, k, x. auto 12.
Qed.
