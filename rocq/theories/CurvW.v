(** Curvature examples, and the mean face area of an open mesh. *)
From Coq Require Import Reals Lra Lia List ZArith Bool Arith.
From Verif Require Import Num NumInst Vec VecR Heap Mesh Construct Spec BuildSpec BuildProps Built Rings Exec Witness Examples GeomSpec Bounds Indices ExamplesR SmoothSpec Measure MeasureR MeasureM RegTet Curv CurvN Means.
Import ListNotations.
Local Open Scope R_scope.

Lemma tri_rotation {N : Num} (m : mesh N) f a b c u v w : Spec.Tri m f a b c -> Spec.Tri m f u v w -> (a = u /\ b = v /\ c = w) \/ (a = v /\ b = w /\ c = u) \/ (a = w /\ b = u /\ c = v).
Proof.
  intros (x & y & z & Hin & Ex & Ey & Ez & Sx & Sy & Sz) (x' & y' & z' & Hin' & Ex' & Ey' & Ez' & Sx' & Sy' & Sz').
  assert (D : x = x' \/ x = y' \/ x = z') by (apply Hin', Hin; tauto). destruct D as [-> | [-> | ->]].
  - left. assert (y = y') by congruence. subst. assert (z = z') by congruence. subst. split; [congruence|split; congruence].
  - right; left. assert (y = z') by congruence. subst. assert (z = x') by congruence. subst. split; [congruence|split; congruence].
  - right; right. assert (y = x') by congruence. subst. assert (z = y') by congruence. subst. split; [congruence|split; congruence].
Qed.
(** A mesh made of the four faces of a tetrahedron, with the given corners. *)
Lemma tet_mesh (p0 p1 p2 p3 : vecR) : PosDistinct [p0; p1; p2; p3] -> exists m : mesh NumR, mesh_of [p0; p1; p2; p3] ix_tetra = Ok m /\ SurfaceOf m (triples ix_tetra) /\ positions m = [p0; p1; p2; p3].
Proof.
  intros PD. destruct (ex_tetra_welded (fun x => x) (fun x => x) (fun x _ => x)) as (D & ND & NE & _ & F).
  apply (accepts_manifold _ ix_tetra _ ix_tetra); [|exact D|exact ND|exact NE|exact F].
  apply Welded_id.
  - intros i p _ _. apply veqb_real. reflexivity.
  - exact PD.
  - apply rangeb_ok. reflexivity.
  - intros j Hj. cbn [length] in Hj. destruct j as [|[|[|[|j]]]]; [exists 0%nat|exists 1%nat|exists 2%nat|exists 4%nat|lia]; (split; [reflexivity|]); intros k' j' Lk Hk;
      destruct k' as [|[|[|[|k']]]]; try lia; cbn [ix_tetra nth_error] in Hk; injection Hk as <-; lia.
Qed.
Definition rots (t : tri) : list tri := let '(a, b, c) := t in [(a, b, c); (b, c, a); (c, a, b)].
Lemma tet_tri (m : mesh NumR) ps : SurfaceOf m (triples ix_tetra) -> positions m = ps -> forall f a b c, In f (m_faces m) -> Spec.Tri m f a b c ->
  exists i j k, In (i, j, k) (flat_map rots (triples ix_tetra)) /\ nth_error (m_verts m) i = Some a /\ nth_error (m_verts m) j = Some b /\ nth_error (m_verts m) k = Some c /\
    nth i ps vzero = v_pos m a /\ nth j ps vzero = v_pos m b /\ nth k ps vzero = v_pos m c.
Proof.
  intros S P f a b c If T. assert (V := so_valid _ _ S). assert (W := valid_wf m V). assert (C := tetraR_closed m S).
  destruct (so_tris _ _ S) as (holes & Ef & F & Hh).
  assert (Hn : holes = []). { destruct holes as [|f' hs]; [reflexivity|]. exfalso. assert (If' : In f' (m_faces m)) by (rewrite Ef; apply in_or_app; right; left; reflexivity). destruct (wf_fhe m W f' If') as (h & _ & Ih & Fh). destruct (Hh f' h (or_introl eq_refl) Ih Fh) as [B _]. rewrite (C h Ih) in B. discriminate. }
  rewrite Hn, app_nil_r in Ef. rewrite Ef in If. destruct (Built.forall2_nth' _ _ _ F f If) as (((i & j) & k) & It & Fi). destruct Fi as (u & v & w & Hu & Hv & Hw & T').
  assert (Q : forall i v, nth_error (m_verts m) i = Some v -> nth i ps vzero = v_pos m v) by (intros i0 v0 Hv0; rewrite <- P; unfold positions; apply nth_error_nth; rewrite nth_error_map, Hv0; reflexivity).
  destruct (tri_rotation m f a b c u v w T T') as [(-> & -> & ->) | [(-> & -> & ->) | (-> & -> & ->)]]; [exists i, j, k|exists j, k, i|exists k, i, j]; (split; [apply in_flat_map; exists (i, j, k); split; [exact It|cbn; tauto]|]); auto 10.
Qed.
Ltac tricase H := cbn [flat_map rots triples ix_tetra app In] in H; repeat (destruct H as [H | H]; [first [discriminate H | injection H; clear H; intros; subst]|]); [..|destruct H].
Lemma area_from_dot (a b c : vecR) x : 0 < x -> dot (cross (vsub b a) (vsub c a)) (cross (vsub b a) (vsub c a)) = x -> 0 < tri_area a b c.
Proof.
  intros P E. unfold tri_area. rewrite <- vlength_sq in E. assert (L := vlength_pos (cross (vsub b a) (vsub c a))). destruct (Rle_lt_or_eq_dec _ _ L) as [H | H]; [lra|]. rewrite <- H in E. rn. lra.
Qed.
Lemma reg_nondeg (m : mesh NumR) : SurfaceOf m (triples ix_tetra) -> positions m = regR -> NonDegenerate m.
Proof.
  intros S P f a b c If T. destruct (tet_tri m regR S P f a b c If T) as (i & j & k & Hin & _ & _ & _ & <- & <- & <-).
  apply (area_from_dot _ _ _ 48); [lra|]. tricase Hin; cbn [regR nth]; rewrite dot_eq; unfold cross, vsub, vadd, vneg, v3; rn; rg.
Qed.
(** Gauss-Bonnet on the regular tetrahedron. *)
Lemma gb_ex : exists m : mesh NumR, mesh_of regR ix_tetra = Ok m /\ Valid m /\ Closed m /\ NonDegenerate m /\ length (m_verts m) = 4%nat.
Proof.
  destruct regR_all as (m & E & V & C & P & _ & S). exists m. split; [exact E|]. split; [exact V|]. split; [exact C|]. split; [exact (reg_nondeg m S P)|exact (reg_len m P)].
Qed.
(** Its corners lie on a sphere around the origin, and they have normals. *)
Lemma sphere_ex : exists (m : mesh NumR) v n, mesh_of regR ix_tetra = Ok m /\ Valid m /\ ~ on_boundary m v /\ NonDegenerateAt m v /\ In v (m_verts m) /\ v_pos m v = v3 1 1 1 /\
  vlength (vsub (v_pos m v) vzero) = sqrt 3 /\ (forall w, adj m v w -> vlength (vsub (v_pos m w) vzero) = sqrt 3) /\
  (forall f b c, In f (m_faces m) -> Spec.Tri m f v b c -> 0 < dot (cross (vsub (v_pos m b) (v_pos m v)) (vsub (v_pos m c) (v_pos m v))) (v_pos m v)) /\
  v_normal (Some v) m = Ok (n, m).
Proof.
  destruct regR_all as (m & E & V & C & P & _ & S). assert (W := valid_wf m V). assert (ND := reg_nondeg m S P). assert (L4 := reg_len m P).
  assert (Q : forall v, In v (m_verts m) -> In (v_pos m v) regR) by (intros v Iv; rewrite <- P; unfold positions; apply in_map, Iv).
  assert (R3 : forall p, In p regR -> vlength (vsub p vzero) = sqrt 3).
  { intros p Hp. change (sqrt (dot (vsub p vzero) (vsub p vzero)) = sqrt 3). apply (f_equal sqrt). rewrite dot_eq. cbn [regR In] in Hp. destruct Hp as [<- | [<- | [<- | [<- | []]]]]; unfold vsub, vadd, vneg, vzero, vfill, v3; rn; rg. }
  destruct (m_verts m) as [|v vs] eqn:Ev; [discriminate L4|]. assert (Hv0 : nth_error (m_verts m) 0 = Some v) by (rewrite Ev; reflexivity). rewrite <- Ev in *. assert (Hv : In v (m_verts m)) by (rewrite Ev; left; reflexivity).
  assert (Pv : v_pos m v = v3 1 1 1) by (assert (X : nth_error (positions m) 0 = Some (v_pos m v)) by (unfold positions; rewrite nth_error_map, Hv0; reflexivity); rewrite P in X; cbn in X; injection X as X; congruence).
  assert (NDv := nd_at m v ND). assert (NB := closed_inner m v C).
  assert (Fr : forall f b c, In f (m_faces m) -> Spec.Tri m f v b c -> 0 < dot (cross (vsub (v_pos m b) (v_pos m v)) (vsub (v_pos m c) (v_pos m v))) (v_pos m v)).
  { intros f b c If T. destruct (tet_tri m regR S P f v b c If T) as (i & j & k & Hin & Hi & Hj & Hk & <- & <- & <-).
    assert (i = 0%nat) by (apply (proj1 (NoDup_nth_error (m_verts m)) (wf_v_nodup m W)); [apply nth_error_Some; congruence|congruence]). subst i.
    tricase Hin; cbn [regR nth]; rewrite dot_eq; unfold cross, vsub, vadd, vneg, v3; rn; lra. }
  destruct (normal_side m v (v_pos m v) V NB NDv Hv Fr) as (n & En & _). exists m, v, n.
  split; [exact E|]. split; [exact V|]. split; [exact NB|]. split; [exact NDv|]. split; [exact Hv|]. split; [exact Pv|]. split; [apply R3, Q, Hv|]. split; [|split; [exact Fr|exact En]].
  intros w (h & Ih & _ & Dh). apply R3, Q. destruct (dst_ptr m h W Ih) as (w' & D' & I'). congruence.
Qed.
(** A vertex in the plane of its three neighbours. *)
Definition flatR : list vecR := [v3 0 0 0; v3 1 0 0; v3 0 1 0; v3 (-1) (-1) 0].
Lemma flatR_distinct : PosDistinct flatR.
Proof.
  intros i j p q Hi Hj E. apply veqb_real in E. subst q.
  destruct i as [|[|[|[|i]]]]; cbn [flatR nth_error] in Hi; [| | | |destruct i; discriminate Hi]; injection Hi as <-;
  destruct j as [|[|[|[|j]]]]; cbn [flatR nth_error] in Hj; try reflexivity; try (destruct j; discriminate Hj); exfalso; injection Hj; unfold v3; rn; intros; lra.
Qed.
Lemma flat_ex : exists (m : mesh NumR) v n x, mesh_of flatR ix_tetra = Ok m /\ Valid m /\ ~ on_boundary m v /\ NonDegenerateAt m v /\ In v (m_verts m) /\ length (m_verts m) = 4%nat /\
  v3 0 0 1 <> vzero /\ (forall w, adj m v w -> dot (vsub (v_pos m w) (v_pos m v)) (v3 0 0 1) = 0) /\ v_normal (Some v) m = Ok (n, m) /\ v_H (Some v) m = Ok (x, m).
Proof.
  destruct (tet_mesh _ _ _ _ flatR_distinct) as (m & E & S & P). fold flatR in *. assert (V := so_valid _ _ S). assert (W := valid_wf m V). assert (C := tetraR_closed m S).
  assert (L4 : length (m_verts m) = 4%nat) by (apply (f_equal (@length _)) in P; unfold positions in P; rewrite map_length in P; exact P).
  assert (Q : forall v, In v (m_verts m) -> In (v_pos m v) flatR) by (intros v Iv; rewrite <- P; unfold positions; apply in_map, Iv).
  destruct (m_verts m) as [|v vs] eqn:Ev; [discriminate L4|]. assert (Hv0 : nth_error (m_verts m) 0 = Some v) by (rewrite Ev; reflexivity). rewrite <- Ev in *. assert (Hv : In v (m_verts m)) by (rewrite Ev; left; reflexivity).
  assert (Pv : v_pos m v = v3 0 0 0) by (assert (X : nth_error (positions m) 0 = Some (v_pos m v)) by (unfold positions; rewrite nth_error_map, Hv0; reflexivity); rewrite P in X; cbn in X; injection X as X; congruence).
  assert (NB := closed_inner m v C).
  assert (Ix : forall f b c, In f (m_faces m) -> Spec.Tri m f v b c -> exists j k, In (0%nat, j, k) (flat_map rots (triples ix_tetra)) /\ nth 0 flatR vzero = v_pos m v /\ nth j flatR vzero = v_pos m b /\ nth k flatR vzero = v_pos m c).
  { intros f b c If T. destruct (tet_tri m flatR S P f v b c If T) as (i & j & k & Hin & Hi & Hj & Hk & X).
    assert (i = 0%nat) by (apply (proj1 (NoDup_nth_error (m_verts m)) (wf_v_nodup m W)); [apply nth_error_Some; congruence|congruence]). subst i. exists j, k. auto. }
  assert (NDv : NonDegenerateAt m v).
  { intros f b c If T. destruct (Ix f b c If T) as (j & k & Hin & <- & <- & <-). apply (area_from_dot _ _ _ 1); [lra|]. tricase Hin; cbn [flatR nth]; rewrite dot_eq; unfold cross, vsub, vadd, vneg, v3; rn; rg. }
  assert (Fr : forall f b c, In f (m_faces m) -> Spec.Tri m f v b c -> 0 < dot (cross (vsub (v_pos m b) (v_pos m v)) (vsub (v_pos m c) (v_pos m v))) (v3 0 0 1)).
  { intros f b c If T. destruct (Ix f b c If T) as (j & k & Hin & <- & <- & <-). tricase Hin; cbn [flatR nth]; rewrite dot_eq; unfold cross, vsub, vadd, vneg, v3; rn; lra. }
  destruct (normal_side m v (v3 0 0 1) V NB NDv Hv Fr) as (n & En & _). exists m, v, n. eexists. 
  split; [exact E|]. split; [exact V|]. split; [exact NB|]. split; [exact NDv|]. split; [exact Hv|]. split; [exact L4|]. split; [intros X; injection X as X; lra|]. split; [|split; [exact En|exact (H_at m v V NB Hv n En)]].
  intros w (h & Ih & _ & Dh). destruct (dst_ptr m h W Ih) as (w' & D' & I'). assert (w' = w) by congruence. subst w'. assert (Pw := Q w I'). rewrite Pv. cbn [flatR In] in Pw. rewrite dot_eq. destruct Pw as [<- | [<- | [<- | [<- | []]]]]; unfold vsub, vadd, vneg, v3; rn; rg.
Qed.

(** ** The mean face area of an open mesh counts its holes *)
Section W.
Variables (acosF expF : PrimFloat.float -> PrimFloat.float) (atan2F : PrimFloat.float -> PrimFloat.float -> PrimFloat.float).
Notation NF := (Witness.NF acosF expF atan2F).
Definition mean_facts (m : mesh NF) : bool :=
  match getMeanFaceArea m, mmap (fun f => f_area (Some f)) (surface_faces m) m with
  | Ok (a, _), Ok (l, _) => forallb (fun x => @neqb NF x nhalf) l && (Nat.eqb (length l) 2) && @nltb NF (nmul (nadd none_ nquarter) nhalf) a
  | _, _ => false
  end.
Lemma mean_check : with_mesh acosF expF atan2F (mesh_of (ps_square acosF expF atan2F) [0;1;2; 0;2;3]%nat) mean_facts = true.
Proof. vm_cast_no_check (eq_refl true). Qed.
Lemma mean_refuted : exists ps ix (m : mesh NF) a l m1 m2, mesh_of ps ix = Ok m /\ getMeanFaceArea m = Ok (a, m1) /\
  mmap (fun f => f_area (Some f)) (surface_faces m) m = Ok (l, m2) /\ length l = 2%nat /\ (forall x, In x l -> @neqb NF x nhalf = true) /\ @nltb NF (nmul (nadd none_ nquarter) nhalf) a = true.
Proof.
  destruct (with_ok _ _ _ _ _ mean_check) as (m & E & C). unfold mean_facts in C. destruct (getMeanFaceArea m) as [[a m1]| | |] eqn:E1; try discriminate C.
  destruct (mmap (fun f => f_area (Some f)) (surface_faces m) m) as [[l m2]| | |] eqn:E2; try discriminate C. apply andb_true_iff in C as [C1 C2]. apply andb_true_iff in C1 as [C1 C3]. rewrite forallb_forall in C1. apply Nat.eqb_eq in C3.
  do 2 eexists. exists m, a, l, m1, m2. split; [exact E|]. split; [exact E1|]. split; [exact E2|]. split; [exact C3|]. split; [exact C1|exact C2].
Qed.
End W.
