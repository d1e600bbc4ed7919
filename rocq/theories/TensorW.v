(** Examples for the curvature tensors, and meshes on which they are not computed. *)
From Coq Require Import Reals Lra Lia List ZArith Bool Arith Permutation.
From Verif Require Import Num NumInst Vec Heap Mesh Construct Spec BuildSpec BuildProps Built Orbit Rings Exec Diamond Queries Refuse Witness Examples GeomSpec ExamplesR VecR Measure MeasureR MeasureM Means SmoothSpec Curv CurvN CurvW RegTet L0W LinR Features FeaturesR Tensor TensorSpec TensorR TensorM TensorS.
Import ListNotations.
Local Open Scope mesh_scope.
Local Open Scope R_scope.

(** ** The regular tetrahedron *)
Section Reg.
Variable m : mesh NumR.
Hypothesis S : SurfaceOf m (triples ix_tetra).
Hypothesis Pm : positions m = regR.
Let V := so_valid _ _ S.
Let W := valid_wf m V.
Let C := tetraR_closed m S.
Lemma reg_on p : In p regR -> vlength (vsub p vzero) = sqrt 3.
Proof. intros Hp. change (sqrt (dot (vsub p vzero) (vsub p vzero)) = sqrt 3). apply (f_equal sqrt). rewrite dot_eq. cbn [regR In] in Hp. destruct Hp as [<- | [<- | [<- | [<- | []]]]]; unfold vsub, vadd, vneg, vzero, vfill, v3; rn; rg. Qed.
Lemma reg_spherical : Spherical m vzero (sqrt 3).
Proof.
  constructor.
  - apply sqrt_lt_R0. lra.
  - intros v Hv. apply reg_on. rewrite <- Pm. unfold positions. apply in_map, Hv.
  - intros f a b c If T. destruct (tet_tri m regR S Pm f a b c If T) as (i & j & k & Hin & _ & _ & _ & <- & <- & <-). tricase Hin; cbn [regR nth]; rewrite dot_eq; unfold cross, vsub, vadd, vneg, vzero, vfill, v3; rn; lra.
Qed.
Lemma reg_adj v w : adj m v w -> exists i j, (i < 4)%nat /\ (j < 4)%nat /\ i <> j /\ v_pos m v = nth i regR vzero /\ v_pos m w = nth j regR vzero.
Proof.
  intros A. destruct (adj_in m v w W A) as [Hv Hw]. destruct (reg_at m Pm v Hv) as (i & Hi & Ev & Ei). destruct (reg_at m Pm w Hw) as (j & Hj & Ew & Ej). exists i, j. split; [exact Hi|]. split; [exact Hj|]. split; [|split; assumption].
  intros ->. destruct A as (h & Ih & Sh & Dh). apply (valid_noloops m V h Ih). congruence.
Qed.
Lemma reg_dist v w : adj m v w -> vlength (vsub (v_pos m w) (v_pos m v)) = sqrt 8 /\ dot (vsub (v_pos m v) vzero) (vsub (v_pos m w) vzero) = -1.
Proof.
  intros A. destruct (reg_adj v w A) as (i & j & Hi & Hj & D & -> & ->). split.
  - unfold vlength. change (sqrt (dot (vsub (nth j regR vzero) (nth i regR vzero)) (vsub (nth j regR vzero) (nth i regR vzero))) = sqrt 8). apply (f_equal sqrt). rewrite dot_eq.
    destruct i as [|[|[|[|i]]]]; try lia; destruct j as [|[|[|[|j]]]]; try lia; cbn [nth regR]; unfold vsub, vadd, vneg, v3; rn; rg.
  - rewrite dot_eq. destruct i as [|[|[|[|i]]]]; try lia; destruct j as [|[|[|[|j]]]]; try lia; cbn [nth regR]; unfold vsub, vadd, vneg, vzero, vfill, v3; rn; rg.
Qed.
Lemma sqrt8 : sqrt 8 < 2 * sqrt 3 /\ 2 < sqrt 8 /\ sqrt 3 < 2.
Proof.
  assert (E : 2 * sqrt 3 = sqrt 12) by (replace 12 with ((2 * 2) * 3) by ring; rewrite sqrt_mult by lra; rewrite sqrt_square by lra; reflexivity). 
  split; [rewrite E; apply sqrt_lt_1; lra|]. split; [rewrite <- (sqrt_square 2) by lra; apply sqrt_lt_1; lra|rewrite <- (sqrt_square 2) by lra; apply sqrt_lt_1; lra].
Qed.
Lemma reg_big v w : adj m v w -> 2 * (/ 10 ^ 12) * sqrt 3 <= vlength (vsub (v_pos m w) (v_pos m v)).
Proof.
  intros A. rewrite (proj1 (reg_dist v w A)). destruct sqrt8 as (_ & S8 & S3). destruct tiny as [T0 T1]. assert (P3 : 0 < sqrt 3) by (apply sqrt_lt_R0; lra).
  assert (10 ^ 12 > 4) by lra. assert (/ 10 ^ 12 < / 4) by (apply Rinv_lt_contravar; lra). assert (/ 10 ^ 12 * sqrt 3 <= / 4 * sqrt 3) by (apply Rmult_le_compat_r; lra). lra.
Qed.
Lemma reg_degree v l : In v (m_verts m) -> v_neighbors (Some v) m = Ok (l, m) -> (length l <= 3)%nat.
Proof.
  intros Hv El. destruct (vring m W v Hv) as (h & k & Eh & Hr). rewrite (v_neighbors_ok m W v h k Hv Eh Hr) in El. assert (El' : map (dst_of m) (h :: k) = l) by congruence. clear El. destruct Hr as (_ & Nd & Hin). subst l. set (r := h :: k) in *. clearbody r.
  assert (X : NoDup (Some v :: map (dst_of m) r)).
  { constructor.
    - intros I. apply in_map_iff in I. destruct I as (y & Dy & Iy). apply Hin in Iy. destruct Iy as [Iy Sy]. apply (valid_noloops m V y Iy). congruence.
    - clear Eh. assert (Q : forall y, In y r -> In y (m_hes m) /\ h_src m y = Some v) by (intros y; apply Hin). clear Hin. induction Nd as [|y r Ny Nd IH]; [constructor|]. cbn [map]. constructor; [|apply IH; intros z Z; apply Q; right; exact Z].
      intros I. apply in_map_iff in I. destruct I as (z & Dz & Iz). destruct (Q y (or_introl eq_refl)) as [Iy Sy]. destruct (Q z (or_intror Iz)) as [Iz' Sz]. assert (z = y) by (apply (valid_noparallel m V z y Iz' Iy); congruence). subst z. exact (Ny Iz). }
  assert (L : (length (Some v :: map (dst_of m) r) <= length (map Some (m_verts m)))%nat).
  { apply NoDup_incl_length; [exact X|]. intros x [<- | I]; [apply in_map, Hv|]. apply in_map_iff in I. destruct I as (y & <- & Iy). apply Hin in Iy. destruct (dst_ptr m y W (proj1 Iy)) as (d & -> & Id). apply in_map, Id. }
  cbn [length] in L. rewrite !map_length in *. rewrite (reg_len m Pm) in L. lia.
Qed.
Lemma reg_near v l w : In v (m_verts m) -> v_neighbors (Some v) m = Ok (l, m) -> In (Some w) l ->
  - (sqrt 3 * sqrt 3) <= INR (length l) * dot (vsub (v_pos m v) vzero) (vsub (v_pos m w) vzero) /\ vlength (vsub (v_pos m w) (v_pos m v)) < 2 * sqrt 3.
Proof.
  intros Hv El Iw. assert (A : adj m v w).
  { destruct (vring m W v Hv) as (h & k & Eh & Hr). rewrite (v_neighbors_ok m W v h k Hv Eh Hr) in El. assert (El' : map (dst_of m) (h :: k) = l) by congruence. subst l. apply in_map_iff in Iw. destruct Iw as (y & Dy & Iy). destruct Hr as (_ & _ & Hin). apply Hin in Iy. exists y. tauto. }
  destruct (reg_dist v w A) as [-> ->]. split; [|apply sqrt8]. rewrite sqrt_sqrt by lra. assert (L := reg_degree v l Hv El). apply le_INR in L. cbn [INR] in L. lra.
Qed.
Theorem reg_curv solve : ExactSolver solve -> exists K, getPrincipalCurvatures (N := NumR) cos sin solve false m = Ok (K, m) /\ length K = 4%nat /\ forall kM km tM tm, In (kM, km, tM, tm) K -> kM = 1 / sqrt 3 /\ km = 1 / 3 / sqrt 3.
Proof.
  intros HS. assert (P3 : 0 < sqrt 3) by (apply sqrt_lt_R0; lra). destruct (sphere_total m vzero (sqrt 3) V C reg_spherical reg_big solve HS reg_near) as (K & E & FK). exists K. split; [exact E|].
  destruct (TensorM.forall2_nth _ _ _ FK) as [LK _]. split; [transitivity (length (m_verts m)); [exact LK|apply (reg_len m Pm)]|].
  intros kM km tM tm Ik. assert (X : exists v, In v (m_verts m) /\ TensorSpec.SphereCurv m vzero (sqrt 3) v (kM, km, tM, tm)).
  { clear - FK Ik. revert FK. generalize (m_verts m). revert Ik. induction K as [|y K IH]; intros Ik vs FK; [destruct Ik|]. inversion FK as [|v y' vs' K' Hy HK]; subst. destruct Ik as [-> | Ik]; [exists v; split; [left; reflexivity|exact Hy]|]. destruct (IH Ik vs' HK) as (u & Iu & Hu). exists u. split; [right; exact Iu|exact Hu]. }
  destruct X as (v & Hv & d & l & Nb & Q1 & Q2 & _). split; [exact Q1|]. rewrite Q2.
  assert (A : adj m v d).
  { destruct (vring m W v Hv) as (h & k & Eh & Hr). rewrite (v_neighbors_ok m W v h k Hv Eh Hr) in Nb. cbn [map] in Nb. injection Nb as Dh _. destruct Hr as (_ & _ & Hin). exists h. rewrite <- and_assoc. split; [apply Hin; left; reflexivity|exact Dh]. }
  rewrite (proj1 (reg_dist v d A)). assert (E8 : (sqrt 8 / (2 * sqrt 3)) ^ 2 = 2 / 3).
  { replace ((sqrt 8 / (2 * sqrt 3)) ^ 2) with ((sqrt 8 * sqrt 8) / (4 * (sqrt 3 * sqrt 3))) by (field; lra). rewrite !sqrt_sqrt by lra. field. }
  rewrite E8. change (@num NumR) with R. rn. field. lra.
Qed.
End Reg.

(** The claim that fails: on a sphere both principal curvatures are 1 / r. *)
Theorem sphere_wrong solve : ExactSolver solve -> exists (m : mesh NumR) K, mesh_of regR ix_tetra = Ok m /\ Spherical m vzero (sqrt 3) /\ getPrincipalCurvatures (N := NumR) cos sin solve false m = Ok (K, m) /\
  length K = 4%nat /\ forall kM km tM tm, In (kM, km, tM, tm) K -> kM = 1 / sqrt 3 /\ km = 1 / 3 / sqrt 3 /\ km <> 1 / sqrt 3.
Proof.
  intros HS. destruct regR_all as (m & E & V & C & P & _ & S). destruct (reg_curv m S P solve HS) as (K & EK & LK & HK). exists m, K. split; [exact E|]. split; [exact (reg_spherical m S P)|]. split; [exact EK|]. split; [exact LK|].
  intros kM km tM tm I. destruct (HK kM km tM tm I) as [-> ->]. split; [reflexivity|]. split; [reflexivity|]. assert (P3 : 0 < sqrt 3) by (apply sqrt_lt_R0; lra). intros Q. apply (f_equal (fun x => x * sqrt 3)) in Q.
  replace (1 / 3 / sqrt 3 * sqrt 3) with (1 / 3) in Q by (field; lra). replace (1 / sqrt 3 * sqrt 3) with 1 in Q by (field; lra). lra.
Qed.
Lemma sphere_case : exists (m : mesh NumR), mesh_of regR ix_tetra = Ok m /\ Valid m /\ Closed m /\ Spherical m vzero (sqrt 3) /\
  (forall v w, adj m v w -> 2 * (/ 10 ^ 12) * sqrt 3 <= vlength (vsub (v_pos m w) (v_pos m v))) /\
  (forall v l w, In v (m_verts m) -> v_neighbors (Some v) m = Ok (l, m) -> In (Some w) l -> - (sqrt 3 * sqrt 3) <= INR (length l) * dot (vsub (v_pos m v) vzero) (vsub (v_pos m w) vzero) /\ vlength (vsub (v_pos m w) (v_pos m v)) < 2 * sqrt 3) /\
  ExactSolver solveR.
Proof.
  destruct regR_all as (m & E & V & C & P & _ & S). exists m. split; [exact E|]. split; [exact V|]. split; [exact C|]. split; [exact (reg_spherical m S P)|]. split; [exact (reg_big m S P)|]. split; [exact (reg_near m S P)|]. exact solveR_ok.
Qed.
Lemma tensor_case : exists (m : mesh NumR) n, mesh_of regR ix_tetra = Ok m /\ Valid m /\ Closed m /\ NonDegenerate m /\ Gentle m n /\ ExactSolver solveR.
Proof.
  destruct regR_all as (m & E & V & C & P & _ & S). exists m, (nrm m). split; [exact E|]. split; [exact V|]. split; [exact C|]. split; [exact (sp_nd m _ _ (reg_spherical m S P))|]. split; [|exact solveR_ok].
  exact (sphere_gentle m vzero (sqrt 3) V C (reg_spherical m S P) (reg_big m S P) (reg_near m S P)).
Qed.

(** ** Meshes with other faces *)
Section Poly.
Context {N : Num}.
Variables (ncos nsin : num -> num).
Variable ldlt : nat -> (nat -> nat -> num) -> (nat -> num) -> nat -> num.
Lemma ro_v_normal v : ro (v_normal (N := N) v).
Proof.
  unfold v_normal. apply ro_bind; [|intros; apply ro_lift]. apply ro_circ_v. intros. repeat (apply ro_bind; [first [apply ro_vrd|apply ro_he_dst|apply ro_hrd|apply ro_lift]|intros]). apply ro_ret.
Qed.
Lemma ro_tab {X} (l : list X) i : ro (tab_at (N := N) l i).
Proof. unfold tab_at. destruct (i <? 0)%Z; [apply ro_ub|]. destruct (nth_error l _); [apply ro_ret|apply ro_ub]. Qed.
Lemma ro_smooth ns avg v : ro (smooth_normal (N := N) ns avg v).
Proof.
  unfold smooth_normal. apply ro_bind; [apply ro_vrd|intros i]. apply ro_bind; [apply ro_tab|intros nv]. apply ro_bind; [|intros; apply ro_bind; intros; apply ro_lift]. apply ro_circ_v. intros.
  repeat (apply ro_bind; [first [apply ro_vrd|apply ro_he_dst|apply ro_tab]|intros]). apply ro_ret.
Qed.
Lemma ro_face f : ro (face_tensor (N := N) ldlt f).
Proof.
  unfold face_tensor. apply ro_bind; [apply ro_circ_f; intros; apply ro_bind; [apply ro_hrd|intros; apply ro_ret]|intros vs]. destruct vs as [|v0 [|v1 [|v2 [|v3 vs]]]]; try apply ro_abort.
  repeat (apply ro_bind; [first [apply ro_vrd|apply ro_v_normal|apply ro_lift]|intros]). apply ro_ret.
Qed.
Lemma bind_inv {A B} (x : M N A) (k : A -> M N B) m b m' : bind x k m = Ok (b, m') -> exists a m1, x m = Ok (a, m1) /\ k a m1 = Ok (b, m').
Proof. unfold bind. destruct (x m) as [[a m1]| | |]; try discriminate. intros H. exists a, m1. auto. Qed.
Lemma mmap_inv {A B} (f : A -> M N B) (Rf : forall a, ro (f a)) l m bs m' : mmap f l m = Ok (bs, m') -> forall a, In a l -> exists b, f a m = Ok (b, m).
Proof.
  revert bs m'. induction l as [|x l IH]; intros bs m' H a Ia; [destruct Ia|]. cbn [mmap] in H. apply bind_inv in H. destruct H as (b & m1 & E1 & H). assert (m1 = m) by exact (Rf x m b m1 E1). subst m1.
  apply bind_inv in H. destruct H as (cs & m2 & E2 & _). destruct Ia as [<- | Ia]; [exists b; exact E1|exact (IH cs m2 E2 a Ia)].
Qed.
Theorem poly_never (m : mesh N) f vs : WF m -> In f (m_faces m) -> f_vertices (Some f) m = Ok (vs, m) -> length vs <> 3%nat ->
  (forall L m', getCurvatureTensors (N := N) ncos nsin ldlt m <> Ok (L, m')) /\ (forall b K m', getPrincipalCurvatures (N := N) ncos nsin ldlt b m <> Ok (K, m')).
Proof.
  intros W If Ev L3.
  assert (H : forall L m', getCurvatureTensors (N := N) ncos nsin ldlt m <> Ok (L, m')).
  { intros L m' H. unfold getCurvatureTensors in H. rewrite !bind_get in H. apply bind_inv in H. destruct H as (ns & m1 & E1 & H). assert (m1 = m) by (refine (ro_mmap _ _ _ m ns m1 E1); intros; apply ro_v_normal). subst m1.
    destruct (meanEdgeLength_ok m W) as (reps & _ & Ea). rewrite (bind_ok _ _ _ _ _ Ea) in H. apply bind_inv in H. destruct H as (ss & m2 & E2 & H). assert (m2 = m) by (refine (ro_mmap _ _ _ m ss m2 E2); intros; apply ro_smooth). subst m2.
    apply bind_inv in H. destruct H as (ft & m3 & E3 & _). destruct (mmap_inv _ (fun f => ro_face (Some f)) _ _ _ _ E3 f If) as [b Eb]. unfold face_tensor in Eb. rewrite (bind_ok _ _ _ _ _ Ev) in Eb.
    destruct vs as [|v0 [|v1 [|v2 [|v3 vs]]]]; try discriminate Eb. apply L3. reflexivity. }
  split; [exact H|]. intros b K m' HK. unfold getPrincipalCurvatures in HK. apply bind_inv in HK. destruct HK as (L & m1 & E & _). exact (H L m1 E).
Qed.
End Poly.

Section Square.
Variables (acosF expF : PrimFloat.float -> PrimFloat.float) (atan2F : PrimFloat.float -> PrimFloat.float -> PrimFloat.float).
Notation NF := (NumF acosF expF atan2F).
Definition chk_poly (m : mesh NF) : bool :=
  if Nat.eqb (length (m_verts m)) 4 then existsb (fun f => with_res acosF expF atan2F (f_vertices (Some f) m) (fun l _ => Nat.eqb (length l) 4)) (m_faces m) else false.
Lemma poly_check : with_mesh acosF expF atan2F (mesh_of (ps_square acosF expF atan2F) [0;1;2; 0;2;3]%nat) chk_poly = true.
Proof. vm_cast_no_check (eq_refl true). Qed.
Theorem open_never : exists ps ix (m : mesh NF), mesh_of ps ix = Ok m /\ length (m_verts m) = 4%nat /\ forall ncos nsin ldlt b,
  (forall L m', getCurvatureTensors (N := NF) ncos nsin ldlt m <> Ok (L, m')) /\ (forall K m', getPrincipalCurvatures (N := NF) ncos nsin ldlt b m <> Ok (K, m')).
Proof.
  assert (C := poly_check). apply with_ok in C as (m & E & C). unfold chk_poly in C. match type of C with (if ?x then _ else _) = _ => destruct x eqn:L4; [|discriminate C] end. apply Nat.eqb_eq in L4.
  exists (ps_square acosF expF atan2F), [0;1;2; 0;2;3]%nat, m. split; [exact E|]. split; [exact L4|]. intros ncos nsin ldlt b. apply existsb_exists in C. destruct C as (f & If & C). apply with_res_ok in C as (l & m1 & El & Q). apply Nat.eqb_eq in Q.
  apply mesh_of_ok in E. assert (V := proj1 (construct_valid _ _ _ _ E)). assert (W := valid_wf m V). destruct (fring m W f If) as (h & k & Eh & Hr). assert (F := f_vertices_ok m W f h k If Eh Hr). assert (F3 := eq_trans (eq_sym El) F). injection F3 as E3 E4. assert (F2 : f_vertices (Some f) m = Ok (l, m)) by (rewrite E3; exact F).
  destruct (poly_never ncos nsin ldlt m f l W If F2) as [A B]; [intros X; rewrite Q in X; discriminate X|]. split; [exact A|apply B].
Qed.
End Square.
