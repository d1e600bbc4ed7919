(** Surfaces without a direction field, and classifications that surprise. *)
From Coq Require Import Reals Lra Lia List ZArith Bool Arith Permutation.
From Verif Require Import Num NumInst Vec Heap Mesh Construct Spec BuildSpec BuildProps Built Orbit Rings Exec Diamond Queries Refuse Witness Examples GeomSpec ExamplesR VecR Measure MeasureR MeasureM Means SmoothSpec Curv CurvN CurvW RegTet L0W LinR Lapl LaplSpec LaplP Features FeaturesR Tensor TensorSpec TensorR TensorM TensorS TensorW Deriv DerivSpec DerivM DerivO Feat FeatSpec FeatR FeatM FeatO.
Import ListNotations.
Local Open Scope mesh_scope.
Local Open Scope R_scope.

(** ** Without ridges and valleys there are no flags *)
Lemma no_marks m S sg D : Valid m -> (forall v, In v (m_verts m) -> Umbilic (S v)) -> (forall f, In f (m_faces m) -> FaceSign m S f (sg f)) ->
  length D = length (m_verts m) -> (forall i v, nth_error (m_verts m) i = Some v -> VertexMark m sg v (nth i D (vzero, 0))) -> forall i, ~ flagged D i.
Proof.
  intros V U Hs LD Hm. assert (W := valid_wf m V).
  assert (Tv : forall f a b c, Spec.Tri m f a b c -> In a (m_verts m)) by (intros f a b c (x & y & z & Hin & _ & _ & _ & Sx & _); apply (src_in m W x a); [apply Hin; tauto|exact Sx]).
  assert (Z : forall f, In f (m_faces m) -> sg f = 0%Z).
  { intros f If. destruct (Hs f If) as [(_ & (a & b & c & T & (NU & _)) & _)|[(_ & (a & b & c & T & (NU & _)) & _)|(E & _)]]; [| |exact E]; exfalso; apply NU, U, (Tv f a b c T). }
  intros i F. apply F. destruct (nth_error (m_verts m) i) as [v|] eqn:Ev.
  - destruct (Hm i v Ev) as (K & _ & IK & _ & K0 & _). rewrite K0; [reflexivity|]. destruct K as [|(h & d) K]; [reflexivity|exfalso]. destruct (proj1 (IK h) (or_introl eq_refl)) as ((g & Ih & (r & Er & Eg) & Ng & _) & _). apply Ng, Z.
    destruct (wf_rev m W h Ih) as (r' & Er' & Ir). assert (r' = r) by congruence. subst r'. destruct (wf_face m W r Ir) as (g'' & Eg'' & Ig). assert (g'' = g) by congruence. subst. exact Ig.
  - apply nth_error_None in Ev. rewrite nth_overflow by (rewrite LD; exact Ev). reflexivity.
Qed.
(** On a sphere with a radius above 100 all vertices are umbilic. *)
Theorem sphere_no_field m o r solve sparse : Valid m -> Closed m -> Spherical m o r -> m_verts m <> [] ->
  (forall v w, adj m v w -> 2 * (/ 10 ^ 12) * r <= vlength (vsub (v_pos m w) (v_pos m v))) ->
  (forall v l w, In v (m_verts m) -> v_neighbors (Some v) m = Ok (l, m) -> In (Some w) l ->
     - (r * r) <= INR (length l) * dot (vsub (v_pos m v) o) (vsub (v_pos m w) o) /\ vlength (vsub (v_pos m w) (v_pos m v)) < 2 * r) ->
  100 < r -> ExactSolver solve -> (forall n A c k, (forall i, c i = 0) -> sparse n A c k = 0) ->
  getFeatureLineFieldWithFlags (N := NumR) cos sin solve sparse false m = Abort AThrow.
Proof.
  intros V C Sp NE Big Near Hr HS Z0. destruct (derivs_total solve false m (nrm m) HS V C (sp_nd m o r Sp) (sphere_gentle m o r V C Sp Big Near)) as (X & EX & (L & n & T & G0 & F & P & C0 & G & E & _ & _ & _ & EP & Xeq & _)).
  destruct (sphere_total m o r V C Sp Big solve HS Near) as (K & EK & FK). rewrite EP in EK. assert (Kq : map P (m_verts m) = K) by congruence. clear EK. subst K.
  assert (LX : length X = length (m_verts m)) by (rewrite Xeq; apply map_length).
  destruct (feature_field solve sparse false m X V C (sp_nd m o r Sp) LX EX) as (S & sg & D & ES & Hsg & LD & Hm & Run). rewrite Run.
  apply (extend_none sparse m D V LD); [|exact NE|exact Z0]. apply (no_marks m S sg D V); try assumption.
  intros v Hv. rewrite Xeq in ES. assert (Sv := ext_in_map ES v Hv). cbv beta in Sv. rewrite <- Sv. unfold Umbilic. cbn [fst].
  apply In_nth_error in Hv. destruct Hv as [i Ei]. destruct (forall2_nth _ _ _ FK) as [_ HK]. assert (Q := HK i v (P v) Ei). rewrite nth_error_map, Ei in Q. specialize (Q eq_refl).
  destruct (P v) as [[[kM km] tM] tm]. destruct Q as (d & l & Nb & -> & -> & _). cbn [k_max k_min].
  destruct (Near v _ d (nth_error_In _ _ Ei) Nb (or_introl eq_refl)) as [_ Far]. set (e := vlength (vsub (v_pos m d) (v_pos m v))) in *. assert (Pe : 0 <= e) by apply vlength_pos.
  change (@num NumR) with R in *. replace (1 / r - (1 - (e / (2 * r)) ^ 2) / r) with ((e / (2 * r)) ^ 2 * / r) by (field; lra).
  assert (A0 : 0 <= e / (2 * r)) by (apply Rmult_le_pos; [exact Pe|apply Rlt_le, Rinv_0_lt_compat; lra]).
  assert (A1 : e / (2 * r) < 1) by (apply (Rmult_lt_reg_r (2 * r)); [lra|]; unfold Rdiv; rewrite Rmult_assoc, Rinv_l by lra; lra).
  assert (Ir : 0 < / r) by (apply Rinv_0_lt_compat; lra). assert (Ir2 : / r < / 100) by (apply Rinv_lt_contravar; lra).
  set (t := e / (2 * r)) in *. assert (T2 : 0 <= t ^ 2 <= 1) by (cbn [pow]; split; [apply Rmult_le_pos; lra|]; rewrite <- (Rmult_1_r 1); apply Rmult_le_compat; lra).
  rewrite Rabs_right by (apply Rle_ge, Rmult_le_pos; lra). apply Rle_lt_trans with (1 * / r); [apply Rmult_le_compat_r; lra|lra].
Qed.

(** ** A large regular tetrahedron *)
Definition bigR : list vecR := [v3 100 100 100; v3 100 (-100) (-100); v3 (-100) 100 (-100); v3 (-100) (-100) 100].
Lemma bigR_distinct : PosDistinct bigR.
Proof.
  intros i j p q Hi Hj E. apply veqb_real in E. subst q.
  destruct i as [|[|[|[|i]]]]; cbn [bigR nth_error] in Hi; [| | | |destruct i; discriminate Hi]; injection Hi as <-;
  destruct j as [|[|[|[|j]]]]; cbn [bigR nth_error] in Hj; try reflexivity; try (destruct j; discriminate Hj); exfalso; injection Hj; unfold v3; rn; intros; lra.
Qed.
Lemma bigR_mesh : exists m : mesh NumR, mesh_of bigR ix_tetra = Ok m /\ SurfaceOf m (triples ix_tetra) /\ positions m = bigR.
Proof.
  destruct (ex_tetra_welded (fun x => x) (fun x => x) (fun x _ => x)) as (D & ND & NE & _ & F).
  apply (accepts_manifold bigR ix_tetra bigR ix_tetra); [|exact D|exact ND|exact NE|exact F].
  apply Welded_id.
  - intros i p _ _. apply veqb_real. reflexivity.
  - exact bigR_distinct.
  - apply rangeb_ok. reflexivity.
  - intros j Hj. cbn [bigR length] in Hj. destruct j as [|[|[|[|j]]]]; [exists 0%nat|exists 1%nat|exists 2%nat|exists 4%nat|lia]; (split; [reflexivity|]); intros k' j' Lk Hk;
      destruct k' as [|[|[|[|k']]]]; try lia; cbn [ix_tetra nth_error] in Hk; injection Hk as <-; lia.
Qed.
Section Big.
Variable m : mesh NumR.
Hypothesis S : SurfaceOf m (triples ix_tetra).
Hypothesis Pm : positions m = bigR.
Let V := so_valid _ _ S.
Let W := valid_wf m V.
Let C := tetraR_closed m S.
Lemma big_len : length (m_verts m) = 4%nat.
Proof. apply (f_equal (@length _)) in Pm. unfold positions in Pm. rewrite map_length in Pm. exact Pm. Qed.
Lemma big_spherical : Spherical m vzero (sqrt 30000).
Proof.
  constructor.
  - apply sqrt_lt_R0. lra.
  - intros v Hv. assert (Hp : In (v_pos m v) bigR) by (rewrite <- Pm; unfold positions; apply in_map, Hv). revert Hp. generalize (v_pos m v). intros p Hp. change (sqrt (dot (vsub p vzero) (vsub p vzero)) = sqrt 30000). apply (f_equal sqrt). rewrite dot_eq. cbn [bigR In] in Hp. destruct Hp as [<- | [<- | [<- | [<- | []]]]]; unfold vsub, vadd, vneg, vzero, vfill, v3; rn; rg.
  - intros f a b c If T. destruct (tet_tri m bigR S Pm f a b c If T) as (i & j & k & Hin & _ & _ & _ & <- & <- & <-). tricase Hin; cbn [bigR nth]; rewrite dot_eq; unfold cross, vsub, vadd, vneg, vzero, vfill, v3; rn; lra.
Qed.
Lemma big_adj v w : adj m v w -> exists i j, (i < 4)%nat /\ (j < 4)%nat /\ i <> j /\ v_pos m v = nth i bigR vzero /\ v_pos m w = nth j bigR vzero.
Proof.
  assert (At : forall u, In u (m_verts m) -> exists i, (i < 4)%nat /\ u = vat m i /\ v_pos m u = nth i bigR vzero).
  { intros u Iu. destruct (vat_of m u Iu) as (i & Hi & ->). rewrite big_len in Hi. exists i. split; [exact Hi|]. split; [reflexivity|]. rewrite <- Pm. unfold positions, vat. rewrite (nth_indep _ vzero (v_pos m 0%nat)) by (rewrite map_length, big_len; exact Hi). rewrite map_nth. reflexivity. }
  intros A. destruct (adj_in m v w W A) as [Hv Hw]. destruct (At v Hv) as (i & Hi & Ev & Ei). destruct (At w Hw) as (j & Hj & Ew & Ej). exists i, j. split; [exact Hi|]. split; [exact Hj|]. split; [|split; assumption].
  intros ->. destruct A as (h & Ih & Sh & Dh). apply (valid_noloops m V h Ih). congruence.
Qed.
Lemma big_dist v w : adj m v w -> vlength (vsub (v_pos m w) (v_pos m v)) = sqrt 80000 /\ dot (vsub (v_pos m v) vzero) (vsub (v_pos m w) vzero) = -10000.
Proof.
  intros A. destruct (big_adj v w A) as (i & j & Hi & Hj & D & -> & ->). split.
  - unfold vlength. change (sqrt (dot (vsub (nth j bigR vzero) (nth i bigR vzero)) (vsub (nth j bigR vzero) (nth i bigR vzero))) = sqrt 80000). apply (f_equal sqrt). rewrite dot_eq.
    destruct i as [|[|[|[|i]]]]; try lia; destruct j as [|[|[|[|j]]]]; try lia; cbn [nth bigR]; unfold vsub, vadd, vneg, v3; rn; rg.
  - rewrite dot_eq. destruct i as [|[|[|[|i]]]]; try lia; destruct j as [|[|[|[|j]]]]; try lia; cbn [nth bigR]; unfold vsub, vadd, vneg, vzero, vfill, v3; rn; rg.
Qed.
Lemma sqrtbig : sqrt 80000 < 2 * sqrt 30000 /\ 200 < sqrt 80000 /\ 100 < sqrt 30000 < 200.
Proof.
  assert (E : 2 * sqrt 30000 = sqrt 120000) by (replace 120000 with ((2 * 2) * 30000) by ring; rewrite sqrt_mult by lra; rewrite sqrt_square by lra; reflexivity).
  split; [rewrite E; apply sqrt_lt_1; lra|]. split; [rewrite <- (sqrt_square 200) by lra; apply sqrt_lt_1; lra|]. split; [rewrite <- (sqrt_square 100) by lra|rewrite <- (sqrt_square 200) by lra]; apply sqrt_lt_1; lra.
Qed.
Lemma big_big v w : adj m v w -> 2 * (/ 10 ^ 12) * sqrt 30000 <= vlength (vsub (v_pos m w) (v_pos m v)).
Proof.
  intros A. rewrite (proj1 (big_dist v w A)). destruct sqrtbig as (_ & S8 & S3 & S4). destruct tiny as [T0 T1].
  assert (10 ^ 12 > 4) by lra. assert (/ 10 ^ 12 < / 4) by (apply Rinv_lt_contravar; lra). assert (/ 10 ^ 12 * sqrt 30000 <= / 4 * sqrt 30000) by (apply Rmult_le_compat_r; lra). lra.
Qed.
Lemma big_degree v l : In v (m_verts m) -> v_neighbors (Some v) m = Ok (l, m) -> (length l <= 3)%nat.
Proof.
  intros Hv El. destruct (vring m W v Hv) as (h & k & Eh & Hr). rewrite (v_neighbors_ok m W v h k Hv Eh Hr) in El. assert (El' : map (dst_of m) (h :: k) = l) by congruence. clear El. destruct Hr as (_ & Nd & Hin). subst l. set (r := h :: k) in *. clearbody r.
  assert (X : NoDup (Some v :: map (dst_of m) r)).
  { constructor.
    - intros I. apply in_map_iff in I. destruct I as (y & Dy & Iy). apply Hin in Iy. destruct Iy as [Iy Sy]. apply (valid_noloops m V y Iy). congruence.
    - clear Eh. assert (Q : forall y, In y r -> In y (m_hes m) /\ h_src m y = Some v) by (intros y; apply Hin). clear Hin. induction Nd as [|y r Ny Nd IH]; [constructor|]. cbn [map]. constructor; [|apply IH; intros z Z; apply Q; right; exact Z].
      intros I. apply in_map_iff in I. destruct I as (z & Dz & Iz). destruct (Q y (or_introl eq_refl)) as [Iy Sy]. destruct (Q z (or_intror Iz)) as [Iz' Sz]. assert (z = y) by (apply (valid_noparallel m V z y Iz' Iy); congruence). subst z. exact (Ny Iz). }
  assert (L : (length (Some v :: map (dst_of m) r) <= length (map Some (m_verts m)))%nat).
  { apply NoDup_incl_length; [exact X|]. intros x [<- | I]; [apply in_map, Hv|]. apply in_map_iff in I. destruct I as (y & <- & Iy). apply Hin in Iy. destruct (dst_ptr m y W (proj1 Iy)) as (d & -> & Id). apply in_map, Id. }
  cbn [length] in L. rewrite !map_length in *. rewrite big_len in L. lia.
Qed.
Lemma big_near v l w : In v (m_verts m) -> v_neighbors (Some v) m = Ok (l, m) -> In (Some w) l ->
  - (sqrt 30000 * sqrt 30000) <= INR (length l) * dot (vsub (v_pos m v) vzero) (vsub (v_pos m w) vzero) /\ vlength (vsub (v_pos m w) (v_pos m v)) < 2 * sqrt 30000.
Proof.
  intros Hv El Iw. assert (A : adj m v w).
  { destruct (vring m W v Hv) as (h & k & Eh & Hr). rewrite (v_neighbors_ok m W v h k Hv Eh Hr) in El. assert (El' : map (dst_of m) (h :: k) = l) by congruence. subst l. apply in_map_iff in Iw. destruct Iw as (y & Dy & Iy). destruct Hr as (_ & _ & Hin). apply Hin in Iy. exists y. tauto. }
  destruct (big_dist v w A) as [-> ->]. split; [|apply sqrtbig]. rewrite sqrt_sqrt by lra. assert (L := big_degree v l Hv El). apply le_INR in L. cbn [INR] in L. lra.
Qed.
End Big.
(** No direction field on a closed surface of which everything else can be computed. *)
Theorem no_field solve sparse : ExactSolver solve -> (forall n A c k, (forall i, c i = 0) -> sparse n A c k = 0) ->
  exists (m : mesh NumR) X, mesh_of bigR ix_tetra = Ok m /\ Valid m /\ Closed m /\ NonDegenerate m /\
    getPrincipalCurvaturesWithDerivatives (N := NumR) cos sin solve false m = Ok (X, m) /\
    getFeatureLineField (N := NumR) cos sin solve sparse false m = Abort AThrow.
Proof.
  intros HS Z0. destruct bigR_mesh as (m & E & S & P). assert (V := so_valid _ _ S). assert (C := tetraR_closed m S). assert (Sp := big_spherical m S P).
  destruct (derivs_total solve false m (nrm m) HS V C (sp_nd m _ _ Sp) (sphere_gentle m _ _ V C Sp (big_big m S P) (big_near m S P))) as (X & EX & _).
  exists m, X. split; [exact E|]. split; [exact V|]. split; [exact C|]. split; [exact (sp_nd m _ _ Sp)|]. split; [exact EX|].
  unfold getFeatureLineField. unfold bind. rewrite (sphere_no_field m vzero (sqrt 30000) solve sparse V C Sp); try assumption; [reflexivity| |exact (big_big m S P)|exact (big_near m S P)|apply sqrtbig].
  intros Z. assert (L := big_len m P). rewrite Z in L. discriminate.
Qed.
Lemma solve_zero n : forall A c k, (forall i, c i = 0) -> solveR n A c k = 0.
Proof.
  induction n as [|n IH]; intros A c k Z; [reflexivity|]. cbn [solveR]. set (x := solveR n _ _). assert (X : forall j, x j = 0) by (intros j; apply IH; intros i; rewrite !Z; unfold Rdiv; ring).
  unfold ext. destruct (Nat.eqb k n); [|apply X]. rewrite (LaplP.sum_to_ext n _ (fun _ => 0)) by (intros j _; rewrite X; ring). rewrite sum_to_0, Z. unfold Rdiv. ring.
Qed.

(** ** Directions at a right angle: the answer depends on which of the two opposite directions was chosen. *)
Theorem sign_matters : exists p q x y, checkRV (N := NumR) p q x y = (-1)%Z /\ checkRV (N := NumR) p q (reversed x) y = 0%Z.
Proof.
  set (x := ((1, 0, v3 1 0 0, v3 0 0 1), (1, 0)) : sample NumR). set (y := ((1, 0, v3 0 1 0, v3 0 0 1), (-1, 0)) : sample NumR).
  exists vzero, (v3 1 1 0), x, y. assert (A : Rabs 0 = 0) by apply Rabs_R0. assert (A1 : Rabs (1 - 0) = 1) by (rewrite Rminus_0_r; apply Rabs_R1).
  assert (D : dot (v3 1 0 0) (v3 0 1 0) = 0) by (rewrite dot_eq; unfold v3; rn; lra). split.
  - apply (proj1 (check_spec _ _ x y)). unfold RidgeEdge, Umbilic, Opposed, rise, e_max, x, y. cbn [fst snd k_max k_min t_max t_min]. rewrite D, A, A1. rewrite !dot_eq. unfold vsub, vadd, vneg, vzero, vfill, v3. rn. change (@num NumR) with R in *. split; [lra|]. split; [lra|]. split; [split; intros; lra|]. lra.
  - destruct (check_spec vzero (v3 1 1 0) (reversed x) y) as (S1 & S2 & S3). assert (NO : ~ Opposed (reversed x) y).
    { intros [O _]. unfold reversed, x, y, e_max in O. cbn [fst snd t_max] in O. rewrite dot_eq in O. unfold vneg, v3 in O. rn. cbn in O. lra. }
    destruct S3 as [E|[E|[E|[]]]]; [exfalso|symmetry; exact E|exfalso]; symmetry in E; [apply S1 in E|apply S2 in E]; destruct E as (_ & _ & O & _); exact (NO O).
Qed.

(** ** The surface turned inside out: curvatures and derivatives change sign and place. *)
Lemma inverted_partial p q (x y : sample NumR) : k_min (fst x) <= k_max (fst x) -> k_min (fst y) <= k_max (fst y) -> checkRV (N := NumR) p q x y = 1%Z ->
  let x' := inverted x in let y' := inverted y in ~ Umbilic x' /\ ~ Umbilic y' /\ Rabs (k_min (fst x')) < k_max (fst x') /\ Rabs (k_min (fst y')) < k_max (fst y').
Proof.
  intros Hx Hy E. apply (proj1 (proj2 (check_spec p q x y))) in E. destruct E as (U1 & U2 & _ & D1 & D2 & _). destruct x as [[[[a b] t] t'] [e e']], y as [[[[a2 b2] t2] t2'] [e2 e2']].
  unfold inverted, Umbilic in *. cbn [fst snd k_max k_min t_max t_min] in *. change (@num NumR) with R in *.
  assert (G : forall a b, b <= a -> ~ Rabs (a - b) < / 100 -> a < Rabs b -> ~ Rabs (- b - - a) < / 100 /\ Rabs (- a) < - b).
  { clear. intros a b H U D. replace (- b - - a) with (a - b) by ring. split; [exact U|]. rewrite Rabs_Ropp. unfold Rabs in *. destruct (Rcase_abs b), (Rcase_abs a), (Rcase_abs (a - b)); lra. }
  destruct (G a b Hx U1 D1), (G a2 b2 Hy U2 D2). tauto.
Qed.
Theorem inverted_wrong : exists p q (x y : sample NumR), k_min (fst x) < k_max (fst x) /\ k_min (fst y) < k_max (fst y) /\ checkRV (N := NumR) p q x y = 1%Z /\ checkRV (N := NumR) p q (inverted x) (inverted y) <> (-1)%Z.
Proof.
  set (x := ((0, -1, v3 1 0 0, v3 0 1 0), (-1, 0)) : sample NumR). set (y := ((0, -1, v3 1 0 0, v3 0 1 0), (1, 0)) : sample NumR).
  exists vzero, (v3 1 0 0), x, y. assert (A : Rabs (-1) = 1) by (rewrite Rabs_left; lra). assert (A1 : Rabs (0 - -1) = 1) by (replace (0 - -1) with 1 by ring; apply Rabs_R1).
  assert (D : dot (v3 1 0 0) (v3 1 0 0) = 1) by (rewrite dot_eq; unfold v3; rn; lra).
  split; [cbn; lra|]. split; [cbn; lra|]. split.
  - apply (proj1 (proj2 (check_spec _ _ x y))). unfold ValleyEdge, Umbilic, Opposed, rise, e_max, x, y. cbn [fst snd k_max k_min t_max t_min]. rewrite D, A, A1. rewrite !dot_eq. unfold vsub, vadd, vneg, vzero, vfill, v3. rn. change (@num NumR) with R in *. split; [lra|]. split; [lra|]. split; [split; intros; lra|]. lra.
  - intros E. apply (proj1 (check_spec _ _ (inverted x) (inverted y))) in E. destruct E as (_ & _ & _ & _ & _ & Q & _). unfold rise, e_max, inverted, x in Q. cbn [fst snd] in Q. replace (- 0) with 0 in Q by ring; rewrite Rmult_0_l in Q. lra.
Qed.

(** ** A direction at one vertex of a tetrahedron can be extended. *)
Lemma tet_adj (m : mesh NumR) : SurfaceOf m (triples ix_tetra) -> forall i j v w, nth_error (m_verts m) i = Some v -> nth_error (m_verts m) j = Some w -> (i < 4)%nat -> (j < 4)%nat -> i <> j -> adj m v w.
Proof.
  intros S i j v w Ev Ew Hi Hj N. assert (E : In (i, j) (edges (triples ix_tetra)) \/ In (j, i) (edges (triples ix_tetra))).
  { destruct i as [|[|[|[|i]]]]; try lia; destruct j as [|[|[|[|j]]]]; try lia; cbn; tauto. }
  apply (so_edges _ _ S) in E. destruct E as (h & Ih & u & u' & Eu & Eu' & Sh & Dh). exists h. split; [exact Ih|]. split; congruence.
Qed.
Definition oneD : list (vecR * R) := [(v3 0 0 1, 1); (vzero, 0); (vzero, 0); (vzero, 0)].
Lemma extend_case : exists (m : mesh NumR), mesh_of regR ix_tetra = Ok m /\ Valid m /\ Closed m /\ NonDegenerate m /\ length oneD = length (m_verts m) /\ AllReached m oneD /\ flagged oneD 0 /\ (forall i, (0 < i)%nat -> ~ flagged oneD i) /\ ExactSolver solveR.
Proof.
  destruct regR_all as (m & E & V & C & P & _ & S). exists m. split; [exact E|]. split; [exact V|]. split; [exact C|]. split; [exact (sp_nd m _ _ (reg_spherical m S P))|]. assert (L := reg_len m P).
  assert (F0 : flagged oneD 0) by (unfold flagged; cbn; lra). split; [symmetry; exact L|]. split; [|split; [exact F0|split; [|exact solveR_ok]]].
  - intros v Hv. destruct (vat_of m v Hv) as (i & Hi & ->). exists 0%nat, (vat m 0). assert (H0 : (0 < length (m_verts m))%nat) by (rewrite L; lia). split; [|split; [exact (vat_nth m 0 H0)|exact F0]].
    destruct (Nat.eq_dec i 0) as [->|N]; [apply reach_here|]. apply (reach_edge m _ _ _ (reach_here m _)). rewrite L in Hi. apply (tet_adj m S i 0%nat); [apply vat_nth; rewrite L; exact Hi|apply vat_nth, H0|exact Hi|lia|exact N].
  - intros i Hi F. apply F. destruct i as [|[|[|[|[|i]]]]]; try lia; reflexivity.
Qed.
Lemma field_case : exists (m : mesh NumR) X, mesh_of bigR ix_tetra = Ok m /\ Valid m /\ Closed m /\ NonDegenerate m /\ length X = length (m_verts m) /\
  getPrincipalCurvaturesWithDerivatives (N := NumR) cos sin solveR false m = Ok (X, m) /\ ExactSolver solveR /\ forall n A c k, (forall i, c i = 0) -> solveR n A c k = 0.
Proof.
  destruct bigR_mesh as (m & E & S & P). assert (V := so_valid _ _ S). assert (C := tetraR_closed m S). assert (Sp := big_spherical m S P).
  destruct (derivs_total solveR false m (nrm m) solveR_ok V C (sp_nd m _ _ Sp) (sphere_gentle m _ _ V C Sp (big_big m S P) (big_near m S P))) as (X & EX & HX).
  exists m, X. split; [exact E|]. split; [exact V|]. split; [exact C|]. split; [exact (sp_nd m _ _ Sp)|]. split; [destruct HX as (L & n & T & G0 & F & Q & C0 & G & E' & _ & _ & _ & _ & -> & _); apply map_length|]. split; [exact EX|]. split; [exact solveR_ok|exact solve_zero].
Qed.
Lemma big_case : exists (m : mesh NumR), mesh_of bigR ix_tetra = Ok m /\ Valid m /\ Closed m /\ Spherical m vzero (sqrt 30000) /\ m_verts m <> [] /\
  (forall v w, adj m v w -> 2 * (/ 10 ^ 12) * sqrt 30000 <= vlength (vsub (v_pos m w) (v_pos m v))) /\
  (forall v l w, In v (m_verts m) -> v_neighbors (Some v) m = Ok (l, m) -> In (Some w) l ->
     - (sqrt 30000 * sqrt 30000) <= INR (length l) * dot (vsub (v_pos m v) vzero) (vsub (v_pos m w) vzero) /\ vlength (vsub (v_pos m w) (v_pos m v)) < 2 * sqrt 30000) /\ 100 < sqrt 30000.
Proof.
  destruct bigR_mesh as (m & E & S & P). assert (V := so_valid _ _ S). assert (C := tetraR_closed m S). exists m. split; [exact E|]. split; [exact V|]. split; [exact C|]. split; [exact (big_spherical m S P)|].
  split; [intros Z; assert (L := big_len m P); rewrite Z in L; discriminate|]. split; [exact (big_big m S P)|]. split; [exact (big_near m S P)|apply sqrtbig].
Qed.
Lemma edge_case : exists (p q : vecR) (x y : sample NumR), RidgeEdge p q x y /\ dot (t_max (fst x)) (t_max (fst y)) <> 0.
Proof.
  set (x := ((1, 0, v3 1 0 0, v3 0 0 1), (1, 0)) : sample NumR). set (y := ((1, 0, v3 1 0 0, v3 0 0 1), (-1, 0)) : sample NumR). exists vzero, (v3 1 0 0), x, y.
  assert (A : Rabs 0 = 0) by apply Rabs_R0. assert (A1 : Rabs (1 - 0) = 1) by (rewrite Rminus_0_r; apply Rabs_R1). assert (D : dot (v3 1 0 0) (v3 1 0 0) = 1) by (rewrite dot_eq; unfold v3; rn; lra). split; [|cbn [fst x y t_max]; unfold x, y; cbn [fst t_max]; rewrite D; lra].
  unfold RidgeEdge, Umbilic, Opposed, rise, e_max, x, y. cbn [fst snd k_max k_min t_max t_min]. rewrite D, A, A1. rewrite !dot_eq. unfold vsub, vadd, vneg, vzero, vfill, v3. rn. change (@num NumR) with R in *. split; [lra|]. split; [lra|]. split; [split; intros; lra|]. lra.
Qed.
