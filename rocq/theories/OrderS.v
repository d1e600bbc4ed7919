(** Smoothing two meshes of the same triangles. *)
From Coq Require Import Reals Lra Lia List ZArith Bool Arith Permutation.
From Verif Require Import Num NumInst Vec Heap Mesh Spec BuildSpec Orbit Rings Exec Diamond Queries Bounds GeomSpec VecR Measure MeasureR MeasureM SmoothSpec SmoothP SmoothD FilterSpec SmoothF Smooth Clone Curv CurvN CurvW OrderSpec Order OrderM.
Import ListNotations.
Local Open Scope R_scope.
Implicit Types m : mesh NumR.

(** [R] pairs the vertices of two meshes; everything smoothing looks at corresponds. *)
Record Paired (R : nat -> nat -> Prop) m m' : Prop := {
  pr_in : forall v v', R v v' -> In v (m_verts m) /\ In v' (m_verts m');
  pr_l : forall v, In v (m_verts m) -> exists v', R v v';
  pr_r : forall v', In v' (m_verts m') -> exists v, R v v';
  pr_fun : forall v a b, R v a -> R v b -> a = b;
  pr_inj : forall a b v', R a v' -> R b v' -> a = b;
  pr_adj : forall v v' w w', R v v' -> R w w' -> (adj m v w <-> adj m' v' w');
  pr_bd : forall v v', R v v' -> (on_boundary m v <-> on_boundary m' v');
  pr_lock : forall v v', R v v' -> v_lock m v = v_lock m' v';
  pr_tri : forall v v' w w' a a', R v v' -> R w w' -> R a a' -> ~ on_boundary m v ->
    ((exists f, Spec.Tri m f v w a) -> exists f, Spec.Tri m' f v' w' a') /\ ((exists f, Spec.Tri m f w v a) -> exists f, Spec.Tri m' f w' v' a') }.

Lemma sum_match (R : nat -> nat -> Prop) (F F' : nat -> Rdefinitions.R) : (forall v a b, R v a -> R v b -> a = b) -> (forall a b v', R a v' -> R b v' -> a = b) ->
  forall ws ws', NoDup ws -> NoDup ws' -> (forall w, In w ws -> exists w', In w' ws' /\ R w w') -> (forall w', In w' ws' -> exists w, In w ws /\ R w w') ->
  (forall w w', In w ws -> R w w' -> F w = F' w') -> total (map F ws) = total (map F' ws').
Proof.
  intros FU IJ. induction ws as [|w ws IH]; intros ws' N N' A B E.
  - destruct ws' as [|w' ws']; [reflexivity|]. destruct (B w' (or_introl eq_refl)) as (? & [] & _).
  - destruct (A w (or_introl eq_refl)) as (w' & Iw & Rw). destruct (in_split _ _ Iw) as (l1 & l2 & ->). inversion N as [|? ? Nw N1]; subst.
    assert (N2 := NoDup_remove_1 _ _ _ N'). assert (N3 := NoDup_remove_2 _ _ _ N').
    transitivity (F' w' + total (map F' (l1 ++ l2))).
    + cbn [map total fold_right]. rewrite (E w w' (or_introl eq_refl) Rw). f_equal. apply IH; [exact N1|exact N2| | |intros; apply E; [right; assumption|assumption]].
      * intros x Ix. destruct (A x (or_intror Ix)) as (x' & Ix' & Rx). exists x'. split; [|exact Rx]. apply in_app_or in Ix'. apply in_or_app. destruct Ix' as [|[<-|]]; [left; assumption| |right; assumption]. exfalso. apply Nw. rewrite (IJ w x w' Rw Rx). exact Ix.
      * intros x' Ix'. destruct (B x') as (x & Ix & Rx); [apply in_app_or in Ix'; apply in_or_app; destruct Ix'; [left|right; right]; assumption|]. exists x. split; [|exact Rx]. destruct Ix as [<-|]; [|assumption]. exfalso. apply N3. rewrite (FU w w' x' Rw Rx). exact Ix'.
    + rewrite !map_app. cbn [map]. clear. induction l1 as [|y l1 IH]; [reflexivity|]. cbn [map app total fold_right]. unfold total in *. rewrite <- IH. lra.
Qed.

Lemma tri_dst m h n v : WF m -> In h (m_hes m) -> h_next m h = Some n -> h_src m n = Some v -> dst_of m h = Some v.
Proof. intros W Ih En Sn. destruct (wf_rev m W h Ih) as (r & Er & _). unfold dst_of. rewrite Er. rewrite <- Sn. symmetry. exact (wf_dst m W h n r Ih En Er). Qed.
Lemma tri_third m f g u v w x : Valid m -> Spec.Tri m f u v w -> Spec.Tri m g u v x -> w = x.
Proof.
  intros V (a & b & c & Ha & N1 & N2 & N3 & S1 & S2 & S3) (a' & b' & c' & Ha' & N1' & N2' & N3' & S1' & S2' & S3'). assert (W := valid_wf m V).
  assert (Ia : In a (m_hes m)) by (apply (Ha a); left; reflexivity). assert (Ia' : In a' (m_hes m)) by (apply (Ha' a'); left; reflexivity).
  assert (E : a = a'). { apply (valid_noparallel m V); [exact Ia|exact Ia'|congruence|]. rewrite (tri_dst m a b v W Ia N1 S2), (tri_dst m a' b' v W Ia' N1' S2'). reflexivity. }
  subst a'. congruence.
Qed.

Section Pass.
Variables (R : nat -> nat -> Prop) (m m' : mesh NumR).
Hypothesis V : Valid m. Hypothesis V' : Valid m'. Hypothesis P : Paired R m m'.
Hypothesis E : forall v v', R v v' -> v_pos m v = v_pos m' v'.
Variable cot : bool.
Let weight := if cot then cotangent_weight else uniform_weight.

Lemma weight_same v v' w w' x x' : R v v' -> R w w' -> ~ on_boundary m v -> weight m v w x -> weight m' v' w' x' -> x = x'.
Proof.
  intros Rv Rw NB. unfold weight. destruct cot; [|intros -> ->; reflexivity].
  intros (f & g & a & b & T1 & T2 & ->) (f' & g' & a' & b' & T1' & T2' & ->).
  assert (A : forall (n : mesh NumR) k u z t, Valid n -> Spec.Tri n k u z t -> In u (m_verts n) /\ In z (m_verts n) /\ In t (m_verts n)).
  { intros n k u z t Vn (x & y & q & Hx & _ & _ & _ & S1 & S2 & S3). assert (Wn := valid_wf n Vn).
    assert (B : forall h s, In h (m_hes n) -> h_src n h = Some s -> In s (m_verts n)). { intros h s Ih Es. destruct (wf_src n Wn h Ih) as (s' & Es' & Is). rewrite Es in Es'. injection Es' as ->. exact Is. }
    split; [|split]; eapply B; [apply (Hx x); auto|exact S1|apply (Hx y); auto|exact S2|apply (Hx q); auto|exact S3]. }
  destruct (A m f v w a V T1) as (_ & _ & Ia). destruct (A m g w v b V T2) as (_ & _ & Ib).
  destruct (pr_l _ _ _ P a Ia) as (a1 & Ra). destruct (pr_l _ _ _ P b Ib) as (b1 & Rb).
  destruct (proj1 (pr_tri _ _ _ P v v' w w' a a1 Rv Rw Ra NB) (ex_intro _ f T1)) as (f1 & T3).
  destruct (proj2 (pr_tri _ _ _ P v v' w w' b b1 Rv Rw Rb NB) (ex_intro _ g T2)) as (g1 & T4).
  rewrite <- (tri_third m' _ _ _ _ _ _ V' T3 T1'), <- (tri_third m' _ _ _ _ _ _ V' T4 T2'), (E _ _ Rv), (E _ _ Rw), (E _ _ Ra), (E _ _ Rb). reflexivity.
Qed.

Lemma adj_in n u w : WF n -> adj (N := NumR) n u w -> In w (m_verts n).
Proof.
  intros Wn (h & Ih & _ & D). destruct (wf_rev n Wn h Ih) as (k & Ek & Ik). unfold dst_of in D. rewrite Ek in D. destruct (wf_src n Wn k Ik) as (s & Es & Is). rewrite D in Es. injection Es as ->. exact Is.
Qed.

Lemma pass_same eps m1 m1' : smoothing_pass weight eps m m1 -> smoothing_pass weight eps m' m1' -> forall v v', R v v' -> v_pos m1 v = v_pos m1' v'.
Proof.
  intros [S K M] [S' K' M'] v v' Rv. destruct (pr_in _ _ _ P v v' Rv) as (Iv & Iv').
  destruct (v_lock m v) eqn:L. { rewrite (K v (or_introl L)). rewrite (pr_lock _ _ _ P v v' Rv) in L. rewrite (K' v' (or_introl L)). apply E. exact Rv. }
  assert (D : on_boundary m v \/ ~ on_boundary m v).
  { unfold on_boundary. destruct (existsb (fun h => ptr_eqb (h_src m h) (Some v) && h_bd m h) (m_hes m)) eqn:X.
    - left. apply existsb_exists in X. destruct X as (h & Ih & X). apply andb_prop in X. destruct X as (X & Y). exists h. split; [exact Ih|]. split; [|exact Y]. destruct (h_src m h) as [s|]; cbn in X; [apply Nat.eqb_eq in X; congruence|discriminate X].
    - right. intros (h & Ih & Es & Eb). rewrite <- not_true_iff_false in X. apply X. apply existsb_exists. exists h. split; [exact Ih|]. rewrite Es, Eb. cbn. rewrite Nat.eqb_refl. reflexivity. }
  destruct D as [B | NB]. { rewrite (K v (or_intror B)). rewrite (K' v' (or_intror (proj1 (pr_bd _ _ _ P v v' Rv) B))). apply E. exact Rv. }
  assert (NB' : ~ on_boundary m' v') by (intros B; apply NB; apply (pr_bd _ _ _ P v v' Rv); exact B).
  assert (L' := L). rewrite (pr_lock _ _ _ P v v' Rv) in L'.
  destruct (M v Iv L NB) as (ws & W & c & N & Hw & HW & (T0 & Tx & Ty & Tz) & ->). destruct (M' v' Iv' L' NB') as (ws' & W' & c' & N' & Hw' & HW' & (T0' & Tx' & Ty' & Tz') & ->).
  assert (G : forall F F' : nat -> Rdefinitions.R, (forall w w', In w ws -> R w w' -> F w = F' w') -> total (map F ws) = total (map F' ws')).
  { intros F F' H. apply (sum_match R F F'); [exact (pr_fun _ _ _ P)|exact (pr_inj _ _ _ P)|exact N|exact N'| | |exact H].
    - intros w Iw. apply Hw in Iw. destruct (pr_l _ _ _ P w (adj_in m v w (valid_wf m V) Iw)) as (w' & Rw). exists w'. split; [|exact Rw]. apply Hw'. apply (pr_adj _ _ _ P v v' w w' Rv Rw). exact Iw.
    - intros w' Iw. apply Hw' in Iw. destruct (pr_r _ _ _ P w' (adj_in m' v' w' (valid_wf m' V') Iw)) as (w & Rw). exists w. split; [|exact Rw]. apply Hw. apply (pr_adj _ _ _ P v v' w w' Rv Rw). exact Iw. }
  assert (Wq : forall w w', In w ws -> R w w' -> W w = W' w').
  { intros w w' Iw Rw. apply Hw in Iw. apply (weight_same v v' w w'); [exact Rv|exact Rw|exact NB|apply HW; exact Iw|apply HW'; apply (pr_adj _ _ _ P v v' w w' Rv Rw); exact Iw]. }
  assert (Q := G W W' Wq). assert (Qp : forall pr : vec NumR -> Rdefinitions.R, total (map (fun w => W w * pr (v_pos m w)) ws) = total (map (fun w => W' w * pr (v_pos m' w)) ws')).
  { intros pr. apply G. intros w w' Iw Rw. rewrite (Wq w w' Iw Rw), (E w w' Rw). reflexivity. }
  rewrite (Qp vx), Q in Tx. rewrite (Qp vy), Q in Ty. rewrite (Qp vz), Q in Tz. rewrite <- Tx' in Tx. rewrite <- Ty' in Ty. rewrite <- Tz' in Tz.
  apply Rmult_eq_reg_r in Tx; [|exact T0']. apply Rmult_eq_reg_r in Ty; [|exact T0']. apply Rmult_eq_reg_r in Tz; [|exact T0']. unfold towards. rewrite Tx, Ty, Tz, (E v v' Rv). reflexivity.
Qed.
End Pass.

Lemma paired_pos R m m' m1 m1' : Paired R m m' -> posonly m m1 -> posonly m' m1' -> Paired R m1 m1'.
Proof. intros [A B C D F G H I J] [_ ->] [_ ->]. constructor; assumption. Qed.

Lemma passes_same R (cot : bool) eps n : forall m m' m1 m1', Valid m -> Valid m' -> Paired R m m' -> (forall v v', R v v' -> v_pos m v = v_pos m' v') ->
  smoothing_passes (if cot then cotangent_weight else uniform_weight) eps n m m1 -> smoothing_passes (if cot then cotangent_weight else uniform_weight) eps n m' m1' ->
  posonly m m1 /\ posonly m' m1' /\ forall v v', R v v' -> v_pos m1 v = v_pos m1' v'.
Proof.
  intros m m' m1 m1' V V' P E (ms & E0 & En & H) (ms' & E0' & En' & H').
  assert (G : forall i, (i <= n)%nat -> posonly m (ms i) /\ posonly m' (ms' i) /\ forall v v', R v v' -> v_pos (ms i) v = v_pos (ms' i) v').
  { induction i as [|i IH]; intros Hi; [rewrite E0, E0'; split; [apply posonly_refl|]; split; [apply posonly_refl|]; exact E|].
    destruct IH as (A & A' & B); [lia|]. assert (S := H i ltac:(lia)). assert (S' := H' i ltac:(lia)). split; [exact (posonly_trans _ _ _ A (sp_same _ _ _ _ S))|]. split; [exact (posonly_trans _ _ _ A' (sp_same _ _ _ _ S'))|].
    apply (pass_same R (ms i) (ms' i) (posonly_valid m _ V A) (posonly_valid m' _ V' A') (paired_pos R m m' _ _ P A A') B cot (eps i)); assumption. }
  rewrite <- En, <- En'. apply G. lia.
Qed.

(** ** Twins are paired *)
Section Twins.
Variables m m' : mesh NumR.
Variables T T' : list tri.
Hypothesis S : SurfaceOf m T.
Hypothesis S' : SurfaceOf m' T'.
Hypothesis D : PosDistinct (N := NumR) (positions m).
Hypothesis D' : PosDistinct (N := NumR) (positions m').
Hypothesis ST : SameTriangles (N := NumR) (positions m) T (positions m') T'.
Let V := so_valid _ _ S. Let V' := so_valid _ _ S'. Let W := valid_wf m V. Let W' := valid_wf m' V'.

Lemma dst_in (n : mesh NumR) h : WF n -> In h (m_hes n) -> exists w, dst_of n h = Some w /\ In w (m_verts n).
Proof. intros Wn Ih. destruct (wf_rev n Wn h Ih) as (k & Ek & Ik). destruct (wf_src n Wn k Ik) as (s & Es & Is). exists s. split; [unfold dst_of; rewrite Ek; exact Es|exact Is]. Qed.

Lemma adj_twin v w : adj m v w -> exists v' w', twin m m' v v' /\ twin m m' w w' /\ adj m' v' w'.
Proof.
  intros (h & Ih & Sh & Dh). destruct (he_at m T h v w S Ih Sh Dh) as (a & b & H & Ea & Eb).
  assert (G : In (r (positions m) (positions m') a, r (positions m) (positions m') b) (edges T') \/ In (r (positions m) (positions m') b, r (positions m) (positions m') a) (edges T')).
  { destruct (proj2 (so_edges _ _ S a b) (ex_intro _ h H)) as [I|I]; [left|right]; apply (edge_img _ _ T T' D' ST _ _ I). }
  assert (Ga : at_same (N := NumR) (positions m) (positions m') a (r (positions m) (positions m') a) /\ at_same (N := NumR) (positions m) (positions m') b (r (positions m) (positions m') b)).
  { destruct (proj2 (so_edges _ _ S a b) (ex_intro _ h H)) as [I|I]; destruct (edge_end T _ _ I) as (c & J); [split|split]; eapply (edge_img _ _ T T' D' ST); eassumption. }
  destruct Ga as (Xa & Xb). destruct (as_twin _ _ _ _ Xa) as (v0 & v' & A1 & A2 & A3). destruct (as_twin _ _ _ _ Xb) as (w0 & w' & B1 & B2 & B3).
  assert (v0 = v) by congruence. assert (w0 = w) by congruence. subst v0 w0. exists v', w'. split; [exact A3|]. split; [exact B3|].
  destruct (proj1 (so_edges _ _ S' _ _) G) as (h' & Ih' & p & q & P1 & P2 & P3 & P4). exists h'. split; [exact Ih'|]. split; congruence.
Qed.
Lemma has_twin v : In v (m_verts m) -> exists v', twin m m' v v'.
Proof.
  intros Iv. destruct (wf_vhe m W v Iv) as (h & _ & Ih & Sh). destruct (dst_in m h W Ih) as (w & Dw & _). destruct (adj_twin v w) as (v' & w' & A & _); [exists h; auto|]. exists v'. exact A.
Qed.
Lemma tri_twin f v w a : ~ on_boundary m v -> Spec.Tri m f v w a -> exists v' w' a' f', twin m m' v v' /\ twin m m' w w' /\ twin m m' a a' /\ Spec.Tri m' f' v' w' a'.
Proof.
  intros NB (x & y & z & Hx & N1 & N2 & N3 & S1 & S2 & S3). assert (Ix : In x (m_hes m)) by (apply (Hx x); auto).
  assert (B : h_bd m x = false) by (destruct (h_bd m x) eqn:B; [exfalso; apply NB; exists x; auto|reflexivity]).
  destruct (he_twin m m' T T' S S' ST x Ix B) as (h' & u & v0 & a0 & u' & w' & a' & Ih' & E1 & E2 & E3 & F1 & F2 & F3 & T1 & T2 & T3).
  assert (u = v) by congruence. assert (v0 = w) by (rewrite (tri_dst m x y w W Ix N1 S2) in E2; congruence). assert (a0 = a) by (unfold prev_src, next_of in E3; rewrite N1, N2 in E3; congruence). subst.
  assert (B' : h_bd m' h' = false). { destruct (h_bd m' h') eqn:B'; [|reflexivity]. exfalso. apply (inner_twin m m' T T' S S' D D' ST v u' T1 NB). exists h'. auto. }
  destruct (he_tri m' h' V' Ih' B') as (f' & p & q & t & _ & _ & H & _ & _ & _ & G1 & G2 & G3). exists u', w', a', f'. repeat (split; [assumption|]). replace u' with p by congruence. replace w' with q by congruence. replace a' with t by congruence. exact H.
Qed.
End Twins.

Lemma tri_cyc m f a b c : Spec.Tri m f a b c -> Spec.Tri m f b c a.
Proof. intros (x & y & z & H & N1 & N2 & N3 & S1 & S2 & S3). exists y, z, x. split; [intros h; rewrite H; tauto|]. auto 10. Qed.

Lemma twins_paired m m' : SameSurface (N := NumR) m m' -> (forall v v', twin m m' v v' -> v_lock m v = v_lock m' v') -> Paired (twin m m') m m'.
Proof.
  intros (T & T' & S & S' & _ & D & D' & ST) L. assert (ST' := same_sym _ _ _ _ ST).
  assert (FL : forall v a b, twin m m' v a -> twin m m' v b -> a = b) by (intros v a b; exact (twin_fun m m' v a b D')).
  assert (FR : forall a b v, twin m m' a v -> twin m m' b v -> a = b) by (intros a b v Ha Hb; exact (twin_fun m' m v a b D (twin_sym _ _ _ _ Ha) (twin_sym _ _ _ _ Hb))).
  constructor.
  - intros v v' (A & B & _). auto.
  - exact (has_twin m m' T T' S S' D' ST).
  - intros v' Iv'. destruct (has_twin m' m T' T S' S D ST' v' Iv') as (v & H). exists v. apply twin_sym. exact H.
  - exact FL.
  - exact FR.
  - intros v v' w w' A B. split; intros H.
    + destruct (adj_twin m m' T T' S S' D' ST v w H) as (p & q & P & Q & K). rewrite (FL v v' p A P), (FL w w' q B Q). exact K.
    + destruct (adj_twin m' m T' T S' S D ST' v' w' H) as (p & q & P & Q & K). rewrite (FR v p v' A (twin_sym _ _ _ _ P)), (FR w q w' B (twin_sym _ _ _ _ Q)). exact K.
  - intros v v' A. assert (G : forall (n n' : mesh NumR) x, {on_boundary n x} + {~ on_boundary n x}).
    { intros n _ x. unfold on_boundary. destruct (existsb (fun h => ptr_eqb (h_src n h) (Some x) && h_bd n h) (m_hes n)) eqn:X.
      - left. apply existsb_exists in X. destruct X as (h & Ih & X). apply andb_prop in X. destruct X as (X & Y). exists h. split; [exact Ih|]. split; [|exact Y]. destruct (h_src n h) as [s|]; cbn in X; [apply Nat.eqb_eq in X; congruence|discriminate X].
      - right. intros (h & Ih & Es & Eb). rewrite <- not_true_iff_false in X. apply X. apply existsb_exists. exists h. split; [exact Ih|]. rewrite Es, Eb. cbn. rewrite Nat.eqb_refl. reflexivity. }
    split; intros B.
    + destruct (G m' m' v') as [|NB]; [assumption|]. exfalso. exact (inner_twin m' m T' T S' S D' D ST' v' v (twin_sym _ _ _ _ A) NB B).
    + destruct (G m m v) as [|NB]; [assumption|]. exfalso. exact (inner_twin m m' T T' S S' D D' ST v v' A NB B).
  - exact L.
  - intros v v' w w' a a' A B C NB. split; intros (f & H).
    + destruct (tri_twin m m' T T' S S' D D' ST f v w a NB H) as (p & q & t & f' & P & Q & Tt & K). exists f'. rewrite (FL v v' p A P), (FL w w' q B Q), (FL a a' t C Tt). exact K.
    + destruct (tri_twin m m' T T' S S' D D' ST f v a w NB (tri_cyc _ _ _ _ _ H)) as (p & t & q & f' & P & Tt & Q & K). exists f'. rewrite (FL v v' p A P), (FL w w' q B Q), (FL a a' t C Tt). apply tri_cyc, tri_cyc. exact K.
Qed.

Theorem smoothing_order : forall m m', SameSurface (N := NumR) m m' -> (forall v v', In v (m_verts m) -> In v' (m_verts m') -> v_pos m v = v_pos m' v' -> v_lock m v = v_lock m' v') ->
  forall v v', In v (m_verts m) -> In v' (m_verts m') -> v_pos m v = v_pos m' v' ->
  (forall eps cot n m1 m1', smoothLaplacian (N := NumR) eps cot n m (Ok m1) -> smoothLaplacian (N := NumR) eps cot n m' (Ok m1') -> v_pos m1 v = v_pos m1' v') /\
  (forall a b n m1 m1', smoothTaubin (N := NumR) a b n m (Ok m1) -> smoothTaubin (N := NumR) a b n m' (Ok m1') -> v_pos m1 v = v_pos m1' v').
Proof.
  intros m m' SS L v v' Iv Iv' E. assert (P := twins_paired m m' SS (fun a b H => L a b (proj1 H) (proj1 (proj2 H)) (proj2 (proj2 H)))). destruct SS as (T & T' & S & S' & _). assert (V := so_valid _ _ S). assert (V' := so_valid _ _ S').
  assert (Tw : twin m m' v v') by (split; [|split]; assumption). split.
  - intros eps cot n m1 m1' H H'. apply (laplacian_computes eps cot n _ _ V) in H. apply (laplacian_computes eps cot n _ _ V') in H'.
    apply (passes_same (twin m m') cot (fun _ => eps) n m m' m1 m1' V V' P); [intros x x' X; apply X|exact H|exact H'|exact Tw].
  - intros a b n m1 m1' H H'. apply (taubin_computes a b n _ _ V) in H. apply (taubin_computes a b n _ _ V') in H'.
    apply (passes_same (twin m m') false (fun i => if Nat.even i then a else - b) (n * 2) m m' m1 m1' V V' P); [intros x x' X; apply X|exact H|exact H'|exact Tw].
Qed.
