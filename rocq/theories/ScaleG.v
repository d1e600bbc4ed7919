(** Filling holes in scaled meshes. *)
From Coq Require Import Reals List ZArith Arith Bool Lra Lia FunctionalExtensionality.
From Verif Require Import Num NumInst Vec Heap Mesh Bounds Construct Measure Lapl Fill FillD Front Simplify Remesh WholeSpec RigidSpec ScaleSpec ScaleM ScaleE ScaleF.
Import ListNotations.
Local Open Scope mesh_scope.

Section Scale.
Variable c : R.
Hypothesis Hc : (0 < c)%R.
Notation T := (grow c).
Notation MV := (scaled c).
Notation mv := (mv c).
Notation mvs x := (mv same x x).
Notation k2 := (c * c)%R.
Ltac go := mvt Hc.

(** ** Values that are related *)
Definition mr {A} (P : A -> A -> Prop) (x x' : M NumR A) : Prop := forall m,
  match x m with Ok (a, m1) => exists a', x' (MV m) = Ok (a', MV m1) /\ P a a' | UB u => x' (MV m) = UB u | Abort u => x' (MV m) = Abort u | NoFuel => x' (MV m) = NoFuel end.
Lemma mr_of {A} (g : A -> A) x x' : mv g x x' -> mr (fun a a' => a' = g a) x x'.
Proof. intros H m. rewrite H. destruct (x m) as [[a m1]| | |]; cbn; try reflexivity. eexists. split; reflexivity. Qed.
Lemma mr_to {A} (g : A -> A) x x' : mr (fun a a' => a' = g a) x x' -> mv g x x'.
Proof. intros H m. specialize (H m). destruct (x m) as [[a m1]| | |]; cbn; try exact H. destruct H as (a' & E & ->). exact E. Qed.
Lemma mr_ret {A} (P : A -> A -> Prop) a a' : P a a' -> mr P (ret a) (ret a').
Proof. intros H m. cbn. exists a'. split; [reflexivity|exact H]. Qed.
Lemma mr_bind {A B} (P : A -> A -> Prop) (P' : B -> B -> Prop) x x' k k' : mr P x x' -> (forall a a', P a a' -> mr P' (k a) (k' a')) -> mr P' (bind x k) (bind x' k').
Proof. intros H K m. unfold bind. specialize (H m). destruct (x m) as [[a m1]| | |]; [|rewrite H; reflexivity|rewrite H; reflexivity|rewrite H; reflexivity]. destruct H as (a' & -> & Pa). apply (K a a' Pa m1). Qed.
Lemma mr_weaken {A} (P P' : A -> A -> Prop) x x' : mr P x x' -> (forall a a', P a a' -> P' a a') -> mr P' x x'.
Proof. intros H K m. specialize (H m). destruct (x m) as [[a m1]| | |]; try exact H. destruct H as (a' & E & Pa). exists a'. split; [exact E|apply K, Pa]. Qed.
Lemma mr_bindv {A B} (g : A -> A) (P : B -> B -> Prop) x x' k k' : mv g x x' -> (forall a, mr P (k a) (k' (g a))) -> mr P (bind x k) (bind x' k').
Proof. intros H K. apply (mr_bind (fun a a' => a' = g a)); [apply mr_of, H|]. intros a a' ->. apply K. Qed.
Lemma mr_mfold {A B} (P : B -> B -> Prop) f f' : forall (l : list A) b b', (forall b b' a, In a l -> P b b' -> mr P (f b a) (f' b' a)) -> P b b' -> mr P (mfold f b l) (mfold f' b' l).
Proof.
  induction l as [|a l IH]; intros b b' H Pb; [apply mr_ret, Pb|]. cbn [mfold]. apply (mr_bind P); [apply H; [left; reflexivity|exact Pb]|]. intros b1 b1' P1. apply IH; [|exact P1]. intros. apply H; [right; assumption|assumption].
Qed.

(** ** Tables *)
Notation tab := (@tables NumR).
Definition K1 (t t' : tab) (a b : nat) : Prop := t_area t' a b = (k2 * t_area t a b)%R /\ @nltb NumR (t_angle t a b) nbig12 = true.
Definition Entry (t t' : tab) (a b : nat) : Prop := t_angle t' a b = t_angle t a b /\ t_o t' a b = t_o t a b /\ (K1 t t' a b \/ t_o t a b = None /\ t_angle t a b = nbig12).
Definition TabE (t t' : tab) : Prop := forall a b, Entry t t' a b.
Lemma set_entry t t' i k (ar ar' ang : @num NumR) o : TabE t t' -> ar' = (k2 * ar)%R -> @nltb NumR ang nbig12 = true -> TabE (@t_set NumR i k ar ang o t) (@t_set NumR i k ar' ang o t').
Proof.
  intros H Ea Lt a b. unfold Entry, K1, t_set, upd2. cbn [t_area t_angle t_o]. destruct ((a =? i) && (b =? k)); [|apply H]. split; [reflexivity|]. split; [reflexivity|]. left. split; assumption.
Qed.
Lemma set_k1 t t' i k (ar ar' ang : @num NumR) o a b : ar' = (k2 * ar)%R -> @nltb NumR ang nbig12 = true -> K1 t t' a b -> K1 (@t_set NumR i k ar ang o t) (@t_set NumR i k ar' ang o t') a b.
Proof. intros Ea Lt H. unfold K1, t_set, upd2. cbn [t_area t_angle]. destruct ((a =? i) && (b =? k)); [split; assumption|exact H]. Qed.
Lemma set_here t t' i k (ar ar' ang : @num NumR) o : ar' = (k2 * ar)%R -> @nltb NumR ang nbig12 = true -> K1 (@t_set NumR i k ar ang o t) (@t_set NumR i k ar' ang o t') i k.
Proof. intros Ea Lt. unfold K1, t_set, upd2. cbn [t_area t_angle]. rewrite !Nat.eqb_refl. split; assumption. Qed.
Lemma tables0_ok : TabE tables0 tables0.
Proof. intros a b. split; [reflexivity|]. split; [reflexivity|]. right. split; reflexivity. Qed.
Lemma zero_small : @nltb NumR nzero nbig12 = true. Proof. apply ang_start. Qed.
Lemma angle_small (a b d e f : vecR) : @nltb NumR (fill_angle a b d e f) nbig12 = true.
Proof. apply fill_angle_lt. Qed.
Lemma max_small (x y : @num NumR) : @nltb NumR x nbig12 = true -> @nltb NumR y nbig12 = true -> @nltb NumR (nmax x y) nbig12 = true.
Proof. apply max_lt. Qed.
Lemma fill_area_move a b d : fill_area (T a) (T b) (T d) = (k2 * fill_area a b d)%R. Proof. unfold fill_area. rg Hc. cbn. ring. Qed.
Lemma fill_angle_move a b d e f : fill_angle (T a) (T b) (T d) (T e) (T f) = fill_angle a b d e f. Proof. unfold fill_angle. rg Hc. reflexivity. Qed.
Lemma mv_at_ l i : mvs (@at_ NumR l i). Proof. unfold at_. go. Qed.
Hint Resolve mv_at_ : mvh.
Lemma mv_bpos bd i : mv T (b_pos bd i) (b_pos bd i). Proof. unfold b_pos. apply mv_binds; [go|intros v]. apply mv_pos. Qed.
Lemma mv_opposite h : mv T (opposite h) (opposite h).
Proof. unfold opposite. apply mv_binds; [go|intros r]. apply mv_binds; [go|intros n]. apply mv_binds; [go|intros d]. apply mv_pos. Qed.
Hint Resolve mv_bpos mv_opposite : mvh.
(** Entries for the edges of the hole. *)
Lemma start_ok bd em n t t' i : TabE t t' -> mr (fun x x' => TabE x x' /\ K1 x x' i (i + 1) /\ forall a b, K1 t t' a b -> K1 x x' a b) (@fill_start NumR bd em n t i) (fill_start bd em n t' i).
Proof.
  intros H. assert (Z : @nzero NumR = (k2 * @nzero NumR)%R) by (cbn; ring). assert (H1 := set_entry t t' i (i + 1) nzero nzero nzero None H Z zero_small). assert (G1 := set_here t t' i (i + 1) nzero nzero nzero None Z zero_small).
  unfold fill_start. cbv zeta. destruct (i <? n - 2).
  - eapply mr_bindv; [apply mv_bpos|intros v0]. eapply mr_bindv; [apply mv_bpos|intros v1]. eapply mr_bindv; [apply mv_bpos|intros v2]. eapply mr_bindv; [apply mv_opposite|intros w0]. eapply mr_bindv; [apply mv_opposite|intros w1]. apply mr_ret.
    rewrite fill_area_move, fill_angle_move. split; [apply set_entry; [exact H1|reflexivity|apply angle_small]|]. split; [apply set_k1; [reflexivity|apply angle_small|exact G1]|]. intros a b K. apply set_k1; [reflexivity|apply angle_small|]. apply set_k1; [exact Z|exact zero_small|exact K].
  - apply mr_ret. split; [exact H1|]. split; [exact G1|]. intros a b K. apply set_k1; [exact Z|exact zero_small|exact K].
Qed.
Lemma starts_ok bd em n : forall l t t', TabE t t' -> mr (fun x x' => TabE x x' /\ (forall i, In i l -> K1 x x' i (i + 1)) /\ forall a b, K1 t t' a b -> K1 x x' a b) (mfold (@fill_start NumR bd em n) t l) (mfold (fill_start bd em n) t' l).
Proof.
  induction l as [|i l IH]; intros t t' H; [apply mr_ret; split; [exact H|]; split; [intros i []|auto]|]. cbn [mfold]. eapply mr_bind; [apply start_ok, H|]. intros x x' (H1 & G1 & M1). eapply mr_weaken; [apply IH, H1|]. intros y y' (H2 & G2 & M2).
  split; [exact H2|]. split; [intros j [->|I]; [apply M2, G1|apply G2, I]|auto].
Qed.
Variable cabs : R -> R.
Definition TabN (n : nat) (t t' : tab) : Prop := TabE t t' /\ forall i, i + 1 < n -> K1 t t' i (i + 1).
Lemma beyond_ok bd em n t t' a b : TabN n t t' -> b < n -> mr (fun x x' => x' = T x /\ K1 t t' a b) (@beyond NumR bd em t a b) (beyond bd em t' a b).
Proof.
  intros [H A] L. unfold beyond. destruct (b =? a + 1) eqn:E.
  - apply Nat.eqb_eq in E. subst b. eapply mr_weaken; [apply mr_of, mv_opposite|]. intros x x' ->. split; [reflexivity|apply A, L].
  - destruct (H a b) as (_ & Eo & K). rewrite Eo. destruct (t_o t a b) as [j|] eqn:Ej; [|intros m; reflexivity]. eapply mr_weaken; [apply mr_of, mv_bpos|]. intros x x' ->. split; [reflexivity|]. destruct K as [K|[K _]]; [exact K|congruence].
Qed.
Lemma rltb_k2 (x y : R) : Rltb (k2 * x) (k2 * y) = Rltb x y. Proof. apply rltb_times, cc0, Hc. Qed.
Lemma try_ok bd em n bound i k t t' m : m < k < n -> TabN n t t' -> mr (TabN n) (@fill_try NumR cabs bd em bound i k t m) (@fill_try NumR cabs bd em bound i k t' m).
Proof.
  intros L H. unfold fill_try. eapply mr_bindv; [apply mv_bpos|intros v0]. eapply mr_bindv; [apply mv_bpos|intros v1]. eapply mr_bindv; [apply mv_bpos|intros v2]. cbv zeta.
  eapply mr_bind; [apply (beyond_ok bd em n t t' i m H); lia|]. intros w0 w0' [-> [A1 S1]]. eapply mr_bind; [apply (beyond_ok bd em n t t' m k H); lia|]. intros w1 w1' [-> [A2 S2]].
  rewrite fill_area_move, fill_angle_move. destruct H as [H A]. destruct (H i m) as (N1 & _). destruct (H m k) as (N2 & _). destruct (H i k) as (N3 & _ & K3). rewrite N1, N2, N3, A1, A2.
  set (ang := nmax (fill_angle v0 v1 v2 w0 w1) (nmax (t_angle t i m) (t_angle t m k))). assert (Sa : @nltb NumR ang nbig12 = true) by (unfold ang; apply max_small; [apply angle_small|apply max_small; assumption]).
  set (ar := nadd (nadd (t_area t i m) (t_area t m k)) (fill_area v0 v1 v2)). replace (@nadd NumR (@nadd NumR (k2 * t_area t i m)%R (k2 * t_area t m k)%R) (k2 * fill_area v0 v1 v2)%R) with (k2 * ar)%R by (unfold ar; cbn; ring).
  assert (G : TabN n (@t_set NumR i k ar ang (Some m) t) (@t_set NumR i k (k2 * ar)%R ang (Some m) t')).
  { split; [apply set_entry; [exact H|reflexivity|exact Sa]|]. intros a La. apply set_k1; [reflexivity|exact Sa|apply A, La]. }
  destruct K3 as [[A3 S3]|[O3 B3]].
  - rewrite A3. change (@nltb NumR (k2 * ar)%R (k2 * t_area t i k)%R) with (Rltb (k2 * ar) (k2 * t_area t i k)). rewrite rltb_k2. change (Rltb ar (t_area t i k)) with (@nltb NumR ar (t_area t i k)).
    destruct (_ || _); apply mr_ret; [exact G|split; assumption].
  - rewrite B3, Sa. cbn [orb]. apply mr_ret. exact G.
Qed.
Lemma tables_ok bd em bound n : mr TabE (@fill_tables NumR cabs bd em bound n) (@fill_tables NumR cabs bd em bound n).
Proof.
  unfold fill_tables. eapply mr_bind; [apply starts_ok, tables0_ok|]. intros t t' (H & A & _). apply mr_weaken with (TabN n); [|intros x x' [X _]; exact X].
  apply mr_mfold; [|split; [exact H|intros i L; apply A, in_seq; lia]]. intros b b' j Ij Hb. apply in_seq in Ij. unfold fill_row. apply mr_mfold; [|exact Hb]. intros b1 b1' i Ii Hb1. apply in_seq in Ii.
  unfold fill_cell. apply mr_mfold; [|exact Hb1]. intros b2 b2' m Im Hb2. apply in_seq in Im. apply try_ok; [lia|exact Hb2].
Qed.
Lemma mv_o_at o n i k : mvs (@o_at NumR o n i k). Proof. unfold o_at. go. Qed.
Hint Resolve mv_o_at : mvh.
Lemma mv_fill_queue o n : forall fuel q ts, mvs (@fill_queue NumR o n fuel q ts).
Proof. induction fuel as [|fuel IH]; intros [|[i k] q] ts; cbn [fill_queue]; go. Qed.
Lemma mv_find_or_add i j p : mvs (@find_or_add NumR i j p). Proof. unfold find_or_add. go. Qed.
Lemma mv_put_triangle b0 b1 b2 h0 h1 h2 : mvs (@put_triangle NumR b0 b1 b2 h0 h1 h2). Proof. unfold put_triangle. go. Qed.
Hint Resolve mv_fill_queue mv_find_or_add mv_put_triangle : mvh.
Lemma mv_addNew bd x p : mvs (@addNewTriangle NumR bd x p). Proof. unfold addNewTriangle. destruct x as [[i0 i1] i2]. go. Qed.
Hint Resolve mv_addNew : mvh.
Lemma mv_add_triangles bd : forall ts p, mvs (@Fill.add_triangles NumR bd ts p). Proof. induction ts as [|x ts IH]; intros p; cbn [Fill.add_triangles]; go. Qed.
Lemma mv_pair_up p h : mvs (@pair_up NumR p h).
Proof. unfold pair_up. apply mv_binds; [go|intros r]. apply mv_option; [intros _; go|]. apply mv_option; [intros a|go]. destruct (p_of p a) as [i j]. go. Qed.
Lemma mv_join_up p h : mvs (@join_up NumR p h).
Proof. unfold join_up. apply mv_binds; [go|intros r]. apply mv_option; [intros _; go|]. apply mv_option; [intros a|go]. destruct (p_of p a) as [i j]. go. Qed.
Hint Resolve mv_add_triangles mv_pair_up mv_join_up : mvh.
Lemma mv_pair_faces p : forall fs, mvs (@pair_faces NumR p fs). Proof. induction fs as [|f fs IH]; cbn [pair_faces]; go. Qed.
Lemma mv_join_faces p : forall fs, mvs (@join_faces NumR p fs). Proof. induction fs as [|f fs IH]; cbn [join_faces]; go. Qed.
Hint Resolve mv_pair_faces mv_join_faces : mvh.
Lemma mv_holeFill f b : mvs (@holeFillMinDihedral NumR cabs f b).
Proof.
  unfold holeFillMinDihedral. apply mv_binds; [go|intros bd]. apply mv_binds; [go|intros hes]. cbv zeta. apply mr_to. eapply mr_bind; [apply tables_ok|]. intros t t' H. assert (E : t_o t' = t_o t) by (apply functional_extensionality; intros a; apply functional_extensionality; intros d; apply (H a d)).
  rewrite E. apply mr_of. go.
Qed.
Lemma mv_triangulate f : mvs (@triangulate NumR cabs f). Proof. unfold triangulate. apply mv_holeFill. Qed.
Lemma mv_hole_indices : forall is, mvs (@hole_indices NumR is). Proof. induction is as [|i is IH]; cbn [hole_indices]; go. Qed.
Hint Resolve mv_holeFill mv_triangulate mv_hole_indices : mvh.
Lemma mv_fillHoles : mvs (@fillHoles NumR cabs). Proof. unfold fillHoles. go. Qed.

End Scale.
