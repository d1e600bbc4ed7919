(** Measuring, construction, hole filling and the steps of remeshing on scaled meshes. *)
From Coq Require Import Reals List ZArith Arith Bool Lra Lia FunctionalExtensionality.
From Verif Require Import Num NumInst Vec Heap Mesh Bounds Construct Measure Lapl Fill Front Simplify Remesh WholeSpec RigidSpec ScaleSpec ScaleM ScaleE.
Import ListNotations.
Local Open Scope mesh_scope.

Section Scale.
Variable c : R.
Hypothesis Hc : (0 < c)%R.
Notation T := (grow c).
Notation MV := (scaled c).
Notation mv := (mv c).
Notation mvs x := (mv same x x).
Ltac go := mvt Hc.

(** ** Sums over lists of positions *)
Lemma fold_ext {A B} (f f' : B -> A -> B) l : (forall b a, In a l -> f b a = f' b a) -> forall b, fold_left f l b = fold_left f' l b.
Proof. induction l as [|a l IH]; intros H b; [reflexivity|]. cbn [fold_left]. rewrite H by (left; reflexivity). apply IH. intros. apply H. right. assumption. Qed.
Lemma fold_g {A} k (f f' : vecR -> A -> vecR) l : (forall b a, In a l -> f' (grow k b) a = grow k (f b a)) -> forall b, fold_left f' l (grow k b) = grow k (fold_left f l b).
Proof. induction l as [|a l IH]; intros H b; [reflexivity|]. cbn [fold_left]. rewrite H by (left; reflexivity). apply IH. intros. apply H. right. assumption. Qed.
Lemma fold_n {A} k (f f' : @num NumR -> A -> @num NumR) l : (forall b a, In a l -> f' (times k b) a = times k (f b a)) -> forall b, fold_left f' l (times k b) = times k (fold_left f l b).
Proof. induction l as [|a l IH]; intros H b; [reflexivity|]. cbn [fold_left]. rewrite H by (left; reflexivity). apply IH. intros. apply H. right. assumption. Qed.
Notation k2 := (c * c)%R.
Lemma cget_move vs i : vs <> [] -> cget (map T vs) i = T (cget vs i).
Proof.
  intros NE. unfold cget. rewrite map_length. assert (L : i mod length vs < length vs) by (apply Nat.mod_upper_bound; destruct vs; [congruence|discriminate]).
  rewrite (nth_indep (map T vs) vzero (T vzero) (n := i mod length vs)) by (rewrite map_length; exact L). apply map_nth.
Qed.
Lemma seq_ne {A} (vs : list A) a n i : In i (seq a (length vs - n)) -> vs <> [].
Proof. intros H ->. apply in_seq in H. cbn in H. lia. Qed.
Lemma seq_ne0 {A} (vs : list A) i : In i (seq 0 (length vs)) -> vs <> [].
Proof. intros H ->. destruct H. Qed.
Lemma poly_normal_move vs : poly_normal (map T vs) = grow k2 (poly_normal vs).
Proof.
  unfold poly_normal. rewrite map_length. rewrite <- (grow_zero k2) at 1. apply fold_g. intros b i I. cbv zeta. assert (NE := seq_ne0 vs i I). rewrite !(cget_move _ _ NE). rg Hc. reflexivity.
Qed.
Lemma poly_area_move vs : poly_area (map T vs) = times k2 (poly_area vs).
Proof.
  unfold poly_area. rewrite map_length. replace (@nzero NumR) with (times k2 (@nzero NumR)) at 1 by apply Rmult_0_r. apply fold_n. intros b i I. cbv zeta. assert (NE := seq_ne vs _ _ i I). rewrite !(cget_move _ _ NE). rg Hc. unfold times. cbn. ring.
Qed.
Lemma min_dihedral_move p ps : min_dihedral (T p) (map T ps) = min_dihedral p ps.
Proof.
  unfold min_dihedral. rewrite map_length. apply fold_ext. intros b i I. cbv zeta. apply in_seq in I.
  assert (E : forall j, j < length ps -> nth j (map T ps) vzero = T (nth j ps vzero)) by (intros j L; rewrite (nth_indep (map T ps) vzero (T vzero)) by (rewrite map_length; exact L); apply map_nth).
  rewrite !E by (try apply Nat.mod_upper_bound; lia). rg Hc. reflexivity.
Qed.

(** ** Measuring *)
Definition tri_move (x : triangle NumR) : triangle NumR := match x with Tri a b c => Tri (T a) (T b) (T c) end.
Lemma mv_fpos f : mv (map T) (f_positions f) (f_positions f).
Proof. unfold f_positions. apply (mv_circ_f c (map T) f []). intros a p. apply mv_binds; [apply mv_src|intros s]. eapply mv_bind; [apply mv_pos|intros x]. apply mv_ret. unfold on_fst. cbn [fst snd]. rewrite map_app. reflexivity. Qed.
Lemma mv_vpos f : mv (map T) (v_positions f) (v_positions f).
Proof. unfold v_positions. apply (mv_circ_v c (map T) f []). intros a p. apply mv_binds; [apply mv_dst|intros s]. eapply mv_bind; [apply mv_pos|intros x]. apply mv_ret. unfold on_fst. cbn [fst snd]. rewrite map_app. reflexivity. Qed.
Lemma mv_toTriangle f : mv tri_move (f_toTriangle f) (f_toTriangle f).
Proof. unfold f_toTriangle. eapply mv_bind; [apply mv_fpos|]. intros [|a [|b [|d [|e l]]]]; cbn [map]; try apply mv_abort. apply mv_ret. reflexivity. Qed.
Lemma mv_fnormal f : mvs (f_normal f).
Proof. unfold f_normal. eapply mv_bind; [apply mv_fpos|]. intros vs. rewrite poly_normal_move. rg Hc. apply mv_lifts. Qed.
Lemma mv_farea f : mv (times k2) (f_area f) (f_area f).
Proof. unfold f_area. eapply mv_bind; [apply mv_fpos|]. intros vs. rewrite poly_area_move. apply mv_ret. reflexivity. Qed.
Hint Resolve mv_fpos mv_vpos mv_fnormal mv_farea : mvh.
Lemma mv_meanArea : mv (times k2) (@getMeanFaceArea NumR) getMeanFaceArea.
Proof.
  unfold getMeanFaceArea. apply mv_binds; [go|intros l]. eapply (mv_bind _ (times k2)).
  - replace (@nzero NumR) with (times k2 (@nzero NumR)) at 2 by apply Rmult_0_r. apply mv_mfold. intros b a. eapply mv_bind; [apply mv_farea|intros x]. apply mv_ret. unfold times. cbn. ring.
  - intros s2. apply mv_ret. unfold times. cbn. unfold Rdiv. ring.
Qed.
Lemma mv_dihedral p : mvs (he_dihedral p). Proof. unfold he_dihedral. go. Qed.
Hint Resolve mv_dihedral : mvh.
Lemma mv_meanDihedral : mvs (@getMeanDihedralAngle NumR). Proof. unfold getMeanDihedralAngle. go. Qed.
Lemma corner_div a (x y : R) : @vdiv NumR (grow k2 a) (c * x * (c * x) * (c * y) * (c * y))%R = option_map (grow (/ k2)%R) (@vdiv NumR a (x * x * y * y)%R).
Proof.
  assert (K := cc0 c Hc). rewrite !vdiv_scale. change (@neqb NumR) with Reqb. change (@nzero NumR) with 0%R. replace (c * x * (c * x) * (c * y) * (c * y))%R with (k2 * k2 * (x * x * y * y))%R by ring.
  rewrite reqb0_times by nra. destruct (Reqb (x * x * y * y) 0) eqn:E; [reflexivity|]. assert (S : (x * x * y * y <> 0)%R) by (intros Z; apply Reqb_eq in Z; congruence).
  cbn [option_map]. f_equal. unfold grow. assert (c <> 0)%R by lra. assert (x <> 0)%R by (intros ->; apply S; ring). assert (y <> 0)%R by (intros ->; apply S; ring). apply vec_ext; cbn; field; auto.
Qed.
Lemma mv_vnormal v : mvs (v_normal v).
Proof.
  assert (K := cc0 c Hc). assert (KI : (0 < / k2)%R) by (apply Rinv_0_lt_compat; exact K). unfold v_normal. eapply (mv_bind c (grow (/ k2)%R)).
  - rewrite <- (grow_zero (/ k2)%R) at 2. apply mv_circ_v. intros a p. eapply mv_bind; [apply mv_pos|intros p0]. apply mv_binds; [go|intros d]. eapply mv_bind; [apply mv_pos|intros p1]. apply mv_binds; [go|intros n]. apply mv_binds; [apply mv_dst|intros d2]. eapply mv_bind; [apply mv_pos|intros p2]. cbv zeta.
    rewrite !grow_sub, grow_cross, !(t_length c Hc). change (@nmul NumR) with Rmult. rewrite corner_div.
    eapply mv_bind; [apply mv_lift|intros q]. apply mv_ret. unfold on_fst. cbn [fst snd]. rewrite grow_add. reflexivity.
  - intros n. cbv beta. rewrite (grow_normalize _ _ KI). apply mv_lifts.
Qed.
Lemma mv_adj_row i : mvs (@adj_row NumR i). Proof. unfold adj_row. go. Qed.
Hint Resolve mv_adj_row : mvh.
Lemma mv_lap_adjacent : mvs (@lap_adjacent NumR). Proof. unfold lap_adjacent. go. Qed.
Hint Resolve mv_meanDihedral mv_vnormal : mvh.

(** ** Construction *)
Definition um_move (um : list (vecR * nat)) : list (vecR * nat) := map (fun x => (T (fst x), snd x)) um.
Lemma um_find_move um p : um_find (um_move um) (T p) = um_find um p.
Proof. induction um as [|[q i] um IH]; [reflexivity|]. cbn [um_move map um_find fst snd]. rg Hc. change (map _ um) with (um_move um). rewrite IH. reflexivity. Qed.
Lemma um_move_app um p k : um_move (um ++ [(p, k)]) = um_move um ++ [(T p, k)].
Proof. unfold um_move. rewrite map_app. reflexivity. Qed.
Lemma mv_dedup vs : forall is um, mv same (dedup_loop vs is um) (dedup_loop (map T vs) is (um_move um)).
Proof.
  induction is as [|i is IH]; intros um; cbn [dedup_loop]; [go|]. rewrite nth_error_map. destruct (nth_error vs i) as [p|]; cbn [option_map]; [|go].
  eapply (mv_bind c um_move).
  - rewrite um_find_move. destruct (um_find um p); [apply mv_ret; reflexivity|]. apply mv_binds; [go|intros l]. apply mv_binds; [auto with mvh nocore|intros v]. apply mv_option; [intros a|go].
    apply mv_binds; [go|intros _]. apply mv_ret. symmetry; apply um_move_app.
  - intros um1. rewrite um_find_move. destruct (um_find um1 p).
    + apply mv_binds; [go|intros _]. apply IH.
    + cbv beta iota. rewrite <- um_move_app. apply mv_binds; [go|intros _]. apply IH.
Qed.
Lemma mv_put : forall l i, mvs (@put_vertex_indices NumR i l). Proof. induction l as [|a l IH]; intros i; cbn [put_vertex_indices]; go. Qed.
Lemma mv_distinct : forall l, mvs (@check_distinct NumR l).
Proof. fix IH 1. intros [|a [|b [|d l]]]; cbn [check_distinct]; [go|go|go|]. apply mv_if; [reflexivity|go|apply IH]. Qed.
Lemma mv_add_corner f a b cs : mvs (@add_corner NumR f a b cs).
Proof. unfold add_corner. go. Qed.
Hint Resolve mv_put mv_distinct mv_add_corner : mvh.
Lemma mv_add_triangle a b d cs : mvs (@add_triangle NumR a b d cs).
Proof. unfold add_triangle. go. Qed.
Hint Resolve mv_add_triangle : mvh.
Lemma mv_ctriangles : forall l cs, mvs (@Construct.add_triangles NumR l cs).
Proof. fix IH 1. intros [|a [|b [|d l]]] cs; cbn [Construct.add_triangles]; [go|go|go|]. apply mv_binds; [go|intros cs']. apply IH. Qed.
Lemma mv_advance_boundary v : forall n h, mvs (@advance_boundary NumR n v h).
Proof. induction n as [|n IH]; intros h; cbn [advance_boundary]; go. Qed.
Lemma mv_next_boundary s : forall n h, mvs (@next_boundary NumR n s h).
Proof. induction n as [|n IH]; intros h; cbn [next_boundary]; go. Qed.
Hint Resolve mv_ctriangles mv_advance_boundary mv_next_boundary : mvh.
Lemma mv_hole_loop s f : forall n h acc, mvs (@hole_loop NumR n s f h acc).
Proof. induction n as [|n IH]; intros h acc; cbn [hole_loop]; go. Qed.
Lemma mv_link_hole bs : mvs (@link_hole NumR bs). Proof. unfold link_hole. go. Qed.
Hint Resolve mv_hole_loop mv_link_hole : mvh.
Lemma mv_close_hole h : mvs (@close_hole NumR h). Proof. unfold close_hole. go. Qed.
Lemma mv_bump v : mvs (@bump_vertex NumR v). Proof. unfold bump_vertex. go. Qed.
Lemma mv_count_ring v : forall n h k, mvs (@count_ring NumR n v h k). Proof. induction n as [|n IH]; intros h k; cbn [count_ring]; go. Qed.
Hint Resolve mv_close_hole mv_bump mv_count_ring : mvh.
Lemma mv_check_manifold d v : mvs (@check_manifold NumR d v). Proof. unfold check_manifold. go. Qed.
Hint Resolve mv_check_manifold : mvh.
Lemma mv_drop l0 : mvs (fun m : mesh NumR => match drop_degenerate (length l0) 0 l0 with Ok l => Ok (l, m) | UB u => UB u | Abort u => Abort u | NoFuel => NoFuel end).
Proof. intros m. destruct (drop_degenerate _ _ _); reflexivity. Qed.
Hint Resolve mv_drop : mvh.
Lemma mv_construct0 : mvs (@construct0 NumR). Proof. unfold construct0. go. Qed.
Lemma mv_construct vs is : mv same (construct vs is) (construct (map T vs) is).
Proof. unfold construct. apply mv_binds; [apply mv_modify; intros m; reflexivity|intros _]. apply mv_binds; [apply (mv_dedup vs is [])|intros _]. apply mv_construct0. Qed.

End Scale.
