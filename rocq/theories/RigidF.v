(** Measuring, construction, hole filling and the steps of remeshing on moved meshes. *)
From Coq Require Import Reals List ZArith Arith Bool Lra Lia FunctionalExtensionality.
From Verif Require Import Num NumInst Vec Heap Mesh Bounds Construct Measure Lapl Fill Front Simplify Remesh WholeSpec RigidSpec RigidM RigidE.
Import ListNotations.
Local Open Scope mesh_scope.

Section Rigid.
Variables (Q : vecR -> vecR) (t : vecR).
Hypothesis HQ : Rotation Q.
Notation T := (motion Q t).
Notation MV := (move Q t).
Notation mv := (mv Q t).
Notation mvs x := (mv same x x).
Ltac go := mvt HQ.

(** ** Sums over lists of positions *)
Lemma fold_ext {A B} (f f' : B -> A -> B) l : (forall b a, In a l -> f b a = f' b a) -> forall b, fold_left f l b = fold_left f' l b.
Proof. induction l as [|a l IH]; intros H b; [reflexivity|]. cbn [fold_left]. rewrite H by (left; reflexivity). apply IH. intros. apply H. right. assumption. Qed.
Lemma fold_q {A} (f f' : vecR -> A -> vecR) l : (forall b a, In a l -> f' (Q b) a = Q (f b a)) -> forall b, fold_left f' l (Q b) = Q (fold_left f l b).
Proof. induction l as [|a l IH]; intros H b; [reflexivity|]. cbn [fold_left]. rewrite H by (left; reflexivity). apply IH. intros. apply H. right. assumption. Qed.
Lemma cget_move vs i : vs <> [] -> cget (map T vs) i = T (cget vs i).
Proof.
  intros NE. unfold cget. rewrite map_length. assert (L : i mod length vs < length vs) by (apply Nat.mod_upper_bound; destruct vs; [congruence|discriminate]).
  rewrite (nth_indep (map T vs) vzero (T vzero) (n := i mod length vs)) by (rewrite map_length; exact L). apply map_nth.
Qed.
Lemma seq_ne {A} (vs : list A) a n i : In i (seq a (length vs - n)) -> vs <> [].
Proof. intros H ->. apply in_seq in H. cbn in H. lia. Qed.
Lemma seq_ne0 {A} (vs : list A) i : In i (seq 0 (length vs)) -> vs <> [].
Proof. intros H ->. destruct H. Qed.
Lemma poly_normal_move vs : poly_normal (map T vs) = Q (poly_normal vs).
Proof.
  unfold poly_normal. rewrite map_length. rewrite <- (q_zero Q HQ) at 1. apply fold_q. intros b i I. cbv zeta. assert (NE := seq_ne0 vs i I). rewrite !(cget_move _ _ NE). rg HQ. reflexivity.
Qed.
Lemma poly_area_move vs : poly_area (map T vs) = poly_area vs.
Proof. unfold poly_area. rewrite map_length. apply fold_ext. intros b i I. cbv zeta. assert (NE := seq_ne vs _ _ i I). rewrite !(cget_move _ _ NE). rg HQ. reflexivity. Qed.
Lemma corner_area_move a b c : corner_area (T a) (T b) (T c) = corner_area a b c.
Proof. unfold corner_area. rg HQ. reflexivity. Qed.
Lemma ring_area_move p ps : ring_area (T p) (map T ps) = ring_area p ps.
Proof. unfold ring_area. rewrite map_length. apply fold_ext. intros b i I. assert (NE := seq_ne0 ps i I). rewrite !(cget_move _ _ NE), corner_area_move. reflexivity. Qed.
Lemma min_dihedral_move p ps : min_dihedral (T p) (map T ps) = min_dihedral p ps.
Proof.
  unfold min_dihedral. rewrite map_length. apply fold_ext. intros b i I. cbv zeta. apply in_seq in I.
  assert (E : forall j, j < length ps -> nth j (map T ps) vzero = T (nth j ps vzero)) by (intros j L; rewrite (nth_indep (map T ps) vzero (T vzero)) by (rewrite map_length; exact L); apply map_nth).
  rewrite !E by (try apply Nat.mod_upper_bound; lia). rg HQ. reflexivity.
Qed.

(** ** Measuring *)
Definition tri_move (x : triangle NumR) : triangle NumR := match x with Tri a b c => Tri (T a) (T b) (T c) end.
Lemma mv_fpos f : mv (map T) (f_positions f) (f_positions f).
Proof. unfold f_positions. apply (mv_circ_f Q t (map T) f []). intros a p. apply mv_binds; [apply mv_src|intros s]. eapply mv_bind; [apply mv_pos|intros x]. apply mv_ret. unfold on_fst. cbn [fst snd]. rewrite map_app. reflexivity. Qed.
Lemma mv_vpos f : mv (map T) (v_positions f) (v_positions f).
Proof. unfold v_positions. apply (mv_circ_v Q t (map T) f []). intros a p. apply mv_binds; [apply mv_dst|intros s]. eapply mv_bind; [apply mv_pos|intros x]. apply mv_ret. unfold on_fst. cbn [fst snd]. rewrite map_app. reflexivity. Qed.
Lemma mv_toTriangle f : mv tri_move (f_toTriangle f) (f_toTriangle f).
Proof. unfold f_toTriangle. eapply mv_bind; [apply mv_fpos|]. intros [|a [|b [|c [|d l]]]]; cbn [map]; try apply mv_abort. apply mv_ret. reflexivity. Qed.
Lemma mv_fnormal f : mv Q (f_normal f) (f_normal f).
Proof. unfold f_normal. eapply mv_bind; [apply mv_fpos|]. intros vs. rewrite poly_normal_move. rg HQ. apply mv_lift. Qed.
Lemma mv_farea f : mvs (f_area f).
Proof. unfold f_area. eapply mv_bind; [apply mv_fpos|]. intros vs. rewrite poly_area_move. go. Qed.
Hint Resolve mv_fpos mv_vpos mv_fnormal mv_farea : mvh.
Lemma mv_meanArea : mvs (@getMeanFaceArea NumR). Proof. unfold getMeanFaceArea. go. Qed.
Lemma mv_dihedral p : mvs (he_dihedral p). Proof. unfold he_dihedral. go. Qed.
Hint Resolve mv_dihedral : mvh.
Lemma mv_meanDihedral : mvs (@getMeanDihedralAngle NumR). Proof. unfold getMeanDihedralAngle. go. Qed.
Lemma mv_vnormal v : mv Q (v_normal v) (v_normal v).
Proof.
  unfold v_normal. eapply (mv_bind Q t Q); [|intros n; cbv beta; rg HQ; apply mv_lift]. rewrite <- (q_zero Q HQ) at 2. apply mv_circ_v. intros a p.
  eapply mv_bind; [apply mv_pos|intros p0]. apply mv_binds; [go|intros d]. eapply mv_bind; [apply mv_pos|intros p1]. apply mv_binds; [go|intros n]. apply mv_binds; [apply mv_dst|intros d2]. eapply mv_bind; [apply mv_pos|intros p2]. cbv zeta. rg HQ.
  eapply mv_bind; [apply mv_lift|intros q]. apply mv_ret. unfold on_fst. cbn [fst snd]. rg HQ. reflexivity.
Qed.
Lemma mv_volonoi v : mvs (v_volonoi v). Proof. unfold v_volonoi. eapply mv_bind; [apply mv_vpos|intros ps]. eapply mv_bind; [apply mv_pos|intros p0]. rewrite ring_area_move. go. Qed.
Lemma mv_volonoiIn v f : mvs (v_volonoiIn v f).
Proof. unfold v_volonoiIn. apply mv_binds; [go|intros vs]. apply mv_option; [intros i|go]. apply mv_binds; [go|intros _]. eapply mv_bind; [apply mv_pos|intros p0]. eapply mv_bind; [apply mv_pos|intros p1]. eapply mv_bind; [apply mv_pos|intros p2]. rewrite corner_area_move. go. Qed.
Lemma mv_K v : mvs (v_K v).
Proof.
  unfold v_K. eapply mv_bind; [apply mv_vpos|intros ps]. eapply mv_bind; [apply mv_pos|intros p0]. cbv zeta. rewrite <- map_rev, ring_area_move. apply mv_ret. unfold same. f_equal. f_equal. rewrite map_length. apply fold_ext. intros b i I.
  assert (NE := seq_ne0 _ i I). rewrite !(cget_move _ _ NE). rg HQ. reflexivity.
Qed.
Lemma mv_H v : mvs (v_H v).
Proof.
  unfold v_H. eapply mv_bind; [apply mv_vpos|intros ps]. eapply mv_bind; [apply mv_pos|intros p0]. cbv zeta. eapply mv_bind; [apply mv_vnormal|intros n]. cbv beta. rewrite <- map_rev, ring_area_move. apply mv_ret. unfold same.
  set (qs := rev ps). rewrite map_length.
  match goal with |- ?l = ?r => match l with context [fold_left ?f ?is vzero] => match r with context [fold_left ?f0 is vzero] => assert (E : fold_left f is vzero = Q (fold_left f0 is vzero)) end end end; [|rewrite E; rg HQ; reflexivity].
  rewrite <- (q_zero Q HQ) at 1. apply fold_q. intros b i I. assert (NE := seq_ne0 _ i I). rewrite !(cget_move _ _ NE). rg HQ. reflexivity.
Qed.

(** ** Operators *)
Lemma mv_adj_row i : mvs (@adj_row NumR i). Proof. unfold adj_row. go. Qed.
Lemma mv_cot_row i : mvs (@cot_row NumR i). Proof. unfold cot_row. go. Qed.
Lemma belkin_move h p q : belkin_weight h (T p) (T q) = belkin_weight h p q. Proof. unfold belkin_weight. rg HQ. reflexivity. Qed.
Lemma mv_belkin_row h i : mvs (@belkin_row NumR h i).
Proof.
  unfold belkin_row. apply mv_binds; [go|intros v]. apply mv_binds; [|intros r; go]. apply mv_circ_vs. intros a p. apply mv_binds; [apply mv_dst|intros u]. eapply mv_bind; [apply mv_pos|intros pv]. eapply mv_bind; [apply mv_pos|intros pu]. cbv zeta.
  apply mv_binds; [go|intros j]. apply mv_binds; [go|intros n]. apply mv_binds; [apply mv_dst|intros x]. eapply mv_bind; [apply mv_pos|intros pw]. rewrite belkin_move. go.
Qed.
Hint Resolve mv_adj_row mv_cot_row mv_belkin_row : mvh.
Lemma mv_laplacian k : mvs (@getMeshLaplacian NumR k).
Proof. destruct k; cbn [getMeshLaplacian]; unfold lap_adjacent, lap_cotangent, lap_belkin; go. Qed.
Hint Resolve mv_meanArea mv_meanDihedral mv_vnormal mv_volonoi mv_volonoiIn mv_K mv_H mv_laplacian : mvh.

(** ** Construction *)
Definition um_move (um : list (vecR * nat)) : list (vecR * nat) := map (fun x => (T (fst x), snd x)) um.
Lemma um_find_move um p : um_find (um_move um) (T p) = um_find um p.
Proof. induction um as [|[q i] um IH]; [reflexivity|]. cbn [um_move map um_find fst snd]. rg HQ. change (map _ um) with (um_move um). rewrite IH. reflexivity. Qed.
Lemma um_move_app um p k : um_move (um ++ [(p, k)]) = um_move um ++ [(T p, k)].
Proof. unfold um_move. rewrite map_app. reflexivity. Qed.
Lemma mv_dedup vs : forall is um, mv same (dedup_loop vs is um) (dedup_loop (map T vs) is (um_move um)).
Proof.
  induction is as [|i is IH]; intros um; cbn [dedup_loop]; [go|]. rewrite nth_error_map. destruct (nth_error vs i) as [p|]; cbn [option_map]; [|go].
  eapply (mv_bind Q t um_move).
  - rewrite um_find_move. destruct (um_find um p); [apply mv_ret; reflexivity|]. apply mv_binds; [go|intros l]. apply mv_binds; [auto with mvh nocore|intros v]. apply mv_option; [intros a|go].
    apply mv_binds; [go|intros _]. apply mv_ret. symmetry; apply um_move_app.
  - intros um1. rewrite um_find_move. destruct (um_find um1 p).
    + apply mv_binds; [go|intros _]. apply IH.
    + cbv beta iota. rewrite <- um_move_app. apply mv_binds; [go|intros _]. apply IH.
Qed.
Lemma mv_put : forall l i, mvs (@put_vertex_indices NumR i l). Proof. induction l as [|a l IH]; intros i; cbn [put_vertex_indices]; go. Qed.
Lemma mv_distinct : forall l, mvs (@check_distinct NumR l).
Proof. fix IH 1. intros [|a [|b [|c l]]]; cbn [check_distinct]; [go|go|go|]. apply mv_if; [reflexivity|go|apply IH]. Qed.
Lemma mv_add_corner f a b cs : mvs (@add_corner NumR f a b cs).
Proof. unfold add_corner. go. Qed.
Hint Resolve mv_put mv_distinct mv_add_corner : mvh.
Lemma mv_add_triangle a b c cs : mvs (@add_triangle NumR a b c cs).
Proof. unfold add_triangle. go. Qed.
Hint Resolve mv_add_triangle : mvh.
Lemma mv_ctriangles : forall l cs, mvs (@Construct.add_triangles NumR l cs).
Proof. fix IH 1. intros [|a [|b [|c l]]] cs; cbn [Construct.add_triangles]; [go|go|go|]. apply mv_binds; [go|intros cs']. apply IH. Qed.
Lemma mv_advance_boundary v : forall n h, mvs (@advance_boundary NumR n v h).
Proof. induction n as [|n IH]; intros h; cbn [advance_boundary]; go. Qed.
Lemma mv_next_boundary s : forall n h, mvs (@next_boundary NumR n s h).
Proof. induction n as [|n IH]; intros h; cbn [next_boundary]; go. Qed.
Hint Resolve mv_ctriangles mv_advance_boundary mv_next_boundary : mvh.
Lemma mv_hole_loop s f : forall n h acc, mvs (@hole_loop NumR n s f h acc).
Proof. induction n as [|n IH]; intros h acc; cbn [hole_loop]; go. Qed.
Lemma mv_link_hole bs : mvs (@link_hole NumR bs). Proof. unfold link_hole. go. Qed.
Hint Resolve mv_hole_loop mv_link_hole : mvh.
Lemma mv_close_hole h : mvs (@close_hole NumR h). Proof. unfold close_hole. go. Qed.
Lemma mv_bump v : mvs (@bump_vertex NumR v). Proof. unfold bump_vertex. go. Qed.
Lemma mv_count_ring v : forall n h c, mvs (@count_ring NumR n v h c). Proof. induction n as [|n IH]; intros h c; cbn [count_ring]; go. Qed.
Hint Resolve mv_close_hole mv_bump mv_count_ring : mvh.
Lemma mv_check_manifold d v : mvs (@check_manifold NumR d v). Proof. unfold check_manifold. go. Qed.
Hint Resolve mv_check_manifold : mvh.
Lemma mv_drop l0 : mvs (fun m : mesh NumR => match drop_degenerate (length l0) 0 l0 with Ok l => Ok (l, m) | UB u => UB u | Abort u => Abort u | NoFuel => NoFuel end).
Proof. intros m. destruct (drop_degenerate _ _ _); reflexivity. Qed.
Hint Resolve mv_drop : mvh.
Lemma mv_construct0 : mvs (@construct0 NumR). Proof. unfold construct0. go. Qed.
Lemma mv_construct vs is : mv same (construct vs is) (construct (map T vs) is).
Proof. unfold construct. apply mv_binds; [apply mv_modify; intros m; reflexivity|intros _]. apply mv_binds; [apply (mv_dedup vs is [])|intros _]. apply mv_construct0. Qed.

(** ** Hole filling *)
Lemma mv_at_ l i : mvs (@at_ NumR l i). Proof. unfold at_. go. Qed.
Hint Resolve mv_at_ : mvh.
Lemma mv_bpos bd i : mv T (b_pos bd i) (b_pos bd i). Proof. unfold b_pos. apply mv_binds; [go|intros v]. apply mv_pos. Qed.
Lemma mv_opposite h : mv T (opposite h) (opposite h).
Proof. unfold opposite. apply mv_binds; [go|intros r]. apply mv_binds; [go|intros n]. apply mv_binds; [go|intros d]. apply mv_pos. Qed.
Hint Resolve mv_bpos mv_opposite : mvh.
Lemma fill_area_move a b c : fill_area (T a) (T b) (T c) = fill_area a b c. Proof. unfold fill_area. rg HQ. reflexivity. Qed.
Lemma fill_angle_move a b c d e : fill_angle (T a) (T b) (T c) (T d) (T e) = fill_angle a b c d e. Proof. unfold fill_angle. rg HQ. reflexivity. Qed.
Ltac rgx HQ ::= first [rewrite fill_area_move | rewrite fill_angle_move].
Lemma mv_fill_start bd em n x i : mvs (@fill_start NumR bd em n x i). Proof. unfold fill_start. go. Qed.
Lemma mv_beyond bd em x a b : mv T (@beyond NumR bd em x a b) (beyond bd em x a b).
Proof. unfold beyond. apply mv_if; [reflexivity|go|]. apply mv_option; [intros j; go|go]. Qed.
Hint Resolve mv_fill_start mv_beyond : mvh.
Variable cabs : R -> R.
Lemma mv_fill_try bd em b i k x m : mvs (@fill_try NumR cabs bd em b i k x m). Proof. unfold fill_try. go. Qed.
Hint Resolve mv_fill_try : mvh.
Lemma mv_fill_cell bd em b j x i : mvs (@fill_cell NumR cabs bd em b j x i). Proof. unfold fill_cell. go. Qed.
Hint Resolve mv_fill_cell : mvh.
Lemma mv_fill_row bd em b n x j : mvs (@fill_row NumR cabs bd em b n x j). Proof. unfold fill_row. go. Qed.
Hint Resolve mv_fill_row : mvh.
Lemma mv_fill_tables bd em b n : mvs (@fill_tables NumR cabs bd em b n). Proof. unfold fill_tables. go. Qed.
Lemma mv_o_at o n i k : mvs (@o_at NumR o n i k). Proof. unfold o_at. go. Qed.
Hint Resolve mv_fill_tables mv_o_at : mvh.
Lemma mv_fill_queue o n : forall fuel q ts, mvs (@fill_queue NumR o n fuel q ts).
Proof. induction fuel as [|fuel IH]; intros [|[i k] q] ts; cbn [fill_queue]; go. Qed.
Lemma mv_find_or_add i j p : mvs (@find_or_add NumR i j p). Proof. unfold find_or_add. go. Qed.
Lemma mv_put_triangle b0 b1 b2 h0 h1 h2 : mvs (@put_triangle NumR b0 b1 b2 h0 h1 h2). Proof. unfold put_triangle. go. Qed.
Hint Resolve mv_fill_queue mv_find_or_add mv_put_triangle : mvh.
Lemma mv_addNew bd x p : mvs (@addNewTriangle NumR bd x p). Proof. unfold addNewTriangle. destruct x as [[i0 i1] i2]. go. Qed.
Hint Resolve mv_addNew : mvh.
Lemma mv_add_triangles bd : forall ts p, mvs (@Fill.add_triangles NumR bd ts p). Proof. induction ts as [|x ts IH]; intros p; cbn [Fill.add_triangles]; go. Qed.
Lemma mv_pair_up p h : mvs (@pair_up NumR p h).
Proof. unfold pair_up. apply mv_binds; [go|intros r]. apply mv_option; [intros _; go|]. apply mv_option; [intros a|go]. destruct (p_of p a) as [i j]. go. Qed.
Lemma mv_join_up p h : mvs (@join_up NumR p h).
Proof. unfold join_up. apply mv_binds; [go|intros r]. apply mv_option; [intros _; go|]. apply mv_option; [intros a|go]. destruct (p_of p a) as [i j]. go. Qed.
Hint Resolve mv_add_triangles mv_pair_up mv_join_up : mvh.
Lemma mv_pair_faces p : forall fs, mvs (@pair_faces NumR p fs). Proof. induction fs as [|f fs IH]; cbn [pair_faces]; go. Qed.
Lemma mv_join_faces p : forall fs, mvs (@join_faces NumR p fs). Proof. induction fs as [|f fs IH]; cbn [join_faces]; go. Qed.
Hint Resolve mv_pair_faces mv_join_faces : mvh.
Lemma mv_holeFill f b : mvs (@holeFillMinDihedral NumR cabs f b). Proof. unfold holeFillMinDihedral. go. Qed.
Lemma mv_triangulate f : mvs (@triangulate NumR cabs f). Proof. unfold triangulate. apply mv_holeFill. Qed.
Lemma mv_hole_indices : forall is, mvs (@hole_indices NumR is). Proof. induction is as [|i is IH]; cbn [hole_indices]; go. Qed.
Hint Resolve mv_holeFill mv_triangulate mv_hole_indices : mvh.
Lemma mv_fillHoles : mvs (@fillHoles NumR cabs). Proof. unfold fillHoles. go. Qed.

(** ** The advancing front *)
Lemma mv_lock_front f : mvs (@lock_front NumR f). Proof. unfold lock_front. go. Qed.
Lemma mv_front_ring f : mvs (@front_ring NumR f). Proof. unfold front_ring. go. Qed.
Lemma mv_close_front f : mvs (@close_front NumR f). Proof. unfold close_front. go. Qed.
Lemma mv_too_close a vs n i : mvs (@too_close NumR a vs n i). Proof. unfold too_close. go. Qed.
Hint Resolve mv_lock_front mv_front_ring mv_close_front mv_too_close : mvh.
Lemma mv_find_close a vs n : forall is, mvs (@find_close NumR a vs n is). Proof. induction is as [|i is IH]; cbn [find_close]; go. Qed.
Lemma mv_merge_remove a b c d v : mvs (@merge_remove NumR a b c d v). Proof. unfold merge_remove. go. Qed.
Hint Resolve mv_find_close mv_merge_remove : mvh.
Lemma mv_merge_wire f a b v c d e l : mvs (@merge_wire NumR f a b v c d e l). Proof. unfold merge_wire. go. Qed.
Hint Resolve mv_merge_wire : mvh.
Lemma mv_merge f vs hs n i : mvs (@merge NumR f vs hs n i). Proof. unfold merge. go. Qed.
Hint Resolve mv_merge : mvh.
Lemma open_angle_move nrm a b c : open_angle (Q nrm) (T a) (T b) (T c) = open_angle nrm a b c. Proof. unfold open_angle. cbv zeta. rg HQ. reflexivity. Qed.
Lemma mv_outer_normal h : mv Q (outer_normal h) (outer_normal h).
Proof. unfold outer_normal. apply mv_binds; [go|intros r]. apply mv_binds; [go|intros f]. go. Qed.
Hint Resolve mv_outer_normal : mvh.
Ltac rgx HQ ::= rewrite open_angle_move.
Lemma mv_try_angle vs p n b i : mvs (@try_angle NumR vs p n b i). Proof. unfold try_angle. go. Qed.
Hint Resolve mv_try_angle : mvh.
Lemma mv_least_angle vs p n : mvs (@least_angle NumR vs p n). Proof. unfold least_angle. go. Qed.
Lemma one_point_move a b c : one_point (T a) (T b) (T c) = option_map T (one_point a b c).
Proof. unfold one_point. cbv zeta. rg HQ. destruct (normalize _); cbn [option_map]; [|reflexivity]. rg HQ. reflexivity. Qed.
Lemma two_points_move a b c : two_points (T a) (T b) (T c) = option_map (fun x => (T (fst x), T (snd x))) (two_points a b c).
Proof. unfold two_points. cbv zeta. rg HQ. repeat (destruct (normalize _); cbn [option_map]; [|reflexivity]). rg HQ. reflexivity. Qed.
Hint Resolve mv_least_angle : mvh.
Lemma mv_new_points a vs n i : mv (map T) (@new_points NumR a vs n i) (new_points a vs n i).
Proof.
  unfold new_points. apply mv_if; [reflexivity|apply mv_ret; reflexivity|]. eapply mv_bind; [apply mv_bpos|intros p0]. eapply mv_bind; [apply mv_bpos|intros p1]. eapply mv_bind; [apply mv_bpos|intros p2]. apply mv_if; [reflexivity| |].
  - rewrite one_point_move. eapply mv_bind; [apply mv_lift|intros q]. apply mv_ret. reflexivity.
  - rewrite two_points_move. eapply mv_bind; [apply mv_lift|intros q]. apply mv_ret. reflexivity.
Qed.
Lemma mv_new_vertices : forall l, mv same (mmap new_vertex l) (mmap new_vertex (map T l)).
Proof. induction l as [|p l IH]; cbn [map mmap]; go. Qed.
Lemma mv_front_new l : mv same (front_new l) (front_new (map T l)).
Proof. unfold front_new. rewrite map_length. apply mv_binds; [apply mv_new_vertices|intros nvs]. go. Qed.
Lemma mv_front_wire v a b c d : mvs (@front_wire NumR v a b c d). Proof. unfold front_wire. go. Qed.
Hint Resolve mv_new_points mv_front_new mv_front_wire : mvh.
Lemma mv_advance f vs p n i l : mv same (advance f vs p n i l) (advance f vs p n i (map T l)).
Proof. unfold advance. cbv zeta. rewrite map_length. apply mv_binds; [apply mv_front_new|intros r]. go. Qed.
Hint Resolve mv_advance : mvh.
Lemma mv_front_step f a : mvs (@front_step NumR f a). Proof. unfold front_step. go. Qed.
Hint Resolve mv_front_step : mvh.
Lemma mv_front_loop f a : forall n, mvs (@front_loop NumR n f a). Proof. induction n as [|n IH]; cbn [front_loop]; go. Qed.
Lemma mv_first_free f : mvs (@first_free NumR f). Proof. unfold first_free. go. Qed.
Lemma mv_free_neighbors v l : mvs (@free_neighbors NumR v l). Proof. unfold free_neighbors. go. Qed.
Hint Resolve mv_front_loop mv_first_free mv_free_neighbors : mvh.
Lemma mv_inside_loop : forall n q l, mvs (@inside_loop NumR n q l). Proof. induction n as [|n IH]; intros [|v q] l; cbn [inside_loop]; go. Qed.
Hint Resolve mv_inside_loop : mvh.
Lemma mv_inside_verts f : mvs (@inside_verts NumR f). Proof. unfold inside_verts. go. Qed.

(** ** Remeshing, up to its smoothing *)
Ltac rgx HQ ::= rewrite min_dihedral_move.
Lemma mv_mean_length : mvs (@mean_length NumR). Proof. unfold mean_length. go. Qed.
Lemma mv_lock_feature k i : mvs (@lock_feature NumR k i). Proof. unfold lock_feature. go. Qed.
Lemma mv_split_long k i : mvs (@split_long NumR k i). Proof. unfold split_long. go. Qed.
Lemma mv_no_long a k : forall vs, mvs (@no_long NumR a k vs). Proof. induction vs as [|v vs IH]; cbn [no_long]; go. Qed.
Hint Resolve mv_mean_length mv_lock_feature mv_split_long mv_no_long : mvh.
Lemma mv_collapse_short a b i : mvs (@collapse_short NumR a b i). Proof. unfold collapse_short. go. Qed.
Lemma mv_remesh_flip i : mvs (@remesh_flip NumR i). Proof. unfold remesh_flip. go. Qed.
Hint Resolve mv_collapse_short mv_remesh_flip : mvh.
Lemma mv_he_loop f : (forall i, mvs (f i)) -> forall n i, mvs (@he_loop NumR f n i). Proof. intros H. induction n as [|n IH]; intros i; cbn [he_loop]; go. Qed.
Lemma mv_split_pass k p : mvs (@split_pass NumR k p). Proof. unfold split_pass. go. Qed.
Lemma mv_collapse_pass a b p : mvs (@collapse_pass NumR a b p). Proof. unfold collapse_pass. go. Qed.
Lemma mv_remesh_prepare k : mvs (@remesh_prepare NumR k). Proof. unfold remesh_prepare. go. Qed.
End Rigid.
