(** The advancing front and the steps of remeshing on scaled meshes. *)
From Coq Require Import Reals List ZArith Arith Bool Lra Lia FunctionalExtensionality.
From Verif Require Import Num NumInst Vec Heap Mesh Bounds Construct Measure Lapl Fill Front Simplify Remesh WholeSpec RigidSpec ScaleSpec ScaleM ScaleE ScaleF ScaleG.
Import ListNotations.
Local Open Scope mesh_scope.

Section Scale.
Variable c : R.
Hypothesis Hc : (0 < c)%R.
Notation T := (grow c).
Notation MV := (scaled c).
Notation mv := (mv c).
Notation mvs x := (mv same x x).
Notation k2 := (c * c)%R.
Ltac go := mvt Hc.
Hint Resolve mv_at_ mv_bpos mv_opposite mv_fnormal mv_vnormal mv_fpos mv_o_at mv_fill_queue mv_find_or_add mv_put_triangle mv_addNew mv_add_triangles mv_pair_up mv_join_up mv_pair_faces mv_join_faces : mvh.
Lemma nleb_times (x y : R) : @nleb NumR (c * x)%R (c * y)%R = @nleb NumR x y. Proof. apply rleb_times, Hc. Qed.
Lemma nltb_times (x y : R) : @nltb NumR (c * x)%R (c * y)%R = @nltb NumR x y. Proof. apply rltb_times, Hc. Qed.

(** ** The advancing front *)
Lemma mv_lock_front f : mvs (@lock_front NumR f). Proof. unfold lock_front. go. Qed.
Lemma mv_front_ring f : mvs (@front_ring NumR f). Proof. unfold front_ring. go. Qed.
Lemma mv_close_front f : mvs (@close_front NumR f). Proof. unfold close_front. go. Qed.
Lemma mv_too_close (a : R) vs n i : mv same (@too_close NumR a vs n i) (@too_close NumR (c * a)%R vs n i).
Proof.
  unfold too_close. go. apply mv_ret. unfold same. rg Hc. replace (@nmul NumR nhalf (c * a)%R) with (c * (@nmul NumR nhalf a))%R by (cbn; ring). first [apply nltb_times | symmetry; apply nltb_times].
Qed.
Hint Resolve mv_lock_front mv_front_ring mv_close_front mv_too_close : mvh.
Lemma mv_find_close (a : R) vs n : forall is, mv same (@find_close NumR a vs n is) (@find_close NumR (c * a)%R vs n is). Proof. induction is as [|i is IH]; cbn [find_close]; go. Qed.
Lemma mv_merge_remove a b d e v : mvs (@merge_remove NumR a b d e v). Proof. unfold merge_remove. go. Qed.
Hint Resolve mv_find_close mv_merge_remove : mvh.
Lemma mv_merge_wire f a b v x d e l : mvs (@merge_wire NumR f a b v x d e l). Proof. unfold merge_wire. go. Qed.
Hint Resolve mv_merge_wire : mvh.
Lemma mv_merge f vs hs n i : mvs (@merge NumR f vs hs n i). Proof. unfold merge. go. Qed.
Hint Resolve mv_merge : mvh.
Lemma open_angle_move nrm a b d : open_angle nrm (T a) (T b) (T d) = open_angle nrm a b d.
Proof.
  unfold open_angle. cbv zeta. rg Hc. set (o := cross _ _). assert (E : dot (grow k2 o) nrm = (k2 * dot o nrm)%R) by (unfold grow, dot; cbn; ring). rewrite E.
  change (@nleb NumR nzero (k2 * dot o nrm)%R) with (Rleb 0 (k2 * dot o nrm)). rewrite (rleb0_times k2 _ (cc0 c Hc)). change (Rleb 0 (dot o nrm)) with (@nleb NumR nzero (dot o nrm)). apply (f_equal (@wrap NumR)).
  set (s := (if @nleb NumR nzero (dot o nrm) then _ else _)). replace (@nmul NumR s (k2 * vlength o)%R) with (k2 * (@nmul NumR s (vlength o)))%R by (cbn; ring). apply atan2_times, cc0, Hc.
Qed.
Lemma mv_outer_normal h : mvs (outer_normal h).
Proof. unfold outer_normal. apply mv_binds; [go|intros r]. apply mv_binds; [go|intros f]. go. Qed.
Hint Resolve mv_outer_normal : mvh.
Ltac rgx Hc ::= rewrite open_angle_move.
Lemma mv_try_angle vs p n b i : mvs (@try_angle NumR vs p n b i). Proof. unfold try_angle. go. Qed.
Hint Resolve mv_try_angle : mvh.
Lemma mv_least_angle vs p n : mvs (@least_angle NumR vs p n). Proof. unfold least_angle. go. Qed.
Lemma one_point_move a b d : one_point (T a) (T b) (T d) = option_map T (one_point a b d).
Proof.
  unfold one_point. cbv zeta. rg Hc. destruct (normalize _) as [u|]; cbn [option_map]; [|reflexivity]. f_equal. unfold grow. apply vec_ext; cbn; ring.
Qed.
Lemma two_points_move a b d : two_points (T a) (T b) (T d) = option_map (fun x => (T (fst x), T (snd x))) (two_points a b d).
Proof.
  unfold two_points. cbv zeta. rg Hc. destruct (normalize _) as [u|]; cbn [option_map]; [|reflexivity]. destruct (normalize _) as [u2|]; cbn [option_map]; [|reflexivity]. f_equal. cbn [fst snd]. f_equal; unfold grow; apply vec_ext; cbn; field.
Qed.
Hint Resolve mv_least_angle : mvh.
Lemma mv_new_points a vs n i : mv (map T) (@new_points NumR a vs n i) (new_points a vs n i).
Proof.
  unfold new_points. apply mv_if; [reflexivity|apply mv_ret; reflexivity|]. eapply mv_bind; [apply mv_bpos|intros p0]. eapply mv_bind; [apply mv_bpos|intros p1]. eapply mv_bind; [apply mv_bpos|intros p2]. apply mv_if; [reflexivity| |].
  - rewrite one_point_move. eapply mv_bind; [apply mv_lift|intros q]. apply mv_ret. reflexivity.
  - rewrite two_points_move. eapply mv_bind; [apply mv_lift|intros q]. apply mv_ret. reflexivity.
Qed.
Lemma mv_new_vertices : forall l, mv same (mmap new_vertex l) (mmap new_vertex (map T l)).
Proof. induction l as [|p l IH]; cbn [map mmap]; go. Qed.
Lemma mv_front_new l : mv same (front_new l) (front_new (map T l)).
Proof. unfold front_new. rewrite map_length. apply mv_binds; [apply mv_new_vertices|intros nvs]. go. Qed.
Lemma mv_front_wire v a b x d : mvs (@front_wire NumR v a b x d). Proof. unfold front_wire. go. Qed.
Hint Resolve mv_new_points mv_front_new mv_front_wire : mvh.
Lemma mv_advance f vs p n i l : mv same (advance f vs p n i l) (advance f vs p n i (map T l)).
Proof. unfold advance. cbv zeta. rewrite map_length. apply mv_binds; [apply mv_front_new|intros r]. go. Qed.
Hint Resolve mv_advance : mvh.
Lemma mv_front_step f (a : R) : mv same (@front_step NumR f a) (@front_step NumR f (c * a)%R). Proof. unfold front_step. go. Qed.
Hint Resolve mv_front_step : mvh.
Lemma mv_front_loop f (a : R) : forall n, mv same (@front_loop NumR n f a) (@front_loop NumR n f (c * a)%R). Proof. induction n as [|n IH]; cbn [front_loop]; go. Qed.
Lemma mv_first_free f : mvs (@first_free NumR f). Proof. unfold first_free. go. Qed.
Lemma mv_free_neighbors v l : mvs (@free_neighbors NumR v l). Proof. unfold free_neighbors. go. Qed.
Hint Resolve mv_front_loop mv_first_free mv_free_neighbors : mvh.
Lemma mv_inside_loop : forall n q l, mvs (@inside_loop NumR n q l). Proof. induction n as [|n IH]; intros [|v q] l; cbn [inside_loop]; go. Qed.
Hint Resolve mv_inside_loop : mvh.
Lemma mv_inside_verts f : mvs (@inside_verts NumR f). Proof. unfold inside_verts. go. Qed.

(** ** Remeshing, up to its smoothing *)
Ltac rgx Hc ::= first [rewrite (min_dihedral_move _ Hc) | rewrite nleb_times].
Lemma mv_mean_length : mv (times c) (@mean_length NumR) mean_length.
Proof.
  unfold mean_length. apply mv_binds; [go|intros n]. eapply (mv_bind _ (times c)).
  - replace (@nzero NumR) with (times c (@nzero NumR)) at 2 by apply Rmult_0_r. apply mv_mfold. intros b a. apply mv_binds; [go|intros h]. eapply mv_bind; [apply mv_length, Hc|intros x]. apply mv_ret. unfold times. cbn. ring.
  - intros s2. apply mv_ret. unfold times. cbn. unfold Rdiv. ring.
Qed.
Lemma mv_lock_feature k i : mvs (@lock_feature NumR k i). Proof. unfold lock_feature. go. Qed.
Lemma mv_split_long (k : R) i : mv same (@split_long NumR k i) (@split_long NumR (c * k)%R i). Proof. unfold split_long. go. Qed.
Lemma mv_no_long a (k : R) : forall vs, mv same (@no_long NumR a k vs) (@no_long NumR a (c * k)%R vs). Proof. induction vs as [|v vs IH]; cbn [no_long]; go. Qed.
Hint Resolve mv_lock_feature mv_split_long mv_no_long : mvh.
Lemma mv_collapse_short (a b : R) i : mv same (@collapse_short NumR a b i) (@collapse_short NumR (c * a)%R (c * b)%R i). Proof. unfold collapse_short. go. Qed.
Lemma mv_remesh_flip i : mvs (@remesh_flip NumR i). Proof. unfold remesh_flip. go. Qed.
Hint Resolve mv_collapse_short mv_remesh_flip : mvh.
Lemma mv_he_loop f : (forall i, mvs (f i)) -> forall n i, mvs (@he_loop NumR f n i). Proof. intros H. induction n as [|n IH]; intros i; cbn [he_loop]; go. Qed.
Lemma mv_mfold_u (f f' : nat -> M NumR unit) : (forall i, mv same (f i) (f' i)) -> forall l u, mv same (mfold (fun _ i => f i) u l) (mfold (fun _ i => f' i) u l).
Proof. intros H l u. apply (mv_mfold c same). intros b a. apply H. Qed.
Lemma mv_split_pass (k : R) p : mv same (@split_pass NumR k p) (@split_pass NumR (c * k)%R p).
Proof. unfold split_pass. apply mv_binds; [apply mv_mfold_u; intros i; apply mv_split_long|intros _]. go. Qed.
Lemma mv_collapse_pass (a b : R) p : mv same (@collapse_pass NumR a b p) (@collapse_pass NumR (c * a)%R (c * b)%R p). Proof. unfold collapse_pass. apply mv_mfold_u. intros i. apply mv_collapse_short. Qed.
Lemma mv_remesh_prepare (k : R) : mv (times c) (@remesh_prepare NumR k) (@remesh_prepare NumR k).
Proof. unfold remesh_prepare. apply mv_binds; [go|intros b]. apply mv_binds; [go|intros _]. eapply mv_bind; [apply mv_mean_length|intros l]. apply mv_binds; [go|intros n]. apply mv_binds; [go|intros _]. apply mv_ret. reflexivity. Qed.
End Scale.
