(** Functions on moved meshes. *)
From Coq Require Import Reals List ZArith Arith Bool Lra Lia FunctionalExtensionality.
From Verif Require Import Num NumInst Vec Heap Mesh WholeSpec RigidSpec.
Import ListNotations.
Local Open Scope mesh_scope.

Section Rigid.
Variables (Q : vecR -> vecR) (t : vecR).
Hypothesis HQ : Rotation Q.
Notation T := (motion Q t).
Notation MV := (move Q t).

(** ** Vectors *)
Lemma vec_ext (a b : vecR) : vx a = vx b -> vy a = vy b -> vz a = vz b -> a = b.
Proof. destruct a, b. cbn. congruence. Qed.
Ltac vx := apply vec_ext; cbn; try ring.
Lemma q_zero : Q vzero = vzero.
Proof. replace (vzero : vecR) with (@vscale NumR 0%R vzero) by (vx). rewrite (rot_scale Q HQ). vx. Qed.
Lemma q_neg a : vneg (Q a) = Q (vneg a).
Proof. replace (vneg a) with (@vscale NumR (-1)%R a) by vx. rewrite (rot_scale Q HQ). vx. Qed.
Lemma q_add a b : vadd (Q a) (Q b) = Q (vadd a b).
Proof. symmetry. apply HQ. Qed.
Lemma q_sub a b : vsub (Q a) (Q b) = Q (vsub a b).
Proof. unfold vsub. rewrite q_neg. apply q_add. Qed.
Lemma q_scale s a : vscale s (Q a) = Q (vscale s a).
Proof. symmetry. apply HQ. Qed.
Lemma q_dot a b : dot (Q a) (Q b) = dot a b. Proof. apply HQ. Qed.
Lemma q_cross a b : cross (Q a) (Q b) = Q (cross a b). Proof. apply HQ. Qed.
Lemma q_length a : vlength (Q a) = vlength a.
Proof. unfold vlength. rewrite q_dot. reflexivity. Qed.
Lemma vdiv_scale (a : vecR) (s : @num NumR) : vdiv a s = if @neqb NumR s nzero then None else Some (@vscale NumR (/ s)%R a).
Proof. unfold vdiv. destruct (neqb s nzero); reflexivity. Qed.
Lemma q_div a (s : @num NumR) : vdiv (Q a) s = option_map Q (vdiv a s).
Proof. rewrite !vdiv_scale. destruct (neqb s nzero); [reflexivity|]. cbn [option_map]. rewrite q_scale. reflexivity. Qed.
Lemma q_normalize a : normalize (Q a) = option_map Q (normalize a).
Proof. unfold normalize. rewrite q_length. apply q_div. Qed.
Lemma q_inj a b : Q a = Q b -> a = b.
Proof.
  intros E. assert (H : Q (vsub a b) = vzero) by (rewrite <- q_sub, E; vx). assert (Z := q_dot (vsub a b) (vsub a b)). rewrite H in Z.
  assert (Y : (vx (vsub a b) * vx (vsub a b) + vy (vsub a b) * vy (vsub a b) + vz (vsub a b) * vz (vsub a b) = 0)%R) by (unfold dot in Z; cbn in Z |- *; lra).
  assert (X1 : vx (vsub a b) = 0%R) by nra. assert (X2 : vy (vsub a b) = 0%R) by nra. assert (X3 : vz (vsub a b) = 0%R) by nra. cbn in X1, X2, X3. apply vec_ext; cbn in *; lra.
Qed.
Lemma t_sub a b : vsub (T a) (T b) = Q (vsub a b).
Proof. rewrite <- q_sub. unfold motion. vx. Qed.
Lemma t_add a b : vadd (T a) (Q b) = T (vadd a b).
Proof. unfold motion. rewrite <- q_add. vx. Qed.
Lemma t_subq a b : vsub (T a) (Q b) = T (vsub a b).
Proof. unfold motion. rewrite <- q_sub. vx. Qed.
Lemma t_mid a b : @vscale NumR nhalf (vadd (T a) (T b)) = T (@vscale NumR nhalf (vadd a b)).
Proof. unfold motion. rewrite <- q_scale, <- q_add. vx; lra. Qed.
Lemma t_inj a b : T a = T b -> a = b.
Proof. unfold motion. intros E. apply q_inj. assert (X1 := f_equal vx E). assert (X2 := f_equal vy E). assert (X3 := f_equal vz E). cbn in X1, X2, X3. apply vec_ext; lra. Qed.
Lemma veqb_eq (a b : vecR) : veqb a b = true <-> a = b.
Proof.
  unfold veqb. rewrite !andb_true_iff. cbn. unfold Reqb. split.
  - intros [[A B] C]. destruct (Req_EM_T (vx a) (vx b)), (Req_EM_T (vy a) (vy b)), (Req_EM_T (vz a) (vz b)); try discriminate. apply vec_ext; assumption.
  - intros ->. destruct (Req_EM_T (vx b) (vx b)), (Req_EM_T (vy b) (vy b)), (Req_EM_T (vz b) (vz b)); tauto.
Qed.
Lemma t_eqb a b : veqb (T a) (T b) = veqb a b.
Proof. destruct (veqb a b) eqn:E. - apply veqb_eq in E. subst b. apply veqb_eq. reflexivity. - destruct (veqb (T a) (T b)) eqn:F; [|reflexivity]. apply veqb_eq, t_inj, veqb_eq in F. congruence. Qed.
Lemma t_dihedral a b c d : dihedral (T a) (T b) (T c) (T d) = dihedral a b c d.
Proof. unfold dihedral. rewrite !t_sub, !q_cross, !q_length, q_dot. reflexivity. Qed.
Lemma t_angle a b c : vangle (T a) (T b) (T c) = vangle a b c.
Proof. unfold vangle. rewrite !t_sub, q_cross, q_length, q_dot. reflexivity. Qed.
Lemma t_obtuse a b c : obtuse (T a) (T b) (T c) = obtuse a b c.
Proof. unfold obtuse. rewrite !t_sub, !q_length. reflexivity. Qed.
Lemma t_cot a b c : cot (T a) (T b) (T c) = cot a b c.
Proof. unfold cot. rewrite !t_sub, q_cross, q_length, q_dot. reflexivity. Qed.

(** ** The monad *)
Definition mv {A} (g : A -> A) (x x' : M NumR A) : Prop := forall m, x' (MV m) = move_out Q t g (x m).
Notation mvs x := (mv same x x).
Lemma mv_ret {A} (g : A -> A) a a' : a' = g a -> mv g (ret a) (ret a').
Proof. intros -> m. reflexivity. Qed.
Lemma mv_bind {A B} (g1 : A -> A) (g : B -> B) x x' k k' : mv g1 x x' -> (forall a, mv g (k a) (k' (g1 a))) -> mv g (bind x k) (bind x' k').
Proof. intros H K m. unfold bind. rewrite H. destruct (x m) as [[a m']|u|u|]; cbn [move_out]; auto. apply K. Qed.
Lemma mv_ub {A} (g : A -> A) k : mv g (ub k) (ub k). Proof. intros m. reflexivity. Qed.
Lemma mv_abort {A} (g : A -> A) k : mv g (abort k) (abort k). Proof. intros m. reflexivity. Qed.
Lemma mv_nofuel {A} (g : A -> A) : mv g nofuel nofuel. Proof. intros m. reflexivity. Qed.
Lemma mv_get {A} (g : A -> A) f f' : (forall m, f' (MV m) = g (f m)) -> mv g (get f) (get f').
Proof. intros H m. unfold get. rewrite H. reflexivity. Qed.
Lemma mv_modify f f' : (forall m, f' (MV m) = MV (f m)) -> mv same (modify f) (modify f').
Proof. intros H m. unfold modify. rewrite H. reflexivity. Qed.
Lemma mv_assertion b : mvs (assertion b). Proof. intros m. destruct b; reflexivity. Qed.
Lemma mv_lift {A} (g : A -> A) o : mv g (lift o) (lift (option_map g o)). Proof. intros m. destruct o; reflexivity. Qed.
Lemma mv_lifts {A} (o : option A) : mvs (lift o). Proof. intros m. destruct o; reflexivity. Qed.
Lemma mv_if {A} (g : A -> A) (b b' : bool) x y x' y' : b' = b -> mv g x x' -> mv g y y' -> mv g (if b then x else y) (if b' then x' else y').
Proof. intros -> H1 H2. destruct b; assumption. Qed.
Lemma mv_weaken {A} (g g' : A -> A) x x' : mv g x x' -> (forall a, g a = g' a) -> mv g' x x'.
Proof. intros H E m. rewrite H. destruct (x m) as [[a m']| | |]; cbn [move_out]; rewrite ?E; reflexivity. Qed.
Lemma mv_hrd {A} (f : mesh NumR -> nat -> A) p : (forall m a, f (MV m) a = f m a) -> mvs (hrd f p).
Proof. intros H m. unfold hrd. destruct p as [a|]; [|reflexivity]. change (h_live (MV m) a) with (h_live m a). destruct (h_live m a); [|reflexivity]. rewrite H. reflexivity. Qed.
Lemma mv_vrd {A} (f : mesh NumR -> nat -> A) (g : A -> A) p : (forall m a, f (MV m) a = g (f m a)) -> mv g (vrd f p) (vrd f p).
Proof. intros H m. unfold vrd. destruct p as [a|]; [|reflexivity]. change (v_live (MV m) a) with (v_live m a). destruct (v_live m a); [|reflexivity]. rewrite H. reflexivity. Qed.
Lemma mv_frd {A} (f : mesh NumR -> nat -> A) p : (forall m a, f (MV m) a = f m a) -> mvs (frd f p).
Proof. intros H m. unfold frd. destruct p as [a|]; [|reflexivity]. change (f_live (MV m) a) with (f_live m a). destruct (f_live m a); [|reflexivity]. rewrite H. reflexivity. Qed.
Lemma mv_hwr u p : (forall a m, u a (MV m) = MV (u a m)) -> mvs (hwr u p).
Proof. intros H m. unfold hwr. destruct p as [a|]; [|reflexivity]. change (h_live (MV m) a) with (h_live m a). destruct (h_live m a); [|reflexivity]. rewrite H. reflexivity. Qed.
Lemma mv_vwr u u' p : (forall a m, u' a (MV m) = MV (u a m)) -> mv same (vwr u p) (vwr u' p).
Proof. intros H m. unfold vwr. destruct p as [a|]; [|reflexivity]. change (v_live (MV m) a) with (v_live m a). destruct (v_live m a); [|reflexivity]. rewrite H. reflexivity. Qed.
Lemma mv_fwr u p : (forall a m, u a (MV m) = MV (u a m)) -> mvs (fwr u p).
Proof. intros H m. unfold fwr. destruct p as [a|]; [|reflexivity]. change (f_live (MV m) a) with (f_live m a). destruct (f_live m a); [|reflexivity]. rewrite H. reflexivity. Qed.
Lemma mv_src p : mvs (he_src p). Proof. apply mv_hrd. reflexivity. Qed.
Lemma mv_next p : mvs (he_next p). Proof. apply mv_hrd. reflexivity. Qed.
Lemma mv_rev p : mvs (he_rev p). Proof. apply mv_hrd. reflexivity. Qed.
Lemma mv_face p : mvs (he_face p). Proof. apply mv_hrd. reflexivity. Qed.
Lemma mv_hidx p : mvs (he_idx p). Proof. apply mv_hrd. reflexivity. Qed.
Lemma mv_bd p : mvs (he_bd p). Proof. apply mv_hrd. reflexivity. Qed.
Lemma mv_vhe p : mvs (ve_he p). Proof. apply mv_vrd. reflexivity. Qed.
Lemma mv_vidx p : mvs (ve_idx p). Proof. apply mv_vrd. reflexivity. Qed.
Lemma mv_vlock p : mvs (ve_lock p). Proof. apply mv_vrd. reflexivity. Qed.
Lemma mv_pos p : mv T (ve_pos p) (ve_pos p). Proof. apply mv_vrd. reflexivity. Qed.
Lemma mv_fhe p : mvs (fa_he p). Proof. apply mv_frd. reflexivity. Qed.
Lemma mv_fidx p : mvs (fa_idx p). Proof. apply mv_frd. reflexivity. Qed.
Lemma mv_w_src p x : mvs (w_src p x). Proof. apply mv_hwr. reflexivity. Qed.
Lemma mv_w_next p x : mvs (w_next p x). Proof. apply mv_hwr. reflexivity. Qed.
Lemma mv_w_rev p x : mvs (w_rev p x). Proof. apply mv_hwr. reflexivity. Qed.
Lemma mv_w_face p x : mvs (w_face p x). Proof. apply mv_hwr. reflexivity. Qed.
Lemma mv_w_hidx p x : mvs (w_hidx p x). Proof. apply mv_hwr. reflexivity. Qed.
Lemma mv_w_bd p x : mvs (w_bd p x). Proof. apply mv_hwr. reflexivity. Qed.
Lemma mv_w_vhe p x : mvs (w_vhe p x). Proof. apply mv_vwr. reflexivity. Qed.
Lemma mv_w_vidx p x : mvs (w_vidx p x). Proof. apply mv_vwr. reflexivity. Qed.
Lemma mv_w_lock p x : mvs (w_lock p x). Proof. apply mv_vwr. reflexivity. Qed.
Lemma mv_w_fhe p x : mvs (w_fhe p x). Proof. apply mv_fwr. reflexivity. Qed.
Lemma mv_w_fidx p x : mvs (w_fidx p x). Proof. apply mv_fwr. reflexivity. Qed.
Lemma set_pos_move a x m : set_v_pos a (T x) (MV m) = MV (set_v_pos a x m).
Proof. unfold move, at_positions, set_v_pos. cbn. f_equal. apply functional_extensionality. intros b. unfold fupd. destruct (b =? a); reflexivity. Qed.
Lemma mv_w_pos p x : mv same (w_pos p x) (w_pos p (T x)). Proof. apply mv_vwr. intros a m. apply set_pos_move. Qed.
Lemma mv_new_he : mvs (@new_he NumR). Proof. intros m. reflexivity. Qed.
Lemma mv_new_face : mvs (@new_face NumR). Proof. intros m. reflexivity. Qed.
Lemma mv_new_vertex x : mv same (new_vertex x) (new_vertex (T x)).
Proof.
  intros m. unfold new_vertex. cbn [move_out]. unfold same. do 2 f_equal. change (m_fresh (MV m)) with (m_fresh m). set (a := m_fresh m).
  change (set_v_he a None (set_v_idx a (-1)%Z (set_v_lock a false (set_m_fresh (S a) (MV m))))) with (MV (set_v_he a None (set_v_idx a (-1)%Z (set_v_lock a false (set_m_fresh (S a) m))))).
  rewrite set_pos_move. reflexivity.
Qed.
Lemma mv_at l i : mvs (@vec_at NumR l i).
Proof. unfold vec_at. destruct (i <? 0)%Z; [apply mv_ub|]. destruct (nth_error l (Z.to_nat i)); [apply mv_ret; reflexivity|apply mv_ub]. Qed.

Lemma mv_mfor {A} (g : A -> A) l f f' : (forall a, mv same (f a) (f' (g a))) -> mv same (mfor l f) (mfor (map g l) f').
Proof. intros H. induction l as [|a l IH]; [apply mv_ret; reflexivity|]. cbn [mfor map]. eapply mv_bind; [apply H|intros _; exact IH]. Qed.
Lemma mv_mfor_s {A} (l : list A) f f' : (forall a, mv same (f a) (f' a)) -> mv same (mfor l f) (mfor l f').
Proof. intros H. induction l as [|a l IH]; [apply mv_ret; reflexivity|]. cbn [mfor map]. eapply mv_bind; [apply H|intros _; exact IH]. Qed.
Lemma mv_mmap {A B} (g : B -> B) (l : list A) f f' : (forall a, mv g (f a) (f' a)) -> mv (map g) (mmap f l) (mmap f' l).
Proof. intros H. induction l as [|a l IH]; [apply mv_ret; reflexivity|]. cbn [mmap]. eapply mv_bind; [apply H|intros b; cbv beta]. eapply mv_bind; [apply IH|intros bs; apply mv_ret; reflexivity]. Qed.
Lemma mv_mmap_s {A B} (l : list A) (f f' : A -> M NumR B) : (forall a, mv same (f a) (f' a)) -> mv same (mmap f l) (mmap f' l).
Proof. intros H. eapply mv_weaken; [apply mv_mmap, H|]. intros a. apply map_id. Qed.
Lemma mv_mfold {A B} (g : B -> B) f f' : (forall b (a : A), mv g (f b a) (f' (g b) a)) -> forall l acc, mv g (mfold f acc l) (mfold f' (g acc) l).
Proof. intros H. induction l as [|a l IH]; intros acc; [apply mv_ret; reflexivity|]. cbn [mfold]. eapply mv_bind; [apply H|intros b; apply IH]. Qed.
Lemma mv_mfold_s {A B} (f : B -> A -> M NumR B) : (forall b a, mvs (f b a)) -> forall l acc, mvs (mfold f acc l).
Proof. intros H l acc. exact (mv_mfold same f f H l acc). Qed.
Definition on_fst {A : Type} (g : A -> A) (r : A * bool) : A * bool := (g (fst r), snd r).
Lemma mv_circ {A} (g : A -> A) step body body' : (forall p, mvs (step p)) -> (forall a p, mv (on_fst g) (body a p) (body' (g a) p)) ->
  forall fuel start it acc, mv g (circ step body fuel start it acc) (circ step body' fuel start it (g acc)).
Proof.
  intros HS HB. induction fuel as [|fuel IH]; intros start it acc; destruct it as [i|]; cbn [circ]; try (apply mv_ret; reflexivity); [apply mv_nofuel|].
  eapply mv_bind; [apply HB|]. intros [a b]. cbn [on_fst fst snd]. destruct b; [apply mv_ret; reflexivity|]. eapply mv_bind; [apply HS|]. intros n. apply IH.
Qed.
Lemma mv_step_v p : mvs (step_v p). Proof. eapply mv_bind; [apply mv_rev|intros r; apply mv_next]. Qed.
Lemma mv_step_f p : mvs (step_f p). Proof. apply mv_next. Qed.
Lemma mv_circ_v {A} (g : A -> A) v acc body body' : (forall a p, mv (on_fst g) (body a p) (body' (g a) p)) -> mv g (circ_v v acc body) (circ_v v (g acc) body').
Proof. intros H. eapply mv_bind; [apply mv_vhe|intros h]. eapply mv_bind; [apply (mv_get same); reflexivity|intros fr]. apply (mv_circ g); [apply mv_step_v|exact H]. Qed.
Lemma mv_circ_f {A} (g : A -> A) f acc body body' : (forall a p, mv (on_fst g) (body a p) (body' (g a) p)) -> mv g (circ_f f acc body) (circ_f f (g acc) body').
Proof. intros H. eapply mv_bind; [apply mv_fhe|intros h]. eapply mv_bind; [apply (mv_get same); reflexivity|intros fr]. apply (mv_circ g); [apply mv_step_f|exact H]. Qed.
Lemma on_fst_same {A} (x x' : M NumR (A * bool)) : mv same x x' -> mv (on_fst same) x x'.
Proof. intros H. eapply mv_weaken; [exact H|]. intros [a b]. reflexivity. Qed.
Lemma mv_circ_vs {A} v (acc : A) body : (forall a p, mvs (body a p)) -> mvs (circ_v v acc body).
Proof. intros H. apply (mv_circ_v same). intros a p. apply on_fst_same, H. Qed.
Lemma mv_circ_fs {A} v (acc : A) body : (forall a p, mvs (body a p)) -> mvs (circ_f v acc body).
Proof. intros H. apply (mv_circ_f same). intros a p. apply on_fst_same, H. Qed.
End Rigid.
