(** Functions on scaled meshes. *)
From Coq Require Import Reals List ZArith Arith Bool Lra Lia FunctionalExtensionality.
From Verif Require Import Num NumInst Vec Heap Mesh WholeSpec RigidSpec ScaleSpec.
Import ListNotations.
Local Open Scope mesh_scope.

(** ** Vectors *)
Lemma vec_ext (a b : vecR) : vx a = vx b -> vy a = vy b -> vz a = vz b -> a = b.
Proof. destruct a, b. cbn. congruence. Qed.
Ltac vx := apply vec_ext; cbn; try ring.
Lemma grow_zero k : grow k vzero = vzero. Proof. unfold grow. vx. Qed.
Lemma grow_neg k a : vneg (grow k a) = grow k (vneg a). Proof. unfold grow. vx. Qed.
Lemma grow_add k a b : vadd (grow k a) (grow k b) = grow k (vadd a b). Proof. unfold grow. vx. Qed.
Lemma grow_sub k a b : vsub (grow k a) (grow k b) = grow k (vsub a b). Proof. unfold grow. vx. Qed.
Lemma grow_scale k s a : vscale s (grow k a) = grow k (vscale s a). Proof. unfold grow. vx. Qed.
Lemma grow_dot k l a b : dot (grow k a) (grow l b) = (k * l * dot a b)%R. Proof. unfold grow, dot. cbn. ring. Qed.
Lemma grow_cross k l a b : cross (grow k a) (grow l b) = grow (k * l)%R (cross a b). Proof. unfold grow. vx. Qed.
Lemma grow_length k a : (0 <= k)%R -> vlength (grow k a) = (k * vlength a)%R.
Proof.
  intros K. unfold vlength. rewrite grow_dot. change (@nsqrt NumR) with sqrt. rewrite sqrt_mult_alt by (apply Rmult_le_pos; assumption). rewrite sqrt_square by exact K. reflexivity.
Qed.
Lemma vdiv_scale (a : vecR) (s : @num NumR) : vdiv a s = if @neqb NumR s nzero then None else Some (@vscale NumR (/ s)%R a).
Proof. unfold vdiv. destruct (neqb s nzero); reflexivity. Qed.
Lemma grow_div k a (s : @num NumR) : vdiv (grow k a) s = option_map (grow k) (vdiv a s).
Proof. rewrite !vdiv_scale. destruct (neqb s nzero); [reflexivity|]. cbn [option_map]. rewrite grow_scale. reflexivity. Qed.
Lemma reqb_times k (a b : @num NumR) : k <> 0%R -> Reqb (k * a) (k * b) = Reqb a b.
Proof. intros K. unfold Reqb. destruct (Req_EM_T (k * a) (k * b)) as [E|E], (Req_EM_T a b) as [F|F]; try reflexivity; exfalso; [apply F, (Rmult_eq_reg_l k); assumption|apply E; rewrite F; reflexivity]. Qed.
Lemma reqb0_times k (a : R) : k <> 0%R -> Reqb (k * a) 0 = Reqb a 0.
Proof. intros K. rewrite <- (Rmult_0_r k) at 1. apply reqb_times, K. Qed.
Lemma rltb_times k (a b : R) : (0 < k)%R -> Rltb (k * a) (k * b) = Rltb a b.
Proof. intros K. unfold Rltb. destruct (Rlt_dec (k * a) (k * b)) as [E|E], (Rlt_dec a b) as [F|F]; try reflexivity; exfalso; [apply F, (Rmult_lt_reg_l k); assumption|apply E, Rmult_lt_compat_l; assumption]. Qed.
Lemma rleb_times k (a b : R) : (0 < k)%R -> Rleb (k * a) (k * b) = Rleb a b.
Proof. intros K. unfold Rleb. destruct (Rle_dec (k * a) (k * b)) as [E|E], (Rle_dec a b) as [F|F]; try reflexivity; exfalso; [apply F, (Rmult_le_reg_l k); assumption|apply E, Rmult_le_compat_l; [lra|assumption]]. Qed.
Lemma rltb0_times k (a : R) : (0 < k)%R -> Rltb (k * a) 0 = Rltb a 0.
Proof. intros K. rewrite <- (Rmult_0_r k) at 1. apply rltb_times, K. Qed.
Lemma rleb0_times k (a : R) : (0 < k)%R -> Rleb 0 (k * a) = Rleb 0 a.
Proof. intros K. rewrite <- (Rmult_0_r k) at 1. apply rleb_times, K. Qed.
Lemma grow_div_both k a (s : R) : (0 < k)%R -> @vdiv NumR (grow k a) (k * s)%R = @vdiv NumR a s.
Proof.
  intros K. rewrite !vdiv_scale. change (@neqb NumR) with Reqb. change (@nzero NumR) with 0%R. rewrite reqb0_times by lra. destruct (Reqb s 0) eqn:E; [reflexivity|].
  assert (S : s <> 0%R) by (intros Z; apply Reqb_eq in Z; congruence). f_equal. unfold grow. apply vec_ext; cbn; field; split; lra.
Qed.
Lemma grow_normalize k a : (0 < k)%R -> normalize (grow k a) = normalize a.
Proof. intros K. unfold normalize. rewrite grow_length by lra. apply grow_div_both, K. Qed.
Lemma grow_grow k l a : grow k (grow l a) = grow (k * l)%R a. Proof. unfold grow. vx. Qed.
Lemma grow_inj k a b : k <> 0%R -> grow k a = grow k b -> a = b.
Proof. intros K E. assert (X := f_equal vx E). assert (Y := f_equal vy E). assert (Z := f_equal vz E). cbn in X, Y, Z. apply vec_ext; [apply (Rmult_eq_reg_r k _ _ X K)|apply (Rmult_eq_reg_r k _ _ Y K)|apply (Rmult_eq_reg_r k _ _ Z K)]. Qed.
Lemma veqb_eq (a b : vecR) : veqb a b = true <-> a = b. Proof. apply veqb_real. Qed.
Lemma atan2_times k (y x : R) : (0 < k)%R -> @natan2 NumR (k * y)%R (k * x)%R = @natan2 NumR y x.
Proof.
  intros K. cbn. assert (P : forall a, (0 < k * a <-> 0 < a)%R) by (intros a; split; nra). assert (Q : forall a, (k * a < 0 <-> a < 0)%R) by (intros a; split; nra). assert (G : (0 <= k * y <-> 0 <= y)%R) by (split; nra).
  assert (D : (x <> 0)%R -> (k * y / (k * x) = y / x)%R) by (intros X; field; split; lra).
  destruct (Rlt_dec 0 (k * x)) as [A|A], (Rlt_dec 0 x) as [A'|A']; try (exfalso; rewrite P in A; tauto); [rewrite D by lra; reflexivity|].
  destruct (Rlt_dec (k * x) 0) as [B|B], (Rlt_dec x 0) as [B'|B']; try (exfalso; rewrite Q in B; tauto).
  - rewrite D by lra. destruct (Rle_dec 0 (k * y)), (Rle_dec 0 y); tauto.
  - destruct (Rlt_dec 0 (k * y)) as [C|C], (Rlt_dec 0 y) as [C'|C']; try (exfalso; rewrite P in C; tauto); [reflexivity|]. destruct (Rlt_dec (k * y) 0) as [C2|C2], (Rlt_dec y 0) as [C3|C3]; try (exfalso; rewrite Q in C2; tauto); reflexivity.
Qed.

Section Scale.
Variable c : R.
Hypothesis Hc : (0 < c)%R.
Notation T := (grow c).
Notation MV := (scaled c).
Lemma cc0 : (0 < c * c)%R. Proof. apply Rmult_lt_0_compat; exact Hc. Qed.
Lemma t_length a : vlength (T a) = (c * vlength a)%R. Proof. apply grow_length. lra. Qed.
Lemma t_length2 a : vlength (grow (c * c)%R a) = (c * c * vlength a)%R. Proof. apply grow_length. assert (H := cc0). lra. Qed.
Lemma t_mid a b : @vscale NumR nhalf (vadd (T a) (T b)) = T (@vscale NumR nhalf (vadd a b)).
Proof. rewrite grow_add, grow_scale. reflexivity. Qed.
Lemma t_eqb a b : veqb (T a) (T b) = veqb a b.
Proof. destruct (veqb a b) eqn:E. - apply veqb_eq in E. subst b. apply veqb_eq. reflexivity. - destruct (veqb (T a) (T b)) eqn:F; [|reflexivity]. apply veqb_eq, grow_inj, veqb_eq in F; [congruence|lra]. Qed.
Lemma t_dihedral a b d e : dihedral (T a) (T b) (T d) (T e) = dihedral a b d e.
Proof.
  unfold dihedral. rewrite !grow_sub, !grow_cross, !t_length2, grow_dot. change (@neqb NumR) with Reqb. change (@nzero NumR) with 0%R. assert (K := cc0). rewrite !reqb0_times by lra.
  destruct (Reqb _ 0 || Reqb _ 0) eqn:Z; [reflexivity|]. apply orb_false_iff in Z as [Z1 Z2]. assert (N1 := fun H => eq_true_false_abs _ (proj2 (Reqb_eq _ 0) H) Z1). assert (N2 := fun H => eq_true_false_abs _ (proj2 (Reqb_eq _ 0) H) Z2).
  f_equal. f_equal. f_equal. cbn. field. repeat split; try assumption; lra.
Qed.
Lemma t_vangle a b d : vangle (T a) (T b) (T d) = vangle a b d.
Proof. unfold vangle. rewrite !grow_sub, grow_cross, t_length2, grow_dot. apply atan2_times, cc0. Qed.

(** ** The monad *)
Definition mv {A} (g : A -> A) (x x' : M NumR A) : Prop := forall m, x' (MV m) = scaled_out c g (x m).
Notation mvs x := (mv same x x).
Lemma mv_ret {A} (g : A -> A) a a' : a' = g a -> mv g (ret a) (ret a').
Proof. intros -> m. reflexivity. Qed.
Lemma mv_bind {A B} (g1 : A -> A) (g : B -> B) x x' k k' : mv g1 x x' -> (forall a, mv g (k a) (k' (g1 a))) -> mv g (bind x k) (bind x' k').
Proof. intros H K m. unfold bind. rewrite H. destruct (x m) as [[a m']|u|u|]; cbn [scaled_out]; auto. apply K. Qed.
Lemma mv_ub {A} (g : A -> A) k : mv g (ub k) (ub k). Proof. intros m. reflexivity. Qed.
Lemma mv_abort {A} (g : A -> A) k : mv g (abort k) (abort k). Proof. intros m. reflexivity. Qed.
Lemma mv_nofuel {A} (g : A -> A) : mv g nofuel nofuel. Proof. intros m. reflexivity. Qed.
Lemma mv_get {A} (g : A -> A) f f' : (forall m, f' (MV m) = g (f m)) -> mv g (get f) (get f').
Proof. intros H m. unfold get. rewrite H. reflexivity. Qed.
Lemma mv_modify f f' : (forall m, f' (MV m) = MV (f m)) -> mv same (modify f) (modify f').
Proof. intros H m. unfold modify. rewrite H. reflexivity. Qed.
Lemma mv_assertion b : mvs (assertion b). Proof. intros m. destruct b; reflexivity. Qed.
Lemma mv_lift {A} (g : A -> A) o : mv g (lift o) (lift (option_map g o)). Proof. intros m. destruct o; reflexivity. Qed.
Lemma mv_lifts {A} (o : option A) : mvs (lift o). Proof. intros m. destruct o; reflexivity. Qed.
Lemma mv_if {A} (g : A -> A) (b b' : bool) x y x' y' : b' = b -> mv g x x' -> mv g y y' -> mv g (if b then x else y) (if b' then x' else y').
Proof. intros -> H1 H2. destruct b; assumption. Qed.
Lemma mv_weaken {A} (g g' : A -> A) x x' : mv g x x' -> (forall a, g a = g' a) -> mv g' x x'.
Proof. intros H E m. rewrite H. destruct (x m) as [[a m']| | |]; cbn [scaled_out]; rewrite ?E; reflexivity. Qed.
Lemma mv_hrd {A} (f : mesh NumR -> nat -> A) p : (forall m a, f (MV m) a = f m a) -> mvs (hrd f p).
Proof. intros H m. unfold hrd. destruct p as [a|]; [|reflexivity]. change (h_live (MV m) a) with (h_live m a). destruct (h_live m a); [|reflexivity]. rewrite H. reflexivity. Qed.
Lemma mv_vrd {A} (f : mesh NumR -> nat -> A) (g : A -> A) p : (forall m a, f (MV m) a = g (f m a)) -> mv g (vrd f p) (vrd f p).
Proof. intros H m. unfold vrd. destruct p as [a|]; [|reflexivity]. change (v_live (MV m) a) with (v_live m a). destruct (v_live m a); [|reflexivity]. rewrite H. reflexivity. Qed.
Lemma mv_frd {A} (f : mesh NumR -> nat -> A) p : (forall m a, f (MV m) a = f m a) -> mvs (frd f p).
Proof. intros H m. unfold frd. destruct p as [a|]; [|reflexivity]. change (f_live (MV m) a) with (f_live m a). destruct (f_live m a); [|reflexivity]. rewrite H. reflexivity. Qed.
Lemma mv_hwr u p : (forall a m, u a (MV m) = MV (u a m)) -> mvs (hwr u p).
Proof. intros H m. unfold hwr. destruct p as [a|]; [|reflexivity]. change (h_live (MV m) a) with (h_live m a). destruct (h_live m a); [|reflexivity]. rewrite H. reflexivity. Qed.
Lemma mv_vwr u u' p : (forall a m, u' a (MV m) = MV (u a m)) -> mv same (vwr u p) (vwr u' p).
Proof. intros H m. unfold vwr. destruct p as [a|]; [|reflexivity]. change (v_live (MV m) a) with (v_live m a). destruct (v_live m a); [|reflexivity]. rewrite H. reflexivity. Qed.
Lemma mv_fwr u p : (forall a m, u a (MV m) = MV (u a m)) -> mvs (fwr u p).
Proof. intros H m. unfold fwr. destruct p as [a|]; [|reflexivity]. change (f_live (MV m) a) with (f_live m a). destruct (f_live m a); [|reflexivity]. rewrite H. reflexivity. Qed.
Lemma mv_src p : mvs (he_src p). Proof. apply mv_hrd. reflexivity. Qed.
Lemma mv_next p : mvs (he_next p). Proof. apply mv_hrd. reflexivity. Qed.
Lemma mv_rev p : mvs (he_rev p). Proof. apply mv_hrd. reflexivity. Qed.
Lemma mv_face p : mvs (he_face p). Proof. apply mv_hrd. reflexivity. Qed.
Lemma mv_hidx p : mvs (he_idx p). Proof. apply mv_hrd. reflexivity. Qed.
Lemma mv_bd p : mvs (he_bd p). Proof. apply mv_hrd. reflexivity. Qed.
Lemma mv_vhe p : mvs (ve_he p). Proof. apply mv_vrd. reflexivity. Qed.
Lemma mv_vidx p : mvs (ve_idx p). Proof. apply mv_vrd. reflexivity. Qed.
Lemma mv_vlock p : mvs (ve_lock p). Proof. apply mv_vrd. reflexivity. Qed.
Lemma mv_pos p : mv T (ve_pos p) (ve_pos p). Proof. apply mv_vrd. reflexivity. Qed.
Lemma mv_fhe p : mvs (fa_he p). Proof. apply mv_frd. reflexivity. Qed.
Lemma mv_fidx p : mvs (fa_idx p). Proof. apply mv_frd. reflexivity. Qed.
Lemma mv_w_src p x : mvs (w_src p x). Proof. apply mv_hwr. reflexivity. Qed.
Lemma mv_w_next p x : mvs (w_next p x). Proof. apply mv_hwr. reflexivity. Qed.
Lemma mv_w_rev p x : mvs (w_rev p x). Proof. apply mv_hwr. reflexivity. Qed.
Lemma mv_w_face p x : mvs (w_face p x). Proof. apply mv_hwr. reflexivity. Qed.
Lemma mv_w_hidx p x : mvs (w_hidx p x). Proof. apply mv_hwr. reflexivity. Qed.
Lemma mv_w_bd p x : mvs (w_bd p x). Proof. apply mv_hwr. reflexivity. Qed.
Lemma mv_w_vhe p x : mvs (w_vhe p x). Proof. apply mv_vwr. reflexivity. Qed.
Lemma mv_w_vidx p x : mvs (w_vidx p x). Proof. apply mv_vwr. reflexivity. Qed.
Lemma mv_w_lock p x : mvs (w_lock p x). Proof. apply mv_vwr. reflexivity. Qed.
Lemma mv_w_fhe p x : mvs (w_fhe p x). Proof. apply mv_fwr. reflexivity. Qed.
Lemma mv_w_fidx p x : mvs (w_fidx p x). Proof. apply mv_fwr. reflexivity. Qed.
Lemma set_pos_move a x m : set_v_pos a (T x) (MV m) = MV (set_v_pos a x m).
Proof. unfold scaled, at_positions, set_v_pos. cbn. f_equal. apply functional_extensionality. intros b. unfold fupd. destruct (b =? a); reflexivity. Qed.
Lemma mv_w_pos p x : mv same (w_pos p x) (w_pos p (T x)). Proof. apply mv_vwr. intros a m. apply set_pos_move. Qed.
Lemma mv_new_he : mvs (@new_he NumR). Proof. intros m. reflexivity. Qed.
Lemma mv_new_face : mvs (@new_face NumR). Proof. intros m. reflexivity. Qed.
Lemma mv_new_vertex x : mv same (new_vertex x) (new_vertex (T x)).
Proof.
  intros m. unfold new_vertex. cbn [scaled_out]. unfold same. do 2 f_equal. change (m_fresh (MV m)) with (m_fresh m). set (a := m_fresh m).
  change (set_v_he a None (set_v_idx a (-1)%Z (set_v_lock a false (set_m_fresh (S a) (MV m))))) with (MV (set_v_he a None (set_v_idx a (-1)%Z (set_v_lock a false (set_m_fresh (S a) m))))).
  rewrite set_pos_move. reflexivity.
Qed.
Lemma mv_at l i : mvs (@vec_at NumR l i).
Proof. unfold vec_at. destruct (i <? 0)%Z; [apply mv_ub|]. destruct (nth_error l (Z.to_nat i)); [apply mv_ret; reflexivity|apply mv_ub]. Qed.

Lemma mv_mfor {A} (g : A -> A) l f f' : (forall a, mv same (f a) (f' (g a))) -> mv same (mfor l f) (mfor (map g l) f').
Proof. intros H. induction l as [|a l IH]; [apply mv_ret; reflexivity|]. cbn [mfor map]. eapply mv_bind; [apply H|intros _; exact IH]. Qed.
Lemma mv_mfor_s {A} (l : list A) f f' : (forall a, mv same (f a) (f' a)) -> mv same (mfor l f) (mfor l f').
Proof. intros H. induction l as [|a l IH]; [apply mv_ret; reflexivity|]. cbn [mfor map]. eapply mv_bind; [apply H|intros _; exact IH]. Qed.
Lemma mv_mmap {A B} (g : B -> B) (l : list A) f f' : (forall a, mv g (f a) (f' a)) -> mv (map g) (mmap f l) (mmap f' l).
Proof. intros H. induction l as [|a l IH]; [apply mv_ret; reflexivity|]. cbn [mmap]. eapply mv_bind; [apply H|intros b; cbv beta]. eapply mv_bind; [apply IH|intros bs; apply mv_ret; reflexivity]. Qed.
Lemma mv_mmap_s {A B} (l : list A) (f f' : A -> M NumR B) : (forall a, mv same (f a) (f' a)) -> mv same (mmap f l) (mmap f' l).
Proof. intros H. eapply mv_weaken; [apply mv_mmap, H|]. intros a. apply map_id. Qed.
Lemma mv_mfold {A B} (g : B -> B) f f' : (forall b (a : A), mv g (f b a) (f' (g b) a)) -> forall l acc, mv g (mfold f acc l) (mfold f' (g acc) l).
Proof. intros H. induction l as [|a l IH]; intros acc; [apply mv_ret; reflexivity|]. cbn [mfold]. eapply mv_bind; [apply H|intros b; apply IH]. Qed.
Lemma mv_mfold_s {A B} (f : B -> A -> M NumR B) : (forall b a, mvs (f b a)) -> forall l acc, mvs (mfold f acc l).
Proof. intros H l acc. exact (mv_mfold same f f H l acc). Qed.
Definition on_fst {A : Type} (g : A -> A) (r : A * bool) : A * bool := (g (fst r), snd r).
Lemma mv_circ {A} (g : A -> A) step body body' : (forall p, mvs (step p)) -> (forall a p, mv (on_fst g) (body a p) (body' (g a) p)) ->
  forall fuel start it acc, mv g (circ step body fuel start it acc) (circ step body' fuel start it (g acc)).
Proof.
  intros HS HB. induction fuel as [|fuel IH]; intros start it acc; destruct it as [i|]; cbn [circ]; try (apply mv_ret; reflexivity); [apply mv_nofuel|].
  eapply mv_bind; [apply HB|]. intros [a b]. cbn [on_fst fst snd]. destruct b; [apply mv_ret; reflexivity|]. eapply mv_bind; [apply HS|]. intros n. apply IH.
Qed.
Lemma mv_step_v p : mvs (step_v p). Proof. eapply mv_bind; [apply mv_rev|intros r; apply mv_next]. Qed.
Lemma mv_step_f p : mvs (step_f p). Proof. apply mv_next. Qed.
Lemma mv_circ_v {A} (g : A -> A) v acc body body' : (forall a p, mv (on_fst g) (body a p) (body' (g a) p)) -> mv g (circ_v v acc body) (circ_v v (g acc) body').
Proof. intros H. eapply mv_bind; [apply mv_vhe|intros h]. eapply mv_bind; [apply (mv_get same); reflexivity|intros fr]. apply (mv_circ g); [apply mv_step_v|exact H]. Qed.
Lemma mv_circ_f {A} (g : A -> A) f acc body body' : (forall a p, mv (on_fst g) (body a p) (body' (g a) p)) -> mv g (circ_f f acc body) (circ_f f (g acc) body').
Proof. intros H. eapply mv_bind; [apply mv_fhe|intros h]. eapply mv_bind; [apply (mv_get same); reflexivity|intros fr]. apply (mv_circ g); [apply mv_step_f|exact H]. Qed.
Lemma on_fst_same {A} (x x' : M NumR (A * bool)) : mv same x x' -> mv (on_fst same) x x'.
Proof. intros H. eapply mv_weaken; [exact H|]. intros [a b]. reflexivity. Qed.
Lemma mv_circ_vs {A} v (acc : A) body : (forall a p, mvs (body a p)) -> mvs (circ_v v acc body).
Proof. intros H. apply (mv_circ_v same). intros a p. apply on_fst_same, H. Qed.
Lemma mv_circ_fs {A} v (acc : A) body : (forall a p, mvs (body a p)) -> mvs (circ_f v acc body).
Proof. intros H. apply (mv_circ_f same). intros a p. apply on_fst_same, H. Qed.
End Scale.
