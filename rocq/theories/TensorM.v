(** getCurvatureTensors on closed surfaces of triangles. *)
From Coq Require Import Reals Lra Lia List ZArith Bool Arith Permutation.
From Verif Require Import Num NumInst Vec Heap Mesh Spec Orbit Rings Exec Queries GeomSpec VecR Measure MeasureR MeasureM Means SmoothSpec Curv CurvN CurvW LinR Tensor TensorSpec TensorR LaplP L0T L0W.
Import ListNotations.
Local Open Scope mesh_scope.
Local Open Scope R_scope.
Implicit Types m : mesh NumR.

(** ** Programs that read and may throw, if [thr] holds *)
Section Thr.
Variable thr : Prop.
Definition OT {A} (c : M NumR A) m (P : A -> Prop) : Prop := (exists x, c m = Ok (x, m) /\ P x) \/ (thr /\ c m = Abort AThrow).
Lemma ot_ret {A} (x : A) m (P : A -> Prop) : P x -> OT (ret x) m P.
Proof. intros H. left. exists x. split; [reflexivity|exact H]. Qed.
Lemma ot_ok {A} (c : M NumR A) x m (P : A -> Prop) : c m = Ok (x, m) -> P x -> OT c m P.
Proof. intros E H. left. exists x. split; assumption. Qed.
Lemma ot_bind {A B} (c : M NumR A) (k : A -> M NumR B) m P Q : OT c m P -> (forall x, P x -> OT (k x) m Q) -> OT (bind c k) m Q.
Proof.
  intros [(x & E & H) | [t E]] K.
  - destruct (K x H) as [(y & E2 & H2) | [t E2]]; [left; exists y; split; [|exact H2]|right; split; [exact t|]]; rewrite (bind_ok _ _ _ _ _ E); exact E2.
  - right. split; [exact t|]. unfold bind. rewrite E. reflexivity.
Qed.
Lemma ot_get {A B} (c : M NumR A) (k : A -> M NumR B) x m Q : c m = Ok (x, m) -> OT (k x) m Q -> OT (bind c k) m Q.
Proof. intros E H. apply (ot_bind c k m (fun y => y = x)); [exact (ot_ok c x m _ E eq_refl)|intros ? ->; exact H]. Qed.
Lemma ot_lift {A} (o : option A) m (P : A -> Prop) : (forall x, o = Some x -> P x) -> (o = None -> thr) -> OT (lift o) m P.
Proof. intros H N. destruct o as [x|]; [left; exists x; split; [reflexivity|apply H; reflexivity]|right; split; [apply N|]; reflexivity]. Qed.
Lemma ot_weaken {A} (c : M NumR A) m (P Q : A -> Prop) : OT c m P -> (forall x, P x -> Q x) -> OT c m Q.
Proof. intros [(x & E & H) | E] I; [left; exists x; auto|right; exact E]. Qed.
Lemma ot_mmap {A B} (f : A -> M NumR B) (P : A -> B -> Prop) m l : (forall x, In x l -> OT (f x) m (P x)) -> OT (mmap f l) m (Forall2 P l).
Proof.
  induction l as [|x l IH]; intros H; [apply ot_ret; constructor|]. cbn [mmap]. apply (ot_bind _ _ _ (P x)); [apply H; left; reflexivity|]. intros y Py.
  apply (ot_bind _ _ _ (Forall2 P l)); [apply IH; intros z Z; apply H; right; exact Z|]. intros ys Pys. apply ot_ret. constructor; assumption.
Qed.

(** A loop around a vertex: the accumulator goes through one step for each halfedge. *)
Inductive steps {A} (P : A -> nat -> A -> Prop) : A -> list nat -> A -> Prop :=
| steps_nil a : steps P a [] a
| steps_cons a y b l c : P a y b -> steps P b l c -> steps P a (y :: l) c.
Lemma ot_chain {A} m (f : nat -> option nat) step (body : A -> ptr -> M NumR (A * bool)) (P : A -> nat -> A -> Prop) x0 :
  forall l x fuel acc,
  chainto f x l x0 -> ~ In x0 l -> (length (x :: l) <= fuel)%nat ->
  (forall y, In y (x :: l) -> step (Some y) m = Ok (f y, m)) ->
  (forall y a, In y (x :: l) -> OT (body a (Some y)) m (fun r => snd r = false /\ P a y (fst r))) ->
  OT (circ step body fuel (Some x0) (Some x) acc) m (steps P acc (x :: l)).
Proof.
  induction l as [|z l IH]; intros x fuel acc Hc Hni Hf Hs Hb; destruct fuel as [|fuel]; try (simpl in Hf; lia).
  - simpl in Hc. cbn [circ]. eapply ot_bind; [apply Hb; left; reflexivity|]. intros [a b] [Eb Pa]. cbn [fst snd] in Eb, Pa. subst b.
    apply (ot_get _ _ _ m _ (Hs x (or_introl eq_refl))). rewrite Hc, ptr_eqb_refl.
    apply (ot_ok _ a); [destruct fuel; reflexivity|]. econstructor; [exact Pa|constructor].
  - destruct Hc as [H1 H2]. cbn [circ]. eapply ot_bind; [apply Hb; left; reflexivity|]. intros [a b] [Eb Pa]. cbn [fst snd] in Eb, Pa. subst b.
    apply (ot_get _ _ _ m _ (Hs x (or_introl eq_refl))). rewrite H1.
    destruct (ptr_eqb (Some z) (Some x0)) eqn:E.
    + apply ptr_eqb_eq in E; injection E as ->. exfalso; apply Hni; left; reflexivity.
    + eapply ot_weaken; [apply IH; [exact H2|intros H; apply Hni; right; exact H|simpl in *; lia| |]; intros; [apply Hs|apply Hb]; right; assumption|].
      intros c Sc. econstructor; [exact Pa|exact Sc].
Qed.
Lemma ot_circ {A} m v h l (body : A -> ptr -> M NumR (A * bool)) P acc : WF m -> In v (m_verts m) -> v_he m v = Some h -> Vring m v (h :: l) ->
  (forall y a, In y (m_hes m) -> h_src m y = Some v -> OT (body a (Some y)) m (fun r => snd r = false /\ P a y (fst r))) ->
  OT (circ_v (Some v) acc body) m (steps P acc (h :: l)).
Proof.
  intros W Hv Eh Hr Hb. unfold circ_v.
  apply (ot_get _ _ _ m _ (r_vhe _ _ (v_alive m W _ Hv))). apply (ot_get _ _ _ m _ (eq_refl : get m_fresh m = Ok (m_fresh m, m))). rewrite Eh.
  pose proof (vring_len m W _ _ Hr) as Hlen. destruct Hr as (Hc & Hnd & Hin).
  eapply ot_chain; [exact Hc|inversion Hnd; assumption|simpl in *; lia| |].
  - intros y Hy; apply step_v_ok; [exact W|apply Hin, Hy].
  - intros y a Hy; apply Hb; apply Hin, Hy.
Qed.
Lemma ot_first {A} m v h (body : A -> ptr -> M NumR (A * bool)) (P : A -> Prop) acc : WF m -> In v (m_verts m) -> v_he m v = Some h ->
  OT (body acc (Some h)) m (fun r => snd r = true /\ P (fst r)) -> OT (circ_v (Some v) acc body) m P.
Proof.
  intros W Hv Eh Hb. unfold circ_v.
  apply (ot_get _ _ _ m _ (r_vhe _ _ (v_alive m W _ Hv))). apply (ot_get _ _ _ m _ (eq_refl : get m_fresh m = Ok (m_fresh m, m))). rewrite Eh. cbn [circ].
  eapply ot_bind; [exact Hb|]. intros [a b] [Eb Pa]. cbn [fst snd] in *. subst b. apply ot_ret, Pa.
Qed.

Lemma forall2_nth {A B} (P : A -> B -> Prop) l l' : Forall2 P l l' -> length l' = length l /\ forall i x y, nth_error l i = Some x -> nth_error l' i = Some y -> P x y.
Proof.
  induction 1 as [|x y l l' H _ [IL IH]]; [split; [reflexivity|intros [|i]; discriminate]|]. split; [cbn; congruence|]. intros [|i] a b Ea Eb; cbn in Ea, Eb; [congruence|exact (IH i a b Ea Eb)].
Qed.
Lemma nth_ex {A B} (l : list A) (l' : list B) i x : length l' = length l -> nth_error l i = Some x -> exists y, nth_error l' i = Some y.
Proof. intros E H. destruct (nth_error l' i) eqn:N; [eauto|]. apply nth_error_None in N. assert (nth_error l i <> None) by congruence. apply nth_error_Some in H0. lia. Qed.
Lemma tab_ok {X} (l : list X) i x m : nth_error l i = Some x -> tab_at l (Z.of_nat i) m = Ok (x, m).
Proof. intros E. unfold tab_at. destruct (Z.ltb_spec (Z.of_nat i) 0); [lia|]. rewrite Nat2Z.id, E. reflexivity. Qed.

(** ** Faces *)
Lemma ff_rot F (a b c : vecR) : FaceFrame F a b c -> FaceFrame F b c a.
Proof.
  intros [O E]. split; [exact O|]. assert (X : cross (vsub c b) (vsub a b) = cross (vsub b a) (vsub c a)) by vring. rewrite X. exact E.
Qed.
Lemma bf_rot F t (a b c na nb nc : vecR) : BestFit F t a b c na nb nc -> BestFit F t b c a nb nc na.
Proof.
  unfold BestFit. cbv zeta. intros H t' Ne. specialize (H t' Ne). unfold total_misfit in *. cbn [map fold_right] in *. change (@num NumR) with R in *. lra.
Qed.
Section Mesh.
Variable solve : nat -> (nat -> nat -> R) -> (nat -> R) -> nat -> R.
Hypothesis HS : ExactSolver solve.
Variable m : mesh NumR.
Hypothesis V : Valid m.
Hypothesis C : Closed m.
Hypothesis ND : NonDegenerate m.
Hypothesis Thr : thr \/ exists n, Gentle m n.
Let W := valid_wf m V.

Definition nrm (v : nat) : vecR := match v_normal (Some v) m with Ok (x, _) => x | _ => vzero end.
Definition NormalOk (v : nat) (x : vecR) : Prop := v_normal (Some v) m = Ok (x, m) /\ vlength x = 1.
Lemma nrm_ot v : In v (m_verts m) -> OT (v_normal (Some v)) m (NormalOk v).
Proof.
  intros Hv. destruct (normal_ok m v V (closed_inner m v C) (nd_at m v ND) Hv) as (L & _ & _ & _ & H0 & H1).
  destruct (Req_dec (vlength (vsum (map snd L))) 0) as [Z | Z].
  - right. split; [|apply H0, vlength_zero, Z]. destruct Thr as [t | [n Ge]]; [exact t|]. exfalso. assert (E := ge_normal m n Ge v Hv). rewrite H0 in E by (apply vlength_zero, Z). discriminate E.
  - left. destruct H1 as (n & E & U & _); [intros X; apply Z, vlength_zero, X|]. exists n. unfold NormalOk. auto.
Qed.
Lemma nrm_eq v x : NormalOk v x -> x = nrm v.
Proof. intros [E _]. unfold nrm. rewrite E. reflexivity. Qed.

Lemma gentle_nrm : thr \/ Gentle m nrm.
Proof.
  destruct Thr as [t | [n [E1 E2 E3 E4]]]; [left; exact t|right].
  assert (K : forall v, In v (m_verts m) -> n v = nrm v) by (intros v Hv; unfold nrm; rewrite (E1 v Hv); reflexivity). constructor.
  - intros v Hv. rewrite <- (K v Hv). apply E1, Hv.
  - intros f v b c If T. rewrite <- K; [apply (E2 f v b c If T)|]. destruct T as (x & y & z & Hin & _ & _ & _ & Sx & _). apply (src_in m W x v); [apply Hin; tauto|exact Sx].
  - intros v w A. rewrite <- K; [apply E3, A|]. destruct A as (h & Ih & Sh & _). apply (src_in m W h v Ih Sh).
  - intros v l w Hv El Iw. rewrite <- (K v Hv), <- K; [apply (E4 v l w Hv El Iw)|]. destruct (vring m W v Hv) as (h & k & Eh & Hr). rewrite (v_neighbors_ok m W v h k Hv Eh Hr) in El. injection El as <-.
    change (dst_of m h :: map (dst_of m) k) with (map (dst_of m) (h :: k)) in Iw. apply in_map_iff in Iw. destruct Iw as (y & Dy & Iy). destruct Hr as (_ & _ & Hin). apply Hin in Iy. destruct (dst_ptr m y W (proj1 Iy)) as (d & Dd & Id). congruence.
Qed.
Section Normals.
Hypothesis NO : forall v, In v (m_verts m) -> NormalOk v (nrm v).
Definition FaceOk (f : nat) (x : tensor NumR * frame NumR) : Prop := face_tensor (N := NumR) solve (Some f) m = Ok (x, m) /\
  forall a b c, Spec.Tri m f a b c -> FaceFrame (snd x) (v_pos m a) (v_pos m b) (v_pos m c) /\ BestFit (snd x) (fst x) (v_pos m a) (v_pos m b) (v_pos m c) (nrm a) (nrm b) (nrm c).
Lemma face_ok f : In f (m_faces m) -> exists x, FaceOk f x.
Proof.
  intros If. destruct (valid_face_tri m f V C If) as (x & y & z & a & b & c & _ & T & Nab & Nbc & Nca & _).
  destruct (tri_face_ring m f a b c W If T Nab Nbc Nca) as (h & l & Eh & Hr & Ia & Ib & Ic & E). assert (FV := f_vertices_ok m W f h l If Eh Hr).
  assert (K : exists a b c, Spec.Tri m f a b c /\ In a (m_verts m) /\ In b (m_verts m) /\ In c (m_verts m) /\ f_vertices (Some f) m = Ok ([Some a; Some b; Some c], m)).
  { destruct E as [E | [E | E]]; rewrite E in FV; [exists a, b, c|exists b, c, a|exists c, a, b]; repeat split; auto; [apply tri_rot, T|apply tri_rot, tri_rot, T]. }
  clear a b c T Nab Nbc Nca Ia Ib Ic E FV h l Eh Hr x y z. destruct K as (a & b & c & T & Ia & Ib & Ic & FV).
  assert (P := ND f a b c If T). assert (P2 : 0 < vlength (cross (vsub (v_pos m b) (v_pos m a)) (vsub (v_pos m c) (v_pos m a)))) by (unfold tri_area in P; lra).
  destruct (frame_ok _ _ _ P2) as (F & EF & HF). 
  exists (fit_solve (N := NumR) solve (fit_system (N := NumR) F (v_pos m a) (v_pos m b) (v_pos m c) (nrm a) (nrm b) (nrm c)), F). split.
  - unfold face_tensor. rewrite (bind_ok _ _ _ _ _ FV). cbv iota.
    rewrite (bind_ok _ _ _ _ _ (pos_read m a W Ia)), (bind_ok _ _ _ _ _ (pos_read m b W Ib)), (bind_ok _ _ _ _ _ (pos_read m c W Ic)).
    rewrite (bind_ok _ _ _ _ _ (proj1 (NO a Ia))), (bind_ok _ _ _ _ _ (proj1 (NO b Ib))), (bind_ok _ _ _ _ _ (proj1 (NO c Ic))).
    rewrite EF. reflexivity.
  - cbn [fst snd]. assert (B := fit_best solve F _ _ _ (nrm a) (nrm b) (nrm c) HS HF P2). set (t := fit_solve _ _) in *. clearbody t.
    intros a' b' c' T'. destruct (tri_rotation m f a b c a' b' c' T T') as [(<- & <- & <-) | [(<- & <- & <-) | (<- & <- & <-)]]; split; auto using ff_rot, bf_rot.
Qed.
Definition ften (f : nat) : tensor NumR * frame NumR := match face_tensor (N := NumR) solve (Some f) m with Ok (x, _) => x | _ => (Tn (N := NumR) 0 0 0, Fr (N := NumR) vzero vzero vzero) end.
Lemma face_ften f : In f (m_faces m) -> FaceOk f (ften f).
Proof. intros If. destruct (face_ok f If) as (x & E & H). unfold ften. rewrite E. split; assumption. Qed.

Lemma forall2_fun {A B} (g : A -> B) l l' : Forall2 (fun x y => y = g x) l l' -> l' = map g l.
Proof. induction 1 as [|x y l l' E _ IH]; [reflexivity|]. cbn. rewrite E, IH. reflexivity. Qed.
Lemma ften_ot : OT (mmap (fun f => face_tensor (N := NumR) solve (Some f)) (m_faces m)) m (fun l => l = map ften (m_faces m)).
Proof.
  eapply ot_weaken; [apply (ot_mmap _ (fun f x => x = ften f))|intros l; apply forall2_fun].
  intros f If. left. exists (ften f). split; [apply face_ften, If|reflexivity].
Qed.
Lemma idx_nth v : In v (m_verts m) -> exists i, nth_error (m_verts m) i = Some v /\ v_idx m v = Z.of_nat i.
Proof. intros Hv. apply In_nth_error in Hv. destruct Hv as [i E]. exists i. split; [exact E|]. apply (wf_v_elem m W i v E). Qed.
Lemma fidx_nth f : In f (m_faces m) -> exists i, nth_error (m_faces m) i = Some f /\ f_idx m f = Z.of_nat i.
Proof. intros Hv. apply In_nth_error in Hv. destruct Hv as [i E]. exists i. split; [exact E|]. apply (wf_f_elem m W i f E). Qed.

(** ** The unused smooth normals *)
Lemma weight_range (avg : R) (p q : vecR) : 0 < avg -> 0 < vlength (vsub p q) -> 0 < near_weight (N := NumR) avg p q < 1.
Proof.
  intros Pa Pl. unfold near_weight. cbv zeta. rn. split; [apply exp_pos|]. rewrite <- exp_0. apply exp_increasing. set (d := vlength (vsub p q) / avg).
  assert (0 < d) by (apply Rdiv_lt_0_compat; assumption). assert (0 < d * d) by (apply Rmult_lt_0_compat; assumption). replace (- (1 / 2) * d * d) with (- (1 / 2) * (d * d)) by ring. lra.
Qed.
Lemma edge_pos y v d : In y (m_hes m) -> h_src m y = Some v -> dst_of m y = Some d -> 0 < vlength (vsub (v_pos m v) (v_pos m d)).
Proof.
  intros Iy Sy Dd. destruct (he_tri m y V Iy (C y Iy)) as (f & a0 & b & c & If & Ff & T & Nab & Nbc & Nca & Sa & Db & Pc). assert (a0 = v) by congruence. subst a0. assert (b = d) by congruence. subst b.
  destruct (nd_lengths _ _ _ (ND f v d c If T)) as [Q1 _]. apply nonzero_len. intros Z. assert (Z2 : vsub (v_pos m d) (v_pos m v) = vzero) by (transitivity (vscale (-1) (vsub (v_pos m v) (v_pos m d))); [vring|rewrite Z; vring]). rewrite Z2 in Q1. rewrite dot_eq in Q1. unfold vzero, vfill in Q1. rn. lra.
Qed.
Definition SStep (v k : nat) (a : vecR * R) (y : nat) (b : vecR * R) : Prop :=
  snd a < snd b /\ (Gentle m nrm -> dot (fst a) (nrm v) - / INR k < dot (fst b) (nrm v)).
Lemma sstep_all v k : forall l a b, steps (SStep v k) a l b -> snd a <= snd b /\ (Gentle m nrm -> dot (fst a) (nrm v) - INR (length l) * / INR k <= dot (fst b) (nrm v) /\ (l <> [] -> dot (fst a) (nrm v) - INR (length l) * / INR k < dot (fst b) (nrm v))).
Proof.
  induction 1 as [a|a y b l c [S1 S2] _ [I1 I2]].
  - split; [lra|]. intros _. cbn [length INR]. split; [lra|congruence].
  - split; [lra|]. intros Ge. specialize (S2 Ge). destruct (I2 Ge) as [J1 J2]. cbn [length]. rewrite S_INR, Rmult_plus_distr_r. split; [lra|]. intros _. lra.
Qed.
Lemma smooth_ot (avg : R) v : 0 < avg -> In v (m_verts m) -> OT (smooth_normal (N := NumR) (map nrm (m_verts m)) avg (Some v)) m (fun _ => True).
Proof.
  intros Pa Hv. unfold smooth_normal. apply (ot_get _ _ _ m _ (r_vidx m v (v_alive m W _ Hv))). destruct (idx_nth v Hv) as (i & Ei & ->).
  assert (Ei2 : nth_error (map nrm (m_verts m)) i = Some (nrm v)) by (rewrite nth_error_map, Ei; reflexivity). apply (ot_get _ _ _ m _ (tab_ok _ _ _ m Ei2)).
  destruct (vring m W v Hv) as (h & l & Eh & Hr). assert (NB := v_neighbors_ok m W v h l Hv Eh Hr). assert (Hin := Hr). destruct Hin as (_ & _ & Hin). set (k := length (h :: l)).
  assert (Pk : 0 < INR k) by (apply lt_0_INR; unfold k; cbn; lia).
  eapply ot_bind; [apply (ot_circ m v h l _ (SStep v k) _ W Hv Eh Hr)|].
  - intros y a Iy Sy. destruct (dst_ptr m y W Iy) as (d & Dd & Id). apply (ot_get _ _ _ m _ (dst_of_ok m W y Iy)). rewrite Dd.
    apply (ot_get _ _ _ m _ (pos_read m v W Hv)). apply (ot_get _ _ _ m _ (pos_read m d W Id)). apply (ot_get _ _ _ m _ (r_vidx m d (v_alive m W _ Id))).
    destruct (idx_nth d Id) as (j & Ej & ->). assert (Ej2 : nth_error (map nrm (m_verts m)) j = Some (nrm d)) by (rewrite nth_error_map, Ej; reflexivity).
    apply (ot_get _ _ _ m _ (tab_ok _ _ _ m Ej2)). cbv zeta. apply ot_ret. split; [reflexivity|]. cbn [fst snd].
    assert (Pl := edge_pos y v d Iy Sy Dd).
    destruct (weight_range avg _ _ Pa Pl) as [W0 W1]. set (w := near_weight (N := NumR) avg (v_pos m v) (v_pos m d)) in *. unfold SStep. cbn [fst snd]. split; [rn; lra|]. intros Ge.
    assert (Q := ge_near m nrm Ge v _ d Hv NB). rewrite map_length in Q. fold k in Q. specialize (Q ltac:(rewrite <- Dd; apply in_map, Hin; auto)).
    rewrite dot_add, dot_scale, (dot_sym (nrm d)). set (x := dot (nrm v) (nrm d)) in *. clearbody x. change (@num NumR) with R in *.
    assert (X : - / INR k <= x) by (apply (Rmult_le_reg_l (INR k)); [exact Pk|]; rewrite <- Ropp_mult_distr_r, Rinv_r by lra; lra).
    assert (Y : 0 < / INR k) by (apply Rinv_0_lt_compat, Pk). assert (Z : w * - / INR k <= w * x) by (apply Rmult_le_compat_l; lra). assert (Z2 : w * / INR k < 1 * / INR k) by (apply Rmult_lt_compat_r; lra). lra.
  - intros s St. destruct (sstep_all v k _ _ _ St) as [S1 S2]. cbn [fst snd] in S1, S2. rn.
    assert (E : vdiv (fst s) (snd s) = Some (vscale (/ snd s) (fst s))) by (apply vdiv_ok; change (@num NumR) with R in *; lra). eapply ot_bind; [apply (ot_lift _ m (fun x => x = vscale (/ snd s) (fst s)))|].
    + intros x Ex. rewrite E in Ex. injection Ex as <-. reflexivity.
    + rewrite E. discriminate.
    + intros x ->. apply ot_lift; [auto|]. intros Nn. destruct gentle_nrm as [t | Ge]; [exact t|]. exfalso. destruct (S2 Ge) as [_ S3]. specialize (S3 ltac:(discriminate)). fold k in S3. rewrite Rinv_r in S3 by lra.
      assert (Un := proj2 (NO v Hv)). apply unit_dot in Un. rewrite Un in S3. 
      destruct (normalize_unit (vscale (/ snd s) (fst s))) as (u & Eu & _); [|rewrite Eu in Nn; discriminate Nn].
      intros Z. assert (Ps : 0 < snd s) by (change (@num NumR) with R in *; lra). assert (D : dot (vscale (/ snd s) (fst s)) (nrm v) = 0) by (rewrite Z; dring). rewrite dot_scale in D.
      assert (0 < / snd s) by (apply Rinv_0_lt_compat, Ps). destruct (Rmult_integral _ _ D); change (@num NumR) with R in *; lra.
Qed.
Lemma mean_pos (avg : R) v : In v (m_verts m) -> getMeanEdgeLength m = Ok (avg, m) -> 0 < avg.
Proof.
  intros Hv E. destruct (meanEdgeLength_ok m W) as (reps & (R1 & R2 & R3) & E'). rewrite E in E'. injection E' as ->. assert (RR : EdgeReps m reps) by (split; [exact R1|split; [exact R2|exact R3]]).
  assert (Hne : m_hes m <> []) by (destruct (wf_vhe m W v Hv) as (h & _ & Ih & _); intros X; rewrite X in Ih; exact Ih).
  destruct (reps_nonempty m reps W RR Hne) as (h0 & I0).
  assert (G : forall h, In h reps -> 0 < edge_length m h).
  { intros h Hh. assert (Ih : In h (m_hes m)) by (apply R2, Hh). unfold edge_length. destruct (wf_src m W h Ih) as (u & Su & _). destruct (dst_ptr m h W Ih) as (w & Dw & _). rewrite Su, Dw. exact (edge_pos h u w Ih Su Dw). }
  change (@ndiv NumR) with Rdiv. change (@nofZ NumR) with IZR. apply Rdiv_lt_0_compat; [|apply IZR_lt; destruct reps; [destruct I0|cbn [length]; lia]].
  change (@nzero NumR) with 0. assert (F := fold_R (map (edge_length m) reps) 0). assert (R0 : 0 < rsum (map (edge_length m) reps)).
  { destruct reps as [|x l]; [destruct I0|]. cbn [map]. rewrite rsum_cons. assert (X := G x (or_introl eq_refl)). assert (0 <= rsum (map (edge_length m) l)) by (apply rsum_nonneg; intros y Hy; apply Rlt_le, G; right; exact Hy). lra. }
  match goal with |- 0 < ?x => assert (F' : x = 0 + rsum (map (edge_length m) reps)) by exact F; rewrite F' end. lra.
Qed.

(** ** Vertices *)
Notation T f := (fst (ften f)).
Notation G f := (snd (ften f)).
Notation fos f := (fold_right Rplus 0 f).
Definition Contrib (v : nat) (F : frame NumR) (a : tensor NumR * R) (y : nat) (b : tensor NumR * R) : Prop :=
  exists w Rm, v_volonoiIn (Some v) (Some (face_of m y)) m = Ok (w, m) /\ 0 < w /\ Carries (mapp (N := NumR) Rm) (nrm v) (fr_n (G (face_of m y))) /\
    b = (tadd (N := NumR) (fst a) (tscale (N := NumR) w (carried (N := NumR) Rm F (T (face_of m y)) (G (face_of m y)))), snd a + w).
Lemma second_form (F0 : frame NumR) (t0 : tensor NumR) (x y : vecR) : secondForm (N := NumR) t0 (in_frame (N := NumR) x F0) (in_frame (N := NumR) y F0) = form F0 t0 x y.
Proof. unfold secondForm, in_frame, form. cbn [fst snd]. rn. change (@num NumR) with R. generalize (dot x (fr_u F0)), (dot x (fr_v F0)), (dot y (fr_u F0)), (dot y (fr_v F0)). intros. change (@num NumR) with R in *. ring. Qed.
Lemma steps_sum v F : forall l a b, steps (Contrib v F) a l b -> exists K : list (nat * (R * (vecR -> vecR))),
  map fst K = map (face_of m) l /\ (forall f w Q, In (f, (w, Q)) K -> v_volonoiIn (Some v) (Some f) m = Ok (w, m) /\ 0 < w /\ Carries Q (nrm v) (fr_n (G f))) /\
  let S (x y : vecR) := fos (map (fun k => fst (snd k) * form (G (fst k)) (T (fst k)) (snd (snd k) x) (snd (snd k) y)) K) in
  t00 (fst b) = t00 (fst a) + S (fr_u F) (fr_u F) /\ t01 (fst b) = t01 (fst a) + S (fr_u F) (fr_v F) /\ t11 (fst b) = t11 (fst a) + S (fr_v F) (fr_v F) /\
  snd b = snd a + fos (map (fun k => fst (snd k)) K).
Proof.
  induction 1 as [a|a y b l c (w & Rm & E1 & E2 & E3 & ->) _ IH].
  - exists []. split; [reflexivity|]. split; [intros f w Q []|]. cbn [map fold_right fst snd]. change (@num NumR) with R. repeat split; symmetry; apply Rplus_0_r.
  - destruct IH as (K & EK & PK & S0 & S1 & S2 & S3). exists ((face_of m y, (w, mapp (N := NumR) Rm)) :: K). split; [cbn [map fst]; rewrite EK; reflexivity|]. split.
    + intros f w' Q [H | H]; [injection H as <- <- <-; auto|apply PK, H].
    + cbv zeta in *. cbn [map fold_right fst snd tadd tscale carried t00 t01 t11] in *. rewrite !second_form in *. rn. change (@num NumR) with R in *.
      split; [rewrite S0; rg|]. split; [rewrite S1; rg|]. split; [rewrite S2; rg|]. rewrite S3. rg.
Qed.
Lemma vertex_ot v : In v (m_verts m) -> OT (vertex_tensor (N := NumR) cos sin (map ften (m_faces m)) (Some v)) m (fun tF => AtVertex m nrm (fun f => T f) (fun f => G f) v (fst tF) (snd tF)).
Proof.
  intros Hv. unfold vertex_tensor. destruct (NO v Hv) as [En Un]. apply (ot_get _ _ _ m _ En).
  destruct (vring m W v Hv) as (h & l & Eh & Hr). assert (Hin := Hr). destruct Hin as (_ & Nd & Hin). assert (Ih : In h (m_hes m)) by (apply (Hin h); left; reflexivity).
  destruct (dst_ptr m h W Ih) as (d & Dd & Id).
  apply (ot_bind _ _ _ (fun u : vecR => vlength u = 1 /\ vscale (vlength (vsub (v_pos m d) (v_pos m v))) u = vsub (v_pos m d) (v_pos m v))).
  { apply (ot_first m v h _ _ _ W Hv Eh). apply (ot_get _ _ _ m _ (dst_of_ok m W h Ih)). rewrite Dd. apply (ot_get _ _ _ m _ (pos_read m d W Id)). apply (ot_get _ _ _ m _ (pos_read m v W Hv)).
    eapply ot_bind; [apply (ot_lift _ m (fun u => normalize (vsub (v_pos m d) (v_pos m v)) = Some u)); [auto|]|].
    - intros Nn. exfalso. destruct (normalize_unit (vsub (v_pos m d) (v_pos m v))) as (u & Eu & _); [|rewrite Eu in Nn; discriminate Nn]. intros Z. assert (Z2 : vsub (v_pos m v) (v_pos m d) = vzero) by (transitivity (vscale (-1) (vsub (v_pos m d) (v_pos m v))); [vring|rewrite Z; vring]).
      assert (Q := edge_pos h v d Ih (proj2 (proj1 (Hin h) (or_introl eq_refl))) Dd). apply nonzero_len in Q. exact (Q Z2).
    - intros u Eu. apply ot_ret. cbn [fst snd]. split; [reflexivity|].
    apply normalize_some in Eu. destruct Eu as (_ & U & Sc). split; [apply unit_dot, U|exact Sc]. }
  intros u [Uu Su]. eapply ot_bind; [apply (ot_lift _ m (fun x => normalize (cross (nrm v) u) = Some x)); [auto|]|].
  { intros Nn. destruct gentle_nrm as [t | Ge]; [exact t|]. exfalso. destruct (normalize_unit (cross (nrm v) u)) as (x & Ex & _); [|rewrite Ex in Nn; discriminate Nn].
    intros Z. assert (A : adj m v d) by (exists h; split; [exact Ih|]; split; [apply (Hin h); left; reflexivity|exact Dd]). apply (ge_edge m nrm Ge v d A). rewrite <- Su.
    set (s := vlength _). transitivity (vscale s (cross (nrm v) u)); [vring|]. rewrite Z. vring. }
  intros x Ex. apply normalize_some in Ex. destruct Ex as (Px & Ux & Sx). apply nonzero_len in Px. apply unit_dot in Ux.
  cbv zeta. set (F := Fr u x (nrm v)).
  eapply ot_bind; [apply (ot_circ m v h l _ (Contrib v F) _ W Hv Eh Hr)|].
  - intros y a Iy Sy. assert (B := C y Iy). destruct (he_tri m y V Iy B) as (f & a0 & b & c & If & Ff & T & Nab & Nbc & Nca & Sa & Db & Pc). assert (a0 = v) by congruence. subst a0.
    apply (ot_get _ _ _ m _ (r_face m y (h_alive m W _ Iy))). rewrite Ff. apply (ot_get _ _ _ m _ (r_fidx m f (f_alive m W _ If))). destruct (fidx_nth f If) as (i & Ei & ->).
    assert (Ei2 : nth_error (map ften (m_faces m)) i = Some (ften f)) by (rewrite nth_error_map, Ei; reflexivity). apply (ot_get _ _ _ m _ (tab_ok _ _ _ m Ei2)).
    assert (FO := face_ften f If). destruct FO as [_ FO]. destruct (FO v b c T) as [[O Sc] _].
    eapply ot_bind; [apply (ot_lift _ m (fun Rm => rotationFromTwoVectors (N := NumR) cos sin (nrm v) (fr_n (snd (ften f))) = Some Rm)); [auto|]|].
    { intros Nn. destruct gentle_nrm as [t | Ge]; [exact t|]. exfalso. destruct (rot_some (nrm v) (fr_n (snd (ften f)))) as [Rm ER]; [exact Un|apply unit_dot, (on_n _ O)| |rewrite ER in Nn; discriminate Nn].
      assert (Q := ge_front m nrm Ge f v b c If T). rewrite <- Sc, dot_scale_r in Q. assert (P := vlength_pos (cross (vsub (v_pos m b) (v_pos m v)) (vsub (v_pos m c) (v_pos m v)))).
      apply Rlt_trans with 0; [lra|]. apply Rnot_le_lt. intros Le. assert (Q2 := Rmult_le_compat_l _ _ _ P Le). rewrite Rmult_0_r in Q2. change (@num NumR) with R in *. lra. }
    intros Rm ER.
    apply (ot_get _ _ _ m _ (volonoiIn_ok m f v b c W If T Nab Nbc Nca)). apply ot_ret. cbn [fst snd]. split; [reflexivity|].
    assert (Fo : face_of m y = f) by (unfold face_of; rewrite Ff; reflexivity). unfold Contrib. rewrite Fo.
    exists (Measure.corner_area (v_pos m v) (v_pos m b) (v_pos m c)), Rm. split; [exact (volonoiIn_ok m f v b c W If T Nab Nbc Nca)|]. split; [apply corner_pos, (ND f v b c If T)|]. split; [|reflexivity].
    apply rot_ok; [exact Un|apply unit_dot, (on_n _ O)|exact ER].
  - intros s St. apply ot_ret. cbn [fst snd]. destruct (steps_sum v F _ _ _ St) as (K & EK & PK & S0 & S1 & S2 & S3). constructor.
    + split; [reflexivity|]. exists d, (map (dst_of m) l). split; [rewrite (v_neighbors_ok m W v h l Hv Eh Hr); cbn [map]; rewrite Dd; reflexivity|]. unfold F. cbn [fr_u fr_v]. auto.
    + exists K. destruct (faces_at (fun _ => tt) m v V (closed_inner m v C)) as (F1 & F2 & _). rewrite map_map in F1, F2. cbn [fst] in F1, F2.
      assert (P : Permutation (map (face_of m) (h :: l)) (map (face_of m) (at_v m v))) by (apply Permutation_map, NoDup_Permutation; [exact Nd|apply NoDup_filter, (wf_h_nodup m W)|]; intros y; rewrite Hin, at_v_in; reflexivity).
      split; [rewrite EK; apply (Permutation_NoDup (Permutation_sym P)), F1|]. split.
      * intros f. rewrite EK, <- F2. split; apply Permutation_in; [exact P|apply Permutation_sym, P].
      * split; [exact PK|]. cbv zeta in *. cbn [fst snd tdiv tzero t00 t01 t11] in *. rn. change (@num NumR) with R in *. rewrite S0, S1, S2, S3. rewrite !Rplus_0_l. auto.
Qed.
End Normals.

Theorem tensors_ot : OT (getCurvatureTensors (N := NumR) cos sin solve) m (fun L => exists T G, CurvTensors m nrm T G L).
Proof.
  unfold getCurvatureTensors. apply (ot_get _ _ _ m _ (eq_refl : get m_verts m = Ok (m_verts m, m))). apply (ot_get _ _ _ m _ (eq_refl : get m_faces m = Ok (m_faces m, m))).
  apply (ot_bind _ _ _ (Forall2 NormalOk (m_verts m))); [apply ot_mmap; intros v Hv; apply nrm_ot, Hv|]. intros normals HN.
  assert (NO : forall v, In v (m_verts m) -> NormalOk v (nrm v)).
  { intros v Hv. apply In_nth_error in Hv. destruct Hv as [i Ei]. destruct (forall2_nth _ _ _ HN) as [HL HP]. destruct (nth_ex _ normals i v HL Ei) as [x Ex]. assert (X := HP i v x Ei Ex). rewrite <- (nrm_eq v x X). exact X. }
  assert (EN : normals = map nrm (m_verts m)) by (apply forall2_fun; clear NO; induction HN; constructor; auto using nrm_eq). subst normals. clear HN.
  destruct (meanEdgeLength_ok m W) as (reps & _ & Ea). apply (ot_get _ _ _ m _ Ea). match type of Ea with _ = Ok (?x, _) => set (avg := x : R) in * end.
  eapply ot_bind; [apply (ot_mmap _ (fun _ _ => True)); intros v Hv; apply smooth_ot; [exact NO|exact (mean_pos avg v Hv Ea)|exact Hv]|]. intros _ _.
  eapply ot_bind; [apply ften_ot, NO|]. intros ft ->.
  eapply ot_weaken; [apply (ot_mmap _ (fun v tF => AtVertex m nrm (fun f => fst (ften f)) (fun f => snd (ften f)) v (fst tF) (snd tF))); intros v Hv; apply vertex_ot; [exact NO|exact Hv]|].
  intros L HL. exists (fun f => fst (ften f)), (fun f => snd (ften f)). destruct (forall2_nth _ _ _ HL) as [H1 H2]. constructor; [exact H1|exact NO| |].
  - intros f a b c If Tf. apply (face_ften NO f If), Tf.
  - intros i v t F Ev Et. exact (H2 i v (t, F) Ev Et).
Qed.
End Mesh.
End Thr.

Theorem tensors_ok solve m : ExactSolver solve -> Valid m -> Closed m -> NonDegenerate m ->
  (exists L n T G, getCurvatureTensors (N := NumR) cos sin solve m = Ok (L, m) /\ CurvTensors m n T G L) \/ getCurvatureTensors (N := NumR) cos sin solve m = Abort AThrow.
Proof.
  intros HS V C ND. destruct (tensors_ot True solve HS m V C ND (or_introl I)) as [(L & E & T & G & H) | [_ E]]; [left; exists L, (nrm m), T, G; auto|right; exact E].
Qed.
Theorem tensors_total solve m n : ExactSolver solve -> Valid m -> Closed m -> NonDegenerate m -> Gentle m n ->
  exists L n T G, getCurvatureTensors (N := NumR) cos sin solve m = Ok (L, m) /\ CurvTensors m n T G L.
Proof.
  intros HS V C ND Ge. destruct (tensors_ot False solve HS m V C ND (or_intror (ex_intro _ n Ge))) as [(L & E & T & G & H) | [[] _]]. exists L, (nrm m), T, G; auto.
Qed.
