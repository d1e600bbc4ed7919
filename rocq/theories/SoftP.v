(** The offsets of the completed part: the harmonic extension of the offsets of the locked vertices. *)
From Coq Require Import FunctionalExtensionality Reals Lra Lia List ZArith Bool Arith Permutation.
From Verif Require Import Num NumInst Vec Heap Mesh Spec Orbit Rings Exec Diamond Queries GeomSpec VecR Measure MeasureR MeasureM SmoothSpec Smooth SmoothD SmoothF Curv CurvN CurvW LinR Features Tensor TensorSpec TensorM SmoothP LaplSpec Lapl LaplP LaplM CotPsd Deriv DerivSpec DerivM DerivO Feat FeatSpec FeatR FeatM FeatS FeatE FeatO Coherent.
Import ListNotations.
Local Open Scope mesh_scope.
Local Open Scope R_scope.
Implicit Types m : mesh NumR.
Local Notation tripletR := (triplet NumR).

Section Soft.
Variable m : mesh NumR.
Hypothesis V : Valid m.
Let W := valid_wf m V.
Let n := length (m_verts m).
(** The indices of the vertices that are not locked. *)
Definition free_list : list nat := filter (fun i => negb (v_lock m (vat m i))) (seq 0 n).
Definition free_ids : list Z := map Z.of_nat free_list.
(** The offsets, and a flag at the locked vertices. *)
Variable off : nat -> vecR.
Definition DD : list (vecR * R) := map (fun i => (off i, if v_lock m (vat m i) then 1 else 0)) (seq 0 n).
Lemma DD_length : length DD = n. Proof. unfold DD. rewrite map_length. apply seq_length. Qed.
Lemma DD_nth i : (i < n)%nat -> nth i DD (vzero, 0) = (off i, if v_lock m (vat m i) then 1 else 0).
Proof. intros Hi. unfold DD. set (g := fun i => _). rewrite (nth_indep _ (vzero, 0) (g 0%nat)) by (rewrite map_length, seq_length; exact Hi). rewrite map_nth, seq_nth by exact Hi. reflexivity. Qed.
Lemma flb_lock i : (i < n)%nat -> flb DD i = v_lock m (vat m i).
Proof. intros Hi. unfold flb. rewrite (DD_nth i Hi). cbn [snd]. destruct (v_lock m (vat m i)); cbn; unfold Reqb; destruct (Req_EM_T _ _); try reflexivity; lra. Qed.
Lemma flz_lock i : (i < n)%nat -> flz DD (Z.of_nat i) = v_lock m (vat m i).
Proof. intros Hi. unfold flz. rewrite Nat2Z.id. apply flb_lock, Hi. Qed.
Lemma free_in z : In z free_ids <-> exists i, (i < n)%nat /\ z = Z.of_nat i /\ v_lock m (vat m i) = false.
Proof.
  unfold free_ids, free_list. rewrite in_map_iff. split.
  - intros (i & <- & Hi). apply filter_In in Hi. destruct Hi as [Hi L]. apply in_seq in Hi. exists i. split; [lia|]. split; [reflexivity|]. apply negb_true_iff, L.
  - intros (i & Hi & -> & L). exists i. split; [reflexivity|]. apply filter_In. split; [apply in_seq; lia|]. rewrite L. reflexivity.
Qed.
Lemma free_nodup : NoDup free_ids.
Proof. unfold free_ids. apply FinFun.Injective_map_NoDup; [intros a b H; apply Nat2Z.inj, H|]. apply NoDup_filter, seq_NoDup. Qed.
Definition sysof (s : soft NumR) : system NumR := Sys free_ids (f_bd s) (f_tgt s) (f_src s).
Definition spush (k : nat) (s : soft NumR) (t : tripletR) : soft NumR :=
  let j := snd (fst t) in
  if flz DD j then let nc := number (f_bd s) j in Sf (f_tgt s) (f_src s ++ [(Z.of_nat k, Z.of_nat (snd nc), snd t)]) (fst nc)
  else let c := match number_of free_ids j with Some k => k | None => O end in Sf (f_tgt s ++ [(Z.of_nat k, Z.of_nat c, snd t)]) (f_src s) (f_bd s).
Lemma spush_pushr k s t : Pz m (colof t) -> sysof (spush k s t) = pushr DD k (sysof s) t.
Proof.
  intros (j & Hj & Ej). unfold spush, pushr, sysof. fold (colof t). rewrite Ej, (flz_lock j Hj). destruct (v_lock m (vat m j)) eqn:L; [reflexivity|]. cbn [s_non s_rv s_LL s_SS f_bd f_tgt f_src].
  assert (I : In (Z.of_nat j) free_ids) by (apply free_in; exists j; auto). unfold number. destruct (number_of free_ids (Z.of_nat j)) as [c|] eqn:E; [reflexivity|]. apply number_of_none in E. contradiction.
Qed.
Lemma soft_edge_ok i k y acc : In y (m_hes m) -> soft_edge (N := NumR) free_ids k acc (Some y) m = Ok ((spush k (fst acc) (Z.of_nat i, didx m y, - w_cot m y), @nadd NumR (snd acc) (w_cot m y)), m).
Proof.
  intros Hy. unfold soft_edge. destruct (dst_idx m W y Hy) as (d & E & Ed & Id & I). rewrite (bind_ok _ _ _ _ _ E), (bind_ok _ _ _ _ _ (cot_ok m W y Hy)), (bind_ok _ _ _ _ _ (r_lock m d (v_alive m W d Id))), (bind_ok _ _ _ _ _ I).
  assert (Edx : didx m y = v_idx m d) by (unfold didx; rewrite Ed; reflexivity). rewrite Edx. destruct (vat_of m d Id) as (j & Hj & ->). rewrite (vat_idx m W j Hj). unfold spush. cbn [fst snd]. rewrite (flz_lock j Hj). destruct (v_lock m (vat m j)); reflexivity.
Qed.
Lemma fold_soft i k l : forall s (a : R), fold_left (fun acc y => (spush k (fst acc) (Z.of_nat i, didx m y, - w_cot m y), @nadd NumR (snd acc) (w_cot m y))) l (s, a) =
  (fold_left (spush k) (map (fun y => (Z.of_nat i, didx m y, - w_cot m y)) l) s, a + rsum (map (w_cot m) l)).
Proof.
  induction l as [|y l IH]; intros s a; cbn [fold_left map fst snd]; [f_equal; cbn; lra|]. etransitivity; [apply IH|]. f_equal. rewrite rsum_cons. change (@nadd NumR a (w_cot m y)) with (a + w_cot m y). lra.
Qed.
Lemma fold_spush k ts : forall s, (forall t, In t ts -> Pz m (colof t)) -> sysof (fold_left (spush k) ts s) = fold_left (pushr DD k) ts (sysof s).
Proof. induction ts as [|t ts IH]; intros s H; cbn [fold_left]; [reflexivity|]. rewrite IH by (intros u Iu; apply H; right; exact Iu). rewrite (spush_pushr k s t (H t (or_introl eq_refl))). reflexivity. Qed.
Lemma soft_row_ok s T k i : (i < n)%nat -> nth_error free_ids k = Some (Z.of_nat i) -> Inv (flz DD) (Pz m) (sysof s) T ->
  exists s', soft_row (N := NumR) free_ids s (k, Z.of_nat i) m = Ok (s', m) /\ Inv (flz DD) (Pz m) (sysof s') (T ++ lrow m (w_cot m) i).
Proof.
  intros Hi Ek I. assert (Ii : In (Z.of_nat i) free_ids) by (apply nth_error_In with k, Ek). unfold soft_row. cbn [fst snd]. rewrite (bind_ok _ _ _ _ _ (vertex_read m i Hi)).
  destruct (ring_head m W i Hi) as (h & l & Eh & Hr & El). erewrite bind_ok; cycle 1.
  { apply (circ_v_ok m W (vat m i) h l _ (fun acc y => ((spush k (fst acc) (Z.of_nat i, didx m y, - w_cot m y), @nadd NumR (snd acc) (w_cot m y)), false)) _ (vat_in m i Hi) Eh Hr).
    intros y a Hy _. rewrite (bind_ok _ _ _ _ _ (soft_edge_ok i k y a Hy)). reflexivity. }
  rewrite (bfold_fold (fun acc y => (spush k (fst acc) (Z.of_nat i, didx m y, - w_cot m y), @nadd NumR (snd acc) (w_cot m y)))). rewrite <- El.
  change (@nzero NumR) with 0. rewrite fold_soft. cbn [fst snd]. rewrite Rplus_0_l.
  set (es := map _ (vert_ring m i)). assert (Eh' : lrow m (w_cot m) i = es ++ [(Z.of_nat i, Z.of_nat i, rsum (map (w_cot m) (vert_ring m i)))]) by reflexivity.
  assert (Hes : forall t, In t es -> rowof t = Z.of_nat i /\ Pz m (colof t)) by (intros t It; apply (lrow_cols m V i t Hi); rewrite Eh'; apply in_or_app; left; exact It).
  assert (K1 : num_ (s_non (sysof s)) (Z.of_nat i) = Z.of_nat k) by (unfold num_; cbn [sysof s_non]; rewrite (proj2 (number_of_some free_ids (Z.of_nat i) k free_nodup) Ek); reflexivity).
  assert (Es := fold_spush k es s (fun t It => proj2 (Hes t It))). rewrite (fold_push m DD (Z.of_nat i) k es (sysof s) T I Ii K1 Hes) in Es.
  destruct (inv_pushes (flz DD) (Pz m) es (sysof s) T (Z.of_nat i) I Ii Hes) as (I2 & In2 & K2 & l2 & E2). rewrite <- Es in I2, In2, K2. set (s2 := fold_left (spush k) es s) in *.
  set (td := (Z.of_nat i, Z.of_nat i, rsum (map (w_cot m) (vert_ring m i)))) in *. assert (Pi : Pz m (Z.of_nat i)) by (exists i; split; [exact Hi|reflexivity]).
  assert (Ez : flz DD (Z.of_nat i) = false). { rewrite (flz_lock i Hi). apply free_in in Ii. destruct Ii as (j & Hj & Ej & L). apply Nat2Z.inj in Ej. subst j. exact L. }
  destruct (inv_push (flz DD) (Pz m) (sysof s2) (T ++ es) td I2 In2 Pi) as (I3 & _ & _).
  assert (Ep : push (flz DD) (sysof s2) td = sysof (Sf (f_tgt s2 ++ [(Z.of_nat k, Z.of_nat k, rsum (map (w_cot m) (vert_ring m i)))]) (f_src s2) (f_bd s2))).
  { unfold push, td. cbn [fst snd]. rewrite Ez. cbn [sysof s_non s_rv s_LL s_SS f_bd f_tgt f_src] in *. unfold number, num_ in *. rewrite (proj2 (number_of_some free_ids (Z.of_nat i) k free_nodup) Ek). reflexivity. }
  eexists. split; [reflexivity|]. rewrite Ep in I3. rewrite Eh', app_assoc. exact I3.
Qed.
Lemma rows_split l l' : free_ids = map Z.of_nat (l ++ l') -> forall s T, Inv (flz DD) (Pz m) (sysof s) T ->
  exists s', mfold (soft_row (N := NumR) free_ids) s (combine (seq (length l) (length l')) (map Z.of_nat l')) m = Ok (s', m) /\ Inv (flz DD) (Pz m) (sysof s') (T ++ concat (map (lrow m (w_cot m)) l')).
Proof.
  revert l. induction l' as [|i l' IH]; intros l E s T I; cbn [length seq map combine mfold concat]; [exists s; rewrite app_nil_r; split; [reflexivity|exact I]|].
  assert (Ek : nth_error free_ids (length l) = Some (Z.of_nat i)) by (rewrite E, map_app, nth_error_app2 by (rewrite map_length; lia); rewrite map_length, Nat.sub_diag; reflexivity).
  assert (Hi : (i < n)%nat). { assert (Ii := nth_error_In _ _ Ek). apply free_in in Ii. destruct Ii as (j & Hj & Ej & _). apply Nat2Z.inj in Ej. subst j. exact Hj. }
  destruct (soft_row_ok s T (length l) i Hi Ek I) as (s1 & E1 & I1). rewrite (bind_ok _ _ _ _ _ E1). destruct (IH (l ++ [i]) ltac:(rewrite <- app_assoc; exact E) s1 _ I1) as (s2 & E2 & I2). rewrite app_length in E2. cbn [length] in E2. rewrite Nat.add_1_r in E2. exists s2. split; [exact E2|]. rewrite app_assoc. exact I2.
Qed.
Lemma rows_free : concat (map (rows_of m DD) (seq 0 n)) = concat (map (lrow m (w_cot m)) free_list).
Proof.
  unfold free_list. assert (H : forall i, In i (seq 0 n) -> (i < n)%nat) by (intros i Hi; apply in_seq in Hi; lia). induction (seq 0 n) as [|i l IH]; [reflexivity|]. cbn [map concat filter]. rewrite IH by (intros j Hj; apply H; right; exact Hj).
  unfold rows_of at 1. rewrite (flb_lock i (H i (or_introl eq_refl))). destruct (v_lock m (vat m i)); reflexivity.
Qed.
Theorem soft_ok : exists s, soft_system (N := NumR) free_ids m = Ok (s, m) /\ Inv (flz DD) (Pz m) (sysof s) (concat (map (rows_of m DD) (seq 0 n))) /\ forall i, (i < n)%nat -> flb DD i = false -> In (Z.of_nat i) (s_non (sysof s)).
Proof.
  destruct (rows_split [] free_list eq_refl (Sf [] [] []) []) as (s & E & I).
  - split; cbn; try reflexivity; try (intros ? []); try constructor; try exact free_nodup.
    + apply free_in in H. destruct H as (j & Hj & -> & L). rewrite (flz_lock j Hj). exact L.
    + apply free_in in H. destruct H as (j & Hj & -> & L). exists j. auto.
  - exists s. split; [|split].
    + unfold soft_system. unfold free_ids at 2 3. rewrite map_length. exact E.
    + rewrite rows_free. exact I.
    + intros i Hi F. cbn [sysof s_non]. apply free_in. exists i. rewrite <- (flb_lock i Hi). auto.
Qed.
(** ** The solution *)
Hypothesis Cl : Closed m.
Hypothesis ND : NonDegenerate m.
Hypothesis Re : AllReached m DD.
Variable sparse : nat -> (nat -> nat -> R) -> (nat -> R) -> nat -> R.
Hypothesis HS : ExactSolver sparse.
Variable A : list (Z * (vecR * vecR)).
Hypothesis HA : forall i, (i < n)%nat -> off i = snd (aim_of (N := NumR) A (Z.of_nat i)).
Lemma soft_solution s : Inv (flz DD) (Pz m) (sysof s) (concat (map (rows_of m DD) (seq 0 n))) -> (forall i, (i < n)%nat -> flb DD i = false -> In (Z.of_nat i) (s_non (sysof s))) ->
  exists x, Harmonic m DD x /\ forall k i, nth_error free_ids k = Some (Z.of_nat i) -> x i = soft_offset (N := NumR) sparse A (length free_ids) s k.
Proof.
  intros I Al. exists (sol DD (sysof s) sparse). split; [exact (harm_sol m V Cl ND DD DD_length (sysof s) _ (Permutation_refl _) I Al Re sparse HS)|].
  intros k i Ek. unfold sol. cbn [sysof s_non]. rewrite (proj2 (number_of_some free_ids (Z.of_nat i) k free_nodup) Ek). unfold field_value, soft_offset. cbn [s_non s_LL sysof].
  assert (E : forall c, field_rhs (N := NumR) DD (sysof s) c = soft_rhs (N := NumR) A s c).
  { intros c. unfold field_rhs, soft_rhs. cbn [s_SS s_rv sysof]. apply functional_extensionality. intros r. f_equal. apply map_ext_in. intros [a z] Ha. apply in_combine_r in Ha. destruct (proj2 (i_rvf _ _ _ _ I z Ha)) as (j & Hj & ->). cbn [fst snd]. rewrite Nat2Z.id. f_equal. f_equal. etransitivity; [apply (f_equal fst (DD_nth j Hj))|]. apply (HA j Hj). }
  rewrite !E. reflexivity.
Qed.
End Soft.
