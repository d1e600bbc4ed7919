(** The direction field: the harmonic extension of the directions at the flagged vertices. *)
From Coq Require Import Classical_Prop Reals Lra Lia List ZArith Bool Arith Permutation.
From Verif Require Import Num NumInst Vec Heap Mesh Spec Orbit Rings Exec Diamond Queries GeomSpec VecR Measure MeasureR MeasureM SmoothSpec Smooth SmoothD SmoothF Curv CurvN CurvW LinR Features Tensor TensorSpec TensorM SmoothP LaplSpec Lapl LaplP LaplM CotPsd Deriv DerivSpec DerivM DerivO Feat FeatSpec FeatR FeatM FeatS FeatE.
Import ListNotations.
Local Open Scope mesh_scope.
Local Open Scope R_scope.
Implicit Types m : mesh NumR.
Local Notation tripletR := (triplet NumR).

Lemma sum_seq n (F : nat -> R) : sum_to n F = rsum (map F (seq 0 n)).
Proof. rewrite <- (sum_to_list 0%nat F (seq 0 n)), seq_length. apply sum_to_ext. intros i Hi. rewrite seq_nth by exact Hi. reflexivity. Qed.

Lemma rsum_0s {A} (l : list A) : rsum (map (fun _ => 0) l) = 0.
Proof. induction l as [|t l IH]; [reflexivity|]. cbn [map]. rewrite rsum_cons, IH. lra. Qed.

Section Alg.
Variable m : mesh NumR.
Hypothesis V : Valid m.
Hypothesis Cl : Closed m.
Hypothesis ND : NonDegenerate m.
Let W := valid_wf m V.
Let n := length (m_verts m).
Variable D : list (vecR * R).
Hypothesis LD : length D = n.
Variable s : system NumR.
Variable T : list tripletR.
Hypothesis TP : Permutation T (concat (map (rows_of m D) (seq 0 n))).
Hypothesis I : Inv (flz D) (Pz m) s T.
Hypothesis Alln : forall i, (i < n)%nat -> flb D i = false -> In (Z.of_nat i) (s_non s).
Let A := entryR (lmat m (w_cot m)).
Let p := length (s_non s).
Let q := length (s_rv s).
Definition at_l (l : list Z) (k : nat) : nat := Z.to_nat (nth k l 0%Z).
Lemma at_l_ok l k : (forall j, In j l -> Pz m j) -> (k < length l)%nat -> (at_l l k < n)%nat /\ Z.of_nat (at_l l k) = nth k l 0%Z /\ In (nth k l 0%Z) l.
Proof. intros H Hk. assert (J := nth_In l 0%Z Hk). destruct (H _ J) as (i & Hi & E). unfold at_l. rewrite E, Nat2Z.id. split; [exact Hi|]. split; [reflexivity|]. rewrite <- E. exact J. Qed.
Lemma flz_nat i : flz D (Z.of_nat i) = flb D i.
Proof. unfold flz. rewrite Nat2Z.id. reflexivity. Qed.
Lemma non_ok k : (k < p)%nat -> (at_l (s_non s) k < n)%nat /\ Z.of_nat (at_l (s_non s) k) = nth k (s_non s) 0%Z /\ flb D (at_l (s_non s) k) = false.
Proof. intros Hk. destruct (at_l_ok (s_non s) k (fun j J => proj2 (i_nonf _ _ _ _ I j J)) Hk) as (B & E & J). split; [exact B|]. split; [exact E|]. rewrite <- flz_nat, E. exact (proj1 (i_nonf _ _ _ _ I _ J)). Qed.
Lemma rv_ok k : (k < q)%nat -> (at_l (s_rv s) k < n)%nat /\ Z.of_nat (at_l (s_rv s) k) = nth k (s_rv s) 0%Z /\ flb D (at_l (s_rv s) k) = true.
Proof. intros Hk. destruct (at_l_ok (s_rv s) k (fun j J => proj2 (i_rvf _ _ _ _ I j J)) Hk) as (B & E & J). split; [exact B|]. split; [exact E|]. rewrite <- flz_nat, E. exact (proj1 (i_rvf _ _ _ _ I _ J)). Qed.
(** ** Entries *)
Lemma T_entry i j : (i < n)%nat -> flb D i = false -> entryR T i j = A i j.
Proof.
  intros Hi F. unfold A, lmat. rewrite !entry_sum, (rsum_perm _ _ (Permutation_map _ TP)), !concat_map_sum. apply rsum_ext. intros k Hk. apply in_seq in Hk. unfold rows_of. destruct (flb D k) eqn:Fk; [|reflexivity]. cbn [map]. symmetry.
  transitivity (rsum (map (fun _ : tripletR => 0) (lrow m (w_cot m) k))).
  - apply rsum_ext. intros t It. destruct (lrow_cols m V k t (proj2 Hk) It) as [R _]. unfold at_pos. unfold rowof in R. rewrite R. destruct (Z.eqb_spec (Z.of_nat k) (Z.of_nat i)) as [E|E]; [|reflexivity]. apply Nat2Z.inj in E. subst. congruence.
  - apply rsum_0s.
Qed.
Lemma renum_entry l b k c : NoDup l -> (forall j, In j l -> flz D j = b /\ Pz m j) -> (k < p)%nat -> (c < length l)%nat ->
  entryR (map (renum (s_non s) l) (filter (fun t => Bool.eqb (flz D (colof t)) b) T)) k c = A (at_l (s_non s) k) (at_l l c).
Proof.
  intros Nl Hl Hk Hc. destruct (non_ok k Hk) as (B & Ek & Fk). destruct (at_l_ok l c (fun j J => proj2 (Hl j J)) Hc) as (Bc & Ec & Jc).
  rewrite <- (T_entry _ _ B Fk). rewrite !entry_sum, map_map, rsum_filter. apply rsum_ext. intros t It. unfold at_pos, val, renum. cbn [fst snd].
  rewrite (num_eqb (s_non s) (rowof t) k (i_non _ _ _ _ I) Hk), (num_eqb l (colof t) c Nl Hc). rewrite Ek, Ec. fold (rowof t) (colof t).
  destruct (Z.eqb_spec (colof t) (nth c l 0%Z)) as [E|E].
  - rewrite E, (proj1 (Hl _ Jc)). rewrite eqb_reflx. reflexivity.
  - rewrite !andb_false_r. destruct (Bool.eqb (flz D (colof t)) b); reflexivity.
Qed.
Lemma LL_entry k c : (k < p)%nat -> (c < p)%nat -> entryR (s_LL s) k c = A (at_l (s_non s) k) (at_l (s_non s) c).
Proof.
  intros Hk Hc. rewrite <- (renum_entry (s_non s) false k c (i_non _ _ _ _ I) (i_nonf _ _ _ _ I) Hk Hc). rewrite (i_LL _ _ _ _ I). rewrite (filter_ext (fun t => negb (flz D (colof t))) (fun t => Bool.eqb (flz D (colof t)) false)) by (intros t; destruct (flz D (colof t)); reflexivity). reflexivity.
Qed.
Lemma SS_entry k c : (k < p)%nat -> (c < q)%nat -> entryR (s_SS s) k c = A (at_l (s_non s) k) (at_l (s_rv s) c).
Proof.
  intros Hk Hc. rewrite <- (renum_entry (s_rv s) true k c (i_rv _ _ _ _ I) (i_rvf _ _ _ _ I) Hk Hc). rewrite (i_SS _ _ _ _ I). rewrite (filter_ext (fun t => flz D (colof t)) (fun t => Bool.eqb (flz D (colof t)) true)) by (intros t; destruct (flz D (colof t)); reflexivity). reflexivity.
Qed.
Lemma far_entry i j : (i < n)%nat -> flb D i = false -> flb D j = true -> ~ In (Z.of_nat j) (s_rv s) -> A i j = 0.
Proof.
  intros Hi Fi Fj Nj. rewrite <- (T_entry i j Hi Fi), entry_sum. transitivity (rsum (map (fun _ : tripletR => 0) T)).
  - apply rsum_ext. intros t It. unfold at_pos. fold (rowof t) (colof t). destruct (Z.eqb_spec (colof t) (Z.of_nat j)) as [E|E]; [|rewrite andb_false_r; reflexivity]. assert (H := i_cols _ _ _ _ I t It). rewrite E, flz_nat, Fj in H. contradiction.
  - apply rsum_0s.
Qed.
(** ** Sums over all vertices *)
Definition inb (j : nat) (l : list Z) : bool := if in_dec Z.eq_dec (Z.of_nat j) l then true else false.
Lemma inb_iff j l : inb j l = true <-> In (Z.of_nat j) l.
Proof. unfold inb. destruct (in_dec _ _ _); split; intros; try discriminate; tauto. Qed.
Lemma nodup_sum l (F : nat -> R) : NoDup l -> (forall j, In j l -> Pz m j) -> sum_to (length l) (fun k => F (at_l l k)) = sum_to n (fun j => if inb j l then F j else 0).
Proof.
  intros Nl Hl. unfold at_l. rewrite (sum_to_list 0%Z (fun z => F (Z.to_nat z)) l), sum_seq, <- rsum_filter. rewrite <- (map_map Z.to_nat F). apply rsum_perm, Permutation_map. apply NoDup_Permutation.
  - clear - Nl Hl. induction l as [|j l IH]; [constructor|]. inversion Nl as [|? ? Nj Nl']; subst. cbn [map]. constructor; [|apply IH; auto; intros; apply Hl; right; assumption].
    intros J. apply in_map_iff in J. destruct J as (j' & E & J). destruct (Hl j (or_introl eq_refl)) as (a & _ & Ea). destruct (Hl j' (or_intror J)) as (b & _ & Eb). subst j j'. rewrite !Nat2Z.id in E. subst. contradiction.
  - apply NoDup_filter, seq_NoDup.
  - intros i. rewrite filter_In, in_seq, inb_iff, in_map_iff. split.
    + intros (z & E & J). destruct (Hl z J) as (a & Ha & Ea). subst z. rewrite Nat2Z.id in E. subst a. split; [lia|exact J].
    + intros (B & J). exists (Z.of_nat i). split; [apply Nat2Z.id|exact J].
Qed.
Lemma sum_split (F : nat -> R) : (forall j, (j < n)%nat -> flb D j = true -> ~ In (Z.of_nat j) (s_rv s) -> F j = 0) ->
  sum_to n F = sum_to p (fun k => F (at_l (s_non s) k)) + sum_to q (fun k => F (at_l (s_rv s) k)).
Proof.
  intros H. unfold p, q. rewrite (nodup_sum (s_non s) F (i_non _ _ _ _ I) (fun j J => proj2 (i_nonf _ _ _ _ I j J))), (nodup_sum (s_rv s) F (i_rv _ _ _ _ I) (fun j J => proj2 (i_rvf _ _ _ _ I j J))).
  rewrite <- sum_to_plus. apply sum_to_ext. intros j Hj. destruct (inb j (s_non s)) eqn:E1, (inb j (s_rv s)) eqn:E2; try lra.
  - apply inb_iff in E1, E2. assert (X := proj1 (i_nonf _ _ _ _ I _ E1)). assert (Y := proj1 (i_rvf _ _ _ _ I _ E2)). congruence.
  - rewrite H; [lra|exact Hj| |rewrite <- inb_iff, E2; discriminate]. destruct (flb D j) eqn:F0; [reflexivity|]. apply (Alln j Hj) in F0. apply inb_iff in F0. congruence.
Qed.
Lemma number_at k : (k < p)%nat -> number_of (s_non s) (Z.of_nat (at_l (s_non s) k)) = Some k.
Proof. intros Hk. apply (number_of_some _ _ _ (i_non _ _ _ _ I)). rewrite (proj1 (proj2 (non_ok k Hk))). apply nth_error_nth', Hk. Qed.
Lemma number_flagged j : flb D j = true -> number_of (s_non s) (Z.of_nat j) = None.
Proof. intros F. apply number_of_none. intros J. assert (X := proj1 (i_nonf _ _ _ _ I _ J)). rewrite flz_nat in X. congruence. Qed.
Lemma number_free j : (j < n)%nat -> flb D j = false -> exists k, number_of (s_non s) (Z.of_nat j) = Some k /\ (k < p)%nat /\ at_l (s_non s) k = j.
Proof.
  intros Hj F. assert (J := Alln j Hj F). destruct (number_of (s_non s) (Z.of_nat j)) as [k|] eqn:E; [|apply number_of_none in E; contradiction]. exists k. split; [reflexivity|].
  apply (number_of_some _ _ _ (i_non _ _ _ _ I)) in E. assert (Hk : (k < p)%nat) by (apply nth_error_Some; congruence). split; [exact Hk|]. unfold at_l. rewrite (nth_error_nth _ _ 0%Z E). apply Nat2Z.id.
Qed.
(** ** The matrix *)
Lemma LL_sym : symmetric p (entryR (s_LL s)).
Proof. intros k c Hk Hc. rewrite (LL_entry k c Hk Hc), (LL_entry c k Hc Hk). apply (lmat_sym m W (w_cot m) (w_cot_sym m W)); [exact (proj1 (non_ok k Hk))|exact (proj1 (non_ok c Hc))]. Qed.
Definition hat (y : nat -> R) (j : nat) : R := match number_of (s_non s) (Z.of_nat j) with Some k => y k | None => 0 end.
Lemma hat_at y k : (k < p)%nat -> hat y (at_l (s_non s) k) = y k.
Proof. intros Hk. unfold hat. rewrite (number_at k Hk). reflexivity. Qed.
Lemma hat_rv y j : flb D j = true -> hat y j = 0.
Proof. intros F. unfold hat. rewrite (number_flagged j F). reflexivity. Qed.
Lemma hat_sum y (F : nat -> R) : sum_to n (fun j => F j * hat y j) = sum_to p (fun k => F (at_l (s_non s) k) * y k).
Proof.
  rewrite sum_split by (intros j _ Fj _; rewrite (hat_rv y j Fj); lra).
  rewrite (sum_to_ext p _ (fun k => F (at_l (s_non s) k) * y k)) by (intros k Hk; rewrite (hat_at y k Hk); reflexivity).
  rewrite (sum_to_ext q _ (fun _ => 0)) by (intros k Hk; rewrite (hat_rv y _ (proj2 (proj2 (rv_ok k Hk)))); lra). rewrite sum_to_0. lra.
Qed.
Lemma hat_qform y : qform n A (hat y) = qform p (entryR (s_LL s)) y.
Proof.
  unfold qform. rewrite (sum_to_ext n _ (fun i => sum_to n (fun j => A i j * hat y j) * hat y i)) by (intros i Hi; rewrite <- sum_to_scalr; apply sum_to_ext; intros j Hj; ring).
  rewrite hat_sum. apply sum_to_ext. intros k Hk. rewrite hat_sum, <- sum_to_scalr. apply sum_to_ext. intros c Hc. rewrite (LL_entry k c Hk Hc). ring.
Qed.
Hypothesis Re : AllReached m D.
Lemma LL_posdef : posdef p (entryR (s_LL s)).
Proof.
  intros y (k & Hk & Ny). rewrite <- hat_qform. assert (P := cot_psd m V Cl (hat y)). fold n A in P. destruct P as [P|P]; [exact P|]. exfalso. apply Ny.
  assert (Z := cot_zero m V Cl ND (hat y) (eq_sym P)). destruct (non_ok k Hk) as (B & _ & _). set (v := vat m (at_l (s_non s) k)).
  destruct (Re v (vat_in m _ B)) as (i & w & Rw & Ei & Fi).
  assert (C : forall w, reach m v w -> at_ m (hat y) (Some w) = at_ m (hat y) (Some v)).
  { intros u Ru. induction Ru as [|u u' Ru IH (h & Ih & Sh & Dh)]; [reflexivity|]. rewrite <- IH. rewrite <- Sh, <- Dh. symmetry. exact (Z h Ih). }
  assert (Hi : (i < n)%nat) by (apply nth_error_Some; congruence). assert (Ew : w = vat m i) by (rewrite (vat_nth m i Hi) in Ei; congruence).
  assert (Cw := C w Rw). rewrite Ew in Cw. unfold v in Cw. rewrite (at_vat m W (hat y) i Hi), (at_vat m W (hat y) _ B), (hat_at y k Hk) in Cw. rewrite <- Cw. apply hat_rv, flb_iff, Fi.
Qed.
(** ** The solution *)
Variable sparse : nat -> (nat -> nat -> R) -> (nat -> R) -> nat -> R.
Lemma rhs_eq (c : vecR -> R) k : field_rhs (N := NumR) D s c k = - sum_to q (fun l => entryR (s_SS s) k l * c (fst (nth (at_l (s_rv s) l) D (vzero, 0)))).
Proof.
  unfold field_rhs. set (G := fun kj : nat * Z => _). set (L := combine (seq 0 (length (s_rv s))) (s_rv s)).
  assert (F : forall l a, fold_left (@nadd NumR) l a = a + rsum l) by (induction l as [|x l IH]; intros a; cbn [fold_left]; [cbn; lra|]; rewrite IH, rsum_cons; cbn; lra). rewrite F. cbn [nzero NumR]. rewrite Rplus_0_l.
  match goal with |- _ = ?r => change (rsum (@map (nat * Z) R G L) = r) end. rewrite <- (sum_to_list (0%nat, 0%Z) G L). assert (LL : length L = q) by (unfold L; rewrite combine_length, seq_length; apply Nat.min_id). rewrite LL.
  replace (- sum_to q (fun l => entryR (s_SS s) k l * c (fst (nth (at_l (s_rv s) l) D (vzero, 0))))) with ((-1) * sum_to q (fun l => entryR (s_SS s) k l * c (fst (nth (at_l (s_rv s) l) D (vzero, 0))))) by lra.
  rewrite <- sum_to_scal. apply sum_to_ext. intros l Hl. unfold L. rewrite combine_nth by apply seq_length. rewrite seq_nth by exact Hl. unfold G. cbn [fst snd]. unfold at_l. cbn. lra.
Qed.
(** Any right-hand side [b], and any values [x0] at the flagged vertices. *)
Lemma solve_rhs (b x0 y : nat -> R) : (forall k, (k < p)%nat -> sum_to p (fun l => entryR (s_LL s) k l * y l) = b (at_l (s_non s) k) - sum_to q (fun l => entryR (s_SS s) k l * x0 (at_l (s_rv s) l))) ->
  forall i, (i < n)%nat -> flb D i = false -> sum_to n (fun j => A i j * match number_of (s_non s) (Z.of_nat j) with Some k => y k | None => x0 j end) = b i.
Proof.
  intros Hy i Hi Fi. rewrite sum_split by (intros j Hj Fj Nj; rewrite (far_entry i j Hi Fi Fj Nj); lra).
  destruct (number_free i Hi Fi) as (k & _ & Hk & Ek).
  rewrite (sum_to_ext p _ (fun l => entryR (s_LL s) k l * y l)) by (intros l Hl; rewrite (number_at l Hl), (LL_entry k l Hk Hl), Ek; reflexivity).
  rewrite (sum_to_ext q _ (fun l => entryR (s_SS s) k l * x0 (at_l (s_rv s) l))) by (intros l Hl; rewrite (number_flagged _ (proj2 (proj2 (rv_ok l Hl)))), (SS_entry k l Hk Hl), Ek; reflexivity).
  rewrite (Hy k Hk), Ek. lra.
Qed.
Definition sol (j : nat) : vecR := match number_of (s_non s) (Z.of_nat j) with Some k => field_value (N := NumR) sparse D s k | None => fst (nth j D (vzero, 0)) end.
Definition coord (c : vecR -> R) : Prop := c = vx \/ c = vy \/ c = vz.
Lemma value_coord c k : coord c -> c (field_value (N := NumR) sparse D s k) = sparse p (entryR (s_LL s)) (field_rhs (N := NumR) D s c) k.
Proof. intros [->|[->| ->]]; reflexivity. Qed.
Lemma sol_harm c i : ExactSolver sparse -> coord c -> (i < n)%nat -> flb D i = false -> sum_to n (fun j => A i j * c (sol j)) = 0.
Proof.
  intros HS Hc Hi Fi. rewrite sum_split by (intros j Hj Fj Nj; rewrite (far_entry i j Hi Fi Fj Nj); lra).
  destruct (number_free i Hi Fi) as (k & _ & Hk & Ek).
  rewrite (sum_to_ext p _ (fun l => entryR (s_LL s) k l * sparse p (entryR (s_LL s)) (field_rhs (N := NumR) D s c) l))
    by (intros l Hl; unfold sol; rewrite (number_at l Hl), (value_coord c l Hc), (LL_entry k l Hk Hl), Ek; reflexivity).
  rewrite (sum_to_ext q _ (fun l => entryR (s_SS s) k l * c (fst (nth (at_l (s_rv s) l) D (vzero, 0)))))
    by (intros l Hl; unfold sol; rewrite (number_flagged _ (proj2 (proj2 (rv_ok l Hl)))), (SS_entry k l Hk Hl), Ek; reflexivity).
  rewrite (HS p (entryR (s_LL s)) (field_rhs (N := NumR) D s c) LL_sym LL_posdef k Hk), rhs_eq. lra.
Qed.
Lemma lap_is : getMeshLaplacian Cotangent m = Ok (lmat m (w_cot m), m).
Proof. apply (rows_ok m cot_row (w_cot m) (cot_row_ok m W)). Qed.
Lemma harm_sol : ExactSolver sparse -> Harmonic m D sol.
Proof.
  intros HS. exists (lmat m (w_cot m)). split; [exact lap_is|]. split.
  - intros i Hi Fi. unfold sol. rewrite (number_flagged i (proj2 (flb_iff D i) Fi)). reflexivity.
  - intros i Hi Fi. apply flb_not in Fi. split; [exact (sol_harm vx i HS (or_introl eq_refl) Hi Fi)|]. split; [exact (sol_harm vy i HS (or_intror (or_introl eq_refl)) Hi Fi)|exact (sol_harm vz i HS (or_intror (or_intror eq_refl)) Hi Fi)].
Qed.
Lemma unique_coord (d : nat -> R) : (forall i, (i < n)%nat -> flb D i = true -> d i = 0) -> (forall i, (i < n)%nat -> flb D i = false -> sum_to n (fun j => A i j * d j) = 0) -> forall i, (i < n)%nat -> d i = 0.
Proof.
  intros H0 H1 k Hk. assert (Q : qform n A d = 0).
  { unfold qform. rewrite (sum_to_ext n _ (fun _ => 0)); [apply sum_to_0|]. intros i Hi. rewrite (sum_to_ext n _ (fun j => d i * (A i j * d j))) by (intros; ring). rewrite sum_to_scal. destruct (flb D i) eqn:F; [rewrite (H0 i Hi F); ring|rewrite (H1 i Hi F); ring]. }
  assert (Z := cot_zero m V Cl ND d Q). set (v := vat m k). destruct (Re v (vat_in m _ Hk)) as (i & w & Rw & Ei & Fi).
  assert (C : forall w, reach m v w -> at_ m d (Some w) = at_ m d (Some v)).
  { intros u Ru. induction Ru as [|u u' Ru IH (h & Ih & Sh & Dh)]; [reflexivity|]. rewrite <- IH. rewrite <- Sh, <- Dh. symmetry. exact (Z h Ih). }
  assert (Hi : (i < n)%nat) by (apply nth_error_Some; congruence). assert (Ew : w = vat m i) by (rewrite (vat_nth m i Hi) in Ei; congruence).
  assert (Cw := C w Rw). rewrite Ew in Cw. unfold v in Cw. rewrite (at_vat m W d i Hi), (at_vat m W d k Hk) in Cw. rewrite <- Cw. apply (H0 i Hi), flb_iff, Fi.
Qed.
Lemma harm_unique x y : Harmonic m D x -> Harmonic m D y -> forall i, (i < n)%nat -> x i = y i.
Proof.
  intros (t1 & E1 & X0 & X1) (t2 & E2 & Y0 & Y1). rewrite lap_is in E1, E2. injection E1 as <-. injection E2 as <-.
  assert (U : forall c, coord c -> (forall i, (i < n)%nat -> ~ flagged D i -> sum_to n (fun j => A i j * c (x j)) = 0 /\ sum_to n (fun j => A i j * c (y j)) = 0) -> forall i, (i < n)%nat -> c (x i) = c (y i)).
  { intros c Hc Hs i Hi. assert (Z := unique_coord (fun j => c (x j) - c (y j))). cut (c (x i) - c (y i) = 0); [lra|]. apply Z; [|  |exact Hi].
    - intros j Hj Fj. apply flb_iff in Fj. rewrite (X0 j Hj Fj), (Y0 j Hj Fj). lra.
    - intros j Hj Fj. apply flb_not in Fj. rewrite (sum_to_ext n _ (fun l => A j l * c (x l) - A j l * c (y l))) by (intros; ring). rewrite sum_to_minus. destruct (Hs j Hj Fj) as [-> ->]. lra. }
  intros i Hi. assert (Ux := U vx (or_introl eq_refl) (fun j Hj Fj => conj (proj1 (X1 j Hj Fj)) (proj1 (Y1 j Hj Fj))) i Hi).
  assert (Uy := U vy (or_intror (or_introl eq_refl)) (fun j Hj Fj => conj (proj1 (proj2 (X1 j Hj Fj))) (proj1 (proj2 (Y1 j Hj Fj)))) i Hi).
  assert (Uz := U vz (or_intror (or_intror eq_refl)) (fun j Hj Fj => conj (proj2 (proj2 (X1 j Hj Fj))) (proj2 (proj2 (Y1 j Hj Fj)))) i Hi).
  destruct (x i), (y i). cbn in *. congruence.
Qed.
End Alg.

(** ** The result *)
Lemma mmap_throw {A B} (f : A -> M NumR B) m l : (forall x, In x l -> (exists y, f x m = Ok (y, m)) \/ f x m = Abort AThrow) -> (exists x, In x l /\ f x m = Abort AThrow) -> mmap f l m = Abort AThrow.
Proof.
  induction l as [|a l IH]; intros H (x & Ix & Ex); [destruct Ix|]. cbn [mmap]. destruct (H a (or_introl eq_refl)) as [(y & E)|E]; [|unfold bind; rewrite E; reflexivity].
  rewrite (bind_ok _ _ _ _ _ E). destruct Ix as [->|Ix]; [congruence|]. unfold bind. rewrite IH; [reflexivity|intros z Iz; apply H; right; exact Iz|exists x; auto].
Qed.
Section Res.
Variable m : mesh NumR.
Hypothesis V : Valid m.
Let n := length (m_verts m).
Variable D : list (vecR * R).
Hypothesis LD : length D = n.
Variable s : system NumR.
Variable sparse : nat -> (nat -> nat -> R) -> (nat -> R) -> nat -> R.
Hypothesis I : Inv (flz D) (Pz m) s (concat (map (rows_of m D) (seq 0 n))).
Hypothesis Alln : forall i, (i < n)%nat -> flb D i = false -> In (Z.of_nat i) (s_non s).
Let res := mmap (fun ix => field_result (N := NumR) sparse D s (fst ix) (snd ix)) (combine (seq 0 n) D) m.
Lemma pair_at ix : In ix (combine (seq 0 n) D) <-> exists i, (i < n)%nat /\ ix = (i, nth i D (vzero, 0)).
Proof.
  assert (L : length (combine (seq 0 n) D) = n) by (rewrite combine_length, seq_length, LD; apply Nat.min_id). split.
  - intros H. apply (In_nth _ _ (0%nat, (vzero, 0))) in H. destruct H as (i & Hi & <-). rewrite L in Hi. exists i. split; [exact Hi|]. rewrite combine_nth by (rewrite seq_length; symmetry; exact LD). rewrite seq_nth by exact Hi. reflexivity.
  - intros (i & Hi & ->). assert (N := nth_In (n := i) (combine (seq 0 n) D) (0%nat, (vzero, 0))). rewrite L in N. specialize (N Hi). rewrite combine_nth in N by (rewrite seq_length; symmetry; exact LD). rewrite seq_nth in N by exact Hi. exact N.
Qed.
Lemma one_result i : (i < n)%nat -> (flb D i = true \/ sol D s sparse i <> vzero ->
    exists y, field_result (N := NumR) sparse D s i (nth i D (vzero, 0)) m = Ok (y, m) /\ snd y = snd (nth i D (vzero, 0)) /\ (flagged D i -> y = nth i D (vzero, 0)) /\ (~ flagged D i -> vlength (fst y) = 1 /\ vscale (vlength (sol D s sparse i)) (fst y) = sol D s sparse i)) /\
  (flb D i = false -> sol D s sparse i = vzero -> field_result (N := NumR) sparse D s i (nth i D (vzero, 0)) m = Abort AThrow).
Proof.
  intros Hi. unfold field_result. destruct (flb D i) eqn:F.
  - rewrite (number_flagged m D s _ I i F). split; [|discriminate]. intros _. exists (nth i D (vzero, 0)). split; [reflexivity|]. split; [reflexivity|]. split; [reflexivity|]. intros N. apply flb_iff in F. contradiction.
  - unfold sol. destruct (number_free m D s _ I Alln i Hi F) as (k & Ek & _). rewrite Ek. split.
    + intros [X|X]; [discriminate|]. destruct (normalize_unit _ X) as (u & Eu & Lu & Su). exists (u, snd (nth i D (vzero, 0))). split; [rewrite Eu; reflexivity|]. split; [reflexivity|]. cbn [fst]. split; [intros N; apply flb_not in F; contradiction|]. intros _. split; [exact Lu|exact Su].
    + intros _ Z. rewrite Z, normalize_zero. reflexivity.
Qed.
Lemma result_ok : (forall i, (i < n)%nat -> ~ flagged D i -> sol D s sparse i <> vzero) -> exists out, res = Ok (out, m) /\ Directions m D (sol D s sparse) out.
Proof.
  intros H. destruct (mmap_some (fun ix => field_result (N := NumR) sparse D s (fst ix) (snd ix)) (fun ix y => snd y = snd (snd ix) /\ (flagged D (fst ix) -> y = snd ix) /\ (~ flagged D (fst ix) -> vlength (fst y) = 1 /\ vscale (vlength (sol D s sparse (fst ix))) (fst y) = sol D s sparse (fst ix))) (vzero, 0) m (combine (seq 0 n) D)) as (out & E & F2).
  { intros ix Iix. apply pair_at in Iix. destruct Iix as (i & Hi & ->). cbn [fst snd]. apply (proj1 (one_result i Hi)). destruct (flb D i) eqn:F; [left; reflexivity|right; apply (H i Hi), flb_not, F]. }
  exists out. split; [exact E|]. destruct (forall2_nth _ _ _ F2) as [Lo Ho]. assert (L : length (combine (seq 0 n) D) = n) by (rewrite combine_length, seq_length, LD; apply Nat.min_id). assert (Lo' : length out = n) by (first [exact (eq_trans Lo L)|exact (eq_trans (eq_sym Lo) L)]). clear Lo. rename Lo' into Lo.
  split; [exact Lo|]. fold n. intros i Hi. assert (Ei : nth_error (combine (seq 0 n) D) i = Some (i, nth i D (vzero, 0))).
  { rewrite (nth_error_nth' (combine (seq 0 n) D) (0%nat, (vzero, 0)) (eq_ind_r (fun k => (i < k)%nat) Hi L)). rewrite combine_nth by (rewrite seq_length; symmetry; exact LD). rewrite seq_nth by exact Hi. reflexivity. }
  assert (Eo : nth_error out i = Some (nth i out (vzero, 0))) by (apply nth_error_nth'; rewrite Lo; exact Hi). exact (Ho i _ _ Ei Eo).
Qed.
Lemma result_throw : (exists i, (i < n)%nat /\ ~ flagged D i /\ sol D s sparse i = vzero) -> res = Abort AThrow.
Proof.
  intros (i & Hi & Fi & Zi). apply mmap_throw.
  - intros ix Iix. apply pair_at in Iix. destruct Iix as (j & Hj & ->). cbn [fst snd]. destruct (flb D j) eqn:F; [left; destruct (proj1 (one_result j Hj) (or_introl F)) as (y & E & _); exists y; exact E|].
    destruct (Req_dec (vlength (sol D s sparse j)) 0) as [Z|Z]; [right; apply (proj2 (one_result j Hj) F), vlength_zero, Z|left]. destruct (proj1 (one_result j Hj)) as (y & E & _); [right; intros Z'; apply Z, vlength_zero, Z'|exists y; exact E].
  - exists (i, nth i D (vzero, 0)). split; [apply pair_at; exists i; auto|]. cbn [fst snd]. apply (proj2 (one_result i Hi)); [apply flb_not, Fi|exact Zi].
Qed.
End Res.

Theorem extend_ok sparse m D : Valid m -> Closed m -> NonDegenerate m -> ExactSolver sparse -> length D = length (m_verts m) -> AllReached m D ->
  exists x, Harmonic m D x /\ (forall x', Harmonic m D x' -> forall i, (i < length (m_verts m))%nat -> x' i = x i) /\
    ((forall i, (i < length (m_verts m))%nat -> ~ flagged D i -> x i <> vzero) -> exists out, extend_field (N := NumR) sparse D m = Ok (out, m) /\ Directions m D x out) /\
    ((exists i, (i < length (m_verts m))%nat /\ ~ flagged D i /\ x i = vzero) -> extend_field (N := NumR) sparse D m = Abort AThrow).
Proof.
  intros V C ND HS LD Re. destruct (system_ok m V D LD) as (s & Esys & Inv_ & Alln).
  assert (Run : extend_field (N := NumR) sparse D m = mmap (fun ix => field_result (N := NumR) sparse D s (fst ix) (snd ix)) (combine (seq 0 (length (m_verts m))) D) m) by (unfold extend_field; rewrite (bind_ok _ _ _ _ _ Esys), bind_get; reflexivity).
  exists (sol D s sparse). assert (HH := harm_sol m V C ND D LD s _ (Permutation_refl _) Inv_ Alln Re sparse HS). split; [exact HH|]. split; [|split].
  - intros x' Hx' i Hi. exact (harm_unique m V C ND D Re x' (sol D s sparse) Hx' HH i Hi).
  - intros Hn. rewrite Run. exact (result_ok m D LD s sparse Inv_ Alln Hn).
  - intros Hz. rewrite Run. exact (result_throw m D LD s sparse Inv_ Alln Hz).
Qed.
Lemma extend_none sparse m D : Valid m -> length D = length (m_verts m) -> (forall i, ~ flagged D i) -> m_verts m <> [] -> (forall n A c k, (forall i, c i = 0) -> sparse n A c k = 0) -> extend_field (N := NumR) sparse D m = Abort AThrow.
Proof.
  intros V LD NF NE Z0. destruct (system_ok m V D LD) as (s & Esys & Inv_ & Alln). unfold extend_field. rewrite (bind_ok _ _ _ _ _ Esys), bind_get.
  apply (result_throw m D LD s sparse Inv_ Alln). exists 0%nat. assert (H0 : (0 < length (m_verts m))%nat) by (destruct (m_verts m); [contradiction|cbn; lia]). split; [exact H0|]. split; [apply NF|].
  unfold sol. destruct (number_free m D s _ Inv_ Alln 0%nat H0 (proj2 (flb_not D 0%nat) (NF 0%nat))) as (k & Ek & _). rewrite Ek.
  assert (Rv : s_rv s = []). { destruct (s_rv s) as [|j l] eqn:E; [reflexivity|exfalso]. destruct (i_rvf _ _ _ _ Inv_ j) as [F _]; [rewrite E; left; reflexivity|]. unfold flz in F. apply flb_iff in F. exact (NF _ F). }
  unfold field_value. rewrite !Z0; [reflexivity| | |]; intros i; unfold field_rhs; rewrite Rv; reflexivity.
Qed.
(** ** The whole function *)
Theorem feature_field solve sparse b m X : Valid m -> Closed m -> NonDegenerate m -> length X = length (m_verts m) ->
  getPrincipalCurvaturesWithDerivatives (N := NumR) cos sin solve b m = Ok (X, m) ->
  exists S sg D, X = map S (m_verts m) /\ (forall f, In f (m_faces m) -> FaceSign m S f (sg f)) /\ length D = length (m_verts m) /\
    (forall i v, nth_error (m_verts m) i = Some v -> VertexMark m sg v (nth i D (vzero, 0))) /\
    getFeatureLineFieldWithFlags (N := NumR) cos sin solve sparse b m = extend_field (N := NumR) sparse D m.
Proof.
  intros V C ND LX EX. set (S := tabf m ((0, 0, vzero, vzero) : pc NumR, (0, 0)) X). assert (ES : X = map S (m_verts m)) by (symmetry; apply (tabf_map m V), LX).
  destruct (signs_ok m V C S) as (sg & Es & Hsg). destruct (marks_ok m V C ND S sg) as (D & ED & LD & HD).
  exists S, sg, D. split; [exact ES|]. split; [exact Hsg|]. split; [exact LD|]. split.
  - intros i v Ev. assert (H := HD v (nth_error_In _ _ Ev)). unfold tabf in H. rewrite (proj1 (proj2 (wf_v_elem m (valid_wf m V) i v Ev))), Nat2Z.id in H. exact H.
  - unfold getFeatureLineFieldWithFlags. rewrite (bind_ok _ _ _ _ _ EX), bind_get, ES, (bind_ok _ _ _ _ _ Es), bind_get.
    unfold bind in ED. unfold bind at 1. destruct (mfold _ _ _ m) as [(D0 & m0)| | |]; try discriminate. unfold bind at 1. rewrite ED. reflexivity.
Qed.
(** Flags and directions of the whole function. *)
Theorem field_ok solve sparse b m : Valid m -> Closed m -> NonDegenerate m -> ExactSolver solve -> ExactSolver sparse ->
  getFeatureLineFieldWithFlags (N := NumR) cos sin solve sparse b m = Abort AThrow \/
  exists S sg D, getPrincipalCurvaturesWithDerivatives (N := NumR) cos sin solve b m = Ok (map S (m_verts m), m) /\
    (forall f, In f (m_faces m) -> FaceSign m S f (sg f)) /\ length D = length (m_verts m) /\
    (forall i v, nth_error (m_verts m) i = Some v -> VertexMark m sg v (nth i D (vzero, 0))) /\
    (AllReached m D -> exists out x, getFeatureLineFieldWithFlags (N := NumR) cos sin solve sparse b m = Ok (out, m) /\ Harmonic m D x /\ Directions m D x out).
Proof.
  intros V C ND HS HP. destruct (derivs_ok solve b m HS V C ND) as [(X & EX & HX)|E]; [|left; unfold getFeatureLineFieldWithFlags, bind; rewrite E; reflexivity].
  assert (LX : length X = length (m_verts m)) by (destruct HX as (L & n & T & G0 & F & P & C0 & G & E & _ & _ & _ & _ & -> & _); apply map_length).
  destruct (feature_field solve sparse b m X V C ND LX EX) as (S & sg & D & ES & Hsg & LD & Hm & Run). rewrite ES in EX.
  destruct (Classical_Prop.classic (AllReached m D)) as [Re|NR].
  - destruct (extend_ok sparse m D V C ND HP LD Re) as (x & Hx & _ & Ok_ & Th). destruct (Classical_Prop.classic (exists i, (i < length (m_verts m))%nat /\ ~ flagged D i /\ x i = vzero)) as [Z|Z]; [left; rewrite Run; exact (Th Z)|].
    right. exists S, sg, D. split; [exact EX|]. split; [exact Hsg|]. split; [exact LD|]. split; [exact Hm|]. intros _. destruct Ok_ as (out & Eo & Ho); [intros i Hi Fi Zi; apply Z; exists i; auto|]. exists out, x. rewrite Run. auto.
  - right. exists S, sg, D. split; [exact EX|]. split; [exact Hsg|]. split; [exact LD|]. split; [exact Hm|]. intros Re. contradiction.
Qed.
(** When the field is computed, given that the curvatures and their derivatives are. *)
Theorem field_when solve sparse b m X : Valid m -> Closed m -> NonDegenerate m -> ExactSolver sparse -> length X = length (m_verts m) ->
  getPrincipalCurvaturesWithDerivatives (N := NumR) cos sin solve b m = Ok (X, m) ->
  exists S sg D, X = map S (m_verts m) /\ (forall f, In f (m_faces m) -> FaceSign m S f (sg f)) /\ length D = length (m_verts m) /\
    (forall i v, nth_error (m_verts m) i = Some v -> VertexMark m sg v (nth i D (vzero, 0))) /\
    (AllReached m D -> exists x, Harmonic m D x /\
      ((forall i, (i < length (m_verts m))%nat -> ~ flagged D i -> x i <> vzero) -> exists out, getFeatureLineFieldWithFlags (N := NumR) cos sin solve sparse b m = Ok (out, m) /\ Directions m D x out) /\
      ((exists i, (i < length (m_verts m))%nat /\ ~ flagged D i /\ x i = vzero) -> getFeatureLineFieldWithFlags (N := NumR) cos sin solve sparse b m = Abort AThrow)) /\
    ((forall i, ~ flagged D i) -> m_verts m <> [] -> (forall n A c k, (forall i, c i = 0) -> sparse n A c k = 0) -> getFeatureLineFieldWithFlags (N := NumR) cos sin solve sparse b m = Abort AThrow).
Proof.
  intros V C ND HP LX EX. destruct (feature_field solve sparse b m X V C ND LX EX) as (S & sg & D & ES & Hsg & LD & Hm & Run). exists S, sg, D. rewrite Run.
  split; [exact ES|]. split; [exact Hsg|]. split; [exact LD|]. split; [exact Hm|]. split.
  - intros Re. destruct (extend_ok sparse m D V C ND HP LD Re) as (x & Hx & _ & H). exists x. split; [exact Hx|exact H].
  - intros NF NE Z0. exact (extend_none sparse m D V LD NF NE Z0).
Qed.
