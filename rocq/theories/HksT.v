(** Heat kernel signatures: renumbering, bounds, and a single time. *)
From Coq Require Import Reals Lra Lia List Arith ZArith Permutation.
From Verif Require Import Num NumInst Heap LaplSpec MeasureM LaplP LinR Hks HksSpec HksR HksP.
Import ListNotations.
Local Open Scope R_scope.

(** ** Renumbering *)
Lemma renum_perm n p : Renumbering n p -> Permutation (map p (seq 0 n)) (seq 0 n).
Proof.
  intros [Rg Inj]. apply NoDup_Permutation_bis.
  - assert (G : forall l, NoDup l -> (forall x, In x l -> (x < n)%nat) -> NoDup (map p l)).
    { induction l as [|a l IH]; intros Nd H; [constructor|]. inversion Nd; subst. cbn [map]. constructor; [|apply IH; [assumption|intros; apply H; right; assumption]].
      intros I. apply in_map_iff in I as (y & E & Iy). apply Inj in E; [subst; contradiction|apply H; right; exact Iy|apply H; left; reflexivity]. }
    apply G; [apply seq_NoDup|]. intros x I. apply in_seq in I. lia.
  - rewrite map_length. lia.
  - intros y I. apply in_map_iff in I as (x & <- & Ix). apply in_seq in Ix. apply in_seq. assert (Q := Rg x ltac:(lia)). lia.
Qed.
Lemma sum_seq n f : sum_to n f = rsum (map f (seq 0 n)).
Proof. rewrite <- (sum_to_list 0%nat f (seq 0 n)), seq_length. apply sum_to_ext. intros i Hi. rewrite seq_nth by exact Hi. reflexivity. Qed.
Lemma sum_renum n p f : Renumbering n p -> sum_to n (fun x => f (p x)) = sum_to n f.
Proof. intros R. rewrite !sum_seq, <- (map_map p f). apply rsum_perm, Permutation_map, renum_perm, R. Qed.
Lemma renum_onto n p y : Renumbering n p -> (y < n)%nat -> exists x, (x < n)%nat /\ p x = y.
Proof. intros R Hy. assert (I : In y (map p (seq 0 n))) by (apply (Permutation_in y (Permutation_sym (renum_perm n p R))), in_seq; lia). apply in_map_iff in I as (x & E & Ix). apply in_seq in Ix. exists x. split; [lia|exact E]. Qed.
Definition back (n : nat) (p : nat -> nat) (y : nat) : nat := match find (fun x => Nat.eqb (p x) y) (seq 0 n) with Some x => x | None => y end.
Lemma back_ok n p x : Renumbering n p -> (x < n)%nat -> back n p (p x) = x.
Proof.
  intros R Hx. unfold back. destruct (find (fun z => Nat.eqb (p z) (p x)) (seq 0 n)) as [z|] eqn:F.
  - apply find_some in F as [Iz E]. apply Nat.eqb_eq in E. apply in_seq in Iz. apply (proj2 R); [lia|exact Hx|exact E].
  - exfalso. assert (Q := find_none _ _ F x). cbn beta in Q. rewrite Nat.eqb_refl in Q. discriminate Q. apply in_seq. lia.
Qed.

Section Renum.
Variables (n : nat) (L L' : nat -> nat -> R) (p : nat -> nat).
Hypothesis Rp : Renumbering n p.
Hypothesis Lp : forall x y, (x < n)%nat -> (y < n)%nat -> L' (p x) (p y) = L x y.
Lemma eigen_renum l f : Eigen n L' l f <-> Eigen n L l (fun x => f (p x)).
Proof.
  assert (A : forall x, (x < n)%nat -> applied n L (fun x => f (p x)) x = applied n L' f (p x)).
  { intros x Hx. unfold applied. rewrite <- (sum_renum n p (fun y => L' (p x) y * f y) Rp). apply sum_to_ext. intros y Hy. rewrite (Lp x y Hx Hy). reflexivity. }
  split; intros E x Hx; [rewrite (A x Hx); apply E, (proj1 Rp), Hx|]. destruct (renum_onto n p x Rp Hx) as (y & Hy & <-). rewrite <- (A y Hy). exact (E y Hy).
Qed.
Lemma inner_renum f g : inner n (fun x => f (p x)) (fun x => g (p x)) = inner n f g.
Proof. apply (sum_renum n p (fun x => f x * g x) Rp). Qed.
Lemma spectrum_renum K lam U : Spectrum n L' K lam U -> Spectrum n L K lam (fun x i => U (p x) i).
Proof.
  intros S. constructor.
  - intros i Hi. apply (eigen_renum (lam i) (fun x => U x i)), (sp_eigen _ _ _ _ _ S i Hi).
  - intros i Hi. rewrite (inner_renum (fun x => U x i) (fun x => U x i)). apply (sp_unit _ _ _ _ _ S i Hi).
  - intros i j Hi Hj Ne. rewrite (inner_renum (fun x => U x i) (fun x => U x j)). apply (sp_ortho _ _ _ _ _ S i j Hi Hj Ne).
  - apply (sp_sorted _ _ _ _ _ S).
  - intros mu f Nz E O i Hi. set (g := fun y => f (back n p y)).
    assert (Eg : forall x, (x < n)%nat -> g (p x) = f x) by (intros x Hx; unfold g; rewrite (back_ok n p x Rp Hx); reflexivity).
    apply (sp_least _ _ _ _ _ S mu g).
    + destruct Nz as (x & Hx & Nx). exists (p x). split; [apply (proj1 Rp), Hx|]. rewrite (Eg x Hx). exact Nx.
    + apply eigen_renum. intros x Hx. rewrite (Eg x Hx). rewrite <- (E x Hx). apply sum_to_ext. intros y Hy. rewrite (Eg y Hy). reflexivity.
    + intros j Hj. rewrite <- (inner_renum (fun x => U x j) g). rewrite <- (O j Hj). apply sum_to_ext. intros x Hx. rewrite (Eg x Hx). reflexivity.
    + exact Hi.
Qed.
End Renum.

Theorem hks_determined eigs eigs' n L L' p K nT : psd n L -> symmetric n L -> Renumbering n p -> (forall x y, (x < n)%nat -> (y < n)%nat -> L' (p x) (p y) = L x y) ->
  (2 <= K < n)%nat -> ExactEigs eigs n L K -> ExactEigs eigs' n L' K -> EigsGap eigs n L K ->
  exists H H', @getHeatKernelSignatures NumR ln eigs n L (Z.of_nat K) nT = Ok H /\ @getHeatKernelSignatures NumR ln eigs' n L' (Z.of_nat K) nT = Ok H' /\
    forall x j, (x < n)%nat -> (j < nT)%nat -> at2 H' (p x) j = at2 H x j.
Proof.
  intros Ps Sy Rp Lp HK (lam & U & E & S) (lam' & U' & E' & S') G. specialize (G lam U E).
  rewrite (hks_run eigs n L K nT lam U E HK), (hks_run eigs' n L' K nT lam' U' E' HK). eexists. eexists. split; [reflexivity|]. split; [reflexivity|].
  assert (S2 := spectrum_renum n L L' p Rp Lp K lam' U' S').
  assert (Lv := gap_values n L K lam lam' U _ Sy S S2 G Ps). intros x j Hx Hj.
  rewrite (at_table n nT (fun x j => heat K lam' U' x (time_at (limit_time (lam' (K - 1)%nat)) (limit_time (lam' 1%nat)) nT j)) (p x) j (proj1 Rp x Hx) Hj).
  rewrite (at_table n nT (fun x j => heat K lam U x (time_at (limit_time (lam (K - 1)%nat)) (limit_time (lam 1%nat)) nT j)) x j Hx Hj).
  rewrite (Lv (K - 1)%nat), (Lv 1%nat) by lia. exact (gap_heat n L K lam lam' U _ Sy S S2 G x _ Hx).
Qed.

(** ** Bounds *)
Lemma geometric_grows k a b T j : Geometric k a b T -> a <= b -> (S j < k)%nat -> T j <= T (S j).
Proof.
  intros (Ea & Eb & Pos & q & Hq & St) Le Hj. rewrite (St j Hj). assert (Pj := Pos j ltac:(lia)).
  assert (Q1 : 1 <= q); [|nra]. destruct (Rle_dec 1 q) as [H | H]; [exact H|exfalso].
  assert (D : forall i, (S i < k)%nat -> T (S i) < T 0%nat).
  { induction i as [|i IH]; intros Hi; rewrite (St _ Hi); [assert (P := Pos 0%nat ltac:(lia)); nra|]. assert (I := IH ltac:(lia)). assert (P := Pos (S i) ltac:(lia)). nra. }
  destruct (Nat.eq_dec (k - 1) 0) as [Z | Z]; [lia|]. replace (k - 1)%nat with (S (k - 2)) in Eb by lia. assert (Q := D (k - 2)%nat ltac:(lia)). lra.
Qed.
Theorem hks_bounds eigs n L K nT : psd n L -> symmetric n L -> ExactEigs eigs n L K -> (2 <= K < n)%nat -> (2 <= nT)%nat ->
  exists H, @getHeatKernelSignatures NumR ln eigs n L (Z.of_nat K) nT = Ok H /\ dims H n nT /\
   (forall x j, (x < n)%nat -> (j < nT)%nat -> 0 <= at2 H x j <= 1) /\
   (forall x j, (x < n)%nat -> (S j < nT)%nat -> at2 H x (S j) <= at2 H x j) /\
   (forall j, (j < nT)%nat -> sum_to n (fun x => at2 H x j) <= INR K) /\
   (rows_vanish n L -> (forall lam U, eigs n L K = Some (lam, U) -> 0 < lam 1%nat) -> forall x j, (x < n)%nat -> (j < nT)%nat -> 1 / INR n <= at2 H x j).
Proof.
  intros Ps Sy (lam & U & E & S) HK HT. destruct (hks_ok eigs n L K nT lam U E HK HT) as (H & T & Ru & D & Ge & At). exists H. split; [exact Ru|]. split; [exact D|].
  assert (Nn := spec_nonneg n L K Ps lam U S). assert (So := spec_sorted n L K Ps lam U S).
  assert (Gr := fun j => geometric_grows nT _ _ T j Ge (limit_anti _ _ (So 1%nat (K - 1)%nat ltac:(lia)))).
  destruct Ge as (_ & _ & Pos & _). split; [|split; [|split]].
  - intros x j Hx Hj. rewrite (At x j Hx Hj). split; [apply heat_nonneg|apply (heat_le_1 n L K lam U S Nn x (T j) Hx), Rlt_le, Pos, Hj].
  - intros x j Hx Hj. rewrite (At x (Datatypes.S j) Hx Hj), (At x j Hx ltac:(lia)). apply (heat_decay K lam U Nn). exact (Gr j Hj).
  - intros j Hj. rewrite (sum_to_ext n _ (fun x => heat K lam U x (T j))) by (intros x Hx; exact (At x j Hx Hj)). rewrite (heat_trace n L K lam U S).
    rewrite <- (Rmult_1_r (INR K)), <- sum_to_const. apply sum_to_le. intros i Hi. rewrite <- exp_0. assert (A := Nn i Hi). assert (P := Pos j Hj).
    assert (Q : - (T j * lam i) <= 0) by nra. destruct Q as [Q | Q]; [left; apply exp_increasing, Q|rewrite Q; right; reflexivity].
  - intros Rv P1 x j Hx Hj. rewrite (At x j Hx Hj). apply (heat_ge n L K lam U S Nn x (T j) Sy Rv (proj1 HK) (P1 lam U E) So Hx).
Qed.

(** ** One eigenvalue *)
Theorem hks_one {N : Num} nlog eigs n L nT r : (2 <= n)%nat -> eigs n L 1%nat = Some r -> @getHeatKernelSignatures N nlog eigs n L 1 nT = UB OutOfBounds.
Proof. intros Hn E. unfold getHeatKernelSignatures. rewrite (proj2 (Z.ltb_lt _ _)) by lia. cbn [negb Z.ltb Z.compare]. change (Z.to_nat 1) with 1%nat. rewrite E. destruct r. reflexivity. Qed.
Theorem hks_many eigs n L K nT lam U : eigs n L K = Some (lam, U) -> (2 <= K < n)%nat -> (2 <= nT)%nat ->
  exists H, @getHeatKernelSignatures NumR ln eigs n L (Z.of_nat K) nT = Ok H /\ dims H n nT.
Proof. intros E HK HT. destruct (hks_ok eigs n L K nT lam U E HK HT) as (H & T & R & D & _). exists H. split; [exact R|exact D]. Qed.
