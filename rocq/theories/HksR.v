(** Heat kernel signatures: sums over eigenvectors. *)
From Coq Require Import Reals Lra Lia List Arith ZArith Permutation.
From Verif Require Import Num NumInst LaplSpec LaplP LinR HksSpec.
Import ListNotations.
Local Open Scope R_scope.

Definition delta (i j : nat) : R := if Nat.eqb i j then 1 else 0.
Lemma sum_delta n k f : (k < n)%nat -> sum_to n (fun j => delta k j * f j) = f k.
Proof.
  intros H. rewrite (sum_to_ext n _ (fun j => if Nat.eqb k j then f k else 0)); [apply sum_to_one, H|].
  intros j _. unfold delta. destruct (Nat.eqb_spec k j) as [-> | _]; ring.
Qed.
Lemma delta_sym i j : delta i j = delta j i. Proof. unfold delta. rewrite Nat.eqb_sym. reflexivity. Qed.
Lemma sum_to_le n f g : (forall i, (i < n)%nat -> f i <= g i) -> sum_to n f <= sum_to n g.
Proof. intros H. assert (Q := sum_to_nonneg n (fun i => g i - f i)). cbn beta in Q. rewrite sum_to_minus in Q. assert (0 <= sum_to n g - sum_to n f); [apply Q; intros i Hi; specialize (H i Hi); lra|lra]. Qed.
Lemma sum_to_const n c : sum_to n (fun _ => c) = INR n * c.
Proof. induction n as [|n IH]; cbn [sum_to]; [cbn; ring|]. rewrite IH, S_INR. ring. Qed.

(** ** Products *)
Lemma inner_sym n f g : inner n f g = inner n g f.
Proof. apply sum_to_ext. intros; ring. Qed.
Lemma inner_sum n K (c : nat -> R) (v : nat -> nat -> R) g : inner n (fun x => sum_to K (fun j => c j * v j x)) g = sum_to K (fun j => c j * inner n (v j) g).
Proof.
  unfold inner. rewrite (sum_to_ext n _ (fun x => sum_to K (fun j => c j * (v j x * g x)))).
  - rewrite sum_to_swap. apply sum_to_ext. intros j _. apply sum_to_scal.
  - intros x _. rewrite <- sum_to_scalr. apply sum_to_ext. intros; ring.
Qed.
Lemma inner_minus n f g h : inner n (fun x => f x - g x) h = inner n f h - inner n g h.
Proof. unfold inner. rewrite <- sum_to_minus. apply sum_to_ext. intros; ring. Qed.
Lemma applied_sum n L K (c : nat -> R) (v : nat -> nat -> R) x : applied n L (fun y => sum_to K (fun j => c j * v j y)) x = sum_to K (fun j => c j * applied n L (v j) x).
Proof.
  unfold applied. rewrite (sum_to_ext n _ (fun y => sum_to K (fun j => c j * (L x y * v j y)))).
  - rewrite sum_to_swap. apply sum_to_ext. intros j _. apply sum_to_scal.
  - intros y _. rewrite <- sum_to_scal. apply sum_to_ext. intros; ring.
Qed.
Lemma applied_minus n L f g x : applied n L (fun y => f y - g y) x = applied n L f x - applied n L g x.
Proof. unfold applied. rewrite <- sum_to_minus. apply sum_to_ext. intros; ring. Qed.
Lemma self_adjoint n L f g : symmetric n L -> inner n (applied n L f) g = inner n f (applied n L g).
Proof.
  intros Sy. unfold inner, applied.
  rewrite (sum_to_ext n _ (fun x => sum_to n (fun y => L x y * f y * g x))) by (intros; rewrite <- sum_to_scalr; reflexivity).
  rewrite sum_to_swap. apply sum_to_ext. intros y Hy. rewrite <- sum_to_scal. apply sum_to_ext. intros x Hx. rewrite (Sy x y Hx Hy). ring.
Qed.
Lemma eigen_orth n L a b f g : symmetric n L -> Eigen n L a f -> Eigen n L b g -> a * inner n f g = b * inner n f g.
Proof.
  intros Sy Ef Eg. assert (Q := self_adjoint n L f g Sy). unfold inner in *.
  rewrite (sum_to_ext n _ (fun x => a * (f x * g x))) in Q by (intros x Hx; rewrite (Ef x Hx); ring).
  rewrite (sum_to_ext n (fun x => f x * _) (fun x => b * (f x * g x))) in Q by (intros x Hx; rewrite (Eg x Hx); ring).
  rewrite !sum_to_scal in Q. exact Q.
Qed.
Lemma qform_inner n L f : qform n L f = inner n f (applied n L f).
Proof. apply sum_to_ext. intros i _. unfold applied. rewrite <- sum_to_scal. apply sum_to_ext. intros; ring. Qed.
Lemma eigen_nonneg n L a f : psd n L -> Eigen n L a f -> inner n f f = 1 -> 0 <= a.
Proof.
  intros P E U. specialize (P f). rewrite qform_inner in P. unfold inner in *.
  rewrite (sum_to_ext n _ (fun x => a * (f x * f x))) in P by (intros x Hx; rewrite (E x Hx); ring). rewrite sum_to_scal, U in P. lra.
Qed.
Lemma eigen_nonneg' n L a f : psd n L -> Eigen n L a f -> nonzero n f -> 0 <= a.
Proof.
  intros P E (x0 & Hx & Nz). specialize (P f). rewrite qform_inner in P. unfold inner in *.
  rewrite (sum_to_ext n _ (fun x => a * (f x * f x))) in P by (intros x Hx'; rewrite (E x Hx'); ring). rewrite sum_to_scal in P.
  assert (Q : 0 <= sum_to n (fun x => f x * f x)) by (apply sum_to_nonneg; intros; apply Rle_0_sqr).
  destruct (Req_dec (sum_to n (fun x => f x * f x)) 0) as [Z | Z]; [exfalso; apply Nz; exact (sum_squares_0 n f Z x0 Hx)|].
  assert (0 < sum_to n (fun x => f x * f x)) by lra. apply Rmult_le_reg_r with (sum_to n (fun x => f x * f x)); lra.
Qed.
Lemma zero_or_not n f : nonzero n f \/ forall x, (x < n)%nat -> f x = 0.
Proof.
  destruct (Req_dec (sum_to n (fun x => f x * f x)) 0) as [Z | Z]; [right; intros x Hx; exact (sum_squares_0 n f Z x Hx)|]. left.
  induction n as [|n IH]; [cbn in Z; lra|]. cbn [sum_to] in Z. destruct (Req_dec (f n) 0) as [F | F]; [|exists n; split; [lia|exact F]].
  destruct IH as (x & Hx & Nx); [rewrite F in Z; lra|]. exists x. split; [lia|exact Nx].
Qed.

Lemma sum_nonneg_0 n f : (forall i, (i < n)%nat -> 0 <= f i) -> sum_to n f = 0 -> forall i, (i < n)%nat -> f i = 0.
Proof.
  induction n as [|n IH]; intros P Z i Hi; [lia|]. cbn [sum_to] in Z. assert (A := P n (Nat.lt_succ_diag_r n)).
  assert (B : 0 <= sum_to n f) by (apply sum_to_nonneg; intros; apply P; lia). destruct (Nat.eq_dec i n) as [-> | Ne]; [lra|]. apply IH; [intros; apply P; lia|lra|lia].
Qed.

(** ** Orthonormal rows of a square matrix make orthonormal columns *)
Lemma square_orth K (c : nat -> nat -> R) : (forall i l, (i < K)%nat -> (l < K)%nat -> sum_to K (fun j => c i j * c l j) = delta i l) ->
  forall j k, (j < K)%nat -> (k < K)%nat -> sum_to K (fun i => c i j * c i k) = delta j k.
Proof.
  intros Ro. set (P := fun j k => sum_to K (fun i => c i j * c i k)).
  assert (T : sum_to K (fun j => P j j) = INR K).
  { unfold P. rewrite sum_to_swap. rewrite (sum_to_ext K _ (fun _ => 1)); [rewrite sum_to_const; ring|]. intros i Hi. rewrite (Ro i i Hi Hi). unfold delta. rewrite Nat.eqb_refl. reflexivity. }
  assert (F : sum_to K (fun j => sum_to K (fun k => P j k * P j k)) = INR K).
  { rewrite (sum_to_ext K _ (fun j => sum_to K (fun i => sum_to K (fun l => c i j * c l j * delta i l)))).
    - rewrite sum_to_swap. rewrite (sum_to_ext K _ (fun _ => 1)); [rewrite sum_to_const; ring|]. intros i Hi. rewrite sum_to_swap.
      rewrite (sum_to_ext K _ (fun l => delta i l * delta i l)).
      + rewrite sum_delta by exact Hi. unfold delta. rewrite Nat.eqb_refl. reflexivity.
      + intros l Hl. rewrite sum_to_scalr, (Ro i l Hi Hl). reflexivity.
    - intros j Hj. rewrite (sum_to_ext K _ (fun k => sum_to K (fun i => sum_to K (fun l => c i j * c l j * (c i k * c l k))))).
      + rewrite sum_to_swap. apply sum_to_ext. intros i Hi. rewrite sum_to_swap. apply sum_to_ext. intros l Hl. rewrite sum_to_scal, (Ro i l Hi Hl). reflexivity.
      + intros k Hk. unfold P. rewrite <- sum_to_scalr. apply sum_to_ext. intros i Hi. rewrite <- sum_to_scal. apply sum_to_ext. intros l Hl. ring. }
  assert (Z : sum_to K (fun j => sum_to K (fun k => (delta j k - P j k) * (delta j k - P j k))) = 0).
  { rewrite (sum_to_ext K _ (fun j => (1 - 2 * P j j) + sum_to K (fun k => P j k * P j k))).
    - rewrite sum_to_plus, F, sum_to_minus, sum_to_scal, T, sum_to_const. ring.
    - intros j Hj. rewrite (sum_to_ext K _ (fun k => delta j k * (delta j k - 2 * P j k) + P j k * P j k)) by (intros; ring).
      rewrite sum_to_plus, sum_delta by exact Hj. unfold delta. rewrite Nat.eqb_refl. reflexivity. }
  intros j k Hj Hk. change (P j k = delta j k).
  assert (Zj := sum_nonneg_0 K _ (fun j _ => sum_to_nonneg K _ (fun k _ => Rle_0_sqr (delta j k - P j k))) Z j Hj). cbn beta in Zj.
  assert (Q := sum_squares_0 K (fun k => delta j k - P j k) Zj k Hk). cbn beta in Q. lra.
Qed.

(** ** Two spectra of one operator *)
Section Two.
Variables (n : nat) (L : nat -> nat -> R) (K : nat).
Variables (lam lam' : nat -> R) (U U' : nat -> nat -> R).
Hypothesis Sy : symmetric n L.
Hypothesis S1 : Spectrum n L K lam U.
Hypothesis S2 : Spectrum n L K lam' U'.
Notation u i := (fun x => U x i).
Notation u' i := (fun x => U' x i).
Definition cc (i j : nat) : R := inner n (fun x => U' x i) (fun x => U x j).
Lemma cc_comm i j : (i < K)%nat -> (j < K)%nat -> lam' i * cc i j = lam j * cc i j.
Proof. intros Hi Hj. exact (eigen_orth n L _ _ _ _ Sy (sp_eigen _ _ _ _ _ S2 i Hi) (sp_eigen _ _ _ _ _ S1 j Hj)). Qed.
Lemma cc_fun (f : R -> R) i j : (i < K)%nat -> (j < K)%nat -> f (lam' i) * cc i j = f (lam j) * cc i j.
Proof. intros Hi Hj. assert (Q := cc_comm i j Hi Hj). destruct (Req_dec (cc i j) 0) as [Z | Z]; [rewrite Z; ring|]. apply Rmult_eq_reg_r in Q; [rewrite Q; reflexivity|exact Z]. Qed.
Lemma u_gram i j : (i < K)%nat -> (j < K)%nat -> inner n (u i) (u j) = delta i j.
Proof. intros Hi Hj. unfold delta. destruct (Nat.eqb_spec i j) as [<- | Ne]; [apply (sp_unit _ _ _ _ _ S1 i Hi)|apply (sp_ortho _ _ _ _ _ S1 i j Hi Hj Ne)]. Qed.
Lemma u'_gram i j : (i < K)%nat -> (j < K)%nat -> inner n (u' i) (u' j) = delta i j.
Proof. intros Hi Hj. unfold delta. destruct (Nat.eqb_spec i j) as [<- | Ne]; [apply (sp_unit _ _ _ _ _ S2 i Hi)|apply (sp_ortho _ _ _ _ _ S2 i j Hi Hj Ne)]. Qed.

(** What is left of an eigenvector of the second list. *)
Definition left_of (i x : nat) : R := U' x i - sum_to K (fun j => cc i j * U x j).
Lemma left_orth i j : (i < K)%nat -> (j < K)%nat -> inner n (u j) (left_of i) = 0.
Proof.
  intros Hi Hj. rewrite inner_sym. unfold left_of. rewrite inner_minus, (inner_sum n K (cc i) (fun j x => U x j)).
  rewrite (sum_to_ext K _ (fun l => delta j l * cc i l)); [rewrite sum_delta by exact Hj; unfold cc; ring|].
  intros l Hl. rewrite (u_gram l j Hl Hj), delta_sym. ring.
Qed.
Lemma left_eigen i : (i < K)%nat -> Eigen n L (lam' i) (left_of i).
Proof.
  intros Hi x Hx. unfold left_of. rewrite applied_minus, (applied_sum n L K (cc i) (fun j x => U x j)).
  rewrite (sp_eigen _ _ _ _ _ S2 i Hi x Hx). rewrite Rmult_minus_distr_l. f_equal. rewrite <- sum_to_scal. apply sum_to_ext. intros j Hj.
  rewrite (sp_eigen _ _ _ _ _ S1 j Hj x Hx). assert (Q := cc_comm i j Hi Hj). transitivity (lam j * cc i j * U x j); [ring|]. rewrite <- Q. ring.
Qed.
Definition Spanned : Prop := forall i x, (i < K)%nat -> (x < n)%nat -> U' x i = sum_to K (fun j => cc i j * U x j).
Lemma spanned_rows : Spanned -> forall i l, (i < K)%nat -> (l < K)%nat -> sum_to K (fun j => cc i j * cc l j) = delta i l.
Proof.
  intros Sp i l Hi Hl. rewrite <- (u'_gram i l Hi Hl). unfold inner at 1.
  rewrite (sum_to_ext n _ (fun x => sum_to K (fun j => cc i j * U x j) * U' x l)) by (intros x Hx; rewrite <- (Sp i x Hi Hx); reflexivity).
  fold (inner n (fun x => sum_to K (fun j => cc i j * U x j)) (u' l)). rewrite (inner_sum n K (cc i) (fun j x => U x j)).
  apply sum_to_ext. intros j Hj. unfold cc at 2. rewrite inner_sym. reflexivity.
Qed.
Lemma spanned_cols : Spanned -> forall j k, (j < K)%nat -> (k < K)%nat -> sum_to K (fun i => cc i j * cc i k) = delta j k.
Proof. intros Sp. apply square_orth, spanned_rows, Sp. Qed.
(** Any function of the operator. *)
Lemma spanned_fun (f : R -> R) : Spanned -> forall x, (x < n)%nat -> sum_to K (fun i => f (lam' i) * (U' x i * U' x i)) = sum_to K (fun j => f (lam j) * (U x j * U x j)).
Proof.
  intros Sp x Hx. rewrite (sum_to_ext K _ (fun i => sum_to K (fun j => sum_to K (fun k => f (lam j) * U x j * U x k * (cc i j * cc i k))))).
  - rewrite sum_to_swap. apply sum_to_ext. intros j Hj. rewrite sum_to_swap.
    rewrite (sum_to_ext K _ (fun k => delta j k * (f (lam j) * U x j * U x k))); [rewrite sum_delta by exact Hj; ring|].
    intros k Hk. rewrite sum_to_scal, (spanned_cols Sp j k Hj Hk). ring.
  - intros i Hi. rewrite (Sp i x Hi Hx) at 1 2. rewrite <- sum_to_scalr, <- sum_to_scal. apply sum_to_ext. intros j Hj.
    rewrite <- !sum_to_scal. apply sum_to_ext. intros k Hk. assert (Q := cc_fun f i j Hi Hj).
    transitivity (f (lam' i) * cc i j * (U x j * (cc i k * U x k))); [ring|]. rewrite Q. ring.
Qed.
Lemma spanned_trace (f : R -> R) : Spanned -> sum_to K (fun i => f (lam' i)) = sum_to K (fun j => f (lam j)).
Proof.
  intros Sp. rewrite (sum_to_ext K _ (fun i => sum_to K (fun j => f (lam j) * (cc i j * cc i j)))).
  - rewrite sum_to_swap. apply sum_to_ext. intros j Hj. rewrite sum_to_scal, (spanned_cols Sp j j Hj Hj). unfold delta. rewrite Nat.eqb_refl. ring.
  - intros i Hi. rewrite (sum_to_ext K _ (fun j => f (lam' i) * (cc i j * cc i j))).
    + rewrite sum_to_scal, (spanned_rows Sp i i Hi Hi). unfold delta. rewrite Nat.eqb_refl. ring.
    + intros j Hj. assert (Q := cc_fun f i j Hi Hj). rewrite <- !Rmult_assoc, Q. reflexivity.
Qed.
End Two.

(** The eigenvalues in increasing order are determined by their numbers. *)
Lemma sorted_unique K (a b : nat -> R) : (forall i j, (i <= j < K)%nat -> a i <= a j) -> (forall i j, (i <= j < K)%nat -> b i <= b j) ->
  (forall f : R -> R, sum_to K (fun i => f (a i)) = sum_to K (fun i => f (b i))) -> forall k, (k < K)%nat -> ~ a k < b k.
Proof.
  intros Sa Sb Eq k Hk Lt. set (ind := fun y => if Rle_dec y (a k) then 1 else 0). specialize (Eq ind).
  assert (A : INR (k + 1) <= sum_to K (fun i => ind (a i))).
  { assert (G : forall c, (k + 1 <= c <= K)%nat -> INR (k + 1) <= sum_to c (fun i => ind (a i))).
    { induction c as [|c IH]; intros Hc; [lia|]. destruct (Nat.eq_dec (k + 1) (S c)) as [E | Ne].
      - rewrite (sum_to_ext _ _ (fun _ => 1)); [rewrite sum_to_const, <- E; lra|]. intros i Hi. unfold ind. destruct (Rle_dec (a i) (a k)) as [_ | Nle]; [reflexivity|].
        exfalso. apply Nle, Sa. lia.
      - cbn [sum_to]. assert (0 <= ind (a c)) by (unfold ind; destruct (Rle_dec _ _); lra). assert (INR (k + 1) <= sum_to c (fun i => ind (a i))) by (apply IH; lia). lra. }
    apply G. lia. }
  assert (B : sum_to K (fun i => ind (b i)) <= INR k).
  { assert (G : forall c, (c <= K)%nat -> sum_to c (fun i => ind (b i)) <= INR (Nat.min c k)).
    { induction c as [|c IH]; intros Hc; [cbn; lra|]. cbn [sum_to]. assert (I := IH ltac:(lia)). destruct (le_lt_dec k c) as [Le | Gt].
      - replace (ind (b c)) with 0; [rewrite Nat.min_r in * by lia; lra|]. unfold ind. destruct (Rle_dec (b c) (a k)) as [H | _]; [|reflexivity].
        exfalso. assert (b k <= b c) by (apply Sb; lia). lra.
      - rewrite Nat.min_l in * by lia. rewrite S_INR. assert (ind (b c) <= 1) by (unfold ind; destruct (Rle_dec _ _); lra). lra. }
    assert (Q := G K (le_n K)). rewrite Nat.min_r in Q by lia. exact Q. }
  rewrite plus_INR in A. cbn [INR] in A. lra.
Qed.

(** With a gap both lists span the same space. *)
Section Gapped.
Variables (n : nat) (L : nat -> nat -> R) (K : nat).
Variables (lam lam' : nat -> R) (U U' : nat -> nat -> R).
Hypothesis Sy : symmetric n L.
Hypothesis S1 : Spectrum n L K lam U.
Hypothesis S2 : Spectrum n L K lam' U'.
Hypothesis G : Gap n L K lam U.
Lemma gap_spanned : Spanned n K U U'.
Proof.
  assert (Or : (exists j, (j < K)%nat /\ nonzero n (left_of n K U' U j)) \/ Spanned n K U' U).
  { assert (D : forall c, (c <= K)%nat -> (exists j, (j < c)%nat /\ nonzero n (left_of n K U' U j)) \/ forall j x, (j < c)%nat -> (x < n)%nat -> left_of n K U' U j x = 0).
    { induction c as [|c IH]; intros Hc; [right; intros; lia|]. destruct (IH ltac:(lia)) as [(j & Hj & Nz) | Z]; [left; exists j; split; [lia|exact Nz]|].
      destruct (zero_or_not n (left_of n K U' U c)) as [Nz | Z']; [left; exists c; split; [lia|exact Nz]|]. right. intros j x Hj Hx.
      destruct (Nat.eq_dec j c) as [-> | Ne]; [apply Z', Hx|apply Z; [lia|exact Hx]]. }
    destruct (D K (le_n K)) as [Nz | Z]; [left; exact Nz|right]. intros j x Hj Hx. specialize (Z j x Hj Hx). unfold left_of in Z. lra. }
  destruct Or as [(j & Hj & Nz) | Sp].
  - intros i x Hi Hx. destruct (zero_or_not n (left_of n K U U' i)) as [Nz' | Z]; [exfalso|specialize (Z x Hx); unfold left_of in Z; lra].
    assert (A := G (lam' i) _ Nz' (left_eigen n L K lam lam' U U' Sy S1 S2 i Hi) (fun j Hj => left_orth n L K lam U U' S1 i j Hi Hj) j Hj).
    assert (B := sp_least _ _ _ _ _ S2 (lam j) _ Nz (left_eigen n L K lam' lam U' U Sy S2 S1 j Hj) (fun i Hi => left_orth n L K lam' U' U S2 j i Hj Hi) i Hi). lra.
  - (* U spanned by U': the columns of the coefficients are orthonormal, so U' is spanned by U *)
    assert (Co := spanned_cols n L K lam U' U S1 Sp). intros i x Hi Hx.
    rewrite (sum_to_ext K _ (fun j => sum_to K (fun l => U' x l * (cc n U' U j i * cc n U' U j l)))).
    + rewrite sum_to_swap. rewrite (sum_to_ext K _ (fun l => delta i l * U' x l)); [rewrite sum_delta by exact Hi; reflexivity|].
      intros l Hl. rewrite sum_to_scal, (Co i l Hi Hl). ring.
    + intros j Hj. rewrite (Sp j x Hj Hx). rewrite <- sum_to_scal. apply sum_to_ext. intros l Hl. unfold cc at 1. rewrite inner_sym. fold (cc n U' U j i). ring.
Qed.
Hypothesis Ps : psd n L.
Lemma spec_nonneg l W : Spectrum n L K l W -> forall i, (i < K)%nat -> 0 <= l i.
Proof. intros S i Hi. exact (eigen_nonneg n L (l i) _ Ps (sp_eigen _ _ _ _ _ S i Hi) (sp_unit _ _ _ _ _ S i Hi)). Qed.
Lemma spec_sorted l W : Spectrum n L K l W -> forall i j, (i <= j < K)%nat -> l i <= l j.
Proof. intros S i j H. assert (A := sp_sorted _ _ _ _ _ S i j H). rewrite !Rabs_pos_eq in A; [exact A|apply (spec_nonneg l W S); lia|apply (spec_nonneg l W S); lia]. Qed.
Lemma gap_values k : (k < K)%nat -> lam' k = lam k.
Proof.
  intros Hk. assert (T := fun f => spanned_trace n L K lam lam' U U' Sy S1 S2 f gap_spanned).
  destruct (Rtotal_order (lam' k) (lam k)) as [Lt | [E | Gt]]; [exfalso|exact E|exfalso].
  - exact (sorted_unique K lam' lam (spec_sorted _ _ S2) (spec_sorted _ _ S1) T k Hk Lt).
  - exact (sorted_unique K lam lam' (spec_sorted _ _ S1) (spec_sorted _ _ S2) (fun f => eq_sym (T f)) k Hk Gt).
Qed.
Lemma gap_heat x t : (x < n)%nat -> heat K lam' U' x t = heat K lam U x t.
Proof. intros Hx. exact (spanned_fun n L K lam lam' U U' Sy S1 S2 (fun y => exp (- (t * y))) gap_spanned x Hx). Qed.
End Gapped.
