(** Least squares with real matrices: positive definite systems have exactly one solution, and
    it is the minimiser. *)
From Coq Require Import Reals Lra Lia List Arith.
From Verif Require Import Num NumInst LaplSpec LaplP.
Local Open Scope R_scope.

Lemma sum_to_0 n : sum_to n (fun _ => 0) = 0. Proof. induction n; cbn [sum_to]; lra. Qed.
Lemma sum_to_swap n k (f : nat -> nat -> R) : sum_to n (fun i => sum_to k (fun j => f i j)) = sum_to k (fun j => sum_to n (fun i => f i j)).
Proof. induction n as [|n IH]; cbn [sum_to]; [rewrite sum_to_0; reflexivity|]. rewrite sum_to_plus, IH. reflexivity. Qed.
Lemma sum_to_nonneg n f : (forall i, (i < n)%nat -> 0 <= f i) -> 0 <= sum_to n f.
Proof. induction n as [|n IH]; intros H; cbn [sum_to]; [lra|]. assert (0 <= sum_to n f) by (apply IH; intros; apply H; lia). assert (0 <= f n) by (apply H; lia). lra. Qed.
Lemma sum_to_scalr n c f : sum_to n (fun i => f i * c) = sum_to n f * c.
Proof. induction n as [|n IH]; cbn [sum_to]; [ring|rewrite IH; ring]. Qed.
Lemma sum_to_minus n f g : sum_to n (fun i => f i - g i) = sum_to n f - sum_to n g.
Proof. induction n as [|n IH]; cbn [sum_to]; [ring|rewrite IH; ring]. Qed.
Lemma sum_squares_0 n x : sum_to n (fun i => x i * x i) = 0 -> forall i, (i < n)%nat -> x i = 0.
Proof.
  induction n as [|n IH]; intros H i Hi; [lia|]. cbn [sum_to] in H. assert (P : 0 <= sum_to n (fun i => x i * x i)) by (apply sum_to_nonneg; intros; apply Rle_0_sqr).
  assert (Q : 0 <= x n * x n) by apply Rle_0_sqr. destruct (Nat.eq_dec i n) as [-> | Ne]; [apply Rsqr_0_uniq; unfold Rsqr; lra|]. apply IH; [lra|lia].
Qed.

(** ** Solvability by elimination of the last unknown *)
Definition posdef (n : nat) (A : nat -> nat -> R) : Prop := forall x, (exists i, (i < n)%nat /\ x i <> 0) -> 0 < qform n A x.
Definition ext (n : nat) (x : nat -> R) (t : R) (i : nat) : R := if Nat.eqb i n then t else x i.
Lemma ext_last n x t : ext n x t n = t. Proof. unfold ext. rewrite Nat.eqb_refl. reflexivity. Qed.
Lemma ext_other n x t i : (i < n)%nat -> ext n x t i = x i. Proof. intros H. unfold ext. destruct (Nat.eqb_spec i n); [lia|reflexivity]. Qed.
Lemma qform_ext n A x t : symmetric (S n) A -> qform (S n) A (ext n x t) = qform n A x + 2 * t * sum_to n (fun j => A n j * x j) + t * t * A n n.
Proof.
  intros Sy. unfold qform. cbn [sum_to]. rewrite sum_to_plus, ext_last.
  rewrite (sum_to_ext n (fun i => sum_to n (fun j => ext n x t i * A i j * ext n x t j)) (fun i => sum_to n (fun j => x i * A i j * x j))) by (intros i Hi; apply sum_to_ext; intros j Hj; rewrite !ext_other by assumption; reflexivity).
  rewrite (sum_to_ext n (fun i => ext n x t i * A i n * t) (fun i => (A n i * x i) * t)) by (intros i Hi; rewrite ext_other by exact Hi; rewrite (Sy i n) by lia; ring).
  rewrite (sum_to_ext n (fun j => t * A n j * ext n x t j) (fun j => (A n j * x j) * t)) by (intros i Hi; rewrite ext_other by exact Hi; ring).
  rewrite sum_to_scalr. ring.
Qed.
Lemma posdef_diag n A : posdef (S n) A -> 0 < A n n.
Proof.
  intros P. assert (Q : 0 < qform (S n) A (ext n (fun _ => 0) 1)) by (apply P; exists n; split; [lia|rewrite ext_last; lra]).
  unfold qform in Q. cbn [sum_to] in Q. rewrite ext_last in Q. rewrite (sum_to_ext n _ (fun _ => 0)) in Q.
  - rewrite sum_to_0 in Q. rewrite (sum_to_ext n _ (fun _ => 0)) in Q by (intros j Hj; rewrite ext_other by exact Hj; ring). rewrite sum_to_0 in Q. lra.
  - intros i Hi. rewrite (ext_other n _ _ i Hi). rewrite (sum_to_ext n _ (fun _ => 0)) by (intros j Hj; ring). rewrite sum_to_0. ring.
Qed.
Lemma qform_schur n A x : A n n <> 0 -> symmetric (S n) A ->
  qform n (fun i j => A i j - A i n * A n j / A n n) x = qform n A x - sum_to n (fun j => A n j * x j) * sum_to n (fun j => A n j * x j) / A n n.
Proof.
  intros Ha Sy. unfold qform. set (s := sum_to n (fun j => A n j * x j)).
  rewrite (sum_to_ext n _ (fun i => sum_to n (fun j => x i * A i j * x j) - (A n i * x i) * (s / A n n))).
  - rewrite sum_to_minus, sum_to_scalr. fold s. field. exact Ha.
  - intros i Hi. rewrite (sum_to_ext n _ (fun j => x i * A i j * x j - (A n i * x i / A n n) * (A n j * x j))) by (intros j Hj; rewrite (Sy i n) by lia; field; exact Ha).
    rewrite sum_to_minus, sum_to_scal. fold s. field. exact Ha.
Qed.
Theorem spd_solvable n : forall A b, symmetric n A -> posdef n A -> exists x, forall i, (i < n)%nat -> sum_to n (fun j => A i j * x j) = b i.
Proof.
  induction n as [|n IH]; intros A b Sy P; [exists (fun _ => 0); intros; lia|]. assert (Ha := posdef_diag n A P). assert (Na : A n n <> 0) by lra.
  set (B := fun i j => A i j - A i n * A n j / A n n).
  destruct (IH B (fun i => b i - A i n * b n / A n n)) as (x & Hx).
  - intros i j Hi Hj. unfold B. rewrite (Sy i j), (Sy i n), (Sy n j) by lia. field. exact Na.
  - intros x (i & Hi & Ni). unfold B. rewrite qform_schur by assumption. set (s := sum_to n (fun j => A n j * x j)).
    assert (Q : 0 < qform (S n) A (ext n x (- s / A n n))) by (apply P; exists i; split; [lia|rewrite ext_other by exact Hi; exact Ni]).
    rewrite (qform_ext n A x _ Sy) in Q. fold s in Q. replace (qform n A x - s * s / A n n) with (qform n A x + 2 * (- s / A n n) * s + - s / A n n * (- s / A n n) * A n n) by (field; exact Na). exact Q.
  - set (s := sum_to n (fun j => A n j * x j)). exists (ext n x ((b n - s) / A n n)). intros i Hi. cbn [sum_to]. rewrite ext_last.
    rewrite (sum_to_ext n _ (fun j => A i j * x j)) by (intros j Hj; rewrite ext_other by exact Hj; reflexivity).
    destruct (Nat.eq_dec i n) as [-> | Ne]; [fold s; field; exact Na|]. assert (Li : (i < n)%nat) by lia. assert (E := Hx i Li). unfold B in E.
    rewrite (sum_to_ext n _ (fun j => A i j * x j - (A i n / A n n) * (A n j * x j))) in E by (intros j Hj; field; exact Na). rewrite sum_to_minus, sum_to_scal in E. fold s in E.
    replace (sum_to n (fun j => A i j * x j)) with (b i - A i n * b n / A n n + A i n / A n n * s) by lra. field. exact Na.
Qed.

(** ** The energy |x - p|^2 + alpha |R x|^2 + beta |D x - d|^2 *)
Section LS.
Variables (n k : nat) (Rm Dm : nat -> nat -> R) (al be : R) (p d : nat -> R).
Hypothesis Hal : 0 <= al.
Hypothesis Hbe : 0 <= be.
Definition app (L : nat -> nat -> R) (x : nat -> R) (e : nat) : R := sum_to n (fun j => L e j * x j).
Definition sq (x : R) := x * x.
Definition lsq (x : nat -> R) : R := sum_to n (fun i => sq (x i - p i)) + al * sum_to k (fun e => sq (app Rm x e)) + be * sum_to k (fun e => sq (app Dm x e - d e)).
Definition lsA (i j : nat) : R := (if Nat.eqb i j then 1 else 0) + sum_to k (fun e => al * Rm e i * Rm e j) + sum_to k (fun e => be * Dm e i * Dm e j).
Definition lsb (i : nat) : R := p i + sum_to k (fun e => be * Dm e i * d e).
Lemma app_minus L x y e : app L (fun j => x j - y j) e = app L x e - app L y e.
Proof. unfold app. rewrite <- sum_to_minus. apply sum_to_ext. intros; ring. Qed.
Lemma app_dual L c x : sum_to n (fun i => x i * sum_to k (fun e => L e i * c e)) = sum_to k (fun e => app L x e * c e).
Proof.
  rewrite (sum_to_ext n _ (fun i => sum_to k (fun e => x i * (L e i * c e)))) by (intros i Hi; symmetry; apply sum_to_scal). rewrite sum_to_swap. apply sum_to_ext. intros e He. unfold app. rewrite <- sum_to_scalr. apply sum_to_ext. intros; ring.
Qed.
Lemma lsA_app x i : (i < n)%nat -> sum_to n (fun j => lsA i j * x j) = x i + sum_to k (fun e => Rm e i * (al * app Rm x e)) + sum_to k (fun e => Dm e i * (be * app Dm x e)).
Proof.
  intros Hi. assert (G : forall (c : R) L, sum_to n (fun j => sum_to k (fun e => c * L e i * L e j) * x j) = sum_to k (fun e => L e i * (c * app L x e))).
  { intros c L. rewrite (sum_to_ext n _ (fun j => sum_to k (fun e => (c * L e i * L e j) * x j))) by (intros j Hj; rewrite sum_to_scalr; reflexivity).
    rewrite sum_to_swap. apply sum_to_ext. intros e He. unfold app. rewrite <- !sum_to_scal. apply sum_to_ext. intros; ring. }
  unfold lsA. rewrite (sum_to_ext n _ (fun j => (if Nat.eqb i j then x i else 0) + (sum_to k (fun e => al * Rm e i * Rm e j) * x j + sum_to k (fun e => be * Dm e i * Dm e j) * x j))).
  - rewrite !sum_to_plus, sum_to_one by exact Hi. rewrite !G. ring.
  - intros j Hj. destruct (Nat.eqb_spec i j) as [<- | Ne]; ring.
Qed.
Lemma lsA_qform x : qform n lsA x = sum_to n (fun i => sq (x i)) + al * sum_to k (fun e => sq (app Rm x e)) + be * sum_to k (fun e => sq (app Dm x e)).
Proof.
  unfold qform. rewrite (sum_to_ext n _ (fun i => sq (x i) + (x i * sum_to k (fun e => Rm e i * (al * app Rm x e)) + x i * sum_to k (fun e => Dm e i * (be * app Dm x e))))).
  - rewrite !sum_to_plus. rewrite !app_dual. rewrite <- !sum_to_scal. unfold sq. rewrite Rplus_assoc. f_equal. f_equal; apply sum_to_ext; intros; ring.
  - intros i Hi. rewrite (sum_to_ext n _ (fun j => x i * (lsA i j * x j))) by (intros; ring). rewrite sum_to_scal, lsA_app by exact Hi. unfold sq. ring.
Qed.
Lemma sq_pos x : 0 <= sq x. Proof. apply Rle_0_sqr. Qed.
Lemma lsA_posdef : posdef n lsA.
Proof.
  intros x (i & Hi & Ni). rewrite lsA_qform. assert (0 <= al * sum_to k (fun e => sq (app Rm x e))) by (apply Rmult_le_pos; [exact Hal|apply sum_to_nonneg; intros; apply sq_pos]).
  assert (0 <= be * sum_to k (fun e => sq (app Dm x e))) by (apply Rmult_le_pos; [exact Hbe|apply sum_to_nonneg; intros; apply sq_pos]).
  assert (Q : 0 <= sum_to n (fun i => sq (x i))) by (apply sum_to_nonneg; intros; apply sq_pos). destruct Q as [Q|Q]; [lra|]. exfalso. apply Ni. apply (sum_squares_0 n x); [symmetry; exact Q|exact Hi].
Qed.
Lemma lsA_sym : symmetric n lsA.
Proof.
  intros i j _ _. unfold lsA. rewrite Nat.eqb_sym. f_equal; [f_equal|]; apply sum_to_ext; intros; ring.
Qed.
Theorem ls_exists : exists x, forall i, (i < n)%nat -> sum_to n (fun j => lsA i j * x j) = lsb i.
Proof. apply spd_solvable; [apply lsA_sym|apply lsA_posdef]. Qed.
(** The energy exceeds its value at the solution by at least the squared distance. *)
Theorem ls_gap x y : (forall i, (i < n)%nat -> sum_to n (fun j => lsA i j * x j) = lsb i) ->
  lsq y = lsq x + qform n lsA (fun i => y i - x i).
Proof.
  intros E. set (z := fun i => y i - x i).
  assert (Z : sum_to n (fun i => z i * (x i - p i)) + al * sum_to k (fun e => app Rm z e * app Rm x e) + be * sum_to k (fun e => app Dm z e * (app Dm x e - d e)) = 0).
  { assert (F : sum_to n (fun i => z i * (sum_to n (fun j => lsA i j * x j) - lsb i)) = 0) by (rewrite (sum_to_ext n _ (fun _ => 0)) by (intros i Hi; rewrite (E i Hi); ring); apply sum_to_0).
    rewrite <- F. rewrite (sum_to_ext n (fun i => z i * (sum_to n (fun j => lsA i j * x j) - lsb i)) (fun i => z i * (x i - p i) + (z i * sum_to k (fun e => Rm e i * (al * app Rm x e)) + z i * sum_to k (fun e => Dm e i * (be * (app Dm x e - d e)))))).
    - rewrite !sum_to_plus, !app_dual, <- !sum_to_scal. rewrite Rplus_assoc. f_equal. f_equal; apply sum_to_ext; intros; ring.
    - intros i Hi. rewrite lsA_app by exact Hi. unfold lsb.
      assert (G : sum_to k (fun e => Dm e i * (be * (app Dm x e - d e))) = sum_to k (fun e => Dm e i * (be * app Dm x e)) - sum_to k (fun e => be * Dm e i * d e)) by (rewrite <- sum_to_minus; apply sum_to_ext; intros; ring).
      rewrite G. ring. }
  rewrite lsA_qform. unfold lsq.
  assert (A1 : sum_to n (fun i => sq (y i - p i)) = sum_to n (fun i => sq (x i - p i)) + 2 * sum_to n (fun i => z i * (x i - p i)) + sum_to n (fun i => sq (z i))).
  { rewrite <- sum_to_scal, <- !sum_to_plus. apply sum_to_ext. intros. unfold z, sq. ring. }
  assert (A2 : sum_to k (fun e => sq (app Rm y e)) = sum_to k (fun e => sq (app Rm x e)) + 2 * sum_to k (fun e => app Rm z e * app Rm x e) + sum_to k (fun e => sq (app Rm z e))).
  { rewrite <- sum_to_scal, <- !sum_to_plus. apply sum_to_ext. intros e He. unfold z. rewrite app_minus. unfold sq. ring. }
  assert (A3 : sum_to k (fun e => sq (app Dm y e - d e)) = sum_to k (fun e => sq (app Dm x e - d e)) + 2 * sum_to k (fun e => app Dm z e * (app Dm x e - d e)) + sum_to k (fun e => sq (app Dm z e))).
  { rewrite <- sum_to_scal, <- !sum_to_plus. apply sum_to_ext. intros e He. unfold z. rewrite app_minus. unfold sq. ring. }
  rewrite A1, A2, A3. fold z. lra.
Qed.
Theorem ls_min x y : (forall i, (i < n)%nat -> sum_to n (fun j => lsA i j * x j) = lsb i) -> lsq x <= lsq y /\ (lsq y = lsq x -> forall i, (i < n)%nat -> y i = x i).
Proof.
  intros E. rewrite (ls_gap x y E). set (z := fun i => y i - x i). assert (QZ := lsA_qform z).
  assert (B1 : 0 <= al * sum_to k (fun e => sq (app Rm z e))) by (apply Rmult_le_pos; [exact Hal|apply sum_to_nonneg; intros; apply sq_pos]).
  assert (B2 : 0 <= be * sum_to k (fun e => sq (app Dm z e))) by (apply Rmult_le_pos; [exact Hbe|apply sum_to_nonneg; intros; apply sq_pos]).
  assert (B3 : 0 <= sum_to n (fun i => sq (z i))) by (apply sum_to_nonneg; intros; apply sq_pos). split; [lra|]. intros F i Hi.
  assert (Zi : z i = 0) by (apply (sum_squares_0 n z); [unfold sq in *; lra|exact Hi]). unfold z in Zi. lra.
Qed.
End LS.
