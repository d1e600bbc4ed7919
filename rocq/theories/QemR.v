(** computeQEM in exact arithmetic. *)
From Coq Require Import Reals Lra Bool List ZArith Arith Lia.
From Verif Require Import Num NumInst Vec VecR Heap Mesh GeomSpec MeasureM FilterSpec LaplP LinR Prog Simplify Qem L0Spec QemSpec.
Import ListNotations.
Local Open Scope R_scope.

Definition four := nat -> R.
Definition mats (L : list four) (i j : nat) : R := total (map (fun k => k i * k j) L).
Definition lin (k : four) (x : four) : R := k 0%nat * x 0%nat + k 1%nat * x 1%nat + k 2%nat * x 2%nat + k 3%nat * x 3%nat.
Definition err (L : list four) (x : four) : R := total (map (fun k => Rsqr (lin k x)) L).
Definition mspread (L : list four) : R :=
  mats L 0 0 * (mats L 1 1 * mats L 2 2 - mats L 1 2 * mats L 1 2)
  - mats L 0 1 * (mats L 0 1 * mats L 2 2 - mats L 1 2 * mats L 0 2)
  + mats L 0 2 * (mats L 0 1 * mats L 1 2 - mats L 1 1 * mats L 0 2).
Lemma mats_sym L i j : mats L i j = mats L j i.
Proof. unfold mats, total. apply rsum_ext. intros k _. ring. Qed.
Lemma err_form L x : err L x = x 0%nat * (mats L 0 0 * x 0%nat + mats L 0 1 * x 1%nat + mats L 0 2 * x 2%nat + mats L 0 3 * x 3%nat)
  + x 1%nat * (mats L 1 0 * x 0%nat + mats L 1 1 * x 1%nat + mats L 1 2 * x 2%nat + mats L 1 3 * x 3%nat)
  + x 2%nat * (mats L 2 0 * x 0%nat + mats L 2 1 * x 1%nat + mats L 2 2 * x 2%nat + mats L 2 3 * x 3%nat)
  + x 3%nat * (mats L 3 0 * x 0%nat + mats L 3 1 * x 1%nat + mats L 3 2 * x 2%nat + mats L 3 3 * x 3%nat).
Proof.
  unfold err, mats, total. induction L as [|k L IH]; cbn [map fold_right]; [ring|]. rewrite IH. unfold lin, Rsqr. ring.
Qed.
Definition upd (x q : four) : four := fun i => x i + q i.
(** The difference of two errors is a sum of squares where the gradient vanishes. *)
Lemma err_gap L x q : q 3%nat = 0 -> (forall i, (i < 3)%nat -> lin (mats L i) x = 0) -> err L (upd x q) = err L x + err L q.
Proof.
  intros Q H. assert (H0 := H 0%nat ltac:(lia)). assert (H1 := H 1%nat ltac:(lia)). assert (H2 := H 2%nat ltac:(lia)). unfold lin in *.
  assert (S : forall i j, mats L i j = mats L j i) by apply mats_sym.
  rewrite !err_form. unfold upd. rewrite Q. rewrite (S 1%nat 0%nat), (S 2%nat 0%nat), (S 3%nat 0%nat), (S 2%nat 1%nat), (S 3%nat 1%nat), (S 3%nat 2%nat) in *.
  match goal with |- ?l = ?r => replace l with (r + 2 * q 0%nat * (mats L 0 0 * x 0%nat + mats L 0 1 * x 1%nat + mats L 0 2 * x 2%nat + mats L 0 3 * x 3%nat)
    + 2 * q 1%nat * (mats L 0 1 * x 0%nat + mats L 1 1 * x 1%nat + mats L 1 2 * x 2%nat + mats L 1 3 * x 3%nat) + 2 * q 2%nat * (mats L 0 2 * x 0%nat + mats L 1 2 * x 1%nat + mats L 2 2 * x 2%nat + mats L 2 3 * x 3%nat)) by ring end.
  rewrite H0, H1, H2. ring.
Qed.
Lemma err_nonneg L x : 0 <= err L x.
Proof. apply rsum_nonneg. intros k _. apply Rle_0_sqr. Qed.
Lemma err_zero L x : err L x = 0 -> forall k, In k L -> lin k x = 0.
Proof.
  intros E k Hk. induction L as [|a L IH]; [destruct Hk|]. assert (P := err_nonneg L x). assert (Q := Rle_0_sqr (lin a x)). unfold err in *. cbn [map total fold_right] in E. unfold total in *.
  assert (Rsqr (lin a x) = 0) by lra. destruct Hk as [<- | Hk]; [apply Rsqr_0_uniq; assumption|apply IH; [lra|exact Hk]].
Qed.
Lemma grad_zero L x i : (forall k, In k L -> lin k x = 0) -> lin (mats L i) x = 0.
Proof.
  intros H. unfold lin, mats, total. induction L as [|k L IH]; cbn [map fold_right]; [ring|]. assert (A := H k (or_introl eq_refl)). assert (B := IH (fun k Hk => H k (or_intror Hk))). unfold lin in A.
  match type of B with ?b = 0 => match goal with |- ?g = 0 => replace g with (k i * (k 0%nat * x 0%nat + k 1%nat * x 1%nat + k 2%nat * x 2%nat + k 3%nat * x 3%nat) + b) by ring end end. rewrite A, B. ring.
Qed.
Lemma spread_regular L q : mspread L <> 0 -> q 3%nat = 0 -> (forall i, (i < 3)%nat -> lin (mats L i) q = 0) -> q 0%nat = 0 /\ q 1%nat = 0 /\ q 2%nat = 0.
Proof.
  intros D Q H. assert (H0 := H 0%nat ltac:(lia)). assert (H1 := H 1%nat ltac:(lia)). assert (H2 := H 2%nat ltac:(lia)). clear H. unfold lin in *. rewrite Q in *. unfold mspread in D.
  rewrite (mats_sym L 1%nat 0%nat), (mats_sym L 2%nat 0%nat), (mats_sym L 2%nat 1%nat) in *.
  set (a := mats L 0 0) in *. set (b := mats L 0 1) in *. set (c := mats L 0 2) in *. set (e := mats L 1 1) in *. set (f := mats L 1 2) in *. set (i := mats L 2 2) in *.
  set (x := q 0%nat) in *. set (y := q 1%nat) in *. set (z := q 2%nat) in *. clearbody a b c e f i x y z.
  set (d := a * (e * i - f * f) - b * (b * i - f * c) + c * (b * f - e * c)) in *.
  assert (E0 : a * x + b * y + c * z = 0) by lra. assert (E1 : b * x + e * y + f * z = 0) by lra. assert (E2 : c * x + f * y + i * z = 0) by lra.
  assert (X : d * x = 0). { replace (d * x) with ((e * i - f * f) * (a * x + b * y + c * z) - (b * i - f * c) * (b * x + e * y + f * z) + (b * f - e * c) * (c * x + f * y + i * z)) by (unfold d; ring). rewrite E0, E1, E2. ring. }
  assert (Y : d * y = 0). { replace (d * y) with (- (b * i - f * c) * (a * x + b * y + c * z) + (a * i - c * c) * (b * x + e * y + f * z) - (a * f - b * c) * (c * x + f * y + i * z)) by (unfold d; ring). rewrite E0, E1, E2. ring. }
  assert (Z : d * z = 0). { replace (d * z) with ((b * f - e * c) * (a * x + b * y + c * z) - (a * f - b * c) * (b * x + e * y + f * z) + (a * e - b * b) * (c * x + f * y + i * z)) by (unfold d; ring). rewrite E0, E1, E2. ring. }
  split; [|split]; (apply Rmult_integral in X; apply Rmult_integral in Y; apply Rmult_integral in Z; tauto).
Qed.
Lemma det_spread (L : list four) (m1 m2 : mat4 NumR) : (forall i j, (i < 4)%nat -> (j < 4)%nat -> m1 i j + m2 i j = mats L i j) -> det4 (N := NumR) (qem_matrix (N := NumR) m1 m2) = mspread L.
Proof.
  intros E. unfold det4, minor, det3, qem_matrix. cbn [Nat.ltb Nat.leb Nat.eqb]. change (@nadd NumR) with Rplus. change (@nmul NumR) with Rmult. change (@nsub NumR) with Rminus. change (@none_ NumR) with 1. change (@nzero NumR) with 0.
  rewrite !E by lia. unfold mspread. rewrite (mats_sym L 1%nat 0%nat), (mats_sym L 2%nat 0%nat), (mats_sym L 2%nat 1%nat). rg.
Qed.
Lemma value_err (L : list four) (m1 m2 : mat4 NumR) x : (forall i j, (i < 4)%nat -> (j < 4)%nat -> m1 i j + m2 i j = mats L i j) -> qem_value (N := NumR) m1 m2 x = err L x.
Proof.
  intros E. unfold qem_value, sum4, madd. change (@nadd NumR) with Rplus. change (@nmul NumR) with Rmult. rewrite !E by lia. rewrite err_form. rg.
Qed.
Lemma eps8_R : @eps8 NumR = / 10 ^ 8.
Proof. unfold eps8. change (@ndiv NumR) with Rdiv. change (@none_ NumR) with 1. change (@nofZ NumR 100000000) with (IZR 100000000). lra. Qed.
Lemma solution_exists (L : list four) (m1 m2 : mat4 NumR) : (forall i j, (i < 4)%nat -> (j < 4)%nat -> m1 i j + m2 i j = mats L i j) -> mspread L <> 0 -> exists x, solution4 (qem_matrix (N := NumR) m1 m2) (qem_rhs (N := NumR)) x.
Proof.
  intros E D. set (a := mats L 0 0) in *. set (b := mats L 0 1) in *. set (c := mats L 0 2) in *. set (e := mats L 1 1) in *. set (f := mats L 1 2) in *. set (i := mats L 2 2) in *.
  set (u := - mats L 0 3). set (v := - mats L 1 3). set (w := - mats L 2 3).
  set (d := mspread L) in *. assert (Ed : d = a * (e * i - f * f) - b * (b * i - f * c) + c * (b * f - e * c)) by reflexivity.
  exists (fun k => match k with 0%nat => ((e * i - f * f) * u - (b * i - f * c) * v + (b * f - e * c) * w) / d | 1%nat => (- (b * i - f * c) * u + (a * i - c * c) * v - (a * f - b * c) * w) / d | 2%nat => ((b * f - e * c) * u - (a * f - b * c) * v + (a * e - b * b) * w) / d | _ => 1 end).
  intros k Hk. unfold qem_matrix, qem_rhs. change (@nadd NumR) with Rplus. change (@none_ NumR) with 1. change (@nzero NumR) with 0.
  destruct k as [|[|[|[|k]]]]; [| | | |lia]; cbn [Nat.ltb Nat.leb Nat.eqb]; rewrite ?E by lia; rewrite ?(mats_sym L 1%nat 0%nat), ?(mats_sym L 2%nat 0%nat), ?(mats_sym L 2%nat 1%nat); fold a b c e f i.
  - replace (mats L 0 3) with (- u) by (unfold u; ring). apply Rmult_eq_reg_l with d; [|exact D]. rewrite Rmult_0_r. transitivity (d * u - u * d + 0); [|ring]. field_simplify_eq; [|exact D]. rewrite Ed. ring.
  - replace (mats L 1 3) with (- v) by (unfold v; ring). field_simplify_eq; [|exact D]. rewrite Ed. ring.
  - replace (mats L 2 3) with (- w) by (unfold w; ring). field_simplify_eq; [|exact D]. rewrite Ed. ring.
  - ring.
Qed.
Definition hom1 (p : vecR) : four := hom (N := NumR) p 1.
Theorem computeQEM_ok (L : list four) (m1 m2 : mat4 NumR) p1 p2 c v : (forall i j, (i < 4)%nat -> (j < 4)%nat -> m1 i j + m2 i j = mats L i j) ->
  computeQEM (N := NumR) solution4 m1 m2 p1 p2 c v ->
  c = err L (hom1 v) /\ (/ 10 ^ 8 <= mspread L -> forall q, q <> v -> err L (hom1 v) < err L (hom1 q)) /\ (mspread L < / 10 ^ 8 -> v = vscale (/ 2) (vadd p1 p2)).
Proof.
  intros E H. destruct H as [H v | x H Hx].
  - rewrite (det_spread L m1 m2 E), eps8_R in H. change (@nltb NumR) with Rltb in H. unfold Rltb in H. destruct (Rlt_dec (mspread L) (/ 10 ^ 8)) as [Lt|]; [|discriminate].
    split; [apply (value_err L m1 m2 _ E)|]. split; [intros; lra|]. intros _. reflexivity.
  - rewrite (det_spread L m1 m2 E), eps8_R in H. change (@nltb NumR) with Rltb in H. unfold Rltb in H. destruct (Rlt_dec (mspread L) (/ 10 ^ 8)) as [|Ge]; [discriminate|].
    assert (X3 : x 3%nat = 1). { assert (Y := Hx 3%nat ltac:(lia)). unfold qem_matrix, qem_rhs in Y. cbn [Nat.ltb Nat.leb Nat.eqb] in Y. change (@none_ NumR) with 1 in Y. change (@nzero NumR) with 0 in Y. change (@num NumR) with R in *. lra. }
    assert (G : forall i, (i < 3)%nat -> lin (mats L i) x = 0).
    { intros i Hi. assert (Y := Hx i ltac:(lia)). unfold qem_matrix, qem_rhs in Y. destruct (Nat.ltb_spec i 3); [|lia]. destruct (Nat.eqb_spec i 3); [lia|]. change (@nadd NumR) with Rplus in Y. change (@nzero NumR) with 0 in Y. rewrite !E in Y by lia. unfold lin. exact Y. }
    rewrite (value_err L m1 m2 _ E). set (v := V3 (x 0%nat) (x 1%nat) (x 2%nat) : vecR).
    assert (Ex : forall L', err L' x = err L' (hom1 v)). { intros L'. rewrite !err_form. unfold hom1, hom, v. cbn [vx vy vz]. rewrite X3. reflexivity. }
    split; [apply Ex|]. split; [|intros; lra]. intros _ q Nq. rewrite <- Ex.
    set (z := fun i => hom1 q i - x i). assert (Z3 : z 3%nat = 0) by (unfold z, hom1, hom; rewrite X3; lra).
    assert (Eq : err L (hom1 q) = err L (upd x z)). { rewrite !err_form. unfold upd, z. replace (x 0%nat + (hom1 q 0%nat - x 0%nat)) with (hom1 q 0%nat) by ring. replace (x 1%nat + (hom1 q 1%nat - x 1%nat)) with (hom1 q 1%nat) by ring. replace (x 2%nat + (hom1 q 2%nat - x 2%nat)) with (hom1 q 2%nat) by ring. replace (x 3%nat + (hom1 q 3%nat - x 3%nat)) with (hom1 q 3%nat) by ring. reflexivity. }
    rewrite Eq, (err_gap L x z Z3 G). assert (P := err_nonneg L z). destruct (Req_dec (err L z) 0) as [Z|Z]; [|lra]. exfalso. apply Nq.
    assert (D : mspread L <> 0) by (assert (0 < / 10 ^ 8) by (apply Rinv_0_lt_compat, pow_lt; lra); lra).
    destruct (spread_regular L z D Z3 (fun i _ => grad_zero L z i (err_zero L z Z))) as (A0 & A1 & A2). unfold z, hom1, hom in A0, A1, A2. unfold v. destruct q as [a b d]. cbn [vx vy vz] in *. f_equal; lra.
Qed.
Theorem computeQEM_exists (L : list four) (m1 m2 : mat4 NumR) p1 p2 : (forall i j, (i < 4)%nat -> (j < 4)%nat -> m1 i j + m2 i j = mats L i j) -> exists c v, computeQEM (N := NumR) solution4 m1 m2 p1 p2 c v.
Proof.
  intros E. destruct (Rlt_dec (mspread L) (/ 10 ^ 8)) as [Lt|Ge].
  - eexists _, _. apply cq_mid. rewrite (det_spread L m1 m2 E), eps8_R. change (@nltb NumR) with Rltb. unfold Rltb. destruct (Rlt_dec (mspread L) (/ 10 ^ 8)); [reflexivity|contradiction].
  - assert (D : mspread L <> 0) by (assert (0 < / 10 ^ 8) by (apply Rinv_0_lt_compat, pow_lt; lra); lra). destruct (solution_exists L m1 m2 E D) as (x & Hx). eexists _, _. apply (cq_lu (N := NumR) _ _ _ _ _ x); [|exact Hx].
    rewrite (det_spread L m1 m2 E), eps8_R. change (@nltb NumR) with Rltb. unfold Rltb. destruct (Rlt_dec (mspread L) (/ 10 ^ 8)); [contradiction|reflexivity].
Qed.
