(** The tables of fillHoles: every cell that is read has been filled. *)
From Coq Require Import List ZArith Arith Lia Bool.
From Verif Require Import Num Vec Heap Mesh Spec Orbit Rings Exec Construct Wp Fill.
Import ListNotations.

(** What fillHoles needs from the arithmetic: Pi minus an angle is less than 1e12 (the initial
    value of the tables), for the angle 0 and for acos of every number clamped to [-1, 1]. *)
Class NumAngle (N : Num) : Prop := {
  ang_start : nltb nzero nbig12 = true;
  ang_flat : nltb (nsub npi nzero) nbig12 = true;
  ang_acos : forall c : num, nltb (nsub npi (nacos (nmax (nopp none_) (nmin c none_)))) nbig12 = true }.

Section D.
Context {N : Num} {NA : NumAngle N}.
Variable cabs : num -> num.
Notation none := (fun _ : abkind => False).
Notation wp := (wp none).
Notation T := (@tables N).

Lemma max_lt (a b c : num) : nltb a c = true -> nltb b c = true -> nltb (nmax a b) c = true.
Proof. unfold nmax. destruct (nltb a b); auto. Qed.
Lemma dihedral_lt (a b c d : vec N) : nltb (nsub npi (dihedral a b c d)) nbig12 = true.
Proof. unfold dihedral. cbv zeta. match goal with |- context [if ?b then _ else _] => destruct b end; [apply ang_flat|apply ang_acos]. Qed.
Lemma fill_angle_lt (a b c d e : vec N) : nltb (fill_angle a b c d e) nbig12 = true.
Proof. apply max_lt; apply dihedral_lt. Qed.

Lemma wp_fold (f : T -> nat -> M N T) m (I : nat -> T -> Prop) : forall len start t, I start t ->
  (forall i t, start <= i < start + len -> I i t -> wp (f t i) m (fun t' m' => m' = m /\ I (S i) t')) ->
  wp (mfold f t (seq start len)) m (fun t' m' => m' = m /\ I (start + len) t').
Proof.
  induction len as [|len IH]; intros start t H0 Hs; cbn [seq mfold].
  - apply wp_ret. rewrite Nat.add_0_r. auto.
  - apply wp_bind. eapply wp_conseq; [apply Hs; [lia|exact H0]|]. intros t' m' [-> H1]. replace (start + S len) with (S start + len) by lia. apply IH; [exact H1|]. intros i t'' B. apply Hs. lia.
Qed.

Section Hole.
Variables (m : mesh N) (bs : list nat) (em : edge_map) (bound : num).
Hypothesis W : WF m.
Hypothesis Hb : forall v, In v bs -> In v (m_verts m).
Let n := length bs.
Hypothesis He : forall j, j + 1 < n -> exists h, em j (j + 1) = Some h /\ In h (m_hes m).

Lemma wp_b_pos i (Q : vec N -> mesh N -> Prop) : i < n -> (forall x, Q x m) -> wp (b_pos (map Some bs) i) m Q.
Proof.
  intros L H. unfold b_pos, at_. rewrite nth_error_map. destruct (nth_error bs i) as [v|] eqn:E; [|apply nth_error_None in E; unfold n in L; lia].
  cbn [option_map]. apply wp_bind, wp_ret. apply wp_pos; [exact W|apply Hb; exact (nth_error_In _ _ E)|apply H].
Qed.
Lemma wp_opposite j (Q : vec N -> mesh N -> Prop) : j + 1 < n -> (forall x, Q x m) -> wp (opposite (em j (j + 1))) m Q.
Proof.
  intros L H. destruct (He j L) as (h & -> & I). unfold opposite. apply wp_bind, wp_rev; [exact W|exact I|]. intros r _ Ir. apply wp_bind, wp_next; [exact W|exact Ir|]. intros x _ Ix.
  apply wp_bind, wp_dst; [exact W|exact Ix|]. intros v _ Iv. apply wp_pos; [exact W|exact Iv|apply H].
Qed.

Record Good (P : nat -> nat -> Prop) (t : T) : Prop := {
  gd_ang : forall a b, P a b -> nltb (t_angle t a b) nbig12 = true;
  gd_big : forall a b, ~ P a b -> t_angle t a b = nbig12;
  gd_o : forall a b, P a b -> b = a + 1 \/ exists c, t_o t a b = Some c /\ a < c < b }.
Lemma Good_iff (P Q : nat -> nat -> Prop) t : (forall a b, P a b <-> Q a b) -> Good P t -> Good Q t.
Proof. intros E [A B C]. constructor; intros a b H; [apply A, E, H|apply B; intros K; apply H, E, K|apply C, E, H]. Qed.
Lemma Good_set (P : nat -> nat -> Prop) t a b area angle o : Good P t -> nltb angle nbig12 = true -> (b = a + 1 \/ exists c, o = Some c /\ a < c < b) ->
  Good (fun x y => P x y \/ (x = a /\ y = b)) (t_set a b area angle o t).
Proof.
  intros [A B C] L O. constructor; unfold t_set, upd2; cbn [t_angle t_o]; intros x y H;
    destruct (Nat.eqb_spec x a) as [Ex|Ex], (Nat.eqb_spec y b) as [Ey|Ey]; cbn [andb]; try (apply A; tauto); try (apply B; tauto); try (apply C; tauto); [exact L|exfalso; tauto|subst; exact O].
Qed.

Definition early (i a b : nat) : Prop := b < n /\ a < i /\ (b = a + 1 \/ b = a + 2).
Lemma start_ok t i : i + 1 < n -> Good (early i) t -> wp (fill_start (map Some bs) em n t i) m (fun t' m' => m' = m /\ Good (early (S i)) t').
Proof.
  intros L G. unfold fill_start. cbv zeta. assert (G1 := Good_set _ t i (i + 1) nzero nzero None G ang_start (or_introl eq_refl)).
  destruct (Nat.ltb_spec i (n - 2)) as [L2|L2].
  - apply wp_bind, wp_b_pos; [lia|intros v0]. apply wp_bind, wp_b_pos; [lia|intros v1]. apply wp_bind, wp_b_pos; [lia|intros v2].
    apply wp_bind, wp_opposite; [lia|intros v01]. apply wp_bind. replace (i + 2) with (i + 1 + 1) by lia. apply wp_opposite; [lia|intros v12]. apply wp_ret. split; [reflexivity|].
    eapply Good_iff; [|refine (Good_set _ _ i (i + 1 + 1) _ _ (Some (i + 1)) G1 (fill_angle_lt _ _ _ _ _) _); right; exists (i + 1); split; [reflexivity|lia]].
    intros a b. unfold early. cbn beta. lia.
  - apply wp_ret. split; [reflexivity|]. eapply Good_iff; [|exact G1]. intros a b. unfold early. cbn beta. lia.
Qed.

Definition done (j i a b : nat) : Prop := b < n /\ ((a < b /\ b < a + j) \/ (b = a + j /\ a < i)).
Lemma beyond_ok j i t a b (Q : vec N -> mesh N -> Prop) : Good (done j i) t \/ Good (done j (S i)) t -> a < b -> b < a + j -> b < n -> (forall x, Q x m) -> wp (beyond (map Some bs) em t a b) m Q.
Proof.
  intros G La Lb Ln H. unfold beyond. destruct (Nat.eqb_spec b (a + 1)) as [->|E]; [apply wp_opposite; [lia|exact H]|].
  assert (K : b = a + 1 \/ exists c, t_o t a b = Some c /\ a < c < b) by (destruct G as [G | G]; apply (gd_o _ _ G); unfold done; lia).
  destruct K as [K | (c & -> & B)]; [contradiction|]. apply wp_b_pos; [lia|exact H].
Qed.
Lemma try_ok j i c t : i + j < n -> i < c < i + j -> (Good (done j i) t \/ Good (done j (S i)) t) ->
  wp (fill_try cabs (map Some bs) em bound i (i + j) t c) m (fun t' m' => m' = m /\ Good (done j (S i)) t').
Proof.
  intros L Lc G. unfold fill_try.
  apply wp_bind, wp_b_pos; [lia|intros v0]. apply wp_bind, wp_b_pos; [lia|intros v1]. apply wp_bind, wp_b_pos; [lia|intros v2]. cbv zeta.
  apply wp_bind, (beyond_ok j i); [exact G|lia|lia|lia|intros v01]. apply wp_bind, (beyond_ok j i); [exact G|lia|lia|lia|intros v12].
  match goal with |- wp (if nltb ?x _ || _ then _ else _) _ _ => set (ang := x) end.
  assert (LA : nltb ang nbig12 = true).
  { apply max_lt; [apply fill_angle_lt|]. apply max_lt; destruct G as [G | G]; apply (gd_ang _ _ G); unfold done; lia. }
  clearbody ang.
  assert (SET : forall area, Good (done j (S i)) (t_set i (i + j) area ang (Some c) t)).
  { intros area. assert (O : i + j = i + 1 \/ exists c', Some c = Some c' /\ i < c' < i + j) by (right; exists c; split; [reflexivity|lia]).
    destruct G as [G | G]; (eapply Good_iff; [|exact (Good_set _ t i (i + j) area ang (Some c) G LA O)]); intros a b; unfold done; cbn beta; lia. }
  destruct G as [G | G].
  - rewrite (gd_big _ _ G i (i + j)) by (unfold done; lia). rewrite LA. cbn [orb]. apply wp_ret. split; [reflexivity|apply SET].
  - apply wp_if; intros _; apply wp_ret; (split; [reflexivity|]); [apply SET|exact G].
Qed.
Lemma cell_ok j i t : 3 <= j -> i + j < n -> Good (done j i) t -> wp (fill_cell cabs (map Some bs) em bound j t i) m (fun t' m' => m' = m /\ Good (done j (S i)) t').
Proof.
  intros Lj L G. unfold fill_cell. destruct (j - 1) as [|d] eqn:Ed; [lia|]. cbn [seq mfold]. apply wp_bind.
  eapply wp_conseq; [apply try_ok; [exact L|lia|left; exact G]|]. intros t1 m1 [-> G1].
  eapply wp_conseq; [apply (wp_fold _ m (fun _ => Good (done j (S i)))); [exact G1|]|].
  - intros c t' B G'. cbn beta. apply try_ok; [exact L|lia|right; exact G'].
  - cbn beta. intros t' m' H. exact H.
Qed.
Lemma row_ok j t : 3 <= j < n -> Good (done j 0) t -> wp (fill_row cabs (map Some bs) em bound n t j) m (fun t' m' => m' = m /\ Good (done (S j) 0) t').
Proof.
  intros L G. unfold fill_row. eapply wp_conseq; [apply (wp_fold _ m (fun i => Good (done j i))); [exact G|]|].
  - intros i t' B G'. cbn beta. apply cell_ok; [lia|lia|exact G'].
  - cbn beta. intros t' m' [-> G']. split; [reflexivity|]. eapply Good_iff; [|exact G']. intros a b. unfold done. lia.
Qed.
Theorem fill_tables_ok : 3 <= n -> exists t, fill_tables cabs (map Some bs) em bound n m = Ok (t, m) /\ forall i k, i + 2 <= k -> k < n -> exists c, t_o t i k = Some c /\ i < c < k.
Proof.
  intros L3. assert (K : wp (fill_tables cabs (map Some bs) em bound n) m (fun t m' => m' = m /\ Good (done n 0) t)).
  { unfold fill_tables. apply wp_bind. eapply wp_conseq; [apply (wp_fold _ m (fun i => Good (early i)))|].
    - constructor; unfold early; cbn; intros; try reflexivity; lia.
    - intros i t B G. cbn beta. apply start_ok; [lia|exact G].
    - cbn beta. intros t m' [-> G]. eapply wp_conseq; [apply (wp_fold _ m (fun j => Good (done j 0)))|].
      + eapply Good_iff; [|exact G]. intros a b. unfold early, done. lia.
      + intros j t' B G'. cbn beta. apply row_ok; [lia|exact G'].
      + cbn beta. intros t' m' [-> G']. split; [reflexivity|]. replace (3 + (n - 3)) with n in G' by lia. exact G'. }
  unfold Wp.wp in K. destruct (fill_tables cabs (map Some bs) em bound n m) as [[t m']| | |]; try contradiction. destruct K as [-> G].
  exists t. split; [reflexivity|]. intros i k L1 L2. destruct (gd_o _ _ G i k) as [E | (c & E & B)]; [unfold done; lia|lia|eauto].
Qed.
End Hole.
End D.

(** Over the reals the requirement holds. *)
From Coq Require Import Reals Lra.
From Verif Require Import NumInst.
Global Instance NumAngleR : NumAngle NumR.
Proof.
  assert (P : forall x, (0 <= x)%R -> Rltb (PI - x) (10 ^ 12) = true).
  { intros x H. unfold Rltb. destruct (Rlt_dec (PI - x) (10 ^ 12)) as [|K]; [reflexivity|]. exfalso. apply K. assert (Z := PI_4). lra. }
  constructor.
  - change (Rltb 0 (10 ^ 12) = true). unfold Rltb. destruct (Rlt_dec 0 (10 ^ 12)) as [|K]; [reflexivity|]. exfalso. apply K. lra.
  - apply (P 0%R). lra.
  - intros c. apply (P (acos _)). apply acos_bound.
Qed.
