(** Facts about the two instances of [Num]. *)
From Coq Require Import ZArith Floats Reals Lia Lra.
From Verif Require Import Num Vec.

(** Equality of doubles is symmetric and transitive. *)
Lemma SFeqb_sym a b : SFeqb a b = SFeqb b a.
Proof.
  unfold SFeqb. destruct a as [sa|sa| |sa ma ea], b as [sb|sb| |sb mb eb]; cbn [SFcompare];
    try reflexivity; try (destruct sa; reflexivity); try (destruct sb; reflexivity); try (destruct sa, sb; reflexivity).
  rewrite (Z.compare_antisym ea eb). assert (P : Pos.compare_cont Eq mb ma = CompOpp (Pos.compare_cont Eq ma mb)) by apply Pos.compare_antisym.
  rewrite P. destruct sa, sb, (ea ?= eb)%Z, (Pos.compare_cont Eq ma mb); reflexivity.
Qed.

Lemma SFeqb_inv a b : SFeqb a b = true -> a = b \/ (exists s t, a = S754_zero s /\ b = S754_zero t).
Proof.
  unfold SFeqb. destruct a as [sa|sa| |sa ma ea], b as [sb|sb| |sb mb eb]; cbn [SFcompare]; try discriminate; try (destruct sa; discriminate); try (destruct sb; discriminate).
  - right; eauto.
  - destruct sa, sb; try discriminate; left; reflexivity.
  - destruct sa, sb; try discriminate.
    all: destruct (ea ?= eb)%Z eqn:E; try discriminate; apply Z.compare_eq in E; subst eb;
      destruct (Pos.compare_cont Eq ma mb) eqn:F; try discriminate; apply Pos.compare_eq in F; subst; left; reflexivity.
Qed.
Lemma SFeqb_trans a b c : SFeqb a b = true -> SFeqb b c = true -> SFeqb a c = true.
Proof.
  intros H1 H2. destruct (SFeqb_inv a b H1) as [->|(s & t & -> & ->)]; [exact H2|].
  destruct (SFeqb_inv _ _ H2) as [<-|(s' & t' & _ & ->)]; [exact H1|reflexivity].
Qed.

Global Instance NumEqF a e t : NumEq (NumF a e t).
Proof.
  split; cbn [num neqb NumF].
  - intros x y. rewrite !FloatAxioms.eqb_spec. apply SFeqb_sym.
  - intros x y z. rewrite !FloatAxioms.eqb_spec. apply SFeqb_trans.
Qed.

Lemma Reqb_eq a b : Reqb a b = true <-> a = b.
Proof. unfold Reqb. destruct (Req_EM_T a b); split; congruence. Qed.
Lemma Rltb_lt a b : Rltb a b = true <-> (a < b)%R.
Proof. unfold Rltb. destruct (Rlt_dec a b); split; try congruence; tauto. Qed.
Lemma Rleb_le a b : Rleb a b = true <-> (a <= b)%R.
Proof. unfold Rleb. destruct (Rle_dec a b); split; try congruence; tauto. Qed.

Global Instance NumEqR : NumEq NumR.
Proof.
  split; cbn [num neqb NumR].
  - intros x y. destruct (Reqb x y) eqn:E; symmetry; [apply Reqb_eq in E; apply Reqb_eq; auto|].
    destruct (Reqb y x) eqn:F; [apply Reqb_eq in F; subst; rewrite (proj2 (Reqb_eq x x) eq_refl) in E; discriminate|reflexivity].
  - intros x y z H1 H2. apply Reqb_eq in H1, H2. apply Reqb_eq. congruence.
Qed.

Lemma veqb_real (p q : vec NumR) : veqb p q = true <-> p = q.
Proof.
  destruct p as [a b c], q as [d e f]. unfold veqb. cbn [vx vy vz neqb NumR]. rewrite !Bool.andb_true_iff, !Reqb_eq.
  split; [intros [[-> ->] ->]; reflexivity|intros [=]; auto].
Qed.
