(** Ridge and valley edges; directions inside a triangle. *)
From Coq Require Import Reals List ZArith Lra Lia Bool.
From Verif Require Import Num NumInst Vec GeomSpec VecR Heap Mesh Spec Measure Lapl LaplSpec LinR Features FeaturesR Tensor TensorSpec TensorR TensorS Deriv DerivSpec Feat FeatSpec.
Import ListNotations.
Local Open Scope R_scope.
Lemma Rltb_iff a b : Rltb a b = true <-> a < b.
Proof. split; [apply Rltb_lt|]. intros H. destruct (Rltb a b) eqn:E; [reflexivity|]. apply Rltb_false in E. lra. Qed.
Lemma Rleb_iff a b : Rleb a b = true <-> a <= b.
Proof. unfold Rleb. destruct (Rle_dec a b); split; intros; try discriminate; try lra; reflexivity. Qed.
Lemma centi : @ncenti NumR = / 100.
Proof. unfold ncenti. rn. lra. Qed.
Lemma eps8 : @neps8 NumR = / 10 ^ 8.
Proof. unfold neps8. rn. lra. Qed.
Lemma dot_neg_r (a b : vecR) : dot a (vneg b) = - dot a b.
Proof. destruct a, b. unfold dot, vneg. rg. Qed.
(** The first factors of checkRV. *)
Lemma check_cases p q x y :
  (checkRV (N := NumR) p q x y = (-1)%Z /\ RidgeEdge p q x y) \/ (checkRV (N := NumR) p q x y = 1%Z /\ ValleyEdge p q x y) \/
  (checkRV (N := NumR) p q x y = 0%Z /\ ~ RidgeEdge p q x y /\ ~ ValleyEdge p q x y).
Proof.
  destruct x as [[[[kx lx] tx] sx] [ex fx]], y as [[[[ky ly] ty] sy] [ey fy]].
  unfold checkRV, RidgeEdge, ValleyEdge, Umbilic, Opposed, rise, e_max, k_max, k_min, t_max. cbn [fst snd]. rewrite centi. rn.
  set (t := dot tx ty). set (e2 := if Rltb t 0 then - (1) * ey else ey). set (t2 := if Rltb t 0 then @Vec.vscale NumR (- (1)) ty else ty).
  assert (C2 : e2 * dot (vsub p q) t2 = ey * dot (vsub p q) ty).
  { unfold e2, t2. destruct (Rltb t 0); [|reflexivity]. rewrite dot_scale_r. rg. }
  assert (O : ((0 <= t -> ex * ey < 0) /\ (t < 0 -> 0 < ex * ey)) <-> ex * e2 < 0).
  { unfold e2. destruct (Rltb t 0) eqn:E; [apply Rltb_lt in E|apply Rltb_false in E]; split.
    - intros [_ H]. specialize (H E). replace (ex * (- (1) * ey)) with (- (ex * ey)) by ring. lra.
    - intros H. replace (ex * (- (1) * ey)) with (- (ex * ey)) in H by ring. split; intros; lra.
    - intros [H _]. exact (H E).
    - intros H. split; intros; [exact H|lra]. }
  change (@num NumR) with R in *. rewrite C2. rewrite O. clearbody e2 t2. 
  destruct (Rltb (Rabs (kx - lx)) (/ 100)) eqn:U1; [apply Rltb_lt in U1; right; right; cbn [orb]; tauto|apply Rltb_false in U1].
  destruct (Rltb (Rabs (ky - ly)) (/ 100)) eqn:U2; [apply Rltb_lt in U2; right; right; cbn [orb]; tauto|apply Rltb_false in U2]. cbn [orb].
  destruct (Rleb 0 (ex * e2)) eqn:Z; [apply Rleb_iff in Z; right; right; split; [reflexivity|split; intros H; lra]|].
  assert (Z' : ex * e2 < 0) by (destruct (Rlt_le_dec (ex * e2) 0) as [H | H]; [exact H|apply Rleb_iff in H; congruence]).
  destruct ((Rltb (Rabs lx) kx && Rltb (Rabs ly) ky) && (Rltb 0 (ex * dot (vsub q p) tx) && Rltb 0 (ey * dot (vsub p q) ty))) eqn:B1.
  - left. split; [reflexivity|]. rewrite !andb_true_iff, !Rltb_iff in B1. lra.
  - right. assert (N1 : ~ (Rabs lx < kx /\ Rabs ly < ky /\ 0 < ex * dot (vsub q p) tx /\ 0 < ey * dot (vsub p q) ty)).
    { intros H. apply not_true_iff_false in B1. apply B1. rewrite !andb_true_iff, !Rltb_iff. tauto. }
    destruct ((Rltb kx (Rabs lx) && Rltb ky (Rabs ly)) && (Rltb (ex * dot (vsub q p) tx) 0 && Rltb (ey * dot (vsub p q) ty) 0)) eqn:B2.
    + left. split; [reflexivity|]. rewrite !andb_true_iff, !Rltb_iff in B2. lra.
    + right. assert (N2 : ~ (kx < Rabs lx /\ ky < Rabs ly /\ ex * dot (vsub q p) tx < 0 /\ ey * dot (vsub p q) ty < 0)).
      { intros H. apply not_true_iff_false in B2. apply B2. rewrite !andb_true_iff, !Rltb_iff. tauto. }
      split; [reflexivity|]. split; intros H; [apply N1|apply N2]; tauto.
Qed.
Lemma ridge_not_valley p q x y p' q' : RidgeEdge p q x y -> ValleyEdge p' q' x y -> False.
Proof. intros (_ & _ & _ & A & _) (_ & _ & _ & B & _). lra. Qed.
Theorem check_spec p q x y : (checkRV (N := NumR) p q x y = (-1)%Z <-> RidgeEdge p q x y) /\ (checkRV (N := NumR) p q x y = 1%Z <-> ValleyEdge p q x y) /\ In (checkRV (N := NumR) p q x y) [(-1)%Z; 0%Z; 1%Z].
Proof.
  destruct (check_cases p q x y) as [[-> H] | [[-> H] | [-> [H1 H2]]]]; cbn [In].
  - split; [split; auto|]. split; [split; intros A; [discriminate A|exfalso; exact (ridge_not_valley _ _ _ _ _ _ H A)]|]. auto.
  - split; [split; intros A; [discriminate A|exfalso; exact (ridge_not_valley _ _ _ _ _ _ A H)]|]. split; [split; auto|]. auto.
  - split; [split; intros A; [discriminate A|contradiction]|]. split; [split; intros A; [discriminate A|contradiction]|]. auto.
Qed.
Lemma opposed_sym x y : Opposed x y -> Opposed y x.
Proof. unfold Opposed. rewrite (dot_sym (t_max (fst y))), (Rmult_comm (e_max y)). auto. Qed.
(** The two ends of an edge can be exchanged. *)
Theorem check_sym p q x y : checkRV (N := NumR) q p y x = checkRV (N := NumR) p q x y.
Proof.
  assert (R : forall p q x y, RidgeEdge p q x y -> RidgeEdge q p y x) by (intros ? ? ? ? (A & B & C & D & E & F & G); exact (conj B (conj A (conj (opposed_sym _ _ C) (conj E (conj D (conj G F))))))).
  assert (V : forall p q x y, ValleyEdge p q x y -> ValleyEdge q p y x) by (intros ? ? ? ? (A & B & C & D & E & F & G); exact (conj B (conj A (conj (opposed_sym _ _ C) (conj E (conj D (conj G F))))))).
  destruct (check_cases p q x y) as [[-> H] | [[-> H] | [-> [H1 H2]]]].
  - apply check_spec, R, H.
  - apply check_spec, V, H.
  - destruct (check_cases q p y x) as [[_ H] | [[_ H] | [E _]]]; [exfalso; apply H1, R, H|exfalso; apply H2, V, H|exact E].
Qed.
(** Reversing the direction of a vertex changes nothing, unless the two directions are orthogonal. *)
Lemma rise_reversed p q x : rise p q (reversed x) = rise p q x.
Proof. destruct x as [[[[kx lx] tx] sx] [ex fx]]. unfold rise, reversed, e_max, t_max. cbn [fst snd]. rewrite dot_neg_r. rg. Qed.
Lemma opposed_reversed x y : dot (t_max (fst x)) (t_max (fst y)) <> 0 -> Opposed x y -> Opposed (reversed x) y.
Proof.
  destruct x as [[[[kx lx] tx] sx] [ex fx]], y as [[[[ky ly] ty] sy] [ey fy]]. unfold Opposed, reversed, e_max, t_max. cbn [fst snd]. rewrite (dot_sym (vneg tx)), dot_neg_r, (dot_sym ty).
  change (@num NumR) with R in *. replace (- ex * ey) with (- (ex * ey)) by ring. intros NZ [A B]. split; intros H.
  - assert (dot tx ty < 0) by (change (@num NumR) with R in *; lra). specialize (B H0). lra.
  - assert (0 <= dot tx ty) by (change (@num NumR) with R in *; lra). specialize (A H0). lra.
Qed.
Theorem check_reversed p q x y : dot (t_max (fst x)) (t_max (fst y)) <> 0 -> checkRV (N := NumR) p q (reversed x) y = checkRV (N := NumR) p q x y.
Proof.
  assert (RR : forall x, reversed (reversed x) = x).
  { intros [[[[kx lx] tx] sx] [ex fx]]. unfold reversed, k_max, k_min, t_max, t_min. cbn [fst snd]. replace (vneg (vneg tx)) with tx by vring. rn. rewrite Ropp_involutive. reflexivity. }
  assert (NN : forall x y : sample NumR, dot (t_max (fst x)) (t_max (fst y)) <> 0 -> dot (t_max (fst (reversed x))) (t_max (fst y)) <> 0).
  { intros [[[[kx lx] tx] sx] [ex fx]] y0. unfold reversed, t_max. cbn [fst snd]. rewrite (dot_sym (vneg tx)), dot_neg_r, (dot_sym _ tx). change (@num NumR) with R in *. intros H. lra. }
  assert (U : forall x, Umbilic (reversed x) <-> Umbilic x) by (intros [[[[kx lx] tx] sx] [ex fx]]; reflexivity).
  assert (KM : forall x, k_max (fst (reversed x)) = k_max (fst x) /\ k_min (fst (reversed x)) = k_min (fst x)) by (intros [[[[kx lx] tx] sx] [ex fx]]; split; reflexivity).
    assert (R : forall x : sample NumR, dot (t_max (fst x)) (t_max (fst y)) <> 0 -> RidgeEdge p q x y -> RidgeEdge p q (reversed x) y).
  { intros x0 N0 (A & B & C & D & E & F & G). destruct (KM x0) as [K1 K2]. unfold RidgeEdge. rewrite U, K1, K2, rise_reversed. exact (conj A (conj B (conj (opposed_reversed _ _ N0 C) (conj D (conj E (conj F G)))))). }
  assert (V : forall x : sample NumR, dot (t_max (fst x)) (t_max (fst y)) <> 0 -> ValleyEdge p q x y -> ValleyEdge p q (reversed x) y).
  { intros x0 N0 (A & B & C & D & E & F & G). destruct (KM x0) as [K1 K2]. unfold ValleyEdge. rewrite U, K1, K2, rise_reversed. exact (conj A (conj B (conj (opposed_reversed _ _ N0 C) (conj D (conj E (conj F G)))))). }
  intros NZ. destruct (check_cases p q x y) as [[-> H] | [[-> H] | [-> [H1 H2]]]].
  - apply check_spec, R; assumption.
  - apply check_spec, V; assumption.
  - destruct (check_cases p q (reversed x) y) as [[_ H] | [[_ H] | [E _]]]; [exfalso; apply H1; rewrite <- (RR x); apply R; [apply NN, NZ|exact H]|exfalso; apply H2; rewrite <- (RR x); apply V; [apply NN, NZ|exact H]|exact E].
Qed.
(** The direction computed for a triangle. *)
Lemma inward_ok (a b c : vecR) : 0 < vlength (cross (vsub b a) (vsub c a)) -> exists d, inward (N := NumR) a b c = Some d /\ Inward a b c d.
Proof.
  intros P. unfold inward. set (e := Vec.vsub b a) in *. set (f := Vec.vsub c a) in *.
  assert (NZ : cross e f <> vzero). { intros E. rewrite E in P. rewrite (proj2 (vlength_zero vzero) eq_refl) in P. lra. }
  destruct (normalize_unit _ NZ) as (n & -> & Un & Sn). set (L := vlength (cross e f)) in *.
  assert (Eg : vscale L (cross n e) = vsub (vscale (dot e e) f) (vscale (dot e f) e)). { rewrite <- cross_scale, Sn. unfold dot. vring. }
  assert (Ge : dot (cross n e) e = 0) by apply cross_orth2.
  assert (Ne : dot n e = 0). { apply (scale_orth L); [exact P|]. rewrite Sn. apply cross_orth1. }
  assert (Pe : 0 < dot e e). { destruct (Rle_lt_or_eq_dec 0 (dot e e) (dot_pos e)) as [H | H]; [exact H|]. exfalso. assert (Q := cross_lagrange e f). rewrite <- (vlength_sq (cross e f)) in Q. fold L in Q. rewrite <- H in Q. assert (0 < L * L) by (apply Rmult_lt_0_compat; exact P). assert (0 <= dot e f * dot e f) by apply Rle_0_sqr. change (@num NumR) with R in *. lra. }
  assert (Gg : dot (cross n e) (cross n e) = dot e e). { rewrite cross_lagrange, Ne. apply unit_dot in Un. rewrite Un. rg. }
  assert (NG : cross n e <> vzero). { intros E. rewrite E in Gg. assert (Z : dot (vzero : vecR) vzero = 0) by (unfold dot, vzero, vfill; rg). change (@num NumR) with R in *. lra. }
  destruct (normalize_unit _ NG) as (d & Ed & Ud & Sd). exists d. split; [exact Ed|]. assert (PG : 0 < vlength (cross n e)).
  { destruct (Rle_lt_or_eq_dec 0 _ (vlength_pos (cross n e))) as [H | H]; [exact H|]. symmetry in H. apply vlength_zero in H. contradiction. }
  set (G := vlength (cross n e)) in *. unfold Inward. fold e f. clearbody e f. split; [exact Ud|]. split; [apply (scale_orth G); [exact PG|rewrite Sd; exact Ge]|].
  exists (- dot e f / (L * G)), (dot e e / (L * G)). split.
  - assert (E2 : vscale (L * G) d = vsub (vscale (dot e e) f) (vscale (dot e f) e)) by (rewrite <- Eg, <- Sd; vring).
    transitivity (vscale (/ (L * G)) (vscale (L * G) d)); [|rewrite E2; unfold Rdiv; vring].
    assert (H : / (L * G) * (L * G) = 1) by (field; split; lra). replace (vscale (/ (L * G)) (vscale (L * G) d)) with (vscale (/ (L * G) * (L * G)) d) by vring. rewrite H. symmetry. apply vscale_one.
  - apply Rdiv_lt_0_compat; [exact Pe|apply Rmult_lt_0_compat; assumption].
Qed.
