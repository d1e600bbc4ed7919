(** Threads that do not disturb each other have one outcome. *)
From Coq Require Import List Arith Lia.
From Verif Require Import Num Vec Heap Prog.
Import ListNotations.

Lemma setnth_same {X} (l : list X) i x y : nth_error l i = Some y -> nth_error (setnth l i x) i = Some x.
Proof. revert i; induction l as [|a l IH]; intros [|i] H; try discriminate; [reflexivity|]. apply (IH i H). Qed.
Lemma setnth_other {X} (l : list X) i j x : i <> j -> nth_error (setnth l i x) j = nth_error l j.
Proof. revert i j; induction l as [|a l IH]; intros [|i] [|j] H; try reflexivity; [contradiction|]. apply IH. lia. Qed.
Lemma setnth_length {X} (l : list X) i x : length (setnth l i x) = length l.
Proof. revert i; induction l as [|a l IH]; intros [|i]; cbn; auto. Qed.

Section P.
Context {S : Type}.
Lemma solo_bind {A B} (p : prog S A) (k : A -> prog S B) s :
  solo (pbind p k) s = match solo p s with Ok (a, s') => solo (k a) s' | UB u => UB u | Abort u => Abort u | NoFuel => NoFuel end.
Proof. revert s; induction p as [a|X c k' IH]; intros s; cbn [pbind solo]; [reflexivity|]. destruct (c s) as [[x s']| | |]; auto. Qed.

Variable I : S -> Prop.
Variable R : nat -> S -> S -> Prop.
Hypothesis Rr : forall i s, R i s s.
Hypothesis Rs : forall i s t, R i s t -> R i t s.
Hypothesis Rt : forall i s t u, R i s t -> R i t u -> R i s u.

(** Results that thread [i] cannot tell apart. *)
Definition sim (i : nat) {A} (a b : res (A * S)) : Prop :=
  match a, b with
  | Ok (x, s), Ok (y, t) => x = y /\ R i s t
  | UB u, UB v => u = v
  | Abort u, Abort v => u = v
  | NoFuel, NoFuel => True
  | _, _ => False
  end.

Inductive Local (i : nat) {A} : prog S A -> Prop :=
| LRet a : Local i (PRet a)
| LAct X c k :
    (forall s x s', I s -> c s = Ok (x, s') -> I s' /\ forall j, j <> i -> R j s s') ->
    (forall s x s', I s -> c s = Ok (x, s') -> Local i (k x)) ->
    (forall s t, I s -> I t -> R i s t -> sim i (c s) (c t)) ->
    Local i (PAct X c k).

Lemma local_inv i {A X} (c : S -> res (X * S)) (k : X -> prog S A) : Local i (PAct X c k) ->
    (forall s x s', I s -> c s = Ok (x, s') -> I s' /\ forall j, j <> i -> R j s s') /\
    (forall s x s', I s -> c s = Ok (x, s') -> Local i (k x)) /\
    (forall s t, I s -> I t -> R i s t -> sim i (c s) (c t)).
Proof.
  intros H. exact (match H in Local _ p return match p with PRet _ => True | PAct X c k =>
    (forall s x s', I s -> c s = Ok (x, s') -> I s' /\ forall j, j <> i -> R j s s') /\
    (forall s x s', I s -> c s = Ok (x, s') -> Local i (k x)) /\
    (forall s t, I s -> I t -> R i s t -> sim i (c s) (c t)) end with LRet _ _ => Logic.I | LAct _ X c k H1 H2 H3 => conj H1 (conj H2 H3) end).
Qed.

Lemma sim_trans i {A} (a b c : res (A * S)) : sim i a b -> sim i b c -> sim i a c.
Proof. destruct a as [[]| | |], b as [[]| | |], c as [[]| | |]; cbn; try tauto; try congruence. intros [-> H] [-> H']; split; [reflexivity|]. apply (Rt i _ _ _ H H'). Qed.
Lemma sim_sym i {A} (a b : res (A * S)) : sim i a b -> sim i b a.
Proof. destruct a as [[]| | |], b as [[]| | |]; cbn; try tauto; try congruence. intros [-> H]; split; auto. Qed.

Lemma local_sim i {A} (p : prog S A) : Local i p -> forall s t, I s -> I t -> R i s t -> sim i (solo p s) (solo p t).
Proof.
  induction 1 as [a|X c k H1 H2 IH H3]; intros s t Is It Rst; cbn [solo]; [split; auto|].
  specialize (H3 s t Is It Rst). destruct (c s) as [[x s']| | |] eqn:Es, (c t) as [[y t']| | |] eqn:Et; cbn in H3; try contradiction; try exact H3.
  destruct H3 as [<- R']. apply (IH s x s' Is Es); [apply (H1 _ _ _ Is Es)|apply (H1 _ _ _ It Et)|exact R'].
Qed.

Definition all_local (ts : list (prog S unit)) : Prop := forall i p, nth_error ts i = Some p -> Local i p.

Theorem outcomes s ts o : outcome s ts o -> I s -> all_local ts ->
  match o with
  | Ok s' => I s' /\ forall i p, nth_error ts i = Some p -> exists si, solo p s = Ok (tt, si) /\ R i si s'
  | UB u => exists i p, nth_error ts i = Some p /\ solo p s = UB u
  | Abort u => exists i p, nth_error ts i = Some p /\ solo p s = Abort u
  | NoFuel => exists i p, nth_error ts i = Some p /\ solo p s = NoFuel
  end.
Proof.
  induction 1 as [s ts D|s ts i X c k x s' o N E O IH|s ts i X c k u N E|s ts i X c k u N E|s ts i X c k N E]; intros Is L.
  - split; [exact Is|]. intros i p Hp. rewrite (D i p Hp). exists s. split; [reflexivity|apply Rr].
  - assert (Li := L i _ N). apply local_inv in Li as (H1 & H2 & H3).
    destruct (H1 s x s' Is E) as [Is' Rj].
    assert (L' : all_local (setnth ts i (k x))).
    { intros j p Hp. destruct (Nat.eq_dec i j) as [<- | D].
      - rewrite (setnth_same _ _ _ _ N) in Hp. injection Hp as <-. apply (H2 s x s' Is E).
      - rewrite setnth_other in Hp by exact D. apply (L j p Hp). }
    specialize (IH Is' L').
    assert (Back : forall j p, nth_error ts j = Some p -> exists p', nth_error (setnth ts i (k x)) j = Some p' /\ sim j (solo p s) (solo p' s')).
    { intros j p Hp. destruct (Nat.eq_dec i j) as [<- | D].
      - exists (k x). split; [apply (setnth_same _ _ _ _ N)|]. rewrite N in Hp. injection Hp as <-. cbn [solo]. rewrite E.
        destruct (solo (k x) s') as [[? ?]| | |]; cbn; auto.
      - exists p. split; [rewrite setnth_other by exact D; exact Hp|]. apply (local_sim j p (L j p Hp)); auto. }
    assert (Forth : forall j p', nth_error (setnth ts i (k x)) j = Some p' -> exists p, nth_error ts j = Some p /\ sim j (solo p s) (solo p' s')).
    { intros j p' Hp. destruct (nth_error ts j) as [p|] eqn:Ej.
      - exists p. split; [reflexivity|]. destruct (Back j p Ej) as (p2 & E2 & Sm). congruence.
      - apply nth_error_None in Ej. assert (j < length (setnth ts i (k x))) by (apply nth_error_Some; congruence). rewrite setnth_length in *. lia. }
    destruct o as [s2|u|u|].
    + destruct IH as [I2 IH]. split; [exact I2|]. intros j p Hp. destruct (Back j p Hp) as (p' & Hp' & Sm).
      destruct (IH j p' Hp') as (sj & Ej & Rj2). rewrite Ej in Sm. destruct (solo p s) as [[[] t]| | |]; cbn in Sm; try contradiction.
      destruct Sm as [_ Sm]. exists t. split; [reflexivity|]. apply (Rt j _ _ _ Sm Rj2).
    + destruct IH as (j & p' & Hp' & Ej). destruct (Forth j p' Hp') as (p & Hp & Sm). rewrite Ej in Sm. exists j, p. split; [exact Hp|].
      destruct (solo p s) as [[? ?]| | |]; cbn in Sm; try contradiction. congruence.
    + destruct IH as (j & p' & Hp' & Ej). destruct (Forth j p' Hp') as (p & Hp & Sm). rewrite Ej in Sm. exists j, p. split; [exact Hp|].
      destruct (solo p s) as [[? ?]| | |]; cbn in Sm; try contradiction. congruence.
    + destruct IH as (j & p' & Hp' & Ej). destruct (Forth j p' Hp') as (p & Hp & Sm). rewrite Ej in Sm. exists j, p. split; [exact Hp|].
      destruct (solo p s) as [[? ?]| | |]; cbn in Sm; try contradiction. reflexivity.
  - exists i. eexists. split; [exact N|]. cbn [solo]. rewrite E. reflexivity.
  - exists i. eexists. split; [exact N|]. cbn [solo]. rewrite E. reflexivity.
  - exists i. eexists. split; [exact N|]. cbn [solo]. rewrite E. reflexivity.
Qed.
End P.

(** Running the threads one after the other is one of the interleavings. *)
Fixpoint in_order {S} (ts : list (prog S unit)) (s : S) : res S :=
  match ts with
  | [] => Ok s
  | p :: ts' => match solo p s with Ok (_, s') => in_order ts' s' | UB u => UB u | Abort u => Abort u | NoFuel => NoFuel end
  end.

Lemma setnth_app {X} (a b : list X) x y : setnth (a ++ x :: b) (length a) y = a ++ y :: b.
Proof. induction a as [|z a IH]; cbn; [reflexivity|]. f_equal. exact IH. Qed.
Lemma nth_app {X} (a b : list X) x : nth_error (a ++ x :: b) (length a) = Some x.
Proof. induction a as [|z a IH]; cbn; auto. Qed.

Lemma in_order_outcome {S} (ts : list (prog S unit)) : forall s done,
  (forall p, In p done -> p = PRet tt) -> outcome s (done ++ ts) (in_order ts s).
Proof.
  induction ts as [|p ts IH]; intros s done D; cbn [in_order].
  - rewrite app_nil_r. apply out_done. intros i q Hq. apply D. apply (nth_error_In _ _ Hq).
  - revert s. induction p as [a|X c k IHp]; intros s; cbn [solo].
    + assert (E : done ++ PRet a :: ts = (done ++ [PRet a]) ++ ts) by (rewrite <- app_assoc; reflexivity). rewrite E. apply IH.
      intros q Hq. apply in_app_or in Hq as [Hq | [<- | []]]; [apply D, Hq|]. destruct a; reflexivity.
    + destruct (c s) as [[x s']|u|u|] eqn:E.
      * apply (out_step _ _ (length done) X c k x s' _ (nth_app _ _ _) E). rewrite setnth_app. apply IHp.
      * apply (out_ub _ _ _ _ _ _ _ (nth_app _ _ _) E).
      * apply (out_abort _ _ _ _ _ _ _ (nth_app _ _ _) E).
      * apply (out_nofuel _ _ _ _ _ _ (nth_app _ _ _) E).
Qed.
