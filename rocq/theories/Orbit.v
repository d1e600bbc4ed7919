(** Cycles of partial maps on [nat], as lists. *)
From Coq Require Import List Arith Lia Bool Permutation.
From Verif Require Import Num Vec Heap Spec.
Import ListNotations.

(** [chainto f x l z]: x -> l_1 -> ... -> l_k -> z. *)
Fixpoint chainto (f : nat -> option nat) (x : nat) (l : list nat) (z : nat) : Prop :=
  match l with
  | [] => f x = Some z
  | y :: l' => f x = Some y /\ chainto f y l' z
  end.

Definition cyc (f : nat -> option nat) (l : list nat) : Prop :=
  match l with [] => False | x :: l' => chainto f x l' x end.

Lemma chainto_app f x l1 y l2 z :
  chainto f x (l1 ++ y :: l2) z <-> chainto f x l1 y /\ chainto f y l2 z.
Proof.
  revert x; induction l1 as [|a l1 IH]; intros x; simpl; [tauto|].
  rewrite IH; tauto.
Qed.

Lemma chainto_ext f g x l z :
  (forall a, In a (x :: l) -> f a = g a) -> chainto f x l z -> chainto g x l z.
Proof.
  revert x; induction l as [|a l IH]; simpl; intros x He Hc.
  - rewrite <- He by tauto; exact Hc.
  - destruct Hc as [H1 H2]; split; [rewrite <- He by tauto; exact H1|].
    apply IH; [|exact H2]. intros b Hb; apply He; simpl in Hb; tauto.
Qed.

Lemma cyc_ext f g l : (forall a, In a l -> f a = g a) -> cyc f l -> cyc g l.
Proof. destruct l as [|x l]; simpl; [tauto|]. intros He; apply chainto_ext; exact He. Qed.

Lemma cyc_rot f x l1 y l2 : cyc f (x :: l1 ++ y :: l2) -> cyc f (y :: l2 ++ x :: l1).
Proof. simpl; rewrite !chainto_app; tauto. Qed.

Lemma cyc_rot_in f l x : cyc f l -> In x l -> exists l', cyc f (x :: l') /\ Permutation l (x :: l').
Proof.
  intros Hc Hin; destruct l as [|a l]; [destruct Hin|].
  destruct Hin as [->|Hin]; [exists l; split; [exact Hc|reflexivity]|].
  apply in_split in Hin as (l1 & l2 & ->).
  exists (l2 ++ a :: l1); split; [apply cyc_rot; exact Hc|].
  change (a :: l1 ++ x :: l2) with ((a :: l1) ++ x :: l2).
  rewrite Permutation_app_comm; reflexivity.
Qed.

(** Iteration along a chain. *)
Lemma piter_add f n k x y : piter f n x = Some y -> piter f (n + k) x = piter f k y.
Proof.
  revert x; induction n as [|n IH]; simpl; intros x; [intros [= ->]; reflexivity|].
  destruct (f x) as [a|]; [apply IH|discriminate].
Qed.

Lemma piter_S_r f n x y : piter f n x = Some y -> piter f (S n) x = f y.
Proof.
  intros H; replace (S n) with (n + 1) by lia; rewrite (piter_add _ _ _ _ _ H); simpl.
  destruct (f y); reflexivity.
Qed.

Lemma reaches_refl f x : reaches f x x. Proof. exists 0; reflexivity. Qed.
Lemma reaches_step f x y : f x = Some y -> reaches f x y.
Proof. intros H; exists 1; simpl; rewrite H; reflexivity. Qed.
Lemma reaches_trans f x y z : reaches f x y -> reaches f y z -> reaches f x z.
Proof. intros [n Hn] [k Hk]; exists (n + k); rewrite (piter_add _ _ _ _ _ Hn); exact Hk. Qed.

Lemma chainto_reaches f x l z : chainto f x l z -> reaches f x z /\ forall y, In y l -> reaches f x y /\ reaches f y z.
Proof.
  revert x; induction l as [|a l IH]; simpl; intros x H.
  - split; [apply reaches_step; exact H|tauto].
  - destruct H as [H1 H2]; destruct (IH _ H2) as [Ha Hl]; apply reaches_step in H1.
    split; [eapply reaches_trans; eassumption|].
    intros y [->|Hy]; [split; assumption|].
    destruct (Hl _ Hy); split; [eapply reaches_trans; eassumption|assumption].
Qed.

Lemma reaches_chainto f x z n : piter f (S n) x = Some z -> exists l, chainto f x l z.
Proof.
  revert x; induction n as [|n IH]; intros x; simpl.
  - destruct (f x) as [y|] eqn:E; [|discriminate]; intros [= ->]; exists []; exact E.
  - destruct (f x) as [y|] eqn:E; [|discriminate].
    intros H; destruct (IH y H) as [l Hl]; exists (y :: l); split; assumption.
Qed.

Lemma not_nodup_split (l : list nat) : ~ NoDup l -> exists y l1 l2 l3, l = l1 ++ y :: l2 ++ y :: l3.
Proof.
  induction l as [|a l IH]; intros H; [exfalso; apply H; constructor|].
  destruct (in_dec Nat.eq_dec a l) as [Hin|Hnin].
  - apply in_split in Hin as (l1 & l2 & ->); exists a, [], l1, l2; reflexivity.
  - destruct IH as (y & l1 & l2 & l3 & ->).
    + intros Hn; apply H; constructor; assumption.
    + exists y, (a :: l1), l2, l3; reflexivity.
Qed.

Lemma cyc_shorten f x l : chainto f x l x -> exists l', chainto f x l' x /\ NoDup (x :: l').
Proof.
  remember (length l) as n eqn:Hn; revert l Hn.
  induction n as [n IH] using lt_wf_ind; intros l -> Hc.
  destruct (ListDec.NoDup_dec Nat.eq_dec (x :: l)) as [Hnd|Hnd]; [exists l; split; assumption|].
  destruct (not_nodup_split _ Hnd) as (y & l1 & l2 & l3 & E).
  destruct l1 as [|b l1]; simpl in E; injection E as E1 E2; subst.
  - rewrite chainto_app in Hc; destruct Hc as [_ Hc].
    eapply IH; [|reflexivity|exact Hc]. rewrite app_length; simpl; lia.
  - rewrite chainto_app in Hc; destruct Hc as [H1 H2]; rewrite chainto_app in H2; destruct H2 as [_ H3].
    eapply (IH (length (l1 ++ y :: l3))); [|reflexivity|].
    + rewrite !app_length; simpl; rewrite app_length; simpl; lia.
    + rewrite chainto_app; split; assumption.
Qed.

(** A recurrent point lies on a duplicate-free cycle. *)
Lemma recurrent_cyc f x y : f x = Some y -> reaches f y x -> exists l, cyc f (x :: l) /\ NoDup (x :: l).
Proof.
  intros Hf [n Hn].
  destruct (reaches_chainto f x x n) as [l Hl]; [simpl; rewrite Hf; exact Hn|].
  destruct (cyc_shorten _ _ _ Hl) as (l' & H1 & H2); exists l'; split; assumption.
Qed.

Lemma chainto_step_in f x l z a : chainto f x l z -> In a (x :: l) -> exists b, f a = Some b /\ (In b l \/ b = z).
Proof.
  revert x; induction l as [|y l IH]; intros x Hc Hin.
  - destruct Hin as [->|[]]; exists z; auto.
  - destruct Hc as [H1 H2]; destruct Hin as [->|Hin]; [exists y; simpl; auto|].
    destruct (IH _ H2 Hin) as (b & Hb & [Hi|Hz]); exists b; simpl; auto.
Qed.

Lemma cyc_step_in f l a : cyc f l -> In a l -> exists b, f a = Some b /\ In b l.
Proof.
  destruct l as [|x l]; [intros []|]. intros Hc Hin.
  destruct (chainto_step_in _ _ _ _ _ Hc Hin) as (b & Hb & [Hi|Hz]); exists b; simpl; auto.
Qed.

Lemma cyc_reaches_in f l a b : cyc f l -> In a l -> reaches f a b -> In b l.
Proof.
  intros Hc Ha [n Hn]; revert a Ha Hn; induction n as [|n IH]; simpl; intros a Ha; [intros [= ->]; exact Ha|].
  destruct (cyc_step_in _ _ _ Hc Ha) as (c & Hc' & Hin); rewrite Hc'; apply IH; exact Hin.
Qed.

Lemma cyc_reaches f l a b : cyc f l -> In a l -> In b l -> reaches f a b.
Proof.
  intros Hc Ha Hb; destruct (cyc_rot_in _ _ _ Hc Ha) as (l' & Hc' & Hp).
  apply (Permutation_in _ Hp) in Hb; destruct Hb as [->|Hb]; [apply reaches_refl|].
  destruct (chainto_reaches _ _ _ _ Hc') as [_ H]; apply H; exact Hb.
Qed.

Lemma cyc_not_nil f l : cyc f l -> l <> [].
Proof. destruct l; [intros []|discriminate]. Qed.

(** Every element of a cycle has a predecessor in it. *)
Lemma cyc_pred f l b : cyc f l -> In b l -> exists a, In a l /\ f a = Some b.
Proof.
  intros Hc Hb; destruct (cyc_rot_in _ _ _ Hc Hb) as (l' & Hc' & Hp).
  assert (Hlast : exists a, In a (b :: l') /\ f a = Some b).
  { clear - Hc'. simpl in Hc'. revert Hc'. generalize b at 1 3. revert b.
    induction l' as [|y l' IH]; intros b x Hc; simpl in Hc.
    - exists x; simpl; auto.
    - destruct Hc as [_ H2]. destruct (IH b y H2) as (a & Ha & Hf); exists a; split; [right; exact Ha|exact Hf]. }
  destruct Hlast as (a & Ha & Hf); exists a; split; [|exact Hf].
  eapply Permutation_in; [symmetry; exact Hp|exact Ha].
Qed.

(** Successors are injective on a duplicate-free cycle. *)
Lemma chainto_inj f x l z a b c :
  chainto f x l z -> NoDup (x :: l) -> ~ In z l -> In a (x :: l) -> In b (x :: l) -> f a = Some c -> f b = Some c -> a = b.
Proof.
  revert x; induction l as [|y l IH]; intros x Hc Hnd Hz Ha Hb Hfa Hfb.
  - destruct Ha as [->|[]], Hb as [->|[]]; reflexivity.
  - destruct Hc as [H1 H2]. inversion Hnd as [|? ? Hn1 Hn2]; subst.
    assert (aux : forall d, In d (y :: l) -> f d = Some y -> False).
    { intros d Hd Hfd. destruct (chainto_step_in _ _ _ _ _ H2 Hd) as (e & He & Hl).
      rewrite Hfd in He; injection He as <-. inversion Hn2; subst.
      destruct Hl as [Hl| ->]; [auto|]. apply Hz; left; reflexivity. }
    destruct Ha as [->|Ha], Hb as [->|Hb]; [reflexivity| | |].
    + rewrite H1 in Hfa; injection Hfa as <-; exfalso; eauto.
    + rewrite H1 in Hfb; injection Hfb as <-; exfalso; eauto.
    + eapply IH; try eassumption. intros Hi; apply Hz; right; exact Hi.
Qed.

Lemma cyc_inj f l a b c : cyc f l -> NoDup l -> In a l -> In b l -> f a = Some c -> f b = Some c -> a = b.
Proof.
  destruct l as [|x l]; [intros []|]. intros Hc Hnd.
  eapply chainto_inj; [exact Hc|exact Hnd|]. inversion Hnd; assumption.
Qed.

(** Substituting non-empty chains for the elements of a cycle. *)
Lemma chainto_subst f g (sub : nat -> list nat) x l z :
  (forall a, In a (x :: l) -> exists h t, sub a = h :: t) ->
  (forall a b h t h' t', In a (x :: l) -> f a = Some b -> (In b l \/ b = z) ->
      sub a = h :: t -> sub b = h' :: t' -> chainto g h t h') ->
  chainto f x l z ->
  forall h t hz tz, sub x = h :: t -> sub z = hz :: tz ->
  chainto g h (t ++ flat_map sub l) hz.
Proof.
  revert x; induction l as [|y l IH]; intros x Hne Hstep Hc h t hz tz Hx Hz.
  - simpl. rewrite app_nil_r. eapply Hstep; [left; reflexivity|exact Hc|right; reflexivity|exact Hx|exact Hz].
  - destruct Hc as [H1 H2].
    destruct (Hne y) as (hy & ty & Ey); [right; left; reflexivity|].
    simpl. rewrite Ey. simpl. rewrite chainto_app. split.
    + eapply Hstep; [left; reflexivity|exact H1|left; left; reflexivity|exact Hx|exact Ey].
    + eapply (IH y); [ | |exact H2|exact Ey|exact Hz].
      * intros a Ha; apply Hne; right; exact Ha.
      * intros a b h0 t0 h' t' Ha Hf Hb; apply Hstep; [right; exact Ha|exact Hf|].
        destruct Hb as [Hb| ->]; [left; right; exact Hb|right; reflexivity].
Qed.

Lemma cyc_subst f g (sub : nat -> list nat) l :
  (forall a, In a l -> exists h t, sub a = h :: t) ->
  (forall a b h t h' t', In a l -> In b l -> f a = Some b ->
      sub a = h :: t -> sub b = h' :: t' -> chainto g h t h') ->
  cyc f l -> cyc g (flat_map sub l).
Proof.
  destruct l as [|x l]; [intros _ _ []|]. intros Hne Hstep Hc.
  destruct (Hne x) as (h & t & E); [left; reflexivity|].
  cbn [flat_map]. rewrite E. simpl.
  eapply chainto_subst; [exact Hne| |exact Hc|exact E|exact E].
  intros a b h0 t0 h' t' Ha Hf Hb; apply Hstep; [exact Ha| |exact Hf].
  destruct Hb as [Hb| ->]; [right; exact Hb|left; reflexivity].
Qed.

(** Redirecting the end of a chain. *)
Lemma chainto_redirect f g a l x z :
  chainto f a l x -> ~ In x l ->
  (forall y, In y (a :: l) -> f y = Some x -> g y = Some z) ->
  (forall y, In y (a :: l) -> f y <> Some x -> g y = f y) ->
  chainto g a l z.
Proof.
  revert a; induction l as [|b l IH]; intros a Hc Hx Hp Ho; simpl in *.
  - apply Hp; auto.
  - destruct Hc as [H1 H2]; split.
    + rewrite Ho; [exact H1|auto|]. rewrite H1; intros [= ->]; tauto.
    + apply IH; [exact H2|tauto| |]; intros y Hy; [apply Hp|apply Ho]; tauto.
Qed.

(** Removing one element. *)
Lemma cyc_drop f g x l :
  cyc f (x :: l) -> NoDup (x :: l) -> l <> [] ->
  (forall y, In y l -> f y = Some x -> g y = f x) ->
  (forall y, In y l -> f y <> Some x -> g y = f y) ->
  cyc g l.
Proof.
  intros Hc Hnd Hne Hpred Hoth. destruct l as [|y l]; [congruence|].
  destruct Hc as [Hxy Hc]. inversion Hnd as [|? ? Hx Hnd']; subst.
  simpl in Hx. simpl. eapply chainto_redirect; [exact Hc|tauto| |exact Hoth].
  intros a Ha Hf; rewrite <- Hxy; apply Hpred; assumption.
Qed.
