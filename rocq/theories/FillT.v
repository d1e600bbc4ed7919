(** The triangles that fillHoles puts into a hole with n corners. *)
From Coq Require Import List ZArith Arith Lia Bool Permutation.
From Verif Require Import Num Vec Heap Mesh Spec Orbit Rings Fill.
Import ListNotations.

Section L.
Context {X : Type} (R : X -> X -> Prop).
Lemma fop_app (l1 l2 : list X) : ForallOrdPairs R (l1 ++ l2) <-> ForallOrdPairs R l1 /\ ForallOrdPairs R l2 /\ forall x y, In x l1 -> In y l2 -> R x y.
Proof.
  induction l1 as [|a l1 IH]; cbn [app].
  - split; [intros H; split; [constructor|split; [exact H|intros x y []]]|intros (_ & H & _); exact H].
  - split.
    + intros H. inversion H as [|? ? F G]; subst. apply IH in G as (G1 & G2 & G3). rewrite Forall_app in F. destruct F as [F1 F2]. split; [constructor; assumption|]. split; [exact G2|].
      intros x y [<- | Hx] Hy; [exact (proj1 (Forall_forall _ _) F2 y Hy)|exact (G3 x y Hx Hy)].
    + intros (H1 & H2 & H3). inversion H1 as [|? ? F G]; subst. constructor.
      * apply Forall_app. split; [exact F|]. apply Forall_forall. intros y Hy. apply H3; [left; reflexivity|exact Hy].
      * apply IH. split; [exact G|]. split; [exact H2|]. intros x y Hx Hy. apply H3; [right; exact Hx|exact Hy].
Qed.
End L.

Definition tri_t := (nat * nat * nat)%type.
Definition span (t : tri_t) : nat * nat := let '(i, m, k) := t in (i, k).
(** The directed sides. *)
Definition sides (t : tri_t) : list (nat * nat) := let '(i, m, k) := t in [(i, m); (m, k); (k, i)].
Definition apart (r s : nat * nat) : Prop := snd r <= fst s \/ snd s <= fst r.
(** [s] lies beyond one of the sides (i,m), (m,k) of the triangle [t]. *)
Definition beyond_of (t : tri_t) (s : nat * nat) : Prop := let '(i, m, k) := t in (i <= fst s /\ snd s <= m) \/ (m <= fst s /\ snd s <= k).
Definition before (t s : tri_t) : Prop := apart (span t) (span s) \/ beyond_of t (span s).

Record Tree (n : nat) (ts : list tri_t) : Prop := {
  tr_len : length ts = n - 2;
  tr_rng : forall i m k, In (i, m, k) ts -> i < m < k /\ k < n;
  tr_root : exists m, In (0, m, n - 1) ts;
  tr_par : forall i m k, In (i, m, k) ts -> (i = 0 /\ k = n - 1) \/ exists a b c, In (a, b, c) ts /\ ((a = i /\ b = k) \/ (b = i /\ c = k));
  tr_chl : forall i m k, In (i, m, k) ts -> (m = i + 1 \/ exists m', In (i, m', m) ts) /\ (k = m + 1 \/ exists m', In (m, m', k) ts);
  tr_ord : ForallOrdPairs before ts }.

(** ** The queue *)
Section Q.
Context {N : Num}.
Variable o : nat -> nat -> option nat.
Variable n : nat.
Hypothesis HO : forall i k, i + 2 <= k -> k < n -> exists m, o i k = Some m /\ i < m < k.
Hypothesis Hn : 3 <= n.

Record QInv (que : list (nat * nat)) (ts : list tri_t) : Prop := {
  qi_rng : forall i m k, In (i, m, k) ts -> i < m < k /\ k < n;
  qi_que : forall i k, In (i, k) que -> i + 2 <= k /\ k < n;
  qi_root : In (0, n - 1) que \/ exists m, In (0, m, n - 1) ts;
  qi_par : forall i k, In (i, k) que \/ (exists m, In (i, m, k) ts) -> (i = 0 /\ k = n - 1) \/ exists a b c, In (a, b, c) ts /\ ((a = i /\ b = k) \/ (b = i /\ c = k));
  qi_chl : forall i m k, In (i, m, k) ts -> (m = i + 1 \/ In (i, m) que \/ exists m', In (i, m', m) ts) /\ (k = m + 1 \/ In (m, k) que \/ exists m', In (m, m', k) ts);
  qi_ord : ForallOrdPairs before ts;
  qi_tq : forall t q, In t ts -> In q que -> apart (span t) q \/ beyond_of t q;
  qi_qq : ForallOrdPairs apart que }.
Definition work (que : list (nat * nat)) : nat := fold_right (fun q a => snd q - fst q - 1 + a) 0 que.
Lemma work_app a b : work (a ++ b) = work a + work b.
Proof. induction a as [|x a IH]; cbn; [reflexivity|]. unfold work in *. rewrite IH. lia. Qed.
Lemma later_in i m k q : i < m < k -> In q (later i m k) <-> (q = (i, m) /\ i + 1 <> m) \/ (q = (m, k) /\ m + 1 <> k).
Proof.
  intros H. unfold later. destruct (Nat.eqb_spec (i + 2) k) as [E|E].
  - cbn. split; [intros []|]. intros [[_ Z] | [_ Z]]; lia.
  - rewrite in_app_iff. destruct (Nat.eqb_spec (i + 1) m), (Nat.eqb_spec (m + 1) k); cbn; intuition (try congruence; try lia; auto).
Qed.
Lemma later_work i m k : i < m < k -> i + 2 <= k -> work (later i m k) + 1 = k - i - 1.
Proof.
  intros H H2. unfold later. destruct (Nat.eqb_spec (i + 2) k) as [E|E]; [cbn; lia|].
  rewrite work_app. destruct (Nat.eqb_spec (i + 1) m), (Nat.eqb_spec (m + 1) k); cbn; lia.
Qed.
Lemma apart_sym r s : apart r s -> apart s r.
Proof. unfold apart. tauto. Qed.
Lemma later_apart i m k q r : i < m < k -> In q (later i m k) -> apart r (i, k) -> apart r q.
Proof. intros H Hq A. apply later_in in Hq; [|exact H]. unfold apart in *. cbn [fst snd] in *. destruct Hq as [[-> _] | [-> _]]; cbn [fst snd]; lia. Qed.
Lemma later_beyond i m k q t : i < m < k -> In q (later i m k) -> beyond_of t (i, k) -> beyond_of t q.
Proof. intros H Hq A. apply later_in in Hq; [|exact H]. destruct t as [[a b] c]. unfold beyond_of in *. cbn [fst snd] in *. destruct Hq as [[-> _] | [-> _]]; cbn [fst snd]; lia. Qed.

Lemma queue_step i k m que ts : QInv ((i, k) :: que) ts -> i < m < k -> QInv (que ++ later i m k) (ts ++ [(i, m, k)]).
Proof.
  intros Q Hm. destruct (qi_que _ _ Q i k ltac:(left; reflexivity)) as [Hik Hk].
  assert (QQ := qi_qq _ _ Q). inversion QQ as [|? ? FA QQ']; subst. assert (FA' := proj1 (Forall_forall _ _) FA). clear QQ FA.
  constructor.
  - intros a b c H. apply in_app_iff in H as [H | [H|[]]]; [exact (qi_rng _ _ Q a b c H)|]. injection H as <- <- <-. lia.
  - intros a b H. apply in_app_iff in H as [H | H]; [apply (qi_que _ _ Q); right; exact H|]. apply later_in in H; [|exact Hm]. destruct H as [[E ?] | [E ?]]; injection E as -> ->; lia.
  - destruct (qi_root _ _ Q) as [[E | R] | (m' & R)].
    + injection E as -> ->. right. exists m. apply in_app_iff. right; left. reflexivity.
    + left. apply in_app_iff. auto.
    + right. exists m'. apply in_app_iff. auto.
  - intros a b H.
    assert (K : (In (a, b) ((i, k) :: que) \/ exists m, In (a, m, b) ts) \/ In (a, b) (later i m k)).
    { destruct H as [H | (m' & H)]; apply in_app_iff in H as [H | H]; [left; left; right; exact H|right; exact H|left; right; eauto|]. destruct H as [H|[]]. injection H as <- _ <-. left; left; left; reflexivity. }
    destruct K as [K | K].
    + destruct (qi_par _ _ Q a b K) as [E | (x & y & z & I & E)]; [left; exact E|right]. exists x, y, z. split; [apply in_app_iff; auto|exact E].
    + right. exists i, m, k. split; [apply in_app_iff; right; left; reflexivity|]. apply later_in in K; [|exact Hm]. destruct K as [[E _] | [E _]]; injection E as -> ->; auto.
  - intros a b c H. apply in_app_iff in H as [H | [H|[]]].
    + assert (P : forall x y, In (x, y) ((i, k) :: que) \/ (exists m', In (x, m', y) ts) -> In (x, y) (que ++ later i m k) \/ exists m', In (x, m', y) (ts ++ [(i, m, k)])).
      { intros x y [[E | I] | (m' & I)]; [injection E as -> ->; right; exists m; apply in_app_iff; right; left; reflexivity|left; apply in_app_iff; auto|right; exists m'; apply in_app_iff; auto]. }
      destruct (qi_chl _ _ Q a b c H) as [[E1 | C1] [E2 | C2]]; split; auto.
    + injection H as <- <- <-. split.
      * destruct (Nat.eq_dec (i + 1) m); [left; lia|right; left]. apply in_app_iff. right. apply later_in; auto.
      * destruct (Nat.eq_dec (m + 1) k); [left; lia|right; left]. apply in_app_iff. right. apply later_in; auto.
  - apply fop_app. split; [exact (qi_ord _ _ Q)|]. split; [constructor; [constructor|constructor]|]. intros t s Ht [<- | []]. destruct (qi_tq _ _ Q t (i, k) Ht ltac:(left; reflexivity)) as [A | B]; [left; exact A|right; exact B].
  - intros t q Ht Hq. apply in_app_iff in Ht as [Ht | [<- | []]]; apply in_app_iff in Hq as [Hq | Hq].
    + apply (qi_tq _ _ Q); [exact Ht|right; exact Hq].
    + destruct (qi_tq _ _ Q t (i, k) Ht ltac:(left; reflexivity)) as [A | B]; [left; exact (later_apart i m k q _ Hm Hq A)|right; exact (later_beyond i m k q t Hm Hq B)].
    + left. apply FA', Hq.
    + right. apply later_in in Hq; [|exact Hm]. unfold beyond_of. destruct Hq as [[-> _] | [-> _]]; cbn [fst snd]; lia.
  - apply fop_app. split; [exact QQ'|]. split.
    + unfold later. destruct (i + 2 =? k); [constructor|]. destruct (i + 1 =? m), (m + 1 =? k); cbn [app]; repeat constructor.
    + intros q r Hq Hr. apply (later_apart i m k r q Hm Hr). apply apart_sym, FA', Hq.
Qed.

Lemma queue_ok (mm : mesh N) : forall fuel que ts, QInv que ts -> work que <= fuel -> length ts + work que = n - 2 ->
  exists ts', fill_queue o n fuel que ts mm = Ok (ts', mm) /\ Tree n ts'.
Proof.
  induction fuel as [|fuel IH]; intros que ts Q L C; (destruct que as [|[i k] que]; [exists ts; split; [destruct fuel || idtac; reflexivity|]|]).
  1, 3: cbn [work fold_right] in C; constructor; [lia|apply (qi_rng _ _ Q)|destruct (qi_root _ _ Q) as [[] | R]; exact R| | |apply (qi_ord _ _ Q)];
    [intros i m k H; apply (qi_par _ _ Q); eauto|intros i m k H; destruct (qi_chl _ _ Q i m k H) as [[A | [[] | A]] [B | [[] | B]]]; auto].
  - exfalso. destruct (qi_que _ _ Q i k ltac:(left; reflexivity)). cbn [work fold_right fst snd] in L. lia.
  - destruct (qi_que _ _ Q i k ltac:(left; reflexivity)) as [Hik Hk]. destruct (HO i k Hik Hk) as (m & Em & Hm).
    cbn [fill_queue]. unfold o_at. rewrite (proj2 (Nat.ltb_lt i n)), (proj2 (Nat.ltb_lt k n)) by lia. cbn [andb]. rewrite Em, bind_ret.
    assert (LW := later_work i m k Hm Hik). assert (W0 : work ((i, k) :: que) = k - i - 1 + work que) by reflexivity. apply IH.
    + exact (queue_step i k m que ts Q Hm).
    + rewrite work_app. lia.
    + rewrite work_app, app_length. cbn [length]. unfold tri_t in *. lia.
Qed.
Lemma queue_start : QInv [(0, n - 1)] [].
Proof.
  constructor; try (intros; contradiction).
  - intros i k [[= <- <-] | []]. lia.
  - left; left; reflexivity.
  - intros i k [[[= <- <-] | []] | (m & [])]. left; auto.
  - constructor.
  - constructor; [constructor|constructor].
Qed.
Theorem fill_queue_ok (mm : mesh N) : exists ts, fill_queue o n n [(0, n - 1)] [] mm = Ok (ts, mm) /\ Tree n ts.
Proof. apply queue_ok; [exact queue_start|cbn; lia|cbn; lia]. Qed.
End Q.

(** ** Facts about the triangles *)
Section F.
Variables (n : nat) (ts : list tri_t).
Hypothesis T : Tree n ts.
Hypothesis Hn : 3 <= n.

(** Every edge of the hole is a side. *)
Lemma side_ring j : S j < n -> exists t, In t ts /\ In (j, S j) (sides t).
Proof.
  intros Hj. destruct (tr_root _ _ T) as (m & R).
  assert (K : forall d i m k, k - i <= d -> In (i, m, k) ts -> i <= j < k -> exists t, In t ts /\ In (j, S j) (sides t)).
  { induction d as [|d IH]; intros i m' k L H B; [lia|]. destruct (tr_rng _ _ T _ _ _ H) as [B1 B2]. destruct (tr_chl _ _ T _ _ _ H) as [[E1 | (x & C1)] [E2 | (y & C2)]].
    - exists (i, m', k). split; [exact H|]. cbn. destruct (Nat.eq_dec j i); [left; f_equal; lia|right; left; f_equal; lia].
    - destruct (Nat.eq_dec j i); [exists (i, m', k); split; [exact H|left; f_equal; lia]|]. apply (IH m' y k); [lia|exact C2|lia].
    - destruct (lt_dec j m'); [apply (IH i x m'); [lia|exact C1|lia]|exists (i, m', k); split; [exact H|right; left; f_equal; lia]].
    - destruct (lt_dec j m'); [apply (IH i x m'); [lia|exact C1|lia]|apply (IH m' y k); [lia|exact C2|lia]]. }
  apply (K (n - 1) 0 m (n - 1)); [lia|exact R|lia].
Qed.
Lemma side_last : exists t, In t ts /\ In (n - 1, 0) (sides t).
Proof. destruct (tr_root _ _ T) as (m & R). exists (0, m, n - 1). split; [exact R|]. cbn. auto. Qed.

Lemma in_sides t a b : In (a, b) (sides t) -> let '(i, m, k) := t in (a = i /\ b = m) \/ (a = m /\ b = k) \/ (a = k /\ b = i).
Proof. destruct t as [[i m] k]. cbn. intros [[= <- <-] | [[= <- <-] | [[= <- <-] | []]]]; auto. Qed.
Lemma sides_rng t a b : In t ts -> In (a, b) (sides t) -> a < n /\ b < n /\ a <> b.
Proof. intros H S. destruct t as [[i m] k]. destruct (tr_rng _ _ T _ _ _ H). apply in_sides in S. destruct S as [[-> ->] | [[-> ->] | [-> ->]]]; lia. Qed.

(** No directed side is used twice. *)
Lemma before_sides t s : In t ts -> In s ts -> before t s -> forall e, In e (sides t) -> In e (sides s) -> False.
Proof.
  intros It Is B [a b] Ht Hs. destruct t as [[i m] k], s as [[i' m'] k']. destruct (tr_rng _ _ T _ _ _ It). destruct (tr_rng _ _ T _ _ _ Is).
  apply in_sides in Ht, Hs. unfold before, apart, beyond_of, span in B. cbn [fst snd] in B. lia.
Qed.
Lemma nodup_sides : NoDup (flat_map sides ts).
Proof.
  assert (A := fun t s It Is => before_sides t s It Is). assert (O := tr_ord _ _ T).
  assert (R : forall t, In t ts -> NoDup (sides t)).
  { intros [[i m] k] H. destruct (tr_rng _ _ T _ _ _ H). cbn. constructor; [|constructor; [|constructor; [intros []|constructor]]]; cbn [In]; intros X; repeat (destruct X as [X | X]; [injection X; intros; lia|]); destruct X. }
  clear - A O R. induction ts as [|t l IH]; cbn [flat_map]; [constructor|]. inversion O as [|? ? F O']; subst.
  assert (D : forall e, In e (sides t) -> ~ In e (flat_map sides l)).
  { intros e He K. apply in_flat_map in K as (s & Hs & Ks). apply (A t s) with (e := e); [left; reflexivity|right; exact Hs|exact (proj1 (Forall_forall _ _) F s Hs)|exact He|exact Ks]. }
  assert (IHl : NoDup (flat_map sides l)) by (apply IH; [intros t' s' It Is; exact (A t' s' (or_intror It) (or_intror Is))|exact O'|intros t' It; exact (R t' (or_intror It))]).
  clear - D IHl R. assert (Rt := R t (or_introl eq_refl)). clear R. induction (sides t) as [|e es IHe]; cbn [app]; [exact IHl|]. inversion Rt; subst. constructor.
  - rewrite in_app_iff. intros [K | K]; [contradiction|]. apply (D e); [left; reflexivity|exact K].
  - apply IHe; [intros e' He'; apply D; right; exact He'|assumption].
Qed.

(** The sides that are not edges of the hole come in opposite pairs. *)
Definition ring_pair (e : nat * nat) : Prop := fst e < n /\ snd e = (fst e + 1) mod n.
Lemma ring_pair_iff a b : a < n -> b < n -> ring_pair (a, b) <-> b = a + 1 \/ (a = n - 1 /\ b = 0).
Proof.
  intros Ha Hb. unfold ring_pair. cbn [fst snd]. destruct (Nat.eq_dec (a + 1) n) as [E|E].
  - rewrite E, Nat.mod_same by lia. lia.
  - rewrite Nat.mod_small by lia. lia.
Qed.
Lemma side_opp t a b : In t ts -> In (a, b) (sides t) -> ~ ring_pair (a, b) -> ~ ring_pair (b, a) /\ exists s, In s ts /\ In (b, a) (sides s).
Proof.
  intros It S NR. destruct t as [[i m] k]. destruct (tr_rng _ _ T _ _ _ It) as [B1 B2]. destruct (sides_rng _ a b It S) as (La & Lb & _).
  rewrite ring_pair_iff in NR by assumption. rewrite ring_pair_iff by assumption. apply in_sides in S. destruct (tr_chl _ _ T _ _ _ It) as [C1 C2].
  destruct S as [[-> ->] | [[-> ->] | [-> ->]]].
  - split; [lia|]. destruct C1 as [C1 | (x & C1)]; [lia|]. exists (i, x, m). split; [exact C1|]. cbn; auto.
  - split; [lia|]. destruct C2 as [C2 | (x & C2)]; [lia|]. exists (m, x, k). split; [exact C2|]. cbn; auto.
  - split; [lia|]. destruct (tr_par _ _ T _ _ _ It) as [C | (x & y & z & C & [[-> ->] | [-> ->]])]; [lia| |].
    + exists (i, k, z). split; [exact C|]. cbn; auto.
    + exists (x, i, k). split; [exact C|]. cbn; auto.
Qed.
End F.
