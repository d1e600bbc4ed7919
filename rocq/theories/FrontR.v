(** holeFillAdvancingFront: the run of one step that cuts off a corner of the front. *)
From Coq Require Import List ZArith Arith Lia Bool.
From Verif Require Import Num Vec Heap Mesh Spec Orbit Rings Exec Construct Remove Split BuildTri Collapse Fill FillT FillO FillQ Front FrontF FrontA FrontO FrontJ.
Import ListNotations.
Local Open Scope mesh_scope.

Lemma before_eq n i : 1 <= n -> i < n -> before_ n i = if i =? 0 then n - 1 else i - 1.
Proof.
  intros Hn Hi. unfold before_. destruct (Nat.eqb_spec i 0) as [->|D]; [rewrite Nat.mod_small by lia; lia|].
  replace (i + n - 1) with (i - 1 + 1 * n) by lia. rewrite Nat.mod_add by lia. apply Nat.mod_small. lia.
Qed.
Lemma after_eq n i : i < n -> after_ n i = if i =? n - 1 then 0 else i + 1.
Proof.
  intros Hi. unfold after_. destruct (Nat.eqb_spec i (n - 1)) as [->|D]; [replace (n - 1 + 1) with n by lia; apply Nat.mod_same; lia|apply Nat.mod_small; lia].
Qed.
Lemma nodup_flat_map {X Y} (g : X -> list Y) : forall l, NoDup l -> (forall x, In x l -> NoDup (g x)) -> (forall x y z, In x l -> In y l -> In z (g x) -> In z (g y) -> x = y) -> NoDup (flat_map g l).
Proof.
  induction l as [|x l IH]; intros ND G D; cbn [flat_map]; [constructor|]. inversion ND as [|? ? X1 X2]; subst.
  assert (K : NoDup (flat_map g l)) by (apply IH; [exact X2|intros; apply G; right; assumption|intros a b z A B; apply D; right; assumption]).
  assert (GX := G x (or_introl eq_refl)). assert (DX : forall z, In z (g x) -> ~ In z (flat_map g l)).
  { intros z Z1 Z2. apply in_flat_map in Z2 as (y & Iy & Z2). apply X1. rewrite (D x y z (or_introl eq_refl) (or_intror Iy) Z1 Z2). exact Iy. }
  clear - K GX DX. induction (g x) as [|z r IHr]; [exact K|]. inversion GX; subst. cbn [app]. constructor; [rewrite in_app_iff; intros [Q | Q]; [contradiction|exact (DX z (or_introl eq_refl) Q)]|apply IHr; [assumption|intros w Iw; apply DX; right; exact Iw]].
Qed.
Lemma seq_shiftn n : forall k c, map (fun j => n + j - 1) (seq (S c) k) = seq (n + c) k.
Proof. induction k as [|k IH]; intros c; cbn [seq map]; [reflexivity|]. f_equal; [lia|]. rewrite IH. f_equal. lia. Qed.
Lemma fan_seq (ix : nat -> nat) i : forall r c, fan i (map ix (seq c (S r))) = map (fun j => (ix j, i, ix (S j))) (seq c r).
Proof. induction r as [|r IH]; intros c; [reflexivity|]. change (fan i (map ix (seq c (S (S r))))) with ((ix c, i, ix (S c)) :: fan i (map ix (seq (S c) (S r)))). rewrite IH. reflexivity. Qed.
Lemma front_maps_seq (ix : nat -> nat) X : forall r c p, (forall j j', c <= j < c + r -> c <= j' < c + r -> ix j = ix j' -> j = j') ->
  let p' := front_maps (map ix (seq c (S r))) (map Some (seq (X + c) r)) p in
  (forall u v, (forall j, c <= j < c + r -> (u, v) <> (ix j, ix (S j))) -> p_he p' u v = p_he p u v) /\
  (forall j, c <= j < c + r -> p_he p' (ix j) (ix (S j)) = Some (X + j) /\ p_of p' (X + j) = (ix j, ix (S j))) /\
  (forall h, (forall j, c <= j < c + r -> h <> X + j) -> p_of p' h = p_of p h).
Proof.
  induction r as [|r IH]; intros c p INJ; cbv zeta.
  - split; [reflexivity|]. split; [intros j L; lia|reflexivity].
  - change (front_maps (map ix (seq c (S (S r)))) (map Some (seq (X + c) (S r))) p) with (front_maps (map ix (seq (S c) (S r))) (map Some (seq (S (X + c)) r)) (p_add (ix c) (ix (S c)) (X + c) p)).
    replace (S (X + c)) with (X + S c) by lia. destruct (IH (S c) (p_add (ix c) (ix (S c)) (X + c) p)) as (A & B & C); [intros j j' L L' H; apply INJ; [lia..|exact H]|]. split; [|split].
    + intros u v H. rewrite A by (intros j L; apply H; lia). assert (D := H c ltac:(lia)). unfold p_add, em_set. cbn [p_he]. destruct (Nat.eqb_spec u (ix c)), (Nat.eqb_spec v (ix (S c))); cbn [andb]; try reflexivity. congruence.
    + intros j L. destruct (Nat.eq_dec j c) as [->|D]; [|apply B; lia]. rewrite A, C.
      * unfold p_add, em_set. cbn [p_he p_of]. rewrite !Nat.eqb_refl, fupd_same. auto.
      * intros j L'. lia.
      * intros j L' K. injection K as K _. apply INJ in K; lia.
    + intros h H. rewrite C by (intros j L; apply H; lia). unfold p_add. cbn [p_of]. apply fupd_other. apply (H c). lia.
Qed.
Lemma length_filter_flat {X Y} (P : Y -> bool) (g : X -> list Y) : forall l, length (filter P (flat_map g l)) = list_sum (map (fun x => length (filter P (g x))) l).
Proof. induction l as [|x l IH]; [reflexivity|]. cbn [flat_map map]. rewrite filter_app, app_length, IH. reflexivity. Qed.
Lemma sum_sides k : list_sum (map (fun j => (if j =? 0 then 0 else 1) + (if j =? k then 0 else 1) + 1) (seq 0 (S k))) = 3 * k + 1.
Proof.
  assert (H : forall r, r < k -> list_sum (map (fun j => (if j =? 0 then 0 else 1) + (if j =? k then 0 else 1) + 1) (seq 0 (S r))) = 3 * r + 2).
  { induction r as [|r IH]; intros L.
    - destruct k; [lia|reflexivity].
    - rewrite seq_S, map_app, list_sum_app, IH by lia. cbn [map list_sum fold_right Nat.add]. destruct (Nat.eqb_spec (S r) 0); [lia|]. destruct (Nat.eqb_spec (S r) k); lia. }
  rewrite seq_S, map_app, list_sum_app. cbn [map list_sum fold_right Nat.add]. rewrite Nat.eqb_refl. destruct k as [|k]; [reflexivity|]. rewrite H by lia. cbn [Nat.eqb]. lia.
Qed.
Lemma forall2_nth {X Y} (R : X -> Y -> Prop) : forall l l', Forall2 R l l' -> length l = length l' /\ forall j x, nth_error l j = Some x -> exists y, nth_error l' j = Some y /\ R x y.
Proof. intros l l' F. induction F as [|x y l l' H F [IH1 IH2]]; (split; [cbn [length]; congruence|]); intros [|j] z E; try discriminate; cbn [nth_error] in *; [injection E as <-; eauto|apply IH2, E]. Qed.

Section R.
Context {N : Num}.
Variables (m : mesh N) (f i pv mi nv a b pp nn : nat) (hs vs : list nat) (news : list (vec N)).
Let n := length hs.
Let k := length news.
Let prev := before_ n i.
Let next := after_ n i.
Let p := ring_maps n 0 (map Some hs) no_maps.
Hypothesis W : WF m.
Hypothesis FRg : Fring m f hs.
Hypothesis SV : map (h_src m) hs = map Some vs.
Hypothesis Hn : 4 <= n.
Hypothesis Hi : i < n.
Hypothesis Ea : nth_error hs prev = Some a.
Hypothesis Eb : nth_error hs i = Some b.
Hypothesis Ep : nth_error hs (before_ n prev) = Some pp.
Hypothesis En : nth_error hs next = Some nn.
Hypothesis Va : nth_error vs prev = Some pv.
Hypothesis Vb : nth_error vs i = Some mi.
Hypothesis Vn : nth_error vs next = Some nv.

Lemma prev_lt : prev < n /\ prev <> i /\ next < n /\ next <> i /\ prev <> next /\ (prev + 1) mod n = i /\ (i + 1) mod n = next /\ (next + 1) mod n <> prev /\ before_ n prev < n /\ (before_ n prev + 1) mod n = prev /\
  before_ n prev <> i /\ before_ n prev <> prev.
Proof.
  unfold prev, next. rewrite (after_eq n i) by exact Hi. rewrite (before_eq n i) by lia.
  assert (K : forall u, u < n -> (u + 1) mod n = if u =? n - 1 then 0 else u + 1) by (intros u; exact (after_eq n u)).
  destruct (Nat.eqb_spec i 0), (Nat.eqb_spec i (n - 1)); try lia; rewrite before_eq by lia; repeat (rewrite K by (repeat (match goal with |- context [if ?x =? ?y then _ else _] => destruct (Nat.eqb_spec x y) end); lia));
  repeat (match goal with |- context [if ?x =? ?y then _ else _] => destruct (Nat.eqb_spec x y) end); lia.
Qed.

Definition ix (j : nat) : nat := if j =? 0 then prev else if j <=? k then n + j - 1 else next.
Definition nd (j : nat) : nat := if j =? 0 then pv else if j <=? k then m_fresh m + j - 1 else nv.
Let bs := vs ++ seq (m_fresh m) k.

Lemma ix_list : prev :: seq n k ++ [next] = map ix (seq 0 (S (S k))).
Proof.
  rewrite (seq_S (S k) 0), map_app. cbn [seq map]. replace (ix (0 + S k)) with next.
  - cbn [app]. f_equal. f_equal. rewrite <- (Nat.add_0_r n) at 1. rewrite <- seq_shiftn. apply map_ext_in. intros j I. apply in_seq in I. unfold ix. destruct (Nat.eqb_spec j 0); [lia|]. destruct (Nat.leb_spec j k); lia.
  - unfold ix. destruct (Nat.eqb_spec (0 + S k) 0); [lia|]. destruct (Nat.leb_spec (0 + S k) k); [lia|reflexivity].
Qed.
Lemma ix_cases j : j <= S k -> (j = 0 /\ ix j = prev) \/ (1 <= j <= k /\ ix j = n + j - 1) \/ (j = S k /\ ix j = next).
Proof. intros L. unfold ix. destruct (Nat.eqb_spec j 0); [auto|]. destruct (Nat.leb_spec j k); [right; left; lia|right; right; split; [lia|reflexivity]]. Qed.
Lemma ix_inj j j' : j <= S k -> j' <= S k -> ix j = ix j' -> j = j'.
Proof.
  intros L L' H. destruct prev_lt as (A1 & _ & A2 & _ & A3 & _). destruct (ix_cases j L) as [[-> X] | [[Y X] | [-> X]]], (ix_cases j' L') as [[-> X'] | [[Y' X'] | [-> X']]]; rewrite ?X, ?X' in H; lia.
Qed.
Lemma ix_ni j : j <= S k -> ix j <> i.
Proof. intros L. destruct prev_lt as (_ & A1 & _ & A2 & _). destruct (ix_cases j L) as [[-> X] | [[Y X] | [-> X]]]; rewrite X; [exact A1|lia|exact A2]. Qed.
Lemma len_vs : length vs = n.
Proof. unfold n. rewrite <- (map_length Some vs), <- SV, map_length. reflexivity. Qed.
Lemma ix_lt j : j <= S k -> ix j < length bs.
Proof. intros L. unfold bs. rewrite app_length, seq_length, len_vs. destruct prev_lt as (A1 & _ & A2 & _). destruct (ix_cases j L) as [[-> X] | [[Y X] | [-> X]]]; rewrite X; lia. Qed.
Lemma bs_ix j : j <= S k -> nth_error bs (ix j) = Some (nd j).
Proof.
  intros L. unfold bs, nd. destruct prev_lt as (A1 & _ & A2 & _). destruct (ix_cases j L) as [[-> X] | [[Y X] | [-> X]]]; rewrite X.
  - cbn [Nat.eqb]. rewrite nth_error_app1 by (rewrite len_vs; exact A1). exact Va.
  - destruct (Nat.eqb_spec j 0); [lia|]. destruct (Nat.leb_spec j k); [|lia]. rewrite nth_error_app2 by (rewrite len_vs; lia). rewrite len_vs, nth_seq by lia. f_equal. lia.
  - destruct (Nat.eqb_spec (S k) 0); [lia|]. destruct (Nat.leb_spec (S k) k); [lia|]. rewrite nth_error_app1 by (rewrite len_vs; exact A2). exact Vn.
Qed.

(** ** The table of the half-edges *)
Lemma p_ring u v h : p_he p u v = Some h <-> u < n /\ v = (u + 1) mod n /\ nth_error hs u = Some h.
Proof.
  unfold p. rewrite rmaps_he. cbn [Nat.leb andb Nat.add]. rewrite Nat.sub_0_r. fold n. destruct (Nat.ltb_spec u n); cbn [andb]; [|split; [discriminate|lia]].
  destruct (Nat.eqb_spec v ((u + 1) mod n)); [tauto|]. split; [discriminate|tauto].
Qed.
Let X := m_fresh m + k.
Let p0 := front_maps (map ix (seq 0 (S (S k)))) (map Some (seq X (S k))) p.
Lemma p0_facts : (forall u v, (forall j, j <= k -> (u, v) <> (ix j, ix (S j))) -> p_he p0 u v = p_he p u v) /\
  (forall j, j <= k -> p_he p0 (ix j) (ix (S j)) = Some (X + j) /\ p_of p0 (X + j) = (ix j, ix (S j))) /\
  (forall h, (forall j, j <= k -> h <> X + j) -> p_of p0 h = p_of p h).
Proof.
  destruct (front_maps_seq ix X (S k) 0 p) as (A & B & C); [intros j j' L L'; apply ix_inj; lia|]. rewrite Nat.add_0_r in A, B, C. fold p0 in A, B, C.
  split; [|split]; [intros u v H; apply A; intros j L; apply H; lia|intros j L; apply B; lia|intros h H; apply C; intros j L; apply H; lia].
Qed.
Lemma hs_in h : In h hs -> In h (m_hes m) /\ h_face m h = Some f.
Proof. apply FRg. Qed.
Lemma hs_lt h : In h hs -> h < m_fresh m.
Proof. intros I. apply (h_lt m W), hs_in, I. Qed.
(** An entry of the table: a half-edge of the front before or after. *)
Lemma p0_inv u v h : p_he p0 u v = Some h -> (exists j, j <= k /\ u = ix j /\ v = ix (S j) /\ h = X + j) \/ (u < n /\ v = (u + 1) mod n /\ nth_error hs u = Some h).
Proof.
  destruct p0_facts as (A & B & _). intros H. destruct (in_dec (fun x y : nat * nat => ltac:(decide equality; apply Nat.eq_dec)) (u, v) (map (fun j => (ix j, ix (S j))) (seq 0 (S k)))) as [I | I].
  - left. apply in_map_iff in I as (j & [= <- <-] & I). apply in_seq in I. exists j. split; [lia|]. split; [reflexivity|]. split; [reflexivity|]. destruct (B j) as [Z _]; [lia|]. congruence.
  - right. apply p_ring. rewrite <- A; [exact H|]. intros j L K. apply I. apply in_map_iff. exists j. split; [symmetry; exact K|apply in_seq; lia].
Qed.
Lemma pair_notring j : j <= k -> ix (S j) <> (ix j + 1) mod n \/ n <= ix j.
Proof.
  intros L. destruct prev_lt as (A1 & A2 & A3 & A4 & A5 & A6 & A7 & A8 & _). destruct (ix_cases j) as [[-> Y] | [[Y Y'] | [-> Y]]]; [lia| | |lia].
  - left. rewrite Y, A6. apply ix_ni. lia.
  - right. lia.
Qed.
Lemma p0_ring u h : nth_error hs u = Some h -> p_he p0 u ((u + 1) mod n) = Some h.
Proof.
  intros H. destruct p0_facts as (A & _). assert (Lu : u < n) by (apply nth_error_Some; congruence). rewrite A; [apply p_ring; auto|]. intros j L K. injection K as -> K. destruct (pair_notring j L); [congruence|lia].
Qed.
Lemma p0_of u v h : p_he p0 u v = Some h -> p_of p0 h = (u, v).
Proof.
  intros H. destruct p0_facts as (_ & B & C). apply p0_inv in H as [(j & L & -> & -> & ->) | (L & -> & H)]; [apply B, L|].
  rewrite C; [unfold p; rewrite (rmaps_of n hs 0 no_maps u h (proj1 (proj2 FRg)) H); reflexivity|]. intros j _ ->. assert (Z := hs_lt _ (nth_error_In _ _ H)). unfold X in Z. lia.
Qed.

Lemma p0_none u v : (forall j, j <= k -> (u, v) <> (ix j, ix (S j))) -> ~ (u < n /\ v = (u + 1) mod n) -> p_he p0 u v = None.
Proof. intros A B. destruct (p_he p0 u v) as [h|] eqn:E; [|reflexivity]. exfalso. apply p0_inv in E as [(j & L & -> & -> & _) | (L & E & _)]; [exact (A j L eq_refl)|tauto]. Qed.
Lemma p0_s0 : p_he p0 (ix 0) i = Some a.
Proof. destruct prev_lt as (_ & _ & _ & _ & _ & A & _). change (ix 0) with prev. rewrite <- A. exact (p0_ring prev a Ea). Qed.
Lemma p0_ok : p_he p0 i (ix (S k)) = Some b.
Proof.
  destruct prev_lt as (_ & _ & _ & _ & _ & _ & A & _). replace (ix (S k)) with next; [rewrite <- A; exact (p0_ring i b Eb)|].
  unfold ix. cbn [Nat.eqb]. destruct (Nat.leb_spec (S k) k); [lia|reflexivity].
Qed.
Lemma p0_s j : 1 <= j <= k -> p_he p0 (ix j) i = None.
Proof. intros L. apply p0_none; [intros j' L' K; injection K as _ K; apply (ix_ni (S j')); [lia|congruence]|]. intros [A _]. destruct (ix_cases j) as [[-> Y] | [[Y Y'] | [-> Y]]]; lia. Qed.
Lemma p0_o j : j < k -> p_he p0 i (ix (S j)) = None.
Proof.
  intros L. apply p0_none; [intros j' L' K; injection K as K _; apply (ix_ni j'); [lia|congruence]|]. intros [_ A]. destruct prev_lt as (_ & _ & B & _ & _ & _ & C & _). rewrite C in A.
  destruct (ix_cases (S j)) as [[Z Y] | [[Y Y'] | [Z Y]]]; lia.
Qed.
Lemma p0_y j : j <= k -> p_he p0 (ix (S j)) (ix j) = None.
Proof.
  intros L. apply p0_none.
  - intros j' L' K. injection K as K K'. apply ix_inj in K; [|lia..]. apply ix_inj in K'; lia.
  - intros [A B]. destruct prev_lt as (C1 & C2 & C3 & C4 & C5 & C6 & C7 & C8 & _). assert (M : (ix (S j) + 1) mod n < n) by (apply Nat.mod_upper_bound; lia).
    destruct (ix_cases j) as [[Z Y] | [[Y Y'] | [Z Y]]]; [lia| |lia|lia]. destruct (ix_cases (S j)) as [[Z' Y'] | [[Y' Y''] | [Z' Y']]]; [lia..|lia|]. rewrite Y, Y' in B. congruence.
Qed.
Let ts := map (fun j => (ix j, i, ix (S j))) (seq 0 (S k)).
Lemma in_E u v : In (u, v) (flat_map sides ts) <-> exists j, j <= k /\ ((u = ix j /\ v = i) \/ (u = i /\ v = ix (S j)) \/ (u = ix (S j) /\ v = ix j)).
Proof.
  unfold ts. rewrite in_flat_map. split.
  - intros (t & It & I). apply in_map_iff in It as (j & <- & Ij). apply in_seq in Ij. exists j. split; [lia|]. destruct I as [I | [I | [I | []]]]; injection I as <- <-; auto.
  - intros (j & L & H). exists (ix j, i, ix (S j)). split; [apply in_map_iff; exists j; split; [reflexivity|apply in_seq; lia]|]. cbn [sides]. destruct H as [[-> ->] | [[-> ->] | [-> ->]]]; cbn [In]; auto.
Qed.
Lemma nodup_E : NoDup (flat_map sides ts).
Proof.
  unfold ts. rewrite flat_map_concat_map, map_map, <- flat_map_concat_map. apply nodup_flat_map; [apply seq_NoDup| |].
  - intros j I. apply in_seq in I. cbn [sides]. assert (A := ix_ni j ltac:(lia)). assert (B := ix_ni (S j) ltac:(lia)). repeat constructor; cbn [In]; intuition congruence.
  - intros j j' [u v] I I' H H'. apply in_seq in I, I'. cbn [sides In] in H, H'. assert (A := ix_ni j ltac:(lia)). assert (B := ix_ni (S j) ltac:(lia)). assert (A' := ix_ni j' ltac:(lia)). assert (B' := ix_ni (S j') ltac:(lia)).
    destruct H as [H | [H | [H | []]]], H' as [H' | [H' | [H' | []]]]; injection H as H0 H1; injection H' as H2 H3; try congruence; (assert (Q : ix j = ix j') by congruence) || (assert (Q : ix (S j) = ix (S j')) by congruence); apply ix_inj in Q; lia.
Qed.
Lemma not_x_E j : j <= k -> ~ In (ix j, ix (S j)) (flat_map sides ts).
Proof.
  intros L I. apply in_E in I as (j' & L' & [[_ K] | [[K _] | [K K']]]); [apply (ix_ni (S j)); [lia|exact K]|apply (ix_ni j); [lia|exact K]|]. apply ix_inj in K; [|lia..]. apply ix_inj in K'; lia.
Qed.
Lemma count_new : length (filter (isnew p0) (flat_map sides ts)) = 3 * k + 1.
Proof.
  rewrite length_filter_flat. unfold ts. rewrite map_map, <- sum_sides. f_equal. apply map_ext_in. intros j I. apply in_seq in I. cbn [sides filter]. unfold isnew. cbn [fst snd]. rewrite (p0_y j) by lia.
  destruct (Nat.eqb_spec j 0) as [D0|D0], (Nat.eqb_spec j k) as [Dk|Dk].
  - rewrite D0 at 1. rewrite p0_s0, Dk, p0_ok. reflexivity.
  - rewrite D0 at 1. rewrite p0_s0, p0_o by lia. reflexivity.
  - rewrite p0_s by lia. rewrite Dk, p0_ok. reflexivity.
  - rewrite p0_s, p0_o by lia. reflexivity.
Qed.

Section Run.
Variable m1 : mesh N.
Hypothesis NF : NewFront m m1 k pv pp nn.
Lemma F1 : m_fresh m1 = X + S k. Proof. rewrite (nf_fresh _ _ _ _ _ _ NF). reflexivity. Qed.
Lemma P0i u v h : p_he p0 u v = Some h -> In h (m_hes m1).
Proof.
  intros H. destruct (nf_app _ _ _ _ _ _ NF) as (_ & E & _). rewrite E. apply in_app_iff. apply p0_inv in H as [(j & L & _ & _ & ->) | (_ & _ & H)].
  - right. apply in_seq. unfold X. lia.
  - left. apply hs_in, (nth_error_In _ _ H).
Qed.
Lemma hs_src u h : nth_error hs u = Some h -> h_src m h = nth_error vs u.
Proof.
  intros H. assert (K : nth_error (map (h_src m) hs) u = Some (h_src m h)) by (rewrite nth_error_map, H; reflexivity). rewrite SV, nth_error_map in K. destruct (nth_error vs u); [|discriminate]. cbn [option_map] in K. congruence.
Qed.
Lemma P0s u v h : p_he p0 u v = Some h -> h_src m1 h = nth_error bs u.
Proof.
  intros H. apply p0_inv in H as [(j & L & -> & _ & ->) | (L & _ & H)].
  - rewrite bs_ix by lia. unfold X. rewrite (nf_src _ _ _ _ _ _ NF j L). unfold nd. destruct (Nat.eqb_spec j 0); [reflexivity|]. destruct (Nat.leb_spec j k); [reflexivity|lia].
  - destruct (nf_hold _ _ _ _ _ _ NF h) as (E & _); [apply hs_lt, (nth_error_In _ _ H)|]. rewrite E, (hs_src u h H). unfold bs. rewrite nth_error_app1 by (rewrite len_vs; exact L). reflexivity.
Qed.

Variables (fs : list nat) (q : maps) (m2 : mesh N).
Hypothesis T : Tris m1 p0 bs ts fs q m2.
Let A := tt_alloc _ _ _ _ _ _ _ T.
Definition sf j := match p_he q (ix j) i with Some h => h | None => 0 end.
Definition of_ j := match p_he q i (ix (S j)) with Some h => h | None => 0 end.
Definition yf j := match p_he q (ix (S j)) (ix j) with Some h => h | None => 0 end.
Definition gf j := nth j fs 0.
Lemma len_fs : length fs = S k.
Proof. destruct (forall2_nth _ _ _ (tt_tris _ _ _ _ _ _ _ T)) as [E _]. rewrite <- E. unfold ts. rewrite map_length, seq_length. reflexivity. Qed.
Lemma tri j : j <= k -> (p_he q (ix j) i = Some (sf j) /\ p_he q i (ix (S j)) = Some (of_ j) /\ p_he q (ix (S j)) (ix j) = Some (yf j)) /\
  (h_src m2 (sf j) = Some (nd j) /\ h_src m2 (of_ j) = Some mi /\ h_src m2 (yf j) = Some (nd (S j))) /\
  (h_next m2 (sf j) = Some (of_ j) /\ h_next m2 (of_ j) = Some (yf j) /\ h_next m2 (yf j) = Some (sf j)) /\
  (h_face m2 (sf j) = Some (gf j) /\ h_face m2 (of_ j) = Some (gf j) /\ h_face m2 (yf j) = Some (gf j)) /\
  (h_bd m2 (sf j) = false /\ h_bd m2 (of_ j) = false /\ h_bd m2 (yf j) = false) /\ f_he m2 (gf j) = Some (sf j) /\ m_fresh m1 <= gf j < m_fresh m2 /\ nth_error fs j = Some (gf j).
Proof.
  intros L. destruct (forall2_nth _ _ _ (tt_tris _ _ _ _ _ _ _ T)) as [_ H]. destruct (H j (ix j, i, ix (S j))) as (g & Eg & [(h0 & h1 & h2 & P0 & P1 & P2 & S0 & S1 & S2 & N0 & N1 & N2 & F0 & F1' & F2 & B0 & B1 & B2 & FF) FG]).
  { unfold ts. rewrite nth_error_map, nth_seq by lia. reflexivity. }
  assert (G : gf j = g) by (unfold gf; apply nth_error_nth, Eg). unfold sf, of_, yf. rewrite P0, P1, P2, G. rewrite bs_ix in S0, S2 by lia.
  assert (Bi : nth_error bs i = Some mi) by (unfold bs; rewrite nth_error_app1 by (rewrite len_vs; exact Hi); exact Vb). rewrite Bi in S1. tauto.
Qed.
Lemma q_E u v : In (u, v) (flat_map sides ts) -> exists h, p_he q u v = Some h.
Proof. intros I. apply in_E in I as (j & L & H). destruct (tri j L) as ((P0 & P1 & P2) & _). destruct H as [[-> ->] | [[-> ->] | [-> ->]]]; eauto. Qed.
Lemma q_x j : j <= k -> p_he q (ix j) (ix (S j)) = Some (X + j).
Proof. intros L. apply (al_base _ _ _ _ _ _ A). destruct p0_facts as (_ & B & _). apply B, L. Qed.
Lemma q_s0 : sf 0 = a.
Proof. unfold sf. rewrite (al_base _ _ _ _ _ _ A _ _ _ p0_s0). reflexivity. Qed.
Lemma q_ok : of_ k = b.
Proof. unfold of_. rewrite (al_base _ _ _ _ _ _ A _ _ _ p0_ok). reflexivity. Qed.
Lemma q_old u v h : In (u, v) (flat_map sides ts) -> p_he q u v = Some h -> h < m_fresh m1 -> h = a \/ h = b.
Proof.
  intros I H L. apply in_E in I as (j & Lj & [[-> ->] | [[-> ->] | [-> ->]]]).
  - destruct (Nat.eq_dec j 0) as [->|D]; [left; assert (Z := al_base _ _ _ _ _ _ A _ _ _ p0_s0); congruence|]. destruct (al_new _ _ _ _ _ _ A _ _ _ (p0_s j ltac:(lia)) H) as [Z _]. lia.
  - destruct (Nat.eq_dec j k) as [->|D]; [right; assert (Z := al_base _ _ _ _ _ _ A _ _ _ p0_ok); congruence|]. destruct (al_new _ _ _ _ _ _ A _ _ _ (p0_o j ltac:(lia)) H) as [Z _]. lia.
  - destruct (al_new _ _ _ _ _ _ A _ _ _ (p0_y j ltac:(lia)) H) as [Z _]. lia.
Qed.
Lemma m2_same y : y < m_fresh m1 -> y <> a -> y <> b -> h_next m2 y = h_next m1 y /\ h_face m2 y = h_face m1 y /\ h_bd m2 y = h_bd m1 y.
Proof. intros L D1 D2. apply (tt_same _ _ _ _ _ _ _ T); [exact L|]. intros [u v] I H. cbn [fst snd] in H. destruct (q_old u v y I H L); contradiction. Qed.
Lemma new_sy j : j <= k -> (1 <= j -> m_fresh m1 <= sf j /\ h_rev m2 (sf j) = None) /\ (j < k -> m_fresh m1 <= of_ j /\ h_rev m2 (of_ j) = None) /\ (m_fresh m1 <= yf j /\ h_rev m2 (yf j) = None).
Proof.
  intros L. destruct (tri j L) as ((P0 & P1 & P2) & _). split; [|split].
  - intros L'. exact (al_new _ _ _ _ _ _ A _ _ _ (p0_s j ltac:(lia)) P0).
  - intros L'. exact (al_new _ _ _ _ _ _ A _ _ _ (p0_o j L') P1).
  - exact (al_new _ _ _ _ _ _ A _ _ _ (p0_y j L) P2).
Qed.

(** The state before the triangles are joined. *)
Let m3 := with_face (wr (map (fun h => (h, Some f)) (seq X (S k))) (h_face m2)) (set_f_he f (Some X) m2).
Hypothesis If : In f (m_faces m).
Lemma f_lt1 : f < m_fresh m. Proof. exact (f_lt m W f If). Qed.
Lemma tri3 : Forall2 (TriJ m3 q) ts fs.
Proof.
  assert (TT := tt_tris _ _ _ _ _ _ _ T). assert (FL := tt_fl _ _ _ _ _ _ _ T). assert (TF := tt_faces _ _ _ _ _ _ _ T).
  assert (H : forall t g, In t ts -> In g fs -> TriAt m1 bs q m2 t g -> TriJ m3 q t g).
  { intros [[u v] w] g It Ig [(h0 & h1 & h2 & P0 & P1 & P2 & S0 & S1 & S2 & N0 & N1 & N2 & F0 & F1' & F2 & B0 & B1 & B2 & FF) FG].
    exists h0, h1, h2. unfold ts in It. apply in_map_iff in It as (j & [= <- <- <-] & Ij). apply in_seq in Ij.
    split; [exact P0|]. split; [exact P1|]. split; [exact P2|]. split; [apply ix_ni; lia|]. split; [intros K; apply (ix_ni (S j)); [lia|congruence]|]. split; [intros K; apply ix_inj in K; lia|].
    split; [exact N0|]. split; [exact N1|]. split; [exact N2|]. assert (Lf := f_lt1). assert (L1 := F1). unfold X in L1. unfold m3. split.
    - cbn [with_face f_he set_f_he]. rewrite fupd_other by lia. exact FF.
    - change (f_live m2 g = true). assert (Q : In g (m_faces m2)) by (rewrite TF; apply in_app_iff; auto). apply In_nth_error in Q as (z & Q). apply (proj2 FL z g Q). }
  clear - H TT. induction TT as [|t g l l' R TT IH]; constructor; [apply H; [left; reflexivity|left; reflexivity|exact R]|apply IH; intros; apply H; [right; assumption|right; assumption|assumption]].
Qed.
Lemma old_rev h : In h (m_hes m) -> h_rev m2 h = h_rev m h /\ h_rev m h <> None.
Proof.
  intros I. assert (L := h_lt m W h I). assert (L1 := F1). unfold X in L1. rewrite (al_rev _ _ _ _ _ _ A h) by lia. destruct (nf_hold _ _ _ _ _ _ NF h L) as (_ & E & _). split; [exact E|].
  destruct (wf_rev m W h I) as (r & -> & _). discriminate.
Qed.
Lemma Iab : In a (m_hes m) /\ In b (m_hes m) /\ In pp (m_hes m).
Proof. split; [|split]; apply hs_in; eapply nth_error_In; eassumption. Qed.
Lemma opp3 u v h : In (u, v) (flat_map sides ts) -> p_he q u v = Some h -> h_rev m3 h = None -> u <> v /\ exists r, p_he q v u = Some r /\ h_rev m3 r = None.
Proof.
  intros I H E. change (h_rev m2 h = None) in E. destruct Iab as (Ia & Ib & _). apply in_E in I as (j & L & [[-> ->] | [[-> ->] | [-> ->]]]).
  - split; [apply ix_ni; lia|]. destruct j as [|j].
    + exfalso. rewrite (al_base _ _ _ _ _ _ A _ _ _ p0_s0) in H. injection H as <-. destruct (old_rev a Ia). congruence.
    + destruct (tri j ltac:(lia)) as ((_ & P1 & _) & _). exists (of_ j). split; [exact P1|]. apply new_sy; lia.
  - split; [intros K; apply (ix_ni (S j)); [lia|congruence]|]. destruct (Nat.eq_dec j k) as [->|D].
    + exfalso. rewrite (al_base _ _ _ _ _ _ A _ _ _ p0_ok) in H. injection H as <-. destruct (old_rev b Ib). congruence.
    + destruct (tri (S j) ltac:(lia)) as ((P1 & _ & _) & _). exists (sf (S j)). split; [exact P1|]. apply new_sy; lia.
  - split; [intros K; apply ix_inj in K; lia|]. exists (X + j). split; [apply q_x, L|]. change (h_rev m2 (X + j) = None). assert (L1 := F1). rewrite (al_rev _ _ _ _ _ _ A) by lia. apply (nf_new _ _ _ _ _ _ NF j L).
Qed.
Lemma bd3 u v h : In (u, v) (flat_map sides ts) -> p_he q u v = Some h -> h_bd m3 h = false.
Proof. intros I H. change (h_bd m2 h = false). apply in_E in I as (j & L & K). destruct (tri j L) as ((P0 & P1 & P2) & _ & _ & _ & (B0 & B1 & B2) & _). destruct K as [[-> ->] | [[-> ->] | [-> ->]]]; congruence. Qed.

Lemma join_ok : exists m4, join_faces q fs m3 = Ok (tt, m4) /\ Fan m m4 f mi a b pp nn k nd sf of_ (fun j => X + j) yf gf.
Proof.
  assert (LF := f_lt1). assert (L1 := F1). assert (L2 := al_fresh _ _ _ _ _ _ A). destruct Iab as (Ia & Ib & Ip).
  assert (LH : HList m2) by exact (al_hl _ _ _ _ _ _ A).
  destruct (join_faces_ok m3 q ts fs tri3) as (m4 & X4 & JS & JU & JN & JP).
  { change (2 <= m_fresh m2). assert (Z := h_lt m W a Ia). assert (Z' := h_lt m W b Ib). assert (D : a <> b) by (destruct prev_lt as (Z1 & Z2 & _); intros ->; apply Z2; eapply NoDup_nth_error; [exact (proj1 (proj2 FRg))|fold n; exact Z1|congruence]). unfold X in L1. lia. }
  { intros u v h H. change (h_live m2 h = true). exact (proj1 (alloc_live _ _ _ P0i _ _ _ A _ _ _ H)). }
  { exact (al_of _ _ _ _ _ _ A). }
  { exact opp3. }
  { exact bd3. }
  exists m4. split; [exact X4|].
  destruct JS as [(S1 & S2 & S3 & S4 & S5) (S6 & S7 & S8 & S9 & S10) (S11 & S12 & S13 & S14 & S15) (S16 & S17 & S18)].
  change (m_verts m4 = m_verts m2) in S1. change (m_hes m4 = m_hes m2) in S2. change (m_faces m4 = m_faces m2) in S3. change (m_indices m4 = m_indices m2) in S4. change (m_fresh m4 = m_fresh m2) in S5.
  change (v_live m4 = v_live m2) in S6. change (v_pos m4 = v_pos m2) in S7. change (v_he m4 = v_he m2) in S8. change (v_idx m4 = v_idx m2) in S9. change (v_lock m4 = v_lock m2) in S10.
  change (h_live m4 = h_live m2) in S11. change (h_src m4 = h_src m2) in S12. change (h_next m4 = h_next m2) in S13. change (h_idx m4 = h_idx m2) in S15. change (f_live m4 = f_live m2) in S16. change (f_idx m4 = f_idx m2) in S18.
  destruct (al_lists _ _ _ _ _ _ A) as [A1 A2]. destruct (al_v _ _ _ _ _ _ A) as (A3 & A4 & A5 & A6 & A7). destruct (nf_app _ _ _ _ _ _ NF) as (B1 & B2 & B3 & B4). destruct (nf_f _ _ _ _ _ _ NF) as (B5 & B6 & B7).
  destruct (al_hes _ _ _ _ _ _ A) as (nh & H1 & H2). assert (TF := tt_faces _ _ _ _ _ _ _ T). destruct (nf_lists _ _ _ _ _ _ NF) as ((LV & _ & _) & BV & _ & _). destruct LH as [LH1 LH2]. destruct (tt_fl _ _ _ _ _ _ _ T) as [LF1 LF2].
  assert (FACE : forall h, ~ In h (seq X (S k)) -> h_face m4 h = h_face m2 h) by (intros h I; rewrite S14; unfold m3; cbn [with_face h_face]; apply wr_out; rewrite fst_const; exact I).
  assert (FACEX : forall j, j <= k -> h_face m4 (X + j) = Some f).
  { intros j L. rewrite S14. unfold m3; cbn [with_face h_face]. apply wr_in; [rewrite fst_const; apply seq_NoDup|]. apply in_map_iff. exists (X + j). split; [reflexivity|]. apply in_seq. lia. }
  assert (FHE : forall g, g <> f -> f_he m4 g = f_he m2 g) by (intros g D; rewrite S17; unfold m3; cbn [with_face f_he set_f_he]; apply fupd_other, D).
  assert (XN : forall h, m_fresh m1 <= h -> ~ In h (seq X (S k))) by (intros h L I; apply in_seq in I; lia).
  assert (XO : forall h, h < m_fresh m -> ~ In h (seq X (S k))) by (intros h L I; apply in_seq in I; unfold X in I; lia).
  assert (XD : forall j, j <= k -> X + j <> a /\ X + j <> b) by (intros j L; apply (h_lt m W) in Ia, Ib; unfold X; lia).
  assert (SIDE : forall j, j <= k -> ~ In (sf j) (seq X (S k)) /\ ~ In (of_ j) (seq X (S k)) /\ ~ In (yf j) (seq X (S k))).
  { intros j L. destruct (new_sy j L) as (Z1 & Z2 & Z3). split; [|split].
    - destruct (Nat.eq_dec j 0) as [->|D]; [rewrite q_s0; apply XO, (h_lt m W), Ia|]. apply XN, Z1. lia.
    - destruct (Nat.eq_dec j k) as [->|D]; [rewrite q_ok; apply XO, (h_lt m W), Ib|]. apply XN, Z2. lia.
    - apply XN, Z3. }
  assert (OLD : forall h, In h (m_hes m) -> h_rev m4 h = h_rev m h /\ h_bd m4 h = h_bd m2 h).
  { intros h I. destruct (old_rev h I) as [Z1 Z2]. destruct (JU h) as [Z3 Z4]; [left; change (h_rev m2 h <> None); congruence|]. change (h_rev m4 h = h_rev m2 h) in Z3. change (h_bd m4 h = h_bd m2 h) in Z4. split; congruence. }
  assert (RX : forall j, j <= k -> h_rev m4 (yf j) = Some (X + j) /\ h_rev m4 (X + j) = Some (yf j) /\ h_bd m4 (yf j) = h_bd m2 (X + j)).
  { intros j L. destruct (tri j L) as ((P0 & P1 & P2) & _). destruct (JP (ix (S j)) (ix j) (yf j) (X + j)) as (Z1 & Z2 & _ & Z4); [apply in_E; exists j; auto|exact P2|apply q_x, L|exact (proj2 (proj2 (proj2 (new_sy j L))))|].
    split; [exact Z1|]. split; [exact Z2|]. apply Z4, not_x_E, L. }
  assert (RO : forall j, j < k -> h_rev m4 (of_ j) = Some (sf (S j)) /\ h_rev m4 (sf (S j)) = Some (of_ j) /\ h_bd m4 (of_ j) = false /\ h_bd m4 (sf (S j)) = false).
  { intros j L. destruct (tri j ltac:(lia)) as ((_ & P1 & _) & _). destruct (tri (S j) ltac:(lia)) as ((P0 & _ & _) & _).
    assert (I1 : In (i, ix (S j)) (flat_map sides ts)) by (apply in_E; exists j; split; [lia|auto]). assert (I2 : In (ix (S j), i) (flat_map sides ts)) by (apply in_E; exists (S j); split; [lia|auto]).
    destruct (JP i (ix (S j)) (of_ j) (sf (S j)) I1 P1 P0) as (Z1 & Z2 & Z3 & _); [apply (new_sy j); lia|]. destruct (JP (ix (S j)) i (sf (S j)) (of_ j) I2 P0 P1) as (_ & _ & Z4 & _); [apply (new_sy (S j)); lia|]. auto. }
  assert (BX : forall j, j <= k -> h_bd m2 (X + j) = true).
  { intros j L. destruct (XD j L) as [D1 D2]. destruct (m2_same (X + j)) as (_ & _ & Z); [lia|exact D1|exact D2|]. rewrite Z. apply (nf_new _ _ _ _ _ _ NF j L). }
  assert (NV : forall j, 1 <= j <= k -> nd j = m_fresh m + j - 1) by (intros j L; unfold nd; destruct (Nat.eqb_spec j 0); [lia|]; destruct (Nat.leb_spec j k); [reflexivity|lia]).
  constructor.
  - unfold Lists. rewrite S1, S2, S3, S5, S6, S9, S11, S15, S16, S18. split; [split; [|split]|split; [|split]].
    + rewrite A1, A3, A6. exact LV.
    + split; [exact LH1|]. intros z h E. destruct (LH2 z h E) as (Z1 & Z2 & _). auto.
    + split; [exact LF1|]. intros z h E. destruct (LF2 z h E) as (Z1 & Z2 & _). auto.
    + rewrite A1. intros y I. apply BV in I. lia.
    + intros y I. apply In_nth_error in I as (z & I). apply (LH2 z y I).
    + intros y I. apply In_nth_error in I as (z & I). apply (LF2 z y I).
  - rewrite S5. unfold X in L1. lia.
  - exists (seq (m_fresh m) k). rewrite S1, A1, B1. split; [reflexivity|]. split; [apply seq_length|]. intros v. rewrite in_seq. split.
    + intros L. exists (v - m_fresh m + 1). split; [lia|]. rewrite NV by lia. lia.
    + intros (j & L & ->). rewrite NV by exact L. lia.
  - exists (seq X (S k) ++ nh). rewrite S2, H1, B2, app_assoc. split; [reflexivity|]. split.
    + rewrite app_length, seq_length. assert (Z : length nh = 3 * k + 1) by (rewrite <- count_new, <- (map_length Some nh), H2, map_length; reflexivity). lia.
    + intros h. rewrite in_app_iff, in_seq. assert (NHI : In h nh <-> exists u v, In (u, v) (flat_map sides ts) /\ p_he p0 u v = None /\ p_he q u v = Some h).
      { split.
        - intros I. assert (K : In (Some h) (map Some nh)) by (apply in_map, I). rewrite H2 in K. apply in_map_iff in K as ([u v] & K & I'). apply filter_In in I' as [I' K']. exists u, v. split; [exact I'|]. split; [|exact K].
          unfold isnew in K'. cbn [fst snd] in K'. destruct (p_he p0 u v); [discriminate|reflexivity].
        - intros (u & v & I & K & K'). assert (Z : In (Some h) (map Some nh)).
          { rewrite H2. apply in_map_iff. exists (u, v). split; [exact K'|]. apply filter_In. split; [exact I|]. unfold isnew. cbn [fst snd]. rewrite K. reflexivity. }
          apply in_map_iff in Z as (z & [= ->] & Z). exact Z. }
      rewrite NHI. split.
      * intros [L | (u & v & I & K & K')]; [exists (h - X); split; [lia|left; lia]|]. apply in_E in I as (j & L & I). destruct (tri j L) as ((P0 & P1 & P2) & _). exists j. split; [exact L|]. destruct I as [[-> ->] | [[-> ->] | [-> ->]]].
        -- right. right. left. split; [|congruence]. destruct j as [|j]; [|lia]. rewrite p0_s0 in K. discriminate.
        -- right. right. right. split; [|congruence]. destruct (Nat.eq_dec j k) as [->|D]; [|lia]. rewrite p0_ok in K. discriminate.
        -- right. left. congruence.
      * intros (j & L & I). destruct (tri j L) as ((P0 & P1 & P2) & _). destruct I as [-> | [-> | [[L' ->] | [L' ->]]]]; [left; lia|right..].
        -- exists (ix (S j)), (ix j). split; [apply in_E; exists j; auto|]. split; [apply p0_y, L|exact P2].
        -- exists (ix j), i. split; [apply in_E; exists j; auto|]. split; [apply p0_s; lia|exact P0].
        -- exists i, (ix (S j)). split; [apply in_E; exists j; auto|]. split; [apply p0_o; lia|exact P1].
  - exists fs. rewrite S3, TF, B3. split; [reflexivity|]. split; [rewrite len_fs; lia|]. intros h. split.
    + intros I. apply In_nth_error in I as (j & I). assert (L : j < length fs) by (apply nth_error_Some; congruence). rewrite len_fs in L. exists j. split; [lia|]. symmetry. apply nth_error_nth, I.
    + intros (j & L & ->). unfold gf. apply nth_In. rewrite len_fs. lia.
  - intros j L. rewrite NV by exact L. lia.
  - intros j L. unfold X. lia.
  - intros j L. destruct (new_sy j L) as (_ & _ & Z & _). unfold X in L1. lia.
  - intros j L. destruct (new_sy j) as (Z & _); [lia|]. destruct Z as [Z _]; [lia|]. unfold X in L1. lia.
  - intros j L. destruct (new_sy j) as (_ & Z & _); [lia|]. destruct Z as [Z _]; [lia|]. unfold X in L1. lia.
  - intros j L. destruct (tri j L) as (_ & _ & _ & _ & _ & _ & Z & _). unfold X in L1. lia.
  - intros j j' L L' E. rewrite !NV in E by assumption. lia.
  - intros j j' L L' E. assert (ND : NoDup fs) by (rewrite TF in LF1; apply NoDup_rev in LF1; rewrite rev_app_distr in LF1; apply nodup_app_l in LF1; apply NoDup_rev in LF1; rewrite rev_involutive in LF1; exact LF1).
    rewrite NoDup_nth in ND. apply (ND j j'); [rewrite len_fs; lia..|exact E].
  - intros j j' _ _ E. lia.
  - exact q_s0.
  - exact q_ok.
  - intros j L. rewrite S13. apply (tri j L).
  - intros j L. destruct (SIDE j L) as (Z1 & Z2 & Z3). rewrite !FACE by assumption. apply (tri j L).
  - intros j L. rewrite S12. apply (tri j L).
  - intros j L. split; [|apply FACEX, L]. rewrite S12, (tt_src _ _ _ _ _ _ _ T) by lia. unfold X. rewrite (nf_src _ _ _ _ _ _ NF j L). unfold nd. destruct (Nat.eqb_spec j 0); [reflexivity|]. destruct (Nat.leb_spec j k); [reflexivity|lia].
  - intros j L. rewrite S13. destruct (XD j) as [D1 D2]; [lia|]. destruct (m2_same (X + j)) as (Z & _); [lia|exact D1|exact D2|]. rewrite Z. unfold X. rewrite (nf_next _ _ _ _ _ _ NF j) by lia. destruct (Nat.eqb_spec j k); [lia|]. reflexivity.
  - rewrite S13. destruct (XD k) as [D1 D2]; [lia|]. destruct (m2_same (X + k)) as (Z & _); [lia|exact D1|exact D2|]. rewrite Z. unfold X. rewrite (nf_next _ _ _ _ _ _ NF k) by lia. rewrite Nat.eqb_refl. reflexivity.
  - intros j L. destruct (RX j L) as (Z1 & Z2 & _). auto.
  - intros j L. destruct (RO j L) as (Z1 & Z2 & _). auto.
  - rewrite S13, Nat.add_0_r. destruct prev_lt as (D1 & _ & _ & _ & _ & _ & _ & _ & D2 & _ & D3 & D4). assert (ND := proj1 (proj2 FRg)).
    assert (Da : pp <> a) by (intros ->; apply D4; eapply NoDup_nth_error; [exact ND|fold n; exact D2|congruence]). assert (Db : pp <> b) by (intros ->; apply D3; eapply NoDup_nth_error; [exact ND|fold n; exact D2|congruence]).
    destruct (m2_same pp) as (Z & _); [apply (h_lt m W) in Ip; unfold X in L1; lia|exact Da|exact Db|]. rewrite Z. exact (nf_pp _ _ _ _ _ _ NF).
  - intros h I. assert (L := h_lt m W h I). split; [|apply OLD, I]. rewrite S12, (tt_src _ _ _ _ _ _ _ T) by (unfold X in L1; lia). apply (nf_hold _ _ _ _ _ _ NF h L).
  - intros h I D1 D2 D3. assert (L := h_lt m W h I). rewrite S13. destruct (m2_same h) as (Z & _); [unfold X in L1; lia|exact D1|exact D2|]. rewrite Z. apply (nf_hold _ _ _ _ _ _ NF h L). exact D3.
  - intros h I D1 D2. assert (L := h_lt m W h I). rewrite FACE by (apply XO, L). destruct (m2_same h) as (_ & Z & _); [unfold X in L1; lia|exact D1|exact D2|]. rewrite Z. apply (nf_hold _ _ _ _ _ _ NF h L).
  - intros j L. destruct (RX j L) as (_ & _ & Z). rewrite Z, (BX j L). split; [|reflexivity]. rewrite JN; [exact (BX j L)|]. intros u v H. assert (K := alloc_inj _ _ _ _ _ _ A _ _ _ _ _ H (q_x j L)). rewrite K. apply not_x_E, L.
  - intros j L. destruct (tri j L) as (_ & _ & _ & _ & (Z1 & Z2 & _) & _). split.
    + destruct j as [|j]; [rewrite q_s0 in *; rewrite (proj2 (OLD a Ia)); exact Z1|]. apply (RO j). lia.
    + destruct (Nat.eq_dec j k) as [->|D]; [rewrite q_ok in *; rewrite (proj2 (OLD b Ib)); exact Z2|]. apply (RO j). lia.
  - intros h I D1 D2. assert (L := h_lt m W h I). rewrite (proj2 (OLD h I)). destruct (m2_same h) as (_ & _ & Z); [unfold X in L1; lia|exact D1|exact D2|]. rewrite Z. apply (nf_hold _ _ _ _ _ _ NF h L).
  - intros v I. assert (L := v_lt m W v I). rewrite S8, S7, S10, A4, A5, A7. exact (nf_vold _ _ _ _ _ _ NF v L).
  - intros j L. rewrite S8, S10, A5, A7, NV by exact L. exact (nf_vnew _ _ _ _ _ _ NF j L).
  - rewrite S17, Nat.add_0_r. unfold m3. cbn [with_face f_he set_f_he]. apply fupd_same.
  - intros j L. destruct (tri j L) as (_ & _ & _ & _ & _ & Z & Z' & _). rewrite FHE by (unfold X in L1; lia). exact Z.
  - intros g I D. rewrite FHE by exact D. assert (L := f_lt m W g I). rewrite (tt_fold _ _ _ _ _ _ _ T) by (unfold X in L1; lia). rewrite B6. reflexivity.
  - rewrite S4, A2, B4. reflexivity.
Qed.
End Run.

Lemma advance_ok : In f (m_faces m) -> exists m' s o x y g, advance (Some f) (map Some vs) p n i news m = Ok (tt, m') /\ Fan m m' f mi a b pp nn k nd s o x y g.
Proof.
  intros If. destruct prev_lt as (D1 & D2 & D3 & D4 & D5 & D6 & D7 & D8 & D9 & D10 & D11 & D12).
  destruct (front_new_ok m news pv pp nn (wf_lists m W) ltac:(apply hs_in, (nth_error_In _ _ Ep))) as (mA & XA & m1 & XB & NF). fold k in XA, XB, NF.
  destruct (add_all m1 p0 bs (P0i m1 NF) (P0s m1 NF) ts [] [] p0 m1) as (fs & q & m2 & XC & T).
  { apply tris_start; [exact (nf_lists _ _ _ _ _ _ NF)|exact p0_of]. }
  { intros u v w I. unfold ts in I. apply in_map_iff in I as (j & [= <- <- <-] & Ij). apply in_seq in Ij. split.
    - split; [apply ix_lt; lia|]. split; [unfold bs; rewrite app_length, len_vs; lia|apply ix_lt; lia].
    - split; [apply ix_ni; lia|]. split; [intros K; apply (ix_ni (S j)); [lia|congruence]|]. intros K. apply ix_inj in K; lia. }
  { exact nodup_E. }
  cbn [app] in T. assert (L1 := F1 m1 NF).
  destruct (join_ok m1 NF fs q m2 T If) as (m4 & XD & FN). exists m4. eexists _, _, _, _, _. split; [|exact FN].
  unfold advance. fold prev next. rewrite (bind_ok _ _ _ _ _ XA). cbn [fst snd].
  assert (EV : at_ (map Some vs) prev mA = Ok (Some pv, mA)) by (unfold at_; rewrite nth_error_map, Va; reflexivity). rewrite (bind_ok _ _ _ _ _ EV).
  assert (EP : p_he p (before_ n prev) prev = Some pp) by (apply p_ring; auto). assert (EN : p_he p next (after_ n next) = Some nn) by (apply p_ring; auto).
  rewrite EP, EN, (bind_ok _ _ _ _ _ XB). fold k. rewrite ix_list, fan_seq. fold X p0. fold ts. rewrite <- map_app. fold bs. rewrite (bind_ok _ _ _ _ _ XC). cbn [fst snd].
  assert (LF : f_live m2 f = true).
  { destruct (tt_fl _ _ _ _ _ _ _ T) as [_ FL]. assert (Q : In f (m_faces m2)) by (rewrite (tt_faces _ _ _ _ _ _ _ T); apply in_app_iff; left; destruct (nf_app _ _ _ _ _ _ NF) as (_ & _ & E & _); rewrite E; exact If). apply In_nth_error in Q as (z & Q). apply (FL z f Q). }
  change (hd None (map Some (seq X (S k)))) with (Some X). rewrite (bind_ok _ _ _ _ _ (ww_fhe m2 f (Some X) LF)).
  assert (LX : forall h, In h (seq X (S k)) -> h_live (set_f_he f (Some X) m2) h = true).
  { intros h I. change (h_live m2 h = true). destruct (al_hes _ _ _ _ _ _ (tt_alloc _ _ _ _ _ _ _ T)) as (nh & E & _). destruct (al_hl _ _ _ _ _ _ (tt_alloc _ _ _ _ _ _ _ T)) as [_ HL].
    assert (Q : In h (m_hes m2)) by (rewrite E; apply in_app_iff; left; destruct (nf_app _ _ _ _ _ _ NF) as (_ & E' & _); rewrite E'; apply in_app_iff; right; exact I). apply In_nth_error in Q as (z & Q). apply (HL z h Q). }
  rewrite (bind_ok _ _ _ _ _ (mfor_wface (Some f) (seq X (S k)) (set_f_he f (Some X) m2) LX)). exact XD.
Qed.
End R.
