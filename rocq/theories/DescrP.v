(** Descriptors of patches and the candidates: proofs. *)
From Coq Require Import Reals List ZArith Lra Lia Arith Bool Permutation Sorted.
From Verif Require Import Num NumInst Vec VecR Heap Mesh Icp Repair Coherent DescrSpec.
Import ListNotations.
Local Open Scope R_scope.
Local Notation lsum := (@Repair.lsum NumR).

Lemma combine_nth' (a b : list R) j : length a = length b -> nth j (map (fun p => fst p + snd p) (combine a b)) 0 = nth j a 0 + nth j b 0.
Proof.
  revert b j. induction a as [|x a IH]; intros [|y b] j H; cbn [length] in H; try discriminate H; cbn [combine map]; [destruct j; cbn [nth]; lra|]. destruct j; cbn [nth fst snd]; [reflexivity|]. apply IH. lia.
Qed.
Lemma lsum_gen (dims : nat) (fs : list (list R)) : (forall f, In f fs -> length f = dims) -> forall a : list R, length a = dims ->
  let s := fold_left (fun s f => map (fun p => fst p + snd p) (combine s f)) fs a in
  length s = dims /\ forall j, nth j s 0 = nth j a 0 + total (map (fun f => entry_of f j) fs).
Proof.
  induction fs as [|f fs IH]; intros H a Ha; cbn [fold_left map total fold_right]; [split; [exact Ha|intros j; lra]|].
  assert (Lf : length f = dims) by (apply H; left; reflexivity). destruct (IH (fun g G => H g (or_intror G)) (map (fun p => fst p + snd p) (combine a f))) as [L E].
  - rewrite map_length, combine_length. lia.
  - split; [exact L|]. intros j. rewrite E, combine_nth' by lia. unfold entry_of at 2, total. cbn [fold_right]. lra.
Qed.
Lemma nth_repeat0 d j : nth j (repeat 0 d) 0 = 0.
Proof. revert j. induction d as [|d IH]; intros [|j]; cbn [repeat nth]; auto. Qed.
Lemma lsum_nth (dims : nat) (fs : list (list R)) : (forall f, In f fs -> length f = dims) -> length (lsum dims fs) = dims /\ forall j, nth j (lsum dims fs) 0 = total (map (fun f => entry_of f j) fs).
Proof.
  intros H. destruct (lsum_gen dims fs H (repeat 0 dims) (repeat_length 0 dims)) as [L E]. split; [exact L|]. intros j. etransitivity; [exact (E j)|]. rewrite nth_repeat0. lra.
Qed.
Lemma nth_map0 (g : R -> R) l j : g 0 = 0 -> nth j (map g l) 0 = g (nth j l 0).
Proof. intros H. rewrite <- H at 1. apply map_nth. Qed.
Lemma mean_nth (dims n : nat) (fs : list (list R)) : (forall f, In f fs -> length f = dims) -> length (hks_mean (N := NumR) dims n fs) = dims /\ forall j, nth j (hks_mean (N := NumR) dims n fs) 0 = total (map (fun f => entry_of f j) fs) / INR n.
Proof.
  intros H. destruct (lsum_nth dims fs H) as [L E]. unfold hks_mean. split; [rewrite map_length; exact L|]. intros j. rewrite INR_IZR_INZ. etransitivity; [apply (nth_map0 (fun x => x / IZR (Z.of_nat n))); unfold Rdiv; ring|]. cbv beta. rewrite E. reflexivity.
Qed.
Lemma square_nth (f : list R) j : nth j (lmap2 (N := NumR) nmul f f) 0 = entry_of f j ^ 2.
Proof. unfold lmap2, entry_of. revert j. induction f as [|x f IH]; intros [|j]; cbn [combine map nth fst snd]; rn; try lra; try (cbn; lra). apply IH. Qed.
Lemma square_length (f : list R) : length (lmap2 (N := NumR) nmul f f) = length f.
Proof. unfold lmap2. rewrite map_length, combine_length. change (@num NumR) with R in *. apply Nat.min_id. Qed.
Lemma combine_map2 {A} (g : A -> A -> R) (d : A) (a b : list A) j : length a = length b -> (j < length a)%nat -> nth j (map (fun p => g (fst p) (snd p)) (combine a b)) 0 = g (nth j a d) (nth j b d).
Proof. revert b j. induction a as [|x a IH]; intros [|y b] j H Hj; cbn [length] in *; try lia. destruct j; cbn [combine map nth fst snd]; [reflexivity|]. apply IH; lia. Qed.
Lemma sigma_nth (dims n : nat) (fs : list (list R)) : (forall f, In f fs -> length f = dims) -> length (hks_sigma (N := NumR) dims n fs) = dims /\
  forall j, (j < dims)%nat -> nth j (hks_sigma (N := NumR) dims n fs) 0 = sqrt (Rmax (total (map (fun f => entry_of f j ^ 2) fs) / INR n - (total (map (fun f => entry_of f j) fs) / INR n) ^ 2) 0).
Proof.
  intros H. destruct (mean_nth dims n fs H) as [L1 E1]. set (sq := map (fun f => lmap2 (N := NumR) nmul f f) fs). assert (Hs : forall f, In f sq -> length f = dims).
  { intros f Hf. apply in_map_iff in Hf. destruct Hf as (g & <- & Ig). rewrite square_length. exact (H g Ig). }
  destruct (mean_nth dims n sq Hs) as [L2 E2]. unfold hks_sigma. cbv zeta. fold sq. split; [rewrite map_length, combine_length; change (@num NumR) with R in *; lia|].
  intros j Hj. etransitivity; [apply (combine_map2 (fun x y : R => @nsqrt NumR (@nmax NumR (@nsub NumR x (@nmul NumR y y)) (@nzero NumR))) 0); change (@num NumR) with R in *; lia|]. cbv beta. rewrite nmax_R. rn. change (@num NumR) with R in *. rewrite E1, E2. unfold sq. rewrite map_map.
  f_equal. apply f_equal2; [|reflexivity]. rewrite (map_ext (fun x => entry_of (lmap2 (N := NumR) Rmult x x) j) (fun f => entry_of f j ^ 2)) by (intros f; apply square_nth). match goal with |- ?a = ?b => change (@eq R a b) end. change (@num NumR) with R. ring.
Qed.
(** ** The largest entry *)
Lemma fold_max (l : list R) : forall x, let r := fold_left (@nmax NumR) l x in (r = x \/ In r l) /\ x <= r /\ forall y, In y l -> y <= r.
Proof.
  induction l as [|a l IH]; intros x; cbn [fold_left]; [split; [left; reflexivity|split; [lra|intros y []]]|]. destruct (IH (@nmax NumR x a)) as (H1 & H2 & H3). rewrite nmax_R in *. set (r := fold_left (@nmax NumR) l (Rmax x a)) in *.
  assert (M1 := Rmax_l x a). assert (M2 := Rmax_r x a). split; [|split; [lra|intros y [<-|Hy]; [lra|exact (H3 y Hy)]]].
  destruct H1 as [H1|H1]; [|right; right; exact H1]. unfold Rmax in H1. destruct (Rle_dec x a); [right; left; symmetry; exact H1|left; exact H1].
Qed.
Lemma max_at (l : list R) : l <> [] -> exists j0, max_coeff (N := NumR) l = nth j0 l 0 /\ Largest (length l) (fun j => nth j l 0) j0.
Proof.
  destruct l as [|x l]; [intros H; contradiction|]. intros _. destruct (fold_max l x) as (H1 & H2 & H3). change (max_coeff (N := NumR) (x :: l)) with (fold_left (@nmax NumR) l x). set (r := fold_left (@nmax NumR) l x) in *. clearbody r. change (@num NumR) with R in *.
  assert (I : In r (x :: l)) by (destruct H1 as [->|H1]; [left; reflexivity|right; exact H1]). destruct (In_nth _ _ 0 I) as (j0 & L0 & E0). exists j0. split; [symmetry; exact E0|]. split; [exact L0|]. intros j Hj. cbv beta. rewrite E0.
  assert (Ij := nth_In (x :: l) 0 Hj). destruct Ij as [<-|Ij]; [exact H2|exact (H3 _ Ij)].
Qed.
Lemma scaled_nth (l : list R) j : nth j (scaled (N := NumR) l) 0 = nth j l 0 / max_coeff (N := NumR) l.
Proof. unfold scaled. apply (nth_map0 (fun x => x / max_coeff (N := NumR) l)). unfold Rdiv. ring. Qed.
Lemma scaled_length (l : list R) : length (scaled (N := NumR) l) = length l. Proof. apply map_length. Qed.

Section Descriptor.
Variables (dims n : nat) (fs : list (list R)).
Hypothesis Hf : forall f, In f fs -> length f = dims.
Hypothesis Hd : (0 < dims)%nat.
Hypothesis Hn : (0 < n)%nat.
Hypothesis Hfs : fs <> [].
Lemma size_pos : 0 < INR (length fs).
Proof. apply lt_0_INR. destruct fs as [|f l]; [contradiction|]. cbn [length]. lia. Qed.
Lemma descr_mean : (exists j, (j < dims)%nat /\ Mean fs j <> 0) -> (forall j, 0 <= Mean fs j) -> exists j0, Largest dims (Mean fs) j0 /\ forall j, (j < dims)%nat -> nth j (descriptor (N := NumR) dims n fs) 0 = Mean fs j / Mean fs j0.
Proof.
  intros (k & Hk & Nk) Pos. destruct (mean_nth dims n fs Hf) as [L E]. change (@num NumR) with R in *. set (mu := (hks_mean (N := NumR) dims n fs : list R)) in *. change (@num NumR) with R in *. assert (Ne : mu <> []) by (intros H; rewrite H in L; cbn in L; lia). destruct (max_at mu Ne) as (j0 & E0 & Lj & Hmax). exists j0.
  assert (Pn : 0 < INR n) by (apply lt_0_INR; lia). assert (Pk := size_pos).
  assert (C : forall j, nth j mu 0 = Mean fs j * (INR (length fs) / INR n)) by (intros j; rewrite E; unfold Mean; field; lra).
  assert (Pq : 0 < INR (length fs) / INR n) by (apply Rdiv_lt_0_compat; lra).
  assert (M : Largest dims (Mean fs) j0).
  { rewrite L in *. split; [exact Lj|]. intros j Hj. assert (Q := Hmax j Hj). cbv beta in Q. rewrite !C in Q. apply Rmult_le_reg_r in Q; assumption. }
  split; [exact M|]. intros j Hj. unfold descriptor. change (@num NumR) with R in *. rewrite app_nth1 by (rewrite scaled_length; fold mu; rewrite L; exact Hj). rewrite scaled_nth. fold mu. rewrite E0, !C. 
  assert (P0 : 0 < Mean fs j0) by (assert (Q := proj2 M k Hk); assert (Z := Pos k); change (@num NumR) with R in *; lra). field. split; [|split]; lra.
Qed.
Lemma sq_total (l : list R) : total l ^ 2 <= INR (length l) * total (map (fun x => x ^ 2) l).
Proof.
  induction l as [|x l IH]; cbn [map total fold_right]; [cbn; lra|]. fold (total l) (total (map (fun x => x ^ 2) l)). rewrite (S_INR (length l) : INR (length (x :: l)) = _). set (s := total l) in *. set (q := total (map (fun x => x ^ 2) l)) in *. set (k := INR (length l)) in *.
  assert (K : 0 <= k) by apply pos_INR. assert (X : 2 * x * s <= k * x ^ 2 + q).
  { destruct (Req_dec k 0) as [Hk|Hk].
    - assert (E : l = []) by (destruct l as [|y l']; [reflexivity|]; exfalso; unfold k in Hk; change (length (y :: l')) with (S (length l')) in Hk; rewrite S_INR in Hk; assert (W := pos_INR (length l')); lra). subst l. unfold s, q, k. cbn. lra.
    - assert (0 < k) by lra. assert (k * (k * x ^ 2 + q - 2 * x * s) >= 0) by (replace (k * (k * x ^ 2 + q - 2 * x * s)) with ((k * x - s) ^ 2 + (k * q - s ^ 2)) by ring; assert (Y := pow2_ge_0 (k * x - s)); lra). nra. }
  nra.
Qed.
Lemma var_nonneg j : 0 <= MeanSquare fs j - Mean fs j ^ 2.
Proof.
  unfold MeanSquare, Mean. assert (P := size_pos). assert (S := sq_total (map (fun f => entry_of f j) fs)). rewrite map_length, map_map in S. set (k := INR (length fs)) in *. set (q := total (map (fun x => entry_of x j ^ 2) fs)) in *. set (s := total (map (fun f => entry_of f j) fs)) in *.
  replace (q / k - (s / k) ^ 2) with ((k * q - s ^ 2) / k ^ 2) by (field; lra). apply Rmult_le_pos; [lra|]. apply Rlt_le, Rinv_0_lt_compat, pow_lt, P.
Qed.
(** With the number of vertices of the patch the second half would be the deviation. *)
Lemma descr_sigma : n = length fs -> (exists j, (j < dims)%nat /\ Deviation fs j <> 0) -> exists j0, Largest dims (Deviation fs) j0 /\ forall j, (j < dims)%nat -> nth (dims + j) (descriptor (N := NumR) dims n fs) 0 = Deviation fs j / Deviation fs j0.
Proof.
  intros En (k & Hk & Nk). destruct (sigma_nth dims n fs Hf) as [L E]. destruct (mean_nth dims n fs Hf) as [L' _]. change (@num NumR) with R in *. set (sg := (hks_sigma (N := NumR) dims n fs : list R)) in *. change (@num NumR) with R in *. assert (Ne : sg <> []) by (intros H; rewrite H in L; cbn in L; lia). destruct (max_at sg Ne) as (j0 & E0 & Lj & Hmax). exists j0.
  assert (C : forall j, (j < dims)%nat -> nth j sg 0 = Deviation fs j).
  { intros j Hj. rewrite (E j Hj), En. unfold Deviation. f_equal. apply Rmax_left. apply var_nonneg. }
  rewrite L in *. split; [split; [exact Lj|]; intros j Hj; rewrite <- !C by assumption; exact (Hmax j Hj)|]. intros j Hj. unfold descriptor. change (@num NumR) with R in *. rewrite app_nth2 by (rewrite scaled_length, L'; lia). rewrite scaled_length, L'. replace (dims + j - dims)%nat with j by lia. rewrite scaled_nth. fold sg. rewrite E0, !C by assumption. reflexivity.
Qed.
Lemma total_const (l : list (list R)) (g : list R -> R) a : (forall f, In f l -> g f = a) -> total (map g l) = INR (length l) * a.
Proof.
  induction l as [|f l IH]; intros H; [cbn; ring|]. cbn [map total fold_right]. fold (total (map g l)). rewrite (H f (or_introl eq_refl)), (IH (fun h K => H h (or_intror K))). rewrite (S_INR (length l) : INR (length (f :: l)) = _). ring.
Qed.
(** A patch that is not the whole mesh and on which an entry is constant. *)
Lemma descr_const j a : (length fs < n)%nat -> (j < dims)%nat -> a <> 0 -> (forall f, In f fs -> entry_of f j = a) -> Deviation fs j = 0 /\ 0 < nth (dims + j) (descriptor (N := NumR) dims n fs) 0.
Proof.
  intros Ln Hj Na Hc. assert (P := size_pos). assert (Pn : INR (length fs) < INR n) by (apply lt_INR; exact Ln).
  assert (T1 : total (map (fun f => entry_of f j) fs) = INR (length fs) * a) by (apply total_const; exact Hc). assert (T2 : total (map (fun f => entry_of f j ^ 2) fs) = INR (length fs) * a ^ 2) by (apply total_const; intros f If; rewrite (Hc f If); reflexivity).
  split.
  { unfold Deviation, MeanSquare, Mean. rewrite T1, T2. set (k := INR (length fs)) in *. replace (k * a ^ 2 / k - (k * a / k) ^ 2) with 0 by (field; lra). apply sqrt_0. }
  destruct (sigma_nth dims n fs Hf) as [L E]. destruct (mean_nth dims n fs Hf) as [L' _]. change (@num NumR) with R in *. set (sg := (hks_sigma (N := NumR) dims n fs : list R)) in *. change (@num NumR) with R in *. assert (Ne : sg <> []) by (intros H; rewrite H in L; cbn in L; lia). destruct (max_at sg Ne) as (j0 & E0 & Lj & Hmax).
  unfold descriptor. change (@num NumR) with R in *. rewrite app_nth2 by (rewrite scaled_length, L'; lia). rewrite scaled_length, L'. replace (dims + j - dims)%nat with j by lia. rewrite scaled_nth. fold sg. rewrite E0.
  assert (Pj : 0 < nth j sg 0).
  { rewrite (E j Hj), T1, T2. apply sqrt_lt_R0. set (k := INR (length fs)) in *. set (q := INR n) in *. apply Rlt_le_trans with (2 := Rmax_l _ _). replace (k * a ^ 2 / q - (k * a / q) ^ 2) with (a ^ 2 * (k * (q - k)) / q ^ 2) by (field; lra).
    apply Rdiv_lt_0_compat; [|apply pow_lt; lra]. apply Rmult_lt_0_compat; [|apply Rmult_lt_0_compat; lra]. apply Rlt_le_trans with (Rsqr a); [apply Rlt_0_sqr, Na|unfold Rsqr; simpl; lra]. }
  assert (Q := Hmax j ltac:(rewrite L; exact Hj)). cbv beta in Q. apply Rdiv_lt_0_compat; lra.
Qed.
End Descriptor.

(** ** Candidates *)
Lemma total_fold (l : list R) : forall x, fold_left (@nadd NumR) l x = x + total l.
Proof. induction l as [|a l IH]; intros x; cbn [fold_left total fold_right]; [lra|]. fold (total l). rewrite IH. rn. lra. Qed.
Lemma sq_dist_eq (a b : list R) : sq_dist (N := NumR) a b = Dist2 a b.
Proof. unfold sq_dist, Dist2. rewrite total_fold. rn. rewrite Rplus_0_l. f_equal. apply map_ext. intros [x y]. cbn [fst snd]. rn. ring. Qed.
Definition ple (a b : R * nat) : Prop := fst a <= fst b.
Lemma plt_le a b : pair_lt (N := NumR) a b = true -> ple a b.
Proof.
  unfold pair_lt, ple. intros H. apply orb_true_iff in H. destruct H as [H|H]; rn; [apply Rltb_lt in H; lra|]. apply andb_true_iff in H. destruct H as [H _]. apply negb_true_iff in H. rn. apply Rltb_false in H. lra.
Qed.
Lemma plt_ge a b : pair_lt (N := NumR) a b = false -> ple b a.
Proof. unfold pair_lt, ple. intros H. apply orb_false_iff in H. destruct H as [H _]. rn. apply Rltb_false in H. lra. Qed.
Lemma insert_perm x l : Permutation (x :: l) (insert (N := NumR) x l).
Proof. induction l as [|y l IH]; cbn [insert]; [reflexivity|]. destruct (pair_lt y x); [|reflexivity]. etransitivity; [apply perm_swap|]. apply perm_skip, IH. Qed.
Lemma sort_perm l : Permutation l (sort (N := NumR) l).
Proof. induction l as [|x l IH]; cbn [sort fold_right]; [reflexivity|]. fold (sort (N := NumR) l). etransitivity; [apply perm_skip, IH|]. apply insert_perm. Qed.
Lemma insert_sorted x l : StronglySorted ple l -> StronglySorted ple (insert (N := NumR) x l).
Proof.
  induction l as [|y l IH]; intros H; cbn [insert]; [constructor; constructor|]. inversion H as [|? ? H1 H2]; subst. destruct (pair_lt (N := NumR) y x) eqn:E.
  - constructor; [exact (IH H1)|]. apply Forall_forall. intros z Hz. apply (Permutation_in _ (Permutation_sym (insert_perm x l))) in Hz. destruct Hz as [<-|Hz]; [exact (plt_le _ _ E)|]. rewrite Forall_forall in H2. exact (H2 z Hz).
  - constructor; [exact H|]. apply Forall_forall. intros z [<-|Hz]; [exact (plt_ge _ _ E)|]. rewrite Forall_forall in H2. assert (A := plt_ge _ _ E). assert (B := H2 z Hz). unfold ple in *. lra.
Qed.
Lemma sort_sorted l : StronglySorted ple (sort (N := NumR) l).
Proof. induction l as [|x l IH]; [constructor|]. apply insert_sorted, IH. Qed.
Lemma sorted_split (a b : list (R * nat)) : StronglySorted ple (a ++ b) -> forall x y, In x a -> In y b -> ple x y.
Proof.
  induction a as [|z a IH]; intros H x y Hx Hy; [destruct Hx|]. inversion H as [|? ? H1 H2]; subst. destruct Hx as [<-|Hx]; [|exact (IH H1 x y Hx Hy)]. rewrite Forall_forall in H2. apply H2, in_app_iff. now right.
Qed.
Lemma cands_few {N : Num} n d (srcs : list (nat * list num)) : (length srcs < n)%nat -> cands n d srcs = UB OutOfBounds.
Proof.
  intros H. unfold cands. assert (L : length (sort (map (fun x => (sq_dist d (snd x), fst x)) srcs)) = length srcs).
  { rewrite <- (map_length (fun x => (sq_dist d (snd x), fst x)) srcs). generalize (map (fun x => (sq_dist d (snd x), fst x)) srcs). intros l. induction l as [|x l IH]; [reflexivity|]. cbn [sort fold_right]. fold (sort l). cbn [length]. rewrite <- IH. generalize (sort l). clear. intros l. induction l as [|y l IH]; [reflexivity|]. cbn [insert]. destruct (pair_lt y x); cbn [length]; [rewrite IH|]; reflexivity. }
  rewrite L. apply Nat.ltb_lt in H. rewrite H. reflexivity.
Qed.
Lemma cands_near n (d : list R) (srcs : list (nat * list R)) : NoDup (map fst srcs) -> (n <= length srcs)%nat -> exists l, cands (N := NumR) n d srcs = Ok l /\ length l = n /\ NoDup l /\ incl l (map fst srcs) /\
  forall i fi j fj, In (i, fi) srcs -> In (j, fj) srcs -> In i l -> ~ In j l -> Dist2 d fi <= Dist2 d fj.
Proof.
  intros ND Ln. unfold cands. set (L := map (fun x => (sq_dist (N := NumR) d (snd x), fst x)) srcs). assert (P := sort_perm L). assert (S := sort_sorted L). change (@num NumR) with R in *. set (s := (sort (N := NumR) L : list (R * nat))) in *.
  assert (Ls : length s = length srcs) by (rewrite <- (Permutation_length P); unfold L; apply map_length). change (@num NumR) with R in *. destruct (length s <? n) eqn:E; [apply Nat.ltb_lt in E; change (@num NumR) with R in *; lia|]. exists (map snd (firstn n s)). split; [reflexivity|].
  assert (Pi : Permutation (map fst srcs) (map snd s)). { etransitivity; [|apply Permutation_map, P]. unfold L. rewrite map_map. cbn [snd]. reflexivity. }
  assert (NDs : NoDup (map snd s)) by (exact (Permutation_NoDup Pi ND)). assert (Es : s = firstn n s ++ skipn n s) by (symmetry; apply firstn_skipn). set (a := firstn n s) in *. set (b := skipn n s) in *.
  split; [rewrite map_length; unfold a; rewrite firstn_length; lia|]. rewrite Es, map_app in NDs. split; [clear - NDs; induction (map snd a) as [|x t IH]; [constructor|]; cbn [app] in NDs; inversion NDs as [|? ? H1 H2]; subst; constructor; [intros H; apply H1, in_app_iff; now left|exact (IH H2)]|]. split.
  - intros i Hi. apply (Permutation_in _ (Permutation_sym Pi)). rewrite Es, map_app. apply in_app_iff. now left.
  - intros i fi j fj Ii Ij Hi Hj.
    assert (U : forall k f, In (k, f) srcs -> In (Dist2 d f, k) s). { intros k f I. apply (Permutation_in _ P). unfold L. apply in_map_iff. exists (k, f). split; [cbn [fst snd]; rewrite sq_dist_eq; reflexivity|exact I]. }
    assert (Ui := U i fi Ii). assert (Uj := U j fj Ij). rewrite Es in Ui, Uj, S. apply in_app_iff in Ui, Uj.
    assert (Jb : In (Dist2 d fj, j) b) by (destruct Uj as [Uj|Uj]; [|exact Uj]; exfalso; apply Hj, in_map_iff; exists (Dist2 d fj, j); auto).
    assert (Ia : In (Dist2 d fi, i) a).
    { destruct Ui as [Ui|Ui]; [exact Ui|]. exfalso. assert (A1 : In i (map snd a)) by exact Hi. assert (A2 : In i (map snd b)) by (apply in_map_iff; exists (Dist2 d fi, i); auto). clear - NDs A1 A2. induction (map snd a) as [|x t IH]; [destruct A1|]. cbn [app] in NDs. inversion NDs as [|? ? H1 H2]; subst. destruct A1 as [<-|A1]; [apply H1, in_app_iff; now right|exact (IH H2 A1)]. }
    exact (sorted_split a b S _ _ Ia Jb).
Qed.
