(** Building and querying a BVH over the real numbers. *)
From Coq Require Import Reals Lra Lia List ZArith Bool Arith Permutation.
From Verif Require Import Num NumInst Vec VecN Heap Bounds Bvh GeomSpec BvhSpec VecR BoundsR.
Import ListNotations.
Local Open Scope R_scope.

(** ** queries *)
Lemma nth_leaf_in (ts : list (triangle NumR)) t : boxed ts t -> forall pid, In pid (leaves t) -> exists tr, nth_error ts pid = Some tr.
Proof.
  induction 1 as [b pid t E _|b l r ax Bl IHl Br IHr _]; cbn [leaves]; intros p H.
  - destruct H as [<- | []]. eauto.
  - apply in_app_iff in H. destruct H; eauto.
Qed.
Lemma boxed_box ts t : boxed ts t -> forall pid tr x, In pid (leaves t) -> nth_error ts pid = Some tr -> in_triangle tr x -> in_box (node_box t) x.
Proof.
  intros [b pid t' E H|b l r ax Bl Br H]; cbn [leaves node_box]; intros p tr x I N T.
  - destruct I as [<- | []]. rewrite E in N. injection N as <-. apply H, T.
  - eapply H; eassumption.
Qed.
Definition cand (ts : list (triangle NumR)) (q : vecR) (pid : nat) (c : vecR) (d : R) : Prop :=
  exists tr, nth_error ts pid = Some tr /\ c = tri_closest tr q /\ d = edist q c.
Definition all_leaves (stk : list (node NumR)) : list nat := flat_map leaves stk.
Definition all_size (stk : list (node NumR)) : nat := list_sum (map node_size stk).
Lemma query_loop_ok ts q fuel : forall stk dist ret, Forall (boxed ts) stk -> (all_size stk <= fuel)%nat ->
  exists d r, query_loop fuel ts q stk dist ret = Ok (d, r) /\ d <= dist /\
    (forall pid c e, In pid (all_leaves stk) -> cand ts q pid c e -> d <= e) /\
    ((d = dist /\ r = ret) \/ (d < dist /\ exists pid, In pid (all_leaves stk) /\ cand ts q pid r d)).
Proof.
  induction fuel as [|fuel IH]; intros stk dist ret B F.
  - destruct stk as [|t stk]; [|exfalso; unfold all_size in F; cbn in F; destruct t; cbn in F; lia].
    exists dist, ret. cbn [query_loop]. repeat split; [lra|intros ? ? ? []|left; tauto].
  - destruct stk as [|t stk]; [exists dist, ret; cbn [query_loop]; repeat split; [lra|intros ? ? ? []|left; tauto]|].
    inversion B as [|? ? Bt Bs]; subst. cbn [query_loop]. unfold all_size in F. cbn [map list_sum fold_right] in F. fold (list_sum (map node_size stk)) in F. fold (all_size stk) in F.
    unfold all_leaves. cbn [flat_map]. fold (all_leaves stk). inversion Bt as [b pid tr E H|b l r ax Bl Br H]; subst t.
    + cbn [node_size] in F. rewrite E. rewrite edist_len. cbn [nltb NumR]. destruct (Rltb (edist q (tri_closest tr q)) dist) eqn:C.
      * apply Rltb_lt in C. destruct (IH stk (edist q (tri_closest tr q)) (tri_closest tr q) Bs) as (d & r & EQ & LE & MIN & W); [lia|].
        exists d, r. split; [exact EQ|]. split; [lra|]. split.
        -- intros p c e I K. cbn [leaves app] in I. destruct I as [<- | I]; [|eapply MIN; eassumption]. destruct K as (tr' & E' & -> & ->). rewrite E in E'. injection E' as <-. exact LE.
        -- right. split; [lra|]. destruct W as [[-> ->] | (_ & p & I & K)]; [exists pid; split; [left; reflexivity|exists tr; tauto]|exists p; split; [right; exact I|exact K]].
      * apply Rltb_false in C. destruct (IH stk dist ret Bs) as (d & r & EQ & LE & MIN & W); [lia|].
        exists d, r. split; [exact EQ|]. split; [exact LE|]. split.
        -- intros p c e I K. cbn [leaves app] in I. destruct I as [<- | I]; [|eapply MIN; eassumption]. destruct K as (tr' & E' & -> & ->). rewrite E in E'. injection E' as <-. lra.
        -- destruct W as [W | (L & p & I & K)]; [left; exact W|right; split; [exact L|exists p; split; [right; exact I|exact K]]].
    + cbn [node_size] in F. cbn [nleb NumR]. destruct (box_inside b q || Rleb (box_distance b q) dist) eqn:C.
      * destruct (IH (r :: l :: stk) dist ret) as (d & r' & EQ & LE & MIN & W); [constructor; [exact Br|constructor; [exact Bl|exact Bs]]|unfold all_size in *; cbn [map list_sum fold_right]; fold (list_sum (map node_size stk)); lia|].
        exists d, r'. split; [exact EQ|]. split; [exact LE|].
        assert (IN : forall p, In p (leaves (Fork b (Some l) (Some r) ax) ++ all_leaves stk) <-> In p (all_leaves (r :: l :: stk))).
        { intros p. unfold all_leaves. cbn [flat_map leaves]. rewrite !in_app_iff. tauto. }
        split; [intros p c e I K; eapply MIN; [apply IN, I|exact K]|]. destruct W as [W | (L & p & I & K)]; [left; exact W|right; split; [exact L|exists p; split; [apply IN, I|exact K]]].
      * apply orb_false_iff in C. destruct C as [_ C]. apply Rleb_false in C.
        destruct (IH stk dist ret Bs) as (d & r' & EQ & LE & MIN & W); [lia|]. exists d, r'. split; [exact EQ|]. split; [exact LE|]. split.
        -- intros p c e I K. apply in_app_iff in I. destruct I as [I|I]; [|eapply MIN; eassumption]. destruct K as (tr & E & -> & ->). cbn [leaves] in I.
           assert (X0 := H p tr I E (tri_closest tr q) (tri_closest_in tr q)). assert (X1 := box_distance_le b q _ X0). lra.
        -- destruct W as [W | (L & p & I & K)]; [left; exact W|right; split; [exact L|exists p; split; [apply in_app_iff; right; exact I|exact K]]].
Qed.

Lemma bvh_query ts t q : boxed ts t -> Permutation (leaves t) (seq 0 (length ts)) ->
  exists c, bvh_closest (mkBvh (Some t) ts) q = Ok c /\
    ((exists tr, In tr ts /\ c = tri_closest tr q /\ edist q c < 10 ^ 20 /\ forall tr', In tr' ts -> edist q c <= edist q (tri_closest tr' q)) \/
     (c = vzero /\ forall tr', In tr' ts -> 10 ^ 20 <= edist q (tri_closest tr' q))).
Proof.
  intros B P. destruct (query_loop_ok ts q (node_size t) [t] nbig20 vzero) as (d & r & EQ & LE & MIN & W); [constructor; [exact B|constructor]|unfold all_size; cbn; lia|].
  assert (PE := EQ). exists r. unfold bvh_closest. cbn [bv_root bv_tris]. cbn [num NumR] in *. rewrite EQ. split; [reflexivity|].
  assert (M : forall tr', In tr' ts -> d <= edist q (tri_closest tr' q)).
  { intros tr' I. apply In_nth_error in I. destruct I as (k & K). apply (MIN k (tri_closest tr' q)); [|exists tr'; tauto]. unfold all_leaves. cbn [flat_map]. rewrite app_nil_r.
    apply (Permutation_in _ (Permutation_sym P)). apply in_seq. assert (k < length ts)%nat by (apply nth_error_Some; congruence). lia. }
  destruct W as [[-> ->] | (L & pid & I & tr & E & -> & ->)].
  - right. split; [reflexivity|]. intros tr' I. apply (M tr' I).
  - left. exists tr. split; [eapply nth_error_In, E|]. split; [reflexivity|]. split; [exact L|exact M].
Qed.

(** ** construction *)
Section Build.
Variable trunc : R -> Z.
Hypothesis TR : truncates trunc.
Variable alg : algos.
Hypothesis AL : algos_ok alg.
Notation prim := (prim NumR).

Lemma maxExtent_some b : exists ax, @box_maxExtent NumR b = Some ax.
Proof.
  unfold box_maxExtent. cbn [fold_left fst snd]. cbn [nltb NumR nopp none_]. set (v := vabs _).
  assert (P : Rltb (- (1)) (vget v 0) = true).
  { apply Rltb_lt. unfold v, vabs. cbn [vget vx nabs NumR]. match goal with |- context [Rabs ?a] => assert (H := Rabs_pos a) end. lra. }
  rewrite P. cbn [snd fst]. repeat match goal with |- context [if ?c then _ else _] => destruct c; cbn [fst snd] end; eauto.
Qed.

Lemma fold_cen (l : list prim) : forall b, fold_left (fun b p => box_add b (pr_cen p)) l b = fold_left box_add (map pr_cen l) b.
Proof. induction l as [|p l IH]; intros b; cbn [fold_left map]; [reflexivity|apply IH]. Qed.
Lemma centroid_in (l : list prim) p : In p l -> in_box (centroids_of l) (pr_cen p).
Proof. intros H. unfold centroids_of. rewrite fold_cen. apply fold_in. apply in_map, H. Qed.
Lemma in_box_axis b p ax : in_box b p -> Rabs (vget p ax - vget (bmin b) ax) <= Rabs (vget (bmax b) ax - vget (bmin b) ax).
Proof. unfold in_box, X, Y, Z_. intros (A & B & C). destruct ax as [|[|ax]]; cbn [vget]; rewrite !Rabs_right; try lra. Qed.

(** Before clamping, bucket numbers are between 0 and 15. *)
Definition raw_bucket (cb : box NumR) (ax : nat) (p : prim) : Z :=
  trunc (16 * Rabs (vget (pr_cen p) ax - vget (bmin cb) ax) * @inv_extent NumR cb ax).
Lemma raw_bucket_range (l : list prim) ax p : In p l -> (0 <= raw_bucket (centroids_of l) ax p <= 15)%Z.
Proof.
  intros H. assert (I := in_box_axis _ _ ax (centroid_in l p H)). unfold raw_bucket. set (cb := centroids_of l) in *.
  unfold inv_extent. cbn [ndiv none_ nadd nabs nsub neps12 NumR]. set (a := Rabs (vget (pr_cen p) ax - vget (bmin cb) ax)) in *. set (e := Rabs (vget (bmax cb) ax - vget (bmin cb) ax)) in *.
  assert (PA : 0 <= a) by apply Rabs_pos. assert (E : 0 < / 10 ^ 12) by (apply Rinv_0_lt_compat; lra). set (ep := / 10 ^ 12) in *. clearbody a e ep.
  assert (Q : 0 <= 16 * a * (1 / (e + ep)) < 16).
  { assert (P : 0 < / (e + ep)) by (apply Rinv_0_lt_compat; lra). split; [unfold Rdiv; rewrite Rmult_1_l; apply Rmult_le_pos; lra|].
    apply (Rmult_lt_reg_r (e + ep)); [lra|]. unfold Rdiv. rewrite Rmult_1_l, Rmult_assoc, Rinv_l by lra. lra. }
  destruct (TR _ (proj1 Q)) as [T1 T2]. set (k := trunc _) in *. split.
  - apply Z.lt_succ_r, lt_IZR. rewrite succ_IZR. lra.
  - apply Z.lt_succ_r, lt_IZR. cbn [Z.succ Z.add]. assert (IZR k < 16) by lra. exact H0.
Qed.
Lemma bucket_of_raw (l : list prim) ax p : In p l -> @bucket_of NumR trunc (centroids_of l) ax p = raw_bucket (centroids_of l) ax p.
Proof.
  intros H. assert (R := raw_bucket_range l ax p H). unfold bucket_of. change (trunc _) with (raw_bucket (centroids_of l) ax p).
  destruct (Z.eqb_spec (raw_bucket (centroids_of l) ax p) 16); [lia|reflexivity].
Qed.
Lemma in_buckets_raw (l : list prim) ax i p : In p l -> @in_buckets NumR trunc (centroids_of l) ax i p = (raw_bucket (centroids_of l) ax p <=? Z.of_nat i)%Z.
Proof.
  intros H. assert (R := raw_bucket_range l ax p H). unfold in_buckets. change (trunc _) with (raw_bucket (centroids_of l) ax p).
  destruct (Z.leb_spec 16 (raw_bucket (centroids_of l) ax p)); [lia|reflexivity].
Qed.

(** The buckets after filling. *)
Lemma arr_set_length {A} (l : list A) : forall i x, length (arr_set l i x) = length l.
Proof. induction l as [|y l IH]; intros [|i] x; cbn; auto. Qed.
Lemma arr_set_same {A} (l : list A) : forall i x, (i < length l)%nat -> nth_error (arr_set l i x) i = Some x.
Proof. induction l as [|y l IH]; intros [|i] x H; cbn in *; try lia; [reflexivity|apply IH; lia]. Qed.
Lemma arr_set_other {A} (l : list A) : forall i j x, i <> j -> nth_error (arr_set l i x) j = nth_error l j.
Proof. induction l as [|y l IH]; intros [|i] [|j] x H; cbn; try congruence; try reflexivity. apply IH. congruence. Qed.

Definition counts (k : nat) (bs : list (@bucket NumR)) : nat := list_sum (map fst (firstn k bs)).
Definition counts' (k : nat) (bs : list (@bucket NumR)) : nat := list_sum (map fst (skipn k bs)).
Lemma counts_set bs : forall k b c bb bb', nth_error bs b = Some (c, bb) ->
  counts k (arr_set bs b (S c, bb')) = (counts k bs + (if (b <? k)%nat then 1 else 0))%nat /\
  counts' k (arr_set bs b (S c, bb')) = (counts' k bs + (if (b <? k)%nat then 0 else 1))%nat.
Proof.
  unfold counts, counts'. induction bs as [|x bs IH]; intros k b c bb bb' E; [destruct b; discriminate|].
  destruct b as [|b]; cbn [nth_error arr_set] in *.
  - injection E as ->. destruct k as [|k]; cbn; lia.
  - destruct k as [|k]; [destruct (IH O b c bb bb' E) as [_ E']; cbn in *; lia|]. destruct (IH k b c bb bb' E) as [E1 E2]. cbn [firstn skipn map list_sum fold_right].
    unfold list_sum in *. change (S b <? S k)%nat with (b <? k)%nat. lia.
Qed.

Definition covers (bs : list (@bucket NumR)) (cb : box NumR) ax (p : prim) : Prop :=
  exists c bb, nth_error bs (Z.to_nat (@bucket_of NumR trunc cb ax p)) = Some (c, bb) /\ box_within (pr_box p) bb.
Lemma fill_ok cb ax (l : list prim) : (forall p, In p l -> (0 <= @bucket_of NumR trunc cb ax p <= 15)%Z) -> forall bs, length bs = 16%nat ->
  exists bs', @fill_buckets NumR trunc cb ax l bs = Ok bs' /\ length bs' = 16%nat /\
   (forall p, In p l -> covers bs' cb ax p) /\
   (forall j c bb, nth_error bs j = Some (c, bb) -> exists c' bb', nth_error bs' j = Some (c', bb') /\ box_within bb bb') /\
   (forall k, counts k bs' = (counts k bs + length (filter (fun p => Z.to_nat (@bucket_of NumR trunc cb ax p) <? k) l))%nat /\
              counts' k bs' = (counts' k bs + length (filter (fun p => negb (Z.to_nat (@bucket_of NumR trunc cb ax p) <? k)) l))%nat).
Proof.
  induction l as [|p l IH]; intros R bs L.
  - exists bs. cbn [fill_buckets filter length]. split; [reflexivity|]. split; [exact L|]. split; [intros ? []|]. split; [|intros k; lia]. intros j c bb E. exists c, bb. split; [exact E|apply box_within_refl].
  - cbn [fill_buckets]. assert (Rp := R p (or_introl eq_refl)). set (b := @bucket_of NumR trunc cb ax p) in *.
    destruct (Z.ltb_spec b 0); [lia|]. destruct (nth_error bs (Z.to_nat b)) as [[c bb]|] eqn:E; [|apply nth_error_None in E; lia].
    destruct (IH (fun q Q => R q (or_intror Q)) (arr_set bs (Z.to_nat b) (S c, box_merge bb (pr_box p)))) as (bs' & F & L' & C & G & S); [rewrite arr_set_length; exact L|].
    exists bs'. split; [exact F|]. split; [exact L'|].
    assert (Same := arr_set_same bs (Z.to_nat b) (Datatypes.S c, box_merge bb (pr_box p)) ltac:(lia)).
    split; [|split].
    + intros q [<- | Q]; [|apply C, Q]. destruct (G _ _ _ Same) as (c' & bb' & E' & W). exists c', bb'. fold b. split; [exact E'|]. eapply box_within_trans; [apply box_merge_r|exact W].
    + intros j c1 bb1 E1. destruct (Nat.eq_dec (Z.to_nat b) j) as [<- | Nj].
      * rewrite E in E1. injection E1 as <- <-. destruct (G _ _ _ Same) as (c' & bb' & E' & W). exists c', bb'. split; [exact E'|]. eapply box_within_trans; [apply box_merge_l|exact W].
      * apply (G j c1 bb1). rewrite arr_set_other by exact Nj. exact E1.
    + intros k. destruct (S k) as [S1 S2]. destruct (counts_set bs k (Z.to_nat b) c bb (box_merge bb (pr_box p)) E) as [U1 U2]. cbn [filter]. fold b.
      rewrite S1, S2. unfold bucket, counts, counts' in *. cbn [num NumR] in *. rewrite U1, U2. destruct (Z.to_nat b <? k)%nat; cbn [negb length]; lia.
Qed.

Lemma sum_fst (bs : list (@bucket NumR)) : forall a, fst (fold_left (fun acc b => ((fst acc + fst b)%nat, box_merge (snd acc) (snd b))) bs a) = (fst a + list_sum (map fst bs))%nat.
Proof. induction bs as [|b bs IH]; intros a; cbn [fold_left map list_sum fold_right]; [lia|]. rewrite IH. cbn [fst]. unfold list_sum. lia. Qed.
Lemma sum_snd (bs : list (@bucket NumR)) : forall a, let r := snd (fold_left (fun acc b => ((fst acc + fst b)%nat, box_merge (snd acc) (snd b))) bs a) in
  box_within (snd a) r /\ forall b, In b bs -> box_within (snd b) r.
Proof.
  induction bs as [|b bs IH]; intros a; cbn [fold_left]; [split; [apply box_within_refl|intros ? []]|].
  destruct (IH ((fst a + fst b)%nat, box_merge (snd a) (snd b))) as [H1 H2]. cbn [snd] in H1. split.
  - eapply box_within_trans; [apply box_merge_l|exact H1].
  - intros c [<- | C]; [eapply box_within_trans; [apply box_merge_r|exact H1]|apply H2, C].
Qed.

Lemma boxes_fold (l : list prim) : forall b, box_within b (fold_left (fun b p => box_merge b (pr_box p)) l b) /\
  (forall p, In p l -> box_within (pr_box p) (fold_left (fun b p => box_merge b (pr_box p)) l b)) /\
  (forall B, box_within b B -> (forall p, In p l -> box_within (pr_box p) B) -> box_within (fold_left (fun b p => box_merge b (pr_box p)) l b) B).
Proof.
  induction l as [|p l IH]; intros b; cbn [fold_left]; [split; [apply box_within_refl|split; [intros ? []|intros B H _; exact H]]|].
  destruct (IH (box_merge b (pr_box p))) as (H1 & H2 & H3). split; [eapply box_within_trans; [apply box_merge_l|exact H1]|]. split.
  - intros q [<- | Q]; [eapply box_within_trans; [apply box_merge_r|exact H1]|apply H2, Q].
  - intros B HB HP. apply H3; [|intros q Q; apply HP; right; exact Q]. apply box_merge_least; [exact HB|apply HP; left; reflexivity].
Qed.
Lemma boxes_of_in (l : list prim) p : In p l -> box_within (pr_box p) (boxes_of l).
Proof. apply (proj1 (proj2 (boxes_fold l box0))). Qed.
Lemma boxes_of_least (l : list prim) B : box_within box0 B -> (forall p, In p l -> box_within (pr_box p) B) -> box_within (boxes_of l) B.
Proof. apply (proj2 (proj2 (boxes_fold l box0))). Qed.

(** Areas are monotone on boxes that are not inside out. *)
Definition proper (b : box NumR) : Prop := exists x, in_box b x.
Lemma box_area_eq b : @box_area NumR b = 2 * (Rabs (X (bmax b) - X (bmin b)) * Rabs (Y (bmax b) - Y (bmin b)) + Rabs (Y (bmax b) - Y (bmin b)) * Rabs (Z_ (bmax b) - Z_ (bmin b)) + Rabs (Z_ (bmax b) - Z_ (bmin b)) * Rabs (X (bmax b) - X (bmin b))).
Proof. unfold box_area, vabs. cbn [vx vy vz]. rewrite vsub_X, vsub_Y, vsub_Z. rn. reflexivity. Qed.
Lemma box_area_pos b : 0 <= @box_area NumR b.
Proof.
  rewrite box_area_eq. assert (A := Rabs_pos (X (bmax b) - X (bmin b))). assert (B := Rabs_pos (Y (bmax b) - Y (bmin b))). assert (C := Rabs_pos (Z_ (bmax b) - Z_ (bmin b))).
  assert (P1 := Rmult_le_pos _ _ A B). assert (P2 := Rmult_le_pos _ _ B C). assert (P3 := Rmult_le_pos _ _ C A). lra.
Qed.
Lemma box_area_mono a b : proper a -> box_within a b -> @box_area NumR a <= @box_area NumR b.
Proof.
  intros (x & HX & HY & HZ) W. unfold box_within in W. rewrite !box_area_eq, !Rabs_right by lra.
  assert (A1 : 0 <= X (bmax a) - X (bmin a) <= X (bmax b) - X (bmin b)) by lra. assert (A2 : 0 <= Y (bmax a) - Y (bmin a) <= Y (bmax b) - Y (bmin b)) by lra. assert (A3 : 0 <= Z_ (bmax a) - Z_ (bmin a) <= Z_ (bmax b) - Z_ (bmin b)) by lra.
  generalize dependent (X (bmax a) - X (bmin a)). intros xa A1. generalize dependent (Y (bmax a) - Y (bmin a)). intros ya A2. generalize dependent (Z_ (bmax a) - Z_ (bmin a)). intros za A3.
  generalize dependent (X (bmax b) - X (bmin b)). intros xb A1. generalize dependent (Y (bmax b) - Y (bmin b)). intros yb A2. generalize dependent (Z_ (bmax b) - Z_ (bmin b)). intros zb A3. 
  assert (P1 : xa * ya <= xb * yb) by (apply Rmult_le_compat; lra). assert (P2 : ya * za <= yb * zb) by (apply Rmult_le_compat; lra). assert (P3 : za * xa <= zb * xb) by (apply Rmult_le_compat; lra). lra.
Qed.

Lemma min_cost_spec (cost : nat -> R) : let '(c, i) := @min_cost NumR cost in c = cost i /\ (i < 15)%nat.
Proof.
  unfold min_cost. assert (G : forall l a, (forall i, In i l -> (i < 15)%nat) -> fst a = cost (snd a) /\ (snd a < 15)%nat ->
    let r := fold_left (fun acc i => if @nltb NumR (cost i) (fst acc) then (cost i, i) else acc) l a in fst r = cost (snd r) /\ (snd r < 15)%nat).
  { induction l as [|i l IH]; intros a HL H; cbn [fold_left]; [exact H|]. apply IH; [intros j J; apply HL; right; exact J|]. cbn [num NumR nltb]. destruct (Rltb (cost i) (fst a)); [|exact H]. cbn [fst snd]. split; [reflexivity|apply HL; left; reflexivity]. }
  specialize (G (seq 1 14) (cost 0%nat, 0%nat)). cbn [num NumR] in *. destruct (fold_left _ (seq 1 14) (cost 0%nat, 0%nat)) as [c i]. cbn [fst snd] in G. apply G; [|split; [reflexivity|lia]]. intros j J. apply in_seq in J. lia.
Qed.

Lemma filter_all {A} (f : A -> bool) l : (forall x, In x l -> f x = true) -> length (filter f l) = length l.
Proof. induction l as [|x l IH]; intros H; cbn; [reflexivity|]. rewrite (H x (or_introl eq_refl)). cbn. rewrite IH; [reflexivity|]. intros y Y. apply H. right. exact Y. Qed.
Lemma filter_none {A} (f : A -> bool) l : length (filter f l) = 0%nat -> forall x, In x l -> f x = false.
Proof. intros H x X. destruct (f x) eqn:E; [|reflexivity]. assert (I : In x (filter f l)) by (apply filter_In; tauto). destruct (filter f l); [destruct I|discriminate]. Qed.

Lemma halves_ok (l l' : list prim) : (2 <= length l)%nat -> Permutation l l' ->
  Permutation l (firstn (Nat.div (length l) 2) l' ++ skipn (Nat.div (length l) 2) l') /\
  firstn (Nat.div (length l) 2) l' <> [] /\ skipn (Nat.div (length l) 2) l' <> [].
Proof.
  intros H P. assert (L := Permutation_length P). assert (D1 : (1 <= Nat.div (length l) 2)%nat) by (apply (Nat.div_le_lower_bound _ 2 1); lia).
  assert (D2 : (Nat.div (length l) 2 < length l)%nat) by (apply Nat.div_lt; lia). split; [rewrite firstn_skipn; exact P|]. split; intros E; apply (f_equal (@length _)) in E; cbn [length] in E.
  - rewrite firstn_length in E. lia.
  - rewrite skipn_length in E. lia.
Qed.

Lemma counts_repeat k n : counts k (repeat (0%nat, box0) n) = 0%nat /\ counts' k (repeat (0%nat, box0) n) = 0%nat.
Proof.
  unfold counts, counts', list_sum. revert k. induction n as [|n IH]; intros [|k]; cbn; try tauto; [|apply IH]. split; [reflexivity|]. apply (IH O).
Qed.

Lemma split_ok (l : list prim) : (2 <= length l)%nat -> (forall p, In p l -> proper (pr_box p)) ->
  exists ax l0 l1, @split_range NumR trunc alg l = Ok (ax, (l0, l1)) /\ Permutation l (l0 ++ l1) /\ l0 <> [] /\ l1 <> [].
Proof.
  intros H PR. unfold split_range. destruct (maxExtent_some (centroids_of l)) as (ax & ->).
  destruct (Nat.leb_spec (length l) 8).
  { eexists ax, _, _. split; [reflexivity|]. apply halves_ok; [exact H|apply (nth_perm _ AL)]. }
  assert (BR : forall p, In p l -> (0 <= @bucket_of NumR trunc (centroids_of l) ax p <= 15)%Z) by (intros p I; rewrite bucket_of_raw by exact I; apply raw_bucket_range, I).
  destruct (fill_ok (centroids_of l) ax l BR (repeat (0%nat, box0) 16) eq_refl) as (bs & F & L & C & _ & S). cbn [num NumR] in *. rewrite F.
  set (area := box_area (boxes_of l)). cbn [neqb nzero NumR]. destruct (Reqb area 0) eqn:EA.
  { eexists ax, _, _. split; [reflexivity|]. apply halves_ok; [exact H|apply Permutation_refl]. }
  apply Reqb_false in EA. assert (AP : 0 < area) by (assert (Q := box_area_pos (boxes_of l)); fold area in Q; lra).
  assert (MC := min_cost_spec (bucket_cost bs area)). destruct (min_cost (bucket_cost bs area)) as [c i]. destruct MC as [Ec Hi].
  cbn [nltb nofZ NumR]. destruct (Rltb c (IZR (Z.of_nat (length l)))) eqn:LT.
  2:{ eexists ax, _, _. split; [reflexivity|]. apply halves_ok; [exact H|apply Permutation_refl]. }
  apply Rltb_lt in LT.
  assert (PB : proper (boxes_of l)).
  { destruct l as [|p l]; [cbn in H; lia|]. destruct (PR p (or_introl eq_refl)) as (x & Hx). exists x. eapply in_box_within; [apply boxes_of_in; left; reflexivity|exact Hx]. }
  assert (S0 := S (Datatypes.S i)). destruct (counts_repeat (Datatypes.S i) 16) as [R1 R2]. rewrite R1, R2 in S0. destruct S0 as [S1 S2]. cbn [Nat.add] in S1, S2.
  assert (K1 : fst (sum_buckets (firstn (Datatypes.S i) bs)) = counts (Datatypes.S i) bs) by (unfold sum_buckets; rewrite sum_fst; reflexivity).
  assert (K2 : fst (sum_buckets (skipn (Datatypes.S i) bs)) = counts' (Datatypes.S i) bs) by (unfold sum_buckets; rewrite sum_fst; reflexivity).
  assert (COST : c = 0 + (/ 8 + (IZR (Z.of_nat (counts (Datatypes.S i) bs)) * box_area (snd (sum_buckets (firstn (Datatypes.S i) bs))) +
     IZR (Z.of_nat (counts' (Datatypes.S i) bs)) * box_area (snd (sum_buckets (skipn (Datatypes.S i) bs)))) / area)).
  { rewrite Ec. unfold bucket_cost. rewrite K1, K2. reflexivity. }
  assert (BIG : forall a, area <= a -> IZR (Z.of_nat (length l)) < 0 + (/ 8 + IZR (Z.of_nat (length l)) * a / area)).
  { intros a Ha. assert (NN : 0 <= IZR (Z.of_nat (length l))) by (apply IZR_le; lia). assert (Q : IZR (Z.of_nat (length l)) <= IZR (Z.of_nat (length l)) * a / area); [|lra].
    apply (Rmult_le_reg_r area); [exact AP|]. unfold Rdiv. rewrite Rmult_assoc, Rinv_l by lra. rewrite Rmult_1_r. apply Rmult_le_compat_l; [exact NN|exact Ha]. }
  set (f := fun p => (Z.to_nat (@bucket_of NumR trunc (centroids_of l) ax p) <? Datatypes.S i)%nat) in *.
  assert (NE0 : exists p, In p l /\ f p = true).
  { destruct (filter f l) as [|p r] eqn:Ef.
    2:{ exists p. apply filter_In. rewrite Ef. left; reflexivity. }
    exfalso. assert (ALL : forall p, In p l -> f p = false) by (apply filter_none; rewrite Ef; reflexivity).
    assert (S2' : counts' (Datatypes.S i) bs = length l) by (rewrite S2; apply filter_all; intros p I; change (negb (f p) = true); rewrite (ALL p I); reflexivity).
    assert (W : box_within (boxes_of l) (snd (sum_buckets (skipn (Datatypes.S i) bs)))).
    { destruct (sum_snd (skipn (Datatypes.S i) bs) (0%nat, box0)) as [W0 W1]. apply boxes_of_least; [exact W0|]. intros p I. destruct (C p I) as (c' & bb & E & W). eapply box_within_trans; [exact W|].
      apply (W1 (c', bb)). assert (Q := ALL p I). unfold f in Q. apply Nat.ltb_ge in Q. set (k := Z.to_nat _) in *. rewrite <- (firstn_skipn (Datatypes.S i) bs) in E.
      rewrite nth_error_app2 in E by (rewrite firstn_length; lia). eapply nth_error_In, E. }
    assert (A := box_area_mono _ _ PB W). fold area in A. assert (S1' : counts (Datatypes.S i) bs = 0%nat) by (rewrite S1; reflexivity). rewrite S1', S2' in COST. cbn [Z.of_nat] in COST. assert (Q := BIG _ A). clear BIG.
    replace (0 * box_area (snd (sum_buckets (firstn (Datatypes.S i) bs))) + IZR (Z.of_nat (length l)) * box_area (snd (sum_buckets (skipn (Datatypes.S i) bs)))) with (IZR (Z.of_nat (length l)) * box_area (snd (sum_buckets (skipn (Datatypes.S i) bs)))) in COST by ring. lra. }
  assert (NE1 : exists p, In p l /\ f p = false).
  { destruct (filter (fun p => negb (f p)) l) as [|p r] eqn:Ef.
    2:{ exists p. rewrite <- negb_true_iff. apply (filter_In (fun p => negb (f p))). rewrite Ef. left; reflexivity. }
    exfalso. assert (ALL : forall p, In p l -> f p = true).
    { intros p I. assert (Q := filter_none (fun p => negb (f p)) l). rewrite Ef in Q. specialize (Q eq_refl p I). apply negb_false_iff, Q. }
    assert (S1' : counts (Datatypes.S i) bs = length l) by (rewrite S1; apply filter_all, ALL).
    assert (W : box_within (boxes_of l) (snd (sum_buckets (firstn (Datatypes.S i) bs)))).
    { destruct (sum_snd (firstn (Datatypes.S i) bs) (0%nat, box0)) as [W0 W1]. apply boxes_of_least; [exact W0|]. intros p I. destruct (C p I) as (c' & bb & E & W). eapply box_within_trans; [exact W|].
      apply (W1 (c', bb)). assert (Q := ALL p I). unfold f in Q. apply Nat.ltb_lt in Q. set (k := Z.to_nat _) in *. rewrite <- (firstn_skipn (Datatypes.S i) bs) in E.
      rewrite nth_error_app1 in E by (rewrite firstn_length; lia). eapply nth_error_In, E. }
    assert (A := box_area_mono _ _ PB W). fold area in A.
    assert (S2' : counts' (Datatypes.S i) bs = 0%nat) by (rewrite S2; first [reflexivity|change (length (filter (fun p => negb (f p)) l) = 0%nat); rewrite Ef; reflexivity]).
    rewrite S1', S2' in COST. cbn [Z.of_nat] in COST. assert (Q := BIG _ A). clear BIG.
    replace (IZR (Z.of_nat (length l)) * box_area (snd (sum_buckets (firstn (Datatypes.S i) bs))) + 0 * box_area (snd (sum_buckets (skipn (Datatypes.S i) bs)))) with (IZR (Z.of_nat (length l)) * box_area (snd (sum_buckets (firstn (Datatypes.S i) bs)))) in COST by ring. lra. }
  assert (FE : forall p, In p l -> @in_buckets NumR trunc (centroids_of l) ax i p = f p).
  { intros p I. rewrite in_buckets_raw by exact I. unfold f. rewrite bucket_of_raw by exact I. assert (R := raw_bucket_range l ax p I). apply eq_true_iff_eq. rewrite Z.leb_le, Nat.ltb_lt. lia. }
  destruct (a_part alg _ (@in_buckets NumR trunc (centroids_of l) ax i) l) as [l0 l1] eqn:EP. exists ax, l0, l1. split; [reflexivity|].
  assert (P := part_perm _ AL _ (@in_buckets NumR trunc (centroids_of l) ax i) l). assert (PT := part_true _ AL _ (@in_buckets NumR trunc (centroids_of l) ax i) l). assert (PF := part_false _ AL _ (@in_buckets NumR trunc (centroids_of l) ax i) l).
  cbn [num NumR] in *. rewrite EP in P, PT, PF. cbn [fst snd] in P, PT, PF. split; [exact P|]. split; intros ->.
  - destruct NE0 as (p & I & E). assert (I' := Permutation_in _ P I). cbn [app] in I'. apply PF in I'. rewrite FE in I' by exact I. congruence.
  - destruct NE1 as (p & I & E). assert (I' := Permutation_in _ P I). rewrite app_nil_r in I'. apply PT in I'. rewrite FE in I' by exact I. congruence.
Qed.

Definition prim_ok (ts : list (triangle NumR)) (p : prim) : Prop := exists t, nth_error ts (pr_idx p) = Some t /\ pr_box p = tri_bounds t.
Lemma prim_ok_proper ts p : prim_ok ts p -> proper (pr_box p).
Proof. intros (t & _ & ->). exists (tp0 t). apply tri_bounds_in. Qed.

Lemma build_ok ts fuel : forall l, (length l <= fuel)%nat -> l <> [] -> (forall p, In p l -> prim_ok ts p) ->
  exists t, @build_rec NumR trunc alg fuel l = Ok (Some t) /\ boxed ts t /\ Permutation (leaves t) (map pr_idx l).
Proof.
  induction fuel as [|fuel IH]; intros l L NE PO; [destruct l; [congruence|cbn in L; lia]|].
  destruct l as [|p [|p' l']]; [congruence| |].
  - cbn [build_rec]. eexists. split; [reflexivity|]. split; [|apply Permutation_refl]. destruct (PO p (or_introl eq_refl)) as (t & E & B). econstructor; [exact E|].
    intros x Hx. eapply in_box_within; [apply (boxes_of_in [p] p); left; reflexivity|]. rewrite B. apply in_tri_bounds, Hx.
  - set (l := p :: p' :: l') in *. destruct (split_ok l) as (ax & l0 & l1 & E & P & N0 & N1); [cbn; lia|intros q Q; eapply prim_ok_proper, PO, Q|].
    assert (PL := Permutation_length P). rewrite app_length in PL. assert (length l0 <> 0)%nat by (destruct l0; [congruence|discriminate]). assert (length l1 <> 0)%nat by (destruct l1; [congruence|discriminate]).
    assert (I0 : forall q, In q l0 -> In q l) by (intros q Q; apply (Permutation_in _ (Permutation_sym P)), in_app_iff; left; exact Q).
    assert (I1 : forall q, In q l1 -> In q l) by (intros q Q; apply (Permutation_in _ (Permutation_sym P)), in_app_iff; right; exact Q).
    destruct (IH l0) as (t0 & E0 & B0 & P0); [lia|exact N0|intros q Q; apply PO, I0, Q|].
    destruct (IH l1) as (t1 & E1 & B1 & P1); [lia|exact N1|intros q Q; apply PO, I1, Q|].
    exists (Fork (boxes_of l) (Some t0) (Some t1) ax). cbn [build_rec]. unfold l. fold l. cbn [num NumR] in *. rewrite E, E0, E1. split; [reflexivity|].
    assert (PP : Permutation (leaves t0 ++ leaves t1) (map pr_idx l)).
    { eapply Permutation_trans; [apply Permutation_app; eassumption|]. rewrite <- map_app. apply Permutation_map, Permutation_sym, P. }
    split; [|exact PP]. constructor; [exact B0|exact B1|]. intros pid t I N x Hx. apply (Permutation_in _ PP), in_map_iff in I. destruct I as (q & <- & Q).
    destruct (PO q Q) as (t' & N' & B). rewrite N in N'. injection N' as <-. eapply in_box_within; [apply boxes_of_in, Q|]. rewrite B. apply in_tri_bounds, Hx.
Qed.

Lemma prims_from_idx (ts : list (triangle NumR)) : forall k, map pr_idx (prims_from k ts) = seq k (length ts).
Proof. induction ts as [|t ts IH]; intros k; cbn; [reflexivity|]. rewrite IH. reflexivity. Qed.
Lemma prims_from_ok (ts : list (triangle NumR)) : forall pre p, In p (prims_from (length pre) ts) -> prim_ok (pre ++ ts) p.
Proof.
  induction ts as [|t ts IH]; intros pre p; cbn [prims_from]; [intros []|]. intros [<- | H].
  - exists t. cbn [pr_idx prim_of pr_box]. split; [|reflexivity]. rewrite nth_error_app2 by lia. rewrite Nat.sub_diag. reflexivity.
  - specialize (IH (pre ++ [t]) p). rewrite app_length, <- app_assoc in IH. cbn [length app] in IH. rewrite Nat.add_1_r in IH. apply IH, H.
Qed.
Lemma bvh_build (ts : list (triangle NumR)) : ts <> [] ->
  exists t, @bvh_of_tris NumR trunc alg ts = Ok (mkBvh (Some t) ts) /\ boxed ts t /\ Permutation (leaves t) (seq 0 (length ts)).
Proof.
  intros NE. destruct (build_ok ts (length ts) (prims_from 0 ts)) as (t & E & B & P).
  - assert (Q := f_equal (@length _) (prims_from_idx ts 0)). rewrite map_length, seq_length in Q. rewrite Q. lia.
  - destruct ts; [congruence|discriminate].
  - apply (prims_from_ok ts []).
  - exists t. unfold bvh_of_tris. cbn [num NumR] in *. rewrite E. split; [reflexivity|]. split; [exact B|]. rewrite <- prims_from_idx. exact P.
Qed.
End Build.
