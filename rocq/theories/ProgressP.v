(** The progress bar: what is proved. *)
From Coq Require Import List ZArith Bool Ascii String Lia.
From Verif Require Import Progress.
Import ListNotations.
Local Open Scope Z_scope.

Definition total_of (l : list (Z * Z)) : Z := fold_right (fun p s => fst p + s) 0 l.

Lemma bar_ok t : 0 <= t <= 40 -> exists s, bar_text t = Some s /\ List.length s = 40%nat /\ Z.of_nat (count_occ ascii_dec s "="%char) = t.
Proof.
  intros H. unfold bar_text, str. rewrite (proj2 (Z.ltb_ge t 0)) by lia.
  assert (C : forall n, count_occ ascii_dec (repeat "="%char n) "="%char = n) by (induction n; [reflexivity|]; cbn; rewrite IHn; reflexivity).
  assert (D : forall n, count_occ ascii_dec (repeat " "%char n) "="%char = 0%nat) by (induction n; [reflexivity|]; cbn; rewrite IHn; reflexivity).
  destruct (Z.eqb_spec t 40) as [-> | Ne].
  - eexists. split; [reflexivity|]. rewrite repeat_length, C. lia.
  - rewrite (proj2 (Z.ltb_ge (40 - t - 1) 0)) by lia. eexists. split; [reflexivity|]. rewrite app_length. cbn [List.length]. rewrite !repeat_length. split; [lia|].
    rewrite count_occ_app, C. cbn [count_occ]. destruct (ascii_dec ">"%char "="%char) as [X|_]; [discriminate X|]. rewrite D. lia.
Qed.
Lemma bar_none t : t < 0 \/ 40 < t -> bar_text t = None.
Proof.
  intros H. unfold bar_text, str. destruct (Z.ltb_spec t 0) as [L|L]; [reflexivity|]. destruct (Z.eqb_spec t 40); [lia|]. destruct (Z.ltb_spec (40 - t - 1) 0) as [X|X]; [reflexivity|lia].
Qed.
Lemma tick_range st tot : 0 < st <= tot -> 0 <= Z.quot (40 * st) tot <= 40.
Proof.
  intros H. split; [apply Z.quot_pos; lia|]. apply Z.lt_succ_r. apply Z.quot_lt_upper_bound; nia.
Qed.

(** A step that stays within the total never throws, whatever the clock says. *)
Lemma do_nothrow b n e : 0 < pb_step b + n <= pb_total b ->
  match pb_do b n e with
  | PThrow => False
  | PUndef => True
  | POk b' o => b' = PBar (pb_step b + n) (pb_total b) /\
      match o with None => True | Some x => List.length (ln_bar x) = 40%nat /\ ln_step x = pb_step b + n /\ ln_total x = pb_total b /\
                    Z.of_nat (count_occ ascii_dec (ln_bar x) "="%char) = 40 * (pb_step b + n) / pb_total b end
  end.
Proof.
  intros H. unfold pb_do. destruct (negb _); [exact I|]. destruct (_ || _); [exact I|]. destruct (negb _); [exact I|].
  destruct (to_int _ 1000); [|exact I]. destruct (to_int _ (Z.abs (pb_step b + n) * 1000)); [|exact I]. destruct (to_int _ (Z.abs e)); [|exact I]. destruct (_ || _); [exact I|].
  destruct (bar_ok _ (tick_range _ _ H)) as (s & E & Ls & Cs). rewrite E. destruct (_ || _); [|split; [reflexivity|exact I]].
  destruct (to_int _ (Z.abs (pb_total b))); [|exact I]. split; [reflexivity|]. cbn [ln_bar ln_step ln_total]. split; [exact Ls|]. split; [reflexivity|]. split; [reflexivity|].
  rewrite Cs. apply Z.quot_div_nonneg; lia.
Qed.
Lemma run_nothrow l : forall b, 0 <= pb_step b -> (forall n e, In (n, e) l -> 1 <= n) -> pb_step b + total_of l <= pb_total b ->
  pb_run b l <> PThrow /\ (forall b' o, pb_run b l = POk b' o -> b' = PBar (pb_step b + total_of l) (pb_total b)).
Proof.
  induction l as [|[n e] l IH]; intros b H0 Hn Hs; cbn [pb_run total_of fold_right fst] in *.
  - split; [discriminate|]. intros b' o [= <- _]. destruct b. cbn. f_equal. lia.
  - fold (total_of l) in *. assert (P : 0 <= total_of l). { assert (Hn' := fun n' e' Y => Hn n' e' (or_intror Y)). clear - Hn'. induction l as [|[x y] l IH]; cbn; [lia|]. fold (total_of l). assert (1 <= x) by (apply (Hn' x y); left; reflexivity). assert (0 <= total_of l) by (apply IH; intros n' e' Y; apply (Hn' n' e'); right; exact Y). lia. }
    assert (1 <= n) by (apply (Hn n e); left; reflexivity). assert (D := do_nothrow b n e ltac:(lia)). destruct (pb_do b n e) as [b' o| |]; [|destruct D|split; [discriminate|intros ? ? [=]]].
    destruct D as [-> _]. destruct (IH (PBar (pb_step b + n) (pb_total b))) as [A B]; cbn [pb_step pb_total]; try lia; [intros n' e' Y; apply (Hn n' e'); right; exact Y|].
    split; [exact A|]. intros b' o' E. rewrite (B b' o' E). cbn [pb_step pb_total]. f_equal. lia.
Qed.

(** With a clock that has moved on and moderate numbers every call succeeds. *)
Lemma do_ok b n e : 0 < pb_step b + n <= pb_total b -> pb_total b <= 2000000 -> 1 <= e -> e * pb_total b <= 2000000000000 ->
  exists o, pb_do b n e = POk (PBar (pb_step b + n) (pb_total b)) o.
Proof.
  intros H T E E2. unfold pb_do. set (st := pb_step b + n) in *. set (tot := pb_total b) in *. clearbody st tot. unfold fits, int_min, int_max.
  rewrite (proj2 (Z.leb_le (-2147483648) st)), (proj2 (Z.leb_le st 2147483647)) by lia. cbn [andb negb].
  rewrite (proj2 (Z.eqb_neq st 0)), (proj2 (Z.eqb_neq e 0)) by lia. cbn [orb].
  rewrite (proj2 (Z.leb_le (-2147483648) (tot - st))), (proj2 (Z.leb_le (tot - st) 2147483647)) by lia. cbn [andb negb].
  assert (I : forall p q, 0 <= p -> 0 < q -> p <= 2147483647 * q -> exists x, to_int p q = Some x).
  { intros p q P Q B. unfold to_int, fits, int_min, int_max. assert (0 <= Z.quot p q) by (apply Z.quot_pos; lia). assert (Z.quot p q < 2147483648) by (apply Z.quot_lt_upper_bound; lia).
    rewrite (proj2 (Z.leb_le _ _)), (proj2 (Z.leb_le _ _)) by lia. eexists; reflexivity. }
  destruct (I e 1000) as [x1 ->]; [lia|lia|nia|].
  rewrite (Z.sgn_pos st), Z.mul_1_r, (Z.abs_eq st) by lia. destruct (I (e * (tot - st)) (st * 1000)) as [x2 ->]; [nia|lia| |].
  { transitivity (e * tot); [nia|]. nia. }
  rewrite (Z.sgn_pos e), Z.mul_1_r, (Z.abs_eq e) by lia. destruct (I (1000 * st) e) as [x3 ->]; [lia|lia|nia|].
  rewrite (proj2 (Z.leb_le (-2147483648) (40 * st))), (proj2 (Z.leb_le (40 * st) 2147483647)) by lia. rewrite (proj2 (Z.eqb_neq tot 0)) by lia. cbn [andb negb orb].
  destruct (bar_ok _ (tick_range _ _ H)) as (s & Es & _). rewrite Es. destruct (_ || _); [|eexists; reflexivity].
  rewrite (Z.sgn_pos tot), Z.mul_1_r, (Z.abs_eq tot) by lia. destruct (I (100 * st) tot) as [x4 ->]; [lia|lia|nia|]. eexists; reflexivity.
Qed.
Lemma run_ok l : forall b, 0 <= pb_step b -> (forall n e, In (n, e) l -> 1 <= n /\ 1 <= e /\ e * pb_total b <= 2000000000000) -> pb_step b + total_of l <= pb_total b -> pb_total b <= 2000000 ->
  exists o, pb_run b l = POk (PBar (pb_step b + total_of l) (pb_total b)) o.
Proof.
  induction l as [|[n e] l IH]; intros b H0 Hn Hs T; cbn [pb_run total_of fold_right fst] in *.
  - exists None. destruct b; cbn. do 2 f_equal. lia.
  - fold (total_of l) in *. assert (P : 0 <= total_of l). { assert (Hn' := fun n' e' Y => Hn n' e' (or_intror Y)). clear - Hn'. induction l as [|[x y] l IH]; cbn; [lia|]. fold (total_of l). assert (1 <= x) by (apply (Hn' x y); left; reflexivity). assert (0 <= total_of l) by (apply IH; intros n' e' Y; apply (Hn' n' e'); right; exact Y). lia. }
    destruct (Hn n e (or_introl eq_refl)) as (A & B & B'). destruct (do_ok b n e) as [o ->]; try lia. destruct (IH (PBar (pb_step b + n) (pb_total b))) as [o' E]; cbn [pb_step pb_total]; try lia; [intros n' e' Y; apply (Hn n' e'); right; exact Y|].
    exists o'. rewrite E. cbn [pb_step pb_total]. do 2 f_equal. lia.
Qed.
(** finish() completes the bar. *)
Lemma finish_ok b e : 0 <= pb_step b <= pb_total b -> pb_total b <= 2000000 -> 1 <= e -> e * pb_total b <= 2000000000000 ->
  exists o, pb_finish b e = POk (PBar (pb_total b) (pb_total b)) o.
Proof.
  intros H T E E2. unfold pb_finish. destruct (Z.eqb_spec (pb_step b) (pb_total b)) as [Q|Q].
  - exists None. destruct b; cbn in *. subst. reflexivity.
  - destruct (do_ok b (pb_total b - pb_step b) e) as [o ->]; try lia. exists o. do 2 f_equal. lia.
Qed.

(** Stepping by two over an odd total of at most 40 throws at the last step. *)
Lemma overshoot k e : 0 <= k -> 2 * k + 1 <= 40 -> 1 <= e <= 1000000000 ->
  forall es, (forall x, In x es -> 1 <= x <= 1000000000) -> List.length es = Z.to_nat k ->
  pb_run (pb_new (2 * k + 1)) (map (fun x => (2, x)) es ++ [(2, e)]) = PThrow.
Proof.
  intros K K40 E es Hes L.
  assert (A : exists o, pb_run (pb_new (2 * k + 1)) (map (fun x => (2, x)) es) = POk (PBar (2 * k) (2 * k + 1)) o).
  { destruct (run_ok (map (fun x => (2, x)) es) (pb_new (2 * k + 1))) as [o X]; cbn [pb_new pb_step pb_total]; try lia.
    - intros n x Y. apply in_map_iff in Y. destruct Y as (z & [= <- <-] & Iz). specialize (Hes z Iz). split; [lia|]. split; [lia|]. nia.
    - assert (T : total_of (map (fun x => (2, x)) es) = 2 * Z.of_nat (List.length es)) by (clear; induction es as [|x es IH]; [reflexivity|]; cbn [map total_of fold_right fst List.length]; unfold total_of in IH; rewrite IH; lia). rewrite T, L. lia.
    - assert (T : total_of (map (fun x => (2, x)) es) = 2 * Z.of_nat (List.length es)) by (clear; induction es as [|x es IH]; [reflexivity|]; cbn [map total_of fold_right fst List.length]; unfold total_of in IH; rewrite IH; lia). rewrite T, L, Z2Nat.id in X by lia. cbn [pb_new pb_step pb_total] in X. rewrite Z.add_0_l in X. exists o. exact X. }
  destruct A as [o A]. revert A. generalize (pb_new (2 * k + 1)) as b. induction (map (fun x => (2, x)) es) as [|[n x] l IH]; intros b A; cbn [app pb_run] in *.
  - assert (A1 : b = PBar (2 * k) (2 * k + 1)) by congruence. rewrite A1. unfold pb_do. cbn [pb_step pb_total]. unfold fits, int_min, int_max.
    rewrite (proj2 (Z.leb_le (-2147483648) (2 * k + 2))), (proj2 (Z.leb_le (2 * k + 2) 2147483647)) by lia. cbn [andb negb].
    rewrite (proj2 (Z.eqb_neq (2 * k + 2) 0)), (proj2 (Z.eqb_neq e 0)) by lia. cbn [orb]. replace (2 * k + 1 - (2 * k + 2)) with (-1) by lia. cbn [Z.leb Z.compare andb negb Pos.compare Pos.compare_cont].
    assert (I : forall p q, 0 < q -> - (2147483647 * q) <= p -> p <= 2147483647 * q -> exists x, to_int p q = Some x).
    { clear. intros p q Q B1 B2. unfold to_int, fits, int_min, int_max. assert (X : Z.abs (Z.quot p q) <= 2147483647). { rewrite <- Z.quot_abs by lia. rewrite (Z.abs_eq q) by lia. apply Z.lt_succ_r. apply Z.quot_lt_upper_bound; lia. }
      rewrite (proj2 (Z.leb_le _ _)), (proj2 (Z.leb_le _ _)) by lia. eexists; reflexivity. }
    destruct (I e 1000) as [x1 ->]; [lia|lia|lia|]. rewrite (Z.sgn_pos (2 * k + 2)), Z.mul_1_r, (Z.abs_eq (2 * k + 2)) by lia.
    destruct (I (e * -1) ((2 * k + 2) * 1000)) as [x2 ->]; [lia|lia|lia|]. rewrite (Z.sgn_pos e), Z.mul_1_r, (Z.abs_eq e) by lia. destruct (I (1000 * (2 * k + 2)) e) as [x3 ->]; [lia|lia|lia|].
    rewrite (proj2 (Z.leb_le (-2147483648) (40 * (2 * k + 2)))), (proj2 (Z.leb_le (40 * (2 * k + 2)) 2147483647)) by lia. rewrite (proj2 (Z.eqb_neq (2 * k + 1) 0)) by lia. cbn [andb negb orb].
    rewrite bar_none; [reflexivity|]. right. assert (41 <= Z.quot (40 * (2 * k + 2)) (2 * k + 1)); [|lia]. apply Z.quot_le_lower_bound; lia.
  - destruct (pb_do b n x) as [b' o'| |]; [|discriminate A|discriminate A]. apply IH. exact A.
Qed.
(** A first step in the first millisecond is undefined behaviour. *)
Lemma early_undefined total n : pb_do (pb_new total) n 0 = PUndef.
Proof. unfold pb_do. destruct (negb _); [reflexivity|]. rewrite Z.eqb_refl, orb_true_r. reflexivity. Qed.
Lemma lines_ok l : forall b, 0 <= pb_step b -> (forall n e, In (n, e) l -> 1 <= n) -> pb_step b + total_of l <= pb_total b ->
  forall x, In x (pb_lines b l) -> List.length (ln_bar x) = 40%nat /\ Z.of_nat (count_occ ascii_dec (ln_bar x) "="%char) = 40 * ln_step x / pb_total b /\ ln_total x = pb_total b.
Proof.
  induction l as [|[n e] l IH]; intros b H0 Hn Hs x; cbn [pb_lines total_of fold_right fst] in *; [intros []|].
  fold (total_of l) in *. assert (P : 0 <= total_of l). { assert (Hn' := fun n' e' Y => Hn n' e' (or_intror Y)). clear - Hn'. induction l as [|[a y] l IH]; cbn; [lia|]. fold (total_of l). assert (1 <= a) by (apply (Hn' a y); left; reflexivity). assert (0 <= total_of l) by (apply IH; intros n' e' Y; apply (Hn' n' e'); right; exact Y). lia. }
  assert (1 <= n) by (apply (Hn n e); left; reflexivity). assert (D := do_nothrow b n e ltac:(lia)). destruct (pb_do b n e) as [b' o| |]; [|intros []|intros []].
  destruct D as [-> D]. assert (R : forall y, In y (pb_lines (PBar (pb_step b + n) (pb_total b)) l) -> List.length (ln_bar y) = 40%nat /\ Z.of_nat (count_occ ascii_dec (ln_bar y) "="%char) = 40 * ln_step y / pb_total b /\ ln_total y = pb_total b).
  { intros y Y. apply (IH (PBar (pb_step b + n) (pb_total b))); cbn [pb_step pb_total]; try lia; [intros n' e' Z'; apply (Hn n' e'); right; exact Z'|exact Y]. }
  destruct o as [z|]; [|apply R]. intros [<- | Y]; [|apply R, Y]. destruct D as (D1 & D2 & D3 & D4). rewrite D2, D3. auto.
Qed.
Lemma progress_nothrow (total : Z) (l : list (Z * Z)) : (forall n e, In (n, e) l -> 1 <= n) -> total_of l <= total ->
  pb_run (pb_new total) l <> PThrow /\ (forall b' o, pb_run (pb_new total) l = POk b' o -> b' = PBar (total_of l) total).
Proof. intros H T. apply (run_nothrow l (pb_new total)); cbn [pb_new pb_step pb_total]; [lia|exact H|lia]. Qed.
Lemma progress_ok (total : Z) (l : list (Z * Z)) : total <= 2000000 -> total_of l <= total ->
  (forall n e, In (n, e) l -> 1 <= n /\ 1 <= e /\ e * total <= 2000000000000) ->
  (exists o, pb_run (pb_new total) l = POk (PBar (total_of l) total) o) /\
  (forall x, In x (pb_lines (pb_new total) l) -> List.length (ln_bar x) = 40%nat /\
      Z.of_nat (count_occ ascii_dec (ln_bar x) "="%char) = 40 * ln_step x / total /\ ln_total x = total).
Proof.
  intros T S H. split.
  - destruct (run_ok l (pb_new total)) as [o E]; cbn [pb_new pb_step pb_total]; [lia|exact H|lia|lia|]. exists o. exact E.
  - apply (lines_ok l (pb_new total)); cbn [pb_new pb_step pb_total]; [lia|intros n e I; apply (H n e I)|lia].
Qed.
Lemma progress_case : let l := [(2, 5); (2, 9); (3, 70)] in total_of l <= 7 /\ (forall n e, In (n, e) l -> 1 <= n /\ 1 <= e /\ e * 7 <= 2000000000000).
Proof. cbv zeta. split; [cbn; lia|]. intros n e H. cbn [In] in H. destruct H as [[= <- <-] | [[= <- <-] | [[= <- <-] | []]]]; lia. Qed.

Lemma do_full b n e b' o : pb_step b + n = pb_total b -> 0 < pb_total b -> pb_do b n e = POk b' o -> o = Some (Line (repeat "="%char 40) (pb_total b) (pb_total b)).
Proof.
  intros H P. unfold pb_do. rewrite H. set (tot := pb_total b) in *. clearbody tot.
  assert (Q : Z.quot (40 * tot) tot = 40) by (apply Z.quot_mul; lia). rewrite Q, Z.eqb_refl. cbn [orb].
  destruct (negb _); [discriminate|]. destruct (_ || _); [discriminate|]. destruct (negb _); [discriminate|].
  destruct (to_int e 1000); [|discriminate]. destruct (to_int _ (Z.abs tot * 1000)); [|discriminate]. destruct (to_int _ (Z.abs e)); [|discriminate]. destruct (_ || _); [discriminate|].
  change (bar_text 40) with (Some (repeat "="%char 40)). destruct (to_int _ (Z.abs tot)); [|discriminate]. intros [= _ <-]. reflexivity.
Qed.
Lemma progress_finish (total : Z) (l : list (Z * Z)) (e : Z) : total <= 2000000 -> total_of l <= total ->
  (forall n e', In (n, e') l -> 1 <= n /\ 1 <= e' /\ e' * total <= 2000000000000) -> 1 <= e /\ e * total <= 2000000000000 ->
  exists b o o', pb_run (pb_new total) l = POk b o /\ pb_finish b e = POk (PBar total total) o' /\
    (forall x, o' = Some x -> ln_bar x = repeat "="%char 40 /\ ln_step x = total /\ ln_total x = total) /\ (total_of l < total -> o' <> None).
Proof.
  intros T S Hn [E1 E2]. destruct (run_ok l (pb_new total)) as [o Er]; cbn [pb_new pb_step pb_total] in *; try lia; [exact Hn|].
  assert (P : 0 <= total_of l). { clear - Hn. induction l as [|[x y] l IH]; cbn; [lia|]. fold (total_of l). assert (X := Hn x y (or_introl eq_refl)). assert (0 <= total_of l) by (apply IH; intros n' e' Y; apply (Hn n' e'); right; exact Y). lia. }
  set (b := PBar (total_of l) total). destruct (finish_ok b e) as [o' Ef]; cbn [b pb_step pb_total]; try lia.
  exists b, o, o'. split; [exact Er|]. split; [exact Ef|]. unfold pb_finish in Ef. cbn [b pb_step pb_total] in Ef. destruct (Z.eqb_spec (total_of l) total) as [Q|Q].
  - injection Ef as _ <-. split; [discriminate|lia].
  - apply do_full in Ef; cbn [b pb_step pb_total] in *; try lia. subst o'. split; [|discriminate]. intros x [= <-]. auto.
Qed.
