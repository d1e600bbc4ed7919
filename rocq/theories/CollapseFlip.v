(** Does a collapse turn triangles over? (C55) *)
From Coq Require Import Reals Lra List ZArith Floats Bool Arith Lia Permutation.
From Verif Require Import Num NumInst Vec Heap Mesh Construct Spec EditSpec CollapseSpec Orbit Rings Exec BuildProps Witness GeomSpec VecR Diamond Edits CollapseIff.
Import ListNotations.

(** ** Sums of wedges *)
Section Sums.
Local Open Scope R_scope.
Definition sumv (l : list vecR) : vecR := fold_right vadd vzero l.
Lemma fold_sumv l : forall a : vecR, fold_left vadd l a = vadd a (sumv l).
Proof. induction l as [|x l IH]; intros a; cbn [fold_left sumv fold_right]; [symmetry; apply vadd_zero|]. rewrite IH. unfold sumv. rewrite vadd_assoc. reflexivity. Qed.
Lemma sum_wedges (c : vecR) : forall l l', length l = length l' ->
  sumv (map (fun pq => cross (vsub (fst pq) c) (vsub (snd pq) c)) (combine l l')) =
  vsub (vsub (sumv (map (fun pq => cross (fst pq) (snd pq)) (combine l l'))) (cross (sumv l) c)) (cross c (sumv l')).
Proof.
  induction l as [|p l IH]; intros [|q l'] L; try discriminate; cbn [combine map sumv fold_right].
  - vring.
  - fold (sumv l) (sumv l'). unfold sumv in IH at 1 2. rewrite IH by (cbn in L; lia). fold (sumv (map (fun pq : vecR * vecR => cross (fst pq) (snd pq)) (combine l l'))).
    generalize (sumv (map (fun pq : vecR * vecR => cross (fst pq) (snd pq)) (combine l l'))) (sumv l) (sumv l'). cbn [fst snd]. vring.
Qed.
Lemma sum_app l l' : sumv (l ++ l') = vadd (sumv l) (sumv l').
Proof. induction l as [|x l IH]; cbn [app sumv fold_right]; [rewrite vadd_comm; symmetry; apply vadd_zero|]. unfold sumv in IH. rewrite IH. fold (sumv l) (sumv l'). apply vadd_assoc. Qed.
Lemma wedge_sum (c c' : vecR) ps : fold_left vadd (wedges c ps) vzero = fold_left vadd (wedges c' ps) vzero.
Proof.
  rewrite !fold_sumv. f_equal. unfold wedges. assert (LE : length ps = length (tl ps ++ firstn 1 ps)) by (destruct ps as [|p qs]; [reflexivity|cbn [tl firstn length]; rewrite app_length; cbn; lia]).
  rewrite !sum_wedges by exact LE. assert (SE : sumv (tl ps ++ firstn 1 ps) = sumv ps).
  { destruct ps as [|p qs]; [reflexivity|]. cbn [tl firstn]. rewrite sum_app. cbn [sumv fold_right]. rewrite vadd_zero. apply vadd_comm. }
  rewrite SE. generalize (sumv (map (fun pq : vecR * vecR => cross (fst pq) (snd pq)) (combine ps (tl ps ++ firstn 1 ps)))) (sumv ps). vring.
Qed.
Definition sums (l : list R) : R := fold_right Rplus 0 l.
Lemma dot_sum (d : vecR) l : dot d (sumv l) = sums (map (dot d) l).
Proof. induction l as [|x l IH]; cbn [sumv sums map fold_right]; [dring|]. unfold sumv, sums in IH. rewrite <- IH, dot_sym, dot_add. rewrite (dot_sym x d), (dot_sym _ d). reflexivity. Qed.

(** Numbers that are not zero and of which no two consecutive ones have different signs. *)
Lemma same_sign : forall l s, s <> 0 -> Forall (fun x => x <> 0) l -> (forall l1 a b l2, s :: l = l1 ++ a :: b :: l2 -> 0 <= a * b) ->
  (0 < s -> Forall (fun x => 0 < x) l) /\ (s < 0 -> Forall (fun x => x < 0) l).
Proof.
  induction l as [|x l IH]; intros s S F C; [split; constructor|]. inversion F as [|? ? X F']; subst. assert (P := C [] s x l eq_refl).
  destruct (IH x X F') as [I1 I2]; [intros l1 a b l2 E; apply (C (s :: l1) a b l2); cbn [app]; f_equal; exact E|].
  split; intros Z; (assert (0 < x \/ x < 0) as [K | K] by lra); try (exfalso; nra); constructor; auto.
Qed.
Lemma sums_neg l : Forall (fun x => x < 0) l -> sums l <= 0.
Proof. intros F. induction F as [|x l X F IH]; cbn [sums fold_right]; [lra|]. unfold sums in IH. lra. Qed.
Lemma all_positive l : Forall (fun x => x <> 0) l -> (forall l1 a b l2, l = l1 ++ a :: b :: l2 -> 0 <= a * b) -> 0 < sums l -> Forall (fun x => 0 < x) l.
Proof.
  destruct l as [|s l]; intros F C P; [constructor|]. inversion F as [|? ? X F']; subst. destruct (same_sign l s X F' C) as [A B].
  assert (0 < s \/ s < 0) as [K | K] by lra; [constructor; [exact K|exact (A K)]|]. exfalso. assert (Z := sums_neg (s :: l) (Forall_cons _ K (B K))). lra.
Qed.

(** Consecutive pairs *)
Lemma combine_snoc {A} (x : A) : forall (q : A) l, exists z, combine (q :: l) (l ++ [x]) = combine (q :: l) l ++ [(z, x)].
Proof.
  intros q l. revert q. induction l as [|y l IH]; intros q; [exists q; reflexivity|]. destruct (IH y) as (z & E). exists z. cbn [app]. change (combine (q :: y :: l) (y :: (l ++ [x]))) with ((q, y) :: combine (y :: l) (l ++ [x])). rewrite E. reflexivity.
Qed.
Lemma combine_tl {A} (a b : A) : forall l, In (a, b) (combine l (tl l)) <-> exists i, nth_error l i = Some a /\ nth_error l (S i) = Some b.
Proof.
  induction l as [|x l IH]; [split; [intros []|intros ([|i] & X & _); discriminate]|]. destruct l as [|y l].
  - split; [intros []|]. intros ([|i] & _ & X); [discriminate|destruct i; discriminate].
  - change (combine (x :: y :: l) (tl (x :: y :: l))) with ((x, y) :: combine (y :: l) (tl (y :: l))). cbn [In]. rewrite IH. split.
    + intros [E | (i & X & Y)]; [injection E as <- <-; exists 0%nat; auto|exists (S i); auto].
    + intros ([|i] & X & Y); [left; cbn in X, Y; congruence|right; exists i; auto].
Qed.

(** Moving the apex to the first point of the ring: the two wedges there vanish. *)
Lemma wedges_first (p : vecR) q qs : exists z, wedges p (p :: q :: qs) = cross (vsub p p) (vsub q p) :: map (fun pq => cross (vsub (fst pq) p) (vsub (snd pq) p)) (combine (q :: qs) qs) ++ [cross (vsub z p) (vsub p p)].
Proof.
  unfold wedges. cbn [tl firstn]. change (combine (p :: q :: qs) ((q :: qs) ++ [p])) with ((p, q) :: combine (q :: qs) (qs ++ [p])). destruct (combine_snoc p q qs) as (z & E). exists z. rewrite E. cbn [map]. rewrite map_app. reflexivity.
Qed.
Lemma no_flip_positive (p2 : vecR) p q qs d : normalize (fold_left vadd (wedges p2 (p :: q :: qs)) vzero) = Some d ->
  (forall l1 a b l2, nzero :: map (dot d) (wedges p (p :: q :: qs)) = l1 ++ a :: b :: l2 -> @nltb NumR (@nmul NumR a b) (@nzero NumR) = false) ->
  (forall a b, In (a, b) (combine (q :: qs) qs) -> dot d (cross (vsub a p) (vsub b p)) <> 0) ->
  forall a b, In (a, b) (combine (q :: qs) qs) -> 0 < dot d (cross (vsub a p) (vsub b p)).
Proof.
  intros ND C NZ. rewrite (wedge_sum p2 p) in ND. destruct (wedges_first p q qs) as (z & EW). rewrite fold_sumv in ND. rewrite EW in C.
  set (mid := map (fun pq => cross (vsub (fst pq) p) (vsub (snd pq) p)) (combine (q :: qs) qs)) in *.
  set (n := vadd vzero (sumv (wedges p (p :: q :: qs)))) in *.
  assert (NZn : n <> vzero) by (intros Z; rewrite Z, normalize_zero in ND; discriminate). destruct (normalize_unit n NZn) as (u & Eu & U1 & U2). assert (u = d) by congruence. subst u.
  assert (Ln : 0 < vlength n) by (destruct (vlength_pos n) as [K | K]; [exact K|exfalso; apply NZn, vlength_zero; auto]).
  assert (Dn : dot d n = vlength n). { rewrite <- U2 at 1. rewrite dot_sym, dot_scale. assert (Q := vlength_sq d). rewrite U1 in Q. rewrite <- Q. lra. }
  assert (SUM : sums (map (dot d) mid) = vlength n).
  { rewrite <- Dn. unfold n. rewrite (vadd_comm vzero), vadd_zero, EW. cbn [sumv fold_right]. fold (sumv (mid ++ [cross (vsub z p) (vsub p p)])). rewrite sum_app. cbn [sumv fold_right]. fold (sumv mid). rewrite <- dot_sum.
    rewrite !vsub_self. generalize (sumv mid) (vsub q p) (vsub z p). dring. }
  assert (ALL : Forall (fun x => 0 < x) (map (dot d) mid)).
  { apply all_positive; [|intros l1 a b l2 E|rewrite SUM; exact Ln].
    - apply Forall_forall. intros x Ix. apply in_map_iff in Ix as (w & <- & Iw). apply in_map_iff in Iw as ((a & b) & <- & Iab). apply NZ, Iab.
    - assert (X : @nltb NumR (@nmul NumR a b) (@nzero NumR) = false).
      { cbn [map] in C. rewrite map_app in C. fold (map (dot d) mid) in C. eapply (C (nzero :: dot d (cross (vsub p p) (vsub q p)) :: l1) a b). rewrite E. cbn [app]. f_equal. f_equal. rewrite <- app_assoc. reflexivity. }
      cbn [NumR nltb nmul nzero] in X. apply Rltb_false in X. exact X. }
  intros a b Iab. rewrite Forall_forall in ALL. apply ALL. apply in_map_iff. exists (cross (vsub a p) (vsub b p)). split; [reflexivity|]. apply in_map_iff. exists (a, b). auto.
Qed.
End Sums.

(** ** The triangles around the removed vertex *)
Section Turn.
Local Open Scope R_scope.
Variables m m' : mesh NumR.
Hypothesis V : Valid m.
Let W : WF m := valid_wf m V.

(** Two consecutive half-edges of the ring. *)
Lemma ring_pairs (h0 : nat) l u2 ws' u0 h k a b : NoDup (h0 :: l) -> cyc (rot m) (h0 :: l) -> (forall y, In y (h0 :: l) <-> In y (m_hes m) /\ h_src m y = Some u2) ->
  map (dst_of m) (h0 :: l) = map Some (u0 :: ws') -> In h (m_hes m) -> h_src m h = Some u2 -> rot m h = Some k -> dst_of m h = Some a -> dst_of m k = Some b -> a <> u0 -> b <> u0 ->
  In (a, b) (combine ws' (tl ws')).
Proof.
  intros ND C I M Ih Sh R Da Db Na Nb. assert (Ih' : In h (h0 :: l)) by (apply I; auto). destruct (In_nth_error _ _ Ih') as (i & Ei).
  assert (X := cyc_nth (rot m) (h0 :: l) i h C Ei). rewrite R in X. symmetry in X. assert (L : (i < length (h0 :: l))%nat) by (apply nth_error_Some; congruence).
  assert (LW : length (h0 :: l) = length (u0 :: ws')) by (rewrite <- (map_length (dst_of m)), M, map_length; reflexivity).
  assert (PW : forall j y, nth_error (h0 :: l) j = Some y -> exists v, nth_error (u0 :: ws') j = Some v /\ dst_of m y = Some v).
  { intros j y Ej. assert (Q : nth_error (map (dst_of m) (h0 :: l)) j = Some (dst_of m y)) by (apply map_nth_error, Ej). rewrite M, nth_error_map in Q. destruct (nth_error (u0 :: ws') j) as [v|]; [|discriminate]. exists v. cbn in Q. split; congruence. }
  destruct (PW _ _ Ei) as (v & Ev & Dv). destruct (PW _ _ X) as (v' & Ev' & Dv'). assert (v = a) by congruence. assert (v' = b) by congruence. subst v v'. apply combine_tl.
  destruct i as [|i]; [cbn in Ev; congruence|]. exists i. split; [exact Ev|]. destruct (Nat.eq_dec (S i + 1) (length (h0 :: l))) as [Z | Z].
  - rewrite Z, Nat.mod_same in Ev' by (cbn; lia). cbn in Ev'. congruence.
  - rewrite Nat.mod_small in Ev' by lia. replace (S i + 1)%nat with (S (S i)) in Ev' by lia. exact Ev'.
Qed.
Lemma pairs_ring (h0 : nat) l u2 ws' u0 a b : cyc (rot m) (h0 :: l) -> (forall y, In y (h0 :: l) <-> In y (m_hes m) /\ h_src m y = Some u2) ->
  map (dst_of m) (h0 :: l) = map Some (u0 :: ws') -> In (a, b) (combine ws' (tl ws')) -> exists h k, In h (m_hes m) /\ h_src m h = Some u2 /\ rot m h = Some k /\ dst_of m h = Some a /\ dst_of m k = Some b.
Proof.
  intros C I M Iab. apply combine_tl in Iab as (i & Ea & Eb).
  assert (PW : forall j v, nth_error (u0 :: ws') j = Some v -> exists y, nth_error (h0 :: l) j = Some y /\ dst_of m y = Some v).
  { intros j v Ej. assert (Q : nth_error (map Some (u0 :: ws')) j = Some (Some v)) by (apply map_nth_error, Ej). rewrite <- M, nth_error_map in Q. destruct (nth_error (h0 :: l) j) as [y|]; [|discriminate]. exists y. cbn in Q. split; congruence. }
  destruct (PW (S i) a Ea) as (h & Eh & Dh). destruct (PW (S (S i)) b Eb) as (k & Ek & Dk). exists h, k. destruct (proj1 (I h) (nth_error_In _ _ Eh)) as [Ih Sh]. split; [exact Ih|]. split; [exact Sh|]. split; [|auto].
  rewrite (cyc_nth (rot m) (h0 :: l) (S i) h C Eh). assert (L : (S (S i) < length (h0 :: l))%nat) by (apply nth_error_Some; congruence). rewrite Nat.mod_small by lia. replace (S i + 1)%nat with (S (S i)) by lia. exact Ek.
Qed.

Theorem collapse_turns he : In he (m_hes m) -> collapseHE (Some he) m = Ok (true, m') ->
  exists u0 u1 u2 u3 f0 f1 ws d, CollapseEffect m m' he u0 u1 u2 u3 f0 f1 /\
    Around m u2 ws /\ normalize (fold_left vadd (wedges (v_pos m u2) (map (v_pos m) ws)) vzero) = Some d /\
    ((exists h, v_he m u2 = Some h /\ dst_of m h = Some u0) ->
     (forall h k a b, In h (m_hes m) -> h_src m h = Some u2 -> rot m h = Some k -> dst_of m h = Some a -> dst_of m k = Some b -> a <> u0 -> b <> u0 ->
        dot d (cross (vsub (v_pos m a) (v_pos m u0)) (vsub (v_pos m b) (v_pos m u0))) <> 0) ->
     forall f a b, Spec.Tri m f u2 b a -> f <> f0 -> f <> f1 -> 
       Spec.Tri m' f u0 b a /\ 0 < dot d (cross (vsub (v_pos m' a) (v_pos m' u0)) (vsub (v_pos m' b) (v_pos m' u0)))).
Proof.
  intros I E. destruct (collapse_iff m V he I) as [[X _] | (u0 & u1 & u2 & u3 & f0 & f1 & CA & [[X _] | (m1 & X & V' & CE)])]; try congruence. assert (m1 = m') by congruence. subst m1. clear X.
  destruct CA as (EO & _ & BD & _ & _ & _ & CO & (ws & AR & d & ED & NF)). exists u0, u1, u2, u3, f0, f1, ws, d. split; [exact CE|]. split; [exact AR|]. split; [exact ED|].
  intros (h0' & Eh0 & Dh0) NZ f a b T N0 N1.
  assert (SP : forall v, v_pos m' v = v_pos m v) by (intros v; apply (ce_data _ _ _ _ _ _ _ _ _ CE v)). rewrite !SP.
  assert (EE := EO). destruct EE as (_ & T0 & T1 & _ & UN). assert (U02 : u0 <> u2) by (intros ->; inversion UN; subst; cbn [In] in *; tauto).
  assert (TT := T). destruct TT as (x & y & z & F & X1 & X2 & X3 & S1 & S2 & S3).
  destruct (proj2 (F x) (or_introl eq_refl)) as [Ix Fx]. destruct (proj2 (F y) (or_intror (or_introl eq_refl))) as [Iy Fy]. destruct (proj2 (F z) (or_intror (or_intror eq_refl))) as [Iz Fz].
  assert (D1 := dst_next m x y W Ix X1). assert (D3 := dst_next m z x W Iz X3). rewrite S2 in D1. rewrite S1 in D3.
  (* neither corner is u0: the only triangles at the edge are f0 and f1 *)
  assert (NF0 : forall h g c, In h (m_hes m) -> h_src m h = Some u0 -> dst_of m h = Some u2 -> Spec.Tri m g u0 u2 c -> h_face m h = Some g) by (intros h g c Ih Sh Dh TR; apply (tri_at m V h g u0 u2 c Ih Sh Dh TR)).
  assert (NF1 : forall h g c, In h (m_hes m) -> h_src m h = Some u2 -> dst_of m h = Some u0 -> Spec.Tri m g u2 u0 c -> h_face m h = Some g) by (intros h g c Ih Sh Dh TR; apply (tri_at m V h g u2 u0 c Ih Sh Dh TR)).
  assert (NB : b <> u0) by (intros ->; apply N1; assert (Q := NF1 x f1 u3 Ix S1 D1 T1); congruence).
  assert (NA : a <> u0) by (intros ->; apply N0; assert (Q := NF0 z f0 u1 Iz S3 D3 T0); congruence).
  assert (U2b : b <> u2) by (intros ->; apply (valid_noloops m V x Ix); congruence). assert (U2a : a <> u2) by (intros ->; apply (valid_noloops m V z Iz); congruence).
  split.
  - exists x, y, z. assert (K : forall h, In h (m_hes m') <-> In h (m_hes m) /\ h_face m h <> Some f0 /\ h_face m h <> Some f1) by (intros h; apply (ce_hes _ _ _ _ _ _ _ _ _ CE)).
    assert (Kx : In x (m_hes m')) by (apply K; split; [exact Ix|split; congruence]). assert (Ky : In y (m_hes m')) by (apply K; split; [exact Iy|split; congruence]). assert (Kz : In z (m_hes m')) by (apply K; split; [exact Iz|split; congruence]).
    destruct (ce_next _ _ _ _ _ _ _ _ _ CE x Kx) as (A1 & A2 & _). destruct (ce_next _ _ _ _ _ _ _ _ _ CE y Ky) as (B1 & B2 & _). destruct (ce_next _ _ _ _ _ _ _ _ _ CE z Kz) as (C1 & C2 & _).
    split.
    { intros h. split.
      - intros [Ih Fh]. destruct (ce_next _ _ _ _ _ _ _ _ _ CE h Ih) as (_ & Z & _). apply F. split; [apply K, Ih|congruence].
      - intros [-> | [-> | ->]]; split; congruence. }
    split; [congruence|]. split; [congruence|]. split; [congruence|].
    split; [apply (ce_src _ _ _ _ _ _ _ _ _ CE x u0 Kx); exists u2; split; [exact S1|unfold merge; rewrite Nat.eqb_refl; reflexivity]|].
    split; [apply (ce_src _ _ _ _ _ _ _ _ _ CE y b Ky); exists b; split; [exact S2|unfold merge; rewrite (proj2 (Nat.eqb_neq b u2) U2b); reflexivity]|].
    apply (ce_src _ _ _ _ _ _ _ _ _ CE z a Kz); exists a; split; [exact S3|unfold merge; rewrite (proj2 (Nat.eqb_neq a u2) U2a); reflexivity].
  - destruct AR as (h0 & l & E0 & ND & C & IN & M). assert (h0' = h0) by congruence. subst h0'. destruct ws as [|w ws']; [discriminate|]. assert (w = u0) by (cbn [map] in M; congruence). subst w.
    destruct (wf_rev m W z Iz) as (r & Er & Ir). assert (Rr := rev_rev m W _ _ Iz Er). assert (Sr : h_src m r = Some u2) by (unfold dst_of in D3; rewrite Er in D3; exact D3).
    assert (Dr : dst_of m r = Some a) by (unfold dst_of; rewrite Rr; exact S3). assert (RT : rot m r = Some x) by (unfold rot; rewrite Rr; exact X3).
    assert (Iab := ring_pairs h0 l u2 ws' u0 r x a b ND C IN M Ir Sr RT Dr D1 NA NB).
    destruct ws' as [|q qs]; [destruct Iab|].
    assert (MP : forall (l0 l1 : list nat) p1 p2, In (p1, p2) (combine (map (v_pos m) l0) (map (v_pos m) l1)) -> exists a' b', In (a', b') (combine l0 l1) /\ p1 = v_pos m a' /\ p2 = v_pos m b').
    { induction l0 as [|x0 l0 IH]; intros [|y0 l1] p1 p2; cbn [map combine]; try (intros []; fail). intros [Q | Q]; [injection Q as <- <-; exists x0, y0; cbn; auto|]. destruct (IH l1 p1 p2 Q) as (a' & b' & Q1 & Q2). exists a', b'. cbn. auto. }
    assert (PM : forall a' b' (l0 l1 : list nat), In (a', b') (combine l0 l1) -> In (v_pos m a', v_pos m b') (combine (map (v_pos m) l0) (map (v_pos m) l1))).
    { induction l0 as [|x0 l0 IH]; intros [|y0 l1]; cbn [map combine]; try (intros []; fail). intros [Q | Q]; [injection Q as -> ->; left; reflexivity|right; apply IH, Q]. }
    cbn [map] in ED, NF. apply (no_flip_positive (v_pos m u2) (v_pos m u0) (v_pos m q) (map (v_pos m) qs) d ED NF); [|apply (PM a b (q :: qs) qs), Iab].
    intros p1 p2 Q. destruct (MP (q :: qs) qs p1 p2 Q) as (a' & b' & Q1 & -> & ->). destruct (pairs_ring h0 l u2 (q :: qs) u0 a' b' C IN M Q1) as (h & k & Y1 & Y2 & Y3 & Y4 & Y5).
    assert (NDD : NoDup (u0 :: q :: qs)).
    { assert (NM : NoDup (map (dst_of m) (h0 :: l))).
      { assert (G : forall l0, NoDup l0 -> (forall t, In t l0 -> In t (m_hes m) /\ h_src m t = Some u2) -> NoDup (map (dst_of m) l0)).
        { induction l0 as [|t l0 IH]; intros N G; cbn [map]; [constructor|]. inversion N as [|? ? N2 N3]; subst. constructor; [|apply IH; [exact N3|intros s Is; apply G; right; exact Is]].
          intros Q2. apply in_map_iff in Q2 as (s & Q3 & Q4). destruct (G t (or_introl eq_refl)) as [G1 G2]. destruct (G s (or_intror Q4)) as [G3 G4]. apply N2. assert (s = t) by (apply (valid_noparallel m V); [exact G3|exact G1|congruence|exact Q3]). subst s. exact Q4. }
        apply G; [exact ND|]. intros t It. apply IN, It. }
      rewrite M in NM. exact (NoDup_map_inv _ _ NM). }
    inversion NDD as [|? ? N2 _]; subst. assert (QA := in_combine_l _ _ _ _ Q1). assert (QB := in_combine_r _ _ _ _ Q1).
    apply (NZ h k a' b'); auto; intros ->; apply N2; [exact QA|right; exact QB].
Qed.
End Turn.
