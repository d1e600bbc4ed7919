(** collapseHE succeeds exactly on the half-edges described in CollapseSpec.v. *)
From Coq Require Import List ZArith Arith Lia Bool Permutation.
From Verif Require Import Num Vec Heap Mesh Spec EditSpec CollapseSpec Orbit Rings Exec Diamond Remove Collapse CollapseV EditFx Edits.
Import ListNotations.
Local Open Scope mesh_scope.

(** The elements of a cycle in order. *)
Lemma chain_nth f : forall l x z i a, chainto f x l z -> nth_error (x :: l) i = Some a -> f a = match nth_error (x :: l) (i + 1) with Some b => Some b | None => Some z end.
Proof.
  induction l as [|y l IH]; intros x z i a C E; cbn [chainto] in C.
  - destruct i as [|i]; cbn in E; [injection E as <-; exact C|destruct i; discriminate].
  - destruct C as [C1 C2]. destruct i as [|i]; cbn [nth_error Nat.add] in E |- *; [injection E as <-; exact C1|]. exact (IH y z i a C2 E).
Qed.
Lemma cyc_nth f l i a : cyc f l -> nth_error l i = Some a -> f a = nth_error l ((i + 1) mod length l).
Proof.
  destruct l as [|x l]; [intros []|]. intros C E. assert (L : i < length (x :: l)) by (apply nth_error_Some; congruence).
  rewrite (chain_nth f l x x i a C E). destruct (Nat.eq_dec (i + 1) (length (x :: l))) as [Z|Z].
  - rewrite Z, Nat.mod_same by (cbn [length]; lia). rewrite (proj2 (nth_error_None (x :: l) (length (x :: l)))) by lia. reflexivity.
  - rewrite Nat.mod_small by lia. destruct (nth_error (x :: l) (i + 1)) eqn:Y; [reflexivity|]. apply nth_error_None in Y. lia.
Qed.

(** Two cycles through the same elements from the same one on are equal. *)
Lemma cyc_unique f x l l' : cyc f (x :: l) -> cyc f (x :: l') -> NoDup (x :: l) -> NoDup (x :: l') -> (forall y, In y (x :: l) <-> In y (x :: l')) -> l = l'.
Proof.
  intros C C' N N' H. assert (L : length (x :: l) = length (x :: l')) by (apply Permutation_length, NoDup_Permutation; assumption).
  assert (P : 0 < length (x :: l)) by (cbn; lia).
  assert (K : forall i, i < length (x :: l) -> nth_error (x :: l) i = nth_error (x :: l') i).
  { induction i as [|i IH]; intros I; [reflexivity|]. destruct (nth_error (x :: l) i) as [a|] eqn:E; [|apply nth_error_None in E; lia].
    assert (A := cyc_nth f (x :: l) i a C E). assert (E' : nth_error (x :: l') i = Some a) by (symmetry; apply IH; lia). assert (A' := cyc_nth f (x :: l') i a C' E').
    rewrite <- L in A'. rewrite Nat.mod_small in A, A' by lia. replace (S i) with (i + 1) by lia. congruence. }
  assert (Q : x :: l = x :: l'); [|congruence]. apply (nth_ext _ _ 0 0 L). intros i I. specialize (K i I).
  rewrite (nth_error_nth' (x :: l) 0 I) in K. rewrite (nth_error_nth' (x :: l') 0) in K by lia. congruence.
Qed.

Section Geo.
Context {N : Num}.

Lemma combine_seq (ps : list (vec N)) d : combine ps (tl ps ++ firstn 1 ps) = map (fun i => (nth i ps d, nth (Nat.modulo (i + 1) (length ps)) ps d)) (seq 0 (length ps)).
Proof.
  assert (LE : length ps = length (tl ps ++ firstn 1 ps)) by (destruct ps as [|p qs]; [reflexivity|cbn [tl firstn length]; rewrite app_length; cbn; lia]).
  apply (nth_ext _ _ (d, d) (d, d)); [rewrite combine_length, map_length, seq_length, <- LE; lia|]. intros i I. rewrite combine_length, <- LE in I.
  rewrite combine_nth by exact LE.
  assert (G : forall (A : Type) (g : nat -> A) e, nth i (map g (seq 0 (length ps))) e = g i).
  { intros A g e. rewrite (nth_indep _ e (g 0)) by (rewrite map_length, seq_length; lia). rewrite map_nth, seq_nth by lia. reflexivity. }
  rewrite G. f_equal. destruct ps as [|p qs]; [cbn in I; lia|]. cbn [tl firstn length] in I |- *. destruct (Nat.eq_dec i (length qs)) as [-> | D].
  - rewrite app_nth2 by lia. replace (length qs - length qs) with 0 by lia. replace (length qs + 1) with (S (length qs)) by lia. rewrite Nat.mod_same by lia. reflexivity.
  - rewrite app_nth1 by lia. rewrite Nat.mod_small by lia. replace (i + 1) with (S i) by lia. reflexivity.
Qed.
Lemma wedges_seq c ps : wedges c ps = map (fun i => cross (vsub (nth i ps vzero) c) (vsub (nth (Nat.modulo (i + 1) (length ps)) ps vzero) c)) (seq 0 (length ps)).
Proof. unfold wedges. rewrite (combine_seq ps vzero), map_map. reflexivity. Qed.
Lemma fold_map {A B C} (f : A -> B -> A) (g : C -> B) l : forall a, fold_left (fun acc i => f acc (g i)) l a = fold_left f (map g l) a.
Proof. induction l as [|x l IH]; intros a; [reflexivity|]. cbn [map fold_left]. apply IH. Qed.
Lemma ring_norm_eq c ps : ring_norm c ps = fold_left vadd (wedges c ps) vzero.
Proof. unfold ring_norm. rewrite wedges_seq. apply (fold_map vadd). Qed.
Lemma ring_flips_iff d c ps n : forall is s, ring_flips d c ps n is s = false <->
  forall l1 a b l2, s :: map (fun i => dot d (cross (vsub (nth i ps vzero) c) (vsub (nth (Nat.modulo (i + 1) n) ps vzero) c))) is = l1 ++ a :: b :: l2 -> nltb (nmul a b) nzero = false.
Proof.
  induction is as [|i is IH]; intros s; cbn [ring_flips map].
  - split; [|reflexivity]. intros _ [|x [|y l1]] a b l2 E; discriminate E.
  - set (s' := dot d _) in *. destruct (nltb (nmul s s') nzero) eqn:E.
    + split; [discriminate|]. intros H. assert (X := H [] s s' _ eq_refl). congruence.
    + rewrite IH. split; intros H l1 a b l2 Q.
      * destruct l1 as [|x l1]; [injection Q as <- <- _; exact E|]. injection Q as _ Q. exact (H l1 a b l2 Q).
      * apply (H (s :: l1) a b l2). cbn [app]. f_equal. exact Q.
Qed.

Variable m : mesh N.
Hypothesis V : Valid m.
Let W : WF m := valid_wf m V.

Lemma mmap_positions ws : (forall w, In w ws -> In w (m_verts m)) -> mmap ve_pos (map Some ws) m = Ok (map (v_pos m) ws, m).
Proof.
  induction ws as [|w ws IH]; intros H; [reflexivity|]. cbn [map mmap].
  rewrite (bind_ok _ _ _ _ _ (r_pos m w (v_alive m W _ (H w (or_introl eq_refl))))), (bind_ok _ _ _ _ _ (IH (fun x I => H x (or_intror I)))). reflexivity.
Qed.
Lemma around_unique v ws ws' : Around m v ws -> Around m v ws' -> ws = ws'.
Proof.
  intros (h & l & E & ND & C & I & M) (h' & l' & E' & ND' & C' & I' & M'). assert (h' = h) by congruence. subst h'.
  assert (l = l') by (apply (cyc_unique (rot m) h); auto; intros y; rewrite I, I'; tauto). subst l'. rewrite M in M'.
  clear - M'. revert ws' M'. induction ws as [|w ws IH]; intros [|w' ws'] M'; try discriminate; [reflexivity|]. injection M' as -> M'. f_equal. apply IH, M'.
Qed.

Definition CollAt (he u0 u1 u2 u3 f0 f1 : nat) : Prop :=
  h_src m he = Some u0 /\ dst_of m he = Some u2 /\ Spec.Tri m f0 u0 u2 u1 /\ Spec.Tri m f1 u2 u0 u3 /\
  (forall h, In h (m_hes m) -> h_face m h = Some f0 \/ h_face m h = Some f1 -> h_bd m h = false) /\
  3 < deg_of m u0 /\ 4 < deg_of m u1 /\ 3 < deg_of m u2 /\ 4 < deg_of m u3 /\
  (forall w, adj m u0 w -> adj m u2 w -> w = u1 \/ w = u3) /\ NoFlip m u0 u2.

Lemma tri_at h f a b c : In h (m_hes m) -> h_src m h = Some a -> dst_of m h = Some b -> Spec.Tri m f a b c ->
  h_face m h = Some f /\ exists y z, h_next m h = Some y /\ h_next m y = Some z /\ h_src m z = Some c.
Proof.
  intros I S D (x & y & z & F & N1 & N2 & N3 & S1 & S2 & S3). destruct (proj2 (F x) (or_introl eq_refl)) as [Ix Fx].
  assert (x = h) by (apply (valid_noparallel m V); [exact Ix|exact I|congruence|rewrite (dst_next m x y W Ix N1); congruence]). subst x. split; [exact Fx|]. exists y, z. auto.
Qed.
Lemma coll_faces he rev u0 u1 u2 u3 f0 f1 : In he (m_hes m) -> h_rev m he = Some rev -> CollAt he u0 u1 u2 u3 f0 f1 ->
  h_face m he = Some f0 /\ h_face m rev = Some f1 /\ (exists y z, h_next m he = Some y /\ h_next m y = Some z /\ h_src m z = Some u1) /\
  (exists y z, h_next m rev = Some y /\ h_next m y = Some z /\ h_src m z = Some u3).
Proof.
  intros I R (S & D & T0 & T1 & _). assert (Ir := rev_in m W _ _ I R). assert (Rr := rev_rev m W _ _ I R). destruct (tri_at he f0 u0 u2 u1 I S D T0) as [A1 A2].
  assert (Sr : h_src m rev = Some u2) by (unfold dst_of in D; rewrite R in D; exact D). assert (Dr : dst_of m rev = Some u0) by (unfold dst_of; rewrite Rr; exact S).
  destruct (tri_at rev f1 u2 u0 u3 Ir Sr Dr T1) as [B1 B2]. auto.
Qed.

Lemma mid_iff he rev : In he (m_hes m) -> h_rev m he = Some rev ->
  collapse_mid (Some he) (Some rev) m = Ok (false, m) /\ (forall u0 u1 u2 u3 f0 f1, ~ CollAt he u0 u1 u2 u3 f0 f1) \/
  exists hn hp rn rp u0 u1 u2 u3 f0 f1, CollAt he u0 u1 u2 u3 f0 f1 /\ Diamond m he rev hn hp rn rp u0 u1 u2 u3 f0 f1 /\ u1 <> u3 /\
    collapse_mid (Some he) (Some rev) m =
    collapse_tail (Z.of_nat (length (m_verts m))) (Some he) (Some rev) (Some u0) (Some u1) (Some u2) (Some u3) m.
Proof.
  intros I R. pose proof (rev_in m W _ _ I R) as Ir. pose proof (h_alive m W _ I) as L. pose proof (h_alive m W _ Ir) as Lr.
  destruct (wf_face m W _ I) as (f0 & F0 & G0). destruct (wf_face m W _ Ir) as (f1 & F1 & G1).
  destruct (fring m W f0 G0) as (x0 & l0 & E0 & Hr0). destruct (fring m W f1 G1) as (x1 & l1 & E1 & Hr1).
  unfold collapse_mid.
  rewrite (bind_ok _ _ _ _ _ (r_face m he L)), F0.
  rewrite (bind_ok _ _ _ _ _ (f_isBoundary_ok m W f0 x0 l0 G0 E0 Hr0)).
  destruct (existsb (h_bd m) (x0 :: l0)) eqn:B0.
  { left. split; [reflexivity|]. intros u0 u1 u2 u3 g0 g1 C. destruct (coll_faces _ _ _ _ _ _ _ _ I R C) as (A & _). apply existsb_exists in B0 as (y & Iy & By). apply Hr0 in Iy as [Iy Fy].
    destruct C as (_ & _ & _ & _ & C & _). rewrite (C y Iy) in By; [discriminate|]. left. congruence. }
  rewrite bind_assoc, (bind_ok _ _ _ _ _ (r_rev m he L)), R, bind_assoc, (bind_ok _ _ _ _ _ (r_face m rev Lr)), F1.
  rewrite (bind_ok _ _ _ _ _ (f_isBoundary_ok m W f1 x1 l1 G1 E1 Hr1)).
  destruct (existsb (h_bd m) (x1 :: l1)) eqn:B1.
  { left. split; [reflexivity|]. intros u0 u1 u2 u3 g0 g1 C. destruct (coll_faces _ _ _ _ _ _ _ _ I R C) as (_ & A & _). apply existsb_exists in B1 as (y & Iy & By). apply Hr1 in Iy as [Iy Fy].
    destruct C as (_ & _ & _ & _ & C & _). rewrite (C y Iy) in By; [discriminate|]. right. congruence. }
  cbn [orb].
  assert (Q0 : forall y, In y (m_hes m) -> h_face m y = Some f0 -> h_bd m y = false).
  { intros y Hy Fy. destruct (h_bd m y) eqn:E; [|reflexivity]. rewrite <- B0. symmetry. apply existsb_exists. exists y. split; [apply Hr0; auto|exact E]. }
  assert (Q1 : forall y, In y (m_hes m) -> h_face m y = Some f1 -> h_bd m y = false).
  { intros y Hy Fy. destruct (h_bd m y) eqn:E; [|reflexivity]. rewrite <- B1. symmetry. apply existsb_exists. exists y. split; [apply Hr1; auto|exact E]. }
  destruct (diamond_exists m he rev W (valid_noloops m V) I R (valid_tri m V _ I (Q0 _ I F0)) (valid_tri m V _ Ir (Q1 _ Ir F1)))
    as (hn & hp & rn & rp & u0 & u1 & u2 & u3 & f0' & f1' & D).
  assert (D' := D). destruct D' as [_ _ I0 I1 I2 I3 V0 V1 V2 V3 _ _ _ Rr Nh N0 N1 Nr N2 N3 S S0 S1 Sr S2 S3 F F0' F1' Fr F2 F3 ND UN FN].
  assert (f0' = f0) by congruence. assert (f1' = f1) by congruence. subst f0' f1'.
  destruct (he_prev_ok m W he I) as (p & Ep & Ip & Np). assert (p = hp) by (eapply (next_inj m W); eassumption). subst p.
  destruct (he_prev_ok m W rev Ir) as (p & Ep' & Ip' & Np'). assert (p = rp) by (eapply (next_inj m W); eassumption). subst p.
  rewrite (bind_ok _ _ _ _ _ (r_src m he L)), S.
  rewrite (bind_ok _ _ _ _ _ Ep), (bind_ok _ _ _ _ _ (r_src m hp (h_alive m W _ I1))), S1.
  rewrite (bind_ok _ _ _ _ _ (r_src m rev Lr)), Sr.
  rewrite (bind_ok _ _ _ _ _ Ep'), (bind_ok _ _ _ _ _ (r_src m rp (h_alive m W _ I3))), S3.
  rewrite bind_get.
  rewrite (bind_ok _ _ _ _ _ (r_vidx m u0 (v_alive m W _ V0))), bind_assert by (apply (idx_lt m W); assumption).
  rewrite (bind_ok _ _ _ _ _ (r_vidx m u1 (v_alive m W _ V1))), bind_assert by (apply (idx_lt m W); assumption).
  rewrite (bind_ok _ _ _ _ _ (r_vidx m u2 (v_alive m W _ V2))), bind_assert by (apply (idx_lt m W); assumption).
  rewrite (bind_ok _ _ _ _ _ (r_vidx m u3 (v_alive m W _ V3))), bind_assert by (apply (idx_lt m W); assumption).
  unfold collapse_deg.
  rewrite (bind_ok _ _ _ _ _ (deg_ok m u0 W V0)), (bind_ok _ _ _ _ _ (deg_ok m u1 W V1)), (bind_ok _ _ _ _ _ (deg_ok m u2 W V2)), (bind_ok _ _ _ _ _ (deg_ok m u3 W V3)).
  assert (DH : dst_of m he = Some u2) by (unfold dst_of; rewrite R; exact Sr).
  (* the corners named by the specification are these *)
  assert (SAME : forall a b c d g0 g1, CollAt he a b c d g0 g1 -> CollAt he u0 u1 u2 u3 f0 f1).
  { intros a b c d g0 g1 C. destruct (coll_faces _ _ _ _ _ _ _ _ I R C) as (A0 & A1 & (y & z & Y1 & Y2 & Y3) & (y' & z' & Z1 & Z2 & Z3)).
    assert (QC := C). destruct QC as (SA & SD & _). assert (a = u0) by congruence. assert (c = u2) by congruence. assert (b = u1) by congruence. assert (d = u3) by congruence. assert (g0 = f0) by congruence. assert (g1 = f1) by congruence. subst. exact C. }
  destruct ((Z.of_nat (deg_of m u0) <=? 3) || (Z.of_nat (deg_of m u1) <=? 4) || (Z.of_nat (deg_of m u2) <=? 3) || (Z.of_nat (deg_of m u3) <=? 4))%Z eqn:EC.
  { left. split; [reflexivity|]. intros a b c d g0 g1 C. apply SAME in C. destruct C as (_ & _ & _ & _ & _ & C0 & C1 & C2 & C3 & _). rewrite !orb_true_iff, !Z.leb_le in EC. clear - EC C0 C1 C2 C3. lia. }
  apply orb_false_iff in EC as [EC C3]. apply orb_false_iff in EC as [EC C2]. apply orb_false_iff in EC as [C0 C1].
  apply Z.leb_gt in C0, C1, C2, C3.
  assert (U13 : u1 <> u3) by (apply (diamond_u13 m he rev hn hp rn rp u0 u1 u2 u3 f0 f1 W (valid_noparallel m V) D); lia).
  destruct (vring m W u2 V2) as (h2 & l2 & Eh2 & Hr2). destruct (vring m W u0 V0) as (h0 & lz & Eh0 & Hr0').
  assert (DS : forall y, In y (m_hes m) -> exists v, dst_of m y = Some v /\ In v (m_verts m)).
  { intros y Hy. destruct (wf_rev m W y Hy) as (r & Er & Jr). destruct (wf_src m W r Jr) as (v & Ev & Jv).
    exists v. split; [unfold dst_of; rewrite Er; exact Ev|exact Jv]. }
  rewrite (bind_ok _ _ _ _ _ (circ_v_ok m W u2 h2 l2
     (fun acc it => d <- he_dst it ;; assertion (negb (ptr_eqb d None)) ;; ret (acc ++ [d], false))
     (fun a y => (a ++ [dst_of m y], false)) [] V2 Eh2 Hr2
     ltac:(intros y a Hy _; cbv beta; rewrite (bind_ok _ _ _ _ _ (dst_of_ok m W y Hy)); destruct (DS y Hy) as (v & -> & _); reflexivity))).
  rewrite bfold_collect, bind_assert by reflexivity. cbn [app].
  set (nb := map (dst_of m) (h2 :: l2)).
  rewrite (bind_ok _ _ _ _ _ (circ_v_ok m W u0 h0 lz
     (fun acc it => d <- he_dst it ;; assertion (negb (ptr_eqb d None)) ;; ret (if pmem d nb then acc + 1 else acc, false)%Z)
     (fun a y => (if pmem (dst_of m y) nb then (a + 1)%Z else a, false)) 0%Z V0 Eh0 Hr0'
     ltac:(intros y a Hy _; cbv beta; rewrite (bind_ok _ _ _ _ _ (dst_of_ok m W y Hy)); destruct (DS y Hy) as (v & -> & _); reflexivity))).
  rewrite (bfold_filter (fun y => pmem (dst_of m y) nb)).
  assert (NB : forall w, pmem (Some w) nb = true <-> exists z, In z (m_hes m) /\ h_src m z = Some u2 /\ dst_of m z = Some w).
  { intros w. unfold pmem. rewrite existsb_exists. split.
    - intros (d & Hd & Ed). apply ptr_eqb_eq in Ed; subst d. unfold nb in Hd. apply in_map_iff in Hd as (z & Ez & Hz).
      apply Hr2 in Hz as [Iz Sz]. exists z; auto.
    - intros (z & Iz & Sz & Dz). exists (Some w). split; [|apply ptr_eqb_refl]. unfold nb. rewrite <- Dz. apply in_map. apply Hr2; auto. }
  destruct (wf_rev m W _ I1) as (o0 & R0 & _). destruct (wf_rev m W _ I0) as (o1 & R1 & _).
  destruct (wf_rev m W _ I3) as (o2 & R2 & _). destruct (wf_rev m W _ I2) as (o3 & R3 & _).
  destruct (o_facts m he rev hn hp rn rp u0 u1 u2 u3 f0 f1 o0 o1 o2 o3 W D R0 R1 R2 R3) as (J0 & J1 & J2 & J3 & P0 & P1 & P2 & P3 & T0 & T1 & T2 & T3).
  set (fl := filter (fun y => pmem (dst_of m y) nb) (h0 :: lz)).
  assert (Hnd : NoDup fl) by (apply NoDup_filter, Hr0').
  assert (Do0 : dst_of m o0 = Some u1) by (unfold dst_of; rewrite P0; exact S1). assert (Drn : dst_of m rn = Some u3) by (unfold dst_of; rewrite R3; exact T3).
  assert (Ho0 : In o0 fl).
  { apply filter_In. split; [apply Hr0'; auto|]. rewrite Do0. apply NB. exists hn. split; [exact I0|split; [exact S0|]]. unfold dst_of; rewrite R1; exact T1. }
  assert (Hrn : In rn fl).
  { apply filter_In. split; [apply Hr0'; auto|]. rewrite Drn. apply NB. exists o2. split; [exact J2|split; [exact T2|]]. unfold dst_of; rewrite P2; exact S3. }
  assert (Hor : o0 <> rn) by (intros ->; congruence).
  assert (CM : (0 + Z.of_nat (length fl))%Z = 2%Z <-> forall w, adj m u0 w -> adj m u2 w -> w = u1 \/ w = u3).
  { split.
    - intros EU w (y & Hy & Sy & Dy) (z & Hz & Sz & Dz).
      assert (Hyf : In y fl) by (apply filter_In; split; [apply Hr0'; auto|]; rewrite Dy; apply NB; exists z; auto).
      destruct (nodup_incl2 fl o0 rn Hnd ltac:(clear - EU; lia) Ho0 Hrn Hor y Hyf) as [-> | ->]; [left|right]; congruence.
    - intros H. assert (LE : length fl <= 2).
      { assert (incl fl [o0; rn]); [|apply (NoDup_incl_length Hnd) in H0; exact H0]. intros y Hy. apply filter_In in Hy as [Hy Py]. apply Hr0' in Hy as [Hy Sy]. destruct (DS y Hy) as (w & Dw & _). rewrite Dw in Py. apply NB in Py as (z & Iz & Sz & Dz).
        assert (EW : w = u1 \/ w = u3) by (apply H; [exists y|exists z]; auto). destruct EW as [-> | ->].
        - left. apply (valid_noparallel m V); [exact J0|exact Hy|congruence|congruence].
        - right; left. apply (valid_noparallel m V); [exact I2|exact Hy|congruence|congruence]. }
      assert (GE : 2 <= length fl) by (assert (X := NoDup_incl_length (l := [o0; rn]) (l' := fl)); cbn [length] in X; apply X; [constructor; [intros [K | []]; congruence|constructor; [intros []|constructor]]|intros y [<- | [<- | []]]; assumption]). clear - LE GE. lia. }
  destruct (Z.eqb_spec (0 + Z.of_nat (length fl)) 2)%Z as [EU|EU].
  2:{ left. split; [reflexivity|]. intros a b c d g0 g1 C. apply SAME in C. apply EU, CM. apply C. }
  cbn [negb]. assert (CO := proj1 CM EU). clear EU.
  assert (WS : exists ws, nb = map Some ws /\ forall w, In w ws -> In w (m_verts m)).
  { assert (H : forall y, In y (h2 :: l2) -> In y (m_hes m)) by (intros y Hy; apply Hr2, Hy). unfold nb. clear - H DS. induction (h2 :: l2) as [|y l IH]; [exists []; split; [reflexivity|intros w []]|].
    destruct IH as (ws & E & K); [intros z Hz; apply H; right; exact Hz|]. destruct (DS y (H y (or_introl eq_refl))) as (v & Ev & Iv). exists (v :: ws). cbn [map]. rewrite E, Ev. split; [reflexivity|]. intros w [<- | Iw]; auto. }
  destruct WS as (ws & EW & IW).
  assert (AR : Around m u2 ws) by (exists h2, l2; destruct Hr2 as (X1 & X2 & X3); split; [exact Eh2|split; [exact X2|split; [exact X1|split; [exact X3|exact EW]]]]).
  unfold collapse_geo. assert (MP : mmap ve_pos nb m = Ok (map (v_pos m) ws, m)) by (rewrite EW; exact (mmap_positions ws IW)).
  rewrite (bind_ok _ _ _ _ _ (r_pos m u2 (v_alive m W _ V2))), (bind_ok _ _ _ _ _ MP). cbv zeta. rewrite ring_norm_eq.
  set (ps := map (v_pos m) ws). set (n := fold_left vadd (wedges (v_pos m u2) ps) vzero).
  destruct (neqb (vlength n) nzero) eqn:EL.
  { left. split; [reflexivity|]. intros a b c d g0 g1 C. apply SAME in C. destruct C as (_ & _ & _ & _ & _ & _ & _ & _ & _ & _ & ws' & A' & d' & ED & _). rewrite <- (around_unique _ _ _ AR A') in ED. fold ps n in ED.
    unfold normalize, vdiv in ED. rewrite EL in ED. discriminate ED. }
  destruct (normalize n) as [dd|] eqn:EN; [|unfold normalize, vdiv in EN; rewrite EL in EN; discriminate EN]. cbn [lift]. rewrite bind_ret.
  rewrite (bind_ok _ _ _ _ _ (r_pos m u0 (v_alive m W _ V0))).
  destruct (ring_flips dd (v_pos m u0) ps (length ps) (seq 0 (length ps)) nzero) eqn:EF.
  { left. split; [reflexivity|]. intros a b c d g0 g1 C. apply SAME in C. destruct C as (_ & _ & _ & _ & _ & _ & _ & _ & _ & _ & ws' & A' & d' & ED & K). rewrite <- (around_unique _ _ _ AR A') in ED, K. fold ps in ED, K. fold n in ED.
    assert (d' = dd) by congruence. subst d'. rewrite wedges_seq, map_map in K. apply (ring_flips_iff dd (v_pos m u0) ps (length ps)) in K. congruence. }
  right. exists hn, hp, rn, rp, u0, u1, u2, u3, f0, f1. split; [|split; [exact D|split; [exact U13|reflexivity]]].
  destruct (diamond_edge m he rev hn hp rn rp u0 u1 u2 u3 f0 f1 W U13 D) as [(_ & TA & TB & _) _].
  split; [exact S|]. split; [exact DH|]. split; [exact TA|]. split; [exact TB|]. split; [intros h Ih [Fh | Fh]; [exact (Q0 h Ih Fh)|exact (Q1 h Ih Fh)]|].
  split; [clear - C0; lia|]. split; [clear - C1; lia|]. split; [clear - C2; lia|]. split; [clear - C3; lia|]. split; [exact CO|].
  exists ws. split; [exact AR|]. exists dd. split; [exact EN|]. fold ps. rewrite wedges_seq, map_map. apply (ring_flips_iff dd (v_pos m u0) ps (length ps)), EF.
Qed.

Theorem collapse_iff he : In he (m_hes m) ->
  collapseHE (Some he) m = Ok (false, m) /\ (forall u0 u1 u2 u3 f0 f1, ~ CollapsibleAt m he u0 u1 u2 u3 f0 f1) \/
  exists u0 u1 u2 u3 f0 f1, CollapsibleAt m he u0 u1 u2 u3 f0 f1 /\
    (collapseHE (Some he) m = Abort AAssert /\ ~ PosOk m \/
     exists m', collapseHE (Some he) m = Ok (true, m') /\ Valid m' /\ CollapseEffect m m' he u0 u1 u2 u3 f0 f1).
Proof.
  intros I. destruct (wf_rev m W _ I) as (rev & R & Ir). pose proof (rev_rev m W _ _ I R) as Rr.
  pose proof (h_alive m W _ I) as L. pose proof (h_alive m W _ Ir) as Lr.
  destruct (wf_src m W _ I) as (a0 & S0 & V0). destruct (wf_src m W _ Ir) as (a2 & S2 & V2).
  assert (HI : forall y, In y (m_hes m) -> (h_idx m y <? Z.of_nat (length (m_hes m)))%Z = true).
  { intros y Hv. apply In_nth_error in Hv as (i & Hi). destruct (wf_h_elem m W _ _ Hi) as (_ & E & _).
    apply Z.ltb_lt. rewrite E. assert (i < length (m_hes m)) by (apply nth_error_Some; congruence). lia. }
  assert (E : collapseHE (Some he) m = collapse_mid (if (Z.of_nat (deg_of m a0) >? Z.of_nat (deg_of m a2))%Z then Some rev else Some he)
        (if (Z.of_nat (deg_of m a0) >? Z.of_nat (deg_of m a2))%Z then Some he else Some rev) m).
  { rewrite collapse_text. rewrite (bind_ok _ _ _ _ _ (r_rev m he L)), R, bind_get.
    rewrite (bind_ok _ _ _ _ _ (r_hidx m he L)), bind_assert by (apply HI; assumption).
    rewrite (bind_ok _ _ _ _ _ (r_hidx m rev Lr)), bind_assert by (apply HI; assumption).
    rewrite (bind_ok _ _ _ _ _ (r_src m he L)), S0, (bind_ok _ _ _ _ _ (deg_ok m a0 W V0)).
    rewrite (bind_ok _ _ _ _ _ (r_src m rev Lr)), S2, (bind_ok _ _ _ _ _ (deg_ok m a2 W V2)). reflexivity. }
  assert (DH : dst_of m he = Some a2) by (unfold dst_of; rewrite R; exact S2). assert (DR : dst_of m rev = Some a0) by (unfold dst_of; rewrite Rr; exact S0).
  (* the half-edge that is collapsed *)
  assert (CASE : exists a b u w, In a (m_hes m) /\ h_rev m a = Some b /\ collapseHE (Some he) m = collapse_mid (Some a) (Some b) m /\ h_src m a = Some u /\ dst_of m a = Some w /\
     (h_src m he = Some u /\ dst_of m he = Some w \/ h_src m he = Some w /\ dst_of m he = Some u) /\
     (deg_of m u < deg_of m w \/ deg_of m u = deg_of m w /\ h_src m he = Some u)).
  { destruct (Z.gtb_spec (Z.of_nat (deg_of m a0)) (Z.of_nat (deg_of m a2))) as [C|C].
    - exists rev, he, a2, a0. split; [exact Ir|]. split; [exact Rr|]. split; [exact E|]. split; [exact S2|]. split; [exact DR|]. split; [right; auto|]. left. clear - C. lia.
    - exists he, rev, a0, a2. split; [exact I|]. split; [exact R|]. split; [exact E|]. split; [exact S0|]. split; [exact DH|]. split; [left; auto|]. assert (K : deg_of m a0 < deg_of m a2 \/ deg_of m a0 = deg_of m a2) by (clear - C; lia). destruct K as [K | K]; auto. }
  clear E. destruct CASE as (a & b & u & w & Ia & Rab & E & Sa & Da & EN & DG). rewrite E. clear E.
  destruct (mid_iff a b Ia Rab) as [[E NO] | (hn & hp & rn & rp & u0 & u1 & u2 & u3 & f0 & f1 & C & DI & U13 & E)].
  - left. split; [exact E|]. intros v0 v1 v2 v3 g0 g1 ((EE & T0 & T1 & FN & UN) & DD & BD & D0 & D1 & D3 & CO & NF).
    assert (v0 = u /\ v2 = w) as [-> ->].
    { destruct EE as [[X1 X2] | [X1 X2]], EN as [[Y1 Y2] | [Y1 Y2]].
      - split; congruence.
      - assert (v0 = w) by congruence. assert (v2 = u) by congruence. subst. destruct DD as [DD | [DD X]], DG as [DG | [DG Y]]; [clear - DD DG; lia|clear - DD DG; lia|clear - DD DG; lia|]. assert (w = u) by congruence. subst. auto.
      - assert (v0 = w) by congruence. assert (v2 = u) by congruence. subst. destruct DD as [DD | [DD X]], DG as [DG | [DG Y]]; [clear - DD DG; lia|clear - DD DG; lia|clear - DD DG; lia|]. assert (w = u) by congruence. subst. auto.
      - split; congruence. }
    apply (NO u v1 w v3 g0 g1). split; [exact Sa|]. split; [exact Da|]. split; [exact T0|]. split; [exact T1|]. split; [exact BD|]. split; [exact D0|]. split; [exact D1|]. split; [clear - D0 DG; lia|]. split; [exact D3|]. split; [exact CO|exact NF].
  - right. assert (QC := C). destruct QC as (Q1 & Q2 & T0 & T1 & BD & D0 & D1 & D2 & D3 & CO & NF). assert (u0 = u) by congruence. assert (u2 = w) by congruence. subst u0 u2.
    exists u, u1, w, u3, f0, f1. split.
    + destruct (diamond_edge m a b hn hp rn rp u u1 w u3 f0 f1 W U13 DI) as [(_ & _ & _ & FN & UN) _].
      split; [split; [exact EN|split; [exact T0|split; [exact T1|split; [exact FN|exact UN]]]]|]. split; [exact DG|]. split; [exact BD|]. split; [exact D0|]. split; [exact D1|]. split; [exact D3|]. split; [exact CO|exact NF].
    + destruct (wf_rev m W _ (d_he1 _ _ _ _ _ _ _ _ _ _ _ _ _ DI)) as (o0 & R0 & _). destruct (wf_rev m W _ (d_he0 _ _ _ _ _ _ _ _ _ _ _ _ _ DI)) as (o1 & R1 & _).
      destruct (wf_rev m W _ (d_he3 _ _ _ _ _ _ _ _ _ _ _ _ _ DI)) as (o2 & R2 & _). destruct (wf_rev m W _ (d_he2 _ _ _ _ _ _ _ _ _ _ _ _ _ DI)) as (o3 & R3 & _).
      assert (CC : CollapseCond m a b hn hp rn rp u u1 w u3 f0 f1).
      { constructor; [exact DI| |auto|].
        - destruct DI. intros y Iy. cbn [In] in Iy. destruct Iy as [<- | [<- | [<- | [<- | [<- | [<- | []]]]]]]; apply BD; auto.
        - intros y z x Hy Hz Sy Dy Sz Dz. apply CO; [exists y|exists z]; auto. }
      assert (HE : a = he \/ b = he).
      { destruct EN as [[X1 X2] | [X1 X2]].
        - left. apply (valid_noparallel m V); [exact Ia|exact I|congruence|congruence].
        - right. apply (valid_noparallel m V); [exact (rev_in m W _ _ Ia Rab)|exact I|unfold dst_of in Da; rewrite Rab in Da; congruence|unfold dst_of at 1; rewrite (rev_rev m W _ _ Ia Rab); congruence]. }
      assert (TO := tail_ok m a b hn hp rn rp u u1 w u3 f0 f1 o0 o1 o2 o3 W DI U13 R0 R1 R2 R3).
      assert (BB := cc_bd _ _ _ _ _ _ _ _ _ _ _ _ _ CC). destruct TO as [TA TB]; try (apply BB; cbn [In]; auto 8; fail). rewrite E. destruct (veqb (v_pos m w) (v_pos m w)) eqn:PW.
      * right. destruct (TA eq_refl) as (m' & X & T). exists m'. split; [exact X|]. split; [exact (CollapseV.collapse_Valid m m' a b hn hp rn rp o0 o1 o2 o3 u u1 w u3 f0 f1 V CC T R0 R1 R2 R3)|].
        apply (collapse_fx m m' a b hn hp rn rp o0 o1 o2 o3 u u1 w u3 f0 f1 V CC T R0 R1 R2 R3). intuition congruence.
      * left. split; [apply TB; reflexivity|]. intros PO. rewrite (PO w) in PW; [discriminate|]. apply (d_u2 _ _ _ _ _ _ _ _ _ _ _ _ _ DI).
Qed.
End Geo.
