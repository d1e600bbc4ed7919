(** Top-level theorems about splitHE, flipHE, collapseHE, collapseFace. *)
From Coq Require Import List ZArith Arith Lia Bool.
From Verif Require Import Num Vec Heap Mesh Spec EditSpec Orbit Rings Exec Diamond Flip Split Remove Collapse EditFx.
From Verif Require SplitV CollapseV.
Import ListNotations.
Local Open Scope mesh_scope.

Section Edits.
Context {N : Num}.
Implicit Types m : mesh N.

(** ** splitHE *)
Lemma split_swap m he rev a b : WF m -> In he (m_hes m) -> h_rev m he = Some rev -> h_src m he = Some a -> h_src m rev = Some b ->
  deg_of m a < deg_of m b -> splitHE (Some he) m = splitHE (Some rev) m.
Proof.
  intros W I R Sa Sb Hd. pose proof (rev_in m W _ _ I R) as Ir. pose proof (rev_rev m W _ _ I R) as Rr.
  pose proof (h_alive m W _ I) as L. pose proof (h_alive m W _ Ir) as Lr.
  pose proof (src_in m W _ _ I Sa) as Va. pose proof (src_in m W _ _ Ir Sb) as Vb.
  unfold splitHE.
  rewrite (bind_ok _ _ _ _ _ (r_rev m he L)), R, (bind_ok _ _ _ _ _ (r_rev m rev Lr)), Rr.
  rewrite !(bind_ok _ _ _ _ _ (r_src m he L)), Sa.
  rewrite !(bind_ok _ _ _ _ _ (r_src m rev Lr)), Sb.
  rewrite (bind_ok _ _ _ _ _ (r_src m he L)), Sa.
  rewrite (bind_ok _ _ _ _ _ (deg_ok m a W Va)), (bind_ok _ _ _ _ _ (deg_ok m b W Vb)).
  rewrite (bind_ok _ _ _ _ _ (deg_ok m b W Vb)), (bind_ok _ _ _ _ _ (deg_ok m a W Va)).
  rewrite (proj2 (Z.ltb_lt (Z.of_nat (deg_of m a)) (Z.of_nat (deg_of m b)))) by lia.
  rewrite (proj2 (Z.ltb_ge (Z.of_nat (deg_of m b)) (Z.of_nat (deg_of m a)))) by lia.
  reflexivity.
Qed.

Definition split_ok m he rev a b : Prop :=
  h_bd m he = false /\ h_bd m rev = false /\ 3 <= deg_of m a /\ 3 <= deg_of m b.

Lemma split_refuse m he rev a b : WF m -> In he (m_hes m) -> h_rev m he = Some rev -> h_src m he = Some a -> h_src m rev = Some b ->
  deg_of m b <= deg_of m a -> ~ split_ok m he rev a b -> splitHE (Some he) m = Ok (false, m).
Proof.
  intros W I R Sa Sb Hd Hn. pose proof (rev_in m W _ _ I R) as Ir.
  pose proof (h_alive m W _ I) as L. pose proof (h_alive m W _ Ir) as Lr.
  pose proof (src_in m W _ _ I Sa) as Va. pose proof (src_in m W _ _ Ir Sb) as Vb.
  unfold splitHE.
  rewrite (bind_ok _ _ _ _ _ (r_rev m he L)), R.
  rewrite (bind_ok _ _ _ _ _ (r_src m he L)), Sa. rewrite (bind_ok _ _ _ _ _ (r_src m rev Lr)), Sb.
  rewrite (bind_ok _ _ _ _ _ (deg_ok m a W Va)), (bind_ok _ _ _ _ _ (deg_ok m b W Vb)).
  rewrite (proj2 (Z.ltb_ge (Z.of_nat (deg_of m a)) (Z.of_nat (deg_of m b)))) by lia. cbv zeta iota.
  rewrite (bind_ok _ _ _ _ _ (deg_ok m a W Va)), (bind_ok _ _ _ _ _ (deg_ok m b W Vb)).
  destruct (Z.ltb_spec (Z.of_nat (deg_of m a)) 3) as [C1|C1]; [reflexivity|].
  destruct (Z.ltb_spec (Z.of_nat (deg_of m b)) 3) as [C2|C2]; [reflexivity|]. cbn [orb].
  rewrite (bind_ok _ _ _ _ _ (r_bd m he L)), (bind_ok _ _ _ _ _ (r_rev m he L)), R, (bind_ok _ _ _ _ _ (r_bd m rev Lr)).
  destruct (h_bd m he) eqn:B1, (h_bd m rev) eqn:B2; try reflexivity.
  exfalso. apply Hn. unfold split_ok. repeat split; auto; lia.
Qed.

Lemma split_accept m he rev a b : Valid m -> In he (m_hes m) -> h_rev m he = Some rev -> h_src m he = Some a -> h_src m rev = Some b ->
  deg_of m b <= deg_of m a -> split_ok m he rev a b ->
  exists m' u0 u1 u2 u3 f0 f1 vn g0 g1, splitHE (Some he) m = Ok (true, m') /\ Valid m' /\
    SplitEffect m m' he u0 u1 u2 u3 f0 f1 vn g0 g1 /\ SplitEffect m m' rev u0 u1 u2 u3 f0 f1 vn g0 g1.
Proof.
  intros V I R Sa Sb Hd (B1 & B2 & C1 & C2). assert (W := valid_wf m V). pose proof (rev_in m W _ _ I R) as Ir.
  destruct (diamond_exists m he rev W (valid_noloops m V) I R (valid_tri m V _ I B1) (valid_tri m V _ Ir B2))
    as (he0 & he1 & he2 & he3 & u0 & u1 & u2 & u3 & f0 & f1 & D).
  assert (u0 = a) by (pose proof (d_s_he _ _ _ _ _ _ _ _ _ _ _ _ _ D); congruence).
  assert (u2 = b) by (pose proof (d_s_rev _ _ _ _ _ _ _ _ _ _ _ _ _ D); congruence). subst a b.
  assert (U13 : u1 <> u3) by (apply (diamond_u13 m he rev he0 he1 he2 he3 u0 u1 u2 u3 f0 f1 W (valid_noparallel m V) D); lia).
  destruct (split_T_exec m he rev he0 he1 he2 he3 u0 u1 u2 u3 f0 f1 W D C1 C2 Hd B1 B2) as (m' & nh & h01 & h02 & rn & h11 & h12 & g0 & g1 & vn & E & T).
  exists m', u0, u1, u2, u3, f0, f1, vn, g0, g1. split; [exact E|]. split; [|split].
  - apply (SplitV.split_Valid m m' he rev he0 he1 he2 he3 u0 u1 u2 u3 f0 f1 nh h01 h02 rn h11 h12 g0 g1 vn W D T); [apply V|apply V|apply V|exact U13].
  - apply (split_fx m m' he rev he0 he1 he2 he3 u0 u1 u2 u3 f0 f1 nh h01 h02 rn h11 h12 g0 g1 vn V D T U13); auto.
  - apply (split_fx m m' he rev he0 he1 he2 he3 u0 u1 u2 u3 f0 f1 nh h01 h02 rn h11 h12 g0 g1 vn V D T U13); auto.
Qed.

Theorem split_top m he : Valid m -> In he (m_hes m) ->
  exists b m' rev s d, h_rev m he = Some rev /\ h_src m he = Some s /\ dst_of m he = Some d /\
    splitHE (Some he) m = Ok (b, m') /\ Valid m' /\
    (b = true <-> h_bd m he = false /\ h_bd m rev = false /\ 3 <= deg_of m s /\ 3 <= deg_of m d) /\
    (b = false -> m' = m) /\
    (b = true -> exists u0 u1 u2 u3 f0 f1 vn g0 g1, SplitEffect m m' he u0 u1 u2 u3 f0 f1 vn g0 g1).
Proof.
  intros V I. assert (W := valid_wf m V). destruct (wf_rev m W _ I) as (rev & R & Ir). pose proof (rev_rev m W _ _ I R) as Rr.
  destruct (wf_src m W _ I) as (s & Ss & Vs). destruct (wf_src m W _ Ir) as (d & Sd & Vd).
  assert (Dd : dst_of m he = Some d) by (unfold dst_of; rewrite R; exact Sd).
  assert (DEC : split_ok m he rev s d \/ ~ split_ok m he rev s d).
  { unfold split_ok. destruct (h_bd m he), (h_bd m rev), (le_dec 3 (deg_of m s)), (le_dec 3 (deg_of m d)); intuition congruence. }
  destruct DEC as [H|H].
  - destruct (le_lt_dec (deg_of m d) (deg_of m s)) as [C|C].
    + destruct (split_accept m he rev s d V I R Ss Sd C H) as (m' & u0 & u1 & u2 & u3 & f0 & f1 & vn & g0 & g1 & E & V' & X & _).
      exists true, m', rev, s, d. split; [exact R|split; [exact Ss|split; [exact Dd|]]]. split; [exact E|]. split; [exact V'|]. unfold split_ok in H. split; [tauto|]. split; [discriminate|]. intros _. exists u0, u1, u2, u3, f0, f1, vn, g0, g1. exact X.
    + destruct (split_accept m rev he d s V Ir Rr Sd Ss ltac:(lia) ltac:(unfold split_ok in *; tauto)) as (m' & u0 & u1 & u2 & u3 & f0 & f1 & vn & g0 & g1 & E & V' & _ & X).
      exists true, m', rev, s, d. split; [exact R|split; [exact Ss|split; [exact Dd|]]]. split; [rewrite (split_swap m he rev s d W I R Ss Sd C); exact E|].
      split; [exact V'|]. unfold split_ok in H. split; [tauto|]. split; [discriminate|]. intros _. exists u0, u1, u2, u3, f0, f1, vn, g0, g1. exact X.
  - exists false, m, rev, s, d. split; [exact R|split; [exact Ss|split; [exact Dd|]]]. split; [|split; [exact V|split; [unfold split_ok in H; intuition congruence|split; [reflexivity|discriminate]]]].
    destruct (le_lt_dec (deg_of m d) (deg_of m s)) as [C|C].
    + exact (split_refuse m he rev s d W I R Ss Sd C H).
    + rewrite (split_swap m he rev s d W I R Ss Sd C). apply (split_refuse m rev he d s W Ir Rr Sd Ss); [lia|unfold split_ok in *; tauto].
Qed.

(** ** flipHE *)
Theorem flip_top m he rev : Valid m -> In he (m_hes m) -> h_rev m he = Some rev ->
  piter (h_next m) 3 he = Some he -> piter (h_next m) 3 rev = Some rev ->
  exists b m', flipHE (Some he) m = Ok (b, m') /\ Valid m' /\
    (b = false -> m' = m) /\
    exists u0 u1 u2 u3 f0 f1, h_src m he = Some u0 /\ dst_of m he = Some u2 /\ Tri m f0 u0 u2 u1 /\ Tri m f1 u2 u0 u3 /\
      (b = true <-> 4 < deg_of m u0 /\ 4 < deg_of m u2 /\ ~ adj m u1 u3) /\
      (b = true -> FlipEffect m m' he u0 u1 u2 u3 f0 f1).
Proof.
  intros V I R T1 T2. assert (W := valid_wf m V).
  destruct (diamond_exists m he rev W (valid_noloops m V) I R T1 T2) as (he0 & he1 & he2 & he3 & u0 & u1 & u2 & u3 & f0 & f1 & D).
  destruct (flip_exec m he rev he0 he1 he2 he3 u0 u1 u2 u3 f0 f1 W D) as (b & m' & E & Hf & Ht).
  exists b, m'. split; [exact E|].
  assert (X : Tri m f0 u0 u2 u1 /\ Tri m f1 u2 u0 u3).
  { pose proof (d_uneq _ _ _ _ _ _ _ _ _ _ _ _ _ D). assert (D' := D). destruct D'. split.
    - exists he, he0, he1. split; [|auto 10]. intros h; split; [intros [Hh Fh]; apply (diamond_f0 m he rev he0 he1 he2 he3 u0 u1 u2 u3 f0 f1); assumption|]. intros [->|[->| ->]]; auto.
    - exists rev, he2, he3. split; [|auto 10]. intros h; split; [intros [Hh Fh]; apply (diamond_f1 m he rev he0 he1 he2 he3 u0 u1 u2 u3 f0 f1); assumption|]. intros [->|[->| ->]]; auto. }
  assert (Y : h_src m he = Some u0 /\ dst_of m he = Some u2).
  { destruct D. unfold dst_of. rewrite d_rev_he. auto. }
  destruct b.
  - destruct (Ht eq_refl) as (-> & C0 & C2 & NC). split; [apply flip_Valid; auto; apply V|]. split; [discriminate|].
    exists u0, u1, u2, u3, f0, f1. do 4 (split; [tauto|]). split; [unfold adj; unfold connected in NC; tauto|]. intros _. apply flip_fx; assumption.
  - destruct (Hf eq_refl) as [-> NC]. split; [exact V|]. split; [reflexivity|].
    exists u0, u1, u2, u3, f0, f1. do 4 (split; [tauto|]). split; [|discriminate]. split; [discriminate|].
    intros (C0 & C2 & NA). unfold connected in NC. fold (adj m u1 u3) in NC. destruct NC as [NC|[NC|NC]]; [lia|lia|contradiction].
Qed.

(** ** collapseHE *)
Theorem collapse_top m he : Valid m -> In he (m_hes m) ->
  (collapseHE (Some he) m = Abort AAssert /\ ~ PosOk m) \/
  exists b m', collapseHE (Some he) m = Ok (b, m') /\ Valid m' /\
    (b = false -> m' = m) /\
    (b = true -> exists u0 u1 u2 u3 f0 f1, CollapseEffect m m' he u0 u1 u2 u3 f0 f1 /\
       3 < deg_of m u0 /\ deg_of m u0 <= deg_of m u2 /\ 4 < deg_of m u1 /\ 4 < deg_of m u3 /\
       (forall w, adj m u0 w -> adj m u2 w -> w = u1 \/ w = u3)).
Proof.
  intros V I. destruct (collapse_exec m V he I) as [E|(a & b & hn & hp & rn & rp & u0 & u1 & u2 & u3 & f0 & f1 & o0 & o1 & o2 & o3 & Rab & Hab & C & R0 & R1 & R2 & R3 & Hd & Ht & Hf)].
  - right. exists false, m. split; [exact E|split; [exact V|split; [reflexivity|discriminate]]].
  - destruct (veqb (v_pos m u2) (v_pos m u2)) eqn:P.
    + right. destruct (Ht eq_refl) as (m' & E & T). exists true, m'. split; [exact E|].
      split; [exact (CollapseV.collapse_Valid m m' a b hn hp rn rp o0 o1 o2 o3 u0 u1 u2 u3 f0 f1 V C T R0 R1 R2 R3)|].
      split; [discriminate|]. intros _. exists u0, u1, u2, u3, f0, f1.
      destruct (cc_deg _ _ _ _ _ _ _ _ _ _ _ _ _ C) as (? & ? & ? & ?). split; [|repeat (split; [assumption|])];
        [|intros w (y & Hy & Sy & Dy) (z & Hz & Sz & Dz); exact (cc_common _ _ _ _ _ _ _ _ _ _ _ _ _ C y z w Hy Hz Sy Dy Sz Dz)].
      apply (collapse_fx m m' a b hn hp rn rp o0 o1 o2 o3 u0 u1 u2 u3 f0 f1 V C T R0 R1 R2 R3). intuition congruence.
    + left. split; [apply Hf; reflexivity|]. intros PO. rewrite (PO u2) in P; [discriminate|].
      apply (d_u2 _ _ _ _ _ _ _ _ _ _ _ _ _ (cc_diamond _ _ _ _ _ _ _ _ _ _ _ _ _ C)).
Qed.

End Edits.
