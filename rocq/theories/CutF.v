(** The tables for a hole with four corners. *)
From Coq Require Import Reals Lra Lia List ZArith Arith Bool.
From Verif Require Import Num NumInst Vec VecR GeomSpec MeasureR Heap Mesh Spec Construct Fill FlatF CutSpec.
Import ListNotations.
Local Open Scope R_scope.

Lemma bend_pos (u w a b : vecR) : 0 <= bend u w a b <= PI.
Proof.
  unfold bend, dihedral. cbv zeta. assert (P := PI_RGT_0). destruct (_ || _); [change (@nzero NumR) with 0; lra|]. cbn [nacos NumR]. match goal with |- _ <= PI - acos ?x <= _ => assert (X := acos_bound x) end. lra.
Qed.
Section Four.
Variables (cabs : R -> R) (m : mesh NumR) (bd : list ptr) (em : edge_map) (bound : R) (p q : nat -> vecR).
Hypothesis Hp : forall i, (i < 4)%nat -> b_pos bd i m = Ok (p i, m).
Hypothesis Hq : forall j, (j + 1 < 4)%nat -> opposite (em j (j + 1)%nat) m = Ok (q j, m).
Definition A1 : R := sharpest (bends_bd (p 0%nat) (p 1%nat) (p 2%nat) (p 3%nat) (q 0%nat) (q 1%nat) (q 2%nat)).
Definition A2 : R := sharpest (bends_ac (p 0%nat) (p 1%nat) (p 2%nat) (p 3%nat) (q 0%nat) (q 1%nat) (q 2%nat)).
Definition S1 : R := area_bd (p 0%nat) (p 1%nat) (p 2%nat) (p 3%nat).
Definition S2 : R := area_ac (p 0%nat) (p 1%nat) (p 2%nat) (p 3%nat).
Definition second : bool := @nltb NumR A2 A1 || (@nltb NumR (cabs (A2 - A1)) bound && @nltb NumR S2 S1).

Lemma nmax4 (a b c d : R) : 0 <= a -> 0 <= b -> 0 <= c -> 0 <= d -> Rmax (Rmax a d) (Rmax 0 (Rmax b c)) = sharpest [a; b; c; d] /\ Rmax (Rmax d c) (Rmax (Rmax a b) 0) = sharpest [a; b; c; d].
Proof. intros. unfold sharpest. cbn [fold_right]. unfold Rmax. split; repeat destruct Rle_dec; lra. Qed.
Lemma area_eq (a b c : vecR) : fill_area a b c = tri_area a b c.
Proof. unfold fill_area, tri_area. rn. f_equal. Qed.
Lemma start_two t i : (i + 2 < 4)%nat -> fill_start bd em 4 t i m = Ok (@t_set NumR i (i + 2) (fill_area (p i) (p (i + 1)%nat) (p (i + 2)%nat)) (Rmax (bend (p i) (p (i + 1)%nat) (p (i + 2)%nat) (q i)) (bend (p (i + 1)%nat) (p (i + 2)%nat) (p i) (q (i + 1)%nat))) (Some (i + 1)%nat) (@t_set NumR i (i + 1) 0 0 None t), m).
Proof.
  intros L. unfold fill_start. cbv zeta. replace (i <? 4 - 2)%nat with true by (symmetry; apply Nat.ltb_lt; lia). unfold bind. rewrite !Hp, Hq by lia. assert (K := Hq (i + 1) ltac:(lia)). replace (i + 1 + 1)%nat with (i + 2)%nat in K by lia. rewrite K. unfold ret. do 3 f_equal. unfold fill_angle. rewrite nmax_R. reflexivity.
Qed.
Lemma start_last t : fill_start bd em 4 t 2 m = Ok (@t_set NumR 2 3 0 0 None t, m).
Proof. reflexivity. Qed.
Lemma try_four t (b01 b12 : vecR) c : (0 < c < 3)%nat -> beyond bd em t 0 c m = Ok (b01, m) -> beyond bd em t c 3 m = Ok (b12, m) ->
  let area := t_area t 0%nat c + t_area t c 3%nat + fill_area (p 0%nat) (p c) (p 3%nat) in
  let angle := Rmax (Rmax (bend (p 0%nat) (p c) (p 3%nat) b01) (bend (p c) (p 3%nat) (p 0%nat) b12)) (Rmax (t_angle t 0%nat c) (t_angle t c 3%nat)) in
  fill_try (N := NumR) cabs bd em bound 0 3 t c m = Ok (if @nltb NumR angle (t_angle t 0%nat 3%nat) || (@nltb NumR (cabs (angle - t_angle t 0%nat 3%nat)) bound && @nltb NumR area (t_area t 0%nat 3%nat)) then @t_set NumR 0 3 area angle (Some c) t else t, m).
Proof.
  intros L E1 E2 area angle. unfold fill_try, bind. rewrite !Hp by lia. rewrite E1, E2. cbv zeta.
  match goal with |- context [if nltb ?x _ || _ then _ else _] => change x with (@nmax NumR (fill_angle (N := NumR) (p 0%nat) (p c) (p 3%nat) b01 b12) (nmax (t_angle t 0%nat c) (t_angle t c 3%nat))) end.
  unfold fill_angle. rewrite !nmax_R. fold (bend (p 0%nat) (p c) (p 3%nat) b01). 
  match goal with |- context [if ?b then _ else _] => destruct b eqn:E end.
  - unfold ret. match goal with |- _ = Ok (if ?b' then _ else _, _) => replace b' with true by (rewrite <- E; reflexivity) end. reflexivity.
  - unfold ret. match goal with |- _ = Ok (if ?b' then _ else _, _) => replace b' with false by (rewrite <- E; reflexivity) end. reflexivity.
Qed.
Lemma tables_four : exists t, fill_tables (N := NumR) cabs bd em bound 4 m = Ok (t, m) /\ t_o t 0%nat 2%nat = Some 1%nat /\ t_o t 1%nat 3%nat = Some 2%nat /\ t_o t 0%nat 3%nat = Some (if second then 2 else 1)%nat.
Proof.
  set (B := fun u w a b => bend (p u) (p w) (p a) b). 
  set (t1 := @t_set NumR 0 2 (fill_area (p 0%nat) (p 1%nat) (p 2%nat)) (Rmax (bend (p 0%nat) (p 1%nat) (p 2%nat) (q 0%nat)) (bend (p 1%nat) (p 2%nat) (p 0%nat) (q 1%nat))) (Some 1%nat) (@t_set NumR 0 1 0 0 None tables0)).
  set (t2 := @t_set NumR 1 3 (fill_area (p 1%nat) (p 2%nat) (p 3%nat)) (Rmax (bend (p 1%nat) (p 2%nat) (p 3%nat) (q 1%nat)) (bend (p 2%nat) (p 3%nat) (p 1%nat) (q 2%nat))) (Some 2%nat) (@t_set NumR 1 2 0 0 None t1)).
  set (t3 := @t_set NumR 2 3 0 0 None t2).
  assert (ST : mfold (fill_start bd em 4) tables0 (seq 0 3) m = Ok (t3, m)).
  { cbn [seq mfold]. unfold bind. rewrite (start_two _ 0) by lia. cbn [Nat.add]. fold t1. rewrite (start_two t1 1) by lia. cbn [Nat.add]. fold t2. rewrite start_last. reflexivity. }
  assert (Q0 := Hq 0 ltac:(lia)). assert (Q1 := Hq 1 ltac:(lia)). assert (Q2 := Hq 2 ltac:(lia)). cbn [Nat.add] in Q0, Q1, Q2.
  assert (P0 := fun u w a b => proj1 (bend_pos u w a b)).
  destruct (nmax4 (bend (p 0%nat) (p 1%nat) (p 3%nat) (q 0%nat)) (bend (p 1%nat) (p 2%nat) (p 3%nat) (q 1%nat)) (bend (p 2%nat) (p 3%nat) (p 1%nat) (q 2%nat)) (bend (p 1%nat) (p 3%nat) (p 0%nat) (p 2%nat))) as [X1 _]; try apply P0.
  destruct (nmax4 (bend (p 0%nat) (p 1%nat) (p 2%nat) (q 0%nat)) (bend (p 1%nat) (p 2%nat) (p 0%nat) (q 1%nat)) (bend (p 2%nat) (p 3%nat) (p 0%nat) (q 2%nat)) (bend (p 0%nat) (p 2%nat) (p 3%nat) (p 1%nat))) as [_ X2]; try apply P0.
  assert (Y1 : 0 + fill_area (p 1%nat) (p 2%nat) (p 3%nat) + fill_area (p 0%nat) (p 1%nat) (p 3%nat) = S1) by (rewrite !area_eq; unfold S1, area_bd; rewrite Rplus_0_l; apply Rplus_comm).
  assert (Y2 : fill_area (p 0%nat) (p 1%nat) (p 2%nat) + 0 + fill_area (p 0%nat) (p 2%nat) (p 3%nat) = S2) by (rewrite !area_eq; unfold S2, area_ac; rewrite Rplus_0_r; reflexivity).
  set (t4 := @t_set NumR 0 3 S1 A1 (Some 1%nat) t3).
  assert (T1 : fill_try (N := NumR) cabs bd em bound 0 3 t3 1 m = Ok (t4, m)).
  { rewrite (try_four t3 (q 0%nat) (p 2%nat) 1 ltac:(lia) Q0 (Hp 2 ltac:(lia))). 
    change (t_area t3 0%nat 1%nat) with 0. change (t_area t3 1%nat 3%nat) with (fill_area (p 1%nat) (p 2%nat) (p 3%nat)). change (t_angle t3 0%nat 1%nat) with 0. change (t_angle t3 1%nat 3%nat) with (Rmax (bend (p 1%nat) (p 2%nat) (p 3%nat) (q 1%nat)) (bend (p 2%nat) (p 3%nat) (p 1%nat) (q 2%nat))).
    change (@nltb NumR) with Rltb. rewrite Y1, X1. fold (bends_bd (p 0%nat) (p 1%nat) (p 2%nat) (p 3%nat) (q 0%nat) (q 1%nat) (q 2%nat)). fold A1. change (t_angle t3 0%nat 3%nat) with (10 ^ 12)%R.
    replace (Rltb A1 (10 ^ 12)) with true; [reflexivity|]. symmetry. unfold Rltb. destruct (Rlt_dec A1 (10 ^ 12)) as [|X]; [reflexivity|exfalso; apply X]. apply Rle_lt_trans with PI; [|assert (Z := PI_4); apply Rle_lt_trans with 4; [exact Z|lra]].
    unfold A1, sharpest, bends_bd. cbn [fold_right]. assert (PP := PI_RGT_0). repeat apply Rmax_lub; try apply bend_pos; left; exact PP. }
  assert (T2 : fill_try (N := NumR) cabs bd em bound 0 3 t4 2 m = Ok (if second then @t_set NumR 0 3 S2 A2 (Some 2%nat) t4 else t4, m)).
  { rewrite (try_four t4 (p 1%nat) (q 2%nat) 2 ltac:(lia) (Hp 1 ltac:(lia)) Q2).
    change (t_area t4 0%nat 2%nat) with (fill_area (p 0%nat) (p 1%nat) (p 2%nat)). change (t_area t4 2%nat 3%nat) with 0. change (t_angle t4 2%nat 3%nat) with 0. change (t_angle t4 0%nat 2%nat) with (Rmax (bend (p 0%nat) (p 1%nat) (p 2%nat) (q 0%nat)) (bend (p 1%nat) (p 2%nat) (p 0%nat) (q 1%nat))).
    change (t_angle t4 0%nat 3%nat) with A1. change (t_area t4 0%nat 3%nat) with S1. rewrite Y2, X2. reflexivity. }
  exists (if second then @t_set NumR 0 3 S2 A2 (Some 2%nat) t4 else t4). split; [|destruct second; split; [reflexivity|split; reflexivity|reflexivity|split; reflexivity]].
  unfold fill_tables. cbn [Nat.sub]. unfold bind. rewrite ST. cbn [seq mfold]. unfold fill_row, fill_cell. cbn [Nat.sub Nat.add seq mfold]. unfold bind. rewrite T1, T2. reflexivity.
Qed.
End Four.
