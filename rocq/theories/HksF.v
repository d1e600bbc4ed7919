(** Heat kernel signatures in binary64: a single time. *)
From Coq Require Import Lia List Arith ZArith Floats.
From Verif Require Import Num Heap Hks.
Import ListNotations.
Local Open Scope float_scope.

Lemma nan_spec x : is_nan x = true <-> Prim2SF x = S754_nan.
Proof.
  unfold is_nan. rewrite eqb_spec. destruct (Prim2SF x) as [[]|[]| |[] m e] eqn:E; cbn; try (split; intros H; discriminate H); try (split; reflexivity).
  - rewrite Z.compare_refl. cbn. rewrite Pos.compare_cont_refl. cbn. split; discriminate.
  - rewrite Z.compare_refl. cbn. rewrite Pos.compare_cont_refl. cbn. split; discriminate.
Qed.
Lemma nan_add_r a x : is_nan x = true -> is_nan (a + x) = true.
Proof. rewrite !nan_spec, add_spec. intros ->. destruct (Prim2SF a); reflexivity. Qed.
Lemma nan_add_l a x : is_nan x = true -> is_nan (x + a) = true.
Proof. rewrite !nan_spec, add_spec. intros ->. destruct (Prim2SF a); reflexivity. Qed.
Lemma nan_mul_l a x : is_nan x = true -> is_nan (x * a) = true.
Proof. rewrite !nan_spec, mul_spec. intros ->. destruct (Prim2SF a); reflexivity. Qed.
Lemma nan_mul_r a x : is_nan x = true -> is_nan (a * x) = true.
Proof. rewrite !nan_spec, mul_spec. intros ->. destruct (Prim2SF a); reflexivity. Qed.
Lemma nan_opp x : is_nan x = true -> is_nan (- x) = true.
Proof. rewrite !nan_spec, opp_spec. intros ->. reflexivity. Qed.
Lemma zero_times_over_zero y : is_nan (0 * (y / 0)) = true.
Proof.
  rewrite nan_spec, mul_spec, div_spec. replace (Prim2SF 0) with (S754_zero false) by reflexivity. destruct (Prim2SF y) as [[]|[]| |[] m e]; reflexivity.
Qed.

Section Once.
Variables (acosF expF : float -> float) (atan2F : float -> float -> float).
Notation NF := (NumF acosF expF atan2F).
Hypothesis exp_nan : forall x, is_nan x = true -> is_nan (expF x) = true.
Lemma entry_nan K lam U x t : is_nan t = true -> (1 <= K)%nat -> is_nan (@hks_entry NF K lam U x t) = true.
Proof.
  intros Nt HK. unfold hks_entry. destruct K as [|K]; [lia|]. rewrite seq_S, fold_left_app. cbn [fold_left]. cbn [num nadd nmul nexp nopp NumF].
  apply nan_add_r, nan_mul_r, exp_nan, nan_mul_l, nan_opp, Nt.
Qed.
Theorem hks_once (nlog : float -> float) eigs n L K lam U : (2 <= K < n)%nat -> eigs n L K = Some (lam, U) ->
  exists H, @getHeatKernelSignatures NF nlog eigs n L (Z.of_nat K) 1 = Ok H /\ length H = n /\ forall row, In row H -> exists y, row = [y] /\ is_nan y = true.
Proof.
  intros HK E. unfold getHeatKernelSignatures. rewrite (proj2 (Z.ltb_lt _ _)) by lia. cbn [negb]. rewrite (proj2 (Z.ltb_ge _ _)) by lia. rewrite Nat2Z.id, E.
  rewrite (proj2 (Z.ltb_ge _ _)) by lia. eexists. split; [reflexivity|]. split; [rewrite map_length, seq_length; reflexivity|].
  intros row I. apply in_map_iff in I as (x & <- & _). unfold hks_times. cbn [seq map]. eexists. split; [reflexivity|]. apply entry_nan; [|lia].
  cbn [num nexp nadd nmul nofZ ndiv nsub NumF Z.of_nat Z.sub Z.add Z.opp Pos.of_succ_nat Z.pos_sub floatofZ]. apply exp_nan, nan_add_r. apply zero_times_over_zero.
Qed.
End Once.
