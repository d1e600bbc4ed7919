(** Concrete point sets for solveRigidICP. *)
From Coq Require Import Reals List ZArith Lra Lia.
From Verif Require Import Num NumInst Vec GeomSpec VecR MeasureM Tensor Icp IcpSpec IcpP.
Import ListNotations.
Local Open Scope R_scope.

Definition e0 : vecR := v3 1 0 0.
Definition e1 : vecR := v3 0 1 0.
Definition e2 : vecR := v3 0 0 1.
Definition o0 : vecR := v3 0 0 0.
Ltac wunf := unfold Orthogonal, sqlen, mapp, mmul3, mrow, mdiag3, mtr3, mcol, det3, e0, e1, e2, o0, v3; cbn [mr0 mr1 mr2 Vec.vx Vec.vy Vec.vz].
Ltac wring := wunf; unfold dot, cross, Vec.vx, Vec.vy, Vec.vz; rn; try ring; try lra.

Lemma one_middle (a : vecR) : middle [a] = a.
Proof. destruct a. unfold middle. cbn [map length INR]. unfold rsum. cbn [fold_right Vec.vx Vec.vy Vec.vz]. rn. f_equal; field. Qed.
Lemma app_zero (A : matR) : mapp A o0 = o0.
Proof. destruct A as [[? ? ?] [? ? ?] [? ? ?]]. unfold mapp, o0, v3. cbn [mr0 mr1 mr2]. rewrite !dot_eq. rn. f_equal; ring. Qed.
(** One point, moved by a unit: the error is one, although the points can be matched exactly. *)
Theorem error_wrong : exists svd (tgt src : list (feature NumR)) l Q t e, solveRigidICP (N := NumR) svd tgt src = Some (Q, t, e) /\
  Forall2 (Paired tgt) src l /\ SvdOf (cross_covariance l) (svd (cross_covariance l)) /\ misfit l Q t = 0 /\ e = 1.
Proof.
  set (I := Mat (N := NumR) e0 e1 e2). set (svd := fun _ : matR => (I, o0, I)).
  set (tgt := [(e0, [])] : list (feature NumR)). set (src := [(o0, [])] : list (feature NumR)).
  assert (X := icp_ok svd tgt src ltac:(discriminate)).
  assert (P : Forall2 (Paired tgt) src [(o0, e0)]).
  { constructor; [|constructor]. split; [reflexivity|]. exists (e0, []). cbn [snd fst]. unfold sig_dist. cbn [combine map rsum fold_right]. split; [now left|]. split; [reflexivity|].
    split; [apply pow_lt; lra|]. intros g' _. cbn [combine map]. right. reflexivity. }
  assert (OI : Orthogonal I) by (intros [a b c]; unfold I; wring).
  assert (M0 : cross_covariance [(o0, e0)] = Mat (N := NumR) o0 o0 o0).
  { unfold cross_covariance, middle. cbv zeta. cbn [map fst snd length INR]. unfold rsum, e0, o0, v3, vsub, vadd, vneg. cbn [fold_right Vec.vx Vec.vy Vec.vz]. rn. f_equal; f_equal; field. }
  assert (S : SvdOf (cross_covariance [(o0, e0)]) (svd (cross_covariance [(o0, e0)]))).
  { rewrite M0. unfold svd, SvdOf. split; [exact OI|]. split; [exact OI|]. split; [|unfold o0, v3; cbn [Vec.vx Vec.vy Vec.vz]; lra].
    unfold I. wunf. unfold dot. cbn [Vec.vx Vec.vy Vec.vz]. rn. f_equal; f_equal; ring. }
  destruct (solveRigidICP svd tgt src) as [[[Q t] e]|] eqn:E; [|destruct X as (s & [<-|[]] & Hs); exfalso; specialize (Hs _ (or_introl eq_refl)); unfold sig_dist in Hs; cbn in Hs; lra].
  assert (B := E). unfold solveRigidICP in B. cbn [matches] in B. assert (Nr : nearest (N := NumR) tgt [] = (0, Some (e0, []))).
  { unfold nearest, tgt. cbn [fold_left fst snd]. unfold sq_dist. cbn [combine map fold_left]. change (nltb (Num := NumR) nzero nbig20) with (Rltb 0 (10 ^ 20)). rewrite (proj2 (Rltb_lt 0 (10 ^ 20)) ltac:(apply pow_lt; lra)). reflexivity. }
  cbn [snd] in B. unfold src in B. cbn [matches fst snd] in B. rewrite Nr in B. cbn [snd fst] in B. assert (B' : rigid (N := NumR) svd [(o0, e0)] = (Q, t, e)) by congruence. clear B.
  assert (Z := rigid_ok [(o0, e0)] ltac:(discriminate) svd). rewrite (cross_cov [(o0, e0)] ltac:(discriminate)) in Z. specialize (Z S). rewrite B' in Z. destruct Z as (RQ & Opt & Er).
  assert (T : t = e0).
  { revert B'. unfold rigid. cbv zeta. unfold svd. intros B'. assert (B2 : t = vsub (vmean (N := NumR) (map snd [(o0, e0)])) (mapp (mmul3 (mdiag3 I (V3 (N := NumR) none_ none_ (det3 (mmul3 I (mtr3 I))))) (mtr3 I)) (vmean (N := NumR) (map fst [(o0, e0)])))) by (injection B' as _ <- _; reflexivity).
    rewrite B2. rewrite !vmean_middle by discriminate. cbn [map fst snd]. rewrite !one_middle, app_zero. unfold e0, o0, v3, vsub, vadd, vneg. rn. f_equal; ring. }
  assert (M : misfit [(o0, e0)] Q t = 0).
  { apply Rle_antisym; [|unfold misfit; cbn [map rsum fold_right length INR]; assert (A := sq_nonneg (vsub (snd (o0, e0)) (vadd (mapp Q (fst (o0, e0))) t))); lra].
    eapply Rle_trans; [apply (Opt I e0); split; [exact OI|unfold I; wring]|]. right. unfold misfit. cbn [map fst snd length INR]. unfold rsum, I. wunf. unfold dot, vsub, vadd, vneg. cbn [fold_right Vec.vx Vec.vy Vec.vz]. rn. field. }
  exists svd, tgt, src, [(o0, e0)], Q, t, e. split; [exact E|]. split; [exact P|]. split; [exact S|]. split; [exact M|]. rewrite Er, M, T. unfold sqlen, e0, v3. cbn [Vec.vx Vec.vy Vec.vz]. change (@num NumR) with R. lra.
Qed.
(** Two points and their images under a quarter turn. *)
Lemma icp_case : exists svd (tgt src : list (feature NumR)) l, src <> [] /\ Forall2 (Paired tgt) src l /\ SvdOf (cross_covariance l) (svd (cross_covariance l)) /\
  exists p q, In p src /\ In q src /\ fst p <> fst q.
Proof.
  set (U := Mat (N := NumR) e1 e0 e2). set (I := Mat (N := NumR) e0 e1 e2).
  exists (fun _ => (U, v3 2 0 0, I)), [(e1, [0]); (v3 0 (-1) 0, [1])], [(e0, [0]); (v3 (-1) 0 0, [1])], [(e0, e1); (v3 (-1) 0 0, v3 0 (-1) 0)].
  split; [discriminate|]. assert (Q : 1 < 10 ^ 20) by (apply Rlt_pow_R1; [lra|lia]). split; [|split].
  - constructor; [|constructor; [|constructor]]; (split; [reflexivity|]).
    + exists (e1, [0]). cbn [snd fst]. unfold sig_dist. cbn [combine map rsum fold_right fst snd]. split; [now left|]. split; [reflexivity|]. split; [lra|]. intros g' [<-|[<-|[]]]; cbn [snd combine map fst]; unfold rsum; cbn [fold_right]; lra.
    + exists (v3 0 (-1) 0, [1]). cbn [snd fst]. unfold sig_dist. cbn [combine map rsum fold_right fst snd]. split; [right; now left|]. split; [reflexivity|]. split; [lra|]. intros g' [<-|[<-|[]]]; cbn [snd combine map fst]; unfold rsum; cbn [fold_right]; lra.
  - split; [intros [a b c]; unfold U; wring|]. split; [intros [a b c]; unfold I; wring|]. split; [|unfold v3; cbn [Vec.vx Vec.vy Vec.vz]; lra].
    unfold cross_covariance, middle. cbv zeta. cbn [map fst snd length INR]. unfold rsum, U, I. wunf. unfold dot, vsub, vadd, vneg. cbn [fold_right Vec.vx Vec.vy Vec.vz]. rn. f_equal; f_equal; field.
  - exists (e0, [0]), (v3 (-1) 0 0, [1]). split; [now left|]. split; [right; now left|]. cbn [fst]. unfold e0, v3. intros H. injection H as H. lra.
Qed.
