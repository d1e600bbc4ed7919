(** Smoothing in exact arithmetic. *)
From Coq Require Import Reals Lra Bool List ZArith Arith Lia.
From Verif Require Import Num NumInst Vec VecR Heap Mesh Spec GeomSpec Orbit Rings Prog ProgP SmoothSpec Smooth SmoothP SmoothD.
Import ListNotations.
Local Open Scope R_scope.

Section R.
Variables lo hi : vec NumR.
Local Notation inside := (SmoothSpec.inside lo hi).

Lemma sum_bounds {X} (g : X -> R) a b : forall l s, (forall y, In y l -> a <= g y <= b) ->
  s + INR (length l) * a <= fold_left (fun acc y => acc + g y) l s <= s + INR (length l) * b.
Proof.
  induction l as [|y l IH]; intros s H; cbn [fold_left length].
  - simpl. lra.
  - rewrite S_INR. assert (Hy := H y (or_introl eq_refl)). specialize (IH (s + g y) (fun z Hz => H z (or_intror Hz))). lra.
Qed.
Definition fsum {X} (g : X -> R) l s := fold_left (fun acc y => acc + g y) l s.
Lemma wsum_eq (m : mesh NumR) l : forall a w, fold_left (fun acc y => (@vadd NumR (fst acc) (@Vec.vscale NumR (wgt m false y) (pos_at m (dst_of m y))), @nadd NumR (snd acc) (wgt m false y))) l (a, w) =
  (@V3 NumR (fsum (fun y => vx (pos_at m (dst_of m y))) l (vx a)) (fsum (fun y => vy (pos_at m (dst_of m y))) l (vy a)) (fsum (fun y => vz (pos_at m (dst_of m y))) l (vz a)), w + INR (length l)).
Proof.
  induction l as [|y l IH]; intros a w; cbn [fold_left length].
  - destruct a as [x z u]. unfold fsum. cbn [fold_left vx vy vz]. simpl INR. rewrite Rplus_0_r. reflexivity.
  - cbn [fst snd]. rewrite IH. unfold fsum. cbn [fold_left]. rewrite S_INR. unfold vadd, Vec.vscale, wgt. rn. f_equal; [|lra]. f_equal; f_equal; ring.
Qed.
Lemma avg_bounds {X} (g : X -> R) l a b : l <> [] -> (forall y, In y l -> a <= g y <= b) -> a <= fsum g l 0 / INR (length l) <= b.
Proof.
  intros Hl H. assert (P : 0 < INR (length l)) by (apply lt_0_INR; destruct l; [contradiction|simpl; lia]).
  destruct (sum_bounds g a b l 0 H) as [A B]. unfold fsum. split.
  - apply (Rmult_le_reg_r (INR (length l))); [exact P|]. unfold Rdiv. rewrite Rmult_assoc, Rinv_l by lra. lra.
  - apply (Rmult_le_reg_r (INR (length l))); [exact P|]. unfold Rdiv. rewrite Rmult_assoc, Rinv_l by lra. lra.
Qed.
Lemma reqb_false x : x <> 0 -> @neqb NumR x 0 = false.
Proof. intros H. apply not_true_is_false. intros E. apply Reqb_eq in E. apply H, E. Qed.

Section M.
Variable m : mesh NumR.
Hypothesis W : WF m.
Lemma vert_ring_ok i v : nth_error (m_verts m) i = Some v -> Vring m v (vert_ring m i) /\ vert_ring m i <> [].
Proof. intros E. unfold vert_ring. rewrite E. apply ring_of_ring; [exact W|apply nth_error_In in E; exact E]. Qed.
Lemma lap_cv_uniform i : (i < length (m_verts m))%nat -> (forall v, In v (m_verts m) -> inside (v_pos m v)) -> exists c, lap_cv m false i = Some c /\ inside c.
Proof.
  intros Hi B. destruct (nth_error (m_verts m) i) as [v|] eqn:E; [|apply nth_error_None in E; lia]. destruct (vert_ring_ok i v E) as [Hr Hn].
  assert (P : 0 < INR (length (vert_ring m i))) by (apply lt_0_INR; destruct (vert_ring m i); [contradiction|simpl; lia]).
  assert (D : forall y, In y (vert_ring m i) -> inside (pos_at m (dst_of m y))).
  { intros y Hy. destruct Hr as (_ & _ & Hin). apply Hin in Hy as [Hy _]. destruct (dst_pos m W y Hy) as (d & Ed & Id & _). rewrite Ed. apply B, Id. }
  unfold lap_cv, wsum. rewrite (wsum_eq m (vert_ring m i) vzero nzero). cbn [fst snd]. unfold Vec.vdiv. change (@nzero NumR) with 0. rewrite Rplus_0_l, (reqb_false (INR (length (vert_ring m i)))) by lra.
  eexists. split; [reflexivity|]. unfold SmoothSpec.inside. cbn [vx vy vz]. unfold vzero, vfill. cbn [vx vy vz]. split; [|split]; rn; (apply avg_bounds; [exact Hn|intros y Hy; apply (D y Hy)]).
Qed.
Lemma taubin_cv_ok i : (i < length (m_verts m))%nat -> exists c, taubin_cv m i = Some c.
Proof.
  intros Hi. destruct (nth_error (m_verts m) i) as [v|] eqn:E; [|apply nth_error_None in E; lia]. destruct (vert_ring_ok i v E) as [_ Hn].
  unfold taubin_cv, Vec.vdiv. rewrite reqb_false; [eauto|]. rn. rewrite <- INR_IZR_INZ. apply not_0_INR. destruct (vert_ring m i); [contradiction|simpl; lia].
Qed.
Lemma moved_inside eps p c : 0 <= eps <= 1 -> inside p -> inside c -> inside (@moved NumR eps p c).
Proof.
  intros He (P1 & P2 & P3) (C1 & C2 & C3). assert (Cv : forall a b x y, a <= x <= b -> a <= y <= b -> a <= x * (1 - eps) + (x + (y + - x)) * eps <= b).
  { intros a b x y Hx Hy. replace (x + (y + - x)) with y by ring. split; nra. }
  unfold moved, vadd, vsub, vneg, Vec.vscale, inside. cbn [vx vy vz]. rn. split; [|split]; apply Cv; assumption.
Qed.
Lemma uniform_pass eps : 0 <= eps <= 1 -> (forall v, In v (m_verts m) -> inside (v_pos m v)) ->
  exists m', @lap_step NumR eps false m (Ok m') /\ (forall o, @lap_step NumR eps false m o -> o = Ok m') /\ posonly m m' /\ forall v, In v (m_verts m) -> inside (v_pos m' v).
Proof.
  intros He B. destruct (pass m W (lap_centroid false) (lap_cv m false) (loc_lap_centroid m _ false) (lap_solo m false W) eps) as (r & (o & Ho & Er) & U & C).
  destruct C as [(m' & E & P & _ & Q) | (_ & i & Hi & Ei)]; [|destruct (lap_cv_uniform i Hi B) as (c & Ec & _); congruence].
  subst r. exists m'. split; [exists o; split; [exact Ho|congruence]|]. split; [intros o2 (o' & Ho' & ->); rewrite (U o' Ho'); exact E|]. split; [exact P|].
  intros v Iv. rewrite (Q v Iv). unfold newpos. destruct (fixedb m v); [apply B, Iv|]. destruct (lap_cv m false (Z.to_nat (v_idx m v))) as [c|] eqn:Ec; [|apply B, Iv].
  apply moved_inside; [exact He|apply B, Iv|]. apply In_nth_error in Iv as [i Ei]. destruct (wf_v_elem m W i v Ei) as (_ & Ex & _). rewrite Ex, Nat2Z.id in Ec.
  destruct (lap_cv_uniform i) as (c' & Ec' & Ic); [apply nth_error_Some; congruence|exact B|]. congruence.
Qed.
End M.

Theorem laplacian_box eps n : 0 <= eps <= 1 -> forall m : mesh NumR, WF m -> (forall v, In v (m_verts m) -> inside (v_pos m v)) ->
  exists m', @smoothLaplacian NumR eps false n m (Ok m') /\ (forall o, @smoothLaplacian NumR eps false n m o -> o = Ok m') /\ posonly m m' /\ kept m m' /\
    forall v, In v (m_verts m') -> inside (v_pos m' v).
Proof.
  intros He. unfold smoothLaplacian. generalize 0%nat as it. induction n as [|n IH]; intros it m W B.
  - exists m. split; [apply rep_0|]. split; [intros o H; inversion H; reflexivity|]. split; [apply posonly_refl|]. split; [intros v _; reflexivity|exact B].
  - destruct (uniform_pass m W eps He B) as (m1 & H1 & U1 & P1 & B1). rewrite <- (posonly_verts m m1 P1) in B1. destruct (IH (S it) m1 (posonly_wf m m1 W P1) B1) as (m2 & H2 & U2 & P2 & K2 & B2).
    exists m2. split; [apply (rep_S _ it n m m1 _ H1 H2)|]. split.
    + intros o H. inversion H as [|? ? ? mx ? A Bx|? ? ? ? A Bx]; subst; [|exfalso; apply (Bx m1), (U1 o A)]. assert (E := U1 _ A). injection E as ->. apply U2, Bx.
    + split; [apply (posonly_trans m m1 m2 P1 P2)|]. split; [|exact B2]. destruct (@lap_good NumR eps false it m W) as (r & Hr & Ur & [(mr & -> & Pr & Kr) | ->]); [|apply U1 in Hr; discriminate].
      assert (E := U1 _ Hr). injection E as ->. apply (kept_trans m m1 m2 P1 Kr K2).
Qed.
End R.

Theorem taubin_total a b n : forall m : mesh NumR, WF m -> exists m', @smoothTaubin NumR a b n m (Ok m') /\ (forall o, @smoothTaubin NumR a b n m o -> o = Ok m') /\ posonly m m' /\ kept m m'.
Proof.
  unfold smoothTaubin. generalize (n * 2)%nat as k. intros k. generalize 0%nat as it. induction k as [|k IH]; intros it m W.
  - exists m. split; [apply rep_0|]. split; [intros o H; inversion H; reflexivity|]. split; [apply posonly_refl|]. intros v _; reflexivity.
  - destruct (pass m W taubin_centroid (taubin_cv m) (loc_taubin_centroid m _) (taubin_solo m W) (if Nat.even it then a else @nopp NumR b)) as (r & (o & Ho & Er) & U & C).
    destruct C as [(m1 & E & P & _ & Q) | (_ & i & Hi & Ei)]; [|destruct (taubin_cv_ok m W i Hi) as (c & Ec); congruence]. subst r.
    destruct (IH (S it) m1 (posonly_wf m m1 W P)) as (m2 & H2 & U2 & P2 & K2). exists m2.
    split; [apply (rep_S _ it k m m1); [exists o; auto|exact H2]|]. split; [|split; [apply (posonly_trans m m1 m2 P P2)|apply (kept_trans m m1 m2 P (newpos_kept m m1 _ _ P Q) K2)]].
    intros o2 H. assert (U' : forall o', @taubin_step NumR a b it m o' -> o' = Ok m1) by (intros o' (o3 & H3 & ->); rewrite (U o3 H3); exact E).
    inversion H as [|? ? ? mx ? A Bx|? ? ? ? A Bx]; subst; [|exfalso; apply (Bx m1), (U' o2 A)]. assert (E' := U' _ A). injection E' as ->. apply U2, Bx.
Qed.
