(** Smoothing throws on both of two closed meshes of the same triangles or on neither. *)
From Coq Require Import Reals Lra Lia List ZArith Bool Arith Permutation.
From Verif Require Import Num NumInst Vec Heap Mesh Spec BuildSpec Orbit Rings Exec Diamond Queries Bounds GeomSpec VecR Measure MeasureR MeasureM Prog SmoothSpec Smooth SmoothP SmoothD SmoothR FilterSpec DenSpec SmoothF DenoiseR Clone Curv CurvN CurvW OrderSpec Order OrderM OrderS OrderD.
Import ListNotations.
Local Open Scope R_scope.
Implicit Types m : mesh NumR.

Lemma vdiv_none (p : vecR) (s : R) : @Vec.vdiv NumR p s = None <-> s = 0.
Proof.
  unfold Vec.vdiv. destruct (@neqb NumR s nzero) eqn:Z.
  - apply Reqb_eq in Z. split; [intros _; exact Z|reflexivity].
  - split; [intros X; inversion X|]. intros ->. assert (T : @neqb NumR 0 nzero = true) by (apply Reqb_eq; reflexivity). congruence.
Qed.
Lemma lap_none m cot i : lap_cv m cot i = None <-> total (map (SmoothD.wgt m cot) (vert_ring m i)) = 0.
Proof.
  unfold lap_cv. assert (E : SmoothD.wsum m cot (vert_ring m i) = _) by exact (wsum_gen m cot (vert_ring m i) vzero (@nzero NumR)). rewrite E. cbn [fst snd]. rewrite vdiv_none. change (@nzero NumR) with 0.
  change (MeasureM.rsum (map (SmoothD.wgt m cot) (vert_ring m i))) with (total (map (SmoothD.wgt m cot) (vert_ring m i))). lra.
Qed.

Section One.
Variables (R : nat -> nat -> Prop) (m m' : mesh NumR).
Hypothesis V : Valid m. Hypothesis V' : Valid m'. Hypothesis C : Closed m. Hypothesis C' : Closed m'. Hypothesis P : Paired R m m'.
Hypothesis E : forall v v', R v v' -> v_pos m v = v_pos m' v'.
Let W := valid_wf m V. Let W' := valid_wf m' V'.

Lemma wgt_same cot h h' : hp R m m' h h' -> SmoothD.wgt m cot h = SmoothD.wgt m' cot h'.
Proof.
  intros (Ih & Ih' & a & b & a' & b' & A1 & A2 & A3 & A4 & A5 & A6). destruct cot; [|reflexivity].
  apply (weight_same R m m' V V' P E true a a' b b'); [exact A5|exact A6|exact (inner m a C)|exact (cot_inner m V h a b Ih A1 A2 (inner m a C))|exact (cot_inner m' V' h' a' b' Ih' A3 A4 (inner m' a' C'))].
Qed.
Lemma one_ok eps cot m1 : lap_step (N := NumR) eps cot m (Ok m1) -> exists m1', lap_step (N := NumR) eps cot m' (Ok m1').
Proof.
  intros (o & Ho & Eo). destruct (pass m W (lap_centroid cot) (lap_cv m cot) (loc_lap_centroid m _ cot) (lap_solo m cot W) eps) as (r & _ & U & K). specialize (U o Ho). rewrite <- Eo in U. subst r. destruct K as [(mx & _ & _ & NN & _) | (X & _)]; [|discriminate X].
  destruct (pass m' W' (lap_centroid cot) (lap_cv m' cot) (loc_lap_centroid m' _ cot) (lap_solo m' cot W') eps) as (r & (o' & Ho' & Eo') & _ & K'). destruct K' as [(mx' & -> & _) | (-> & i' & Hi' & Ei')].
  - exists mx'. exists o'. auto.
  - exfalso. destruct (nth_error (m_verts m') i') as [v'|] eqn:Ev'; [|apply nth_error_None in Ev'; lia]. assert (Iv' := nth_error_In _ _ Ev'). destruct (pr_r _ _ _ P v' Iv') as (v & Rv). destruct (pr_in _ _ _ P v v' Rv) as (Iv & _).
    apply In_nth_error in Iv. destruct Iv as (i & Ev). assert (Hi : (i < length (m_verts m))%nat) by (apply nth_error_Some; congruence). apply (NN i Hi). apply lap_none. apply lap_none in Ei'.
    destruct (vert_ring_ok m W i v Ev) as (Rg & _). destruct (vert_ring_ok m' W' i' v' Ev') as (Rg' & _).
    rewrite (total_perm _ _ (Permutation_map _ (leaving_perm m v _ W Rg))). rewrite (total_perm _ _ (Permutation_map _ (leaving_perm m' v' _ W' Rg'))) in Ei'. rewrite <- Ei'. unfold leaving.
    apply (filt_match R m m' V V' P); [|intros h h' H _; apply wgt_same; exact H].
    intros k k' (_ & _ & a & b & a' & b' & S1 & _ & S2 & _ & Ra & _). apply ptr_iff. rewrite S1, S2. split; intros Q; injection Q as ->; f_equal; [exact (pr_fun _ _ _ P _ _ _ Ra Rv)|exact (pr_inj _ _ _ P _ _ _ Ra Rv)].
Qed.
End One.

Lemma steps_ok R eps cot n : forall it m m' m1, Valid m -> Valid m' -> Closed m -> Closed m' -> Paired R m m' -> (forall v v', R v v' -> v_pos m v = v_pos m' v') ->
  repeats (fun _ => lap_step (N := NumR) eps cot) it n m (Ok m1) -> exists m1', repeats (fun _ => lap_step (N := NumR) eps cot) it n m' (Ok m1').
Proof.
  induction n as [|n IH]; intros it m m' m1 V V' C C' P E H; [exists m'; apply rep_0|].
  inversion H as [|? ? ? k ? A B|? ? ? ? A B]; subst; [|exfalso; apply (B m1); reflexivity].
  destruct (one_ok R m m' V V' C C' P E eps cot k A) as (k' & A').
  assert (Q : smoothLaplacian (N := NumR) eps cot 1 m (Ok k)) by (apply (rep_S _ 0%nat 0%nat m k); [exact A|apply rep_0]). assert (Q' : smoothLaplacian (N := NumR) eps cot 1 m' (Ok k')) by (apply (rep_S _ 0%nat 0%nat m' k'); [exact A'|apply rep_0]).
  destruct (passes_same R cot (fun _ => eps) 1 m m' k k' V V' P E (laplacian_computes eps cot 1 _ _ V Q) (laplacian_computes eps cot 1 _ _ V' Q')) as (K & K' & E1).
  assert (Cp : forall n n' : mesh NumR, Closed n -> posonly n n' -> Closed n') by (intros x y Cx [_ ->]; exact Cx).
  destruct (IH (S it) k k' m1 (posonly_valid m k V K) (posonly_valid m' k' V' K') (Cp _ _ C K) (Cp _ _ C' K') (paired_pos R m m' k k' P K K') E1 B) as (m1' & H'). exists m1'. exact (rep_S _ it n m' k' _ A' H').
Qed.

Lemma same_surface_sym m m' : SameSurface (N := NumR) m m' -> SameSurface (N := NumR) m' m.
Proof. intros (T & T' & A & B & L & D & D' & S). exists T', T. repeat (split; [first [assumption|symmetry; assumption]|]). apply same_sym. exact S. Qed.

Theorem smoothing_throws : forall m m', SameSurface (N := NumR) m m' -> Closed m -> (forall v v', In v (m_verts m) -> In v' (m_verts m') -> v_pos m v = v_pos m' v' -> v_lock m v = v_lock m' v') ->
  forall eps cot n, ((exists m1, smoothLaplacian (N := NumR) eps cot n m (Ok m1)) <-> (exists m1', smoothLaplacian (N := NumR) eps cot n m' (Ok m1'))).
Proof.
  intros m m' SS C L eps cot n. assert (P := twins_paired m m' SS (fun a b H => L a b (proj1 H) (proj1 (proj2 H)) (proj2 (proj2 H)))).
  assert (P' := twins_paired m' m (same_surface_sym m m' SS) (fun a b H => eq_sym (L b a (proj1 (proj2 H)) (proj1 H) (eq_sym (proj2 (proj2 H)))))).
  destruct SS as (T & T' & S & S' & _). assert (V := so_valid _ _ S). assert (V' := so_valid _ _ S').
  assert (C' : Closed m'). { intros h' Ih'. destruct (h_bd m' h') eqn:B; [|reflexivity]. exfalso. destruct (wf_src m' (valid_wf m' V') h' Ih') as (a' & Sa & Ia). destruct (pr_r _ _ _ P a' Ia) as (a & Ra).
    apply (inner m a C). apply (pr_bd _ _ _ P a a' Ra). exists h'. auto. }
  split; intros (m1 & H).
  - exact (steps_ok (twin m m') eps cot n 0%nat m m' m1 V V' C C' P (fun x x' X => proj2 (proj2 X)) H).
  - exact (steps_ok (twin m' m) eps cot n 0%nat m' m m1 V' V C' C P' (fun x x' X => proj2 (proj2 X)) H).
Qed.
