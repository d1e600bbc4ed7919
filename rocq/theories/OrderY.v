(** The regular tetrahedron with its triangles listed in two orders: the normal filters. *)
From Coq Require Import Reals Lra Lia List ZArith Bool Arith Permutation.
From Verif Require Import Num NumInst Vec VecR Heap Mesh Construct Spec BuildSpec BuildProps Built Rings Witness Examples GeomSpec ExamplesR Prog Queries SmoothSpec Smooth SmoothP SmoothD SmoothR MeasureM FairW DenoiseT FilterSpec SmoothF RegTet CurvW OrderSpec Order OrderM OrderX OrderS OrderD.
Import ListNotations.
Local Open Scope R_scope.

Definition ix_tetra2 : list nat := [0;1;2; 3;2;1; 3;1;0; 2;3;0]%nat.
Lemma tetra2_welded : Welded (N := NumR) regR ix_tetra2 regR ix_tetra2.
Proof.
  apply Welded_id.
  - intros i p _ _. apply veqb_real. reflexivity.
  - exact regR_distinct.
  - apply rangeb_ok. reflexivity.
  - intros j Hj. cbn [regR length] in Hj. destruct j as [|[|[|[|j]]]]; [exists 0%nat|exists 1%nat|exists 2%nat|exists 3%nat|lia]; (split; [reflexivity|]); intros k' j' Lk Hk;
      destruct k' as [|[|[|[|k']]]]; try lia; cbn [ix_tetra2 nth_error] in Hk; injection Hk as <-; lia.
Qed.
Lemma tetra_welded : Welded (N := NumR) regR ix_tetra regR ix_tetra.
Proof.
  apply Welded_id.
  - intros i p _ _. apply veqb_real. reflexivity.
  - exact regR_distinct.
  - apply rangeb_ok. reflexivity.
  - intros j Hj. cbn [regR length] in Hj. destruct j as [|[|[|[|j]]]]; [exists 0%nat|exists 1%nat|exists 2%nat|exists 4%nat|lia]; (split; [reflexivity|]); intros k' j' Lk Hk;
      destruct k' as [|[|[|[|k']]]]; try lia; cbn [ix_tetra nth_error] in Hk; injection Hk as <-; lia.
Qed.
Lemma same_two : SameTriangles (N := NumR) regR (triples ix_tetra) regR (triples ix_tetra2).
Proof.
  exists [(0, 1, 2); (1, 3, 2); (0, 3, 1); (0, 2, 3)]%nat. split.
  - cbn [ix_tetra triples]. apply perm_skip. etransitivity; [apply perm_skip, perm_swap|apply perm_swap].
  - assert (A : forall i, (i < 4)%nat -> at_same (N := NumR) regR regR i i) by (intros i Hi; apply as_real; destruct (nth_error regR i) as [p|] eqn:Ep; [exists p; auto|apply nth_error_None in Ep; cbn in Ep; lia]).
    repeat constructor; cbn [ix_tetra2 triples].
    + exists 0%nat, 1%nat, 2%nat, 0%nat, 1%nat, 2%nat; cbn; repeat split; auto; apply A; lia.
    + exists 3%nat, 2%nat, 1%nat, 3%nat, 2%nat, 1%nat; cbn; repeat split; auto; apply A; lia.
    + exists 3%nat, 1%nat, 0%nat, 3%nat, 1%nat, 0%nat; cbn; repeat split; auto; apply A; lia.
    + exists 2%nat, 3%nat, 0%nat, 2%nat, 3%nat, 0%nat; cbn; repeat split; auto; apply A; lia.
Qed.

Lemma locked_same (m m' : mesh NumR) : SameSurface (N := NumR) m m' -> SameSurface (N := NumR) (FairW.locked m) (FairW.locked m').
Proof.
  assert (G : forall (n : mesh NumR) T, SurfaceOf n T -> SurfaceOf (FairW.locked n) T) by (intros n T [A B C D]; constructor; [apply locked_valid; exact A|exact B|exact C|exact D]).
  intros (T & T' & A & B & C). exists T, T'. split; [apply G; exact A|]. split; [apply G; exact B|exact C].
Qed.
Lemma denoising_order_ex (sigma sc sn : R) : exists (m0 m0' : mesh NumR) v v' m1 m1' m2 m2', let m := FairW.locked m0 in let m' := FairW.locked m0' in
  mesh_of regR ix_tetra = Ok m0 /\ mesh_of regR ix_tetra2 = Ok m0' /\ SameSurface (N := NumR) m m' /\ Closed m /\
  (forall u u', In u (m_verts m) -> In u' (m_verts m') -> v_pos m u = v_pos m' u' -> v_lock m u = v_lock m' u') /\ In v (m_verts m) /\ In v' (m_verts m') /\ v_pos m v = v_pos m' v' /\
  denoiseNormalGaussian (N := NumR) sigma 1 m (Ok m1) /\ denoiseNormalGaussian (N := NumR) sigma 1 m' (Ok m1') /\ denoiseNormalBilateral (N := NumR) sc sn 1 m (Ok m2) /\ denoiseNormalBilateral (N := NumR) sc sn 1 m' (Ok m2').
Proof.
  destruct regR_all as (m0 & E & V & C & P & L & S). destruct (ex_tetra_welded (fun x => x) (fun x => x) (fun x _ => x)) as (D & ND & NE & _).
  destruct (order_free regR regR ix_tetra ix_tetra2 _ _ _ _ tetra_welded tetra2_welded D (ex_intro _ 4%nat eq_refl) same_two ND NE) as [(x & m0' & E1 & E' & SS) | [E1 _]]; [|rewrite E in E1; discriminate E1].
  assert (x = m0) by congruence. subst x.
  assert (SW := same_welded _ _ _ _ _ _ _ _ tetra_welded tetra2_welded same_two). assert (ND2 := nondeg_img regR regR _ _ regR_distinct regR_distinct SW ND). assert (NE2 := nodup_img regR regR _ _ regR_distinct regR_distinct SW NE).
  destruct (outcome_safe _ _ _ _ tetra2_welded (ex_intro _ 4%nat eq_refl) ND2 NE2) as [(x & E2 & S' & P') | E2]; [|rewrite E' in E2; discriminate E2]. assert (x = m0') by congruence. subst x.
  assert (V' := so_valid _ _ S'). assert (NN : NoNaN regR ix_tetra2) by (intros i p _ _; apply veqb_real; reflexivity). assert (L' : forall u, In u (m_verts m0') -> v_lock m0' u = false) by apply (faithful regR ix_tetra2 m0' NN E').
  assert (Pr := twins_paired m0 m0' SS (fun a b H => eq_trans (L a (proj1 H)) (eq_sym (L' b (proj1 (proj2 H)))))).
  assert (C' : Closed m0'). { intros h' Ih'. destruct (h_bd m0' h') eqn:B; [|reflexivity]. exfalso. destruct (wf_src m0' (valid_wf m0' V') h' Ih') as (a' & Sa & Ia). destruct (pr_r _ _ _ Pr a' Ia) as (a & Ra).
    apply (inner m0 a C). apply (pr_bd _ _ _ Pr a a' Ra). exists h'. auto. }
  assert (Den : forall n0 : mesh NumR, Valid n0 -> Closed n0 -> positions n0 = regR -> exists m1 m2, denoiseNormalGaussian (N := NumR) sigma 1 (FairW.locked n0) (Ok m1) /\ denoiseNormalBilateral (N := NumR) sc sn 1 (FairW.locked n0) (Ok m2)).
  { intros n0 Vn Cn Pn. set (n := FairW.locked n0). assert (Vl : Valid n) by apply locked_valid, Vn. destruct (meanEdgeLength_ok n (valid_wf n Vl)) as (reps & _ & Ea). set (avg := ndiv _ _) in Ea.
    destruct (locked_step (wgt_gauss (N := NumR) (sigma * avg)) n Vl Cn Pn (fun v _ => eq_refl)) as (m1 & H1). destruct (locked_step (wgt_bilateral (N := NumR) (sc * avg) sn) n Vl Cn Pn (fun v _ => eq_refl)) as (m2 & H2).
    exists m1, m2. split; [apply (dng (N := NumR) sigma 1 n avg); [exact Ea|]; apply (rep_S _ 0%nat 0%nat n m1); [exact H1|apply rep_0]|apply (dnb (N := NumR) sc sn 1 n avg); [exact Ea|]; apply (rep_S _ 0%nat 0%nat n m2); [exact H2|apply rep_0]]. }
  destruct (Den m0 V C P) as (m1 & m2 & H1 & H2). destruct (Den m0' V' C' P') as (m1' & m2' & H1' & H2').
  destruct (m_verts m0) as [|v vs] eqn:Ev; [unfold positions in P; rewrite Ev in P; discriminate P|]. destruct (pr_l _ _ _ Pr v) as (v' & _ & Iv' & Q); [rewrite Ev; left; reflexivity|].
  exists m0, m0', v, v', m1, m1', m2, m2'. cbv zeta. split; [exact E|]. split; [exact E'|]. split; [apply locked_same; exact SS|]. split; [exact C|]. split; [intros; reflexivity|].
  split; [change (In v (m_verts m0)); rewrite Ev; left; reflexivity|]. split; [exact Iv'|]. split; [exact Q|]. auto.
Qed.
