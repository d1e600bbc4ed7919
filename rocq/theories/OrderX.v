(** The regular tetrahedron with its corners listed in two orders. *)
From Coq Require Import Reals Lra Lia List ZArith Bool Arith Permutation.
From Verif Require Import Num NumInst Vec Heap Mesh Construct Spec BuildSpec GeomSpec VecR MeasureM SmoothSpec Curv Witness RegTet CurvW OrderSpec Order OrderM.
Import ListNotations.
Local Open Scope R_scope.

Definition regB : list vecR := [v3 1 (-1) (-1); v3 1 1 1; v3 (-1) (-1) 1; v3 (-1) 1 (-1)].
Lemma regB_distinct : PosDistinct (N := NumR) regB.
Proof.
  intros i j p q A B E. apply veqb_real in E. subst q. destruct i as [|[|[|[|i]]]]; destruct j as [|[|[|[|j]]]]; cbn [regB nth_error] in A, B; try (destruct i; discriminate A); try (destruct j; discriminate B); try reflexivity; exfalso; rewrite <- B in A; injection A; intros; lra.
Qed.
Lemma reg_same (m m' : mesh NumR) : SurfaceOf m (triples ix_tetra) -> SurfaceOf m' (triples ix_tetra) -> positions m = regR -> positions m' = regB -> SameSurface (N := NumR) m m'.
Proof.
  intros S S' P P'. exists (triples ix_tetra), (triples ix_tetra). split; [exact S|]. split; [exact S'|].
  split; [apply (f_equal (@length _)) in P, P'; unfold positions in P, P'; rewrite map_length in P, P'; rewrite P, P'; reflexivity|].
  rewrite P, P'. split; [exact regR_distinct|]. split; [exact regB_distinct|].
  exists [(0, 3, 1); (0, 1, 2); (1, 3, 2); (0, 2, 3)]%nat. split.
  - cbn [ix_tetra triples]. etransitivity; [apply perm_swap|]. do 2 apply perm_skip. apply perm_swap.
  - assert (A : forall i j p, nth_error regR i = Some p -> nth_error regB j = Some p -> at_same (N := NumR) regR regB i j) by (intros i j p H1 H2; apply as_real; exists p; auto).
    repeat constructor; cbn [ix_tetra triples].
    + exists 1%nat, 0%nat, 3%nat, 0%nat, 1%nat, 2%nat; cbn; repeat split; auto; eapply A; reflexivity.
    + exists 1%nat, 2%nat, 0%nat, 0%nat, 3%nat, 1%nat; cbn; repeat split; auto; eapply A; reflexivity.
    + exists 1%nat, 3%nat, 2%nat, 0%nat, 2%nat, 3%nat; cbn; repeat split; auto; eapply A; reflexivity.
    + exists 0%nat, 2%nat, 3%nat, 1%nat, 3%nat, 2%nat; cbn; repeat split; auto; eapply A; reflexivity.
Qed.
Lemma measured_ex : exists (m m' : mesh NumR) v v', mesh_of regR ix_tetra = Ok m /\ mesh_of regB ix_tetra = Ok m' /\ SameSurface (N := NumR) m m' /\ In v (m_verts m) /\ In v' (m_verts m') /\
  v_pos m v = v_pos m' v' /\ ~ on_boundary m v /\ NonDegenerateAt m v /\ nth_error (m_verts m) 0 = Some v /\ nth_error (m_verts m') 1 = Some v'.
Proof.
  destruct regR_all as (m & E & V & C & P & _ & S). destruct (tet_mesh _ _ _ _ regB_distinct) as (m' & E' & S' & P').
  assert (L : length (m_verts m) = 4%nat) by (apply (f_equal (@length _)) in P; unfold positions in P; rewrite map_length in P; exact P).
  assert (L' : length (m_verts m') = 4%nat) by (apply (f_equal (@length _)) in P'; unfold positions in P'; rewrite map_length in P'; exact P').
  destruct (m_verts m) as [|v vs] eqn:Ev; [discriminate L|]. destruct (m_verts m') as [|w [|v' vs']] eqn:Ev'; [discriminate L'|discriminate L'|]. unfold positions in P, P'. rewrite Ev in P. rewrite Ev' in P'. cbn [map] in P, P'. unfold regR in P. injection P as P _. unfold regB in P'. injection P' as _ P' _.
  exists m, m', v, v'. split; [exact E|]. split; [exact E'|]. split; [|rewrite Ev, Ev'; split; [left; reflexivity|]; split; [right; left; reflexivity|]; split; [congruence|]; split; [apply closed_inner, C|]; split; [|auto]].
  - destruct regR_all as (m0 & E0 & _ & _ & P0 & _ & S0). destruct (tet_mesh _ _ _ _ regB_distinct) as (m1 & E1 & S1 & P1). assert (m0 = m) by congruence. assert (m1 = m') by congruence. subst. exact (reg_same m m' S S' P0 P1).
  - apply nd_at. destruct regR_all as (m0 & E0 & _ & _ & P0 & _ & S0). assert (m0 = m) by congruence. subst. exact (reg_nondeg m S P0).
Qed.
