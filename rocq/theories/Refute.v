(** The refutations, read off the evaluated witnesses; and what collapseHE does
    to boundary gaps. *)
From Coq Require Import List ZArith Floats Bool Arith Lia Permutation.
From Verif Require Import Num NumInst Vec Heap Mesh Construct Spec EditSpec BuildSpec Orbit Rings Exec Edits Seqs Refuse Queries BuildTri Built Clone BuildProps Witness.
Import ListNotations.

Section RO.
Context {N : Num}.
Lemma ro_verifyVertex v : ro (N:=N) (verifyVertex v).
Proof.
  unfold verifyVertex. apply ro_bind; [apply ro_get|intros]. apply ro_bind; [apply ro_vrd|intros]. apply ro_bind; [apply ro_vrd|intros].
  apply ro_bind; [|intros; apply ro_ret]. apply ro_circ_v. intros. apply ro_bind; [apply ro_hrd|intros; apply ro_ret].
Qed.
Lemma verify_ro : ro (N:=N) verify.
Proof.
  unfold verify. do 3 (apply ro_bind; [apply ro_get|intros]).
  assert (A : forall l i, ro (N:=N) (verify_vertices i l)).
  { induction l as [|x l IH]; intros i; cbn [verify_vertices]; [apply ro_ret|]. apply ro_bind; [apply ro_vrd|intros]. apply ro_bind; [apply ro_verifyVertex|intros].
    apply ro_bind; [apply IH|intros; apply ro_ret]. }
  assert (B : forall l i, ro (N:=N) (verify_halfedges i l)).
  { induction l as [|x l IH]; intros i; cbn [verify_halfedges]; [apply ro_ret|]. apply ro_bind; [apply ro_hrd|intros]. apply ro_bind; [apply IH|intros; apply ro_ret]. }
  assert (C : forall l i, ro (N:=N) (verify_faces i l)).
  { induction l as [|x l IH]; intros i; cbn [verify_faces]; [apply ro_ret|]. apply ro_bind; [apply ro_frd|intros]. apply ro_bind; [apply ro_frd|intros]. apply ro_bind; [apply IH|intros; apply ro_ret]. }
  apply ro_bind; [apply A|intros]. apply ro_bind; [apply B|intros]. apply ro_bind; [apply C|intros; apply ro_ret].
Qed.
End RO.

Section Refute.
Variables (acosF expF : float -> float) (atan2F : float -> float -> float).
Notation NF := (Witness.NF acosF expF atan2F).

Ltac split_and H := repeat (apply andb_true_iff in H; let K := fresh "K" in destruct H as [H K]).

Lemma length_in {X} (l : list X) d n : length l = S n -> In (nth 0 l d) l.
Proof. destruct l; [discriminate|]. intros _. left. reflexivity. Qed.

Lemma degenerate_refuted : exists (ps : list (vec NF)) ix ix' rem m,
  (forall i, In i ix -> i < length ps) /\ NoNaN ps ix /\
  Permutation (triples ix) (triples ix' ++ rem) /\ Forall degenerate rem /\ mesh_of ps ix' = Ok m /\ mesh_of ps ix = Abort AError.
Proof.
  assert (C := degen_check acosF expF atan2F). apply andb_true_iff in C as [C1 C2]. apply with_ok in C2 as (m & E & _).
  exists (ps3 acosF expF atan2F), [0;0;1; 0;1;2; 1;1;2], [0;1;2], [(0,0,1); (1,1,2)], m.
  split; [cbn; intros i H; repeat (destruct H as [<-|H]; [lia|]); destruct H|].
  split; [intros i p H; cbn in H; repeat (destruct H as [<-|H]; [intros [= <-]; vm_compute; reflexivity|]); destruct H|].
  split; [cbn; apply perm_swap|]. split; [repeat constructor; cbn; tauto|]. split; [exact E|].
  apply is_abort_ok in C1. exact C1.
Qed.

Lemma replace_refuted : exists (ps1 ps2 : list (vec NF)) ix1 ix2 m1 m2 m3,
  mesh_of ps1 ix1 = Ok m1 /\ mesh_of ps2 ix2 = Ok m2 /\ construct ps2 ix2 m1 = Ok (tt, m3) /\
  length (m_faces m2) = 3 /\ length (m_faces m3) = 4.
Proof.
  assert (C := again_check acosF expF atan2F). apply with_ok in C as (m1 & E1 & C). apply with_ok in C as (m2 & E2 & C).
  apply with_res_ok in C as ([] & m3 & E3 & C). apply andb_true_iff in C as [C1 C2].
  exists (ps_square acosF expF atan2F), (ps_square acosF expF atan2F), [0;1;2; 0;2;3], [0;1;3; 1;2;3], m1, m2, m3.
  apply Nat.eqb_eq in C1, C2. auto.
Qed.
Lemma replace_ub : exists (ps1 ps2 : list (vec NF)) ix1 ix2 m1 m2,
  mesh_of ps1 ix1 = Ok m1 /\ mesh_of ps2 ix2 = Ok m2 /\ construct ps2 ix2 m1 = UB OutOfBounds.
Proof.
  assert (C := again_oob_check acosF expF atan2F). apply with_ok in C as (m1 & E1 & C). apply with_ok in C as (m2 & E2 & C).
  exists (ps_square acosF expF atan2F), (ps3 acosF expF atan2F), [0;1;2; 0;2;3], [0;1;2], m1, m2. split; [exact E1|]. split; [exact E2|].
  apply is_ub_ok in C. exact C.
Qed.

Lemma skipped_refuted : exists (ps : list (vec NF)) ix, NoNaN ps ix /\ (forall i, In i ix -> i < length ps) /\ Nat.divide 3 (length ix) /\
  (forall t, In t (triples ix) -> ~ degenerate t) /\ mesh_of ps ix = UB NullDeref.
Proof.
  assert (C := skipped_check acosF expF atan2F). exists (ps_square acosF expF atan2F), [0;1;2; 0;1;3].
  split; [intros i p H; cbn in H; repeat (destruct H as [<-|H]; [intros [= <-]; vm_compute; reflexivity|]); destruct H|].
  split; [cbn; intros i H; repeat (destruct H as [<-|H]; [lia|]); destruct H|]. split; [exists 2; reflexivity|].
  split; [cbn; intros t [<-|[<-|[]]]; cbn; lia|].
  apply is_ub_ok in C. exact C.
Qed.

Lemma flip_boundary_refuted : exists (ps : list (vec NF)) ix m he m',
  mesh_of ps ix = Ok m /\ Valid m /\ In he (m_hes m) /\ h_bd m he = true /\
  flipHE (Some he) m = Ok (true, m') /\ ~ WF m' /\ verify m' = NoFuel.
Proof.
  assert (C := flip_check acosF expF atan2F). apply with_ok in C as (m & E & C). split_and C. apply Nat.eqb_eq in K0.
  apply with_res_ok in K as (b & m' & Ef & K). apply andb_true_iff in K as [-> Ev]. apply is_nofuel_ok in Ev.
  exists (ps_strip acosF expF atan2F), ix_strip, m, (first_he acosF expF atan2F m), m'. split; [exact E|]. split; [apply mesh_of_ok in E; apply (construct_valid _ _ _ _ E)|].
  split; [apply (length_in _ _ 29); exact K0|]. split; [exact C|]. split; [exact Ef|].
  split; [|exact Ev]. intros W. rewrite (verify_wf m' W) in Ev. discriminate.
Qed.

Lemma valid_pos {N : Num} (m : mesh N) v p : Valid m -> Valid (set_v_pos v p m).
Proof. intros [[] A B C]. split; [split; assumption|exact A|exact B|exact C]. Qed.

Lemma collapse_nan_refuted : exists (m : mesh NF) he, Valid m /\ In he (m_hes m) /\ collapseHE (Some he) m = Abort AAssert.
Proof.
  assert (C := nan_check acosF expF atan2F). apply with_ok in C as (m & E & C). split_and C. apply Nat.eqb_eq in C.
  exists (with_nan acosF expF atan2F m), (first_he acosF expF atan2F m). apply mesh_of_ok in E. destruct (construct_valid _ _ _ _ E) as [V _].
  assert (X : Valid (with_nan acosF expF atan2F m) /\ m_hes (with_nan acosF expF atan2F m) = m_hes m).
  { unfold with_nan. destruct (dst_of m _); [|auto]. split; [apply valid_pos, V|reflexivity]. }
  destruct X as [X Y]. split; [exact X|]. split; [apply (eq_ind (m_hes m) (fun l => In (first_he acosF expF atan2F m) l) (length_in (m_hes m) 0 37 C) _ (eq_sym Y))|].
  apply is_abort_ok in K. exact K.
Qed.

Lemma pinch_refuted : exists (ps : list (vec NF)) ix m he m', mesh_of ps ix = Ok m /\ Valid m /\ In he (m_hes m) /\
  (forall v, In v (m_verts m) -> gaps m v <= 1) /\ collapseHE (Some he) m = Ok (true, m') /\ exists v, In v (m_verts m') /\ gaps m' v = 2.
Proof.
  assert (C := pinch_check acosF expF atan2F). apply with_ok in C as (m & E & C). split_and C. apply Nat.eqb_eq in C.
  apply with_res_ok in K as (b & m' & Ef & K). apply andb_true_iff in K as [-> K].
  exists (ps_two acosF expF atan2F), ix_two, m, (first_he acosF expF atan2F m), m'. split; [exact E|]. split; [apply mesh_of_ok in E; apply (construct_valid _ _ _ _ E)|].
  split; [apply (length_in _ _ 37); exact C|]. split.
  - intros v Hv. rewrite forallb_forall in K0. apply Nat.leb_le, K0, Hv.
  - split; [exact Ef|]. apply existsb_exists in K as (v & Hv & X). exists v. apply Nat.eqb_eq in X. auto.
Qed.

Lemma collapseFace_refuted : exists (ps : list (vec NF)) ix m f m', mesh_of ps ix = Ok m /\ Valid m /\ In f (m_faces m) /\
  collapseFace (Some f) m = Ok (false, m') /\ length (m_faces m') < length (m_faces m).
Proof.
  assert (C := face_check acosF expF atan2F). apply with_ok in C as (m & E & C). split_and C. apply Nat.eqb_eq in C, K1.
  apply with_res_ok in K as (b & m' & Ef & K). apply andb_true_iff in K as [Kb K]. destruct b; [discriminate|]. apply Nat.eqb_eq in K.
  exists (ps_two acosF expF atan2F), ix_two, m, (first_face acosF expF atan2F m), m'. split; [exact E|]. split; [apply mesh_of_ok in E; apply (construct_valid _ _ _ _ E)|].
  split; [apply (length_in _ _ 10); exact K1|]. split; [exact Ef|]. rewrite K, K1. lia.
Qed.

Lemma verify_refuted : exists m : mesh NF, verify m = Ok (true, m) /\ ~ WF m.
Proof.
  assert (C := verify_check acosF expF atan2F). apply with_ok in C as (m & E & C). cbv zeta in C. set (m' := wrong_face acosF expF atan2F m) in *.
  split_and C. apply is_true_ok in C as (m2 & Ev). exists m'.
  assert (m2 = m') by (exact (verify_ro m' true m2 Ev)). subst m2. split; [exact Ev|]. intros W. apply Nat.eqb_eq in K0.
  assert (I := length_in (m_hes m') 0 11 K0). destruct (h_next m' (first_he acosF expF atan2F m')) as [n|] eqn:En; [|discriminate].
  rewrite (wf_face_next m' W _ n I En) in K. apply negb_true_iff in K. rewrite (proj2 (ptr_eqb_eq _ _) eq_refl) in K. discriminate.
Qed.

Lemma single_refuted : exists (ps : list (vec NF)) m m', mesh_of ps [0; 1; 2] = Ok m /\ length (m_faces m) = 2 /\
  getVertexIndices m = Ok ([], m) /\ clone m = Ok m' /\ m_verts m' = [] /\ m_faces m' = [].
Proof.
  assert (C := single_check acosF expF atan2F). apply with_ok in C as (m & E & C). split_and C. apply Nat.eqb_eq in C. apply with_ok in K as (m' & E' & K). split_and K.
  apply Nat.eqb_eq in K, K1. exists (ps3 acosF expF atan2F), m, m'. split; [exact E|]. split; [exact C|]. split; [|split; [exact E'|]].
  - assert (Bu : exists A, Built m A) by (apply mesh_of_ok in E; destruct (construct_built _ _ _ _ E) as (? & ? & ? & ? & A & _ & _ & _ & _ & _ & _ & _ & B & _); exists A; exact B).
    destruct Bu as (A & B). destruct (built_indices m A B) as (l & Ei & _). apply with_res_ok in K0 as (l' & m2 & Ei' & K0). rewrite Ei in Ei'. injection Ei' as <- <-. rewrite Ei. destruct (map Z.of_nat l); [reflexivity|discriminate].
  - split; apply length_zero_iff_nil; assumption.
Qed.
End Refute.

(** ** Gaps under collapseHE *)
Section Gaps.
Context {N : Num}.
Implicit Types m : mesh N.

Lemma filter_le {X} (p q : X -> bool) l : (forall x, In x l -> p x = true -> q x = true) -> length (filter p l) <= length (filter q l).
Proof.
  induction l as [|x l IH]; intros H; [reflexivity|]. cbn [filter]. specialize (IH (fun y Hy => H y (or_intror Hy))).
  destruct (p x) eqn:P; [rewrite (H x (or_introl eq_refl) P); cbn [length]; lia|]. destruct (q x); cbn [length]; lia.
Qed.
Lemma filter_or {X} (p q : X -> bool) l : length (filter (fun x => p x || q x) l) <= length (filter p l) + length (filter q l).
Proof. induction l as [|x l IH]; [cbn; lia|]. cbn [filter]. destruct (p x), (q x); cbn [orb length]; lia. Qed.
Lemma nodup_filter_incl (l l' : list nat) p q : NoDup l -> (forall x, In x l -> p x = true -> In x l' /\ q x = true) ->
  length (filter p l) <= length (filter q l').
Proof.
  intros Nd H. apply NoDup_incl_length; [apply NoDup_filter, Nd|]. intros x Hx. apply filter_In in Hx as [H1 H2]. apply filter_In. exact (H x H1 H2).
Qed.

Lemma collapse_gaps m m' he u0 u1 u2 u3 f0 f1 : Valid m -> Valid m' -> CollapseEffect m m' he u0 u1 u2 u3 f0 f1 ->
  gaps m' u0 <= gaps m u0 + gaps m u2 /\ forall v, v <> u0 -> gaps m' v <= gaps m v.
Proof.
  intros V V' E. assert (W := valid_wf m V). assert (W' := valid_wf m' V').
  assert (Hole : forall h, In h (m_hes m') -> on_hole m' h = true -> on_hole m h = true).
  { intros h Hh H. unfold on_hole in *. rewrite forallb_forall in *. intros k Hk.
    destruct (ce_next _ _ _ _ _ _ _ _ _ E h Hh) as (_ & Fh & _). assert (Hh' := Hh). apply (ce_hes _ _ _ _ _ _ _ _ _ E) in Hh' as (_ & N0 & N1).
    destruct (ptr_eqb (h_face m k) (h_face m h)) eqn:Ek; [|reflexivity]. apply ptr_eqb_eq in Ek.
    assert (Hk' : In k (m_hes m')) by (apply (ce_hes _ _ _ _ _ _ _ _ _ E); rewrite Ek; auto).
    destruct (ce_next _ _ _ _ _ _ _ _ _ E k Hk') as (_ & Fk & Bk). specialize (H k Hk'). rewrite Fk, Bk, Fh, Ek, (proj2 (ptr_eqb_eq _ _) eq_refl) in H. exact H. }
  assert (Src : forall h v, In h (m_hes m') -> h_src m' h = Some v -> exists w, h_src m h = Some w /\ v = merge u0 u2 w).
  { intros h v Hh Hs. apply (ce_src _ _ _ _ _ _ _ _ _ E h v Hh). exact Hs. }
  assert (In' : forall h, In h (m_hes m') -> In h (m_hes m)) by (intros h Hh; apply (ce_hes _ _ _ _ _ _ _ _ _ E) in Hh; tauto).
  split.
  - unfold gaps. transitivity (length (filter (fun h => (ptr_eqb (h_src m h) (Some u0) && on_hole m h) || (ptr_eqb (h_src m h) (Some u2) && on_hole m h)) (m_hes m))).
    + apply nodup_filter_incl; [exact (wf_h_nodup m' W')|]. intros h Hh H. apply andb_true_iff in H as [H1 H2]. apply ptr_eqb_eq in H1.
      split; [exact (In' h Hh)|]. rewrite (Hole h Hh H2), !andb_true_r. destruct (Src h u0 Hh H1) as (w & Hw & Ew). rewrite Hw. unfold merge in Ew.
      destruct (Nat.eqb_spec w u2) as [->|Nw]; [rewrite (proj2 (ptr_eqb_eq (Some u2) (Some u2)) eq_refl); apply orb_true_r|].
      subst w. rewrite (proj2 (ptr_eqb_eq (Some u0) (Some u0)) eq_refl). reflexivity.
    + apply (filter_or (fun h => ptr_eqb (h_src m h) (Some u0) && on_hole m h) (fun h => ptr_eqb (h_src m h) (Some u2) && on_hole m h)).
  - intros v Nv. unfold gaps. apply nodup_filter_incl; [exact (wf_h_nodup m' W')|]. intros h Hh H. apply andb_true_iff in H as [H1 H2]. apply ptr_eqb_eq in H1.
    split; [exact (In' h Hh)|]. rewrite (Hole h Hh H2), andb_true_r. destruct (Src h v Hh H1) as (w & Hw & Ew). rewrite Hw. unfold merge in Ew.
    apply ptr_eqb_eq. destruct (Nat.eqb_spec w u2) as [->|Nw]; congruence.
Qed.
End Gaps.
