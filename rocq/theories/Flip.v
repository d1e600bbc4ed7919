(** Proofs about flipHE on an edge between two triangles. *)
From Coq Require Import List ZArith Arith Lia Bool.
From Verif Require Import Num Vec Heap Mesh Spec Orbit Rings Exec Diamond.
Import ListNotations.
Local Open Scope mesh_scope.

Section Flip.
Context {N : Num}.
Variables (m : mesh N) (he rev he0 he1 he2 he3 u0 u1 u2 u3 f0 f1 : nat).
Hypothesis W : WF m.
Hypothesis D : Diamond m he rev he0 he1 he2 he3 u0 u1 u2 u3 f0 f1.

(** The state flipHE ends in when it returns true. *)
Definition flip_state : mesh N :=
  set_h_face he3 (Some f1) (set_h_face he0 (Some f1) (set_h_face rev (Some f1) (set_f_he f1 (Some rev)
  (set_h_face he2 (Some f0) (set_h_face he1 (Some f0) (set_h_face he (Some f0) (set_f_he f0 (Some he)
  (set_h_next he0 (Some rev) (set_h_next he3 (Some he0) (set_h_next rev (Some he3)
  (set_h_next he2 (Some he) (set_h_next he1 (Some he2) (set_h_next he (Some he1)
  (set_h_src rev (Some u1) (set_h_src he (Some u3)
  (set_v_he u0 (Some he2) (set_v_he u2 (Some he0) m))))))))))))))))).

(** Is some neighbour of u1 equal to u3? *)
Definition connected (a b : nat) : Prop :=
  exists y, In y (m_hes m) /\ h_src m y = Some a /\ dst_of m y = Some b.

Lemma flip_exec :
  exists b m', flipHE (Some he) m = Ok (b, m') /\
  (b = false -> m' = m /\ (deg_of m u0 <= 4 \/ deg_of m u2 <= 4 \/ connected u1 u3)) /\
  (b = true -> m' = flip_state /\ 4 < deg_of m u0 /\ 4 < deg_of m u2 /\ ~ connected u1 u3).
Proof.
  destruct D as [I Ir I0 I1 I2 I3 V0 V1 V2 V3 G0 G1 R Rr Nh N0 N1 Nr N2 N3 S S0 S1 Sr S2 S3 F F0 F1 Fr F2 F3 ND UN FN].
  pose proof (h_alive m W _ I) as L. pose proof (h_alive m W _ Ir) as Lr. pose proof (h_alive m W _ I0) as L0.
  pose proof (h_alive m W _ I1) as L1. pose proof (h_alive m W _ I2) as L2. pose proof (h_alive m W _ I3) as L3.
  pose proof (v_alive m W _ V0) as A0. pose proof (v_alive m W _ V1) as A1. pose proof (v_alive m W _ V2) as A2.
  pose proof (v_alive m W _ V3) as A3. pose proof (f_alive m W _ G0) as B0. pose proof (f_alive m W _ G1) as B1.
  destruct (he_prev_ok m W he I) as (p & Ep & Ip & Np).
  assert (p = he1) by (eapply (next_inj m W); eassumption); subst p.
  destruct (he_prev_ok m W rev Ir) as (p & Ep' & Ip' & Np').
  assert (p = he3) by (eapply (next_inj m W); eassumption); subst p.
  destruct (vring m W u1 V1) as (h & l & Eh & Hr).
  pose (c := existsb (fun y => ptr_eqb (dst_of m y) (Some u3)) (h :: l)).
  assert (Ec : circ_v (Some u1) false
     (fun (_ : bool) it => d <- he_dst it ;; ret (if ptr_eqb d (Some u3) then (true, true) else (false, false))) m = Ok (c, m)).
  { rewrite (circ_v_ok m W u1 h l _ (fun _ y => if ptr_eqb (dst_of m y) (Some u3) then (true, true) else (false, false)) _ V1 Eh Hr).
    - rewrite bfold_exists; reflexivity.
    - intros y a Hi _. rewrite (bind_ok _ _ _ _ _ (dst_of_ok m W _ Hi)).
      destruct (ptr_eqb (dst_of m y) (Some u3)); reflexivity. }
  assert (Hc : c = false -> ~ connected u1 u3).
  { intros Hf (y & Iy & Sy & Dy). destruct Hr as (_ & _ & Hin).
    assert (In y (h :: l)) by (apply Hin; split; assumption).
    unfold c in Hf. assert (X : existsb (fun y => ptr_eqb (dst_of m y) (Some u3)) (h :: l) = true).
    { apply existsb_exists. exists y; split; [assumption|]. apply ptr_eqb_eq; exact Dy. }
    congruence. }
  assert (Hc' : c = true -> connected u1 u3).
  { intros Hf. unfold c in Hf. apply existsb_exists in Hf as (y & Hy & Dy). apply Hr in Hy as [Iy Sy].
    apply ptr_eqb_eq in Dy. exists y; auto. }
  destruct (Nat.le_gt_cases (deg_of m u0) 4) as [C0|C0].
  { exists false, m. split; [|split; [auto|discriminate]].
    unfold flipHE. mstep. rewrite R. mstep. rewrite S. rewrite (bind_ok _ _ _ _ _ Ep). mstep. rewrite S1.
    mstep. rewrite Sr. rewrite (bind_ok _ _ _ _ _ Ep'). mstep. rewrite S3.
    rewrite (bind_ok _ _ _ _ _ (deg_ok m u0 W V0)).
    replace (Z.of_nat (deg_of m u0) <=? 4)%Z with true by (symmetry; apply Z.leb_le; lia). reflexivity. }
  destruct (Nat.le_gt_cases (deg_of m u2) 4) as [C2|C2].
  { exists false, m. split; [|split; [auto|discriminate]].
    unfold flipHE. mstep. rewrite R. mstep. rewrite S. rewrite (bind_ok _ _ _ _ _ Ep). mstep. rewrite S1.
    mstep. rewrite Sr. rewrite (bind_ok _ _ _ _ _ Ep'). mstep. rewrite S3.
    rewrite (bind_ok _ _ _ _ _ (deg_ok m u0 W V0)).
    replace (Z.of_nat (deg_of m u0) <=? 4)%Z with false by (symmetry; apply Z.leb_gt; lia).
    rewrite (bind_ok _ _ _ _ _ (deg_ok m u2 W V2)).
    replace (Z.of_nat (deg_of m u2) <=? 4)%Z with true by (symmetry; apply Z.leb_le; lia). reflexivity. }
  exists (negb c), (if c then m else flip_state).
  split; [|destruct c; split; try discriminate; auto; repeat split; auto].
  unfold flipHE. mstep. rewrite R. mstep. rewrite S. rewrite (bind_ok _ _ _ _ _ Ep). mstep. rewrite S1.
  mstep. rewrite Sr. rewrite (bind_ok _ _ _ _ _ Ep'). mstep. rewrite S3.
  rewrite (bind_ok _ _ _ _ _ (deg_ok m u0 W V0)).
  replace (Z.of_nat (deg_of m u0) <=? 4)%Z with false by (symmetry; apply Z.leb_gt; lia).
  rewrite (bind_ok _ _ _ _ _ (deg_ok m u2 W V2)).
  replace (Z.of_nat (deg_of m u2) <=? 4)%Z with false by (symmetry; apply Z.leb_gt; lia).
  cbn [orb]. rewrite (bind_ok _ _ _ _ _ Ec). destruct c; [reflexivity|].
  mstep. rewrite Nh. mstep. rewrite N0. mstep. rewrite Nr. mstep. rewrite N2.
  mstep. rewrite S0. mstep. rewrite S1. mstep. rewrite S2. mstep. rewrite S3. mstep. rewrite F. mstep. rewrite Fr.
  repeat mstep. reflexivity.
Qed.

(** *** The new fields *)
Notation m' := flip_state.

Hypothesis NL : NoLoops m.
Hypothesis NP : NoParallel m.
Hypothesis TF : TriFaces m.
Hypothesis C0 : 4 < deg_of m u0.
Hypothesis C2 : 4 < deg_of m u2.
Hypothesis NC : ~ connected u1 u3.

Lemma u13 : u1 <> u3.
Proof. eapply diamond_u13; [exact W|exact NP|exact D|lia]. Qed.

Ltac start := destruct D as [I Ir I0 I1 I2 I3 V0 V1 V2 V3 G0 G1 R Rr Nh N0 N1 Nr N2 N3 S S0 S1 Sr S2 S3 F F0 F1 Fr F2 F3 ND UN FN];
  apply nodup6 in ND; destruct ND as (? & ? & ? & ? & ? & ? & ? & ? & ? & ? & ? & ? & ? & ? & ?);
  destruct UN as (? & ? & ? & ? & ?).

Definition other (y : nat) : Prop := y <> he /\ y <> he0 /\ y <> he1 /\ y <> rev /\ y <> he2 /\ y <> he3.

Lemma classify y : y = he \/ y = he0 \/ y = he1 \/ y = rev \/ y = he2 \/ y = he3 \/ other y.
Proof. unfold other; lia. Qed.

Lemma n_he : h_next m' he = Some he1. Proof. start; unfold flip_state; flds; fu; reflexivity. Qed.
Lemma n_he1 : h_next m' he1 = Some he2. Proof. start; unfold flip_state; flds; fu; reflexivity. Qed.
Lemma n_he2 : h_next m' he2 = Some he. Proof. start; unfold flip_state; flds; fu; reflexivity. Qed.
Lemma n_rev : h_next m' rev = Some he3. Proof. start; unfold flip_state; flds; fu; reflexivity. Qed.
Lemma n_he3 : h_next m' he3 = Some he0. Proof. start; unfold flip_state; flds; fu; reflexivity. Qed.
Lemma n_he0 : h_next m' he0 = Some rev. Proof. start; unfold flip_state; flds; fu; reflexivity. Qed.
Lemma n_oth y : other y -> h_next m' y = h_next m y.
Proof. intros (? & ? & ? & ? & ? & ?); unfold flip_state; flds; fu; reflexivity. Qed.
Lemma s_he : h_src m' he = Some u3. Proof. start; unfold flip_state; flds; fu; reflexivity. Qed.
Lemma s_rev : h_src m' rev = Some u1. Proof. start; unfold flip_state; flds; fu; reflexivity. Qed.
Lemma s_oth y : y <> he -> y <> rev -> h_src m' y = h_src m y.
Proof. intros; unfold flip_state; flds; fu; reflexivity. Qed.
Lemma r_all y : h_rev m' y = h_rev m y. Proof. reflexivity. Qed.
Lemma f_he_ : h_face m' he = Some f0. Proof. start; unfold flip_state; flds; fu; reflexivity. Qed.
Lemma f_he1 : h_face m' he1 = Some f0. Proof. start; unfold flip_state; flds; fu; reflexivity. Qed.
Lemma f_he2 : h_face m' he2 = Some f0. Proof. start; unfold flip_state; flds; fu; reflexivity. Qed.
Lemma f_rev : h_face m' rev = Some f1. Proof. start; unfold flip_state; flds; fu; reflexivity. Qed.
Lemma f_he3 : h_face m' he3 = Some f1. Proof. start; unfold flip_state; flds; fu; reflexivity. Qed.
Lemma f_he0 : h_face m' he0 = Some f1. Proof. start; unfold flip_state; flds; fu; reflexivity. Qed.
Lemma f_oth y : other y -> h_face m' y = h_face m y.
Proof. intros (? & ? & ? & ? & ? & ?); unfold flip_state; flds; fu; reflexivity. Qed.

(** The successor of an unaffected half-edge is unaffected. *)
Lemma next_other y n : In y (m_hes m) -> other y -> h_next m y = Some n -> other n.
Proof.
  start. intros Hi (? & ? & ? & ? & ? & ?) Hn.
  assert (X : forall a b, In a (m_hes m) -> h_next m a = Some b -> y <> a -> n <> b).
  { intros a b Ha Hb Hne ->. apply Hne. eapply (next_inj m W); eassumption. }
  unfold other. repeat split; [apply (X he1)|apply (X he)|apply (X he0)|apply (X he3)|apply (X rev)|apply (X he2)]; auto.
Qed.

Definition rot_image (x : nat) : nat :=
  if x =? he then he2 else if x =? rev then he0 else if x =? he1 then rev else if x =? he3 then he else x.

Lemma rot_he : rot m' he = Some he3.
Proof. start. unfold rot. rewrite r_all, R. apply n_rev. Qed.
Lemma rot_rev : rot m' rev = Some he1.
Proof. start. unfold rot. rewrite r_all, Rr. apply n_he. Qed.
Lemma rot_oth y x : In y (m_hes m) -> y <> he -> y <> rev -> rot m y = Some x -> rot m' y = Some (rot_image x).
Proof.
  start. intros Hi A B Hx. destruct (rot_some m W _ Hi) as (r & n & Er & En & E & Jr & Jn).
  assert (n = x) by congruence; subst n.
  unfold rot. rewrite r_all, Er.
  assert (r <> he) by (intros ->; apply B; eapply (rev_inj m W); eassumption).
  assert (r <> rev) by (intros ->; apply A; eapply (rev_inj m W); eassumption).
  unfold rot_image.
  destruct (classify r) as [X|[X|[X|[X|[X|[X|X]]]]]]; try contradiction; try subst r.
  - rewrite n_he0. assert (x = he1) by congruence; subst x.
    repeat match goal with |- context [?a =? ?b] => destruct (Nat.eqb_spec a b); try congruence end.
  - rewrite n_he1. assert (x = he) by congruence; subst x.
    repeat match goal with |- context [?a =? ?b] => destruct (Nat.eqb_spec a b); try congruence end.
  - rewrite n_he2. assert (x = he3) by congruence; subst x.
    repeat match goal with |- context [?a =? ?b] => destruct (Nat.eqb_spec a b); try congruence end.
  - rewrite n_he3. assert (x = rev) by congruence; subst x.
    repeat match goal with |- context [?a =? ?b] => destruct (Nat.eqb_spec a b); try congruence end.
  - pose proof (next_other _ _ Jr X En) as (? & ? & ? & ? & ? & ?).
    rewrite (n_oth _ X), En.
    repeat match goal with |- context [?a =? ?b] => destruct (Nat.eqb_spec a b); try congruence end.
Qed.

(** *** Vertex rings *)
Lemma vrings' v : In v (m_verts m) ->
  exists l, cyc (rot m') l /\ forall y, In y (m_hes m) -> h_src m' y = Some v -> In y l.
Proof.
  intros Hv.
  assert (U13 := u13).
  destruct (Nat.eq_dec v u0) as [->|E0]; [|destruct (Nat.eq_dec v u2) as [->|E2]].
  - start. destruct (vring_at m W he u0 I S) as (l & Hc & Hnd & Hin).
    inversion Hnd as [|? ? Hn1 Hn2]; subst.
    assert (J2 : In he2 l).
    { assert (In he2 (he :: l)) as [E|E] by (apply Hin; split; assumption); [congruence|exact E]. }
    exists l; split.
    + assert (Hrh : rot m he = Some he2) by (unfold rot; rewrite R; exact Nr).
      assert (K : forall y, In y l -> In y (m_hes m) /\ y <> he /\ y <> rev).
      { intros y Hy. assert (X : In y (he :: l)) by (right; exact Hy). apply Hin in X as [A B].
        repeat split; [exact A|intros ->; contradiction|congruence]. }
      apply (cyc_drop (rot m) (rot m') he l Hc Hnd).
      * intros ->; exact J2.
      * intros y Hy E. destruct (K y Hy) as (A & B & C).
        rewrite (rot_oth y he A B C E), Hrh. unfold rot_image; rewrite Nat.eqb_refl; reflexivity.
      * intros y Hy E. destruct (K y Hy) as (A & B & C).
        destruct (rot_some m W _ A) as (r & x & Er & En & Ex & Jr & Jx).
        rewrite (rot_oth y x A B C Ex), Ex. f_equal.
        assert (Sx : h_src m x = Some u0).
        { rewrite (rot_src m W _ _ A Ex). apply Hin; right; exact Hy. }
        unfold rot_image. destruct (Nat.eqb_spec x he); [congruence|].
        destruct (Nat.eqb_spec x rev); [congruence|]. destruct (Nat.eqb_spec x he1); [congruence|].
        destruct (Nat.eqb_spec x he3); [congruence|]. reflexivity.
    + intros y Hy Sy.
      destruct (Nat.eq_dec y he) as [->|E1]; [rewrite s_he in Sy; congruence|].
      destruct (Nat.eq_dec y rev) as [->|E2]; [rewrite s_rev in Sy; congruence|].
      rewrite s_oth in Sy by assumption.
      assert (In y (he :: l)) as [E|E] by (apply Hin; split; assumption); [congruence|exact E].
  - start. destruct (vring_at m W rev u2 Ir Sr) as (l & Hc & Hnd & Hin).
    inversion Hnd as [|? ? Hn1 Hn2]; subst.
    assert (J2 : In he0 l).
    { assert (In he0 (rev :: l)) as [E|E] by (apply Hin; split; assumption); [congruence|exact E]. }
    exists l; split.
    + assert (Hrh : rot m rev = Some he0) by (unfold rot; rewrite Rr; exact Nh).
      assert (K : forall y, In y l -> In y (m_hes m) /\ y <> he /\ y <> rev).
      { intros y Hy. assert (X : In y (rev :: l)) by (right; exact Hy). apply Hin in X as [A B].
        repeat split; [exact A|congruence|intros ->; contradiction]. }
      apply (cyc_drop (rot m) (rot m') rev l Hc Hnd).
      * intros ->; exact J2.
      * intros y Hy E. destruct (K y Hy) as (A & B & C).
        rewrite (rot_oth y rev A B C E), Hrh. unfold rot_image.
        destruct (Nat.eqb_spec rev he); [congruence|]. rewrite Nat.eqb_refl; reflexivity.
      * intros y Hy E. destruct (K y Hy) as (A & B & C).
        destruct (rot_some m W _ A) as (r & x & Er & En & Ex & Jr & Jx).
        rewrite (rot_oth y x A B C Ex), Ex. f_equal.
        assert (Sx : h_src m x = Some u2).
        { rewrite (rot_src m W _ _ A Ex). apply Hin; right; exact Hy. }
        unfold rot_image. destruct (Nat.eqb_spec x he); [congruence|].
        destruct (Nat.eqb_spec x rev); [congruence|]. destruct (Nat.eqb_spec x he1); [congruence|].
        destruct (Nat.eqb_spec x he3); [congruence|]. reflexivity.
    + intros y Hy Sy.
      destruct (Nat.eq_dec y he) as [->|E1]; [rewrite s_he in Sy; congruence|].
      destruct (Nat.eq_dec y rev) as [->|E2]; [rewrite s_rev in Sy; congruence|].
      rewrite s_oth in Sy by assumption.
      assert (In y (rev :: l)) as [E|E] by (apply Hin; split; assumption); [congruence|exact E].
  - start. destruct (vring m W v Hv) as (h & l & Eh & Hc & Hnd & Hin).
    pose (sub := fun y => if y =? he1 then [rev; he1] else if y =? he3 then [he; he3] else [y]).
    exists (flat_map sub (h :: l)); split.
    + apply (cyc_subst (rot m) (rot m') sub (h :: l)); [| |exact Hc].
      * intros a _. unfold sub. destruct (a =? he1); [eauto|]. destruct (a =? he3); eauto.
      * intros a b p t p' t' Ha Hb Hab Ea Eb.
        apply Hin in Ha as [Ja Sa]. apply Hin in Hb as [Jb Sb].
        assert (Aa : a <> he) by congruence. assert (Ba : a <> rev) by congruence.
        pose proof (rot_oth a b Ja Aa Ba Hab) as Hrot.
        assert (Ep : p' = rot_image b).
        { unfold sub in Eb. unfold rot_image.
          destruct (Nat.eqb_spec b he); [congruence|]. destruct (Nat.eqb_spec b rev); [congruence|].
          destruct (Nat.eqb_spec b he1); [congruence|]. destruct (Nat.eqb_spec b he3); congruence. }
        rewrite Ep. unfold sub in Ea.
        destruct (Nat.eqb_spec a he1) as [->|].
        -- injection Ea as <- <-. split; [apply rot_rev|exact Hrot].
        -- destruct (Nat.eqb_spec a he3) as [->|].
           ++ injection Ea as <- <-. split; [apply rot_he|exact Hrot].
           ++ injection Ea as <- <-. exact Hrot.
    + intros y Hy Sy. apply in_flat_map.
      destruct (Nat.eq_dec y he) as [->|E1'].
      { exists he3. rewrite s_he in Sy. split; [apply Hin; split; congruence|].
        unfold sub. destruct (Nat.eqb_spec he3 he1); [congruence|]. rewrite Nat.eqb_refl; left; reflexivity. }
      destruct (Nat.eq_dec y rev) as [->|E2'].
      { exists he1. rewrite s_rev in Sy. split; [apply Hin; split; congruence|].
        unfold sub. rewrite Nat.eqb_refl; left; reflexivity. }
      rewrite s_oth in Sy by assumption.
      exists y; split; [apply Hin; split; assumption|].
      unfold sub. destruct (Nat.eqb_spec y he1); [subst; simpl; auto|]. destruct (Nat.eqb_spec y he3); [subst; simpl; auto|]. simpl; auto.
Qed.

Lemma cyc_f0 : cyc (h_next m') [he; he1; he2].
Proof. cbn [cyc chainto]. rewrite n_he, n_he1, n_he2; auto. Qed.
Lemma cyc_f1 : cyc (h_next m') [rev; he3; he0].
Proof. cbn [cyc chainto]. rewrite n_rev, n_he3, n_he0; auto. Qed.

Lemma other_face y : In y (m_hes m) -> (other y <-> h_face m y <> Some f0 /\ h_face m y <> Some f1).
Proof.
  intros Hy; split.
  - intros (? & ? & ? & ? & ? & ?). split; intros E.
    + destruct (diamond_f0 _ _ _ _ _ _ _ _ _ _ _ _ _ y W D Hy E) as [|[|]]; contradiction.
    + destruct (diamond_f1 _ _ _ _ _ _ _ _ _ _ _ _ _ y W D Hy E) as [|[|]]; contradiction.
  - start. intros [A B]. unfold other. repeat split; intros ->; congruence.
Qed.

Lemma frings' f : In f (m_faces m) ->
  exists l, cyc (h_next m') l /\ forall y, In y (m_hes m) -> h_face m' y = Some f -> In y l.
Proof.
  intros Hf.
  assert (K : forall y, In y (m_hes m) -> other y -> h_face m' y <> Some f0 /\ h_face m' y <> Some f1).
  { intros y Hy Ho. rewrite (f_oth _ Ho). apply other_face; assumption. }
  destruct (Nat.eq_dec f f0) as [->|E0]; [|destruct (Nat.eq_dec f f1) as [->|E1]].
  - exists [he; he1; he2]; split; [apply cyc_f0|]. intros y Hy Fy. assert (FN := d_fneq _ _ _ _ _ _ _ _ _ _ _ _ _ D).
    destruct (classify y) as [X|[X|[X|[X|[X|[X|X]]]]]]; try subst y; simpl; auto.
    + rewrite f_he0 in Fy; congruence.
    + rewrite f_rev in Fy; congruence.
    + rewrite f_he3 in Fy; congruence.
    + destruct (K y Hy X); contradiction.
  - exists [rev; he3; he0]; split; [apply cyc_f1|]. intros y Hy Fy. assert (FN := d_fneq _ _ _ _ _ _ _ _ _ _ _ _ _ D).
    destruct (classify y) as [X|[X|[X|[X|[X|[X|X]]]]]]; try subst y; simpl; auto.
    + rewrite f_he_ in Fy; congruence.
    + rewrite f_he1 in Fy; congruence.
    + rewrite f_he2 in Fy; congruence.
    + destruct (K y Hy X); contradiction.
  - destruct (fring m W f Hf) as (h & l & Eh & Hc & Hnd & Hin).
    exists (h :: l); split.
    + apply (cyc_ext (h_next m)); [|exact Hc]. intros a Ha. apply Hin in Ha as [Ja Fa].
      symmetry; apply n_oth. apply other_face; [exact Ja|]. split; congruence.
    + intros y Hy Fy. apply Hin. split; [exact Hy|].
      destruct (classify y) as [X|[X|[X|[X|[X|[X|X]]]]]]; try subst y.
      * rewrite f_he_ in Fy; congruence.
      * rewrite f_he0 in Fy; congruence.
      * rewrite f_he1 in Fy; congruence.
      * rewrite f_rev in Fy; congruence.
      * rewrite f_he2 in Fy; congruence.
      * rewrite f_he3 in Fy; congruence.
      * rewrite f_oth in Fy; assumption.
Qed.

(** Every vertex keeps a half-edge. *)
Lemma vhe' v : In v (m_verts m) -> exists h, v_he m' v = Some h /\ In h (m_hes m) /\ h_src m' h = Some v.
Proof.
  start. intros Hv. unfold flip_state; flds.
  destruct (Nat.eq_dec v u0) as [->|E0].
  { exists he2. rewrite fupd_same. repeat split; auto. fu. exact S2. }
  rewrite fupd_other by assumption. destruct (Nat.eq_dec v u2) as [->|E2].
  { exists he0. rewrite fupd_same. repeat split; auto. fu. exact S0. }
  rewrite fupd_other by assumption. destruct (wf_vhe m W v Hv) as (h & Eh & Jh & Sh).
  exists h. repeat split; auto. rewrite !fupd_other by congruence. exact Sh.
Qed.

Lemma fhe' f : In f (m_faces m) -> exists h, f_he m' f = Some h /\ In h (m_hes m) /\ h_face m' h = Some f.
Proof.
  intros Hf. destruct (Nat.eq_dec f f1) as [->|E1].
  { exists rev. split; [unfold flip_state; flds; fu; reflexivity|split; [apply D|apply f_rev]]. }
  destruct (Nat.eq_dec f f0) as [->|E0].
  { exists he. split; [unfold flip_state; flds; fu; reflexivity|split; [apply D|apply f_he_]]. }
  destruct (wf_fhe m W f Hf) as (h & Eh & Jh & Fh).
  exists h. split; [unfold flip_state; flds; fu; exact Eh|split; [exact Jh|]].
  rewrite f_oth; [exact Fh|]. apply other_face; [exact Jh|split; congruence].
Qed.

Lemma dst'_oth y : In y (m_hes m) -> y <> he -> y <> rev -> dst_of m' y = dst_of m y.
Proof.
  start. intros Hy A B. unfold dst_of. rewrite r_all. destruct (wf_rev m W _ Hy) as (r & Er & Jr). rewrite Er.
  apply s_oth; intros ->; [apply B|apply A]; eapply (rev_inj m W); eassumption.
Qed.
Lemma dst'_he : dst_of m' he = Some u1.
Proof. start. unfold dst_of. rewrite r_all, R. apply s_rev. Qed.
Lemma dst'_rev : dst_of m' rev = Some u3.
Proof. start. unfold dst_of. rewrite r_all, Rr. apply s_he. Qed.

Lemma flip_WF : WF m'.
Proof.
  assert (CL := classify).
  constructor.
  - apply (wf_v_nodup m W).
  - apply (wf_h_nodup m W).
  - apply (wf_f_nodup m W).
  - apply (wf_v_elem m W).
  - apply (wf_h_elem m W).
  - apply (wf_f_elem m W).
  - intros y Hy. change (m_hes m') with (m_hes m) in Hy. change (m_verts m') with (m_verts m).
    destruct (Nat.eq_dec y he) as [->|A]; [exists u3; split; [apply s_he|apply D]|].
    destruct (Nat.eq_dec y rev) as [->|B]; [exists u1; split; [apply s_rev|apply D]|].
    rewrite s_oth by assumption. apply (wf_src m W); exact Hy.
  - intros y Hy. change (m_hes m') with (m_hes m) in *.
    destruct (CL y) as [X|[X|[X|[X|[X|[X|X]]]]]]; try subst y.
    + exists he1; split; [apply n_he|apply D].
    + exists rev; split; [apply n_he0|apply D].
    + exists he2; split; [apply n_he1|apply D].
    + exists he3; split; [apply n_rev|apply D].
    + exists he; split; [apply n_he2|apply D].
    + exists he0; split; [apply n_he3|apply D].
    + rewrite n_oth by assumption. apply (wf_next m W); exact Hy.
  - apply (wf_rev m W).
  - intros y Hy. change (m_hes m') with (m_hes m) in *. change (m_faces m') with (m_faces m).
    destruct (CL y) as [X|[X|[X|[X|[X|[X|X]]]]]]; try subst y.
    + exists f0; split; [apply f_he_|apply D].
    + exists f1; split; [apply f_he0|apply D].
    + exists f0; split; [apply f_he1|apply D].
    + exists f1; split; [apply f_rev|apply D].
    + exists f0; split; [apply f_he2|apply D].
    + exists f1; split; [apply f_he3|apply D].
    + rewrite f_oth by assumption. apply (wf_face m W); exact Hy.
  - apply (wf_rev_invol m W).
  - (* next starts where the half-edge ends *)
    intros y n r Hy Hn Hr. change (m_hes m') with (m_hes m) in *. rewrite r_all in Hr.
    assert (E : h_src m' r = dst_of m' y) by (unfold dst_of; rewrite r_all, Hr; reflexivity). rewrite E.
    assert (O : forall a b, In a (m_hes m) -> h_next m a = Some b -> dst_of m a = h_src m b).
    { intros a b Ha Hb. unfold dst_of. destruct (wf_rev m W _ Ha) as (ra & Era & Ja). rewrite Era.
      symmetry; apply (wf_dst m W _ _ _ Ha Hb Era). }
    clear E Hr r. start.
    destruct (CL y) as [X|[X|[X|[X|[X|[X|X]]]]]]; try subst y.
    + rewrite n_he in Hn; injection Hn as <-. rewrite dst'_he, s_oth by auto. exact S1.
    + rewrite n_he0 in Hn; injection Hn as <-. rewrite s_rev, dst'_oth by auto. rewrite (O _ _ Hy N0); congruence.
    + rewrite n_he1 in Hn; injection Hn as <-. rewrite s_oth, dst'_oth by auto. rewrite (O _ _ Hy N1); congruence.
    + rewrite n_rev in Hn; injection Hn as <-. rewrite dst'_rev, s_oth by auto. exact S3.
    + rewrite n_he2 in Hn; injection Hn as <-. rewrite s_he, dst'_oth by auto. rewrite (O _ _ Hy N2); congruence.
    + rewrite n_he3 in Hn; injection Hn as <-. rewrite s_oth, dst'_oth by auto. rewrite (O _ _ Hy N3); congruence.
    + rewrite n_oth in Hn by assumption. pose proof (next_other _ _ Hy X Hn) as (? & ? & ? & ? & ? & ?).
      destruct X as (? & ? & ? & ? & ? & ?).
      rewrite s_oth, dst'_oth by auto. symmetry; apply O; assumption.
  - exact vhe'.
  - exact fhe'.
  - intros y n Hy Hn. change (m_hes m') with (m_hes m) in *.
    destruct (CL y) as [X|[X|[X|[X|[X|[X|X]]]]]]; try subst y.
    + rewrite n_he in Hn; injection Hn as <-. rewrite f_he_, f_he1; reflexivity.
    + rewrite n_he0 in Hn; injection Hn as <-. rewrite f_he0, f_rev; reflexivity.
    + rewrite n_he1 in Hn; injection Hn as <-. rewrite f_he1, f_he2; reflexivity.
    + rewrite n_rev in Hn; injection Hn as <-. rewrite f_he3, f_rev; reflexivity.
    + rewrite n_he2 in Hn; injection Hn as <-. rewrite f_he_, f_he2; reflexivity.
    + rewrite n_he3 in Hn; injection Hn as <-. rewrite f_he3, f_he0; reflexivity.
    + rewrite n_oth in Hn by assumption. pose proof (next_other _ _ Hy X Hn) as Y.
      rewrite !f_oth by assumption. apply (wf_face_next m W); assumption.
  - intros h h' Hh Hh' E. change (m_hes m') with (m_hes m) in *.
    assert (exists f, h_face m' h = Some f /\ In f (m_faces m)) as (f & Ef & Jf).
    { destruct (CL h) as [X|[X|[X|[X|[X|[X|X]]]]]]; try subst h.
      + exists f0; split; [apply f_he_|apply D].
      + exists f1; split; [apply f_he0|apply D].
      + exists f0; split; [apply f_he1|apply D].
      + exists f1; split; [apply f_rev|apply D].
      + exists f0; split; [apply f_he2|apply D].
      + exists f1; split; [apply f_he3|apply D].
      + rewrite f_oth by assumption. apply (wf_face m W); exact Hh. }
    destruct (frings' f Jf) as (l & Hc & Hl).
    eapply cyc_reaches; [exact Hc|apply Hl; assumption|apply Hl; [assumption|congruence]].
  - intros h h' Hh Hh' E. change (m_hes m') with (m_hes m) in *.
    assert (exists v, h_src m' h = Some v /\ In v (m_verts m)) as (v & Ev & Jv).
    { destruct (Nat.eq_dec h he) as [->|A]; [exists u3; split; [apply s_he|apply D]|].
      destruct (Nat.eq_dec h rev) as [->|B]; [exists u1; split; [apply s_rev|apply D]|].
      rewrite s_oth by assumption. apply (wf_src m W); exact Hh. }
    destruct (vrings' v Jv) as (l & Hc & Hl).
    eapply cyc_reaches; [exact Hc|apply Hl; assumption|apply Hl; [assumption|congruence]].
Qed.

Lemma flip_noloops : NoLoops m'.
Proof.
  assert (U := u13). intros y Hy. change (m_hes m') with (m_hes m) in Hy.
  destruct (Nat.eq_dec y he) as [->|A]; [rewrite dst'_he, s_he; congruence|].
  destruct (Nat.eq_dec y rev) as [->|B]; [rewrite dst'_rev, s_rev; congruence|].
  rewrite dst'_oth, s_oth by assumption. apply NL; exact Hy.
Qed.

Lemma not_connected_sym y : In y (m_hes m) -> h_src m y = Some u3 -> dst_of m y = Some u1 -> False.
Proof.
  intros Hy Sy Dy. destruct (wf_rev m W _ Hy) as (r & Er & Jr). apply NC. exists r. split; [exact Jr|].
  unfold dst_of in *. rewrite Er in Dy. rewrite (rev_rev m W _ _ Hy Er). auto.
Qed.

Lemma flip_noparallel : NoParallel m'.
Proof.
  assert (U := u13).
  assert (K1 : forall y, In y (m_hes m) -> y <> he -> y <> rev -> h_src m' y = Some u3 -> dst_of m' y = Some u1 -> False).
  { intros y Hy A B. rewrite s_oth, dst'_oth by assumption. apply not_connected_sym; exact Hy. }
  assert (K2 : forall y, In y (m_hes m) -> y <> he -> y <> rev -> h_src m' y = Some u1 -> dst_of m' y = Some u3 -> False).
  { intros y Hy A B. rewrite s_oth, dst'_oth by assumption. intros Sy Dy; apply NC; exists y; auto. }
  intros y z Hy Hz Es Ed. change (m_hes m') with (m_hes m) in *.
  destruct (Nat.eq_dec y he) as [->|A].
  - rewrite s_he, dst'_he in *. destruct (Nat.eq_dec z he) as [->|A']; [reflexivity|].
    destruct (Nat.eq_dec z rev) as [->|B']; [rewrite s_rev in Es; congruence|].
    exfalso; apply (K1 z); auto.
  - destruct (Nat.eq_dec y rev) as [->|B].
    + rewrite s_rev, dst'_rev in *. destruct (Nat.eq_dec z rev) as [->|B']; [reflexivity|].
      destruct (Nat.eq_dec z he) as [->|A']; [rewrite s_he in Es; congruence|].
      exfalso; apply (K2 z); auto.
    + destruct (Nat.eq_dec z he) as [->|A'].
      { rewrite s_he, dst'_he in *. exfalso; apply (K1 y); auto. }
      destruct (Nat.eq_dec z rev) as [->|B'].
      { rewrite s_rev, dst'_rev in *. exfalso; apply (K2 y); auto. }
      rewrite !s_oth in Es by assumption. rewrite !dst'_oth in Ed by assumption. apply NP; assumption.
Qed.

Lemma flip_tri : TriFaces m'.
Proof.
  intros y Hy B. change (m_hes m') with (m_hes m) in *. change (h_bd m' y) with (h_bd m y) in B.
  destruct (classify y) as [X|[X|[X|[X|[X|[X|X]]]]]]; try subst y; cbn [piter].
  - rewrite n_he, n_he1, n_he2; reflexivity.
  - rewrite n_he0, n_rev, n_he3; reflexivity.
  - rewrite n_he1, n_he2, n_he; reflexivity.
  - rewrite n_rev, n_he3, n_he0; reflexivity.
  - rewrite n_he2, n_he, n_he1; reflexivity.
  - rewrite n_he3, n_he0, n_rev; reflexivity.
  - pose proof (TF y Hy B) as T. destruct (piter3 _ _ T) as (a & b & E1 & E2 & E3).
    pose proof (next_other _ _ Hy X E1) as Xa. pose proof (next_in m W _ _ Hy E1) as Ja.
    pose proof (next_other _ _ Ja Xa E2) as Xb.
    rewrite (n_oth _ X), E1, (n_oth _ Xa), E2, (n_oth _ Xb), E3; reflexivity.
Qed.

Lemma flip_Valid : Valid m'.
Proof. constructor; [apply flip_WF|apply flip_noloops|apply flip_noparallel|apply flip_tri]. Qed.

End Flip.
