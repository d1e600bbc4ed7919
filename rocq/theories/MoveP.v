(** One step of the completed part towards its partners: proofs. *)
From Coq Require Import FunctionalExtensionality Reals Lra Lia List ZArith Bool Arith Permutation.
From Verif Require Import Num NumInst Vec Heap Mesh Spec Orbit Rings Exec Queries GeomSpec VecR Measure MeasureM SmoothSpec SmoothP Curv CurvN CurvW LinR TensorSpec TensorM LaplSpec Lapl LaplP LaplM CotPsd DerivSpec Feat FeatSpec FeatS FeatO Bvh Coherent PatchP SoftP MoveSpec.
Import ListNotations.
Local Open Scope mesh_scope.
Local Open Scope R_scope.
Implicit Types m : mesh NumR.

Section Move.
Variable m : mesh NumR.
Hypothesis V : Valid m.
Let W := valid_wf m V.
Let n := length (m_verts m).
Variable T : list (target NumR).
Hypothesis HT : forall t, In t T -> 0 <= g_dissim t /\ (forall z, In z (p_verts (g_patch t)) -> exists i, (i < n)%nat /\ z = Z.of_nat i) /\ forall q, exists c, bvh_closest (g_bvh t) q = Ok c.
Definition pow5 (x : R) : R := x ^ 5.
Local Notation pulled := (@Coherent.pulled NumR pow5).
Definition has (i : nat) (t : target NumR) : bool := if in_dec Z.eq_dec (Z.of_nat i) (p_verts (g_patch t)) then true else false.
Lemma has_existsb i t : existsb (Z.eqb (Z.of_nat i)) (p_verts (g_patch t)) = has i t.
Proof.
  unfold has. destruct (in_dec _ _ _) as [I|I].
  - apply existsb_exists. exists (Z.of_nat i). split; [exact I|apply Z.eqb_refl].
  - destruct (existsb _ _) eqn:E; [|reflexivity]. apply existsb_exists in E. destruct E as (x & Ix & Ex). apply Z.eqb_eq in Ex. subst x. contradiction.
Qed.
Lemma weight_pos t : In t T -> 0 < patch_weight t.
Proof. intros I. destruct (HT t I) as (D & _). unfold patch_weight. apply Rdiv_lt_0_compat; [lra|]. assert (0 <= g_dissim t ^ 5) by (apply pow_le, D). assert (0 < / 10 ^ 12) by (apply Rinv_0_lt_compat, pow_lt; lra). lra. Qed.
Definition wsum (cs : list (target NumR * vecR)) : R := fold_right Rplus 0 (map (fun tc => patch_weight (fst tc)) cs).
Definition psum (cs : list (target NumR * vecR)) : vecR := fold_right vadd vzero (map (fun tc => vscale (patch_weight (fst tc)) (snd tc)) cs).
Lemma pull_fold i (p : vecR) L : (forall t, In t L -> In t T) -> forall acc : vecR * R, exists cs,
  mfold (fun acc t => if existsb (Z.eqb (Z.of_nat i)) (p_verts (g_patch t)) then
           closest <- liftr (bvh_closest (g_bvh t) p) ;;
           let weight := weight_of (N := NumR) pow5 (g_dissim t) in
           ret (vadd (fst acc) (vscale weight closest), @nadd NumR (snd acc) weight)
         else ret acc) acc L m = Ok ((vadd (fst acc) (psum cs), snd acc + wsum cs), m) /\ map fst cs = filter (has i) L /\ forall t c, In (t, c) cs -> bvh_closest (g_bvh t) p = Ok c.
Proof.
  induction L as [|t L IH]; intros HL acc; cbn [mfold].
  - exists []. split; [unfold psum, wsum; cbn [map fold_right]; destruct acc as [a b]; cbn [fst snd]; rewrite Rplus_0_r; replace (vadd a vzero) with a by (symmetry; vring); reflexivity|]. split; [reflexivity|intros t c []].
  - rewrite has_existsb. cbn [filter]. destruct (has i t) eqn:H.
    + destruct (proj2 (proj2 (HT t (HL t (or_introl eq_refl)))) p) as (c & Ec). assert (El : liftr (bvh_closest (g_bvh t) p) m = Ok (c, m)) by (unfold liftr; rewrite Ec; reflexivity).
      set (acc' := (vadd (fst acc) (vscale (patch_weight t) c), snd acc + patch_weight t)). destruct (IH (fun u Hu => HL u (or_intror Hu)) acc') as (cs & E & F & G). exists ((t, c) :: cs). split; [|split; [cbn [map fst]; f_equal; exact F|]].
      * erewrite bind_ok; [|rewrite (bind_ok _ _ _ _ _ El); reflexivity]. etransitivity; [exact E|]. unfold acc', psum, wsum. cbn [map fold_right fst snd]. f_equal. f_equal. f_equal; [|lra]. rewrite vadd_assoc. reflexivity.
      * intros u d [Hu|Hu]; [injection Hu as <- <-; exact Ec|exact (G u d Hu)].
    + destruct (IH (fun u Hu => HL u (or_intror Hu)) acc) as (cs & E & F & G). exists cs. split; [exact E|]. auto.
Qed.
Lemma wsum_pos cs : (forall t c, In (t, c) cs -> In t T) -> 0 <= wsum cs /\ (cs <> [] -> 0 < wsum cs).
Proof.
  induction cs as [|[t c] cs IH]; intros H; unfold wsum; cbn [map fold_right fst]; [split; [lra|intros X; contradiction]|]. fold (wsum cs). destruct (IH (fun u d Hu => H u d (or_intror Hu))) as [A _]. assert (B := weight_pos t (H t c (or_introl eq_refl))). lra.
Qed.
Lemma pulled_run i : (i < n)%nat -> (exists t, In t T /\ covers t i) -> exists p, pulled T (Z.of_nat i) m = Ok (p, m) /\ PullsTo m T i (vat m i) p.
Proof.
  intros Hi (t0 & It0 & Ct0). unfold Coherent.pulled. rewrite (bind_ok _ _ _ _ _ (vertex_read m i Hi)), (bind_ok _ _ _ _ _ (r_pos m (vat m i) (v_alive m W _ (vat_in m i Hi)))). set (x := v_pos m (vat m i)).
  destruct (pull_fold i x T (fun t H => H) (vzero, 0)) as (cs & E & F & G). rewrite (bind_ok _ _ _ _ _ E). cbn [fst snd].
  assert (Hin : forall t c, In (t, c) cs -> In t T /\ covers t i).
  { intros t c I. assert (J : In t (filter (has i) T)) by (rewrite <- F; apply in_map_iff; exists (t, c); auto). apply filter_In in J. destruct J as [J K]. split; [exact J|]. unfold has in K. destruct (in_dec _ _ _) as [Z|Z]; [exact Z|discriminate]. }
  assert (Ne : cs <> []).
  { intros ->. assert (J : In t0 (filter (has i) T)) by (apply filter_In; split; [exact It0|unfold has; destruct (in_dec _ _ _) as [Z|Z]; [reflexivity|contradiction]]). rewrite <- F in J. destruct J. }
  destruct (wsum_pos cs (fun t c I => proj1 (Hin t c I))) as [_ P]. specialize (P Ne). replace (vadd vzero (psum cs)) with (psum cs) by (symmetry; generalize (psum cs); vring). rewrite Rplus_0_l. exists (vscale (/ wsum cs) (psum cs)). split.
  - unfold lift. rewrite (vdiv_ok (psum cs) (wsum cs)) by lra. reflexivity.
  - exists cs. split; [exact F|]. split; [exact Ne|]. split; [intros t c I; split; [exact (G t c I)|exact (weight_pos t (proj1 (Hin t c I)))]|]. fold (wsum cs). fold (psum cs). generalize (psum cs). intros [a b c]. unfold vscale. rn. f_equal; field; lra.
Qed.
Lemma pulls_unique i v p q : PullsTo m T i v p -> PullsTo m T i v q -> p = q.
Proof.
  intros (cs & F & Ne & G & E) (cs' & F' & Ne' & G' & E'). assert (X : cs = cs').
  { rewrite <- F' in F. clear - F G G'. revert cs' F G'. induction cs as [|[t c] cs IH]; intros [|[t' c'] cs'] F G'; try discriminate F; [reflexivity|]. cbn [map fst] in F. injection F as Et F. subst t'. f_equal.
    - f_equal. destruct (G t c (or_introl eq_refl)) as [A _]. destruct (G' t c' (or_introl eq_refl)) as [B _]. rewrite A in B. injection B as B. exact B.
    - apply IH; [intros u d I; apply G; right; exact I|exact F|intros u d I; apply G'; right; exact I]. }
  subst cs'. rewrite <- E' in E. assert (P : 0 < wsum cs).
  { assert (H : forall t c, In (t, c) cs -> 0 < patch_weight t) by (intros t c I; exact (proj2 (G t c I))). clear - H Ne. assert (Q : 0 <= wsum cs /\ (cs <> [] -> 0 < wsum cs)); [|tauto]. clear Ne. induction cs as [|[t c] cs IH]; unfold wsum; cbn [map fold_right fst]; [split; [lra|intros X; contradiction]|]. fold (wsum cs). destruct (IH (fun u d Hu => H u d (or_intror Hu))) as [A _]. assert (B := H t c (or_introl eq_refl)). lra. }
  fold (wsum cs) in E. destruct p as [a b c], q as [a' b' c']. unfold vscale in E. rn. injection E as E1 E2 E3. f_equal; apply (Rmult_eq_reg_l (wsum cs)); try lra; assumption.
Qed.
(** ** All the aims *)
Definition all_ids : list Z := fold_left zadd (concat (map (fun t => p_verts (g_patch t)) T)) [].
Lemma all_in z : In z all_ids <-> exists i t, (i < n)%nat /\ z = Z.of_nat i /\ In t T /\ covers t i.
Proof.
  unfold all_ids. rewrite (proj2 (zadds _ [] (NoDup_nil Z)) z). split.
  - intros [[]|H]. apply in_concat in H. destruct H as (l & Hl & Hz). apply in_map_iff in Hl. destruct Hl as (t & <- & It). destruct (proj1 (proj2 (HT t It)) z Hz) as (i & Hi & ->). exists i, t. auto.
  - intros (i & t & Hi & -> & It & Ct). right. apply in_concat. exists (p_verts (g_patch t)). split; [apply in_map_iff; exists t; auto|exact Ct].
Qed.
Definition pull (i : nat) : vecR := match pulled T (Z.of_nat i) m with Ok (p, _) => p | _ => vzero end.
Definition aim (z : Z) : vecR * vecR := let i := Z.to_nat z in if v_lock m (vat m i) then (vzero, vsub (v_pos m (vat m i)) (pull i)) else (pull i, vzero).
Lemma aims_run : aims (N := NumR) pow5 T m = Ok (map (fun z => (z, aim z)) all_ids, m).
Proof.
  unfold aims. apply (mmap_all _ (fun z => (z, aim z))). intros z Hz. apply all_in in Hz. destruct Hz as (i & t & Hi & -> & It & Ct).
  assert (L := v_alive m W _ (vat_in m i Hi)). rewrite (bind_ok _ _ _ _ _ (vertex_read m i Hi)), (bind_ok _ _ _ _ _ (r_pos m (vat m i) L)). destruct (pulled_run i Hi (ex_intro _ t (conj It Ct))) as (p & Ep & _).
  rewrite (bind_ok _ _ _ _ _ Ep), (bind_ok _ _ _ _ _ (r_lock m (vat m i) L)). unfold aim, pull. rewrite Nat2Z.id, Ep. reflexivity.
Qed.
Definition A : list (Z * (vecR * vecR)) := map (fun z => (z, aim z)) all_ids.
Lemma aim_in z : In z all_ids -> aim_of (N := NumR) A z = aim z.
Proof.
  intros I. unfold aim_of, A. induction all_ids as [|y l IH]; [destruct I|]. cbn [map find fst]. destruct (Z.eqb_spec y z) as [E|E]; [subst; reflexivity|]. apply IH. destruct I as [I|I]; [contradiction|exact I].
Qed.
Lemma aim_out z : ~ In z all_ids -> aim_of (N := NumR) A z = (vzero, vzero).
Proof.
  intros I. unfold aim_of, A. induction all_ids as [|y l IH]; [reflexivity|]. cbn [map find fst]. destruct (Z.eqb_spec y z) as [E|E]; [exfalso; apply I; left; exact E|]. apply IH. intros J. apply I. right. exact J.
Qed.
Definition off0 (i : nat) : vecR := snd (aim_of (N := NumR) A (Z.of_nat i)).
Lemma off0_spec i : (i < n)%nat -> v_lock m (vat m i) = true -> OffsetAt m T i (vat m i) (off0 i).
Proof.
  intros Hi L. split.
  - intros p Hp. assert (C : exists t, In t T /\ covers t i).
    { destruct Hp as (cs & F & Ne & _). destruct cs as [|[t c] cs]; [contradiction|]. cbn [map fst] in F. assert (J : In t (filter (has i) T)) by (unfold has; rewrite <- F; left; reflexivity). apply filter_In in J. destruct J as [J K]. exists t. split; [exact J|]. unfold has in K. destruct (in_dec _ _ _) as [Z|Z]; [exact Z|discriminate]. }
    destruct (pulled_run i Hi C) as (q & Eq & Hq). rewrite (pulls_unique i (vat m i) p q Hp Hq). unfold off0. destruct C as (t & It & Ct). rewrite aim_in by (apply all_in; exists i, t; auto). unfold aim, pull. rewrite Nat2Z.id, L, Eq. reflexivity.
  - intros H. unfold off0. rewrite aim_out; [reflexivity|]. intros J. apply all_in in J. destruct J as (j & t & Hj & Ej & It & Ct). apply Nat2Z.inj in Ej. subst j. exact (H t It Ct).
Qed.
(** ** Moving *)
Hypothesis Cl : Closed m.
Hypothesis ND : NonDegenerate m.
Hypothesis Re : LockedReached m.
Variable sparse : nat -> (nat -> nat -> R) -> (nat -> R) -> nat -> R.
Hypothesis HS : ExactSolver sparse.
Hypothesis Own : forall i, (i < n)%nat -> v_lock m (vat m i) = false -> exists t, In t T /\ covers t i.
Lemma steps_run (g : nat -> nat -> vecR) s : (forall k i, (i < n)%nat -> v_lock m (vat m i) = false -> vadd (fst (aim_of (N := NumR) A (Z.of_nat i))) (soft_offset (N := NumR) sparse A (length (free_ids m)) s k) = g k i) ->
  forall L, NoDup (map snd L) -> (forall k z, In (k, z) L -> exists i, (i < n)%nat /\ z = Z.of_nat i /\ v_lock m (vat m i) = false) ->
  forall m1, posonly m m1 -> exists m2, mfor L (step_to (N := NumR) sparse A (length (free_ids m)) s) m1 = Ok (tt, m2) /\ posonly m m2 /\
    (forall v, (forall k i, In (k, Z.of_nat i) L -> v <> vat m i) -> v_pos m2 v = v_pos m1 v) /\
    forall k i, In (k, Z.of_nat i) L -> v_pos m2 (vat m i) = vadd (v_pos m1 (vat m i)) (vscale (1 / 10) (vsub (g k i) (v_pos m1 (vat m i)))).
Proof.
  intros Hg. induction L as [|[k z] L IH]; intros NDL HL m1 P1; cbn [mfor].
  - exists m1. split; [reflexivity|]. split; [exact P1|]. split; [reflexivity|intros k i []].
  - destruct (HL k z (or_introl eq_refl)) as (i & Hi & -> & Li). cbn [map snd] in NDL. inversion NDL as [|? ? Nz ND']; subst.
    assert (Iv := vat_in m i Hi). assert (Lv : v_live m1 (vat m i) = true) by (rewrite (po_eq _ _ P1); exact (v_alive m W _ Iv)).
    assert (Rv : mesh_vertex (N := NumR) (Z.of_nat i) m1 = Ok (Some (vat m i), m1)) by (rewrite mesh_vertex_eq, (po_eq _ _ P1); cbn [m_verts]; rewrite (vat_nth m i Hi); reflexivity).
    set (x := vadd (v_pos m1 (vat m i)) (vscale (1 / 10) (vsub (g k i) (v_pos m1 (vat m i))))). set (m1' := set_v_pos (vat m i) x m1).
    assert (Es : step_to (N := NumR) sparse A (length (free_ids m)) s (k, Z.of_nat i) m1 = Ok (tt, m1')).
    { unfold step_to. cbn [fst snd]. rewrite (bind_ok _ _ _ _ _ Rv), (bind_ok _ _ _ _ _ (r_pos m1 (vat m i) Lv)), (ww_pos m1 (vat m i) _ Lv). rewrite (Hg k i Hi Li). reflexivity. }
    destruct (IH ND' (fun k' z' I => HL k' z' (or_intror I)) m1' (posonly_set m m1 (vat m i) x P1 Iv)) as (m2 & E2 & P2 & K2 & Q2).
    assert (Away : forall k' i', In (k', Z.of_nat i') L -> vat m i' <> vat m i).
    { intros k' i' I E. destruct (HL k' _ (or_intror I)) as (j & Hj & Ej & _). apply Nat2Z.inj in Ej. subst j. apply (vat_inj m W i' i Hj Hi) in E. subst i'. apply Nz, in_map_iff. exists (k', Z.of_nat i). auto. }
    exists m2. split; [rewrite (bind_ok _ _ _ _ _ Es); exact E2|]. split; [exact P2|]. split.
    + intros v Hv. rewrite K2 by (intros k' i' I; apply (Hv k' i'); right; exact I). unfold m1'. cbn [v_pos set_v_pos]. apply fupd_other. apply (Hv k i). left; reflexivity.
    + intros k' i' [I|I].
      * injection I as <- Ei. apply Nat2Z.inj in Ei. subst i'. rewrite K2 by (intros k' i' I'; apply not_eq_sym, (Away k' i' I')). unfold m1'. cbn [v_pos set_v_pos]. rewrite fupd_same. reflexivity.
      * rewrite (Q2 k' i' I). assert (E : v_pos m1' (vat m i') = v_pos m1 (vat m i')) by (unfold m1'; cbn [v_pos set_v_pos]; apply fupd_other; first [exact (Away k' i' I)|exact (not_eq_sym (Away k' i' I))]). rewrite E. reflexivity.
Qed.
Theorem move_run : exists off m', move_targets (N := NumR) pow5 sparse T (free_ids m) m = Ok (tt, m') /\ Offsets m T off /\ Step m T off m'.
Proof.
  destruct (soft_ok m V off0) as (s & Es & I & Al).
  assert (Re' : AllReached m (DD m off0)).
  { intros v Iv. destruct (Re v Iv) as (w & Rw & Iw & Lw). destruct (vat_of m w Iw) as (i & Hi & ->). exists i, (vat m i). split; [exact Rw|]. split; [exact (vat_nth m i Hi)|]. apply flb_iff. rewrite (flb_lock m off0 i Hi). exact Lw. }
  destruct (soft_solution m V off0 Cl ND Re' sparse HS A (fun i _ => eq_refl) s I Al) as (x & Hx & Ex). exists x.
  set (L := combine (seq 0 (length (free_ids m))) (free_ids m)).
  assert (HL : forall k z, In (k, z) L <-> nth_error (free_ids m) k = Some z).
  { intros k z. unfold L. generalize (free_ids m). intros l. assert (G : forall a, In (a + k, z)%nat (combine (seq a (length l)) l) <-> nth_error l k = Some z); [|apply (G 0%nat)]. revert k. induction l as [|y l IH]; intros k a; cbn [length seq combine In]; [destruct k; split; [intros []|discriminate|intros []|discriminate]|].
    destruct k as [|k]; cbn [nth_error].
    - split; [intros [E|E]; [congruence|apply in_combine_l, in_seq in E; lia]|]. intros E. left. f_equal; [lia|congruence].
    - rewrite <- (IH k (S a)). replace (S a + k)%nat with (a + S k)%nat by lia. split; [intros [E|E]; [injection E; lia|exact E]|tauto]. }
  assert (NDL : NoDup (map snd L)). { replace (map snd L) with (free_ids m); [exact (free_nodup m)|]. unfold L. generalize (free_ids m). intros l. generalize 0%nat. induction l as [|y l IH]; intros a; [reflexivity|]. cbn [length seq combine map snd]. f_equal. apply IH. }
  assert (HL' : forall k z, In (k, z) L -> exists i, (i < n)%nat /\ z = Z.of_nat i /\ v_lock m (vat m i) = false) by (intros k z H; apply HL, nth_error_In in H; apply (free_in m) in H; exact H).
  set (g := fun k i => vadd (fst (aim_of (N := NumR) A (Z.of_nat i))) (soft_offset (N := NumR) sparse A (length (free_ids m)) s k)).
  destruct (steps_run g s (fun k i _ _ => eq_refl) L NDL HL' m (posonly_refl m)) as (m' & E & P & K & Q). exists m'. split; [|split].
  - unfold move_targets. rewrite (bind_ok _ _ _ _ _ aims_run), (bind_ok _ _ _ _ _ Es). exact E.
  - destruct Hx as (ts & Et & X0 & X1). split.
    + intros i v Ei Lv. assert (Hi : (i < n)%nat) by (apply nth_error_Some; congruence). rewrite (vat_nth m i Hi) in Ei. injection Ei as <-. rewrite (X0 i Hi) by (apply flb_iff; rewrite (flb_lock m off0 i Hi); exact Lv). rewrite (DD_nth m off0 i Hi). cbn [fst]. exact (off0_spec i Hi Lv).
    + exists ts. split; [exact Et|]. intros i v Ei Lv. assert (Hi : (i < n)%nat) by (apply nth_error_Some; congruence). rewrite (vat_nth m i Hi) in Ei. injection Ei as <-. apply (X1 i Hi), flb_not. rewrite (flb_lock m off0 i Hi). exact Lv.
  - split; [exact P|]. intros i v Ei. assert (Hi : (i < n)%nat) by (apply nth_error_Some; congruence). rewrite (vat_nth m i Hi) in Ei. injection Ei as <-. split.
    + intros Lv. apply K. intros k j Ij E'. destruct (HL' k _ Ij) as (j' & Hj & Ej & Lj). apply Nat2Z.inj in Ej. subst j'. rewrite E' in Lv. congruence.
    + intros Lv. assert (Jf : In (Z.of_nat i) (free_ids m)) by (apply (free_in m); exists i; auto). destruct (In_nth_error _ _ Jf) as (k & Ek). destruct (Own i Hi Lv) as (t & It & Ct).
      destruct (pulled_run i Hi (ex_intro _ t (conj It Ct))) as (p & Ep & Hp). exists p. split; [exact Hp|]. rewrite (Q k i (proj2 (HL k _) Ek)). unfold g. rewrite aim_in by (apply all_in; exists i, t; auto). unfold aim, pull. rewrite Nat2Z.id, Lv, Ep. cbn [fst]. rewrite <- (Ex k i Ek). reflexivity.
Qed.
End Move.
