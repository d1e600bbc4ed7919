(** The linear system of the direction field: the cotangent operator, renumbered. *)
From Coq Require Import Reals Lra Lia List ZArith Bool Arith Permutation.
From Verif Require Import Num NumInst Vec Heap Mesh Spec Orbit Rings Exec Diamond Queries GeomSpec VecR Measure MeasureR MeasureM SmoothSpec Smooth SmoothD SmoothF Curv CurvN CurvW LinR Features Tensor TensorSpec TensorM SmoothP LaplSpec Lapl LaplP LaplM CotPsd Deriv DerivM Feat FeatSpec FeatR FeatM.
Import ListNotations.
Local Open Scope mesh_scope.
Local Open Scope R_scope.
Implicit Types m : mesh NumR.
Local Notation tripletR := (triplet NumR).

(** ** Numbers of indices *)
Lemma number_of_none l i : number_of l i = None <-> ~ In i l.
Proof.
  induction l as [|j l IH]; cbn [number_of In]; [tauto|]. destruct (Z.eqb_spec j i) as [E|E]; [split; [discriminate|tauto]|].
  destruct (number_of l i) as [k|]; cbn [option_map].
  - split; [discriminate|]. intros H. assert (X := proj2 IH (fun I => H (or_intror I))). discriminate.
  - split; [|reflexivity]. intros _ [J|J]; [contradiction|]. exact (proj1 IH eq_refl J).
Qed.
Lemma number_of_some l i k : NoDup l -> number_of l i = Some k <-> nth_error l k = Some i.
Proof.
  intros ND. revert k. induction l as [|j l IH]; intros k; cbn [number_of]; [destruct k; split; discriminate|].
  inversion ND as [|? ? Nj ND']; subst. destruct (Z.eqb_spec j i) as [E|E].
  - subst j. destruct k as [|k]; cbn [nth_error]; [split; reflexivity|]. split; [discriminate|]. intros H. apply nth_error_In in H. contradiction.
  - destruct k as [|k]; cbn [nth_error].
    + split; [destruct (number_of l i); discriminate|congruence].
    + rewrite <- (IH ND' k). destruct (number_of l i) as [k'|]; cbn [option_map]; split; congruence.
Qed.
Lemma number_of_app l l' i k : number_of l i = Some k -> number_of (l ++ l') i = Some k.
Proof.
  revert k. induction l as [|j l IH]; intros k; [discriminate|]. change ((j :: l) ++ l') with (j :: (l ++ l')). cbn [number_of]. destruct (Z.eqb j i); [intros H; exact H|].
  destruct (number_of l i) as [k'|]; cbn [option_map]; intros H; [|discriminate H]. rewrite (IH k' eq_refl). exact H.
Qed.
Definition num_ (l : list Z) (i : Z) : Z := match number_of l i with Some k => Z.of_nat k | None => (-1)%Z end.
Lemma num_app l l' i : In i l -> num_ (l ++ l') i = num_ l i.
Proof. intros I. unfold num_. destruct (number_of l i) as [k|] eqn:E; [rewrite (number_of_app l l' i k E); reflexivity|apply number_of_none in E; contradiction]. Qed.
Lemma num_eqb l i k : NoDup l -> (k < length l)%nat -> (num_ l i =? Z.of_nat k)%Z = (i =? nth k l 0)%Z.
Proof.
  intros ND Hk. unfold num_. assert (E := nth_error_nth' l 0%Z Hk). destruct (number_of l i) as [k'|] eqn:E'.
  - apply (number_of_some l i k' ND) in E'. destruct (Z.eqb_spec (Z.of_nat k') (Z.of_nat k)) as [K|K], (Z.eqb_spec i (nth k l 0%Z)) as [J|J]; try reflexivity; exfalso.
    + apply Nat2Z.inj in K. subst k'. congruence.
    + apply K. f_equal. apply (proj1 (NoDup_nth_error l) ND); [apply nth_error_Some; congruence|congruence].
  - apply number_of_none in E'. symmetry. destruct (Z.eqb_spec (-1) (Z.of_nat k)); [lia|]. apply Z.eqb_neq. intros J. subst i. apply E'. apply nth_In, Hk.
Qed.
Lemma number_in l i : NoDup l -> exists l', fst (number l i) = l ++ l' /\ In i (l ++ l') /\ NoDup (l ++ l') /\ (l' = [] \/ l' = [i] /\ ~ In i l) /\ Z.of_nat (snd (number l i)) = num_ (l ++ l') i.
Proof.
  intros ND. unfold number. destruct (number_of l i) as [k|] eqn:E; cbn [fst snd].
  - exists []. rewrite app_nil_r. split; [reflexivity|]. split; [apply (nth_error_In l k), number_of_some; assumption|]. split; [exact ND|]. split; [left; reflexivity|]. unfold num_. rewrite E. reflexivity.
  - apply number_of_none in E. exists [i]. split; [reflexivity|]. split; [apply in_or_app; right; left; reflexivity|].
    assert (ND' : NoDup (l ++ [i])) by (apply NoDup_app_disj; [exact ND|constructor; [intros []|constructor]|intros x I1 [I2|[]]; subst; contradiction]).
    split; [exact ND'|]. split; [right; split; [reflexivity|exact E]|]. unfold num_.
    rewrite (proj2 (number_of_some (l ++ [i]) i (length l) ND')); [reflexivity|]. rewrite nth_error_app2, Nat.sub_diag by lia. reflexivity.
Qed.

(** ** Adding triplets *)
Section Push.
Variable fl : Z -> bool.
Definition push (s : system NumR) (t : tripletR) : system NumR :=
  let r := num_ (s_non s) (fst (fst t)) in let j := snd (fst t) in
  if fl j then let nc := number (s_rv s) j in Sys (s_non s) (fst nc) (s_LL s) (s_SS s ++ [(r, Z.of_nat (snd nc), snd t)])
  else let nc := number (s_non s) j in Sys (fst nc) (s_rv s) (s_LL s ++ [(r, Z.of_nat (snd nc), snd t)]) (s_SS s).
Definition rowof (t : tripletR) : Z := fst (fst t).
Definition colof (t : tripletR) : Z := snd (fst t).
Definition renum (l l' : list Z) (t : tripletR) : tripletR := (num_ l (rowof t), num_ l' (colof t), snd t).
(** The system holds the triplets of [T], renumbered; [T] has been read so far, and [B] bounds the indices. *)
Record Inv (P : Z -> Prop) (s : system NumR) (T : list tripletR) : Prop := {
  i_non : NoDup (s_non s); i_rv : NoDup (s_rv s);
  i_nonf : forall i, In i (s_non s) -> fl i = false /\ P i; i_rvf : forall i, In i (s_rv s) -> fl i = true /\ P i;
  i_rows : forall t, In t T -> In (rowof t) (s_non s);
  i_cols : forall t, In t T -> if fl (colof t) then In (colof t) (s_rv s) else In (colof t) (s_non s);
  i_LL : s_LL s = map (renum (s_non s) (s_non s)) (filter (fun t => negb (fl (colof t))) T);
  i_SS : s_SS s = map (renum (s_non s) (s_rv s)) (filter (fun t => fl (colof t)) T) }.
Lemma inv_nil P : Inv P (Sys [] [] [] []) [].
Proof. split; cbn; try reflexivity; try (intros ? []); constructor. Qed.
Lemma renum_app (l l1 l' l1' : list Z) T : (forall t, In t T -> In (rowof t) l /\ In (colof t) l') -> map (renum (l ++ l1) (l' ++ l1')) T = map (renum l l') T.
Proof. intros H. apply map_ext_in. intros t I. destruct (H t I) as [A B]. unfold renum. rewrite (num_app l l1 _ A), (num_app l' l1' _ B). reflexivity. Qed.
Lemma inv_grow P s T i : Inv P s T -> fl i = false -> P i -> Inv P (Sys (fst (number (s_non s) i)) (s_rv s) (s_LL s) (s_SS s)) T.
Proof.
  intros [N1 N2 F1 F2 R C L S] Fi Pi. destruct (number_in (s_non s) i N1) as (l' & E & _ & N' & D & _). cbn [s_non s_rv s_LL s_SS]. split; cbn [s_non s_rv s_LL s_SS]; rewrite ?E; auto.
  - intros j I. apply in_app_or in I. destruct I as [I|I]; [auto|]. destruct D as [->|[-> _]]; [destruct I|]. destruct I as [<-|[]]. auto.
  - intros t I. apply in_or_app. left. auto.
  - intros t I. assert (H := C t I). destruct (fl (colof t)); [exact H|apply in_or_app; left; exact H].
  - rewrite L. symmetry. apply (renum_app (s_non s) l' (s_non s) l'). intros t I. apply filter_In in I. destruct I as [I J]. split; [auto|]. assert (H := C t I). destruct (fl (colof t)); [discriminate J|exact H].
  - rewrite S. symmetry. rewrite <- (app_nil_r (s_rv s)) at 1. apply (renum_app (s_non s) l' (s_rv s) []). intros t I. apply filter_In in I. destruct I as [I J]. split; [auto|]. assert (H := C t I). rewrite J in H. exact H.
Qed.
Lemma inv_push P s T t : Inv P s T -> In (rowof t) (s_non s) -> P (colof t) -> Inv P (push s t) (T ++ [t]) /\ In (rowof t) (s_non (push s t)) /\ exists l', s_non (push s t) = s_non s ++ l'.
Proof.
  intros I It Pt. unfold push. fold (colof t). fold (rowof t). destruct (fl (colof t)) eqn:F.
  - destruct I as [N1 N2 F1 F2 R C L S]. destruct (number_in (s_rv s) (colof t) N2) as (l' & E & In' & N' & D & K). cbn [s_non s_rv s_LL s_SS]. split; [|split; [exact It|exists []; symmetry; apply app_nil_r]]. split; cbn [s_non s_rv s_LL s_SS]; rewrite ?E; auto.
    + intros j J. apply in_app_or in J. destruct J as [J|J]; [auto|]. destruct D as [->|[-> _]]; [destruct J|]. destruct J as [<-|[]]. auto.
    + intros u Iu. apply in_app_or in Iu. destruct Iu as [Iu|[<-|[]]]; auto.
    + intros u Iu. apply in_app_or in Iu. destruct Iu as [Iu|[<-|[]]]; [|rewrite F; exact In']. assert (H := C u Iu). destruct (fl (colof u)); [apply in_or_app; left; exact H|exact H].
    + rewrite filter_app. cbn [filter]. rewrite F. cbn [negb]. rewrite app_nil_r. exact L.
    + rewrite filter_app. cbn [filter]. rewrite F. rewrite map_app. cbn [map]. f_equal.
      * rewrite S. symmetry. rewrite <- (app_nil_r (s_non s)) at 1. apply (renum_app (s_non s) [] (s_rv s) l'). intros u Iu. apply filter_In in Iu. destruct Iu as [Iu J]. split; [auto|]. assert (H := C u Iu). rewrite J in H. exact H.
      * unfold renum. rewrite K. reflexivity.
  - assert (G := inv_grow P s T (colof t) I F Pt). destruct (number_in (s_non s) (colof t) (i_non _ _ _ I)) as (l' & E & In' & N' & D & K).
    cbn [s_non s_rv s_LL s_SS]. split; [|split; [rewrite E; apply in_or_app; left; exact It|exists l'; exact E]].
    destruct G as [N1 N2 F1 F2 R C L S]. cbn [s_non s_rv s_LL s_SS] in *. rewrite E in *. split; cbn [s_non s_rv s_LL s_SS]; auto.
    + intros u Iu. apply in_app_or in Iu. destruct Iu as [Iu|[<-|[]]]; [auto|apply in_or_app; left; exact It].
    + intros u Iu. apply in_app_or in Iu. destruct Iu as [Iu|[<-|[]]]; [apply C, Iu|rewrite F; exact In'].
    + rewrite filter_app. cbn [filter]. rewrite F. cbn [negb]. rewrite map_app. cbn [map]. f_equal; [exact L|]. unfold renum. rewrite K, (num_app _ l' _ It). reflexivity.
    + rewrite filter_app. cbn [filter]. rewrite F, app_nil_r. exact S.
Qed.
Lemma inv_pushes P ts : forall s T i, Inv P s T -> In i (s_non s) -> (forall t, In t ts -> rowof t = i /\ P (colof t)) ->
  Inv P (fold_left push ts s) (T ++ ts) /\ In i (s_non (fold_left push ts s)) /\ num_ (s_non (fold_left push ts s)) i = num_ (s_non s) i /\ exists l', s_non (fold_left push ts s) = s_non s ++ l'.
Proof.
  induction ts as [|t ts IH]; intros s T i I Ii H; cbn [fold_left]; [rewrite app_nil_r; split; [exact I|]; split; [exact Ii|]; split; [reflexivity|exists []; symmetry; apply app_nil_r]|].
  destruct (H t (or_introl eq_refl)) as [Rt Ct]. assert (Ii' := Ii). rewrite <- Rt in Ii'. destruct (inv_push P s T t I Ii' Ct) as (I1 & J1 & l1 & E1). rewrite Rt in J1.
  destruct (IH (push s t) (T ++ [t]) i I1 J1 (fun u Iu => H u (or_intror Iu))) as (A & B & K & l2 & E2). rewrite <- app_assoc in A. cbn [app] in A. split; [exact A|]. split; [exact B|].
  split; [rewrite K, E1; apply num_app, Ii|exists (l1 ++ l2); rewrite E2, E1, app_assoc; reflexivity].
Qed.
End Push.

(** ** The program *)
Section Sys.
Variable m : mesh NumR.
Hypothesis V : Valid m.
Let W := valid_wf m V.
Let n := length (m_verts m).
Variable D : list (vecR * R).
Hypothesis LD : length D = n.
Definition flb (i : nat) : bool := negb (@neqb NumR (snd (nth i D (vzero, 0))) 0).
Definition flz (i : Z) : bool := flb (Z.to_nat i).
Lemma flb_iff i : flb i = true <-> flagged D i.
Proof. unfold flb, flagged. cbn. unfold Reqb. destruct (Req_EM_T (snd (nth i D (vzero, 0))) 0); cbn; split; intros H; try discriminate; try contradiction; auto. Qed.
Lemma flb_not i : flb i = false <-> ~ flagged D i.
Proof. rewrite <- flb_iff. destruct (flb i); split; intros; congruence. Qed.
Lemma tab_flag v : In v (m_verts m) -> exists x, tab_at (N := NumR) D (v_idx m v) m = Ok (x, m) /\ negb (@neqb NumR (snd x) (@nzero NumR)) = flz (v_idx m v).
Proof.
  intros Hv. destruct (vat_of m v Hv) as (i & Hi & ->). rewrite (vat_idx m W i Hi). exists (nth i D (vzero, 0)). split; [apply tab_ok, nth_error_nth'; rewrite LD; exact Hi|]. unfold flz, flb. rewrite Nat2Z.id. reflexivity.
Qed.
Definition pushr (k : nat) (s : system NumR) (t : tripletR) : system NumR :=
  let j := snd (fst t) in
  if flz j then let nc := number (s_rv s) j in Sys (s_non s) (fst nc) (s_LL s) (s_SS s ++ [(Z.of_nat k, Z.of_nat (snd nc), snd t)])
  else let nc := number (s_non s) j in Sys (fst nc) (s_rv s) (s_LL s ++ [(Z.of_nat k, Z.of_nat (snd nc), snd t)]) (s_SS s).
Lemma edge_ok i k y acc : In y (m_hes m) -> field_edge (N := NumR) D k acc (Some y) m = Ok ((pushr k (fst acc) (Z.of_nat i, didx m y, - w_cot m y), @nadd NumR (snd acc) (w_cot m y)), m).
Proof.
  intros Hy. unfold field_edge. destruct (dst_idx m W y Hy) as (d & E & Ed & Id & I). rewrite (bind_ok _ _ _ _ _ E), (bind_ok _ _ _ _ _ (cot_ok m W y Hy)), (bind_ok _ _ _ _ _ I).
  assert (Edx : didx m y = v_idx m d) by (unfold didx; rewrite Ed; reflexivity). rewrite Edx. destruct (tab_flag d Id) as (x & Ex & Fx). rewrite (bind_ok _ _ _ _ _ Ex). unfold pushr. cbn [fst snd].
  match goal with |- context [if negb ?b then _ else _] => replace (negb b) with (flz (v_idx m d)) by (symmetry; exact Fx) end. reflexivity.
Qed.
Definition Pz (j : Z) : Prop := exists k, (k < n)%nat /\ j = Z.of_nat k.
Lemma fold_push i k ts : forall s T, Inv flz Pz s T -> In i (s_non s) -> num_ (s_non s) i = Z.of_nat k -> (forall t, In t ts -> rowof t = i /\ Pz (colof t)) -> fold_left (pushr k) ts s = fold_left (push flz) ts s.
Proof.
  induction ts as [|t ts IH]; intros s T I Ii Ek H; cbn [fold_left]; [reflexivity|]. destruct (H t (or_introl eq_refl)) as [Rt Ct].
  assert (E : pushr k s t = push flz s t) by (unfold pushr, push; fold (rowof t); rewrite Rt, Ek; reflexivity). rewrite E.
  assert (Ii' := Ii). rewrite <- Rt in Ii'. destruct (inv_push flz Pz s T t I Ii' Ct) as (I1 & J1 & l1 & E1). rewrite Rt in J1.
  apply (IH _ _ I1 J1); [rewrite E1; rewrite num_app; [exact Ek|exact Ii]|intros u Iu; apply H; right; exact Iu].
Qed.
Lemma fold_edges i k l : forall s (a : R), fold_left (fun acc y => (pushr k (fst acc) (Z.of_nat i, didx m y, - w_cot m y), @nadd NumR (snd acc) (w_cot m y))) l (s, a) =
  (fold_left (pushr k) (map (fun y => (Z.of_nat i, didx m y, - w_cot m y)) l) s, a + rsum (map (w_cot m) l)).
Proof.
  induction l as [|y l IH]; intros s a; cbn [fold_left map fst snd]; [f_equal; cbn; lra|]. etransitivity; [apply IH|]. f_equal. rewrite rsum_cons. change (@nadd NumR a (w_cot m y)) with (a + w_cot m y). lra.
Qed.
Lemma lrow_cols i t : (i < n)%nat -> In t (lrow m (w_cot m) i) -> rowof t = Z.of_nat i /\ Pz (colof t).
Proof.
  intros Hi It. unfold lrow in It. apply in_app_or in It. destruct It as [It|[<-|[]]]; [|split; [reflexivity|exists i; split; [exact Hi|reflexivity]]].
  apply in_map_iff in It. destruct It as (y & <- & Iy). split; [reflexivity|]. apply (Permutation_in _ (ring_out m W i Hi)) in Iy. apply out_in in Iy. destruct Iy as [Iy _].
  destruct (dst_idx m W y Iy) as (d & _ & Ed & Id & _). unfold colof, didx. cbn [fst snd]. rewrite Ed. destruct (vat_of m d Id) as (j & Hj & ->). exists j. split; [exact Hj|apply (vat_idx m W j Hj)].
Qed.
Definition rows_of (i : nat) : list tripletR := if flb i then [] else lrow m (w_cot m) i.
Lemma row_ok s T i : (i < n)%nat -> Inv flz Pz s T -> exists s', field_row (N := NumR) D s i m = Ok (s', m) /\ Inv flz Pz s' (T ++ rows_of i) /\
  (forall j, In j (s_non s) -> In j (s_non s')) /\ (flb i = false -> In (Z.of_nat i) (s_non s')).
Proof.
  intros Hi I. unfold field_row. rewrite (bind_ok _ _ _ _ _ (vertex_read m i Hi)). destruct (tab_flag (vat m i) (vat_in m i Hi)) as (x & Ex & Fx). rewrite (vat_idx m W i Hi) in Ex, Fx.
  rewrite (bind_ok _ _ _ _ _ Ex). match goal with |- context [if negb ?b then _ else _] => replace (negb b) with (flz (Z.of_nat i)) by (symmetry; exact Fx) end.
  unfold rows_of. assert (Ez : flz (Z.of_nat i) = flb i) by (unfold flz; rewrite Nat2Z.id; reflexivity). rewrite Ez. destruct (flb i) eqn:F.
  - exists s. rewrite app_nil_r. split; [reflexivity|]. split; [exact I|]. split; [auto|discriminate].
  - destruct (number_in (s_non s) (Z.of_nat i) (i_non _ _ _ _ I)) as (l' & E & Ii & N' & _ & K). assert (Pi : Pz (Z.of_nat i)) by (exists i; split; [exact Hi|reflexivity]).
    assert (I1 := inv_grow flz Pz s T (Z.of_nat i) I Ez Pi). destruct (ring_head m W i Hi) as (h & l & Eh & Hr & El). set (k := snd (number (s_non s) (Z.of_nat i))) in *. set (s1 := Sys _ _ _ _) in *.
    erewrite bind_ok; cycle 1.
    { apply (circ_v_ok m W (vat m i) h l _ (fun acc y => ((pushr k (fst acc) (Z.of_nat i, didx m y, - w_cot m y), @nadd NumR (snd acc) (w_cot m y)), false)) _ (vat_in m i Hi) Eh Hr).
      intros y a Hy _. rewrite (bind_ok _ _ _ _ _ (edge_ok i k y a Hy)). reflexivity. }
    rewrite (bfold_fold (fun acc y => (pushr k (fst acc) (Z.of_nat i, didx m y, - w_cot m y), @nadd NumR (snd acc) (w_cot m y)))). rewrite <- El.
    change (@nzero NumR) with 0. rewrite fold_edges. cbn [fst snd]. rewrite Rplus_0_l.
    set (es := map _ (vert_ring m i)). assert (Eh' : lrow m (w_cot m) i = es ++ [(Z.of_nat i, Z.of_nat i, rsum (map (w_cot m) (vert_ring m i)))]) by reflexivity.
    assert (In1 : In (Z.of_nat i) (s_non s1)) by (unfold s1; cbn [s_non]; rewrite E; exact Ii).
    assert (Hes : forall t, In t es -> rowof t = Z.of_nat i /\ Pz (colof t)) by (intros t It; apply (lrow_cols i t Hi); rewrite Eh'; apply in_or_app; left; exact It).
    assert (K1 : num_ (s_non s1) (Z.of_nat i) = Z.of_nat k) by (unfold s1; cbn [s_non]; rewrite E; symmetry; exact K).
    rewrite (fold_push (Z.of_nat i) k es s1 T I1 In1 K1 Hes).
    destruct (inv_pushes flz Pz es s1 T (Z.of_nat i) I1 In1 Hes) as (I2 & In2 & K2 & l2 & E2). set (s2 := fold_left (push flz) es s1) in *.
    set (td := (Z.of_nat i, Z.of_nat i, rsum (map (w_cot m) (vert_ring m i)))) in *.
    destruct (inv_push flz Pz s2 (T ++ es) td I2 In2 Pi) as (I3 & In3 & l3 & E3).
    assert (Ep : push flz s2 td = Sys (s_non s2) (s_rv s2) (s_LL s2 ++ [(Z.of_nat k, Z.of_nat k, rsum (map (w_cot m) (vert_ring m i)))]) (s_SS s2)).
    { unfold push, td. cbn [fst snd]. rewrite Ez. destruct (number_in (s_non s2) (Z.of_nat i) (i_non _ _ _ _ I2)) as (l4 & E4 & _ & _ & D4 & K4).
      destruct D4 as [->|[_ Nn]]; [|contradiction]. rewrite app_nil_r in E4, K4. rewrite E4, K4, K2, K1. reflexivity. }
    exists (push flz s2 td). split; [rewrite Ep; reflexivity|]. split; [rewrite Eh', app_assoc; exact I3|].
    split; [|intros _; exact In3]. intros j Ij. rewrite E3, E2. unfold s1. cbn [s_non]. rewrite E. apply in_or_app; left; apply in_or_app; left; apply in_or_app; left; exact Ij.
Qed.
Lemma rows_all l : forall s T, (forall i, In i l -> (i < n)%nat) -> Inv flz Pz s T -> exists s', mfold (field_row (N := NumR) D) s l m = Ok (s', m) /\ Inv flz Pz s' (T ++ concat (map rows_of l)) /\
  (forall j, In j (s_non s) -> In j (s_non s')) /\ (forall i, In i l -> flb i = false -> In (Z.of_nat i) (s_non s')).
Proof.
  induction l as [|i l IH]; intros s T H I; cbn [mfold map concat].
  - exists s. rewrite app_nil_r. split; [reflexivity|]. split; [exact I|]. split; [auto|intros i []].
  - destruct (row_ok s T i (H i (or_introl eq_refl)) I) as (s1 & E1 & I1 & M1 & N1). rewrite (bind_ok _ _ _ _ _ E1).
    destruct (IH s1 (T ++ rows_of i) (fun j Ij => H j (or_intror Ij)) I1) as (s2 & E2 & I2 & M2 & N2). exists s2. split; [exact E2|]. split; [rewrite app_assoc; exact I2|].
    split; [auto|]. intros j [<-|Ij] F; auto.
Qed.
Theorem system_ok : exists s, field_system (N := NumR) D m = Ok (s, m) /\ Inv flz Pz s (concat (map rows_of (seq 0 n))) /\ forall i, (i < n)%nat -> flb i = false -> In (Z.of_nat i) (s_non s).
Proof.
  unfold field_system. rewrite bind_get. destruct (rows_all (seq 0 n) (Sys [] [] [] []) [] (fun i Ii => proj2 (proj1 (in_seq n 0 i) Ii)) (inv_nil flz Pz)) as (s & E & I & _ & H).
  exists s. split; [exact E|]. split; [exact I|]. intros i Hi. apply H, in_seq. lia.
Qed.
End Sys.
