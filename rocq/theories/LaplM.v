(** The rows of the three operators, and C34. *)
From Coq Require Import Reals Lra Bool List ZArith Arith Lia Permutation.
From Verif Require Import Num NumInst Vec VecR Heap Mesh Spec GeomSpec Orbit Rings Queries MeasureM SmoothP Smooth SmoothD Lapl LaplSpec LaplP.
Import ListNotations.
Local Open Scope R_scope.

Lemma mmap_all {N : Num} {A B} (f : A -> M N B) (g : A -> B) (m : mesh N) l : (forall x, In x l -> f x m = Ok (g x, m)) -> mmap f l m = Ok (map g l, m).
Proof.
  induction l as [|x l IH]; intros H; cbn [mmap map]; [reflexivity|]. rewrite (bind_ok _ _ _ _ _ (H x (or_introl eq_refl))).
  rewrite (bind_ok _ _ _ _ _ (IH (fun y Y => H y (or_intror Y)))). reflexivity.
Qed.
Lemma fold_pair (T : nat -> tripletR) (w : nat -> R) l : forall a (b : R), fold_left (fun acc y => (fst acc ++ [T y], @nadd NumR (snd acc) (w y))) l (a, b) = (a ++ map T l, b + rsum (map w l)).
Proof.
  induction l as [|y l IH]; intros a b; cbn [fold_left map fst snd]; [rewrite app_nil_r; cbn; f_equal; lra|]. rewrite IH, <- app_assoc. cbn [app]. f_equal. rewrite rsum_cons. change (@nadd NumR b (w y)) with (b + w y). lra.
Qed.
Lemma fold_count (T : nat -> tripletR) l : forall a (b : Z), fold_left (fun acc y => (fst acc ++ [T y], (snd acc + 1)%Z)) l (a, b) = (a ++ map T l, (b + Z.of_nat (length l))%Z).
Proof.
  induction l as [|y l IH]; intros a b; cbn [fold_left map fst snd length]; [rewrite app_nil_r, Z.add_0_r; reflexivity|]. rewrite IH, <- app_assoc. cbn [app]. f_equal. lia.
Qed.
Lemma rsum_ones {A} (l : list A) : rsum (map (fun _ => 1) l) = INR (length l).
Proof. induction l as [|x l IH]; [reflexivity|]. cbn [map length]. rewrite rsum_cons, IH, S_INR. lra. Qed.

Section W.
Variable m : mesh NumR.
Hypothesis Wm : WF m.
Notation n := (length (m_verts m)).
Lemma ring_head i : (i < n)%nat -> exists h l, v_he m (vat m i) = Some h /\ Vring m (vat m i) (h :: l) /\ vert_ring m i = h :: l.
Proof.
  intros Hi. destruct (vring m Wm (vat m i) (vat_in m i Hi)) as (h & l & Eh & Hr). exists h, l. split; [exact Eh|]. split; [exact Hr|].
  unfold vert_ring. rewrite (vat_nth m i Hi). apply ring_of_eq; [exact Wm|apply vat_in, Hi|exact Eh|exact Hr].
Qed.
Lemma vertex_read i : (i < n)%nat -> mesh_vertex (Z.of_nat i) m = Ok (Some (vat m i), m).
Proof. intros Hi. rewrite mesh_vertex_eq, (vat_nth m i Hi). reflexivity. Qed.
Lemma dst_idx y : In y (m_hes m) -> exists d, he_dst (Some y) m = Ok (Some d, m) /\ dst_of m y = Some d /\ In d (m_verts m) /\ ve_idx (Some d) m = Ok (didx m y, m).
Proof.
  intros Hy. destruct (dst_pos m Wm y Hy) as (d & Ed & Id & D & _). exists d. split; [exact D|]. split; [exact Ed|]. split; [exact Id|]. unfold didx. rewrite Ed. apply r_vidx, (v_alive m Wm), Id.
Qed.
Definition w_one : nat -> R := fun _ => 1.
Lemma adj_row_ok i : (i < n)%nat -> adj_row i m = Ok (lrow m w_one i, m).
Proof.
  intros Hi. destruct (ring_head i Hi) as (h & l & Eh & Hr & El). unfold adj_row. rewrite (bind_ok _ _ _ _ _ (vertex_read i Hi)).
  erewrite bind_ok; cycle 1.
  { apply (circ_v_ok m Wm (vat m i) h l _ (fun acc y => ((fst acc ++ [(Z.of_nat i, didx m y, - w_one y)], (snd acc + 1)%Z), false)) _ (vat_in m i Hi) Eh Hr).
    intros y a Hy _. destruct (dst_idx y Hy) as (d & D & _ & _ & I). rewrite (bind_ok _ _ _ _ _ D), (bind_ok _ _ _ _ _ I). reflexivity. }
  rewrite (bfold_fold (fun acc y => (fst acc ++ [(Z.of_nat i, didx m y, - w_one y)], (snd acc + 1)%Z))). rewrite fold_count. cbn [fst snd app]. unfold ret, lrow. rewrite El. do 4 f_equal.
  f_equal. rn. rewrite Z.add_0_l, <- INR_IZR_INZ. unfold w_one. rewrite rsum_ones. reflexivity.
Qed.
Definition w_cot (y : nat) : R := wgt m true y.
Lemma cot_row_ok i : (i < n)%nat -> cot_row i m = Ok (lrow m w_cot i, m).
Proof.
  intros Hi. destruct (ring_head i Hi) as (h & l & Eh & Hr & El). unfold cot_row. rewrite (bind_ok _ _ _ _ _ (vertex_read i Hi)).
  erewrite bind_ok; cycle 1.
  { apply (circ_v_ok m Wm (vat m i) h l _ (fun acc y => ((fst acc ++ [(Z.of_nat i, didx m y, - w_cot y)], @nadd NumR (snd acc) (w_cot y)), false)) _ (vat_in m i Hi) Eh Hr).
    intros y a Hy _. destruct (dst_idx y Hy) as (d & D & _ & _ & I). rewrite (bind_ok _ _ _ _ _ D), (bind_ok _ _ _ _ _ I), (bind_ok _ _ _ _ _ (cot_ok m Wm y Hy)). reflexivity. }
  rewrite (bfold_fold (fun acc y => (fst acc ++ [(Z.of_nat i, didx m y, - w_cot y)], @nadd NumR (snd acc) (w_cot y)))). rewrite fold_pair. cbn [fst snd app]. unfold ret, lrow. rewrite El. do 4 f_equal.
  f_equal. rn. lra.
Qed.
Variable hh : R.
Definition w_bel (y : nat) : R := @belkin_weight NumR hh (pos_at m (h_src m y)) (pos_at m (dst_of m y)).
Lemma fold_pair3 (T : nat -> tripletR) (w : nat -> R) (g : R -> nat -> R) l : forall a (b c : R), exists c', fold_left (fun acc y => ((fst (fst acc) ++ [T y], @nadd NumR (snd (fst acc)) (w y)), g (snd acc) y)) l ((a, b), c) = ((a ++ map T l, b + rsum (map w l)), c').
Proof.
  induction l as [|y l IH]; intros a b c; cbn [fold_left map fst snd]; [exists c; rewrite app_nil_r; cbn; repeat f_equal; lra|]. destruct (IH (a ++ [T y]) (@nadd NumR b (w y)) (g c y)) as [c' E]. exists c'. etransitivity; [exact E|]. rewrite <- app_assoc. cbn [app]. rewrite rsum_cons. change (@nadd NumR b (w y)) with (b + w y). rewrite Rplus_assoc. reflexivity.
Qed.
Lemma belkin_row_ok i : (i < n)%nat -> @belkin_row NumR hh i m = Ok (lrow m w_bel i, m).
Proof.
  intros Hi. destruct (ring_head i Hi) as (h & l & Eh & Hr & El). unfold belkin_row. rewrite (bind_ok _ _ _ _ _ (vertex_read i Hi)).
  set (nd := fun y => dst_of m (match h_next m y with Some k => k | None => 0%nat end)).
  set (g := fun (c : R) y => @nadd NumR c (@ndiv NumR (@Vec.vlength NumR (cross (vsub (pos_at m (dst_of m y)) (v_pos m (vat m i))) (vsub (pos_at m (nd y)) (v_pos m (vat m i))))) (@nofZ NumR 6))).
  erewrite bind_ok; cycle 1.
  { apply (circ_v_ok m Wm (vat m i) h l _ (fun acc y => (((fst (fst acc) ++ [(Z.of_nat i, didx m y, - w_bel y)], @nadd NumR (snd (fst acc)) (w_bel y)), g (snd acc) y), false)) _ (vat_in m i Hi) Eh Hr).
    intros y a Hy Sy. destruct (dst_idx y Hy) as (d & D & Ed & Id & I). rewrite (bind_ok _ _ _ _ _ D), (bind_ok _ _ _ _ _ (r_pos m _ (v_alive m Wm _ (vat_in m i Hi)))), (bind_ok _ _ _ _ _ (r_pos m _ (v_alive m Wm _ Id))). cbv zeta. rewrite (bind_ok _ _ _ _ _ I).
    destruct (wf_next m Wm y Hy) as (k & Ek & Ik). rewrite (bind_ok _ _ _ _ _ (r_next m y (h_alive m Wm y Hy))), Ek. destruct (dst_pos m Wm k Ik) as (x & Ex & Ix & Dx & Px). rewrite (bind_ok _ _ _ _ _ Dx), (bind_ok _ _ _ _ _ Px).
    unfold ret, w_bel, g, nd. rewrite Sy, Ed, Ek, Ex. reflexivity. }
  rewrite (bfold_fold (fun acc y => ((fst (fst acc) ++ [(Z.of_nat i, didx m y, - w_bel y)], @nadd NumR (snd (fst acc)) (w_bel y)), g (snd acc) y))).
  destruct (fold_pair3 (fun y => (Z.of_nat i, didx m y, - w_bel y)) w_bel g (h :: l) [] (@nzero NumR) (@nzero NumR)) as [c' E].
  match type of E with ?a = _ => match goal with |- context [fold_left ?f (h :: l) ?s] => change (fold_left f (h :: l) s) with a end end. rewrite E. cbn [fst snd app]. unfold ret, lrow. rewrite El. do 4 f_equal.
  f_equal. rn. lra.
Qed.
Lemma rows_ok (row : nat -> M NumR (list tripletR)) w : (forall i, (i < n)%nat -> row i m = Ok (lrow m w i, m)) ->
  bind (get m_verts) (fun l => bind (mmap row (seq 0 (length l))) (fun rows => ret (concat rows))) m = Ok (lmat m w, m).
Proof.
  intros H. rewrite bind_get. assert (Q : mmap row (seq 0 n) m = Ok (map (lrow m w) (seq 0 n), m)) by (apply mmap_all; intros i Hi; apply in_seq in Hi; apply H; lia). rewrite (bind_ok _ _ _ _ _ Q). reflexivity.
Qed.
(** ** Symmetric weights *)
Lemma cot_formula_sym (p0 p1 p2 p3 : vecR) : @cot_formula NumR p1 p0 p3 p2 = @cot_formula NumR p0 p1 p2 p3.
Proof.
  unfold cot_formula. assert (C : forall a b : vecR, vlength (cross a b) = vlength (cross b a)).
  { intros a b. rewrite (cross_anti a b). rewrite <- (vscale_one (cross b a)) at 2. replace (vneg (cross b a)) with (vscale (-1) (cross b a)) by vring. rewrite !vlength_scale. f_equal. rewrite Rabs_left, Rabs_right by lra. lra. }
  rewrite (C (vsub p1 p3) (vsub p0 p3)), (C (vsub p1 p2) (vsub p0 p2)), (dot_sym (vsub p1 p3) (vsub p0 p3)), (dot_sym (vsub p1 p2) (vsub p0 p2)). rn. ring.
Qed.
Definition ndst (y : nat) : ptr := match h_next m y with Some k => dst_of m k | None => None end.
Lemma w_cot_formula y : In y (m_hes m) -> w_cot y = @cot_formula NumR (pos_at m (h_src m y)) (pos_at m (dst_of m y)) (pos_at m (ndst y)) (pos_at m (ndst (revm m y))).
Proof.
  intros Hi. assert (E := cot_ok m Wm y Hi). fold (w_cot y) in E. revert E. unfold he_cotWeight. destruct (wf_src m Wm y Hi) as (v0 & E0 & I0). rewrite (bind_ok _ _ _ _ _ (r_src m y (h_alive m Wm y Hi))), E0.
    destruct (dst_pos m Wm y Hi) as (v1 & E1 & I1 & D1 & P1). rewrite (bind_ok _ _ _ _ _ D1).
    destruct (wf_next m Wm y Hi) as (k & En & In_). rewrite (bind_ok _ _ _ _ _ (r_next m y (h_alive m Wm y Hi))), En.
    destruct (dst_pos m Wm k In_) as (v2 & E2 & I2 & D2 & P2). rewrite (bind_ok _ _ _ _ _ D2).
    destruct (revm_ok m Wm y Hi) as (Er & Ir & _). set (r := revm m y) in *. rewrite (bind_ok _ _ _ _ _ (r_rev m y (h_alive m Wm y Hi))), Er.
    destruct (wf_next m Wm r Ir) as (rn & Ern & Irn). rewrite (bind_ok _ _ _ _ _ (r_next m r (h_alive m Wm r Ir))), Ern.
    destruct (dst_pos m Wm rn Irn) as (v3 & E3 & I3 & D3 & P3). rewrite (bind_ok _ _ _ _ _ D3).
    rewrite (bind_ok _ _ _ _ _ (r_pos m v0 (v_alive m Wm v0 I0))), (bind_ok _ _ _ _ _ P1), (bind_ok _ _ _ _ _ P2), (bind_ok _ _ _ _ _ P3). intros E. injection E as <-. unfold ndst. rewrite En, Ern, E1, E2, E3. reflexivity.
Qed.
Lemma w_cot_sym y : In y (m_hes m) -> w_cot (revm m y) = w_cot y.
Proof.
  intros Hy. destruct (revm_ok m Wm y Hy) as (_ & Ir & E & D1 & D2). rewrite (w_cot_formula y Hy), (w_cot_formula _ Ir), E, D1, D2. apply cot_formula_sym.
Qed.
Lemma vlength_sub_sym (a b : vecR) : vlength (vsub a b) = vlength (vsub b a).
Proof. rewrite <- (vscale_one (vsub b a)). replace (vsub a b) with (vscale (-1) (vsub b a)) by vring. rewrite !vlength_scale. f_equal. rewrite Rabs_left, Rabs_right by lra. lra. Qed.
Lemma w_bel_sym y : In y (m_hes m) -> w_bel (revm m y) = w_bel y.
Proof.
  intros Hy. destruct (revm_ok m Wm y Hy) as (_ & Ir & E & D1 & D2). unfold w_bel. rewrite D1, D2. unfold belkin_weight. rewrite (vlength_sub_sym (pos_at m (h_src m (revm m y)))). reflexivity.
Qed.
Lemma w_bel_pos y : 0 < hh -> 0 <= w_bel y.
Proof.
  intros H. unfold w_bel, belkin_weight. rn. apply Rlt_le. apply Rdiv_lt_0_compat; [apply exp_pos|]. assert (P := PI_RGT_0). nra.
Qed.

(** ** Entries of the adjacency operator *)
Lemma adj_diag i : (i < n)%nat -> NoLoops m -> entryR (lmat m w_one) i i = INR (deg_of m (vat m i)).
Proof.
  intros Hi NL. rewrite lmat_entry by assumption. rewrite Nat.eqb_refl. unfold D_, S_, w_one. rewrite !rsum_ones. unfold deg_of. fold (out m (vat m i)).
  destruct (between m (vat m i) (vat m i)) as [|h l] eqn:E; [cbn; lra|]. exfalso. assert (H : In h (between m (vat m i) (vat m i))) by (rewrite E; left; reflexivity).
  apply between_in in H as (Ih & Sh & Dh). apply (NL h Ih). congruence.
Qed.
Lemma adj_off i j : (i < n)%nat -> (j < n)%nat -> i <> j -> NoParallel m ->
  (adj m (vat m i) (vat m j) -> entryR (lmat m w_one) i j = -1) /\ (~ adj m (vat m i) (vat m j) -> entryR (lmat m w_one) i j = 0).
Proof.
  intros Hi Hj Ne NP. rewrite lmat_entry by assumption. destruct (Nat.eqb_spec i j); [contradiction|]. unfold S_, w_one. rewrite rsum_ones. split.
  - intros (h & Ih & Sh & Dh). assert (L : between m (vat m i) (vat m j) = [h]); [|rewrite L; cbn; lra].
    assert (ND : NoDup (between m (vat m i) (vat m j))) by apply NoDup_filter, NoDup_filter, (wf_h_nodup m Wm).
    assert (P : Permutation (between m (vat m i) (vat m j)) [h]).
    { apply NoDup_Permutation; [exact ND|repeat constructor; intros []|]. intros y. rewrite between_in. split.
      - intros (Iy & Sy & Dy). left. apply NP; congruence.
      - intros [<- | []]. auto. }
    apply Permutation_sym, Permutation_length_1_inv in P. exact P.
  - intros A. destruct (between m (vat m i) (vat m j)) as [|h l] eqn:E; [cbn; lra|]. exfalso. apply A. exists h. apply between_in. rewrite E. left; reflexivity.
Qed.
End W.

(** C34. *)
Theorem lap_adjacent_ok (m : mesh NumR) : Valid m -> exists ts, getMeshLaplacian Adjacent m = Ok (ts, m) /\
  symmetric (length (m_verts m)) (entryR ts) /\ rows_vanish (length (m_verts m)) (entryR ts) /\ psd (length (m_verts m)) (entryR ts) /\
  (forall i u, nth_error (m_verts m) i = Some u -> entryR ts i i = INR (deg_of m u)) /\
  (forall i j u v, i <> j -> nth_error (m_verts m) i = Some u -> nth_error (m_verts m) j = Some v ->
     (adj m u v -> entryR ts i j = -1) /\ (~ adj m u v -> entryR ts i j = 0)).
Proof.
  intros V. assert (W := valid_wf m V). exists (lmat m w_one). split; [apply (rows_ok m adj_row w_one (adj_row_ok m W))|].
  assert (Sy : forall h, In h (m_hes m) -> w_one (revm m h) = w_one h) by reflexivity.
  split; [apply lmat_sym; assumption|]. split; [apply lmat_rows; assumption|]. split; [apply lmat_psd; [assumption|assumption|intros; unfold w_one; lra]|].
  assert (Q : forall i u, nth_error (m_verts m) i = Some u -> (i < length (m_verts m))%nat /\ u = vat m i).
  { intros i u E. assert (Hi : (i < length (m_verts m))%nat) by (apply nth_error_Some; congruence). split; [exact Hi|]. rewrite (vat_nth m i Hi) in E. congruence. }
  split.
  - intros i u E. destruct (Q i u E) as [Hi ->]. apply adj_diag; [exact W|exact Hi|apply (valid_noloops m V)].
  - intros i j u v Ne Ei Ej. destruct (Q i u Ei) as [Hi ->]. destruct (Q j v Ej) as [Hj ->]. apply adj_off; try assumption. apply (valid_noparallel m V).
Qed.
Theorem lap_cotangent_ok (m : mesh NumR) : WF m -> exists ts, getMeshLaplacian Cotangent m = Ok (ts, m) /\
  symmetric (length (m_verts m)) (entryR ts) /\ rows_vanish (length (m_verts m)) (entryR ts).
Proof.
  intros W. exists (lmat m (w_cot m)). split; [apply (rows_ok m cot_row (w_cot m) (cot_row_ok m W))|].
  split; [apply lmat_sym; [exact W|apply w_cot_sym, W]|apply lmat_rows; exact W].
Qed.
Theorem lap_belkin_ok (m : mesh NumR) : WF m -> exists h ts, getMeanEdgeLength m = Ok (h, m) /\ getMeshLaplacian Belkin08 m = Ok (ts, m) /\
  symmetric (length (m_verts m)) (entryR ts) /\ rows_vanish (length (m_verts m)) (entryR ts) /\ (0 < h -> psd (length (m_verts m)) (entryR ts)).
Proof.
  intros W. destruct (meanEdgeLength_ok m W) as (reps & _ & Ea). set (h := ndiv _ _) in Ea. exists h, (lmat m (w_bel m h)). split; [exact Ea|].
  split; [unfold getMeshLaplacian, lap_belkin; rewrite (bind_ok _ _ _ _ _ Ea); apply (rows_ok m (@belkin_row NumR h) (w_bel m h) (belkin_row_ok m W h))|].
  split; [apply lmat_sym; [exact W|apply w_bel_sym, W]|]. split; [apply lmat_rows; exact W|]. intros P. apply lmat_psd; [exact W|apply w_bel_sym, W|]. intros y _. apply w_bel_pos, P.
Qed.
Theorem lap_other {N : Num} (m : mesh N) : getMeshLaplacian OtherOp m = Abort AError.
Proof. reflexivity. Qed.
