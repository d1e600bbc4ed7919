(** The mesh Laplacians on valid meshes, in exact arithmetic. *)
From Coq Require Import Reals Lra Bool List ZArith Arith Lia Permutation.
From Verif Require Import Num NumInst Vec VecR Heap Mesh Spec GeomSpec Orbit Rings Queries MeasureM SmoothD Lapl LaplSpec.
Import ListNotations.
Local Open Scope R_scope.
Notation entryR := (@entry NumR).
Notation tripletR := (triplet NumR).

(** ** Sums *)
Lemma sum_to_ext n f g : (forall i, (i < n)%nat -> f i = g i) -> sum_to n f = sum_to n g.
Proof. induction n as [|n IH]; intros H; cbn [sum_to]; [reflexivity|]. rewrite IH by (intros; apply H; lia). rewrite H by lia. reflexivity. Qed.
Lemma sum_to_plus n f g : sum_to n (fun i => f i + g i) = sum_to n f + sum_to n g.
Proof. induction n as [|n IH]; cbn [sum_to]; [lra|]. rewrite IH. lra. Qed.
Lemma sum_to_scal n c f : sum_to n (fun i => c * f i) = c * sum_to n f.
Proof. induction n as [|n IH]; cbn [sum_to]; [lra|]. rewrite IH. lra. Qed.
Lemma sum_to_one n k c : (k < n)%nat -> sum_to n (fun j => if Nat.eqb k j then c else 0) = c.
Proof.
  assert (Z0 : forall n', (n' <= k)%nat -> sum_to n' (fun j => if Nat.eqb k j then c else 0) = 0).
  { induction n' as [|n' IH]; intros H; cbn [sum_to]; [reflexivity|]. rewrite IH by lia. destruct (Nat.eqb_spec k n'); [lia|lra]. }
  induction n as [|n IH]; intros H; [lia|]. cbn [sum_to]. destruct (Nat.eqb_spec k n) as [-> | Ne]; [rewrite (Z0 n) by lia; lra|]. rewrite IH by lia. lra.
Qed.
Lemma sum_to_list {A} (d : A) (F : A -> R) l : sum_to (length l) (fun j => F (nth j l d)) = rsum (map F l).
Proof.
  induction l as [|x l IH] using rev_ind; [reflexivity|]. rewrite app_length, Nat.add_1_r. cbn [sum_to]. rewrite map_app, rsum_app. rewrite app_nth2, Nat.sub_diag by lia. cbn [nth map].
  rewrite (sum_to_ext _ _ (fun j => F (nth j l d))) by (intros i Hi; rewrite app_nth1 by exact Hi; reflexivity). rewrite IH. cbn. lra.
Qed.
Lemma rsum_scal {A} c (F : A -> R) l : rsum (map (fun x => c * F x) l) = c * rsum (map F l).
Proof. induction l as [|x l IH]; cbn [map]; [cbn; lra|]. rewrite !rsum_cons, IH. lra. Qed.
Lemma rsum_filter {A} (p : A -> bool) (F : A -> R) l : rsum (map F (filter p l)) = rsum (map (fun x => if p x then F x else 0) l).
Proof. induction l as [|x l IH]; cbn [filter map]; [reflexivity|]. rewrite rsum_cons. destruct (p x); cbn [map]; rewrite ?rsum_cons, IH; lra. Qed.
Lemma rsum_nonneg {A} (F : A -> R) l : (forall x, In x l -> 0 <= F x) -> 0 <= rsum (map F l).
Proof. induction l as [|x l IH]; intros H; cbn [map]; [cbn; lra|]. rewrite rsum_cons. assert (A1 := H x (or_introl eq_refl)). assert (A2 := IH (fun y Y => H y (or_intror Y))). lra. Qed.
Definition val (t : tripletR) : R := snd t.
Definition at_pos (i j : nat) (t : tripletR) : bool := ((fst (fst t) =? Z.of_nat i)%Z && (snd (fst t) =? Z.of_nat j)%Z)%bool.
Lemma fold_val (l : list tripletR) : forall a : R, fold_left (@nadd NumR) (map snd l) a = a + rsum (map val l).
Proof. induction l as [|t l IH]; intros a; cbn [map fold_left]; [cbn; lra|]. rewrite IH, rsum_cons. change (@nadd NumR a (snd t)) with (a + val t). lra. Qed.
Lemma entry_sum ts i j : entryR ts i j = rsum (map (fun t => if at_pos i j t then val t else 0) ts).
Proof.
  unfold entry. rewrite <- (rsum_filter (at_pos i j) val). etransitivity; [exact (fold_val (filter (at_pos i j) ts) 0)|]. lra.
Qed.
Lemma concat_map_sum {A} (F : tripletR -> R) (rows : A -> list tripletR) l : rsum (map F (concat (map rows l))) = rsum (map (fun i => rsum (map F (rows i))) l).
Proof. induction l as [|x l IH]; cbn [map concat]; [reflexivity|]. rewrite map_app, rsum_app, IH, rsum_cons. reflexivity. Qed.

Section W.
Variable m : mesh NumR.
Hypothesis Wm : WF m.
Notation n := (length (m_verts m)).
Definition vat (i : nat) : nat := nth i (m_verts m) 0%nat.
Lemma vat_nth i : (i < n)%nat -> nth_error (m_verts m) i = Some (vat i).
Proof. intros H. apply nth_error_nth'. exact H. Qed.
Lemma vat_in i : (i < n)%nat -> In (vat i) (m_verts m).
Proof. intros H. apply nth_In, H. Qed.
Lemma vat_idx i : (i < n)%nat -> v_idx m (vat i) = Z.of_nat i.
Proof. intros H. destruct (wf_v_elem m Wm i (vat i) (vat_nth i H)) as (_ & E & _). exact E. Qed.
Lemma vat_of v : In v (m_verts m) -> exists i, (i < n)%nat /\ v = vat i.
Proof. intros H. apply (In_nth _ _ 0%nat) in H as (i & Hi & E). exists i. auto. Qed.
Lemma vat_inj i j : (i < n)%nat -> (j < n)%nat -> vat i = vat j -> i = j.
Proof. intros Hi Hj E. apply (f_equal (v_idx m)) in E. rewrite !vat_idx in E by assumption. lia. Qed.
(** The number of the vertex a half-edge points to. *)
Definition didx (h : nat) : Z := match dst_of m h with Some v => v_idx m v | None => 0%Z end.
Lemma didx_vat h j : In h (m_hes m) -> (j < n)%nat -> (didx h =? Z.of_nat j)%Z = ptr_eqb (dst_of m h) (Some (vat j)).
Proof.
  intros Hh Hj. unfold didx. destruct (dst_pos m Wm h Hh) as (d & Ed & Id & _). rewrite Ed. destruct (vat_of d Id) as (k & Hk & ->). rewrite (vat_idx k Hk). cbn [ptr_eqb].
  destruct (Z.eqb_spec (Z.of_nat k) (Z.of_nat j)) as [E | Ne].
  - apply Nat2Z.inj in E. subst. symmetry. apply Nat.eqb_refl.
  - symmetry. apply Nat.eqb_neq. intros E. apply Ne. f_equal. apply vat_inj; assumption.
Qed.
Definition out (v : nat) : list nat := filter (fun h => ptr_eqb (h_src m h) (Some v)) (m_hes m).
Definition between (u v : nat) : list nat := filter (fun h => ptr_eqb (dst_of m h) (Some v)) (out u).
Lemma out_in v h : In h (out v) <-> In h (m_hes m) /\ h_src m h = Some v.
Proof.
  unfold out. rewrite filter_In. split; intros [A B]; (split; [exact A|]).
  - apply ptr_eqb_eq in B. exact B.
  - rewrite B. apply ptr_eqb_refl.
Qed.
Lemma between_in u v h : In h (between u v) <-> In h (m_hes m) /\ h_src m h = Some u /\ dst_of m h = Some v.
Proof.
  unfold between. rewrite filter_In, out_in. split.
  - intros ((A & B) & C). apply ptr_eqb_eq in C. auto.
  - intros (A & B & C). rewrite C, ptr_eqb_refl. auto.
Qed.
Lemma ring_out i : (i < n)%nat -> Permutation (vert_ring m i) (out (vat i)).
Proof.
  intros Hi. unfold vert_ring. rewrite (vat_nth i Hi). destruct (ring_of_ring m (vat i) Wm (vat_in i Hi)) as ((Hc & Hnd & Hin) & _).
  apply NoDup_Permutation; [exact Hnd|apply NoDup_filter, (wf_h_nodup m Wm)|]. intros y. rewrite Hin, out_in. tauto.
Qed.
Definition revm (h : nat) : nat := match h_rev m h with Some r => r | None => 0%nat end.
Lemma revm_ok h : In h (m_hes m) -> h_rev m h = Some (revm h) /\ In (revm h) (m_hes m) /\ revm (revm h) = h /\ dst_of m h = h_src m (revm h) /\ dst_of m (revm h) = h_src m h.
Proof.
  intros Hh. destruct (wf_rev m Wm h Hh) as (r & Er & Ir). assert (Er' := wf_rev_invol m Wm h r Hh Er). unfold revm, dst_of. rewrite Er, (proj1 Er'). auto.
Qed.
Lemma rev_perm : Permutation (map revm (m_hes m)) (m_hes m).
Proof.
  apply NoDup_Permutation; [|exact (wf_h_nodup m Wm)|].
  - assert (I : forall h, In h (m_hes m) -> revm (revm h) = h) by (intros h Hh; apply (revm_ok h Hh)). revert I. generalize (wf_h_nodup m Wm). generalize (m_hes m). induction 1 as [|x l Nx ND IH]; intros I; cbn [map]; [constructor|].
    constructor; [|apply IH; intros; apply I; right; assumption]. intros C. apply in_map_iff in C as (y & E & Iy). apply Nx. rewrite <- (I x (or_introl eq_refl)), <- E, (I y (or_intror Iy)). exact Iy.
  - intros y. rewrite in_map_iff. split.
    + intros (x & <- & Ix). apply (revm_ok x Ix).
    + intros Iy. exists (revm y). destruct (revm_ok y Iy) as (_ & I & E & _). auto.
Qed.
Lemma rsum_rev (F : nat -> R) : rsum (map (fun h => F (revm h)) (m_hes m)) = rsum (map F (m_hes m)).
Proof. rewrite <- (map_map revm F). apply rsum_perm, Permutation_map, rev_perm. Qed.

(** ** A Laplacian with the weight [w] for each half-edge *)
Variable w : nat -> R.
Definition lrow (i : nat) : list tripletR :=
  map (fun y => (Z.of_nat i, didx y, - w y)) (vert_ring m i) ++ [(Z.of_nat i, Z.of_nat i, rsum (map w (vert_ring m i)))].
Definition lmat : list tripletR := concat (map lrow (seq 0 n)).
Definition S_ (i j : nat) : R := rsum (map w (between (vat i) (vat j))).
Definition D_ (i : nat) : R := rsum (map w (out (vat i))).

Lemma lmat_entry i j : (i < n)%nat -> (j < n)%nat -> entryR lmat i j = (if Nat.eqb i j then D_ i else 0) - S_ i j.
Proof.
  intros Hi Hj. rewrite entry_sum. unfold lmat. rewrite concat_map_sum.
  set (F := fun t : tripletR => if at_pos i j t then val t else 0).
  assert (R0 : forall k, rsum (map F (lrow k)) = if Nat.eqb i k then rsum (map F (lrow k)) else 0).
  { intros k. destruct (Nat.eqb_spec i k) as [-> | Ne]; [reflexivity|]. unfold lrow. rewrite map_app, rsum_app, map_map. cbn [map]. unfold F at 2, at_pos, val. cbn [fst snd]. destruct (Z.eqb_spec (Z.of_nat k) (Z.of_nat i)); [lia|]. cbn [andb].
    rewrite (rsum_ext _ (fun _ => 0 * 0)), rsum_scal; [rewrite Rmult_0_l; cbn; lra|]. intros x _. unfold F, at_pos, val. cbn [fst snd]. destruct (Z.eqb_spec (Z.of_nat k) (Z.of_nat i)); [lia|]. cbn [andb]. lra. }
  assert (E1 : rsum (map (fun k => rsum (map F (lrow k))) (seq 0 n)) = rsum (map F (lrow i))).
  { rewrite (rsum_ext _ (fun k => if Nat.eqb i k then rsum (map F (lrow i)) else 0)) by (intros k _; rewrite (R0 k); destruct (Nat.eqb_spec i k) as [-> |]; reflexivity).
    rewrite <- (sum_to_list 0%nat (fun k => if Nat.eqb i k then rsum (map F (lrow i)) else 0) (seq 0 n)). rewrite seq_length.
    rewrite (sum_to_ext n _ (fun k => if Nat.eqb i k then rsum (map F (lrow i)) else 0)) by (intros k Hk; rewrite seq_nth by exact Hk; reflexivity). apply sum_to_one, Hi. }
  rewrite E1. unfold lrow. rewrite map_app, rsum_app, map_map. cbn [map]. unfold F at 2, at_pos, val. cbn [fst snd]. rewrite Z.eqb_refl. cbn [andb].
  assert (E2 : rsum (map (fun x => F (Z.of_nat i, didx x, - w x)) (vert_ring m i)) = - S_ i j).
  { unfold S_, between. rewrite rsum_filter. rewrite (rsum_perm _ _ (Permutation_map _ (ring_out i Hi))). rewrite <- (Rmult_1_l (rsum (map (fun x => if ptr_eqb (dst_of m x) (Some (vat j)) then w x else 0) (out (vat i))))), <- Ropp_mult_distr_l_reverse, <- rsum_scal.
    apply rsum_ext. intros h Hh. apply out_in in Hh as [Hh _]. unfold F, at_pos, val. cbn [fst snd]. rewrite Z.eqb_refl. cbn [andb]. rewrite (didx_vat h j Hh Hj). destruct (ptr_eqb (dst_of m h) (Some (vat j))); lra. }
  rewrite E2. unfold D_. rewrite (rsum_perm _ _ (Permutation_map w (ring_out i Hi))). rewrite rsum_cons. cbn [map rsum fold_right].
  destruct (Nat.eqb_spec i j) as [-> | Ne]; [rewrite Z.eqb_refl; lra|]. destruct (Z.eqb_spec (Z.of_nat i) (Z.of_nat j)); [lia|]. lra.
Qed.

Hypothesis Sym : forall h, In h (m_hes m) -> w (revm h) = w h.
Lemma S_sym i j : S_ i j = S_ j i.
Proof.
  unfold S_. assert (P : Permutation (map revm (between (vat i) (vat j))) (between (vat j) (vat i))).
  { apply NoDup_Permutation.
    - assert (ND : NoDup (between (vat i) (vat j))) by (apply NoDup_filter, NoDup_filter, (wf_h_nodup m Wm)). assert (I : forall h, In h (between (vat i) (vat j)) -> revm (revm h) = h) by (intros h Hh; apply between_in in Hh as [Hh _]; apply (revm_ok h Hh)).
      revert I. generalize ND. generalize (between (vat i) (vat j)). clear ND. induction 1 as [|x l Nx ND IH]; intros I; cbn [map]; [constructor|].
      constructor; [|apply IH; intros; apply I; right; assumption]. intros C. apply in_map_iff in C as (y & E & Iy). apply Nx. rewrite <- (I x (or_introl eq_refl)), <- E, (I y (or_intror Iy)). exact Iy.
    - apply NoDup_filter, NoDup_filter, (wf_h_nodup m Wm).
    - intros y. rewrite in_map_iff. split.
      + intros (x & <- & Ix). apply between_in in Ix as (Ix & Sx & Dx). destruct (revm_ok x Ix) as (_ & I & _ & D1 & D2). apply between_in. split; [exact I|]. split; congruence.
      + intros Iy. apply between_in in Iy as (Iy & Sy & Dy). destruct (revm_ok y Iy) as (_ & I & E & D1 & D2). exists (revm y). split; [exact E|]. apply between_in. split; [exact I|]. split; congruence. }
  rewrite <- (rsum_perm _ _ (Permutation_map w P)), map_map. apply rsum_ext. intros h Hh. apply between_in in Hh as [Hh _]. symmetry. apply Sym, Hh.
Qed.
Lemma lmat_sym : symmetric n (entryR lmat).
Proof.
  intros i j Hi Hj. rewrite !lmat_entry by assumption. rewrite (S_sym i j). destruct (Nat.eqb_spec i j) as [-> | Ne]; [rewrite Nat.eqb_refl; reflexivity|]. destruct (Nat.eqb_spec j i); [congruence|reflexivity].
Qed.
Lemma dst_some h : In h (m_hes m) -> exists v, dst_of m h = Some v /\ In v (m_verts m).
Proof. intros Hh. destruct (dst_pos m Wm h Hh) as (d & Ed & Id & _). eauto. Qed.
Lemma lmat_rows : rows_vanish n (entryR lmat).
Proof.
  intros i Hi. rewrite (sum_to_ext n _ (fun j => (if Nat.eqb i j then D_ i else 0) + - 1 * S_ i j)) by (intros j Hj; rewrite lmat_entry by assumption; lra).
  rewrite sum_to_plus, sum_to_one, sum_to_scal by exact Hi. unfold S_, vat at 2. rewrite (sum_to_list 0%nat (fun v => rsum (map w (between (vat i) v))) (m_verts m)). unfold between.
  rewrite (rsum_key w (dst_of m) (m_verts m) (wf_v_nodup m Wm) (out (vat i))) by (intros h Hh; apply out_in in Hh as [Hh _]; apply dst_some, Hh). unfold D_. lra.
Qed.
(** The quadratic form is half the weighted sum of squared differences along the half-edges. *)
Definition at_ (x : nat -> R) (p : ptr) : R := match p with Some v => x (Z.to_nat (v_idx m v)) | None => 0 end.
Lemma at_vat x i : (i < n)%nat -> at_ x (Some (vat i)) = x i.
Proof. intros Hi. cbn [at_]. rewrite (vat_idx i Hi), Nat2Z.id. reflexivity. Qed.
Lemma lmat_qform x : qform n (entryR lmat) x = / 2 * rsum (map (fun h => w h * (at_ x (h_src m h) - at_ x (dst_of m h)) ^ 2) (m_hes m)).
Proof.
  assert (E1 : qform n (entryR lmat) x = sum_to n (fun i => x i ^ 2 * D_ i) + -1 * sum_to n (fun i => sum_to n (fun j => x i * x j * S_ i j))).
  { unfold qform. rewrite <- sum_to_scal, <- sum_to_plus. apply sum_to_ext. intros i Hi. rewrite <- sum_to_scal, <- (sum_to_one n i (x i ^ 2 * D_ i) Hi), <- sum_to_plus. apply sum_to_ext. intros j Hj. rewrite lmat_entry by assumption. destruct (Nat.eqb_spec i j) as [-> |]; ring. }
  assert (E2 : sum_to n (fun i => x i ^ 2 * D_ i) = rsum (map (fun h => w h * at_ x (h_src m h) ^ 2) (m_hes m))).
  { rewrite <- (rsum_key (fun h => w h * at_ x (h_src m h) ^ 2) (h_src m) (m_verts m) (wf_v_nodup m Wm) (m_hes m)) by (intros h Hh; apply (wf_src m Wm h Hh)).
    rewrite <- (sum_to_list 0%nat). apply sum_to_ext. intros i Hi. fold (vat i). unfold D_. rewrite <- rsum_scal. fold (out (vat i)). apply rsum_ext. intros h Hh. apply out_in in Hh as [_ Sh]. rewrite Sh, at_vat by exact Hi. ring. }
  assert (E3 : sum_to n (fun i => sum_to n (fun j => x i * x j * S_ i j)) = rsum (map (fun h => w h * (at_ x (h_src m h) * at_ x (dst_of m h))) (m_hes m))).
  { rewrite <- (rsum_key (fun h => w h * (at_ x (h_src m h) * at_ x (dst_of m h))) (h_src m) (m_verts m) (wf_v_nodup m Wm) (m_hes m)) by (intros h Hh; apply (wf_src m Wm h Hh)).
    rewrite <- (sum_to_list 0%nat). apply sum_to_ext. intros i Hi. fold (vat i). fold (out (vat i)).
    rewrite <- (rsum_key (fun h => w h * (at_ x (h_src m h) * at_ x (dst_of m h))) (dst_of m) (m_verts m) (wf_v_nodup m Wm) (out (vat i))) by (intros h Hh; apply out_in in Hh as [Hh _]; apply dst_some, Hh).
    rewrite <- (sum_to_list 0%nat). apply sum_to_ext. intros j Hj. fold (vat j). unfold S_. rewrite <- rsum_scal. fold (between (vat i) (vat j)). apply rsum_ext. intros h Hh. apply between_in in Hh as (_ & Sh & Dh). rewrite Sh, Dh, !at_vat by assumption. ring. }
  assert (E4 : rsum (map (fun h => w h * at_ x (dst_of m h) ^ 2) (m_hes m)) = rsum (map (fun h => w h * at_ x (h_src m h) ^ 2) (m_hes m))).
  { rewrite <- (rsum_rev (fun h => w h * at_ x (h_src m h) ^ 2)). apply rsum_ext. intros h Hh. destruct (revm_ok h Hh) as (_ & _ & _ & D1 & _). rewrite (Sym h Hh), D1. reflexivity. }
  rewrite E1, E2, E3. rewrite (rsum_ext (fun h => w h * (at_ x (h_src m h) - at_ x (dst_of m h)) ^ 2) (fun h => (w h * at_ x (h_src m h) ^ 2 + w h * at_ x (dst_of m h) ^ 2) + -2 * (w h * (at_ x (h_src m h) * at_ x (dst_of m h))))) by (intros; ring).
  rewrite rsum_plus, rsum_plus, rsum_scal, E4. lra.
Qed.
Lemma lmat_psd : (forall h, In h (m_hes m) -> 0 <= w h) -> psd n (entryR lmat).
Proof.
  intros P x. rewrite lmat_qform. assert (Q : 0 <= rsum (map (fun h => w h * (at_ x (h_src m h) - at_ x (dst_of m h)) ^ 2) (m_hes m))); [|lra].
  apply rsum_nonneg. intros h Hh. apply Rmult_le_pos; [apply P, Hh|]. apply pow2_ge_0.
Qed.
End W.
