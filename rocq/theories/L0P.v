(** denoiseL0Smooth with an exact solver. *)
From Coq Require Import Reals Lra Bool List ZArith Arith Lia Permutation.
From Verif Require Import Num NumInst Vec VecR Heap Mesh Construct Spec BuildSpec GeomSpec Orbit Rings Queries Measure MeasureM Means MeasureR SmoothSpec Smooth SmoothP SmoothD SmoothR Lapl LaplSpec LaplP LaplM FilterSpec SmoothF Fair FairW LinR L0 L0Spec.
Import ListNotations.
Local Open Scope R_scope.

Section W.
Variable m : mesh NumR.
Hypothesis Wm : WF m.
Notation n := (length (m_verts m)).
Definition ix (v : nat) : nat := Z.to_nat (v_idx m v).
Lemma ix_ok v : In v (m_verts m) -> (ix v < n)%nat /\ v_idx m v = Z.of_nat (ix v) /\ vat m (ix v) = v.
Proof.
  intros Iv. destruct (vat_of m v Iv) as (i & Hi & ->). assert (E := vat_idx m Wm i Hi). unfold ix. rewrite E, Nat2Z.id. auto.
Qed.
Lemma ix_vat i : (i < n)%nat -> ix (vat m i) = i.
Proof. intros Hi. unfold ix. rewrite (vat_idx m Wm i Hi), Nat2Z.id. reflexivity. Qed.
Lemma corners_ok h : In h (m_hes m) -> l0_corners (N := NumR) (Some h) m = Ok ((Some (c1 m h), Some (c2 m h), Some (c3 m h), Some (c4 m h)), m) /\
  In (c1 m h) (m_verts m) /\ In (c2 m h) (m_verts m) /\ In (c3 m h) (m_verts m) /\ In (c4 m h) (m_verts m).
Proof.
  intros Hh. unfold l0_corners, c1, c2, c3, c4, tip. destruct (wf_rev m Wm h Hh) as (r & Er & Ir). destruct (wf_next m Wm h Hh) as (k & En & Ik). destruct (wf_next m Wm r Ir) as (l & El & Il).
  destruct (wf_src m Wm h Hh) as (u & Su & Iu). destruct (wf_src m Wm r Ir) as (w & Sw & Iw). destruct (dst_ptr m k Wm Ik) as (a & Da & Ia). destruct (dst_ptr m l Wm Il) as (b & Db & Ib).
  assert (Dh : dst_of m h = Some w) by (unfold dst_of; rewrite Er; exact Sw).
  rewrite (bind_ok _ _ _ _ _ (r_rev m h (h_alive m Wm _ Hh))), Er. rewrite (bind_ok _ _ _ _ _ (r_src m h (h_alive m Wm _ Hh))). rewrite (bind_ok _ _ _ _ _ (r_next m h (h_alive m Wm _ Hh))), En. rewrite (bind_ok _ _ _ _ _ (dst_of_ok m Wm k Ik)).
  rewrite (bind_ok _ _ _ _ _ (r_src m r (h_alive m Wm _ Ir))). rewrite (bind_ok _ _ _ _ _ (r_next m r (h_alive m Wm _ Ir))), El. rewrite (bind_ok _ _ _ _ _ (dst_of_ok m Wm l Il)).
  rewrite Su, Sw, Da, Db, Dh. cbn [vid]. auto.
Qed.
Definition idx4 (h : nat) : Z * Z * Z * Z := (Z.of_nat (ix (c1 m h)), Z.of_nat (ix (c2 m h)), Z.of_nat (ix (c3 m h)), Z.of_nat (ix (c4 m h))).
Lemma indices_ok h : In h (m_hes m) -> l0_indices (N := NumR) (Some (c1 m h), Some (c2 m h), Some (c3 m h), Some (c4 m h)) m = Ok (idx4 h, m).
Proof.
  intros Hh. destruct (corners_ok h Hh) as (_ & I1 & I2 & I3 & I4). unfold l0_indices.
  rewrite (bind_ok _ _ _ _ _ (r_vidx m _ (v_alive m Wm _ I1))), (bind_ok _ _ _ _ _ (r_vidx m _ (v_alive m Wm _ I2))), (bind_ok _ _ _ _ _ (r_vidx m _ (v_alive m Wm _ I3))), (bind_ok _ _ _ _ _ (r_vidx m _ (v_alive m Wm _ I4))).
  unfold ret, idx4. apply ix_ok in I1 as (_ & -> & _). apply ix_ok in I2 as (_ & -> & _). apply ix_ok in I3 as (_ & -> & _). apply ix_ok in I4 as (_ & -> & _). reflexivity.
Qed.
Definition Rk : R * R * R * R := (1, -1, 1, -1).
Definition Dk (h : nat) : R * R * R * R := l0_coef (N := NumR) (v_pos m (c1 m h)) (v_pos m (c2 m h)) (v_pos m (c3 m h)) (v_pos m (c4 m h)).
Definition mat (hs : list nat) (K : nat -> R * R * R * R) : list tripletR := concat (map (fun e => l0_triplets (N := NumR) e (idx4 (nth e hs 0%nat)) (K (nth e hs 0%nat))) (seq 0 (length hs))).
Lemma matrix_ok (row : nat -> ptr -> M NumR (list tripletR)) hs K : (forall e h, In h hs -> row e (Some h) m = Ok (l0_triplets (N := NumR) e (idx4 h) (K h), m)) -> l0_matrix (N := NumR) row (map Some hs) m = Ok (mat hs K, m).
Proof.
  intros Hrow. unfold l0_matrix. rewrite map_length.
  assert (Q : forall l s (c : nat -> nat), incl l hs -> mmap (fun e => row (fst e) (snd e)) (combine (seq s (length l)) (map Some l)) m = Ok (map (fun e => l0_triplets (N := NumR) e (idx4 (nth (e - s) l 0%nat)) (K (nth (e - s) l 0%nat))) (seq s (length l)), m)).
  { induction l as [|h l IH]; intros s c Hi; [reflexivity|]. cbn [length seq map combine mmap fst snd]. rewrite (bind_ok _ _ _ _ _ (Hrow s h (Hi h (or_introl eq_refl)))).
    rewrite (bind_ok _ _ _ _ _ (IH (S s) c (fun x Hx => Hi x (or_intror Hx)))). rewrite Nat.sub_diag. cbn [nth]. unfold ret. do 3 f_equal. apply map_ext_in. intros e He. apply in_seq in He. replace (e - s)%nat with (S (e - S s)) by lia. reflexivity. }
  rewrite (bind_ok _ _ _ _ _ (Q hs 0%nat (fun x => x) (incl_refl _))). unfold ret, mat. do 3 f_equal. apply map_ext. intros e. rewrite Nat.sub_0_r. reflexivity.
Qed.
Lemma row_ok e h : In h (m_hes m) -> l0_row (N := NumR) e (Some h) m = Ok (l0_triplets (N := NumR) e (idx4 h) Rk, m).
Proof. intros Hh. unfold l0_row. rewrite (bind_ok _ _ _ _ _ (proj1 (corners_ok h Hh))), (bind_ok _ _ _ _ _ (indices_ok h Hh)). reflexivity. Qed.
Lemma drow_ok e h : In h (m_hes m) -> l0_drow (N := NumR) e (Some h) m = Ok (l0_triplets (N := NumR) e (idx4 h) (Dk h), m).
Proof.
  intros Hh. destruct (corners_ok h Hh) as (E & I1 & I2 & I3 & I4). unfold l0_drow. rewrite (bind_ok _ _ _ _ _ E), (bind_ok _ _ _ _ _ (indices_ok h Hh)).
  rewrite (bind_ok _ _ _ _ _ (pos_read m _ Wm I1)), (bind_ok _ _ _ _ _ (pos_read m _ Wm I2)), (bind_ok _ _ _ _ _ (pos_read m _ Wm I3)), (bind_ok _ _ _ _ _ (pos_read m _ Wm I4)). reflexivity.
Qed.
(** A row of the matrix applied to a vector. *)
Definition comb1 (k : R * R * R * R) (x : nat -> R) (h : nat) : R := let '(k1, k2, k3, k4) := k in k1 * x (ix (c1 m h)) + k2 * x (ix (c2 m h)) + k3 * x (ix (c3 m h)) + k4 * x (ix (c4 m h)).
Lemma mat_app hs K x e : incl hs (m_hes m) -> (e < length hs)%nat -> app n (entryR (mat hs K)) x e = comb1 (K (nth e hs 0%nat)) x (nth e hs 0%nat).
Proof.
  intros Hi He. set (h := nth e hs 0%nat). assert (Ih : In h (m_hes m)) by (apply Hi, nth_In, He). destruct (corners_ok h Ih) as (_ & I1 & I2 & I3 & I4).
  apply ix_ok in I1 as (L1 & _). apply ix_ok in I2 as (L2 & _). apply ix_ok in I3 as (L3 & _). apply ix_ok in I4 as (L4 & _).
  assert (Ent : forall j, entryR (mat hs K) e j = let '(k1, k2, k3, k4) := K h in (if Nat.eqb (ix (c1 m h)) j then k1 else 0) + (if Nat.eqb (ix (c2 m h)) j then k2 else 0) + (if Nat.eqb (ix (c3 m h)) j then k3 else 0) + (if Nat.eqb (ix (c4 m h)) j then k4 else 0)).
  { intros j. rewrite entry_sum. unfold mat. rewrite concat_map_sum. set (F := fun t : tripletR => if at_pos e j t then val t else 0).
    assert (Z0 : forall a b : nat, (Z.of_nat a =? Z.of_nat b)%Z = Nat.eqb a b) by (intros a b; destruct (Nat.eqb_spec a b) as [-> | Ne]; [apply Z.eqb_refl|apply Z.eqb_neq; lia]).
    rewrite (rsum_ext _ (fun k => if Nat.eqb e k then rsum (map F (l0_triplets (N := NumR) e (idx4 h) (K h))) else 0)).
    - rewrite <- (sum_to_list 0%nat (fun k => if Nat.eqb e k then rsum (map F (l0_triplets (N := NumR) e (idx4 h) (K h))) else 0) (seq 0 (length hs))). rewrite seq_length.
      rewrite (sum_to_ext (length hs) _ (fun k => if Nat.eqb e k then rsum (map F (l0_triplets (N := NumR) e (idx4 h) (K h))) else 0)) by (intros k Hk; rewrite seq_nth by exact Hk; reflexivity). rewrite sum_to_one by exact He.
      destruct (K h) as [[[k1 k2] k3] k4]. unfold l0_triplets, idx4, F, at_pos, val. cbn [map rsum fold_right fst snd]. rewrite !Z0, Nat.eqb_refl. cbn [andb]. lra.
    - intros k _. destruct (Nat.eqb_spec e k) as [<- | Ne]; [reflexivity|]. destruct (K (nth k hs 0%nat)) as [[[k1 k2] k3] k4]. unfold l0_triplets, idx4, F, at_pos, val. cbn [map rsum fold_right fst snd]. rewrite !Z0. destruct (Nat.eqb_spec k e); [congruence|]. cbn [andb]. lra. }
  unfold app. destruct (K h) as [[[k1 k2] k3] k4]. unfold comb1.
  rewrite (sum_to_ext n _ (fun j => ((if Nat.eqb (ix (c1 m h)) j then k1 * x (ix (c1 m h)) else 0) + (if Nat.eqb (ix (c2 m h)) j then k2 * x (ix (c2 m h)) else 0)) + (if Nat.eqb (ix (c3 m h)) j then k3 * x (ix (c3 m h)) else 0) + (if Nat.eqb (ix (c4 m h)) j then k4 * x (ix (c4 m h)) else 0))).
  - rewrite !sum_to_plus, !sum_to_one by assumption. reflexivity.
  - intros j Hj. rewrite Ent. assert (G : forall a k, (if Nat.eqb a j then k else 0) * x j = if Nat.eqb a j then k * x a else 0) by (intros a k; destruct (Nat.eqb_spec a j) as [-> |]; ring).
    rewrite !Rmult_plus_distr_r, !G. reflexivity.
Qed.
(** ** One round *)
Lemma nsum_sum k (f : nat -> R) : @nsum NumR k f = sum_to k f.
Proof.
  unfold nsum. assert (E : fold_left (fun s j => @nadd NumR s (f j)) (seq 0 k) 0 = 0 + rsum (map f (seq 0 k))) by exact (fold_sum f (seq 0 k) 0). 
  transitivity (0 + rsum (map f (seq 0 k))); [exact E|]. rewrite Rplus_0_l. rewrite <- (sum_to_list 0%nat f (seq 0 k)), seq_length. apply sum_to_ext. intros i Hi. rewrite seq_nth by exact Hi. reflexivity.
Qed.
Definition of_l (X : list (vec NumR)) (v : nat) : vec NumR := nth (ix v) X vzero.
Section Round.
Variables (hs : list nat) (K : nat -> R * R * R * R) (al be : R).
Hypothesis Hi : incl hs (m_hes m).
Notation k := (length hs).
Notation RM := (entryR (mat hs (fun _ => Rk))).
Notation DM := (entryR (mat hs K)).
Notation hat e := (nth e hs 0%nat).
Lemma comb_coord K0 (X : nat -> vec NumR) e : (e < k)%nat ->
  app n (entryR (mat hs K0)) (fun i => vx (X (vat m i))) e = vx (comb m (K0 (hat e)) X (hat e)) /\
  app n (entryR (mat hs K0)) (fun i => vy (X (vat m i))) e = vy (comb m (K0 (hat e)) X (hat e)) /\
  app n (entryR (mat hs K0)) (fun i => vz (X (vat m i))) e = vz (comb m (K0 (hat e)) X (hat e)).
Proof.
  intros He. assert (Ih : In (hat e) (m_hes m)) by (apply Hi, nth_In, He). destruct (corners_ok (hat e) Ih) as (_ & I1 & I2 & I3 & I4).
  apply ix_ok in I1 as (_ & _ & V1). apply ix_ok in I2 as (_ & _ & V2). apply ix_ok in I3 as (_ & _ & V3). apply ix_ok in I4 as (_ & _ & V4).
  rewrite !mat_app by assumption. unfold comb, comb1, lin4. destruct (K0 (hat e)) as [[[k1 k2] k3] k4]. rewrite V1, V2, V3, V4.
  destruct (X (c1 m (hat e))), (X (c2 m (hat e))), (X (c3 m (hat e))), (X (c4 m (hat e))). unfold vadd, Vec.vscale. rn. split; [|split]; ring.
Qed.
Lemma energy_eq P0 dl X : energy m hs K al be P0 dl X =
  lsq n k RM DM al be (fun i => vx (P0 (vat m i))) (fun e => vx (dl (hat e))) (fun i => vx (X (vat m i))) +
  lsq n k RM DM al be (fun i => vy (P0 (vat m i))) (fun e => vy (dl (hat e))) (fun i => vy (X (vat m i))) +
  lsq n k RM DM al be (fun i => vz (P0 (vat m i))) (fun e => vz (dl (hat e))) (fun i => vz (X (vat m i))).
Proof.
  unfold energy, lsq.
  assert (A : total (map (fun v => sqlen (Vec.vsub (X v) (P0 v))) (m_verts m)) = sum_to n (fun i => sq (vx (X (vat m i)) - vx (P0 (vat m i)))) + sum_to n (fun i => sq (vy (X (vat m i)) - vy (P0 (vat m i)))) + sum_to n (fun i => sq (vz (X (vat m i)) - vz (P0 (vat m i))))).
  { change (total (map (fun v => sqlen (Vec.vsub (X v) (P0 v))) (m_verts m))) with (rsum (map (fun v => sqlen (Vec.vsub (X v) (P0 v))) (m_verts m))). rewrite <- (sum_to_list 0%nat (fun v => sqlen (Vec.vsub (X v) (P0 v)))). rewrite <- !sum_to_plus. apply sum_to_ext. intros i _. unfold vat.
    destruct (X (nth i (m_verts m) 0%nat)), (P0 (nth i (m_verts m) 0%nat)). unfold sqlen, vsub, vadd, vneg, sq. rn. ring. }
  assert (B : forall K0 d, total (map (fun h => sqlen (Vec.vsub (comb m (K0 h) X h) (d h))) hs) =
     sum_to k (fun e => sq (app n (entryR (mat hs K0)) (fun i => vx (X (vat m i))) e - vx (d (hat e)))) + sum_to k (fun e => sq (app n (entryR (mat hs K0)) (fun i => vy (X (vat m i))) e - vy (d (hat e)))) + sum_to k (fun e => sq (app n (entryR (mat hs K0)) (fun i => vz (X (vat m i))) e - vz (d (hat e))))).
  { intros K0 d. change (total (map (fun h => sqlen (Vec.vsub (comb m (K0 h) X h) (d h))) hs)) with (rsum (map (fun h => sqlen (Vec.vsub (comb m (K0 h) X h) (d h))) hs)).
    rewrite <- (sum_to_list 0%nat (fun h => sqlen (Vec.vsub (comb m (K0 h) X h) (d h)))). rewrite <- !sum_to_plus. apply sum_to_ext. intros e He. destruct (comb_coord K0 X e He) as (-> & -> & ->).
    destruct (comb m (K0 (hat e)) X (hat e)), (d (hat e)). unfold sqlen, vsub, vadd, vneg, sq. rn. ring. }
  assert (C : total (map (fun h => sqlen (comb m (1, -1, 1, -1) X h)) hs) = total (map (fun h => sqlen (Vec.vsub (comb m Rk X h) vzero)) hs)).
  { f_equal. apply map_ext. intros h. change (1, -1, 1, -1) with Rk. destruct (comb m Rk X h). unfold sqlen, vsub, vadd, vneg, vzero, vfill. rn. ring. }
  rewrite A, C, (B (fun _ => Rk) (fun _ => vzero)), (B K dl).
  assert (D : forall f : nat -> R, sum_to k (fun e => sq (f e - 0)) = sum_to k (fun e => sq (f e))) by (intros f; apply sum_to_ext; intros; unfold sq; ring).
  unfold vzero, vfill. rn. rewrite !D. ring.
Qed.
Lemma l0A_eq i j : @l0_A NumR k (mat hs (fun _ => Rk)) (mat hs K) al be i j = lsA k RM DM al be i j.
Proof. unfold l0_A, lsA. rewrite !nsum_sum. rn. reflexivity. Qed.
Lemma nth_map_seq {A} (f : nat -> A) d i c : (i < c)%nat -> nth i (map f (seq 0 c)) d = f i.
Proof. intros H. rewrite (nth_indep _ d (f 0%nat)) by (rewrite map_length, seq_length; exact H). rewrite map_nth, seq_nth by exact H. reflexivity. Qed.
Lemma l0b_eq P0 dl i : (i < n)%nat -> let b := nth i (@l0_bb NumR k n (mat hs K) be P0 dl) vzero in
  vx b = lsb k DM be (fun i => vx (nth i P0 vzero)) (fun e => vx (dl e)) i /\ vy b = lsb k DM be (fun i => vy (nth i P0 vzero)) (fun e => vy (dl e)) i /\ vz b = lsb k DM be (fun i => vz (nth i P0 vzero)) (fun e => vz (dl e)) i.
Proof.
  intros Hin. cbv zeta. unfold l0_bb. rewrite nth_map_seq by exact Hin. unfold vadd, vlin, at_row, lsb. rn. rewrite !nsum_sum. auto.
Qed.
Lemma of_vat X i : (i < n)%nat -> of_l X (vat m i) = nth i X vzero.
Proof. intros Hv. unfold of_l. rewrite ix_vat by exact Hv. reflexivity. Qed.
Definition cut (thr : R) (P : nat -> vec NumR) (h : nat) : vec NumR := let y := comb m (K h) P h in if Rlt_dec (sqlen y) thr then vzero else y.
Lemma delta_eq P thr e : (e < k)%nat -> @l0_delta NumR n (mat hs K) P thr e = cut thr (of_l P) (hat e).
Proof.
  intros He. destruct (comb_coord K (of_l P) e He) as (E1 & E2 & E3). unfold l0_delta, cut. cbv zeta.
  assert (Y : @vlin NumR n (entryR (mat hs K) e) (at_row P) = comb m (K (hat e)) (of_l P) (hat e)).
  { unfold vlin, at_row. destruct (comb m (K (hat e)) (of_l P) (hat e)) as [a b c]. rn. rewrite !nsum_sum. f_equal; rewrite <- ?E1, <- ?E2, <- ?E3; unfold app; apply sum_to_ext; intros j Hj; rewrite of_vat by exact Hj; reflexivity. }
  rewrite Y. generalize (comb m (K (hat e)) (of_l P) (hat e)). intros c. change (@nltb NumR) with Rltb. unfold Rltb, sqlen. rn. destruct (Rlt_dec _ thr); reflexivity.
Qed.
Hypothesis Hal : 0 <= al.
Hypothesis Hbe : 0 <= be.
Lemma lsb_ext p d d' i : (forall e, (e < k)%nat -> d e = d' e) -> lsb k DM be p d i = lsb k DM be p d' i.
Proof. intros H. unfold lsb. f_equal. apply sum_to_ext. intros e He. rewrite (H e He). reflexivity. Qed.
Definition l0_system (lam : R) (P0 P P' : list (vec NumR)) : Prop :=
  solution n (@l0_A NumR k (mat hs (fun _ => Rk)) (mat hs K) al be) (@l0_bb NumR k n (mat hs K) be P0 (@l0_delta NumR n (mat hs K) P (lam / be))) P'.
Lemma solution_ls lam P0 P P' : l0_system lam P0 P P' ->
  let dl := cut (lam / be) (of_l P) in
  length P' = n /\
  (forall i, (i < n)%nat -> sum_to n (fun j => lsA k RM DM al be i j * vx (of_l P' (vat m j))) = lsb k DM be (fun i => vx (of_l P0 (vat m i))) (fun e => vx (dl (hat e))) i) /\
  (forall i, (i < n)%nat -> sum_to n (fun j => lsA k RM DM al be i j * vy (of_l P' (vat m j))) = lsb k DM be (fun i => vy (of_l P0 (vat m i))) (fun e => vy (dl (hat e))) i) /\
  (forall i, (i < n)%nat -> sum_to n (fun j => lsA k RM DM al be i j * vz (of_l P' (vat m j))) = lsb k DM be (fun i => vz (of_l P0 (vat m i))) (fun e => vz (dl (hat e))) i).
Proof.
  intros (_ & L & H) dl. split; [exact L|].
  assert (G : forall (g : vec NumR -> R), (forall i, (i < n)%nat -> sum_to n (fun j => @l0_A NumR k (mat hs (fun _ => Rk)) (mat hs K) al be i j * g (nth j P' vzero)) = lsb k DM be (fun i => g (nth i P0 vzero)) (fun e => g (@l0_delta NumR n (mat hs K) P (lam / be) e)) i) ->
    forall i, (i < n)%nat -> sum_to n (fun j => lsA k RM DM al be i j * g (of_l P' (vat m j))) = lsb k DM be (fun i => g (of_l P0 (vat m i))) (fun e => g (dl (hat e))) i).
  { intros g Hg i Hin. rewrite (sum_to_ext n _ (fun j => @l0_A NumR k (mat hs (fun _ => Rk)) (mat hs K) al be i j * g (nth j P' vzero))) by (intros j Hj; rewrite l0A_eq, of_vat by exact Hj; reflexivity).
    rewrite (Hg i Hin). rewrite (lsb_ext _ _ (fun e => g (dl (hat e)))) by (intros e He; rewrite delta_eq by exact He; reflexivity). unfold lsb. rewrite of_vat by exact Hin. reflexivity. }
  split; [|split]; apply G; intros i Hin; destruct (H i Hin) as (H1 & H2 & H3); destruct (l0b_eq P0 (@l0_delta NumR n (mat hs K) P (lam / be)) i Hin) as (B1 & B2 & B3).
  - exact (eq_trans H1 B1).
  - exact (eq_trans H2 B2).
  - exact (eq_trans H3 B3).
Qed.
Theorem round_ok lam P0 P P' : l0_system lam P0 P P' -> l0_round m hs K (of_l P0) lam al be (of_l P) (of_l P').
Proof.
  intros Sy. destruct (solution_ls lam P0 P P' Sy) as (L & E1 & E2 & E3). exists (cut (lam / be) (of_l P)). split.
  - intros h Hh. cbv zeta. unfold cut. cbv zeta. destruct (Rlt_dec (sqlen (comb m (K h) (of_l P) h)) (lam / be)); split; intros; try reflexivity; lra.
  - intros X. rewrite !energy_eq.
    destruct (ls_min n k RM DM al be _ _ Hal Hbe _ (fun i => vx (X (vat m i))) E1) as (M1 & U1). destruct (ls_min n k RM DM al be _ _ Hal Hbe _ (fun i => vy (X (vat m i))) E2) as (M2 & U2). destruct (ls_min n k RM DM al be _ _ Hal Hbe _ (fun i => vz (X (vat m i))) E3) as (M3 & U3).
    split; [lra|]. intros E v Iv. destruct (vat_of m v Iv) as (i & Hin & ->). assert (Q1 := U1 ltac:(lra) i Hin). assert (Q2 := U2 ltac:(lra) i Hin). assert (Q3 := U3 ltac:(lra) i Hin).
    destruct (X (vat m i)), (of_l P' (vat m i)). cbn [Vec.vx Vec.vy Vec.vz] in *. congruence.
Qed.
Theorem system_solvable lam P0 P : length P0 = n -> exists P', l0_system lam P0 P P'.
Proof.
  intros L0. set (dl := cut (lam / be) (of_l P)).
  assert (X : forall g : vec NumR -> R, exists x, forall i, (i < n)%nat -> sum_to n (fun j => lsA k RM DM al be i j * x j) = lsb k DM be (fun i => g (of_l P0 (vat m i))) (fun e => g (dl (hat e))) i) by (intros g; apply ls_exists; assumption).
  destruct (X (@Vec.vx NumR)) as (x & Hx). destruct (X (@Vec.vy NumR)) as (y & Hy). destruct (X (@Vec.vz NumR)) as (z & Hz).
  exists (map (fun i => V3 (N := NumR) (x i) (y i) (z i)) (seq 0 n)). split; [unfold l0_bb; rewrite map_length, seq_length; reflexivity|]. split; [rewrite map_length, seq_length; reflexivity|].
  intros i Hin. destruct (l0b_eq P0 (@l0_delta NumR n (mat hs K) P (lam / be)) i Hin) as (B1 & B2 & B3).
  assert (Sx : forall (u : nat -> R) (g : vec NumR -> R) (b : R), (forall j, (j < n)%nat -> g (nth j (map (fun i => V3 (N := NumR) (x i) (y i) (z i)) (seq 0 n)) vzero) = u j) ->
     sum_to n (fun j => lsA k RM DM al be i j * u j) = lsb k DM be (fun i => g (of_l P0 (vat m i))) (fun e => g (dl (hat e))) i -> b = lsb k DM be (fun i => g (nth i P0 vzero)) (fun e => g (@l0_delta NumR n (mat hs K) P (lam / be) e)) i ->
     sum_to n (fun j => @l0_A NumR k (mat hs (fun _ => Rk)) (mat hs K) al be i j * g (nth j (map (fun i => V3 (N := NumR) (x i) (y i) (z i)) (seq 0 n)) vzero)) = b).
  { intros u g b Hu E ->. rewrite (sum_to_ext n _ (fun j => lsA k RM DM al be i j * u j)) by (intros j Hj; rewrite l0A_eq, Hu by exact Hj; reflexivity). rewrite E.
    rewrite (lsb_ext _ _ (fun e => g (dl (hat e))) i (fun e He => f_equal g (delta_eq P (lam / be) e He))). unfold lsb. rewrite of_vat by exact Hin. reflexivity. }
  split; [|split]; [apply (Sx x (@Vec.vx NumR))|apply (Sx y (@Vec.vy NumR))|apply (Sx z (@Vec.vz NumR))]; try assumption; try (apply Hx || apply Hy || apply Hz; exact Hin); intros j Hj; rewrite nth_map_seq by exact Hj; reflexivity.
Qed.
Theorem system_unique lam P0 P P1 P2 : l0_system lam P0 P P1 -> l0_system lam P0 P P2 -> P1 = P2.
Proof.
  intros S1 S2. destruct (round_ok lam P0 P P1 S1) as (d1 & D1 & M1). destruct (round_ok lam P0 P P2 S2) as (d2 & D2 & M2).
  assert (Ed : forall X, energy m hs K al be (of_l P0) d1 X = energy m hs K al be (of_l P0) d2 X).
  { intros X. unfold energy. f_equal. f_equal. f_equal. apply map_ext_in. intros h Hh. destruct (D1 h Hh) as [A1 B1]. destruct (D2 h Hh) as [A2 B2]. cbv zeta in *.
    destruct (Rlt_dec (sqlen (comb m (K h) (of_l P) h)) (lam / be)) as [Lt|Ge]; [rewrite A1, A2 by exact Lt; reflexivity|rewrite B1, B2 by lra; reflexivity]. }
  destruct (M1 (of_l P2)) as [X1 U1]. destruct (M2 (of_l P1)) as [X2 U2]. rewrite !Ed in X1. assert (Q : forall v, In v (m_verts m) -> of_l P2 v = of_l P1 v) by (apply U1; rewrite !Ed; lra).
  destruct (solution_ls lam P0 P P1 S1) as (L1 & _). destruct (solution_ls lam P0 P P2 S2) as (L2 & _).
  apply (nth_ext P1 P2 vzero vzero); [congruence|]. intros i Hin. assert (Hi' : (i < n)%nat) by (rewrite <- L1; exact Hin). rewrite <- !of_vat by exact Hi'. symmetry. apply Q, vat_in, Hi'.
Qed.
End Round.
End W.
