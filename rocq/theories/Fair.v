(** implicitFairing with an exact solver. *)
From Coq Require Import Reals Lra Bool List ZArith Arith Lia Permutation.
From Verif Require Import Num NumInst Vec VecR Heap Mesh Construct Spec BuildSpec GeomSpec Orbit Rings Queries MeasureM SmoothSpec Smooth SmoothP SmoothD SmoothR Lapl LaplSpec LaplP LaplM FilterSpec SmoothF.
Import ListNotations.
Local Open Scope R_scope.

Section W.
Variable m : mesh NumR.
Hypothesis Wm : WF m.
Notation n := (length (m_verts m)).
Definition fw (i y : nat) : R := w_cot m y / rsum (map (w_cot m) (vert_ring m i)).
Definition frow (i : nat) : list tripletR := map (fun y => (Z.of_nat i, didx m y, fw i y)) (vert_ring m i) ++ [(Z.of_nat i, Z.of_nat i, -1)].
Definition fmat : list tripletR := concat (map frow (seq 0 n)).
Lemma fair_row_ok i : (i < n)%nat -> fair_row i m = Ok (frow i, m).
Proof.
  intros Hi. destruct (ring_head m Wm i Hi) as (h & l & Eh & Hr & El). unfold fair_row. rewrite (bind_ok _ _ _ _ _ (vertex_read m i Hi)).
  erewrite bind_ok; cycle 1.
  { apply (circ_v_ok m Wm (vat m i) h l _ (fun acc y => ((fst acc ++ [(Z.of_nat i, didx m y, w_cot m y)], @nadd NumR (snd acc) (w_cot m y)), false)) _ (vat_in m i Hi) Eh Hr).
    intros y a Hy _. destruct (dst_idx m Wm y Hy) as (d & D & _ & _ & I). rewrite (bind_ok _ _ _ _ _ (cot_ok m Wm y Hy)), (bind_ok _ _ _ _ _ D), (bind_ok _ _ _ _ _ I). reflexivity. }
  rewrite (bfold_fold (fun acc y => (fst acc ++ [(Z.of_nat i, didx m y, w_cot m y)], @nadd NumR (snd acc) (w_cot m y)))). rewrite (fold_pair (fun y => (Z.of_nat i, didx m y, w_cot m y)) (w_cot m)). cbn [fst snd app]. unfold ret, frow. rewrite El. do 2 f_equal.
  f_equal. rewrite map_map. apply map_ext. intros y. cbn [fst snd]. unfold fw. rewrite El. f_equal. change (@nzero NumR) with 0. rewrite Rplus_0_l. reflexivity.
Qed.
Lemma fmat_entry i j : (i < n)%nat -> (j < n)%nat -> entryR fmat i j = (if Nat.eqb i j then -1 else 0) + rsum (map (fw i) (between m (vat m i) (vat m j))).
Proof.
  intros Hi Hj. rewrite entry_sum. unfold fmat. rewrite concat_map_sum.
  set (F := fun t : tripletR => if at_pos i j t then val t else 0).
  assert (R0 : forall k, rsum (map F (frow k)) = if Nat.eqb i k then rsum (map F (frow k)) else 0).
  { intros k. destruct (Nat.eqb_spec i k) as [-> | Ne]; [reflexivity|]. unfold frow. rewrite map_app, rsum_app, map_map. cbn [map]. unfold F at 2, at_pos, val. cbn [fst snd]. destruct (Z.eqb_spec (Z.of_nat k) (Z.of_nat i)); [lia|]. cbn [andb].
    rewrite (rsum_ext _ (fun _ => 0 * 0)), rsum_scal; [rewrite Rmult_0_l; cbn; lra|]. intros x _. unfold F, at_pos, val. cbn [fst snd]. destruct (Z.eqb_spec (Z.of_nat k) (Z.of_nat i)); [lia|]. cbn [andb]. lra. }
  assert (E1 : rsum (map (fun k => rsum (map F (frow k))) (seq 0 n)) = rsum (map F (frow i))).
  { rewrite (rsum_ext _ (fun k => if Nat.eqb i k then rsum (map F (frow i)) else 0)) by (intros k _; rewrite (R0 k); destruct (Nat.eqb_spec i k) as [-> |]; reflexivity).
    rewrite <- (sum_to_list 0%nat (fun k => if Nat.eqb i k then rsum (map F (frow i)) else 0) (seq 0 n)). rewrite seq_length.
    rewrite (sum_to_ext n _ (fun k => if Nat.eqb i k then rsum (map F (frow i)) else 0)) by (intros k Hk; rewrite seq_nth by exact Hk; reflexivity). apply sum_to_one, Hi. }
  rewrite E1. unfold frow. rewrite map_app, rsum_app, map_map. cbn [map]. unfold F at 2, at_pos, val. cbn [fst snd]. rewrite Z.eqb_refl. cbn [andb].
  assert (E2 : rsum (map (fun x => F (Z.of_nat i, didx m x, fw i x)) (vert_ring m i)) = rsum (map (fw i) (between m (vat m i) (vat m j)))).
  { unfold between. rewrite rsum_filter. rewrite (rsum_perm _ _ (Permutation_map _ (ring_out m Wm i Hi))).
    apply rsum_ext. intros h Hh. apply out_in in Hh as [Hh _]. unfold F, at_pos, val. cbn [fst snd]. rewrite Z.eqb_refl. cbn [andb]. rewrite (didx_vat m Wm h j Hh Hj). destruct (ptr_eqb (dst_of m h) (Some (vat m j))); lra. }
  rewrite E2. rewrite rsum_cons. cbn [rsum fold_right].
  destruct (Nat.eqb_spec i j) as [-> | Ne]; [rewrite Z.eqb_refl; lra|]. destruct (Z.eqb_spec (Z.of_nat i) (Z.of_nat j)); [lia|]. lra.
Qed.
Definition famat (eps : R) (i j : nat) : R := @nsub NumR (if Nat.eqb i j then @none_ NumR else @nzero NumR) (@nmul NumR eps (entryR fmat i j)).
Lemma fair_matrix_ok eps : fair_matrix eps m = Ok (famat eps, m).
Proof.
  unfold fair_matrix. rewrite bind_get. assert (Q : mmap fair_row (seq 0 n) m = Ok (map frow (seq 0 n), m)) by (apply mmap_all; intros i Hi; apply in_seq in Hi; apply fair_row_ok; lia). rewrite (bind_ok _ _ _ _ _ Q). reflexivity.
Qed.
Lemma read_pos : mmap (fun v => ve_pos (Some v)) (m_verts m) m = Ok (positions m, m).
Proof. apply (mmap_all _ (v_pos m)). intros v Iv. apply r_pos, (v_alive m Wm), Iv. Qed.
Lemma fair_sum eps (x : nat -> R) i : (i < n)%nat ->
  sum_to n (fun j => famat eps i j * x j) = (1 + eps) * x i - eps * rsum (map (fun y => fw i y * at_ m x (dst_of m y)) (out m (vat m i))).
Proof.
  intros Hi. rewrite (sum_to_ext n _ (fun j => (if Nat.eqb i j then (1 + eps) * x i else 0) + (- eps) * rsum (map (fun y => fw i y * at_ m x (dst_of m y)) (between m (vat m i) (vat m j))))).
  - rewrite sum_to_plus, sum_to_one, sum_to_scal by exact Hi. unfold vat at 2. rewrite (sum_to_list 0%nat (fun v => rsum (map (fun y => fw i y * at_ m x (dst_of m y)) (between m (vat m i) v))) (m_verts m)). unfold between.
    rewrite (rsum_key (fun y => fw i y * at_ m x (dst_of m y)) (dst_of m) (m_verts m) (wf_v_nodup m Wm) (out m (vat m i))) by (intros h Hh; apply out_in in Hh as [Hh _]; apply (dst_some m Wm), Hh). lra.
  - intros j Hj. unfold famat. rewrite fmat_entry by assumption. change (@nsub NumR) with Rminus. change (@nmul NumR) with Rmult. change (@none_ NumR) with 1. change (@nzero NumR) with 0.
    assert (E : rsum (map (fun y => fw i y * at_ m x (dst_of m y)) (between m (vat m i) (vat m j))) = x j * rsum (map (fw i) (between m (vat m i) (vat m j)))).
    { rewrite <- rsum_scal. apply rsum_ext. intros y Hy. apply between_in in Hy as (_ & _ & Dy). rewrite Dy, (at_vat m Wm x j Hj). ring. }
    rewrite E. destruct (Nat.eqb_spec i j) as [<- | Ne]; ring.
Qed.
Lemma fair_write_ok (X : list (vec NumR)) m' : fair_write X m = Ok (tt, m') -> posonly m m' /\ forall i, (i < n)%nat -> nth_error X i = Some (v_pos m' (vat m i)).
Proof.
  unfold fair_write. rewrite bind_get. intros H.
  assert (G : forall k m1, (k <= n)%nat -> posonly m m1 -> (forall i, (i < n - k)%nat -> nth_error X i = Some (v_pos m1 (vat m i))) ->
     mfold (fun _ i => bind (mesh_vertex (Z.of_nat i)) (fun v => match nth_error X i with Some x => w_pos v x | None => ub OutOfBounds end)) tt (seq (n - k) k) m1 = Ok (tt, m') ->
     posonly m m' /\ forall i, (i < n)%nat -> nth_error X i = Some (v_pos m' (vat m i))).
  { clear H. induction k as [|k IH]; intros m1 Hk P B H.
    - cbn [seq mfold] in H. injection H as <-. split; [exact P|]. intros i Hi. apply B. lia.
    - cbn [seq mfold] in H. assert (Hi : (n - S k < n)%nat) by lia. set (i := (n - S k)%nat) in *.
      assert (Ev : mesh_vertex (Z.of_nat i) m1 = Ok (Some (vat m i), m1)) by (rewrite mesh_vertex_eq, (posonly_verts m m1 P), (vat_nth m i Hi); reflexivity).
      assert (Lv : v_live m1 (vat m i) = true) by (rewrite (po_eq m m1 P); apply (v_alive m Wm), vat_in, Hi).
      unfold bind at 1 in H. unfold bind at 1 in H. rewrite Ev in H. destruct (nth_error X i) as [x|] eqn:Ex; [|discriminate]. rewrite (ww_pos m1 _ x Lv) in H.
      replace (S i) with (n - k)%nat in H by lia. apply IH in H; [exact H|lia|apply posonly_set; [exact P|apply vat_in, Hi]|].
      intros j Hj. cbn [v_pos set_v_pos]. destruct (Nat.eq_dec j i) as [-> | Ne]; [rewrite fupd_same; exact Ex|]. rewrite fupd_other; [apply B; lia|]. intros E. apply Ne. apply (vat_inj m Wm j i); [lia|exact Hi|congruence]. }
  apply (G n m); [lia|apply posonly_refl|lia|]. rewrite Nat.sub_diag. exact H.
Qed.
End W.

Theorem fair_computes eps (m m' : mesh NumR) : Valid m -> fair_step (N := NumR) solution eps m (Ok m') -> fairing_step eps m m'.
Proof.
  intros V H. assert (W := valid_wf m V). assert (NP := valid_noparallel m V). inversion H as [A m1 X X' m2 m'' HA HX HS HW]. subst m''.
  rewrite (fair_matrix_ok m W eps) in HA. injection HA as <- <-. rewrite (read_pos m W) in HX. injection HX as <- <-.
  destruct (fair_write_ok m W X' m' HW) as [P Q]. split; [exact P|]. intros v Iv NB. destruct (vat_of m v Iv) as (i & Hi & ->). assert (Hin := out_in m (vat m i)).
  set (L := out m (vat m i)) in *. set (WW := fun u => w_cot m (hd 0%nat (between m (vat m i) u))).
  assert (EW : forall y, In y L -> WW (dst_n m y) = w_cot m y). { intros y Hy. apply Hin in Hy as [Iy Sy]. unfold WW. rewrite (between_one m W NP y (vat m i) (dst_n m y) Iy Sy (dst_n_ok m V y Iy)). reflexivity. }
  assert (Hnd : NoDup L) by apply NoDup_filter, (wf_h_nodup m W).
  exists (map (dst_n m) L), WW. split; [|split; [|split]].
  - clear - V NP Hnd Hin. assert (J : forall x y, In x L -> In y L -> dst_n m x = dst_n m y -> x = y).
    { intros x y Hx Hy E. apply Hin in Hx as [Ix Sx]. apply Hin in Hy as [Iy Sy]. apply NP; [exact Ix|exact Iy|congruence|]. rewrite (dst_n_ok m V x Ix), (dst_n_ok m V y Iy), E. reflexivity. }
    clear Hin. induction Hnd as [|x l Hx Hnd IH]; cbn [map]; constructor.
    + intros H. apply in_map_iff in H as (y & E & Hy). apply Hx. rewrite (J x y); [exact Hy|left; reflexivity|right; exact Hy|congruence].
    + apply IH. intros; apply J; try right; assumption.
  - intros u. rewrite in_map_iff. split.
    + intros (y & <- & Hy). apply Hin in Hy as [Iy Sy]. exists y. split; [exact Iy|]. split; [exact Sy|apply (dst_n_ok m V), Iy].
    + intros (y & Iy & Sy & Dy). exists y. split; [unfold dst_n; rewrite Dy; reflexivity|apply Hin; auto].
  - intros u (y & Iy & Sy & Dy). assert (E : u = dst_n m y) by (unfold dst_n; rewrite Dy; reflexivity). subst u. rewrite (EW y) by (apply Hin; auto). apply (cot_inner m V y _ _ Iy Sy Dy NB).
  - intros T. set (D := total (map WW (map (dst_n m) L))) in *. assert (ED : D = rsum (map (w_cot m) L)) by (unfold D, total; rewrite map_map; apply (rsum_ext _ _ L EW)).
    assert (EV : rsum (map (w_cot m) (vert_ring m i)) = D) by (rewrite ED; apply rsum_perm, Permutation_map, ring_out; assumption).
    set (num := fun g : vec NumR -> R => total (map (fun w => WW w * g (v_pos m' w)) (map (dst_n m) L))).
    exists (V3 (N := NumR) (num (@vx NumR) / D) (num (@vy NumR) / D) (num (@vz NumR) / D)). split.
    + unfold weighted_mean. cbn [vx vy vz]. fold D. split; [exact T|]. unfold num. split; [|split]; field; exact T.
    + destruct HS as (L1 & L2 & HS). destruct (HS i Hi) as (S1 & S2 & S3).
      assert (K : forall (g : vec NumR -> R), sum_to (length (m_verts m)) (fun j => famat m eps i j * g (nth j X' vzero)) = g (nth i (positions m) vzero) -> g (v_pos m (vat m i)) = (1 - - eps) * g (v_pos m' (vat m i)) + - eps * (num g / D)).
      { intros g E. rewrite (fair_sum m W eps (fun j => g (nth j X' vzero)) i Hi) in E.
        assert (Ep : nth i (positions m) vzero = v_pos m (vat m i)). { unfold positions. rewrite (nth_indep _ vzero (v_pos m 0%nat)) by (rewrite map_length; exact Hi). rewrite map_nth. reflexivity. }
        rewrite Ep in E. rewrite <- E. assert (EX : forall j, (j < length (m_verts m))%nat -> nth j X' vzero = v_pos m' (vat m j)) by (intros j Hj; apply nth_error_nth, Q, Hj). rewrite (EX i Hi).
        assert (Es : rsum (map (fun y => fw m i y * at_ m (fun j => g (nth j X' vzero)) (dst_of m y)) (out m (vat m i))) = num g / D); [|rewrite Es; ring].
        unfold num, total. rewrite map_map. unfold Rdiv. rewrite Rmult_comm. fold (rsum (map (fun x => WW (dst_n m x) * g (v_pos m' (dst_n m x))) L)). rewrite <- rsum_scal. apply rsum_ext. intros y Hy. rewrite (EW y Hy). apply Hin in Hy as [Iy _].
        unfold fw. rewrite EV, (dst_n_ok m V y Iy). destruct (dst_some m W y Iy) as (d & Ed & Id). rewrite (dst_n_ok m V y Iy) in Ed. injection Ed as Ed. rewrite Ed. destruct (vat_of m d Id) as (k & Hk & ->). rewrite (at_vat m W _ k Hk), (EX k Hk). unfold Rdiv. ring. }
      unfold towards. cbn [vx vy vz]. assert (R1 := K (@vx NumR) S1). assert (R2 := K (@vy NumR) S2). assert (R3 := K (@vz NumR) S3). clear - R1 R2 R3.
      destruct (v_pos m (vat m i)) as [a b c]. cbn [vx vy vz] in R1, R2, R3. rewrite R1, R2, R3. reflexivity.
Qed.
Theorem fairing_computes eps k : forall m m' : mesh NumR, Valid m -> implicitFairing (N := NumR) solution eps k m (Ok m') -> fairing_steps eps k m m'.
Proof.
  induction k as [|k IH]; intros m m' V H; inversion H; subst.
  - exists (fun _ => m'). split; [reflexivity|]. split; [reflexivity|]. intros i Hi. lia.
  - assert (S1 := fair_computes eps m m1 V H1). destruct (IH m1 m' (posonly_valid m m1 V (fs_same _ _ _ S1)) H2) as (ms & E0 & En & Hs).
    exists (fun i => match i with O => m | S j => ms j end). split; [reflexivity|]. split; [exact En|]. intros [|i] Hi; [rewrite E0; exact S1|]. apply Hs. lia.
Qed.
