(** Concrete repairs: a locked vertex that is removed, and a use of freed memory. *)
From Coq Require Import Reals Lra List ZArith Floats Bool Arith Lia.
From Verif Require Import Num NumInst Vec Heap Mesh Construct Spec EditSpec CollapseSpec Orbit Rings Exec BuildProps Witness Refute GeomSpec VecR Diamond Edits CollapseIff CollapseFlipW MeasureM Measure Repair RepairSpec RepairP.
Import ListNotations.

Local Ltac split_and H := repeat (apply andb_true_iff in H; let K := fresh "K" in destruct H as [H K]).

Definition ix_ico : list nat :=
  [0;1;2; 1;6;2; 2;6;7; 11;7;6; 0;2;3; 2;7;3; 3;7;8; 11;8;7; 0;3;4; 3;8;4; 4;8;9; 11;9;8; 0;4;5; 4;9;5; 5;9;10; 11;10;9; 0;5;1; 5;10;1; 1;10;6; 11;6;10].
(** A square antiprism with a pyramid on each square. *)
Definition ix_gyro : list nat := [0;1;2; 0;2;3; 0;3;4; 0;4;1; 1;5;2; 5;6;2; 2;6;3; 6;7;3; 3;7;4; 7;8;4; 4;8;1; 8;5;1; 6;5;9; 7;6;9; 8;7;9; 5;8;9].

Section F.
Variables (acosF expF : float -> float) (atan2F : float -> float -> float).
Notation NF := (Witness.NF acosF expF atan2F).
Notation pt := (Witness.pt acosF expF atan2F).

(** An icosahedron with a small top. *)
Definition ps_ico : list (vec NF) :=
  [pt 0 0 10; pt 10 0 0; pt 3 10 0; pt (-8) 6 0; pt (-8) (-6) 0; pt 3 (-10) 0; pt 324 235 (-500); pt (-124) 380 (-500); pt (-400) 0 (-500); pt (-124) (-380) (-500); pt 324 (-235) (-500); pt 0 0 (-990)]%float.
Definition is_dangling {A} (r : res A) : bool := match r with UB Dangling => true | _ => false end.
Lemma is_dangling_ok {A} (r : res A) : is_dangling r = true -> r = UB Dangling.
Proof. destruct r as [|[]| |]; intros H; try discriminate; reflexivity. Qed.
Definition with_val {A} (r : res (A * mesh NF)) (f : A -> bool) : bool := match r with Ok (a, _) => f a | _ => false end.
Lemma with_val_ok {A} (r : res (A * mesh NF)) f : with_val r f = true -> exists a m, r = Ok (a, m) /\ f a = true.
Proof. destruct r as [[a m]| | |]; intros H; try discriminate. exists a, m. auto. Qed.
Definition first_zero (l : list nat) : bool := match l with 0 :: _ => true | _ => false end.
Lemma first_zero_ok l : first_zero l = true -> exists l', l = 0 :: l'.
Proof. destruct l as [|[|] l]; intros H; try discriminate. exists l. reflexivity. Qed.
Lemma ico_check : with_mesh acosF expF atan2F (mesh_of ps_ico ix_ico) (fun m =>
  forallb (fun h => negb (h_bd m h)) (m_hes m) &&
  with_val (getMeanFaceArea m) (fun a => is_dangling (repair_faces 20 a [1] false m))) = true.
Proof. vm_cast_no_check (eq_refl true). Qed.
Lemma faces_dangling : exists ps ix (m : mesh NF) a m1, mesh_of ps ix = Ok m /\ Valid m /\ Closed m /\ getMeanFaceArea m = Ok (a, m1) /\ repair_faces 20 a [1] false m = UB Dangling.
Proof.
  assert (C := ico_check). apply with_ok in C as (m & E & C). split_and C. rewrite forallb_forall in C. apply with_val_ok in K as (a & m1 & Ea & K). apply is_dangling_ok in K. exists ps_ico, ix_ico, m, a, m1.
  split; [exact E|]. split; [apply mesh_of_ok in E; apply (construct_valid _ _ _ _ E)|]. split; [intros h Hh; apply negb_true_iff, C, Hh|]. split; [exact Ea|exact K].
Qed.

Definition ps_gyro : list (vec NF) := [pt 0 0 0; pt 1 0 0; pt 2 0 0; pt (-1) 1 0; pt 1 (-2) 0; pt 3 (-1) 0; pt 3 5 0; pt (-5) (-5) 0; pt 2 (-2) 0; pt 0 0 (-9)]%float.
Lemma gyro_check : with_mesh acosF expF atan2F (mesh_of ps_gyro ix_gyro) (fun m =>
  forallb (fun v => Nat.leb 3 (deg_of m v)) (m_verts m) && forallb (fun h => negb (h_bd m h)) (m_hes m) && existsb (Nat.eqb 11) (m_hes m) && first_zero (m_verts m) && existsb (Nat.eqb 1) (m_verts m) && ptr_eqb (h_src m 11) (Some 0) && ptr_eqb (dst_of m 11) (Some 1) &&
  match h_next m 11 with Some n => ptr_eqb (dst_of m n) (Some 2) | None => false end &&
  Nat.eqb (deg_of m 0) 4 && forallb (fun h => negb (ptr_eqb (h_src m h) (Some 0)) || match dst_of m h with Some w => Nat.eqb (deg_of m w) 5 | None => false end) (m_hes m) &&
  with_res acosF expF atan2F (v_neighbors (Some 1) m) (fun l _ => forallb (fun pq => ptr_eqb (fst pq) (snd pq)) (combine l (map Some [4;0;2;5;8])) && Nat.eqb (length l) 5) &&
  is_true acosF expF atan2F (collapseHE (Some 11) m)) = true.
Proof. vm_cast_no_check (eq_refl true). Qed.
Lemma gyro_facts : exists (m : mesh NF) u1 u3 f0 f1 l, (forall v, In v (m_verts m) -> 3 <= deg_of m v) /\ Valid m /\ Closed m /\ In 11 (m_hes m) /\ m_verts m = 0 :: l /\ In 1 (m_verts m) /\ h_src m 11 = Some 0 /\ dst_of m 11 = Some 1 /\
  (exists n, h_next m 11 = Some n /\ dst_of m n = Some 2) /\ deg_of m 0 = 4 /\ (forall w, adj m 0 w -> deg_of m w = 5) /\ Around m 1 [4;0;2;5;8] /\ CollapsibleAt m 11 0 u1 1 u3 f0 f1.
Proof.
  assert (C := gyro_check). apply with_ok in C as (m & E & C). split_and C. apply is_true_ok in K as (m' & EC). apply with_res_ok in K0 as (l & m1 & EN & K0). apply andb_true_iff in K0 as [KL KN]. apply Nat.eqb_eq in KN, K2.
  rewrite forallb_forall in C, K9, K1. apply ptr_eqb_eq in K4, K5. destruct (h_next m 11) as [n|] eqn:En; [|discriminate]. apply ptr_eqb_eq in K3. apply first_zero_ok in K7 as (vs & Ev).
  assert (V : Valid m) by (apply mesh_of_ok in E; apply (construct_valid _ _ _ _ E)). assert (W := valid_wf m V). apply existsb_exists in K8 as (x & I & K8). apply Nat.eqb_eq in K8. subst x. apply existsb_exists in K6 as (x & I0 & K6). apply Nat.eqb_eq in K6. subst x.
  assert (Cl : Closed m) by (intros h Hh; apply negb_true_iff, K9, Hh).
  destruct (vring m W 1 I0) as (h & r & Eh & R). rewrite (v_neighbors_ok m W 1 h r I0 Eh R) in EN. injection EN as EN _.
  assert (AR : Around m 1 [4;0;2;5;8]).
  { exists h, r. destruct R as (R1 & R2 & R3). split; [exact Eh|]. split; [exact R2|]. split; [exact R1|]. split; [exact R3|]. cbn [map]; rewrite EN.
    clear - KL KN. destruct l as [|a [|b [|c [|d [|e [|]]]]]]; try discriminate KN. cbn [map combine forallb fst snd] in KL. repeat (apply andb_true_iff in KL as [? KL]). repeat match goal with H : ptr_eqb _ _ = true |- _ => apply ptr_eqb_eq in H; rewrite H; clear H end. reflexivity. }
  assert (D5 : forall w, adj m 0 w -> deg_of m w = 5). { intros w (y & Iy & Sy & Dy). assert (Q := K1 y Iy). rewrite Sy, Dy in Q. cbn [ptr_eqb Nat.eqb negb orb] in Q. apply Nat.eqb_eq in Q. exact Q. }
  destruct (collapse_iff m V 11 I) as [[X _] | (u0 & u1 & u2 & u3 & f0 & f1 & CA & _)]; [congruence|].
  assert (u0 = 0 /\ u2 = 1) as [-> ->].
  { assert (D1 := D5 1 (ex_intro _ 11 (conj I (conj K5 K4)))). destruct CA as ((EE & _) & DD & _). destruct EE as [[X1 X2] | [X1 X2]].
    - split; congruence.
    - assert (u0 = 1) by congruence. assert (u2 = 0) by congruence. subst. rewrite K2, D1 in DD. lia. }
  exists m, u1, u3, f0, f1, vs. split; [intros v Hv; apply Nat.leb_le, C, Hv|]. split; [exact V|]. split; [exact Cl|]. split; [exact I|]. split; [exact Ev|]. split; [exact I0|]. split; [exact K5|]. split; [exact K4|]. split; [exists n; auto|]. split; [exact K2|]. split; [exact D5|]. split; assumption.
Qed.
End F.

Section R.
Local Open Scope R_scope.
Definition gyroR : list vecR := [v3 0 0 0; v3 1 0 0; v3 2 0 0; v3 (-1) 1 0; v3 1 (-2) 0; v3 3 (-1) 0; v3 3 5 0; v3 (-5) (-5) 0; v3 2 (-2) 0; v3 0 0 (-9)].
Definition gposR (v : nat) : vecR := nth v gyroR vzero.
(** Other positions, and all vertices but 0 locked. *)
Definition staged {N : Num} (m : mesh N) : mesh NumR :=
  mkMesh (m_verts m) (m_hes m) (m_faces m) (m_indices m) (m_fresh m) (v_live m) gposR (v_he m) (v_idx m) (fun v => negb (Nat.eqb v 0))
    (h_live m) (h_src m) (h_next m) (h_rev m) (h_face m) (h_idx m) (h_bd m) (f_live m) (f_he m) (f_idx m).
Lemma staged_valid {N : Num} (m : mesh N) : Valid m -> Valid (staged m).
Proof. intros [W L P T]. constructor; [|exact L|exact P|exact T]. destruct W. constructor; assumption. Qed.
Lemma gyro_normal : normalize (fold_left vadd (wedges (gposR 1) (map gposR [4;0;2;5;8]%nat)) vzero) = Some (v3 0 0 (-1)).
Proof.
  assert (S : fold_left vadd (wedges (gposR 1) (map gposR [4;0;2;5;8]%nat)) vzero = v3 0 0 (-8)) by (cbv [wedges map combine tl firstn app fold_left fst snd gposR nth gyroR]; unfold v3; vring).
  rewrite S. assert (L : vlength (v3 0 0 (-8)) = 8). { unfold Vec.vlength. rewrite dot_eq. cbn [NumR nsqrt v3 vx vy vz]. replace (0 * 0 + 0 * 0 + -8 * -8) with (8 * 8) by ring. apply sqrt_square. lra. }
  unfold normalize. rewrite L, vdiv_ok by lra. f_equal. unfold Vec.vscale, v3. rn. f_equal; rn; field.
Qed.
Lemma gyro_sharp : nltb (vangle (gposR 0) (gposR 2) (gposR 1)) (ndiv npi (nofZ 10)) = true.
Proof.
  assert (X : vangle (gposR 0) (gposR 2) (gposR 1) = 0).
  { unfold vangle. assert (Cr : cross (vsub (gposR 0) (gposR 2)) (vsub (gposR 1) (gposR 2)) = v3 0 0 0) by (cbv [gposR nth gyroR]; unfold v3; vring). assert (Dt : dot (vsub (gposR 0) (gposR 2)) (vsub (gposR 1) (gposR 2)) = 2) by (rewrite dot_eq; cbv [gposR nth gyroR]; unfold vsub, vadd, vneg, v3; rn; ring).
    assert (Lz : vlength (v3 0 0 0) = 0) by (unfold Vec.vlength; rewrite dot_eq; cbn [NumR nsqrt v3 vx vy vz]; replace (0 * 0 + 0 * 0 + 0 * 0) with 0 by ring; apply sqrt_0).
    rewrite Cr, Dt, Lz. cbn [natan2 NumR]. destruct (Rlt_dec 0 2); [|lra]. replace (0 / 2) with 0 by field. apply atan_0. }
  rewrite X. change (Rltb 0 (PI / IZR 10) = true). apply Rltb_lt. assert (Q := PI_RGT_0). lra.
Qed.
Lemma locked_removed : exists (m m' : mesh NumR) K b, Valid m /\ Closed m /\ (forall i v, nth_error (m_verts m) i = Some v -> v_lock m v = negb (Nat.eqb i 0)) /\
  (forall k, (K <= k)%nat -> repair_collapse (N := NumR) k [0%nat] false m = Ok (b, m')) /\ exists v, In v (m_verts m) /\ v_lock m v = true /\ ~ In v (m_verts m').
Proof.
  destruct (gyro_facts (fun x => x) (fun x => x) (fun x _ => x)) as (m0 & u1 & u3 & f0 & f1 & l & _ & V0 & C0 & I & Ev & I1 & S0 & D0 & (n & En & Dn) & Deg & D5 & AR & (EO & DD & BD & E0 & E1 & E3 & CO & _)).
  set (m := staged m0). assert (V : Valid m) by (apply staged_valid, V0). assert (W := valid_wf m V). assert (C : Closed m) by exact C0.
  assert (CA : CollapsibleAt m 11 0 u1 1 u3 f0 f1).
  { split; [exact EO|]. split; [exact DD|]. split; [exact BD|]. split; [exact E0|]. split; [exact E1|]. split; [exact E3|]. split; [exact CO|]. exists [4;0;2;5;8]%nat. split; [exact AR|].
    cbv zeta. exists (v3 0 0 (-1)). split; [exact gyro_normal|]. change (v_pos m) with gposR.
    assert (POS : Forall (fun x : R => 0 <= x) (@nzero NumR :: map (dot (v3 0 0 (-1))) (wedges (gposR 0) (map gposR [4;0;2;5;8]%nat)))).
    { cbn [wedges map combine tl firstn app fst snd]. repeat (apply Forall_cons; [rewrite ?dot_eq; cbv [gposR nth gyroR]; unfold cross, vsub, vadd, vneg, vscale, v3; rn; lra|]). apply Forall_nil. }
    intros l1 a b l2 Q. rewrite Q in POS. apply Forall_app in POS as [_ POS]. inversion POS as [|? ? Pa POS']; subst. inversion POS' as [|? ? Pb _]; subst. cbn [NumR nltb nmul nzero]. apply Rltb_false. apply Rmult_le_pos; assumption. }
  assert (Col : exists m', collapseHE (Some 11%nat) m = Ok (true, m')).
  { destruct (collapse_iff m V 11%nat I) as [[_ X] | (v0 & v1 & v2 & v4 & g0 & g1 & CA' & [[_ X] | (m' & X & V' & CE)])]; [exfalso; exact (X _ _ _ _ _ _ CA)|exfalso; apply X; intros v _; apply veqb_real; reflexivity|]. exists m'. exact X. }
  assert (Iv : In 0%nat (m_verts m)) by (change (In 0%nat (m_verts m0)); rewrite Ev; left; reflexivity).
  assert (Sh : sharp (N := NumR) (Some 11%nat) m = Ok (true, m)).
  { destruct (opposite_run m 11 V C I) as (s & d & n' & k & r & rn' & x & Es & Ed & En' & Ek & _ & _ & _ & E). unfold sharp. rewrite (bind_ok _ _ _ _ _ E). cbn [fst snd].
    change (h_src m 11 = Some 0%nat) in S0. change (dst_of m 11 = Some 1%nat) in D0. change (h_next m 11 = Some n) in En. change (dst_of m n = Some 2%nat) in Dn.
    assert (s = 0%nat) by congruence. assert (d = 1%nat) by congruence. assert (n' = n) by congruence. subst s d n'. assert (k = 2%nat) by congruence. subst k.
    change (v_pos m) with gposR. rewrite gyro_sharp. reflexivity. }
  destruct (around_run m 0%nat (sharp (N := NumR)) collapseHE (tst (sharp (N := NumR)) m) W Iv) as (b & m1 & E & Tr & Fl).
  { intros y [Iy _]. exact (tst_sharp m y V C Iy). }
  { intros y [Iy _] _. destruct (collapse_run m y V Iy) as (b & m' & E & Hf & _). exists b, m'. auto. }
  assert (b = true).
  { destruct b; [reflexivity|]. destruct (Fl eq_refl) as [_ G]. destruct Col as (m' & Ec). assert (Q := G 11%nat (conj I S0)). unfold tst in Q. rewrite Sh in Q. rewrite Ec in Q. specialize (Q eq_refl). congruence. }
  subst b. destruct (Tr eq_refl) as (y & [Iy Ey] & _ & Ec).
  destruct (collapse_iff m V y Iy) as [[X _] | (v0 & v1 & v2 & v4 & g0 & g1 & CA' & [[X _] | (m2 & X & V' & CE)])]; [congruence|congruence|]. assert (m2 = m1) by congruence. subst m2. clear X.
  assert (L : In v2 (m_verts m) /\ v2 <> 0%nat).
  { destruct CA' as ((EE & T0 & T1 & _) & DD' & _). assert (A2 : adj m v0 v2 /\ adj m v2 v0) by (split; [apply (tri_adjs m _ _ _ _ W T0)|apply (tri_adjs m _ _ _ _ W T1)]). split.
    - destruct A2 as [_ (h & Ih & Eh & _)]. exact (src_in m W h v2 Ih Eh).
    - intros ->. assert (Q := D5 v0 (proj2 A2)). change (deg_of m v0 = 5%nat) in Q. change (deg_of m 0 = 4%nat) in Deg. rewrite Q, Deg in DD'. lia. }
  assert (II : CollapseInv m1 m1). { split; [|auto]. apply intact_refl; [exact V'|]. apply (in_closed m m1). exact (intact_collapse m m m1 _ _ _ _ _ _ _ (intact_refl m V C) V' CE). }
  destruct (collapse_vertex m1 m1 0 true II) as (K & b & m3 & R3 & (_ & X3) & _).
  exists m, m3, (S K), b. split; [exact V|]. split; [exact C|]. split; [|split].
  - intros i v Hi. change (nth_error (m_verts m0) i = Some v) in Hi. change (negb (Nat.eqb v 0) = negb (Nat.eqb i 0)). f_equal.
    assert (ND := wf_v_nodup m W). change (NoDup (m_verts m0)) in ND. rewrite Ev in *. destruct i as [|i]; cbn [nth_error] in Hi; [injection Hi as <-; reflexivity|]. apply Nat.eqb_neq. intros ->. inversion ND as [|? ? H _]. apply H. exact (nth_error_In _ _ Hi).
  - intros [|k] Hk; [lia|]. unfold repair_collapse, sweep. cbn [mfold].
    assert (R0 : rounds (S k) (around (sharp (N := NumR)) collapseHE) 0 false m = Ok (b, m3)).
    { cbn [rounds]. rewrite bind_get. change (m_verts m) with (m_verts m0). assert (N0 : nth_error (m_verts m) 0 = Some 0%nat) by (change (nth_error (m_verts m0) 0 = Some 0%nat); rewrite Ev; reflexivity). rewrite Ev. cbn [length Nat.leb]. change 0%Z with (Z.of_nat 0). rewrite (bind_ok _ _ _ _ _ (vertex_at m 0 0%nat N0)), (bind_ok _ _ _ _ _ E). apply R3. lia. }
    rewrite (bind_ok _ _ _ _ _ R0). reflexivity.
  - exists v2. split; [apply L|]. split; [change (negb (Nat.eqb v2 0) = true); apply negb_true_iff, Nat.eqb_neq; apply L|]. intros H. apply X3 in H. apply (ce_verts _ _ _ _ _ _ _ _ _ CE) in H. apply (proj2 H). reflexivity.
Qed.
Lemma gyro_ample : exists m : mesh NumR, Valid m /\ Closed m /\ Ample m /\ (1 < length (m_verts m))%nat.
Proof.
  destruct (gyro_facts (fun x => x) (fun x => x) (fun x _ => x)) as (m0 & u1 & u3 & f0 & f1 & l & A & V0 & C0 & _ & Ev & I1 & _). exists (staged m0). split; [apply staged_valid, V0|]. split; [exact C0|]. split; [exact A|].
  change (1 < length (m_verts m0))%nat. rewrite Ev in *. destruct l; [destruct I1 as [I1|[]]; discriminate|cbn; lia].
Qed.
End R.
