(** The normal filters succeed on closed meshes without degenerate triangles. *)
From Coq Require Import Reals Lra Bool List ZArith Arith Lia Permutation.
From Verif Require Import Num NumInst Vec VecR Bounds Heap Mesh Spec GeomSpec Orbit Rings Measure MeasureR MeasureM Prog ProgP SmoothSpec Smooth SmoothP SmoothD SmoothDn SmoothR FilterSpec SmoothF DenSpec DenoiseF DenoiseR Curv Construct Witness Examples ExamplesR BuildSpec BuildProps Built LaplP LaplM Lapl RegTet Fair FairW Queries Exec.
Import ListNotations.
Local Open Scope R_scope.

Lemma total_pos l : l <> [] -> (forall x, In x l -> 0 < x) -> 0 < total l.
Proof.
  induction l as [|x l IH]; [congruence|]. intros _ H. unfold total in *. cbn [fold_right]. assert (A := H x (or_introl eq_refl)). destruct l as [|y l]; [cbn; lra|].
  assert (B := IH ltac:(discriminate) (fun z Hz => H z (or_intror Hz))). lra.
Qed.

Section T.
Variable m : mesh NumR.
Hypothesis Vm : Valid m.
Hypothesis Cm : Closed m.
Hypothesis ND : NonDegenerate m.
Let W := valid_wf m Vm.
Notation nf := (length (m_faces m)).

Lemma fring_three f h l : In f (m_faces m) -> Fring m f (h :: l) -> exists y z, h :: l = [h; y; z].
Proof.
  intros If (Hc & Hnd & Hin). assert (Ih : In h (m_hes m)) by (apply Hin; left; reflexivity). destruct (closed_next3 m h Vm Cm Ih) as (y & z & Ex & Ey & Ez & Iy & Iz). exists y, z.
  destruct l as [|a l]; [cbn [cyc chainto] in Hc|].
  { exfalso. apply (valid_noloops m Vm h Ih). destruct (wf_rev m W h Ih) as (r & Er & _). unfold dst_of. rewrite Er, <- (wf_dst m W h h r Ih Hc Er). reflexivity. }
  cbn [cyc] in Hc. destruct Hc as [H1 Hc]. assert (a = y) by congruence; subst a.
  destruct l as [|b l]; [cbn [chainto] in Hc|].
  { exfalso. assert (z = h) by congruence. subst z. assert (h = y) by congruence. subst y. inversion Hnd as [|? ? Q _]. apply Q. left; reflexivity. }
  destruct Hc as [H2 Hc]. assert (b = z) by congruence; subst b.
  destruct l as [|c l]; [reflexivity|]. destruct Hc as [H3 Hc]. assert (c = h) by congruence; subst c. exfalso. inversion Hnd as [|? ? Q _]. apply Q. right; right; left; reflexivity.
Qed.
Lemma face_total i f : nth_error (m_faces m) i = Some f -> exists s', solo (dn_face (N := NumR) i) (mem0 m nf) = Ok (tt, s').
Proof.
  intros E. assert (If := nth_error_In _ _ E). assert (Hi : (i < nf)%nat) by (apply nth_error_Some; congruence). destruct (fring m W f If) as (h & l & Eh & Hr). destruct (fring_three f h l If Hr) as (y & z & El).
  unfold dn_face. rewrite solo_bind, (mface_at m (mem0 m nf) i f eq_refl E), solo_bind.
  rewrite (pcirc_f_ok m W (mem0 m nf) f h l _ (fun acc y => (acc ++ [SmoothD.pos_at m (h_src m y)], false)) _ eq_refl If Eh Hr).
  2:{ intros k a Iy _. destruct (wf_src m W k Iy) as (v & Ev & Iv). rewrite solo_bind, (solo_at m _ (mem0 m nf) _ eq_refl (r_src m k (h_alive m W k Iy))), Ev, solo_bind, (solo_at m _ (mem0 m nf) _ eq_refl (r_pos m v (v_alive m W v Iv))). reflexivity. }
  rewrite (bfold_collect (fun y => SmoothD.pos_at m (h_src m y))). cbn [app]. rewrite El in *.
  destruct (fring3_tri m W f h [y; z] _ _ _ Hr eq_refl) as (a & b & c & T & Ea & Eb & Ec). cbn [map]. rewrite Ea, Eb, Ec.
  assert (A := ND f a b c If T). unfold tri_area in A. set (X := cross (vsub (v_pos m b) (v_pos m a)) (vsub (v_pos m c) (v_pos m a))) in *.
  assert (NX : X <> vzero) by (intros Z; assert (vlength X = 0) by (apply vlength_zero, Z); rn; lra).
  destruct (normalize_unit X NX) as (u & Eu & _). fold X. rewrite solo_bind, solo_onm. unfold lift_mem.
  assert (En : normalize (N := NumR) X = Some u) by exact Eu. rewrite En. cbn [lift ret]. change (l_mesh (mem0 m nf)) with m; rewrite (SmoothP.with_mesh (mem0 m nf) m eq_refl).
  rewrite solo_bind, arr_set_at by (cbn; rewrite repeat_length; exact Hi). rewrite solo_bind, solo_onm. unfold lift_mem.
  rewrite vdiv_ok by (rn; lra). cbn [lift ret]. rewrite solo_bind, arr_set_at by (cbn; rewrite repeat_length; exact Hi). rewrite arr_set_at by (cbn; rewrite repeat_length; exact Hi). eauto.
Qed.
Lemma filter_total w s i f : IA m nf s -> nth_error (m_faces m) i = Some f -> exists s', solo (dn_filter (N := NumR) w i) s = Ok (tt, s').
Proof.
  intros (Em & L1 & L2 & L3 & L4) E. assert (OK := solo_dn_filter m W w s i f Em E L1 L2 L3 L4). destruct (solo (dn_filter w i) s) as [[[] s']|u|u|] eqn:Es; try contradiction; [eauto|]. exfalso.
  assert (If := nth_error_In _ _ E). destruct (fring m W f If) as (h & l & Eh & Hr). assert (Hi : (i < nf)%nat) by (apply nth_error_Some; congruence).
  unfold dn_filter in Es. rewrite solo_bind, (mface_at m s i f Em E), solo_bind in Es.
  rewrite (pcirc_f_ok m W s f h l _ (fun a y => (vadd a (vscale (w (vat_ (l_cent s) i) (vat_ (l_cent s) (jr m y)) (vat_ (l_norm s) i) (vat_ (l_norm s) (jr m y)) (nat_ (l_area s) (jr m y))) (vat_ (l_norm s) (jr m y))), false)) _ Em If Eh Hr) in Es.
  2:{ intros y a Iy _. destruct (wf_rev m W y Iy) as (r & Er & Ir). destruct (wf_face m W r Ir) as (g & Eg & Ig). destruct (face_index m W r g Ir Eg) as (Ej & J0 & J1).
      rewrite solo_bind, (solo_at m _ s _ Em (r_rev m y (h_alive m W y Iy))), Er, solo_bind, (solo_at m _ s _ Em (r_face m r (h_alive m W r Ir))), Eg, solo_bind, (solo_at m _ s _ Em Ej).
      unfold jr, jf. rewrite Er, Eg.
      rewrite solo_bind, (arr_at_v l_cent s (Z.of_nat i)) by lia. rewrite solo_bind, (arr_at_v l_cent s (f_idx m g)) by lia.
      rewrite solo_bind, (arr_at_v l_norm s (Z.of_nat i)) by lia. rewrite solo_bind, (arr_at_v l_norm s (f_idx m g)) by lia.
      rewrite solo_bind, (arr_at_n l_area s (f_idx m g)) by lia. rewrite Nat2Z.id. reflexivity. }
  revert Es. generalize (bfold (fun (a : vecR) y => (vadd a (vscale (w (vat_ (l_cent s) i) (vat_ (l_cent s) (jr m y)) (vat_ (l_norm s) i) (vat_ (l_norm s) (jr m y)) (nat_ (l_area s) (jr m y))) (vat_ (l_norm s) (jr m y))), false)) (@vzero NumR) (h :: l)). intros S.
  destruct (@neqb NumR (vlength S) nzero) eqn:Z; cbn [negb]; [discriminate|].
  rewrite solo_bind, solo_onm. unfold lift_mem. assert (NZ : vlength S <> 0) by (intros H; assert (@neqb NumR (vlength S) nzero = true) by (apply Reqb_eq, H); congruence).
  rewrite vdiv_ok by exact NZ. cbn [lift ret]. rewrite Em, (SmoothP.with_mesh s m Em). rewrite arr_set_at by lia. discriminate.
Qed.
Lemma update_total s i v : IA m nf s -> (forall j, (j < nf)%nat -> 0 < nat_ (N := NumR) (l_area s) j) -> nth_error (m_verts m) i = Some v -> exists s', solo (dn_update (N := NumR) i) s = Ok (tt, s').
Proof.
  intros (Em & L1 & L2 & L3 & L4) Pa E. assert (Iv := nth_error_In _ _ E). destruct (vring m W v Iv) as (h & l & Eh & Hr).
  unfold dn_update. rewrite solo_bind, (mvertex_at m s i v Em E), solo_bind.
  rewrite (pcirc_v_ok m W s v h l _ (fun acc y => ((nadd (fst acc) (nat_ (l_area s) (jf m y)), vadd (snd acc) (vscale (nmul (nat_ (l_area s) (jf m y)) (dot (vat_ (l_new s) (jf m y)) (vsub (vat_ (l_cent s) (jf m y)) (v_pos m v)))) (vat_ (l_new s) (jf m y)))), false)) _ Em Iv Eh Hr).
  2:{ intros y a Iy _. destruct (wf_face m W y Iy) as (g & Eg & Ig). destruct (face_index m W y g Iy Eg) as (Ej & J0 & J1).
      rewrite solo_bind, (solo_at m _ s _ Em (r_face m y (h_alive m W y Iy))), Eg, solo_bind, (solo_at m _ s _ Em Ej). unfold jf. rewrite Eg.
      rewrite solo_bind, (arr_at_n l_area s (f_idx m g)) by lia. rewrite solo_bind, (arr_at_v l_new s (f_idx m g)) by lia. rewrite solo_bind, (arr_at_v l_cent s (f_idx m g)) by lia.
      rewrite solo_bind, (solo_at m _ s _ Em (r_pos m v (v_alive m W v Iv))). reflexivity. }
  rewrite (bfold_fold (fun acc y => (nadd (fst acc) (nat_ (l_area s) (jf m y)), vadd (snd acc) (vscale (nmul (nat_ (l_area s) (jf m y)) (dot (vat_ (l_new s) (jf m y)) (vsub (vat_ (l_cent s) (jf m y)) (v_pos m v)))) (vat_ (l_new s) (jf m y)))))).
  match goal with |- context [fold_left ?F (h :: l) ?a] => set (r := fold_left F (h :: l) a) end.
  assert (Er : r = _) by exact (usum_eq m (vat_ (l_new s)) (vat_ (l_cent s)) (nat_ (l_area s)) (v_pos m v) (h :: l) 0 vzero).
  assert (Pos : 0 < fst r).
  { rewrite Er. cbn [fst]. rewrite Rplus_0_l. destruct Hr as (_ & _ & Hin).
    assert (Q : forall y, In y (h :: l) -> 0 < nat_ (N := NumR) (l_area s) (jf m y)). { intros y Hy. apply Hin in Hy as [Iy _]. destruct (wf_face m W y Iy) as (g & Eg & _). unfold jf. rewrite Eg. apply Pa, (face_index m W y g Iy Eg). }
    apply total_pos; [discriminate|]. intros x Hx. apply in_map_iff in Hx as (y & <- & Hy). apply Q, Hy. }
  rewrite solo_bind, solo_onm. unfold lift_mem. rewrite vdiv_ok by (apply Rgt_not_eq; exact Pos). cbn [lift ret]. rewrite Em, (SmoothP.with_mesh s m Em).
  rewrite solo_bind, (solo_at m _ s _ Em (r_pos m v (v_alive m W v Iv))), solo_onm. unfold lift_mem. rewrite Em, (ww_pos m v _ (v_alive m W v Iv)). eauto.
Qed.

Theorem dn_succeeds w : exists m', dn_loops (N := NumR) w m (Ok m').
Proof.
  destruct (dn_exists m w) as [o Ho]. assert (A := dn_det m W w o o Ho Ho). destruct o as [m'|u|u|]; cbn in A; try contradiction; [eauto|]. exfalso. clear A.
  assert (F1 : forall o, outcome (mem0 m nf) (map dn_face (seq 0 nf)) o -> forall u, o <> Abort u).
  { intros o O k ->. apply (outcomes (IA m nf) RA RAr RAs RAt) in O; [|apply IA0|intros i p Hp; apply nth_map_seq in Hp as [_ ->]; apply loc_dn_face].
    destruct O as (i & p & Hp & Es). apply nth_map_seq in Hp as [Hi ->]. destruct (nth_error (m_faces m) i) as [f|] eqn:E; [|apply nth_error_None in E; lia]. destruct (face_total i f E) as (s' & E'). congruence. }
  assert (F2 : forall s o, IA m nf s -> outcome s (map (dn_filter w) (seq 0 nf)) o -> forall u, o <> Abort u).
  { intros s o Is O k ->. assert (Is' := Is). destruct Is as (Em & L1 & L2 & L3 & L4). apply (outcomes (IF m nf s) RF RFr RFs RFt) in O; [|repeat split; auto|intros i p Hp; apply nth_map_seq in Hp as [_ ->]; apply loc_dn_filter].
    destruct O as (i & p & Hp & Es). apply nth_map_seq in Hp as [Hi ->]. destruct (nth_error (m_faces m) i) as [f|] eqn:E; [|apply nth_error_None in E; lia]. destruct (filter_total w s i f Is' E) as (s' & E'). congruence. }
  inversion Ho as [s o T O E | o T NO E]; subst.
  - destruct o as [x|x|x|]; cbn in E; try discriminate. clear E. inversion T as [s1 o A B | o A NO]; subst; [|eapply NO; reflexivity].
    assert (I1 := face_loop_ok m s1 A). assert (I2 := filter_loop_ok m w s1 s I1 B). 
    assert (Ar : l_area s = l_area s1). { destruct I1 as (Em & L1 & L2 & L3 & L4). apply (outcomes (IF m nf s1) RF RFr RFs RFt) in B; [|repeat split; auto|intros i p Hp; apply nth_map_seq in Hp as [_ ->]; apply loc_dn_filter]. apply B. }
    assert (Pa : forall j, (j < nf)%nat -> 0 < nat_ (N := NumR) (l_area s) j).
    { intros j Hj. rewrite Ar. destruct (nth_error (m_faces m) j) as [f|] eqn:E; [|apply nth_error_None in E; lia].
      apply (outcomes (IA m nf) RA RAr RAs RAt) in A; [|apply IA0|intros i p Hp; apply nth_map_seq in Hp as [_ ->]; apply loc_dn_face]. destruct A as [_ A]. destruct (A j _ (nth_seq_map _ _ j Hj)) as (si & Es & (_ & _ & _ & R4)).
      destruct (face_inv m W (mem0 m nf) si j f eq_refl E) as (h & l & v0 & v1 & v2 & Q1 & Q2 & Q3 & Q4 & Q5 & Q6); try (cbn; rewrite repeat_length; exact Hj); [exact Es|].
      assert (Eq : nat_ (N := NumR) (l_area s1) j = nat_ (N := NumR) (l_area si) j). { unfold nat_. destruct (nth_error (l_area si) j) as [x0|] eqn:X; [rewrite (nth_error_nth _ _ _ X), (nth_error_nth _ _ _ (eq_sym R4)); reflexivity|]. rewrite !nth_overflow by (apply nth_error_None; congruence). reflexivity. }
      rewrite Eq, Q6. destruct (fring3_tri m W f h l v0 v1 v2 Q2 Q3) as (a & b & c & Tr & -> & -> & ->). assert (P := ND f a b c (nth_error_In _ _ E) Tr). unfold tri_area in P. rn. lra. }
    destruct I2 as (Em & L1 & L2 & L3 & L4). assert (I2 : IA m nf s) by (repeat split; auto).
    apply (outcomes (IB m s) (RB m) (RBr m) (RBs m) (RBt m)) in O; [|split; [rewrite Em; apply posonly_refl|auto]|intros i p Hp; apply nth_map_seq in Hp as [_ ->]; apply loc_dn_update, (wf_v_nodup m W)].
    destruct O as (i & p & Hp & Es). apply nth_map_seq in Hp as [Hi ->]. destruct (nth_error (m_verts m) i) as [v|] eqn:Ev; [|apply nth_error_None in Ev; lia]. destruct (update_total s i v I2 Pa Ev) as (s' & E'). congruence.
  - destruct o as [x|x|x|]; cbn in E; try discriminate. inversion T as [s1 o A B | o A NO']; subst; [apply (F2 s1 _ (face_loop_ok m s1 A) B x eq_refl)|apply (F1 _ A x eq_refl)].
Qed.
End T.

(** A regular tetrahedron with locked vertices: Taubin smoothing leaves it as it is. *)
Lemma reg_nondegenerate (m : mesh NumR) : Valid m -> Closed m -> positions m = regR -> NonDegenerate m.
Proof.
  intros V C P f a b c If T. destruct (tri_verts m V f a b c T) as (Ia & Ib & Ic & A1 & A2 & A3).
  destruct (vat_of m a Ia) as (i & Hi & ->). destruct (vat_of m b Ib) as (j & Hj & ->). destruct (vat_of m c Ic) as (k & Hk & ->). rewrite (reg_len m P) in Hi, Hj, Hk.
  rewrite !(reg_pos m P) by assumption. unfold tri_area, Vec.vlength. rewrite !dot_eq.
  assert (N1 : i <> j) by congruence. assert (N2 : j <> k) by congruence. assert (N3 : i <> k) by congruence. apply Rmult_lt_0_compat; [lra|]. apply sqrt_lt_R0.
  destruct i as [|[|[|[|i]]]]; try lia; destruct j as [|[|[|[|j]]]]; try lia; destruct k as [|[|[|[|k]]]]; try lia; cbn [nth regR]; unfold cross, vsub, vadd, vneg, v3; rn; lra.
Qed.
Lemma locked_step (w : vecR -> vecR -> vecR -> vecR -> R -> R) (m : mesh NumR) : Valid m -> Closed m -> positions m = regR -> (forall v, In v (m_verts m) -> v_lock m v = true) -> exists m', dn_step (N := NumR) w m (Ok m').
Proof.
  intros V C P L. destruct (taubin_total nhalf (@ndiv NumR (nofZ 53) (nofZ 100)) 3 m (valid_wf m V)) as (m1 & H1 & _ & P1 & K1).
  assert (E : m1 = m). { apply (posonly_eq m); [exact P1|apply posonly_refl|]. intros v Iv. apply K1. left. apply L, Iv. } subst m1.
  destruct (dn_succeeds m V C (reg_nondegenerate m V C P) w) as (m' & H). exists m'. apply (dns_ok w m m); [exact H1|exact H].
Qed.
Lemma denoise_ex (sigma sc sn : R) : exists m m1 m2 : mesh NumR, Valid m /\ Closed m /\ positions m = regR /\ denoiseNormalGaussian (N := NumR) sigma 1 m (Ok m1) /\ denoiseNormalBilateral (N := NumR) sc sn 1 m (Ok m2).
Proof.
  destruct regR_all as (m0 & _ & V & C & P & _ & _). set (m := locked m0). assert (Vl : Valid m) by apply locked_valid, V.
  destruct (meanEdgeLength_ok m (valid_wf m Vl)) as (reps & _ & Ea). set (avg := ndiv _ _) in Ea.
  destruct (locked_step (wgt_gauss (N := NumR) (sigma * avg)) m Vl C P (fun v _ => eq_refl)) as (m1 & H1). destruct (locked_step (wgt_bilateral (N := NumR) (sc * avg) sn) m Vl C P (fun v _ => eq_refl)) as (m2 & H2).
  exists m, m1, m2. split; [exact Vl|]. split; [exact C|]. split; [exact P|]. split.
  - apply (dng (N := NumR) sigma 1 m avg); [exact Ea|]. apply (rep_S _ 0%nat 0%nat m m1); [exact H1|apply rep_0].
  - apply (dnb (N := NumR) sc sn 1 m avg); [exact Ea|]. apply (rep_S _ 0%nat 0%nat m m2); [exact H2|apply rep_0].
Qed.

(** Each half of it decreases. *)
Lemma kernel_falls s x y a b : 0 < s -> 0 <= x <= y -> (y < 2 * s \/ 2 * s <= x) -> kernel s x a -> kernel s y b -> b <= a.
Proof.
  intros Hs Hx Hy (A1 & A2 & A3) (B1 & B2 & B3). assert (Pc : 0 < / (sqrt (2 * PI) * s)) by (apply Rinv_0_lt_compat, Rmult_lt_0_compat; [apply sqrt_lt_R0; assert (P := PI_RGT_0); lra|exact Hs]).
  destruct Hy as [Hy | Hy].
  - rewrite A1, B1 by lra. unfold Rdiv. apply Rmult_le_compat_r; [lra|].
    assert (Q : - (y * y) * / (s * s) <= - (x * x) * / (s * s)) by (apply Rmult_le_compat_r; [left; apply Rinv_0_lt_compat; nra|nra]).
    destruct (Rle_lt_or_eq_dec _ _ Q) as [H | H]; [left; apply exp_increasing, H|rewrite H; apply Rle_refl].
  - assert (E2 : 0 < 16 * exp 2) by (assert (P := exp_pos 2); lra).
    assert (G : forall z, 2 * s <= z < 4 * s -> 0 <= (4 - z / s) * (4 - z / s) * (4 - z / s) * (4 - z / s) / (16 * exp 2) / (sqrt (2 * PI) * s)).
    { intros z Hz. rewrite <- (Rmult_0_l (/ (sqrt (2 * PI) * s))). apply Rmult_le_compat_r; [lra|]. rewrite <- (Rmult_0_l (/ (16 * exp 2))). apply Rmult_le_compat_r; [left; apply Rinv_0_lt_compat, E2|].
      set (q := 4 - z / s). rewrite (Rmult_assoc (q * q)). assert (0 <= q * q) by apply Rle_0_sqr. apply Rmult_le_pos; assumption. }
    destruct (Rlt_le_dec y (4 * s)) as [L | L].
    + rewrite A2, B2 by lra. assert (Dv : forall u v k, 0 < / k -> u <= v -> u / k <= v / k) by (intros u v k Hk Huv; apply Rmult_le_compat_r; lra). apply Dv; [exact Pc|]. apply Dv; [apply Rinv_0_lt_compat, E2|].
      assert (H1 : x / s <= y / s) by (apply Rmult_le_compat_r; [left; apply Rinv_0_lt_compat, Hs|lra]). assert (H2 : y / s < 4) by (apply (Rmult_lt_reg_r s); [exact Hs|]; unfold Rdiv; rewrite Rmult_assoc, Rinv_l by lra; lra).
      set (p := 4 - y / s) in *. set (q := 4 - x / s) in *. assert (0 <= p <= q) by (unfold p, q; lra). rewrite (Rmult_assoc (p * p)), (Rmult_assoc (q * q)). assert (p * p <= q * q) by nra. assert (0 <= p * p) by apply Rle_0_sqr. apply Rmult_le_compat; assumption.
    + rewrite B3 by lra. destruct (Rlt_le_dec x (4 * s)) as [L2 | L2]; [rewrite A2 by lra; apply G; lra|rewrite A3 by lra; lra].
Qed.
Theorem gaussian_succeeds (sigma : R) (m : mesh NumR) : Valid m -> Closed m -> (forall m1, smoothTaubin (N := NumR) (/ 2) (53 / 100) 3 m (Ok m1) -> NonDegenerate m1) -> exists m', denoiseNormalGaussian (N := NumR) sigma 1 m (Ok m').
Proof.
  intros V C ND. destruct (taubin_total (/ 2) (53 / 100) 3 m (valid_wf m V)) as (m1 & H1 & _ & P1 & _). assert (V1 := posonly_valid m m1 V P1).
  assert (C1 : Closed m1). { intros h Hh. destruct P1 as [_ E]. rewrite E in Hh |- *. cbn [m_hes h_bd] in *. apply C, Hh. }
  destruct (meanEdgeLength_ok m (valid_wf m V)) as (reps & _ & Ea). set (avg := ndiv _ _) in Ea.
  destruct (dn_succeeds m1 V1 C1 (ND m1 H1) (wgt_gauss (N := NumR) (sigma * avg))) as (m' & H). exists m'.
  apply (dng (N := NumR) sigma 1 m avg); [exact Ea|]. apply (rep_S _ 0%nat 0%nat m m'); [|apply rep_0]. apply (dns_ok _ m m1); [|exact H].
  unfold taubin_default. replace (@nhalf NumR) with (/ 2) by (rn; lra). exact H1.
Qed.
Theorem bilateral_succeeds (sc sn : R) (m : mesh NumR) : Valid m -> Closed m -> (forall m1, smoothTaubin (N := NumR) (/ 2) (53 / 100) 3 m (Ok m1) -> NonDegenerate m1) -> exists m', denoiseNormalBilateral (N := NumR) sc sn 1 m (Ok m').
Proof.
  intros V C ND. destruct (taubin_total (/ 2) (53 / 100) 3 m (valid_wf m V)) as (m1 & H1 & _ & P1 & _). assert (V1 := posonly_valid m m1 V P1).
  assert (C1 : Closed m1). { intros h Hh. destruct P1 as [_ E]. rewrite E in Hh |- *. cbn [m_hes h_bd] in *. apply C, Hh. }
  destruct (meanEdgeLength_ok m (valid_wf m V)) as (reps & _ & Ea). set (avg := ndiv _ _) in Ea.
  destruct (dn_succeeds m1 V1 C1 (ND m1 H1) (wgt_bilateral (N := NumR) (sc * avg) sn)) as (m' & H). exists m'.
  apply (dnb (N := NumR) sc sn 1 m avg); [exact Ea|]. apply (rep_S _ 0%nat 0%nat m m'); [|apply rep_0]. apply (dns_ok _ m m1); [|exact H].
  unfold taubin_default. replace (@nhalf NumR) with (/ 2) by (rn; lra). exact H1.
Qed.
(** Face::toTriangle. *)
Lemma toTriangle_ok (m : mesh NumR) f a b c : WF m -> In f (m_faces m) -> Spec.Tri m f a b c -> a <> b -> b <> c -> c <> a ->
  exists p q r, f_toTriangle (Some f) m = Ok (Bounds.Tri (N := NumR) p q r, m) /\
   (([p; q; r] = [v_pos m a; v_pos m b; v_pos m c]) \/ ([p; q; r] = [v_pos m b; v_pos m c; v_pos m a]) \/ ([p; q; r] = [v_pos m c; v_pos m a; v_pos m b])).
Proof.
  intros W Hf T N1 N2 N3. destruct (tri_positions m f a b c W Hf T N1 N2 N3) as (p & q & r & E & D). exists p, q, r. split; [|exact D]. unfold f_toTriangle. rewrite (bind_ok _ _ _ _ _ E). reflexivity.
Qed.
(** At 2 sigma it grows: a neighbour 2 sigma away counts more than one 1.5 sigma away. *)
Lemma kern_grows s : 0 < s -> exists x y, 0 <= x < y /\ @kern NumR x s < @kern NumR y s.
Proof.
  intros Hs. exists (3 / 2 * s), (2 * s). split; [lra|]. destruct (kern_kernel (3 / 2 * s) s) as (K1 & _). destruct (kern_kernel (2 * s) s) as (_ & K2 & _). rewrite K1, K2 by lra.
  unfold Rdiv at 1 3. apply Rmult_lt_compat_r; [apply Rinv_0_lt_compat, Rmult_lt_0_compat; [apply sqrt_lt_R0; assert (P := PI_RGT_0); lra|exact Hs]|].
  replace (2 * s / s) with 2 by (field; lra). replace ((4 - 2) * (4 - 2) * (4 - 2) * (4 - 2) / (16 * exp 2)) with (/ exp 2) by (field; apply Rgt_not_eq, exp_pos). rewrite <- exp_Ropp.
  apply exp_increasing. replace (- (3 * / 2 * s * (3 / 2 * s)) / (s * s)) with (- (9 / 4)) by (field; lra). lra.
Qed.
Lemma kern_falls s x y : 0 < s -> 0 <= x <= y -> (y < 2 * s \/ 2 * s <= x) -> @kern NumR y s <= @kern NumR x s.
Proof. intros Hs Hx Hy. apply (kernel_falls s x y _ _ Hs Hx Hy); apply kern_kernel. Qed.
