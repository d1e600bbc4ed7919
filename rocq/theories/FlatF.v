(** The tables of fillHoles for a hole in a flat region. *)
From Coq Require Import Reals Lra Lia List ZArith Arith Bool.
From Verif Require Import Num NumInst Vec VecR Heap Mesh Spec GeomSpec Orbit Construct Wp Fill FillD FillT FlatSpec.
Import ListNotations.
Local Open Scope R_scope.

(** ** Two triangles in one plane *)
Section Plane.
Variable nrm : vecR.
Hypothesis Un : dot nrm nrm = 1.
Lemma unit_length : vlength nrm = 1.
Proof. assert (S := vlength_sq nrm). assert (P := vlength_pos nrm). rewrite Un in S. nra. Qed.
Lemma scaled_length s : vlength (vscale s nrm) = Rabs s.
Proof. rewrite vlength_scale, unit_length. rl. Qed.
Definition turned (a b : R) : R := if Rltb (a * b) 0 then 0 else PI.
Lemma turned_range a b : turned a b = 0 \/ turned a b = PI.
Proof. unfold turned. destruct (Rltb (a * b) 0); auto. Qed.
Lemma turned_zero a b : turned a b = 0 <-> a * b < 0.
Proof. unfold turned, Rltb. assert (P := PI_RGT_0). destruct (Rlt_dec (a * b) 0); split; intros; lra. Qed.
Lemma dihedral_flat v1 v2 v3 v4 a b : cross (vsub v2 v1) (vsub v3 v1) = vscale a nrm -> cross (vsub v2 v4) (vsub v3 v4) = vscale b nrm -> PI - dihedral v1 v2 v3 v4 = turned a b.
Proof.
  intros E1 E2. unfold dihedral. rewrite E1, E2. cbv zeta. rewrite !scaled_length. unfold turned. rn.
  destruct (Req_dec a 0) as [-> | Ha]. { rewrite Rabs_R0, (proj2 (Reqb_eq 0 0) eq_refl). cbn [orb]. rewrite Rmult_0_l. unfold Rltb. destruct (Rlt_dec 0 0); rl. }
  destruct (Req_dec b 0) as [-> | Hb]. { rewrite Rabs_R0, (proj2 (Reqb_eq 0 0) eq_refl), orb_true_r. rewrite Rmult_0_r. unfold Rltb. destruct (Rlt_dec 0 0); rl. }
  assert (Pa := Rabs_pos_lt a Ha). assert (Pb := Rabs_pos_lt b Hb). rewrite (proj2 (Reqb_false (Rabs a) 0)), (proj2 (Reqb_false (Rabs b) 0)) by lra. cbn [orb].
  replace (@Vec.dot NumR (vscale a nrm) (vscale b nrm)) with (a * b) by (symmetry; rewrite dot_scale, dot_sym, dot_scale, Un; rg).
  unfold Rltb at 1. destruct (Rlt_dec (a * b) 0) as [L | L].
  - replace (a * b / (Rabs a * Rabs b)) with (-1). 2: { rewrite <- Rabs_mult, (Rabs_left (a * b) L). field. split; lra. }
    replace (@nmax NumR _ _) with (-1) by (unfold nmax, nmin; rn; unfold Rltb; repeat destruct (Rlt_dec _ _); lra). replace (-1) with (Ropp 1) by lra. rewrite acos_opp, acos_1. lra.
  - assert (L' : 0 < a * b) by (assert (X := Rmult_integral_contrapositive_currified a b Ha Hb); lra).
    replace (a * b / (Rabs a * Rabs b)) with 1. 2: { rewrite <- Rabs_mult, (Rabs_right (a * b)) by lra. field. split; lra. }
    replace (@nmax NumR _ _) with 1 by (unfold nmax, nmin; rn; unfold Rltb; repeat destruct (Rlt_dec _ _); lra). rewrite acos_1. lra.
Qed.
End Plane.

(** ** Identities *)
Lemma id_sub (a b c d : vecR) : dot (vsub a b) d = dot (vsub a c) d - dot (vsub b c) d. Proof. dring. Qed.
Lemma id_cc (x y z : vecR) : cross (cross x y) z = vsub (vscale (dot x z) y) (vscale (dot y z) x). Proof. vring. all: rewrite ?dot_eq; rn; ring. Qed.
Lemma id_ccn (z nrm : vecR) : cross nrm (cross z nrm) = vsub (vscale (dot nrm nrm) z) (vscale (dot z nrm) nrm). Proof. vring. all: rewrite ?dot_eq; rn; ring. Qed.
Lemma id_z (x y : vecR) : vsub (vscale 0 x) (vscale 0 y) = vzero. Proof. vring. Qed.
Lemma id_cz (x : vecR) : cross x vzero = vzero. Proof. vring. Qed.
Lemma id_eq (u v : vecR) : vzero = vsub u v -> u = v.
Proof. intros T. vdestr. unfold vsub, vzero, vfill in T. injection T as T1 T2 T3. rn. f_equal; rn; lra. Qed.
Lemma id_cyc (a b c d : vecR) : dot (cross (vsub a c) (vsub b c)) d = dot (cross (vsub b a) (vsub c a)) d. Proof. dring. Qed.
Lemma id_swap (a b c d : vecR) : dot (cross (vsub a b) (vsub c b)) d = - dot (cross (vsub b a) (vsub c a)) d. Proof. dring. Qed.
Lemma id_anti (a b d : vecR) : dot (cross a b) d = - dot (cross b a) d. Proof. dring. Qed.
Lemma id_exp (a b c d : vecR) : dot (cross (vsub b a) (vsub c a)) d = dot (cross a b) d + dot (cross b c) d + dot (cross c a) d. Proof. dring. Qed.
Lemma id_rim (a b q : vecR) : cross (vsub a q) (vsub b q) = vneg (cross (vsub a b) (vsub q b)). Proof. vring. Qed.
Lemma id_neg (s : R) (x : vecR) : vneg (vscale s x) = vscale (- s) x. Proof. vring. Qed.
Lemma id_crossrot (a b c : vecR) : cross (vsub a c) (vsub b c) = cross (vsub b a) (vsub c a). Proof. vring. Qed.

Lemma nmax_R (a b : R) : @nmax NumR a b = Rmax a b.
Proof. unfold nmax, Rmax. rn. unfold Rltb. destruct (Rlt_dec a b), (Rle_dec a b); lra. Qed.
Lemma max_zero (a b : R) : 0 <= a -> 0 <= b -> (Rmax a b = 0 <-> a = 0 /\ b = 0).
Proof. unfold Rmax. destruct (Rle_dec a b); lra. Qed.
Lemma max_pos (a b : R) : 0 <= a -> 0 <= Rmax a b.
Proof. unfold Rmax. destruct (Rle_dec a b); lra. Qed.

Section Tables.
Variable cabs : R -> R.
Notation none := (fun _ : abkind => False).
Notation wp := (wp none).
Variables (m : mesh NumR) (bd : list ptr) (em : edge_map) (bound : R) (n : nat).
Variables (p q : nat -> vecR).
Hypothesis Hp : forall i, (i < n)%nat -> b_pos bd i m = Ok (p i, m).
Hypothesis Hq : forall j, (j + 1 < n)%nat -> opposite (em j (j + 1)%nat) m = Ok (q j, m).
Variable nrm : vecR.
Hypothesis Un : dot nrm nrm = 1.
(** The polygon is flat; the triangles behind its sides face up. *)
Hypothesis Pl : forall i, (i < n)%nat -> dot (vsub (p i) (p 0%nat)) nrm = 0.
Hypothesis Rim : forall j, (j + 1 < n)%nat -> faces_up nrm (p (j + 1)%nat) (p j) (q j).

Notation Pos := (Unfolded nrm p).
Definition ori (i j k : nat) : R := dot (cross (vsub (p j) (p i)) (vsub (p k) (p i))) nrm.
Lemma ori_flat i j k : (i < n)%nat -> (j < n)%nat -> (k < n)%nat -> cross (vsub (p j) (p i)) (vsub (p k) (p i)) = vscale (ori i j k) nrm.
Proof.
  intros Hi Hj Hk. assert (A := Pl i Hi). assert (B := Pl j Hj). assert (C := Pl k Hk). unfold ori.
  assert (D1 : dot (vsub (p j) (p i)) nrm = 0) by (rewrite (id_sub _ _ (p 0%nat)), A, B; apply Rminus_diag_eq; reflexivity).
  assert (D2 : dot (vsub (p k) (p i)) nrm = 0) by (rewrite (id_sub _ _ (p 0%nat)), A, C; apply Rminus_diag_eq; reflexivity).
  assert (T := id_ccn (cross (vsub (p j) (p i)) (vsub (p k) (p i))) nrm). rewrite id_cc, D1, D2, id_z, Un, vscale_one, id_cz in T. apply id_eq, T.
Qed.
Lemma up_iff i j k : (i < n)%nat -> (j < n)%nat -> (k < n)%nat -> (faces_up nrm (p i) (p j) (p k) <-> 0 < ori i j k).
Proof.
  intros Hi Hj Hk. split.
  - intros (s & Ps & E). unfold ori. rewrite E, dot_scale, Un. rl.
  - intros P. exists (ori i j k). split; [exact P|]. apply ori_flat; assumption.
Qed.
Lemma ori_cyc i j k : ori k i j = ori i j k. Proof. apply id_cyc. Qed.
Lemma ori_swap i j k : ori j i k = - ori i j k. Proof. apply id_swap. Qed.

(** The signed area of the polygon through the points a, ..., b. *)
Fixpoint pre (j : nat) : R := match j with O => 0 | S j => pre j + dot (cross (p j) (p (S j))) nrm / 2 end.
Definition sarea (a b : nat) : R := pre b - pre a + dot (cross (p b) (p a)) nrm / 2.
Lemma sarea_edge a : sarea a (a + 1) = 0.
Proof. unfold sarea. rewrite Nat.add_1_r. cbn [pre]. rewrite (id_anti (p (S a))). lra. Qed.
Lemma sarea_cut i j k : sarea i k = sarea i j + sarea j k + ori i j k / 2.
Proof.
  unfold sarea, ori. rewrite id_exp, (id_anti (p j) (p i)), (id_anti (p k) (p j)). lra.
Qed.
Lemma area_flat i j k : (i < n)%nat -> (j < n)%nat -> (k < n)%nat -> fill_area (p i) (p j) (p k) = Rabs (ori i j k) / 2.
Proof. intros Hi Hj Hk. unfold fill_area. rewrite (ori_flat i j k Hi Hj Hk), (scaled_length nrm Un). cbn [nmul nhalf NumR]. unfold Rdiv. rewrite Rmult_comm. reflexivity. Qed.

(** A cell of the tables: [until c0] says that only the corners before c0 have been tried. *)
Definition cut_at (i k c : nat) : Prop := (i < c < k)%nat /\ 0 < ori i c k /\ Pos i c /\ Pos c k.
Record Cell (t : @tables NumR) (i k c0 : nat) : Prop := {
  ce_rng : 0 <= t_angle t i k <= PI;
  ce_area : sarea i k <= t_area t i k;
  ce_o : k = (i + 1)%nat \/ exists c, t_o t i k = Some c /\ (i < c < k)%nat;
  ce_zero : t_angle t i k = 0 -> t_area t i k = sarea i k /\ (k = (i + 1)%nat \/ exists c, t_o t i k = Some c /\ cut_at i k c);
  ce_cut : k = (i + 1)%nat \/ (exists c, (c < c0)%nat /\ cut_at i k c) -> t_angle t i k = 0 }.
Lemma pos_cut i k : (k < n)%nat -> (i + 2 <= k)%nat -> (Pos i k <-> exists c, cut_at i k c).
Proof.
  intros Hk L. split.
  - intros H. inversion H as [|? j ? B U P1 P2]; subst; [lia|]. exists j. split; [exact B|]. split; [|auto]. apply up_iff; [lia|lia|lia|exact U].
  - intros (c & B & U & P1 & P2). apply (uf_cut _ _ i c k B); [apply up_iff; [lia|lia|lia|exact U]|exact P1|exact P2].
Qed.
Lemma cell_pos t i k : (k < n)%nat -> (i < k)%nat -> Cell t i k k -> (t_angle t i k = 0 <-> Pos i k).
Proof.
  intros Hk L C. split.
  - intros Z. destruct (ce_zero _ _ _ _ C Z) as [_ [-> | (c & _ & H)]]; [rewrite Nat.add_1_r; constructor|]. destruct (Nat.eq_dec k (S i)) as [-> | Ne]; [constructor|]. apply pos_cut; [exact Hk|lia|eauto].
  - intros P. apply (ce_cut _ _ _ _ C). destruct (Nat.eq_dec k (i + 1)) as [-> | Ne]; [left; reflexivity|right]. apply pos_cut in P as (c & H); [|exact Hk|lia]. exists c. split; [apply H|exact H].
Qed.

(** What lies behind a side. *)
Definition behind (t : @tables NumR) (a b : nat) : vecR := if (b =? a + 1)%nat then q a else match t_o t a b with Some c => p c | None => vzero end.
Lemma beyond_is t a b : (a < b)%nat -> (b < n)%nat -> Cell t a b b -> beyond bd em t a b m = Ok (behind t a b, m).
Proof.
  intros L Lb C. unfold beyond, behind. destruct (Nat.eqb_spec b (a + 1)) as [-> | Ne]; [apply Hq; lia|]. destruct (ce_o _ _ _ _ C) as [E | (c & -> & B)]; [contradiction|]. apply Hp. lia.
Qed.
Lemma behind_flat t a b : (a < b)%nat -> (b < n)%nat -> Cell t a b b -> exists s, cross (vsub (p a) (behind t a b)) (vsub (p b) (behind t a b)) = vscale s nrm /\ (t_angle t a b = 0 -> s < 0).
Proof.
  intros L Lb C. unfold behind. destruct (Nat.eqb_spec b (a + 1)) as [-> | Ne].
  - destruct (Rim a Lb) as (s & Ps & E). exists (- s). split; [|intros _; lra]. rewrite id_rim, E. apply id_neg.
  - destruct (ce_o _ _ _ _ C) as [E | (c & Eo & B)]; [contradiction|]. rewrite Eo. exists (ori c a b). split; [apply ori_flat; lia|]. intros Z. destruct (ce_zero _ _ _ _ C Z) as [_ [E | (c' & Eo' & _ & U & _)]]; [contradiction|].
    rewrite Eo in Eo'. injection Eo' as <-. rewrite ori_swap. lra.
Qed.

(** ** One candidate *)
Section Try.
Variables (t : @tables NumR) (i c k : nat).
Hypothesis B : (i < c < k)%nat.
Hypothesis Lk : (k < n)%nat.
Hypothesis C1 : Cell t i c c.
Hypothesis C2 : Cell t c k k.
Definition c_area : R := t_area t i c + t_area t c k + fill_area (p i) (p c) (p k).
Definition c_angle : R := Rmax (fill_angle (p i) (p c) (p k) (behind t i c) (behind t c k)) (Rmax (t_angle t i c) (t_angle t c k)).
Lemma try_is : fill_try (N := NumR) cabs bd em bound i k t c m =
  if @nltb NumR c_angle (t_angle t i k) || (@nltb NumR (cabs (c_angle - t_angle t i k)) bound && @nltb NumR c_area (t_area t i k))
  then Ok (@t_set NumR i k c_area c_angle (Some c) t, m) else Ok (t, m).
Proof.
  unfold fill_try, bind. rewrite !Hp by lia. rewrite (beyond_is t i c), (beyond_is t c k) by (assumption || lia). unfold c_angle, c_area. rewrite <- !nmax_R. cbv zeta. cbn [nadd NumR].
  destruct (_ || _); reflexivity.
Qed.
Lemma try_facts : 0 <= c_angle <= PI /\ sarea i k <= c_area /\ (c_angle = 0 -> cut_at i k c /\ c_area = sarea i k) /\ (cut_at i k c -> c_angle = 0).
Proof.
  destruct (behind_flat t i c ltac:(lia) ltac:(lia) C1) as (s1 & E1 & N1). destruct (behind_flat t c k ltac:(lia) Lk C2) as (s2 & E2 & N2).
  assert (R1 := ce_rng _ _ _ _ C1). assert (R2 := ce_rng _ _ _ _ C2). assert (A1 := ce_area _ _ _ _ C1). assert (A2 := ce_area _ _ _ _ C2). assert (PP := PI_RGT_0).
  assert (F1 : PI - dihedral (p k) (p i) (p c) (behind t i c) = turned (ori i c k) s1). { apply (dihedral_flat nrm Un); [|exact E1]. rewrite id_crossrot. apply ori_flat; lia. }
  assert (F2 : PI - dihedral (p i) (p c) (p k) (behind t c k) = turned (ori i c k) s2). { apply (dihedral_flat nrm Un); [|exact E2]. apply ori_flat; lia. }
  assert (FA : fill_angle (p i) (p c) (p k) (behind t i c) (behind t c k) = Rmax (turned (ori i c k) s1) (turned (ori i c k) s2)). { unfold fill_angle. rewrite nmax_R. rn. rewrite F1, F2. reflexivity. }
  assert (T1 := turned_range (ori i c k) s1). assert (T2 := turned_range (ori i c k) s2). assert (Z1 := turned_zero (ori i c k) s1). assert (Z2 := turned_zero (ori i c k) s2).
  assert (AA : c_area = t_area t i c + t_area t c k + Rabs (ori i c k) / 2) by (unfold c_area; rewrite area_flat by lia; reflexivity).
  assert (AB := Rle_abs (ori i c k)). assert (SC := sarea_cut i c k).
  assert (W1 := cell_pos t i c ltac:(lia) ltac:(lia) C1). assert (W2 := cell_pos t c k Lk ltac:(lia) C2).
  assert (ZZ : c_angle = 0 <-> (turned (ori i c k) s1 = 0 /\ turned (ori i c k) s2 = 0) /\ t_angle t i c = 0 /\ t_angle t c k = 0).
  { unfold c_angle. rewrite FA. rewrite max_zero; [|apply max_pos; lra|apply max_pos; lra]. rewrite !max_zero by lra. reflexivity. }
  split; [|split; [|split]].
  - unfold c_angle. rewrite FA. unfold Rmax. repeat destruct (Rle_dec _ _); lra.
  - rewrite AA, SC. lra.
  - intros Z. apply ZZ in Z as [[Y1 Y2] [Y3 Y4]]. rewrite Z1 in Y1. specialize (N1 Y3). assert (O : 0 < ori i c k) by nra. split; [split; [exact B|]; split; [exact O|]; split; [apply W1, Y3|apply W2, Y4]|].
    rewrite AA, SC, (proj1 (ce_zero _ _ _ _ C1 Y3)), (proj1 (ce_zero _ _ _ _ C2 Y4)), Rabs_right by lra. reflexivity.
  - intros (_ & O & P1 & P2). apply ZZ. apply W1 in P1. apply W2 in P2. specialize (N1 P1). specialize (N2 P2). rewrite Z1, Z2. split; [split; nra|auto].
Qed.
End Try.

(** ** The loops *)
Lemma cell_ext (t t' : @tables NumR) a b c0 : t_area t' a b = t_area t a b -> t_angle t' a b = t_angle t a b -> t_o t' a b = t_o t a b -> Cell t a b c0 -> Cell t' a b c0.
Proof. intros E1 E2 E3 [A B C D E]. constructor; rewrite ?E1, ?E2, ?E3; assumption. Qed.
Lemma set_same (t : @tables NumR) a b x y o : t_area (t_set a b x y o t) a b = x /\ t_angle (t_set a b x y o t) a b = y /\ t_o (t_set a b x y o t) a b = o.
Proof. unfold t_set, upd2. cbn [t_area t_angle t_o]. rewrite !Nat.eqb_refl. auto. Qed.
Lemma set_other (t : @tables NumR) a b x y o i k : (i <> a \/ k <> b) -> t_area (t_set a b x y o t) i k = t_area t i k /\ t_angle (t_set a b x y o t) i k = t_angle t i k /\ t_o (t_set a b x y o t) i k = t_o t i k.
Proof. intros H. unfold t_set, upd2. cbn [t_area t_angle t_o]. destruct (Nat.eqb_spec i a), (Nat.eqb_spec k b); cbn [andb]; auto. destruct H; contradiction. Qed.
Lemma cell_other (t : @tables NumR) a b x y o i k c0 : (i <> a \/ k <> b) -> Cell t i k c0 -> Cell (t_set a b x y o t) i k c0.
Proof. intros H. destruct (set_other t a b x y o i k H) as (E1 & E2 & E3). apply cell_ext; assumption. Qed.
Lemma cell_edge (t : @tables NumR) a o : Cell (@t_set NumR a (a + 1) 0 0 o t) a (a + 1) (a + 1).
Proof.
  destruct (set_same t a (a + 1) (0 : @num NumR) (0 : @num NumR) o) as (E1 & E2 & E3). assert (PP := PI_RGT_0). constructor; rewrite ?E1, ?E2, ?E3.
  - lra.
  - rewrite sarea_edge. lra.
  - left; reflexivity.
  - intros _. rewrite sarea_edge. auto.
  - reflexivity.
Qed.
Lemma cell_le t i k c0 c1 : (c0 >= c1)%nat -> Cell t i k c0 -> Cell t i k c1.
Proof. intros L [A B C D E]. constructor; try assumption. intros [H | (c & Lc & H)]; apply E; [left; exact H|right; exists c; split; [lia|exact H]]. Qed.
Lemma fill_angle_pos (a b c d e : vecR) : 0 <= fill_angle a b c d e.
Proof.
  assert (K : forall a b c d : vecR, 0 <= PI - dihedral a b c d).
  { clear. intros a b c d. unfold Vec.dihedral. cbv zeta. destruct (_ || _); [assert (P := PI_RGT_0); rl|]. cbn [nacos NumR]. match goal with |- 0 <= PI - acos ?x => assert (X := acos_bound x) end. lra. }
  unfold fill_angle. rewrite nmax_R. apply max_pos. apply K.
Qed.
Lemma cell_new (t : @tables NumR) i k c (x y : R) : (i < c < k)%nat -> 0 <= y <= PI -> sarea i k <= x -> (y = 0 -> cut_at i k c /\ x = sarea i k) -> ((exists c', (c' < S c)%nat /\ cut_at i k c') -> y = 0) ->
  Cell (@t_set NumR i k x y (Some c) t) i k (S c).
Proof.
  intros B Y X Z Q. destruct (set_same t i k (x : @num NumR) (y : @num NumR) (Some c)) as (E1 & E2 & E3). constructor; rewrite ?E1, ?E2, ?E3.
  - exact Y.
  - exact X.
  - right. exists c. auto.
  - intros K. destruct (Z K) as [K1 K2]. split; [exact K2|right; exists c; auto].
  - intros [-> | K]; [lia|]. apply Q, K.
Qed.

Definition fin (j i a b : nat) : Prop := (b < n)%nat /\ ((a < b /\ b < a + j)%nat \/ (b = a + j /\ a < i)%nat).
Record St (j i c : nat) (t : @tables NumR) : Prop := {
  st_done : forall a b, fin j i a b -> Cell t a b b;
  st_big : forall a b, ~ fin j (S i) a b -> t_angle t a b = 10 ^ 12;
  st_cur : (c = i + 1)%nat /\ t_angle t i (i + j)%nat = 10 ^ 12 \/ ((i + 1 < c)%nat /\ Cell t i (i + j) c) }.
Lemma try_step j i c t : (i + j < n)%nat -> (i < c < i + j)%nat -> St j i c t -> wp (fill_try (N := NumR) cabs bd em bound i (i + j) t c) m (fun t' m' => m' = m /\ St j i (S c) t').
Proof.
  intros L Bc [D Bg Cu]. set (k := (i + j)%nat) in *. assert (C1 : Cell t i c c) by (apply D; unfold fin; lia). assert (C2 : Cell t c k k) by (apply D; unfold fin, k; lia).
  destruct (try_facts t i c k Bc L C1 C2) as (R1 & A1 & Z1 & Q1). unfold Wp.wp. rewrite (try_is t i c k Bc L C1 C2).
  set (x := c_area t i c k) in *. set (y := c_angle t i c k) in *.
  assert (NEW : ((exists c', (c' < c)%nat /\ cut_at i k c') -> y = 0) -> St j i (S c) (@t_set NumR i k x y (Some c) t)).
  { intros Q. constructor.
    - intros a b F. apply cell_other; [unfold fin, k in *; lia|apply D, F].
    - intros a b F. destruct (set_other t i k (x : @num NumR) (y : @num NumR) (Some c) a b) as (_ & E & _); [unfold fin, k in *; lia|]. rewrite E. apply Bg, F.
    - right. split; [lia|]. apply cell_new; try assumption. intros (c' & Lc & K). destruct (Nat.eq_dec c' c) as [-> | Ne]; [apply Q1, K|apply Q; exists c'; split; [lia|exact K]]. }
  assert (PP := PI_4). assert (P0 := PI_RGT_0).
  destruct Cu as [[-> Ebig] | [Lc Cc]].
  - rewrite Ebig. rn. replace (Rltb y (10 ^ 12)) with true by (unfold Rltb; destruct (Rlt_dec y (10 ^ 12)); [reflexivity|lra]). cbn [orb]. split; [reflexivity|]. apply NEW. intros (c' & Lc & [K _]). lia.
  - assert (R2 := ce_rng _ _ _ _ Cc). destruct (@nltb NumR y (t_angle t i k)) eqn:E1; cbn [orb].
    + rn. split; [reflexivity|]. apply NEW. intros K. assert (Z := ce_cut _ _ _ _ Cc (or_intror K)). rewrite Z in E1. unfold Rltb in E1. destruct (Rlt_dec y 0); [lra|discriminate].
    + destruct (_ && _) eqn:E2.
      * apply andb_true_iff in E2 as [_ E2]. split; [reflexivity|]. apply NEW. intros K. assert (Z := ce_cut _ _ _ _ Cc (or_intror K)). destruct (ce_zero _ _ _ _ Cc Z) as [EA _]. rewrite EA in E2. rn. unfold Rltb in E2. destruct (Rlt_dec x (sarea i k)); [lra|discriminate].
      * split; [reflexivity|]. constructor; [exact D|exact Bg|]. right. split; [lia|]. destruct Cc as [Y1 Y2 Y3 Y4 Y5]. constructor; try assumption. intros [K0 | (c' & Lc' & K)]; [lia|].
        destruct (Nat.eq_dec c' c) as [-> | Ne]; [|apply Y5; right; exists c'; split; [lia|exact K]]. apply Q1 in K. rewrite K in E1. rn. unfold Rltb in E1. destruct (Rlt_dec 0 (t_angle t i k)) as [|X0]; [discriminate|]. apply Rle_antisym; [apply Rnot_lt_le, X0|apply Y1].
Qed.
Record Tb (P : nat -> nat -> Prop) (t : @tables NumR) : Prop := { tb_done : forall a b, P a b -> Cell t a b b; tb_big : forall a b, ~ P a b -> t_angle t a b = 10 ^ 12 }.
Lemma tb_iff (P P' : nat -> nat -> Prop) t : (forall a b, P a b <-> P' a b) -> Tb P t -> Tb P' t.
Proof. intros E [A B]. constructor; intros a b H; [apply A, E, H|apply B; intros K; apply H, E, K]. Qed.
Lemma cell_step j i t : (3 <= j)%nat -> (i + j < n)%nat -> Tb (fin j i) t -> wp (fill_cell (N := NumR) cabs bd em bound j t i) m (fun t' m' => m' = m /\ Tb (fin j (S i)) t').
Proof.
  intros Lj L [D Bg]. unfold fill_cell. eapply wp_conseq; [apply (wp_fold _ m (St j i))|].
  - constructor; [exact D| |].
    + intros a b F. apply Bg. unfold fin in *. lia.
    + left. split; [reflexivity|]. apply Bg. unfold fin. lia.
  - intros c t' B S0. apply try_step; [exact L|lia|exact S0].
  - cbn beta. intros t' m' [-> [D' Bg' Cu]]. split; [reflexivity|]. replace (i + 1 + (j - 1))%nat with (i + j)%nat in Cu by lia. constructor; [|exact Bg']. intros a b F.
    destruct (Nat.eq_dec a i) as [-> | Ne]; [destruct (Nat.eq_dec b (i + j)) as [-> | Ne']|]; [destruct Cu as [[Cu _] | [_ Cu]]; [lia|exact Cu]|apply D'; unfold fin in *; lia|apply D'; unfold fin in *; lia].
Qed.
Lemma row_step j t : (3 <= j < n)%nat -> Tb (fin j 0) t -> wp (fill_row (N := NumR) cabs bd em bound n t j) m (fun t' m' => m' = m /\ Tb (fin (S j) 0) t').
Proof.
  intros L G. unfold fill_row. eapply wp_conseq; [apply (wp_fold _ m (fun i => Tb (fin j i))); [exact G|]|].
  - intros i t' B G'. cbn beta. apply cell_step; [lia|lia|exact G'].
  - cbn beta. intros t' m' [-> G']. split; [reflexivity|]. eapply tb_iff; [|exact G']. intros a b. unfold fin. lia.
Qed.
Definition first (i a b : nat) : Prop := (b < n)%nat /\ (a < i)%nat /\ (b = a + 1 \/ b = a + 2)%nat.
Lemma start_step t i : (i + 1 < n)%nat -> Tb (first i) t -> wp (fill_start bd em n t i) m (fun t' m' => m' = m /\ Tb (first (S i)) t').
Proof.
  intros L [D Bg]. unfold fill_start. cbv zeta. set (t1 := t_set i (i + 1) nzero nzero None t).
  assert (D1 : forall a b, first i a b \/ (a = i /\ b = i + 1)%nat -> Cell t1 a b b).
  { intros a b [F | [-> ->]]; [apply cell_other; [unfold first in F; lia|apply D, F]|apply cell_edge]. }
  assert (B1 : forall a b, ~ (first i a b \/ (a = i /\ b = i + 1)%nat) -> t_angle t1 a b = 10 ^ 12).
  { intros a b F. destruct (set_other t i (i + 1) (nzero : @num NumR) nzero None a b) as (_ & E & _); [lia|]. unfold t1. rewrite E. apply Bg. intros K. apply F. left. exact K. }
  destruct (Nat.ltb_spec i (n - 2)) as [L2 | L2].
  - unfold Wp.wp, bind. rewrite (Hp i), (Hp (i + 1)), (Hp (i + 2)) by lia. rewrite (Hq i) by lia. replace (i + 2)%nat with (i + 1 + 1)%nat by lia. rewrite (Hq (i + 1)) by lia. cbn [ret]. split; [reflexivity|].
    set (k := (i + 1 + 1)%nat). set (t2 := t_set (i + 1) k (nzero : @num NumR) nzero None t1). assert (C1 : Cell t2 i (i + 1) (i + 1)) by (apply cell_other; [lia|apply D1; right; auto]). assert (C2 : Cell t2 (i + 1) k k) by apply cell_edge.
    destruct (try_facts t2 i (i + 1) k ltac:(unfold k; lia) ltac:(unfold k; lia) C1 C2) as (R1 & A1 & Z1 & Q1).
    assert (EA : c_area t2 i (i + 1) k = fill_area (p i) (p (i + 1)%nat) (p k)).
    { unfold c_area. destruct (set_same t1 (i + 1) k (nzero : @num NumR) nzero None) as (E1 & _). unfold t2. rewrite E1. destruct (set_other t1 (i + 1) k (nzero : @num NumR) nzero None i (i + 1)) as (E2 & _); [lia|]. rewrite E2. unfold t1. destruct (set_same t i (i + 1) (nzero : @num NumR) nzero None) as (E3 & _). rewrite E3. rn. lra. }
    assert (EB : c_angle t2 i (i + 1) k = fill_angle (p i) (p (i + 1)%nat) (p k) (q i) (q (i + 1)%nat)).
    { revert R1. unfold c_angle, behind. unfold k at 2 7. rewrite !Nat.eqb_refl. destruct (set_same t1 (i + 1) k (nzero : @num NumR) nzero None) as (_ & E1 & _). unfold t2. rewrite E1. destruct (set_other t1 (i + 1) k (nzero : @num NumR) nzero None i (i + 1)) as (_ & E2 & _); [lia|]. rewrite E2. unfold t1. destruct (set_same t i (i + 1) (nzero : @num NumR) nzero None) as (_ & E3 & _). rewrite E3.
      change (@nzero NumR) with 0. replace (Rmax 0 0) with 0 by (unfold Rmax; destruct (Rle_dec 0 0); reflexivity). unfold Rmax. destruct (Rle_dec _ 0) as [Y | Y]; [|reflexivity]. intros _. apply Rle_antisym; [|exact Y]. apply fill_angle_pos. }
    rewrite <- EA, <- EB. constructor.
    + intros a b F. destruct (Nat.eq_dec a i) as [-> | Ne]; [destruct (Nat.eq_dec b k) as [-> | Ne']|].
      * eapply cell_le; [|apply cell_new; try eassumption; [unfold k; lia|]]; [unfold k; lia|]. intros (c' & Lc & K). apply Q1. assert (c' = (i + 1)%nat) as <- by (destruct K; lia). exact K.
      * apply cell_other; [lia|]. apply D1. unfold first, k in *. lia.
      * apply cell_other; [lia|]. apply D1. unfold first, k in *. lia.
    + intros a b F. destruct (set_other t1 i k (c_area t2 i (i + 1) k : @num NumR) (c_angle t2 i (i + 1) k : @num NumR) (Some (i + 1)%nat) a b) as (_ & E & _); [unfold first, k in *; lia|]. rewrite E. apply B1. unfold first, k in *. lia.
  - unfold Wp.wp, ret. split; [reflexivity|]. constructor; intros a b F; [apply D1|apply B1]; unfold first in *; lia.
Qed.
Theorem tables_flat : (3 <= n)%nat -> exists t, fill_tables (N := NumR) cabs bd em bound n m = Ok (t, m) /\ forall i k, (i < k)%nat -> (k < n)%nat -> Cell t i k k.
Proof.
  intros L3. assert (K : wp (fill_tables (N := NumR) cabs bd em bound n) m (fun t m' => m' = m /\ Tb (fin n 0) t)).
  { unfold fill_tables. apply wp_bind. eapply wp_conseq; [apply (wp_fold _ m (fun i => Tb (first i)))|].
    - constructor; unfold first; cbn; intros; try reflexivity; lia.
    - intros i t B G. cbn beta. apply start_step; [lia|exact G].
    - cbn beta. intros t m' [-> G]. eapply wp_conseq; [apply (wp_fold _ m (fun j => Tb (fin j 0)))|].
      + eapply tb_iff; [|exact G]. intros a b. unfold first, fin. lia.
      + intros j t' B G'. cbn beta. apply row_step; [lia|exact G'].
      + cbn beta. intros t' m' [-> G']. split; [reflexivity|]. replace (3 + (n - 3))%nat with n in G' by lia. exact G'. }
  unfold Wp.wp in K. destruct (fill_tables (N := NumR) cabs bd em bound n m) as [[t m']| | |]; try contradiction. destruct K as [-> G].
  exists t. split; [reflexivity|]. intros i k L1 L2. apply (tb_done _ _ G). unfold fin. lia.
Qed.
(** The triangles that the tables lead to. *)
Lemma queue_flat (t : @tables NumR) (mm : mesh NumR) : (forall i k, (i < k)%nat -> (k < n)%nat -> Cell t i k k) -> forall fuel que ts ts',
  (forall i k, In (i, k) que -> (i + 2 <= k)%nat /\ (k < n)%nat /\ Pos i k) -> (forall i c k, In (i, c, k) ts -> faces_up nrm (p i) (p c) (p k)) ->
  fill_queue (t_o t) n fuel que ts mm = Ok (ts', mm) -> forall i c k, In (i, c, k) ts' -> faces_up nrm (p i) (p c) (p k).
Proof.
  intros C. induction fuel as [|fuel IH]; intros que ts ts' Hque Hts E; (destruct que as [|[i k] que]; [injection E as <-; exact Hts|]); [discriminate E|].
  cbn [fill_queue] in E. unfold bind, o_at in E. destruct (Hque i k (or_introl eq_refl)) as (L & Lk & P).
  assert (Cc := C i k ltac:(lia) Lk). apply (cell_pos t i k Lk ltac:(lia) Cc) in P. destruct (ce_zero _ _ _ _ Cc P) as [_ [X | (c & Eo & B & U & P1 & P2)]]; [lia|].
  rewrite (proj2 (Nat.ltb_lt i n)), (proj2 (Nat.ltb_lt k n)) in E by lia. cbn [andb] in E. rewrite Eo in E. cbn [ret] in E. revert E. apply IH.
  - intros a b H. apply in_app_iff in H as [H | H]; [apply Hque; right; exact H|]. unfold later in H. destruct (Nat.eqb_spec (i + 2) k) as [|N2]; [destruct H|]. apply in_app_iff in H as [H | H].
    + destruct (Nat.eqb_spec (i + 1) c) as [|N1]; [destruct H|]. destruct H as [H | []]. injection H as <- <-. split; [lia|]. split; [lia|exact P1].
    + destruct (Nat.eqb_spec (c + 1) k) as [|N1]; [destruct H|]. destruct H as [H | []]. injection H as <- <-. split; [lia|]. split; [lia|exact P2].
  - intros a b d H. apply in_app_iff in H as [H | [H | []]]; [apply Hts, H|]. injection H as <- <- <-. apply up_iff; [lia|lia|lia|exact U].
Qed.
End Tables.
