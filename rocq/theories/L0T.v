(** denoiseL0Smooth with an exact solver: the loop, its end, and the edge operator. *)
From Coq Require Import Reals Lra Bool List ZArith Arith Lia Permutation.
From Verif Require Import Num NumInst Vec VecR Heap Mesh Construct Spec BuildSpec GeomSpec Orbit Rings Queries Measure MeasureM Means MeasureR SmoothSpec Smooth SmoothP SmoothD SmoothR Lapl LaplSpec LaplP LaplM FilterSpec SmoothF Fair FairW LinR L0 L0Spec L0P.
Import ListNotations.
Local Open Scope R_scope.

(** ** The coefficients *)
Lemma sq_len (v : vecR) : vlength v * vlength v = dot v v.
Proof. unfold Vec.vlength. rn. rewrite sqrt_sqrt; [reflexivity|]. rewrite dot_eq. destruct v as [a b c]. rn. assert (0 <= a * a) by apply Rle_0_sqr. assert (0 <= b * b) by apply Rle_0_sqr. assert (0 <= c * c) by apply Rle_0_sqr. lra. Qed.
Lemma len_dot (v w : vecR) : dot v v = dot w w -> vlength v = vlength w.
Proof. intros E. unfold Vec.vlength. rewrite E. reflexivity. Qed.
Lemma area_123 (p1 p2 p3 : vecR) : / 2 * vlength (cross (vsub p2 p1) (vsub p2 p3)) = area3 p1 p2 p3.
Proof. unfold area3. rewrite (len_dot (cross (vsub p2 p1) (vsub p2 p3)) (cross (vsub p2 p1) (vsub p3 p1))); [unfold Rdiv; ring|]. rewrite !dot_eq. destruct p1, p2, p3. unfold cross, vsub, vadd, vneg. rn. ring. Qed.
Lemma area_134 (p1 p3 p4 : vecR) : / 2 * vlength (cross (vsub p4 p1) (vsub p4 p3)) = area3 p1 p3 p4.
Proof. unfold area3. rewrite (len_dot (cross (vsub p4 p1) (vsub p4 p3)) (cross (vsub p3 p1) (vsub p4 p1))); [unfold Rdiv; ring|]. rewrite !dot_eq. destruct p1, p3, p4. unfold cross, vsub, vadd, vneg. rn. ring. Qed.
Lemma dot_pos (p q : vecR) : p <> q -> 0 < dot (vsub p q) (vsub p q).
Proof.
  intros Ne. rewrite dot_eq. destruct p as [a b c], q as [x y z]. unfold vsub, vadd, vneg. rn.
  assert (Q : a <> x \/ b <> y \/ c <> z). { destruct (Req_dec a x); [|auto]. destruct (Req_dec b y); [|auto]. destruct (Req_dec c z); [|auto]. subst. contradiction. }
  assert (0 <= (a + - x) * (a + - x)) by apply Rle_0_sqr. assert (0 <= (b + - y) * (b + - y)) by apply Rle_0_sqr. assert (0 <= (c + - z) * (c + - z)) by apply Rle_0_sqr.
  destruct Q as [Q|[Q|Q]].
  - assert (0 < (a + - x) * (a + - x)) by (apply Rsqr_pos_lt; lra). lra.
  - assert (0 < (b + - y) * (b + - y)) by (apply Rsqr_pos_lt; lra). lra.
  - assert (0 < (c + - z) * (c + - z)) by (apply Rsqr_pos_lt; lra). lra.
Qed.
Theorem coef_operator (p1 p2 p3 p4 : vecR) : edge_operator p1 p2 p3 p4 (l0_coef (N := NumR) p1 p2 p3 p4).
Proof.
  unfold edge_operator, l0_coef. intros HS Ne. assert (L := sq_len (vsub p1 p3)). assert (LP := dot_pos p1 p3 Ne).
  change (@nhalf NumR) with (/ 2). change (@nmul NumR) with Rmult. change (@nadd NumR) with Rplus. change (@ndiv NumR) with Rdiv. cbv zeta. rewrite (area_123 p1 p2 p3), (area_134 p1 p3 p4). rewrite L. clear L.
  generalize dependent (area3 p1 p2 p3). intros a. generalize (area3 p1 p3 p4). intros b HS. split; [reflexivity|]. split; [reflexivity|].
  rewrite !dot_eq in *. destruct p1 as [x1 y1 z1], p2 as [x2 y2 z2], p3 as [x3 y3 z3], p4 as [x4 y4 z4]. unfold lin4, vsub, vadd, vneg, Vec.vscale in *. rn.
  split; field; split; lra.
Qed.
Lemma lin_cross (p1 p2 p3 p4 : vecR) (k2 k3 k4 : R) : cross (vsub p3 p1) (lin4 (- k2 - k3 - k4, k2, k3, k4) p1 p2 p3 p4) =
  vadd (vscale k2 (cross (vsub p3 p1) (vsub p2 p1))) (vneg (vscale k4 (cross (vsub p1 p3) (vsub p4 p3)))).
Proof. unfold lin4. vring. Qed.
(** The operator vanishes exactly if the two triangles have the same unit normal. *)
Theorem operator_flat (p1 p2 p3 p4 : vecR) k : edge_operator p1 p2 p3 p4 k -> 0 < area3 p1 p2 p3 -> 0 < area3 p1 p3 p4 ->
  let n1 := cross (vsub p3 p1) (vsub p2 p1) in let n2 := cross (vsub p1 p3) (vsub p4 p3) in
  lin4 k p1 p2 p3 p4 = vzero <-> vscale (/ vlength n1) n1 = vscale (/ vlength n2) n2.
Proof.
  intros H A1 A2 n1 n2. assert (Ne : p1 <> p3).
  { intros <-. unfold area3 in A2. assert (Z : vlength (cross (vsub p1 p1) (vsub p4 p1)) = 0); [|lra]. unfold Vec.vlength. rewrite dot_eq. rn. rewrite <- sqrt_0. f_equal. destruct p1, p4. unfold cross, vsub, vadd, vneg. rn. ring. }
  assert (L1 : vlength n1 = 2 * area3 p1 p2 p3). { rewrite <- (area_123 p1 p2 p3). rewrite (len_dot n1 (cross (vsub p2 p1) (vsub p2 p3))); [lra|]. unfold n1. rewrite !dot_eq. destruct p1, p2, p3. unfold cross, vsub, vadd, vneg. rn. ring. }
  assert (L2 : vlength n2 = 2 * area3 p1 p3 p4). { rewrite <- (area_134 p1 p3 p4). rewrite (len_dot n2 (cross (vsub p4 p1) (vsub p4 p3))); [lra|]. unfold n2. rewrite !dot_eq. destruct p1, p4, p3. unfold cross, vsub, vadd, vneg. rn. ring. }
  destruct k as [[[k1 k2] k3] k4]. destruct (H ltac:(lra) Ne) as (K2 & K4 & K0 & D). assert (LP := dot_pos p3 p1 (fun E => Ne (eq_sym E))).
  set (a := area3 p1 p2 p3) in *. set (b := area3 p1 p3 p4) in *. set (w := lin4 (k1, k2, k3, k4) p1 p2 p3 p4) in *. set (e := vsub p3 p1) in *.
  assert (C : cross e w = vadd (vscale k2 n1) (vneg (vscale k4 n2))).
  { assert (K1 : k1 = - k2 - k3 - k4) by lra. unfold e, w, n1, n2. rewrite K1. apply lin_cross. }
  rewrite L1, L2. split.
  - intros E. rewrite E in C. assert (Q : vadd (vscale k2 n1) (vneg (vscale k4 n2)) = vzero) by (rewrite <- C; destruct e; unfold cross, vzero, vfill; rn; f_equal; rn; ring). clear C D E H.
    rewrite K2, K4 in Q. clearbody n1 n2. destruct n1 as [x y z], n2 as [x' y' z']. unfold vadd, vneg, Vec.vscale, vzero, vfill in *. rn. injection Q as Q1 Q2 Q3.
    assert (G : forall u v, u * (b / (a + b)) + - (v * (a / (a + b))) = 0 -> u * / (2 * a) = v * / (2 * b)).
    { intros u v Q. assert (Q' : b * u = a * v). { assert (X : (u * (b / (a + b)) + - (v * (a / (a + b)))) * (a + b) = b * u - a * v) by (field; lra). rewrite Q, Rmult_0_l in X. lra. } 
      replace (u * / (2 * a)) with (b * u * / (2 * a * b)) by (field; lra). rewrite Q'. field; lra. }
    f_equal; apply G; assumption.
  - intros E. assert (Z : cross e w = vzero).
    { rewrite C, K2, K4. clear C D H. clearbody n1 n2. destruct n1 as [x y z], n2 as [x' y' z']. unfold vadd, vneg, Vec.vscale, vzero, vfill in *. rn. injection E as E1 E2 E3.
      assert (G : forall u v, u * / (2 * a) = v * / (2 * b) -> u * (b / (a + b)) + - (v * (a / (a + b))) = 0).
      { intros u v Q. replace (u * (b / (a + b))) with (u * / (2 * a) * (2 * a * b / (a + b))) by (field; lra). rewrite Q. field; lra. }
      f_equal; apply G; assumption. }
    clear - Z D LP. clearbody w e. rewrite dot_eq in *. destruct w as [x y z], e as [u v t]. unfold cross, vzero, vfill in *. rn. injection Z as Z1 Z2 Z3.
    assert (Q : forall f g : R, (f = g * (u * u + v * v + t * t)) -> f = 0 -> g = 0) by (intros f g E F; subst f; apply Rmult_integral in F as [F|F]; [exact F|lra]).
    f_equal.
    + apply (Q (u * (x * u + y * v + z * t) + t * (t * x - u * z) - v * (u * y - v * x))); [ring|rewrite D, Z2, Z3; ring].
    + apply (Q (v * (x * u + y * v + z * t) + u * (u * y - v * x) - t * (v * z - t * y))); [ring|rewrite D, Z1, Z3; ring].
    + apply (Q (t * (x * u + y * v + z * t) + v * (v * z - t * y) - u * (t * x - u * z))); [ring|rewrite D, Z1, Z2; ring].
Qed.

(** ** The loop *)
Lemma of_l_pos (m : mesh NumR) (W : WF m) v : In v (m_verts m) -> of_l m (positions m) v = v_pos m v.
Proof.
  intros Iv. destruct (vat_of m v Iv) as (i & Hi & ->). rewrite of_vat by assumption. unfold positions. rewrite (nth_indep _ vzero (v_pos m 0%nat)) by (rewrite map_length; exact Hi). rewrite map_nth. reflexivity.
Qed.
Section PO.
Variables m m1 : mesh NumR.
Hypothesis P : posonly m m1.
Lemma po_c1 h : c1 m1 h = c1 m h. Proof. rewrite (po_eq m m1 P). reflexivity. Qed.
Lemma po_c2 h : c2 m1 h = c2 m h. Proof. rewrite (po_eq m m1 P). reflexivity. Qed.
Lemma po_c3 h : c3 m1 h = c3 m h. Proof. rewrite (po_eq m m1 P). reflexivity. Qed.
Lemma po_c4 h : c4 m1 h = c4 m h. Proof. rewrite (po_eq m m1 P). reflexivity. Qed.
Lemma po_mat hs K : mat m1 hs K = mat m hs K. Proof. rewrite (po_eq m m1 P). reflexivity. Qed.
Lemma po_of X v : of_l m1 X v = of_l m X v. Proof. rewrite (po_eq m m1 P). reflexivity. Qed.
Lemma po_round hs K P0 lam al be X Y : l0_round m1 hs K P0 lam al be X Y -> l0_round m hs K P0 lam al be X Y.
Proof. rewrite (po_eq m m1 P). exact (fun H => H). Qed.
End PO.
Section Ext.
Variable m : mesh NumR.
Hypothesis W : WF m.
Variable hs : list nat.
Hypothesis Hi : incl hs (m_hes m).
Lemma comb_ext k P P' h : In h hs -> (forall v, In v (m_verts m) -> P v = P' v) -> comb m k P h = comb m k P' h.
Proof. intros Hh E. destruct (corners_ok m W h (Hi h Hh)) as (_ & I1 & I2 & I3 & I4). unfold comb. rewrite !E by assumption. reflexivity. Qed.
Lemma energy_ext K al be P0 P0' dl X : (forall v, In v (m_verts m) -> P0 v = P0' v) -> energy m hs K al be P0 dl X = energy m hs K al be P0' dl X.
Proof. intros E. unfold energy. do 2 f_equal. f_equal. apply map_ext_in. intros v Iv. rewrite (E v Iv). reflexivity. Qed.
Lemma energy_ext2 K al be P0 dl X X' : (forall v, In v (m_verts m) -> X v = X' v) -> energy m hs K al be P0 dl X = energy m hs K al be P0 dl X'.
Proof.
  intros E. unfold energy. f_equal; [f_equal|].
  - f_equal. apply map_ext_in. intros v Iv. rewrite (E v Iv). reflexivity.
  - do 2 f_equal. apply map_ext_in. intros h Hh. rewrite (comb_ext _ X X' h Hh E). reflexivity.
  - do 2 f_equal. apply map_ext_in. intros h Hh. rewrite (comb_ext _ X X' h Hh E). reflexivity.
Qed.
Lemma round_ext K P0 P0' lam al be P P' Q Q' : (forall v, In v (m_verts m) -> P0 v = P0' v) -> (forall v, In v (m_verts m) -> P v = P' v) -> (forall v, In v (m_verts m) -> Q v = Q' v) ->
  l0_round m hs K P0 lam al be P Q -> l0_round m hs K P0' lam al be P' Q'.
Proof.
  intros E0 E1 E2 (dl & H1 & H2). exists dl. split.
  - intros h Hh. rewrite <- (comb_ext _ P P' h Hh E1). apply H1, Hh.
  - intros X. rewrite <- !(energy_ext K al be P0 P0' dl _ E0). rewrite <- (energy_ext2 K al be P0 dl Q Q' E2). destruct (H2 X) as [A B]. split; [exact A|]. intros E v Iv. rewrite <- (E2 v Iv). apply B; assumption.
Qed.
Lemma round_unique K P0 lam al be P Q Q' : l0_round m hs K P0 lam al be P Q -> l0_round m hs K P0 lam al be P Q' -> forall v, In v (m_verts m) -> Q v = Q' v.
Proof.
  intros (d1 & D1 & M1) (d2 & D2 & M2).
  assert (Ed : forall X, energy m hs K al be P0 d1 X = energy m hs K al be P0 d2 X).
  { intros X. unfold energy. f_equal. f_equal. f_equal. apply map_ext_in. intros h Hh. destruct (D1 h Hh) as [A1 B1]. destruct (D2 h Hh) as [A2 B2]. cbv zeta in *.
    destruct (Rlt_dec (sqlen (comb m (K h) P h)) (lam / be)) as [Lt|Ge]; [rewrite A1, A2 by exact Lt; reflexivity|rewrite B1, B2 by lra; reflexivity]. }
  destruct (M1 Q') as [X1 U1]. destruct (M2 Q) as [X2 U2]. rewrite !Ed in X1. intros v Iv. symmetry. apply U1; [rewrite !Ed; lra|exact Iv].
Qed.
End Ext.
Lemma round_perm (m : mesh NumR) hs hs' K P0 lam al be P Q : Permutation hs hs' -> l0_round m hs K P0 lam al be P Q -> l0_round m hs' K P0 lam al be P Q.
Proof.
  intros Pm (dl & H1 & H2).
  assert (E : forall X, energy m hs' K al be P0 dl X = energy m hs K al be P0 dl X).
  { intros X. unfold energy, total. f_equal; [f_equal|]; f_equal; apply (rsum_perm _ _ (Permutation_map _ (Permutation_sym Pm))). }
  exists dl. split; [intros h Hh; apply H1, (Permutation_in _ (Permutation_sym Pm)), Hh|]. intros X. rewrite !E. apply H2.
Qed.

Lemma sqrt2_ge1 : 1 <= sqrt 2. Proof. rewrite <- sqrt_1. apply sqrt_le_1; lra. Qed.
Lemma sqrt2_gt1 : 1 < sqrt 2. Proof. rewrite <- sqrt_1. apply sqrt_lt_1; lra. Qed.

Section Loop.
Variables m m1 : mesh NumR.
Hypothesis W : WF m.
Hypothesis Pm : posonly m m1.
Let W1 : WF m1 := posonly_wf m m1 W Pm.
Variable hs : list nat.
Hypothesis Hi : incl hs (m_hes m).
Lemma Hi1 : incl hs (m_hes m1). Proof. rewrite (po_eq m m1 Pm). exact Hi. Qed.
Lemma R_ok : l0_matrix (N := NumR) l0_row (map Some hs) m = Ok (mat m hs (fun _ => Rk), m).
Proof. apply matrix_ok. intros e h Hh. apply row_ok; [exact W|apply Hi, Hh]. Qed.
Lemma D_ok : l0_matrix (N := NumR) l0_drow (map Some hs) m1 = Ok (mat m1 hs (Dk m1), m1).
Proof. apply matrix_ok. intros e h Hh. apply drow_ok; [exact W1|apply Hi1, Hh]. Qed.
Lemma loop_rounds bmax lam P0 al be P Q : l0_loop (N := NumR) solution m1 (map Some hs) (mat m hs (fun _ => Rk)) P0 bmax lam al be P Q -> 0 <= al -> 0 <= be ->
  exists cnt Ps, Ps 0%nat = of_l m P /\ Ps cnt = of_l m Q /\ (cnt <> 0%nat -> length Q = length (m_verts m)) /\ (cnt = 0%nat -> Q = P) /\
    (forall i, (i < cnt)%nat -> be * sqrt 2 ^ i < bmax /\ l0_round m hs (Dk m1) (of_l m P0) lam (al * / 2 ^ i) (be * sqrt 2 ^ i) (Ps i) (Ps (S i))) /\ bmax <= be * sqrt 2 ^ cnt.
Proof.
  intros H. induction H as [al be P St | al be P D P' Q St HD HS HL IH]; intros Hal Hbe.
  - exists 0%nat, (fun _ => of_l m P). split; [reflexivity|]. split; [reflexivity|]. split; [congruence|]. split; [reflexivity|]. split; [lia|]. cbn [pow]. change (@nltb NumR) with Rltb in St. unfold Rltb in St. destruct (Rlt_dec be bmax); [discriminate|lra].
  - change (@nmul NumR) with Rmult in IH. change (@nhalf NumR) with (/ 2) in IH. change (@nsqrt NumR (@nofZ NumR 2)) with (sqrt 2) in IH. assert (S2 := sqrt2_ge1). destruct IH as (cnt & Ps & E0 & En & Ln & _ & Hr & Hb); [lra|apply Rmult_le_pos; lra|].
    change (@nltb NumR) with Rltb in St. unfold Rltb in St. destruct (Rlt_dec be bmax) as [Lt|]; [|discriminate]. rewrite D_ok in HD. injection HD as <-. cbv zeta in HS. rewrite <- (po_mat m m1 Pm) in HS. rewrite map_length in HS. change (@ndiv NumR) with Rdiv in HS.
    assert (RD : l0_round m hs (Dk m1) (of_l m P0) lam al be (of_l m P) (of_l m P')).
    { apply (po_round m m1 Pm). assert (G : l0_round m1 hs (Dk m1) (of_l m1 P0) lam al be (of_l m1 P) (of_l m1 P')) by (apply (round_ok m1 W1 hs (Dk m1) al be Hi1 Hal Hbe lam P0 P P'); exact HS).
      apply (round_ext m1 W1 hs Hi1 _ (of_l m1 P0) _ _ _ _ (of_l m1 P) _ (of_l m1 P')); try (intros; apply po_of, Pm). exact G. }
    assert (LP : length P' = length (m_verts m)) by (destruct HS as (_ & L & _); rewrite L, (po_eq m m1 Pm); reflexivity).
    exists (S cnt), (fun i => match i with O => of_l m P | S j => Ps j end). split; [reflexivity|]. split; [exact En|]. split; [|split; [discriminate|split]].
    + intros _. destruct cnt as [|cnt]; [|apply Ln; discriminate]. rewrite E0 in En. inversion HL as [? ? ? St' | ? ? ? ? ? ? St' ? HS' HL']; subst; [exact LP|]. exfalso. change (@nltb NumR) with Rltb in St'. unfold Rltb in St'. destruct (Rlt_dec _ bmax) as [Lt'|]; [|discriminate].
      cbn [pow] in Hb. change (@nmul NumR) with Rmult in Lt'. change (@nsqrt NumR (@nofZ NumR 2)) with (sqrt 2) in Lt'. lra.
    + intros [|i] Hii; [cbn [pow]; rewrite Rinv_1, !Rmult_1_r, E0; split; [exact Lt|exact RD]|]. destruct (Hr i ltac:(lia)) as [A B]. cbn [pow].
      replace (be * (sqrt 2 * sqrt 2 ^ i)) with (be * sqrt 2 * sqrt 2 ^ i) by ring. replace (al * / (2 * 2 ^ i)) with (al * / 2 * / 2 ^ i) by (field; apply pow_nonzero; lra). split; assumption.
    + cbn [pow]. lra.
Qed.
Lemma loop_exists bmax lam P0 : length P0 = length (m_verts m) -> forall cnt al be P, length P = length (m_verts m) -> 0 <= al -> 0 <= be -> bmax <= be * sqrt 2 ^ cnt ->
  exists Q, l0_loop (N := NumR) solution m1 (map Some hs) (mat m hs (fun _ => Rk)) P0 bmax lam al be P Q /\ length Q = length (m_verts m).
Proof.
  intros L0. assert (S2 := sqrt2_ge1). induction cnt as [|cnt IH]; intros al be P LP Hal Hbe Hb.
  - exists P. split; [|exact LP]. apply l0_stop. change (@nltb NumR) with Rltb. unfold Rltb. destruct (Rlt_dec be bmax); [cbn [pow] in Hb; lra|reflexivity].
  - destruct (Rltb be bmax) eqn:E; [|exists P; split; [apply l0_stop; exact E|exact LP]].
    assert (L1 : length P0 = length (m_verts m1)) by (rewrite (po_eq m m1 Pm); exact L0).
    destruct (system_solvable m1 W1 hs (Dk m1) al be Hi1 Hal Hbe lam P0 P L1) as (P' & HP).
    assert (LP' : length P' = length (m_verts m)) by (destruct HP as (_ & L & _); rewrite L, (po_eq m m1 Pm); reflexivity).
    destruct (IH (al * / 2) (be * sqrt 2) P' LP') as (Q & HQ & LQ); [lra|apply Rmult_le_pos; lra|cbn [pow] in Hb; lra|].
    exists Q. split; [|exact LQ]. apply (l0_next (N := NumR) _ _ _ _ _ _ _ al be P (mat m1 hs (Dk m1)) P' Q E D_ok); [|exact HQ]. cbv zeta. rewrite <- (po_mat m m1 Pm), map_length. exact HP.
Qed.
End Loop.

(** ** The whole function *)
Lemma edges_ok (m : mesh NumR) : WF m -> exists reps, l0_edges m = Ok (map Some (List.rev reps), m) /\ EdgeReps m reps.
Proof.
  intros W. destruct (reps_of m W) as (reps & E & R). destruct (numEdges_ok m W) as (k & En & _). exists reps. split; [|exact R]. unfold l0_edges. rewrite (bind_ok _ _ _ _ _ En), bind_get, (bind_ok _ _ _ _ _ E).
  unfold numEdges in En. rewrite bind_get, (bind_ok _ _ _ _ _ E) in En. unfold ret in En. injection En as Ek. rewrite Ek, Nat.eqb_refl. reflexivity.
Qed.
Lemma reps_perm (m : mesh NumR) reps hs : EdgeReps m reps -> Permutation reps hs -> EdgeReps m hs.
Proof.
  intros (A & B & C) P. assert (I : forall x, In x hs <-> In x reps) by (intros x; split; apply Permutation_in; [apply Permutation_sym|]; exact P).
  split; [apply (Permutation_NoDup P A)|]. split; [intros h Hh; apply B, I, Hh|]. intros h r Hh Er. rewrite !I. apply (C h r Hh Er).
Qed.
Lemma perm_edges (es : list ptr) reps : Permutation es (map Some (List.rev reps)) -> exists hs, es = map Some hs /\ Permutation reps hs.
Proof. intros P. apply Permutation_map_inv in P as (hs & E & P). exists hs. split; [exact E|]. apply Permutation_trans with (List.rev reps); [apply Permutation_rev|exact P]. Qed.
Lemma fold_R (l : list R) : forall a : R, fold_left (@nadd NumR) l a = a + rsum l.
Proof. induction l as [|x l IH]; intros a; cbn [fold_left rsum fold_right]; [exact (eq_sym (Rplus_0_r a))|]. transitivity (a + x + rsum l); [exact (IH (a + x))|exact (Rplus_assoc a x (rsum l))]. Qed.
Lemma mean_nonneg (m : mesh NumR) avg : WF m -> getMeanEdgeLength m = Ok (avg, m) -> 0 <= avg.
Proof.
  intros W E. destruct (meanEdgeLength_ok m W) as (reps & _ & E'). rewrite E in E'. injection E' as ->. change (@ndiv NumR) with Rdiv. 
  assert (S : forall l, fold_left (@nadd NumR) (map (edge_length m) l) 0 = rsum (map (edge_length m) l)).
  { intros l. exact (eq_trans (fold_R (map (edge_length m) l) 0) (Rplus_0_l _)). }
  change (@nzero NumR) with 0. rewrite S.
  assert (N : 0 <= rsum (map (edge_length m) reps)). { apply rsum_nonneg. intros h _. unfold edge_length. destruct (h_src m h), (dst_of m h); try (change (@nzero NumR) with 0; lra). apply vlength_pos. }
  change (@nofZ NumR) with IZR. destruct reps as [|x l]; [cbn; unfold Rdiv; rewrite Rmult_0_l; lra|]. apply Rmult_le_pos; [exact N|]. apply Rlt_le, Rinv_0_lt_compat. apply IZR_lt. cbn [length]. lia.
Qed.
Lemma taubin_ok (m : mesh NumR) : Valid m -> exists sm, taubin_default m (Ok sm) /\ (forall o, taubin_default m o -> o = Ok sm) /\ posonly m sm /\ smoothing_passes uniform_weight (fun k => if Nat.even k then / 2 else - (53 / 100)) 6 m sm.
Proof.
  intros V. destruct (taubin_total (/ 2) (53 / 100) 3 m (valid_wf m V)) as (sm & H & U & P & _). exists sm. split; [exact H|]. split; [exact U|]. split; [exact P|]. exact (taubin_computes (/ 2) (53 / 100) 3 m sm V H).
Qed.
Lemma write_pos (m m1 m' : mesh NumR) Q : WF m -> posonly m m1 -> fair_write Q m1 = Ok (tt, m') -> posonly m m' /\ forall v, In v (m_verts m) -> v_pos m' v = of_l m Q v.
Proof.
  intros W P H. assert (W1 := posonly_wf m m1 W P). destruct (fair_write_ok m1 W1 Q m' H) as [P' E]. split; [exact (posonly_trans m m1 m' P P')|].
  intros v Iv. destruct (vat_of m v Iv) as (i & Hi & ->). assert (Ev : length (m_verts m1) = length (m_verts m) /\ vat m1 i = vat m i) by (rewrite (po_eq m m1 P); auto). destruct Ev as [Ev Ea].
  assert (Ei := E i ltac:(rewrite Ev; exact Hi)). rewrite Ea in Ei. rewrite of_vat by assumption. symmetry. apply nth_error_nth, Ei.
Qed.
Lemma l0_run (al be : R) (m m' sm : mesh NumR) reps : Valid m -> 0 <= al -> 0 <= be -> (forall o, taubin_default m o -> o = Ok sm) -> posonly m sm -> l0_edges m = Ok (map Some (List.rev reps), m) -> EdgeReps m reps ->
  denoiseL0Smooth (N := NumR) solution al be m (Ok m') ->
  posonly m m' /\ exists avg dih hs cnt Ps, getMeanEdgeLength m = Ok (avg, m) /\ getMeanDihedralAngle m = Ok (dih, m) /\ Permutation reps hs /\
    l0_rounds m hs (Dk sm) (2 / 100 * avg * avg * dih) (1000 * avg) (al * avg) (be * avg) cnt Ps /\ forall v, In v (m_verts m) -> v_pos m' v = Ps cnt v.
Proof.
  intros V Hal Hbe TU Ps EE' RR H. assert (W := valid_wf m V).
  inversion H as [avg dih es0 es Rm P0 m1 Q m2 EA ED EE EP ER EX ET EL EW | ? ? ? ? ? ? ? ? ? ? ? ? ? ? NO]; subst; [|exfalso; apply (NO m'); reflexivity].
  apply TU in ET. injection ET as ->. rewrite EE' in EE. injection EE as <-. apply perm_edges in EP as (hs & -> & Ph). assert (RH := reps_perm m reps hs RR Ph).
  assert (Hi : incl hs (m_hes m)) by (intros h Hh; apply RH, Hh). rewrite (R_ok m W hs Hi) in ER. injection ER as <-. rewrite (read_pos m W) in EX. injection EX as <-.
  destruct (write_pos m sm m' Q W Ps EW) as [Pm' Em]. split; [exact Pm'|]. exists avg, dih. assert (Av := mean_nonneg m avg W EA).
  destruct (loop_rounds m sm W Ps hs Hi _ _ _ _ _ _ _ EL) as (cnt & Qs & E0 & En & _ & _ & Hr & Hb); [apply Rmult_le_pos; assumption|apply Rmult_le_pos; assumption|].
  exists hs, cnt, (fun i => match i with O => v_pos m | _ => Qs i end). split; [exact EA|]. split; [exact ED|]. split; [exact Ph|]. split.
  - split; [reflexivity|]. split; [|exact Hb]. intros i Hii. destruct (Hr i Hii) as [A B]. split; [exact A|]. revert B. apply (round_ext m W hs Hi).
    + intros v Iv. apply of_l_pos; assumption.
    + intros v Iv. destruct i; [rewrite E0; apply of_l_pos; assumption|reflexivity].
    + reflexivity.
  - intros v Iv. rewrite (Em v Iv). destruct cnt; [|rewrite <- En; reflexivity]. rewrite <- En, E0. apply of_l_pos; assumption.
Qed.
Theorem l0_computes (al be : R) (m m' : mesh NumR) : Valid m -> 0 <= al -> 0 <= be -> denoiseL0Smooth (N := NumR) solution al be m (Ok m') ->
  posonly m m' /\ exists avg dih, getMeanEdgeLength m = Ok (avg, m) /\ getMeanDihedralAngle m = Ok (dih, m) /\ l0_result avg dih al be m m'.
Proof.
  intros V Hal Hbe H. assert (W := valid_wf m V). destruct (taubin_ok m V) as (sm & T & TU & Ps & TS). destruct (edges_ok m W) as (reps & EE & RR).
  destruct (l0_run al be m m' sm reps V Hal Hbe TU Ps EE RR H) as (Pm' & avg & dih & hs & cnt & Qs & EA & ED & Ph & Hr & Em). split; [exact Pm'|]. exists avg, dih. split; [exact EA|]. split; [exact ED|].
  exists sm, hs, (Dk sm), cnt, Qs. split; [exact TS|]. split; [exact (reps_perm m reps hs RR Ph)|]. split; [|split; [exact Hr|exact Em]].
  intros h Hh. unfold Dk. rewrite (po_c1 m sm Ps), (po_c2 m sm Ps), (po_c3 m sm Ps), (po_c4 m sm Ps). apply coef_operator.
Qed.
Lemma pow_reaches b B : 0 < b -> exists k, B <= b * sqrt 2 ^ k.
Proof.
  intros Hb. destruct (Pow_x_infinity (sqrt 2)) with (b := B / b) as (k & Hk); [rewrite Rabs_pos_eq; [exact sqrt2_gt1|apply sqrt_pos]|]. exists k. assert (Q := Hk k (le_n k)).
  rewrite Rabs_pos_eq in Q by (apply pow_le, sqrt_pos). apply Rge_le in Q. apply Rmult_le_compat_l with (r := b) in Q; [|lra]. replace (b * (B / b)) with B in Q by (field; lra). exact Q.
Qed.
Lemma result_unique (avg dih al be : R) (m : mesh NumR) hs hs' K cnt cnt' Ps Ps' : WF m -> 0 <= be * avg -> EdgeReps m hs -> Permutation hs hs' ->
  l0_rounds m hs K (2 / 100 * avg * avg * dih) (1000 * avg) (al * avg) (be * avg) cnt Ps -> l0_rounds m hs' K (2 / 100 * avg * avg * dih) (1000 * avg) (al * avg) (be * avg) cnt' Ps' ->
  cnt = cnt' /\ forall v, In v (m_verts m) -> Ps cnt v = Ps' cnt' v.
Proof.
  intros W Hb RH Pm (A0 & A1 & A2) (B0 & B1 & B2). assert (S2 := sqrt2_ge1).
  assert (Ec : cnt = cnt'). { destruct (Nat.lt_trichotomy cnt cnt') as [L | [E | L]]; [|exact E|]; exfalso; [destruct (B1 cnt L) as [X _]|destruct (A1 cnt' L) as [X _]]; lra. }
  split; [exact Ec|]. subst cnt'. assert (G : forall i, (i <= cnt)%nat -> forall v, In v (m_verts m) -> Ps i v = Ps' i v).
  { induction i as [|i IH]; intros Hi v Iv; [rewrite A0, B0; reflexivity|]. destruct (A1 i ltac:(lia)) as [_ RA]. destruct (B1 i ltac:(lia)) as [_ RB]. apply (round_perm m hs' hs) in RB; [|apply Permutation_sym, Pm].
    assert (Hin : incl hs (m_hes m)) by (intros h Hh; apply RH, Hh).
    apply (round_ext m W hs Hin K _ (v_pos m) _ _ _ (Ps' i) (Ps i) (Ps' (S i)) (Ps' (S i))) in RB; [|reflexivity|intros x Ix; symmetry; apply IH; [lia|exact Ix]|reflexivity].
    apply (round_unique m hs K _ _ _ _ _ _ _ RA RB v Iv). }
  apply G. lia.
Qed.

Theorem l0_ends (al be : R) (m : mesh NumR) : Valid m -> 0 <= al -> 0 < be -> exists m', denoiseL0Smooth (N := NumR) solution al be m (Ok m') /\ forall o, denoiseL0Smooth (N := NumR) solution al be m o -> o = Ok m'.
Proof.
  intros V Hal Hbe. assert (W := valid_wf m V). destruct (taubin_ok m V) as (sm & T & TU & Ps & TS). destruct (edges_ok m W) as (reps & EE & RR). destruct (meanEdgeLength_ok m W) as (? & _ & EA). destruct (meanDihedral_ok m V) as (? & ? & _ & ED & _).
  match type of EA with _ = Ok (?a, _) => set (avg := a) in * end. match type of ED with _ = Ok (?a, _) => set (dih := a) in * end. assert (Av := mean_nonneg m avg W EA). clearbody avg dih.
  set (hs := List.rev reps). assert (Hi : incl hs (m_hes m)) by (intros h Hh; apply in_rev in Hh; apply RR, Hh).
  assert (K : exists k, 1000 * avg <= be * avg * sqrt 2 ^ k).
  { destruct Av as [Av|Av]; [apply pow_reaches, Rmult_lt_0_compat; assumption|]. rewrite <- Av. exists 0%nat. lra. }
  destruct K as (k & Hk). assert (LP : length (positions m) = length (m_verts m)) by apply map_length.
  destruct (loop_exists m sm W Ps hs Hi (1000 * avg) (2 / 100 * avg * avg * dih) (positions m) LP k (al * avg) (be * avg) (positions m) LP) as (Q & HL & LQ); [apply Rmult_le_pos; assumption|apply Rmult_le_pos; lra|exact Hk|].
  assert (LQ' : length Q = length (m_verts sm)) by (rewrite (po_eq m sm Ps); exact LQ). destruct (fair_write_total sm (posonly_wf m sm W Ps) Q LQ') as (m' & HW).
  assert (H : denoiseL0Smooth (N := NumR) solution al be m (Ok m')) by exact (l0_ok (N := NumR) solution al be m avg dih _ (map Some hs) _ (positions m) sm Q m' EA ED EE (Permutation_refl _) (R_ok m W hs Hi) (read_pos m W) T HL HW).
  exists m'. split; [exact H|]. intros o Ho.
  destruct (l0_run al be m m' sm reps V Hal (Rlt_le _ _ Hbe) TU Ps EE RR H) as (Pm' & avg1 & dih1 & hs1 & cnt1 & Qs1 & EA1 & ED1 & Ph1 & Hr1 & Em1).
  destruct o as [m2| | |]; try (exfalso; inversion Ho as [| ? ? ? ? ? ? ? ? ? ? ? ? ? T' NO]; subst; apply TU in T'; discriminate).
  destruct (l0_run al be m m2 sm reps V Hal (Rlt_le _ _ Hbe) TU Ps EE RR Ho) as (Pm2 & avg2 & dih2 & hs2 & cnt2 & Qs2 & EA2 & ED2 & Ph2 & Hr2 & Em2).
  rewrite EA1 in EA2. injection EA2 as <-. rewrite ED1 in ED2. injection ED2 as <-. assert (Av1 := mean_nonneg m avg1 W EA1).
  destruct (result_unique avg1 dih1 al be m hs1 hs2 (Dk sm) cnt1 cnt2 Qs1 Qs2 W) as [-> E]; try assumption; [apply Rmult_le_pos; lra|exact (reps_perm m reps hs1 RR Ph1)|apply Permutation_trans with reps; [apply Permutation_sym, Ph1|exact Ph2]|].
  f_equal. apply (posonly_eq m); [exact Pm2|exact Pm'|]. intros v Iv. rewrite (Em1 v Iv), (Em2 v Iv). symmetry. apply E, Iv.
Qed.
(** With a beta that is not positive the loop never ends, whatever the solver returns. *)
Lemma loop_forever solves (m : mesh NumR) es Rm P0 bmax lam al be P Q : l0_loop (N := NumR) solves m es Rm P0 bmax lam al be P Q -> 0 < bmax -> be <= 0 -> False.
Proof.
  intros H Hb. induction H as [al be P St | al be P D P' Q St HD HS HL IH]; intros Hbe.
  - change (@nltb NumR) with Rltb in St. unfold Rltb in St. destruct (Rlt_dec be bmax); [discriminate|lra].
  - apply IH. change (@nmul NumR) with Rmult. change (@nsqrt NumR (@nofZ NumR 2)) with (sqrt 2). assert (S2 := sqrt2_ge1). assert (0 <= (- be) * sqrt 2) by (apply Rmult_le_pos; lra). lra.
Qed.
Theorem l0_never solves (al be avg : R) (m : mesh NumR) : Valid m -> getMeanEdgeLength m = Ok (avg, m) -> 0 < avg -> be <= 0 -> forall o, ~ denoiseL0Smooth (N := NumR) solves al be m o.
Proof.
  intros V EA Ha Hb o H. destruct (taubin_ok m V) as (sm & T & TU & Ps & TS). inversion H as [avg' dih es0 es Rm P0 m1 Q m2 EA' ED EE EP ER EX ET EL EW | ? ? ? ? ? ? ? ? ? ? ? ? ? T' NO]; subst.
  - rewrite EA in EA'. injection EA' as <-. apply (loop_forever _ _ _ _ _ _ _ _ _ _ _ EL); change (@nmul NumR) with Rmult; [change (@nofZ NumR 1000) with 1000; lra|]. assert (0 <= (- be) * avg) by (apply Rmult_le_pos; lra). lra.
  - apply TU in T'. apply (NO sm T').
Qed.
