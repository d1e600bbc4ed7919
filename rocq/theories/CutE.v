(** Holes with four corners: the statement for valid meshes, and two holes whose filling is not the smoothest one. *)
From Coq Require Import Reals Lra Lia List ZArith Floats Arith Bool.
From Verif Require Import Num NumInst Vec VecR GeomSpec GeomW MeasureR Heap Mesh Spec EditSpec Orbit Rings Construct BuildProps Witness Refute Fill FillD FillSpec FillP FillE FrontS CollapseFlip CollapseFlipW FlatF FlatP FlatE CutSpec CutF CutP.
Import ListNotations.
Local Open Scope R_scope.

Lemma second_spec bound p q : if second Rabs bound p q then may_take bound (A2 p q) (S2 p) (A1 p q) (S1 p) else may_take bound (A1 p q) (S1 p) (A2 p q) (S2 p).
Proof.
  unfold second, may_take. change (@nltb NumR) with Rltb. unfold Rltb. destruct (Rlt_dec (A2 p q) (A1 p q)) as [L | L]; cbn [orb]; [left; lra|]. destruct (Rlt_dec (Rabs _) bound) as [B | B]; cbn [andb]; [|left; lra].
  destruct (Rlt_dec (S2 p) (S1 p)) as [Q | Q]; [right; auto|left; lra].
Qed.
Lemma four_gen (m : mesh NumR) f (bound : R) (P : R -> R -> R -> R -> Prop) : (forall p q, if second Rabs bound p q then P (A2 p q) (S2 p) (A1 p q) (S1 p) else P (A1 p q) (S1 p) (A2 p q) (S2 p)) -> Valid m -> In f (m_faces m) -> (exists ring bs, Corners m f ring bs /\ length bs = 4%nat) ->
  exists ring a b c d, Corners m f ring [a; b; c; d] /\ forall x y z, Beside m f a b x -> Beside m f b c y -> Beside m f c d z ->
    exists g1 g2 m', holeFillMinDihedral (N := NumR) Rabs (Some f) bound m = Ok (tt, m') /\ FilledWith m [f] [[g1; g2]] m' /\
      let p := v_pos m in
      let Abd := sharpest (bends_bd (p a) (p b) (p c) (p d) (p x) (p y) (p z)) in let Sbd := area_bd (p a) (p b) (p c) (p d) in
      let Aac := sharpest (bends_ac (p a) (p b) (p c) (p d) (p x) (p y) (p z)) in let Sac := area_ac (p a) (p b) (p c) (p d) in
      (Tri m' g1 a b d /\ Tri m' g2 b c d /\ P Abd Sbd Aac Sac) \/ (Tri m' g1 a c d /\ Tri m' g2 a b c /\ P Aac Sac Abd Sbd).
Proof.
  intros HP V If (ring0 & bs0 & C0 & L0). assert (W := valid_wf m V). destruct (wf_fhe m W f If) as (h & Eh & Ih & Fh). apply corners_ring in C0 as [R0 B0].
  assert (Ir : In h ring0) by (apply R0; auto). apply in_split in Ir as (l1 & l2 & ->). assert (RO := fring_rotate m f l1 h l2 R0). assert (LL : length (h :: l2 ++ l1) = 4%nat).
  { apply (f_equal (@length _)) in B0. rewrite !map_length, L0 in B0. rewrite app_length in B0. cbn [length] in *. rewrite app_length. lia. }
  assert (EB : exists bs, map (h_src m) (h :: l2 ++ l1) = map Some bs).
  { assert (Q : forall y, In y (h :: l2 ++ l1) -> In y (m_hes m)) by (intros y Y; apply RO, Y). revert Q. generalize (h :: l2 ++ l1) as r. clear - W. induction r as [|y r IH]; intros Q; [exists []; reflexivity|]. destruct IH as (bs & E); [intros; apply Q; right; assumption|]. destruct (wf_src m W y (Q y (or_introl eq_refl))) as (s & Es & _). exists (s :: bs). cbn [map]. rewrite Es, E. reflexivity. }
  destruct EB as (bs & EB). assert (LB := f_equal (@length _) EB). rewrite !map_length, LL in LB. destruct bs as [|a [|b [|c [|d [|]]]]]; try discriminate LB. clear LB.
  exists (h :: l2 ++ l1), a, b, c, d. split; [apply corners_ring; auto|]. intros x y z Bx By Bz. destruct (cut_four Rabs m f h (l2 ++ l1) a b c d x y z bound V If Eh RO EB Bx By Bz) as (g1 & g2 & m' & RUN & FW & K). exists g1, g2, m'. split; [exact RUN|]. split; [exact FW|].
  cbv zeta. assert (Q := HP (fun i => v_pos m (nth i [a; b; c; d] 0%nat)) (fun i => v_pos m (nth i [x; y; z] 0%nat))). destruct (second _ _ _ _); [right|left]; (split; [apply K|]); (split; [apply K|exact Q]).
Qed.

Lemma sharp_range l : Forall (fun y => 0 <= y <= PI) l -> 0 <= sharpest l <= PI.
Proof. assert (PP := PI_RGT_0). induction 1 as [|y l Hy F IH]; cbn; [lra|]. split; [apply Rle_trans with y; [lra|apply Rmax_l]|apply Rmax_lub; [apply Hy|apply IH]]. Qed.
Theorem four_top (m : mesh NumR) f (bound : R) : Valid m -> In f (m_faces m) -> (exists ring bs, Corners m f ring bs /\ length bs = 4%nat) ->
  exists ring a b c d, Corners m f ring [a; b; c; d] /\ forall x y z, Beside m f a b x -> Beside m f b c y -> Beside m f c d z ->
    exists g1 g2 m', holeFillMinDihedral (N := NumR) Rabs (Some f) bound m = Ok (tt, m') /\ FilledWith m [f] [[g1; g2]] m' /\
      let p := v_pos m in
      let Abd := sharpest (bends_bd (p a) (p b) (p c) (p d) (p x) (p y) (p z)) in let Sbd := area_bd (p a) (p b) (p c) (p d) in
      let Aac := sharpest (bends_ac (p a) (p b) (p c) (p d) (p x) (p y) (p z)) in let Sac := area_ac (p a) (p b) (p c) (p d) in
      (Tri m' g1 a b d /\ Tri m' g2 b c d /\ may_take bound Abd Sbd Aac Sac) \/ (Tri m' g1 a c d /\ Tri m' g2 a b c /\ may_take bound Aac Sac Abd Sbd).
Proof. exact (four_gen m f bound (may_take bound) (second_spec bound)). Qed.
Theorem four_area (m : mesh NumR) f : Valid m -> In f (m_faces m) -> (exists ring bs, Corners m f ring bs /\ length bs = 4%nat) ->
  exists ring a b c d, Corners m f ring [a; b; c; d] /\ forall x y z, Beside m f a b x -> Beside m f b c y -> Beside m f c d z ->
    exists g1 g2 m', holeFillMinDihedral (N := NumR) Rabs (Some f) PI m = Ok (tt, m') /\ FilledWith m [f] [[g1; g2]] m' /\
      let p := v_pos m in
      let Abd := sharpest (bends_bd (p a) (p b) (p c) (p d) (p x) (p y) (p z)) in let Sbd := area_bd (p a) (p b) (p c) (p d) in
      let Aac := sharpest (bends_ac (p a) (p b) (p c) (p d) (p x) (p y) (p z)) in let Sac := area_ac (p a) (p b) (p c) (p d) in
      (Tri m' g1 a b d /\ Tri m' g2 b c d /\ (Sbd <= Sac \/ Abd < Aac)) \/ (Tri m' g1 a c d /\ Tri m' g2 a b c /\ (Sac <= Sbd \/ Aac < Abd)).
Proof.
  refine (four_gen m f PI (fun A S A' S' => S <= S' \/ A < A') _). intros p q. assert (B1 := sharp_range (bends_bd (p 0%nat) (p 1%nat) (p 2%nat) (p 3%nat) (q 0%nat) (q 1%nat) (q 2%nat))). assert (B2 := sharp_range (bends_ac (p 0%nat) (p 1%nat) (p 2%nat) (p 3%nat) (q 0%nat) (q 1%nat) (q 2%nat))).
  fold (A1 p q) in B1. fold (A2 p q) in B2. assert (R1 : 0 <= A1 p q <= PI) by (apply B1; unfold bends_bd; do 4 (constructor; [apply bend_pos|]); constructor). assert (R2 : 0 <= A2 p q <= PI) by (apply B2; unfold bends_ac; do 4 (constructor; [apply bend_pos|]); constructor). clear B1 B2.
  unfold second. change (@nltb NumR) with Rltb. unfold Rltb. destruct (Rlt_dec (A2 p q) (A1 p q)) as [L | L]; cbn [orb]; [right; exact L|]. destruct (Rlt_dec (Rabs _) PI) as [B | B]; cbn [andb].
  - destruct (Rlt_dec (S2 p) (S1 p)) as [Q | Q]; left; lra.
  - right. rewrite Rabs_pos_eq in B by lra. assert (PP := PI_RGT_0). lra.
Qed.
(** ** Bends from dot products *)
Lemma len_sq (x : vecR) : vlength x * vlength x = dot x x /\ 0 <= vlength x.
Proof. split; [apply vlength_sq|apply vlength_pos]. Qed.
Lemma dih_cos (u w a b : vecR) : 0 < dot (nrm a u w) (nrm a u w) -> 0 < dot (nrm b u w) (nrm b u w) ->
  exists k, 0 < k /\ k * k = dot (nrm a u w) (nrm a u w) * dot (nrm b u w) (nrm b u w) /\ cos (dihedral a u w b) * k = dot (nrm a u w) (nrm b u w) /\ 0 <= dihedral a u w b <= PI.
Proof.
  intros P1 P2. destruct (dihedral_all a u w b) as (D & _). destruct D as (_ & _ & B & E).
  - intros K. rewrite K in P1. unfold vzero in P1. rewrite dot_eq in P1. rn. cbn in P1. lra.
  - intros K. rewrite K in P2. unfold vzero in P2. rewrite dot_eq in P2. rn. cbn in P2. lra.
  - destruct (len_sq (nrm a u w)) as [L1 N1]. destruct (len_sq (nrm b u w)) as [L2 N2]. exists (vlength (nrm a u w) * vlength (nrm b u w)). split; [|split; [|auto]].
    + apply Rmult_lt_0_compat; [destruct N1 as [|K]; [assumption|rewrite <- K in L1; lra]|destruct N2 as [|K]; [assumption|rewrite <- K in L2; lra]].
    + rewrite <- L1, <- L2. ring.
Qed.

(** The three products that decide. *)
Definition facts (u w a b : vecR) (s t e : R) : Prop := dot (nrm a u w) (nrm a u w) = s /\ dot (nrm b u w) (nrm b u w) = t /\ dot (nrm a u w) (nrm b u w) = e.
Lemma bend_acute u w a b s t e : facts u w a b s t e -> 0 < s -> 0 < t -> e < 0 -> bend u w a b < PI / 2.
Proof.
  intros (<- & <- & <-) P1 P2 E. destruct (dih_cos u w a b P1 P2) as (k & K & _ & C & B). unfold bend. destruct (Rlt_dec (PI / 2) (dihedral a u w b)) as [|X]; [lra|]. assert (Q : 0 <= cos (dihedral a u w b)) by (apply cos_ge_0; lra).
  exfalso. assert (0 <= cos (dihedral a u w b) * k) by (apply Rmult_le_pos; lra). lra.
Qed.
Lemma bend_obtuse u w a b s t e : facts u w a b s t e -> 0 < s -> 0 < t -> 0 < e -> PI / 2 < bend u w a b.
Proof.
  intros (<- & <- & <-) P1 P2 E. destruct (dih_cos u w a b P1 P2) as (k & K & _ & C & B). unfold bend. destruct (Rlt_dec (dihedral a u w b) (PI / 2)) as [|X]; [lra|]. assert (Q : cos (dihedral a u w b) <= 0) by (apply cos_le_0; lra).
  exfalso. assert (0 <= (- cos (dihedral a u w b)) * k) by (apply Rmult_le_pos; lra). lra.
Qed.
Lemma cos_low u w a b s t e : facts u w a b s t e -> 0 < s -> 0 < t -> e < 0 -> 49 * (s * t) < 100 * (e * e) -> cos (dihedral a u w b) < - (7 / 10).
Proof.
  intros (<- & <- & <-) P1 P2 E Q. destruct (dih_cos u w a b P1 P2) as (k & K & KK & C & B). rewrite <- KK in Q. rewrite <- C in Q, E. destruct (Rlt_dec (cos (dihedral a u w b)) (- (7 / 10))) as [|X]; [assumption|exfalso]. set (c := cos _) in *. assert (c < 0). { destruct (Rlt_dec c 0) as [|Y]; [assumption|]. assert (0 <= c * k) by (apply Rmult_le_pos; lra). lra. }
  assert (H1 : c * c <= 49 / 100) by nra. assert (H2 : c * c * (k * k) <= 49 / 100 * (k * k)) by (apply Rmult_le_compat_r; [nra|exact H1]). replace (c * k * (c * k)) with (c * c * (k * k)) in Q by ring. lra.
Qed.
Lemma cos_high u w a b s t e : facts u w a b s t e -> 0 < s -> 0 < t -> 100 * (e * e) < 49 * (s * t) -> - (7 / 10) < cos (dihedral a u w b).
Proof.
  intros (<- & <- & <-) P1 P2 Q. destruct (dih_cos u w a b P1 P2) as (k & K & KK & C & B). rewrite <- KK in Q. rewrite <- C in Q. destruct (Rlt_dec (- (7 / 10)) (cos (dihedral a u w b))) as [|X]; [assumption|exfalso]. set (c := cos _) in *.
  assert (H1 : 49 / 100 <= c * c) by nra. assert (H2 : 49 / 100 * (k * k) <= c * c * (k * k)) by (apply Rmult_le_compat_r; [nra|exact H1]). replace (c * k * (c * k)) with (c * c * (k * k)) in Q by ring. lra.
Qed.
Lemma bend_less u w a b u' w' a' b' : cos (dihedral a u w b) < - (7 / 10) -> - (7 / 10) < cos (dihedral a' u' w' b') -> bend u w a b < bend u' w' a' b'.
Proof.
  intros A B. assert (X := bend_pos u w a b). assert (Y := bend_pos u' w' a' b'). unfold bend in *. assert (dihedral a' u' w' b' < dihedral a u w b); [|lra]. apply cos_decreasing_0; lra.
Qed.
Lemma bend_some u w a b : - (7 / 10) < cos (dihedral a u w b) -> 0 < bend u w a b.
Proof.
  intros A. assert (X := bend_pos u w a b). destruct X as [[X | X] _]; [exact X|exfalso]. unfold bend in X. assert (E : dihedral a u w b = PI) by lra. rewrite E, cos_PI in A. lra.
Qed.

(** ** The meshes *)
Definition sideb (m : mesh (Witness.NF idf idf id2)) (h u w x : nat) : bool :=
  existsb (Nat.eqb h) (m_hes m) && ptr_eqb (h_face m h) (Some 40%nat) && ptr_eqb (h_src m h) (Some u) && h_bd m h &&
  match h_rev m h with
  | Some r => match h_next m r with
    | Some n => match h_next m n with
      | Some k => existsb (Nat.eqb n) (m_hes m) && negb (h_bd m n) && ptr_eqb (h_src m r) (Some w) && ptr_eqb (h_src m n) (Some u) && ptr_eqb (h_src m k) (Some x)
      | None => false end
    | None => false end
  | None => false end.
Definition side_check (m : mesh (Witness.NF idf idf id2)) : bool :=
  existsb (Nat.eqb 40) (m_faces m) && ptr_eqb (f_he m 40) (Some 41%nat) &&
  forallb (fun h => negb (ptr_eqb (h_face m h) (Some 40%nat)) || existsb (Nat.eqb h) [41; 44; 43; 42]%nat) (m_hes m) &&
  ptr_eqb (h_next m 41) (Some 44%nat) && ptr_eqb (h_next m 44) (Some 43%nat) && ptr_eqb (h_next m 43) (Some 42%nat) && ptr_eqb (h_next m 42) (Some 41%nat) &&
  sideb m 41 1 0 2 && sideb m 44 0 3 4 && sideb m 43 3 5 6 && sideb m 42 5 1 7.
Lemma side_run : Witness.with_mesh idf idf id2 (mesh_of arrowF ix_arrow) side_check = true.
Proof. vm_cast_no_check (eq_refl true). Qed.
Local Ltac split_and H := repeat (apply andb_true_iff in H; let K := fresh "K" in destruct H as [H K]).
Lemma side_ok (mF : mesh (Witness.NF idf idf id2)) (pos : nat -> vecR) h u w x : Valid mF -> sideb mF h u w x = true -> In h (m_hes mF) /\ h_face mF h = Some 40%nat /\ h_src mF h = Some u /\ h_bd mF h = true /\ Beside (retype mF pos) 40 u w x.
Proof.
  intros VF C. unfold sideb in C. apply andb_true_iff in C as [C D]. split_and C. apply existsb_in in C. apply ptr_eqb_ok in K1, K0. split; [exact C|]. split; [exact K1|]. split; [exact K0|]. split; [exact K|].
  destruct (h_rev mF h) as [r|] eqn:Er; [|discriminate]. destruct (h_next mF r) as [n|] eqn:E1; [|discriminate]. destruct (h_next mF n) as [k|] eqn:E2; [|discriminate]. split_and D. apply existsb_in in D. apply negb_true_iff in K5. apply ptr_eqb_ok in K4, K3, K2.
  set (m := retype mF pos). assert (V : Valid m) by (apply retype_valid, VF). assert (W := valid_wf m V). change (h_bd m n = false) in K5. change (h_next m r = Some n) in E1. change (h_next m n = Some k) in E2. change (In n (m_hes m)) in D. change (h_rev m h = Some r) in Er. change (In h (m_hes m)) in C.
  change (h_src m r = Some w) in K4. change (h_src m n = Some u) in K3. change (h_src m k = Some x) in K2. change (h_face m h = Some 40%nat) in K1. change (h_src m h = Some u) in K0.
  destruct (tri_of m n V D K5) as (g & a1 & b1 & c1 & n1 & k1 & Fg & Ig & T & T1 & N1 & T2 & N2 & T3). assert (n1 = k) as -> by congruence. destruct (wf_rev m W h C) as (r0 & Er0 & Ir0). assert (r0 = r) as -> by congruence.
  assert (N3 := valid_tri m V n D K5). cbn [piter] in N3. rewrite E2 in N3. cbn [piter] in N3. rewrite N2 in N3. cbn [piter] in N3. assert (Ik := next_in m W n k D E2). assert (k1 = r) as -> by (apply (next_inj m W k1 r n (next_in m W k k1 Ik N2) Ir0); [destruct (h_next m k1); exact N3|exact E1]).
  exists h, r, g. split; [exact C|]. split; [exact K1|]. split; [exact K0|]. split; [exact Er|]. split; [exact K4|]. split; [rewrite <- (wf_face_next m W r n Ir0 E1); exact Fg|].
  assert (a1 = u) as -> by congruence. assert (b1 = x) as -> by congruence. assert (c1 = w) as -> by congruence. apply tri_rot, T.
Qed.
Lemma quad_mesh (pos : nat -> vecR) : exists m : mesh NumR, Valid m /\ AtLeast3 m /\ Hole m 40 /\ v_pos m = pos /\ f_he m 40 = Some 41%nat /\ Fring m 40 [41; 44; 43; 42]%nat /\ map (h_src m) [41; 44; 43; 42]%nat = map Some [1; 0; 3; 5]%nat /\
  Beside m 40 1 0 2 /\ Beside m 40 0 3 4 /\ Beside m 40 3 5 6 /\ Beside m 40 5 1 7.
Proof.
  destruct (with_ok _ _ _ _ _ side_run) as (mF & E & CK). apply mesh_of_ok in E. assert (VF := proj1 (construct_valid _ _ _ mF E)). destruct (construct_faces _ _ _ mF E) as [A3 _]. clear E. unfold side_check in CK. split_and CK.
  destruct (side_ok mF pos _ _ _ _ VF K) as (I4 & F4 & S4 & B4 & D4). destruct (side_ok mF pos _ _ _ _ VF K0) as (I3 & F3 & S3 & B3 & D3). destruct (side_ok mF pos _ _ _ _ VF K1) as (I2 & F2 & S2 & B2 & D2). destruct (side_ok mF pos _ _ _ _ VF K2) as (I1 & F1 & S1 & B1 & D1).
  apply ptr_eqb_ok in K3, K4, K5, K6, K8. apply existsb_in in CK. rewrite forallb_forall in K7.
  assert (RI : forall h, In h (m_hes mF) -> h_face mF h = Some 40%nat -> In h [41; 44; 43; 42]%nat). { intros h Ih Fh. assert (Q := K7 h Ih). rewrite Fh in Q. cbn [ptr_eqb] in Q. rewrite Nat.eqb_refl in Q. apply existsb_in. exact Q. }
  set (m := retype mF pos). exists m. split; [apply retype_valid, VF|]. split; [exact A3|]. split; [split; [exact CK|]|].
  { intros h Ih Fh. destruct (RI h Ih Fh) as [<- | [<- | [<- | [<- | []]]]]; assumption. }
  split; [reflexivity|]. split; [exact K8|]. split; [|split; [cbn [map]; change (h_src m) with (h_src mF); rewrite S1, S2, S3, S4; reflexivity|auto]].
  split; [cbn [cyc chainto]; auto|]. split; [repeat constructor; cbn [In]; intuition discriminate|]. intros h. split; [|intros [Ih Fh]; exact (RI h Ih Fh)]. intros [<- | [<- | [<- | [<- | []]]]]; auto.
Qed.
Definition at8 (l : list vecR) (v : nat) : vecR := nth v l vzero.
(** Mesh numbers: 1 0 3 5 are the corners, 2 4 6 7 lie beside the edges. *)
Definition pos1 : nat -> vecR := at8 [v3 0 (-3) 1; v3 (-2) 0 0; v3 5 (-7) (-21); v3 2 0 0; v3 7 (-3) 1; v3 0 3 1; v3 5 6 2; v3 (-7) 3 1].
Definition pos2 : nat -> vecR := at8 [v3 0 (-2) 1; v3 (-3) 0 0; v3 (-3) (-4) 0; v3 3 0 0; v3 3 (-4) 0; v3 0 2 1; v3 3 4 0; v3 (-6) (-2) 13].
Definition pos3 : nat -> vecR := at8 [v3 0 (-2) 1; v3 (-3) 0 0; v3 (-3) 0 14; v3 3 0 0; v3 6 (-2) 1; v3 0 2 1; v3 6 2 1; v3 (-6) 2 1].
Ltac fct := unfold facts, nrm, pos1, pos2, pos3, at8; cbn [nth]; rewrite !dot_eq; unfold cross, vsub, vadd, vneg, v3; rn; cbn [vx vy vz]; repeat split; reflexivity.
Ltac acute := eapply bend_acute; [fct|lra|lra|lra].
Ltac obtuse := eapply bend_obtuse; [fct|lra|lra|lra].
Lemma area_lt (a b c a' b' c' : vecR) s t : dot (nrm a b c) (nrm a b c) = s -> dot (nrm a' b' c') (nrm a' b' c') = t -> s < t -> tri_area a b c < tri_area a' b' c'.
Proof.
  intros E E' L. unfold tri_area. fold (nrm a b c) (nrm a' b' c'). destruct (len_sq (nrm a b c)) as [Q P]. destruct (len_sq (nrm a' b' c')) as [Q' P']. rewrite E in Q. rewrite E' in Q'. assert (vlength (nrm a b c) < vlength (nrm a' b' c')); [|lra].
  destruct (Rlt_dec (vlength (nrm a b c)) (vlength (nrm a' b' c'))) as [|X]; [assumption|exfalso]. apply Rnot_lt_le in X. assert (vlength (nrm a' b' c') * vlength (nrm a' b' c') <= vlength (nrm a b c) * vlength (nrm a b c)) by (apply Rmult_le_compat; assumption). lra.
Qed.
Ltac arl := eapply area_lt; [unfold nrm, pos1, pos2, pos3, at8; cbn [nth]; rewrite !dot_eq; unfold cross, vsub, vadd, vneg, v3; rn; cbn [vx vy vz]; reflexivity|unfold nrm, pos1, pos2, pos3, at8; cbn [nth]; rewrite !dot_eq; unfold cross, vsub, vadd, vneg, v3; rn; cbn [vx vy vz]; reflexivity|lra].
Lemma sharp_lt l x : 0 < x -> Forall (fun y => y < x) l -> sharpest l < x.
Proof. intros P F. induction F as [|y l Hy F IH]; cbn; [exact P|]. apply Rmax_lub_lt; assumption. Qed.
Lemma sharp_in l x : In x l -> x <= sharpest l.
Proof. induction l as [|y l IH]; intros I; [destruct I|]. cbn. destruct I as [<- | I]; [apply Rmax_l|]. apply Rle_trans with (sharpest l); [apply IH, I|apply Rmax_r]. Qed.

(** With the bound PI, the smaller area wins. *)
Theorem bound_refuted : exists (m m' : mesh NumR) f ring a b c d x y z w g, Valid m /\ AtLeast3 m /\ Hole m f /\ Corners m f ring [a; b; c; d] /\
  Beside m f a b x /\ Beside m f b c y /\ Beside m f c d z /\ Beside m f d a w /\
  holeFillMinDihedral (N := NumR) Rabs (Some f) PI m = Ok (tt, m') /\ In g (m_faces m') /\ ~ In g (m_faces m) /\ Tri m' g a b c /\
  let p := v_pos m in sharpest (bend (p d) (p a) (p b) (p w) :: bends_bd (p a) (p b) (p c) (p d) (p x) (p y) (p z)) < PI / 2 /\ PI / 2 < bend (p a) (p b) (p c) (p x).
Proof.
  destruct (quad_mesh pos1) as (m & V & A3 & H & Ep & Ef & RG & RB & Bx & By & Bz & Bw).
  destruct (cut_four Rabs m 40 41 [44; 43; 42]%nat 1 0 3 5 2 4 6 PI V (proj1 H) Ef RG RB Bx By Bz) as (g1 & g2 & m' & RUN & FW & K). cbn beta in K. rewrite Ep in K.
  exists m, m', 40%nat, [41; 44; 43; 42]%nat, 1%nat, 0%nat, 3%nat, 5%nat, 2%nat, 4%nat, 6%nat, 7%nat, g2. split; [exact V|]. split; [exact A3|]. split; [exact H|]. split; [apply corners_ring; auto|]. split; [exact Bx|]. split; [exact By|]. split; [exact Bz|]. split; [exact Bw|]. split; [exact RUN|].
  split; [apply (fw_faces _ _ _ _ FW); right; cbn; auto|]. split; [apply (proj2 (fw_new _ _ _ _ FW)); cbn; auto|]. assert (PP := PI_RGT_0). rewrite Ep.
  assert (SH : sharpest (bend (pos1 5%nat) (pos1 1%nat) (pos1 0%nat) (pos1 7%nat) :: bends_bd (pos1 1%nat) (pos1 0%nat) (pos1 3%nat) (pos1 5%nat) (pos1 2%nat) (pos1 4%nat) (pos1 6%nat)) < PI / 2).
  { apply sharp_lt; [lra|]. unfold bends_bd. constructor; [acute|]. constructor; [acute|]. constructor; [acute|]. constructor; [acute|]. constructor; [acute|]. constructor. }
  assert (OB : PI / 2 < bend (pos1 1%nat) (pos1 0%nat) (pos1 3%nat) (pos1 2%nat)) by obtuse. split; [|split; [exact SH|exact OB]].
  match type of K with if ?s then _ else _ => replace s with true in K; [apply K|] end. symmetry. unfold second. apply orb_true_iff. right. apply andb_true_iff. change (@nltb NumR) with Rltb. split.
  - match goal with |- Rltb (Rabs (?u - ?v)) _ = true => set (U := u); set (Q := v) end. assert (HU : PI / 2 < U <= PI).
    { split; [apply Rlt_le_trans with (1 := OB), sharp_in; left; reflexivity|]. unfold U, A2, sharpest, bends_ac. cbn [fold_right]. repeat apply Rmax_lub; try apply bend_pos; lra. }
    assert (HQ : 0 < Q < PI / 2). { split; [|apply Rle_lt_trans with (2 := SH); apply Rmax_r]. apply Rlt_le_trans with (bend (pos1 1%nat) (pos1 0%nat) (pos1 5%nat) (pos1 2%nat)); [|apply sharp_in; left; reflexivity]. apply bend_some. eapply cos_high; [fct|lra|lra|lra]. }
    unfold Rltb. destruct (Rlt_dec (Rabs (U - Q)) PI) as [|X]; [reflexivity|exfalso; apply X]. rewrite Rabs_pos_eq; lra.
  - unfold Rltb. destruct (Rlt_dec _ _) as [|X]; [reflexivity|exfalso; apply X]. unfold S2, S1, area_ac, area_bd. apply Rplus_lt_compat; arl.
Qed.
(** The bend along the edge from the last corner to the first one is not looked at. *)
Theorem last_refuted : exists (m m' : mesh NumR) f ring a b c d x y z w g, Valid m /\ AtLeast3 m /\ Hole m f /\ Corners m f ring [a; b; c; d] /\
  Beside m f a b x /\ Beside m f b c y /\ Beside m f c d z /\ Beside m f d a w /\
  holeFillMinDihedral (N := NumR) Rabs (Some f) 0 m = Ok (tt, m') /\ In g (m_faces m') /\ ~ In g (m_faces m) /\ Tri m' g a b d /\
  let p := v_pos m in sharpest (bend (p d) (p a) (p c) (p w) :: bends_ac (p a) (p b) (p c) (p d) (p x) (p y) (p z)) < PI / 2 /\ PI / 2 < bend (p d) (p a) (p b) (p w).
Proof.
  destruct (quad_mesh pos2) as (m & V & A3 & H & Ep & Ef & RG & RB & Bx & By & Bz & Bw).
  destruct (cut_four Rabs m 40 41 [44; 43; 42]%nat 1 0 3 5 2 4 6 0 V (proj1 H) Ef RG RB Bx By Bz) as (g1 & g2 & m' & RUN & FW & K). cbn beta in K. rewrite Ep in K.
  exists m, m', 40%nat, [41; 44; 43; 42]%nat, 1%nat, 0%nat, 3%nat, 5%nat, 2%nat, 4%nat, 6%nat, 7%nat, g1. split; [exact V|]. split; [exact A3|]. split; [exact H|]. split; [apply corners_ring; auto|]. split; [exact Bx|]. split; [exact By|]. split; [exact Bz|]. split; [exact Bw|]. split; [exact RUN|].
  split; [apply (fw_faces _ _ _ _ FW); right; cbn; auto|]. split; [apply (proj2 (fw_new _ _ _ _ FW)); cbn; auto|]. assert (PP := PI_RGT_0). rewrite Ep.
  split; [|split; [apply sharp_lt; [lra|]; unfold bends_ac; constructor; [acute|]; constructor; [acute|]; constructor; [acute|]; constructor; [acute|]; constructor; [acute|]; constructor|obtuse]].
  match type of K with if ?s then _ else _ => replace s with false in K; [apply K|] end. symmetry. unfold second. change (@nltb NumR) with Rltb.
  match goal with |- Rltb ?u ?v || _ = false => set (U := u); set (Q := v) end. assert (UQ : Q < U).
  { assert (ST : - (7 / 10) < cos (dihedral (pos2 5%nat) (pos2 1%nat) (pos2 3%nat) (pos2 0%nat))) by (eapply cos_high; [fct|lra|lra|lra]). apply Rlt_le_trans with (bend (pos2 1%nat) (pos2 3%nat) (pos2 5%nat) (pos2 0%nat)); [|apply sharp_in; cbn; auto 8].
    apply sharp_lt; [apply bend_some, ST|]. unfold bends_bd. constructor; [|constructor; [|constructor; [|constructor; [|constructor]]]]; (apply bend_less; [eapply cos_low; [fct|lra|lra|lra|lra]|exact ST]). }
  apply orb_false_iff. unfold Rltb. split; [destruct (Rlt_dec U Q); [lra|reflexivity]|]. apply andb_false_iff. left. destruct (Rlt_dec (Rabs (U - Q)) 0) as [X | X]; [|reflexivity]. assert (Y := Rabs_pos (U - Q)). lra.
Qed.
(** With the bound PI, a smaller bend wins over a smaller area as well. *)
Theorem area_refuted : exists (m m' : mesh NumR) f ring a b c d g1 g2, Valid m /\ AtLeast3 m /\ Hole m f /\ Corners m f ring [a; b; c; d] /\
  holeFillMinDihedral (N := NumR) Rabs (Some f) PI m = Ok (tt, m') /\ FilledWith m [f] [[g1; g2]] m' /\ Tri m' g1 a c d /\ Tri m' g2 a b c /\
  let p := v_pos m in area_bd (p a) (p b) (p c) (p d) < area_ac (p a) (p b) (p c) (p d).
Proof.
  destruct (quad_mesh pos3) as (m & V & A3 & H & Ep & Ef & RG & RB & Bx & By & Bz & Bw).
  destruct (cut_four Rabs m 40 41 [44; 43; 42]%nat 1 0 3 5 2 4 6 PI V (proj1 H) Ef RG RB Bx By Bz) as (g1 & g2 & m' & RUN & FW & K). cbn beta in K. rewrite Ep in K.
  exists m, m', 40%nat, [41; 44; 43; 42]%nat, 1%nat, 0%nat, 3%nat, 5%nat, g1, g2. split; [exact V|]. split; [exact A3|]. split; [exact H|]. split; [apply corners_ring; auto|]. split; [exact RUN|]. split; [exact FW|]. assert (PP := PI_RGT_0). rewrite Ep.
  match type of K with if ?s then _ else _ => replace s with true in K end.
  - split; [apply K|]. split; [apply K|]. cbv zeta. unfold area_ac, area_bd. apply Rplus_lt_compat; arl.
  - symmetry. unfold second. apply orb_true_iff. left. change (@nltb NumR) with Rltb. unfold Rltb. destruct (Rlt_dec _ _) as [|X]; [reflexivity|exfalso; apply X]. apply Rlt_trans with (PI / 2).
    + apply sharp_lt; [lra|]. unfold bends_ac. constructor; [acute|]. constructor; [acute|]. constructor; [acute|]. constructor; [acute|]. constructor.
    + apply Rlt_le_trans with (bend (pos3 1%nat) (pos3 0%nat) (pos3 5%nat) (pos3 2%nat)); [obtuse|apply sharp_in; left; reflexivity].
Qed.
Lemma quad_case : exists (m : mesh NumR) f ring a b c d x y z, Valid m /\ In f (m_faces m) /\ Corners m f ring [a; b; c; d] /\ Beside m f a b x /\ Beside m f b c y /\ Beside m f c d z.
Proof. destruct bound_refuted as (m & _ & f & ring & a & b & c & d & x & y & z & _ & _ & V & _ & H & C & Bx & By & Bz & _). exists m, f, ring, a, b, c, d, x, y, z. split; [exact V|]. split; [apply H|]. auto. Qed.
