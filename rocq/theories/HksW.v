(** Heat kernel signatures: a square with a gap, a tetrahedron without. *)
From Coq Require Import Reals Lra Lia List Arith ZArith Bool.
From Verif Require Import Num NumInst Vec Heap Mesh Construct Spec BuildSpec BuildProps Built Weld Witness Examples GeomSpec ExamplesR LaplSpec Lapl LaplP LaplM LinR RegTet Hks HksSpec HksR HksP HksT CotPsd.
Import ListNotations.
Local Open Scope R_scope.

(** ** Adjacency operators of given surfaces *)
Definition linked (T : list tri) (a b : nat) : bool := existsb (fun e => (Nat.eqb (fst e) a && Nat.eqb (snd e) b) || (Nat.eqb (fst e) b && Nat.eqb (snd e) a))%bool (edges T).
Lemma linked_ok T a b : linked T a b = true <-> In (a, b) (edges T) \/ In (b, a) (edges T).
Proof.
  unfold linked. rewrite existsb_exists. split.
  - intros ([c d] & I & H). cbn [fst snd] in H. apply orb_true_iff in H as [H | H]; apply andb_true_iff in H as [E1 E2]; apply Nat.eqb_eq in E1, E2; subst; auto.
  - intros [I | I]; [exists (a, b)|exists (b, a)]; (split; [exact I|]); cbn [fst snd]; rewrite !Nat.eqb_refl; [reflexivity|]. apply orb_true_r.
Qed.
Lemma surface_lap (m : mesh NumR) T n : SurfaceOf m T -> length (m_verts m) = n -> exists ts, getMeshLaplacian Adjacent m = Ok (ts, m) /\
  symmetric n (@entry NumR ts) /\ rows_vanish n (@entry NumR ts) /\ psd n (@entry NumR ts) /\
  forall a b, (a < n)%nat -> (b < n)%nat -> a <> b -> @entry NumR ts a b = if linked T a b then -1 else 0.
Proof.
  intros S Hn. destruct (lap_adjacent_ok m (so_valid _ _ S)) as (ts & E & Sy & Rv & Ps & _ & Off). rewrite Hn in *. exists ts. split; [exact E|]. split; [exact Sy|]. split; [exact Rv|]. split; [exact Ps|].
  intros a b Ha Hb Ne. destruct (nth_error (m_verts m) a) as [u|] eqn:Ea; [|apply nth_error_None in Ea; lia]. destruct (nth_error (m_verts m) b) as [v|] eqn:Eb; [|apply nth_error_None in Eb; lia].
  destruct (Off a b u v Ne Ea Eb) as [Adj Non]. destruct (linked T a b) eqn:Li.
  - apply Adj. apply linked_ok in Li. apply (so_edges _ _ S) in Li as (h & Ih & u' & v' & Eu & Ev & Sh & Dh). exists h. replace u' with u in * by congruence. replace v' with v in * by congruence. auto.
  - apply Non. intros (h & Ih & Sh & Dh). assert (Q : In (a, b) (edges T) \/ In (b, a) (edges T)); [|apply linked_ok in Q; congruence].
    apply (so_edges _ _ S). exists h. split; [exact Ih|]. exists u, v. auto.
Qed.

(** ** The square *)
Definition squareR : list vecR := [v3 0 0 0; v3 1 0 0; v3 1 1 0; v3 0 1 0].
Notation ix_sq := [0;1;2; 0;2;3]%nat.
Lemma squareR_distinct : PosDistinct squareR.
Proof.
  intros i j p q Hi Hj E. apply veqb_real in E. subst q.
  destruct i as [|[|[|[|i]]]]; destruct j as [|[|[|[|j]]]]; try reflexivity; cbn in Hi, Hj; try (destruct i; discriminate Hi); try (destruct j; discriminate Hj); exfalso;
    injection Hi as <-; injection Hj; intros; lra.
Qed.
Lemma square_fans : Nat.divide 3 (length ix_sq) /\ (forall t, In t (triples ix_sq) -> ~ degenerate t) /\ NoDup (edges (triples ix_sq)) /\ (forall a, (a < 4)%nat -> Fan (triples ix_sq) a).
Proof.
  set (ps := ps_square (fun x => x) (fun x => x) (fun x _ => x)).
  assert (W : weld ps ix_sq [] [] = Some (ps, ix_sq)) by vm_cast_no_check (eq_refl (Some (ps, ix_sq))).
  assert (Wd : Welded ps ix_sq ps ix_sq) by (apply weld_Welded; [apply nonanb_ok; vm_cast_no_check (eq_refl true)|exact W]).
  assert (D : Nat.divide 3 (length ix_sq)) by (apply divide_mod; reflexivity).
  assert (ND : forall t, In t (triples ix_sq) -> ~ degenerate t) by (apply nodegb_ok; reflexivity).
  assert (NE' : NoDup (edges (triples ix_sq))) by (apply nodupb_ok; reflexivity).
  assert (C := again_check (fun x => x) (fun x => x) (fun x _ => x)). apply with_ok in C as (m & E & _).
  split; [exact D|]. split; [exact ND|]. split; [exact NE'|]. exact (fans_of_ok ps ix_sq ps ix_sq m Wd D ND NE' E).
Qed.
Lemma squareR_mesh : exists m : mesh NumR, mesh_of squareR ix_sq = Ok m /\ SurfaceOf m (triples ix_sq) /\ positions m = squareR.
Proof.
  destruct square_fans as (D & ND & NE & F).
  apply (accepts_manifold squareR ix_sq squareR ix_sq); [|exact D|exact ND|exact NE|exact F].
  apply Welded_id.
  - intros i p _ _. apply veqb_real. reflexivity.
  - exact squareR_distinct.
  - apply rangeb_ok. reflexivity.
  - intros j Hj. cbn [squareR length] in Hj. destruct j as [|[|[|[|j]]]]; [exists 0%nat|exists 1%nat|exists 2%nat|exists 5%nat|lia]; (split; [reflexivity|]); intros k' j' Lk Hk;
      destruct k' as [|[|[|[|[|k']]]]]; try lia; cbn [nth_error] in Hk; injection Hk as <-; lia.
Qed.

(** ** Its spectrum *)
Section Four.
Variable L : nat -> nat -> R.
Hypothesis Rv : rows_vanish 4 L.
Hypothesis Sy : symmetric 4 L.
Lemma four_cases (P : nat -> Prop) : P 0%nat -> P 1%nat -> P 2%nat -> P 3%nat -> forall x, (x < 4)%nat -> P x.
Proof. intros A B C D [|[|[|[|x]]]] H; try assumption. lia. Qed.
Lemma four_rows : L 0 0 + L 0 1 + L 0 2 + L 0 3 = 0 /\ L 1 0 + L 1 1 + L 1 2 + L 1 3 = 0 /\ L 2 0 + L 2 1 + L 2 2 + L 2 3 = 0 /\ L 3 0 + L 3 1 + L 3 2 + L 3 3 = 0.
Proof.
  assert (A := Rv 0%nat ltac:(lia)). assert (B := Rv 1%nat ltac:(lia)). assert (C := Rv 2%nat ltac:(lia)). assert (D := Rv 3%nat ltac:(lia)). cbn [sum_to] in *. repeat split; lra.
Qed.
End Four.
Definition rt2 : R := / sqrt 2.
Lemma rt2_sq : rt2 * rt2 = 1 / 2.
Proof. unfold rt2. rewrite <- Rinv_mult, sqrt_sqrt by lra. lra. Qed.
(** Two columns: the constant function and [w]. *)
Definition cols (w : nat -> R) (x i : nat) : R := match i with O => 1 / 2 | _ => w x end.
Definition vals (l : R) (i : nat) : R := match i with O => 0 | _ => l end.
Definition solver (l : R) (w : nat -> R) : nat -> (nat -> nat -> R) -> nat -> option ((nat -> R) * (nat -> nat -> R)) := fun _ _ _ => Some (vals l, cols w).
Lemma two_spectrum L l w : 0 <= l -> Eigen 4 L 0 (fun _ => 1 / 2) -> Eigen 4 L l w -> inner 4 w w = 1 -> sum_to 4 w = 0 ->
  (forall mu f, nonzero 4 f -> Eigen 4 L mu f -> sum_to 4 f = 0 -> inner 4 w f = 0 -> l <= mu) -> Spectrum 4 L 2 (vals l) (cols w).
Proof.
  intros Hl E0 Ew Un Su Least. constructor.
  - intros [|[|i]] Hi; [exact E0|exact Ew|lia].
  - intros [|[|i]] Hi; [unfold inner, cols; cbn [sum_to]; lra|exact Un|lia].
  - assert (Z : inner 4 (fun x => cols w x 0) (fun x => cols w x 1) = 0) by (unfold inner, cols; cbn [sum_to] in *; lra).
    intros [|[|i]] [|[|j]] Hi Hj Ne; try lia; [exact Z|rewrite inner_sym; exact Z].
  - intros [|[|i]] [|[|j]] H; try lia; cbn [vals]; [lra|rewrite Rabs_R0; apply Rabs_pos|lra].
  - intros mu f Nz E O i Hi. assert (S0 : sum_to 4 f = 0) by (assert (Q := O 0%nat ltac:(lia)); unfold inner, cols in Q; cbn [sum_to] in *; lra).
    assert (Q := Least mu f Nz E S0 (O 1%nat ltac:(lia))). assert (0 <= Rabs (vals l i) <= l) by (destruct i; cbn [vals]; [rewrite Rabs_R0; lra|rewrite Rabs_pos_eq by lra; lra]).
    rewrite (Rabs_pos_eq mu) by lra. lra.
Qed.

Lemma two_gap L l w : 0 <= l -> (forall mu f, nonzero 4 f -> Eigen 4 L mu f -> sum_to 4 f = 0 -> inner 4 w f = 0 -> l < mu) -> Gap 4 L 2 (vals l) (cols w).
Proof.
  intros Hl Least mu f Nz E O i Hi. assert (S0 : sum_to 4 f = 0) by (assert (Q := O 0%nat ltac:(lia)); unfold inner, cols in Q; cbn [sum_to] in *; lra).
  assert (Q := Least mu f Nz E S0 (O 1%nat ltac:(lia))). rewrite (Rabs_pos_eq mu) by lra. destruct i; cbn [vals]; [rewrite Rabs_R0; lra|rewrite Rabs_pos_eq by lra; lra].
Qed.
Lemma const_eigen L : rows_vanish 4 L -> Eigen 4 L 0 (fun _ => 1 / 2).
Proof. intros Rv x Hx. unfold applied. rewrite sum_to_scalr, (Rv x Hx). ring. Qed.
Lemma eigen_at4 L mu f a : nonzero 4 f -> Eigen 4 L mu f -> (forall x, (x < 4)%nat -> applied 4 L f x = a * f x) -> mu = a.
Proof. intros (x & Hx & Nx) E A. apply Rmult_eq_reg_r with (f x); [|exact Nx]. rewrite <- (E x Hx), (A x Hx). reflexivity. Qed.

(** The square: eigenvalues 0, 2, 4, 4. *)
Definition w_sq (x : nat) : R := match x with 1%nat => rt2 | 3%nat => - rt2 | _ => 0 end.
Section Square.
Variable L : nat -> nat -> R.
Hypothesis Rv : rows_vanish 4 L.
Hypothesis Off : forall a b, (a < 4)%nat -> (b < 4)%nat -> a <> b -> L a b = if linked (triples ix_sq) a b then -1 else 0.
Ltac entries :=
  assert (L01 : L 0%nat 1%nat = -1) by (rewrite (Off 0 1)%nat by lia; reflexivity);
  assert (L02 : L 0%nat 2%nat = -1) by (rewrite (Off 0 2)%nat by lia; reflexivity);
  assert (L03 : L 0%nat 3%nat = -1) by (rewrite (Off 0 3)%nat by lia; reflexivity);
  assert (L10 : L 1%nat 0%nat = -1) by (rewrite (Off 1 0)%nat by lia; reflexivity);
  assert (L12 : L 1%nat 2%nat = -1) by (rewrite (Off 1 2)%nat by lia; reflexivity);
  assert (L13 : L 1%nat 3%nat = 0) by (rewrite (Off 1 3)%nat by lia; reflexivity);
  assert (L20 : L 2%nat 0%nat = -1) by (rewrite (Off 2 0)%nat by lia; reflexivity);
  assert (L21 : L 2%nat 1%nat = -1) by (rewrite (Off 2 1)%nat by lia; reflexivity);
  assert (L23 : L 2%nat 3%nat = -1) by (rewrite (Off 2 3)%nat by lia; reflexivity);
  assert (L30 : L 3%nat 0%nat = -1) by (rewrite (Off 3 0)%nat by lia; reflexivity);
  assert (L31 : L 3%nat 1%nat = 0) by (rewrite (Off 3 1)%nat by lia; reflexivity);
  assert (L32 : L 3%nat 2%nat = -1) by (rewrite (Off 3 2)%nat by lia; reflexivity);
  destruct (four_rows L Rv) as (R0 & R1 & R2 & R3); rewrite ?L01, ?L02, ?L03, ?L10, ?L12, ?L13, ?L20, ?L21, ?L23, ?L30, ?L31, ?L32 in R0, R1, R2, R3.
Lemma sq_w : Eigen 4 L 2 w_sq.
Proof. entries. intros x Hx. pattern x. revert x Hx. apply four_cases; unfold applied, w_sq; cbn [sum_to]; rewrite ?L01, ?L02, ?L03, ?L10, ?L12, ?L13, ?L20, ?L21, ?L23, ?L30, ?L31, ?L32; nra. Qed.
Lemma sq_rest mu f : nonzero 4 f -> Eigen 4 L mu f -> sum_to 4 f = 0 -> inner 4 w_sq f = 0 -> 2 < mu.
Proof.
  intros Nz E S0 O. assert (Q : mu = 4); [|lra]. apply (eigen_at4 L mu f 4 Nz E). unfold inner, w_sq in O. cbn [sum_to] in O, S0.
  assert (Rt : rt2 <> 0) by (intros Z; assert (Q := rt2_sq); rewrite Z in Q; lra). assert (F : f 1%nat = f 3%nat) by (apply Rmult_eq_reg_l with rt2; [lra|exact Rt]).
  entries. intros x Hx. pattern x. revert x Hx. apply four_cases; unfold applied; cbn [sum_to]; rewrite ?L01, ?L02, ?L03, ?L10, ?L12, ?L13, ?L20, ?L21, ?L23, ?L30, ?L31, ?L32; nra.
Qed.
Lemma sq_spectrum : Spectrum 4 L 2 (vals 2) (cols w_sq) /\ Gap 4 L 2 (vals 2) (cols w_sq).
Proof.
  split; [|apply two_gap; [lra|exact sq_rest]]. apply two_spectrum; [lra|apply const_eigen, Rv|exact sq_w| | |].
  - unfold inner, w_sq. cbn [sum_to]. assert (Q := rt2_sq). lra.
  - unfold w_sq. cbn [sum_to]. lra.
  - intros mu f A B C D. apply Rlt_le, (sq_rest mu f A B C D).
Qed.
End Square.

(** The tetrahedron: eigenvalues 0, 4, 4, 4. *)
Section Tetra.
Variable L : nat -> nat -> R.
Hypothesis Rv : rows_vanish 4 L.
Hypothesis Off : forall a b, (a < 4)%nat -> (b < 4)%nat -> a <> b -> L a b = if linked (triples ix_tetra) a b then -1 else 0.
Lemma tet_app f : sum_to 4 f = 0 -> forall x, (x < 4)%nat -> applied 4 L f x = 4 * f x.
Proof.
  intros S0. cbn [sum_to] in S0.
  assert (O : forall a b, (a < 4)%nat -> (b < 4)%nat -> a <> b -> L a b = -1).
  { intros a b Ha Hb Ne. rewrite (Off a b Ha Hb Ne). replace (linked (triples ix_tetra) a b) with true; [reflexivity|]. symmetry.
    destruct a as [|[|[|[|a]]]]; try lia; destruct b as [|[|[|[|b]]]]; try lia; reflexivity. }
  destruct (four_rows L Rv) as (R0 & R1 & R2 & R3).
  intros x Hx. pattern x. revert x Hx. apply four_cases; unfold applied; cbn [sum_to].
  - rewrite (O 0 1)%nat, (O 0 2)%nat, (O 0 3)%nat in R0 |- * by lia. nra.
  - rewrite (O 1 0)%nat, (O 1 2)%nat, (O 1 3)%nat in R1 |- * by lia. nra.
  - rewrite (O 2 0)%nat, (O 2 1)%nat, (O 2 3)%nat in R2 |- * by lia. nra.
  - rewrite (O 3 0)%nat, (O 3 1)%nat, (O 3 2)%nat in R3 |- * by lia. nra.
Qed.
Lemma tet_spectrum w : sum_to 4 w = 0 -> inner 4 w w = 1 -> Spectrum 4 L 2 (vals 4) (cols w).
Proof.
  intros S0 Un. apply two_spectrum; [lra|apply const_eigen, Rv|intros x Hx; apply (tet_app w S0 x Hx)|exact Un|exact S0|].
  intros mu f Nz E Sf _. right. symmetry. apply (eigen_at4 L mu f 4 Nz E), tet_app, Sf.
Qed.
End Tetra.

(** ** Examples *)
Definition swap (a b x : nat) : nat := if Nat.eqb x a then b else if Nat.eqb x b then a else x.
Lemma swap_renum a b n : (a < n)%nat -> (b < n)%nat -> Renumbering n (swap a b).
Proof.
  intros Ha Hb. split.
  - intros x Hx. unfold swap. destruct (Nat.eqb x a); [exact Hb|]. destruct (Nat.eqb x b); [exact Ha|exact Hx].
  - intros x y _ _. unfold swap. destruct (Nat.eqb_spec x a), (Nat.eqb_spec x b), (Nat.eqb_spec y a), (Nat.eqb_spec y b); subst; try congruence; try lia.
Qed.
Lemma verts4 (m : mesh NumR) ps : positions m = ps -> length (m_verts m) = length ps.
Proof. intros <-. unfold positions. rewrite map_length. reflexivity. Qed.
Lemma exact_ex : exists (m : mesh NumR) ts eigs, mesh_of squareR ix_sq = Ok m /\ Valid m /\ length (m_verts m) = 4%nat /\ getMeshLaplacian Adjacent m = Ok (ts, m) /\
  psd 4 (@entry NumR ts) /\ symmetric 4 (@entry NumR ts) /\ rows_vanish 4 (@entry NumR ts) /\ ExactEigs eigs 4 (@entry NumR ts) 2 /\ EigsGap eigs 4 (@entry NumR ts) 2 /\
  (forall lam U, eigs 4%nat (@entry NumR ts) 2%nat = Some (lam, U) -> 0 < lam 1%nat) /\
  Renumbering 4 (swap 1 3) /\ forall x y, (x < 4)%nat -> (y < 4)%nat -> @entry NumR ts (swap 1 3 x) (swap 1 3 y) = @entry NumR ts x y.
Proof.
  destruct squareR_mesh as (m & E & S & P). assert (L4 := verts4 m squareR P). change (length squareR) with 4%nat in L4.
  destruct (surface_lap m _ 4 S L4) as (ts & Et & Sy & Rv & Ps & Off). exists m, ts, (solver 2 w_sq).
  split; [exact E|]. split; [exact (so_valid _ _ S)|]. split; [exact L4|]. split; [exact Et|]. split; [exact Ps|]. split; [exact Sy|]. split; [exact Rv|].
  destruct (sq_spectrum _ Rv Off) as [Sp G].
  split; [exists (vals 2), (cols w_sq); split; [reflexivity|exact Sp]|]. split; [intros lam U [= <- <-]; exact G|]. split; [intros lam U [= <- <-]; cbn [vals]; lra|].
  split; [apply swap_renum; lia|].
  assert (D : @entry NumR ts 1%nat 1%nat = @entry NumR ts 3%nat 3%nat).
  { destruct (four_rows _ Rv) as (_ & R1 & _ & R3). rewrite (Off 1 0)%nat, (Off 1 2)%nat, (Off 1 3)%nat in R1 by lia. rewrite (Off 3 0)%nat, (Off 3 1)%nat, (Off 3 2)%nat in R3 by lia.
    change (linked (triples ix_sq) 1 0) with true in R1. change (linked (triples ix_sq) 1 2) with true in R1. change (linked (triples ix_sq) 1 3) with false in R1.
    change (linked (triples ix_sq) 3 0) with true in R3. change (linked (triples ix_sq) 3 1) with false in R3. change (linked (triples ix_sq) 3 2) with true in R3. cbn iota in R1, R3. cbn [num NumR] in *. lra. }
  intros [|[|[|[|x]]]] [|[|[|[|y]]]] Hx Hy; try lia; cbn [swap Nat.eqb]; try reflexivity; try (rewrite !Off by lia; reflexivity); [symmetry; exact D|exact D].
Qed.

Definition w_tet (x : nat) : R := match x with 0%nat => rt2 | 1%nat => - rt2 | _ => 0 end.
Theorem determined_refuted nT : (1 <= nT)%nat -> exists (m : mesh NumR) ts eigs H, mesh_of regR ix_tetra = Ok m /\ Valid m /\ MeasureM.Closed m /\ getMeshLaplacian Adjacent m = Ok (ts, m) /\
  psd 4 (@entry NumR ts) /\ symmetric 4 (@entry NumR ts) /\ ExactEigs eigs 4 (@entry NumR ts) 2 /\
  Renumbering 4 (swap 0 2) /\ (forall x y, (x < 4)%nat -> (y < 4)%nat -> @entry NumR ts (swap 0 2 x) (swap 0 2 y) = @entry NumR ts x y) /\
  @getHeatKernelSignatures NumR ln eigs 4 (@entry NumR ts) 2 nT = Ok H /\ at2 H (swap 0 2 0) 0 <> at2 H 0 0.
Proof.
  intros HT. destruct regR_all as (m & E & V & C & P & _ & S). assert (L4 := verts4 m regR P). change (length regR) with 4%nat in L4.
  destruct (surface_lap m _ 4 S L4) as (ts & Et & Sy & Rv & Ps & Off). exists m, ts, (solver 4 w_tet). eexists.
  split; [exact E|]. split; [exact V|]. split; [exact C|]. split; [exact Et|]. split; [exact Ps|]. split; [exact Sy|].
  split. { exists (vals 4), (cols w_tet). split; [reflexivity|]. apply (tet_spectrum _ Rv Off); [unfold w_tet; cbn [sum_to]; lra|]. unfold inner, w_tet. cbn [sum_to]. assert (Q := rt2_sq). lra. }
  split; [apply swap_renum; lia|]. split.
  - assert (O : forall a b, (a < 4)%nat -> (b < 4)%nat -> a <> b -> @entry NumR ts a b = -1).
    { intros a b Ha Hb Ne. rewrite (Off a b Ha Hb Ne). replace (linked (triples ix_tetra) a b) with true; [reflexivity|]. symmetry.
      destruct a as [|[|[|[|a]]]]; try lia; destruct b as [|[|[|[|b]]]]; try lia; reflexivity. }
    assert (D : @entry NumR ts 0%nat 0%nat = @entry NumR ts 2%nat 2%nat).
    { destruct (four_rows _ Rv) as (R0 & _ & R2 & _). rewrite (O 0 1)%nat, (O 0 2)%nat, (O 0 3)%nat in R0 by lia. rewrite (O 2 0)%nat, (O 2 1)%nat, (O 2 3)%nat in R2 by lia. cbn [num NumR] in *. lra. }
    intros [|[|[|[|x]]]] [|[|[|[|y]]]] Hx Hy; try lia; cbn [swap Nat.eqb]; try reflexivity; try (rewrite !O by lia; reflexivity); [symmetry; exact D|exact D].
  - split; [exact (hks_run (solver 4 w_tet) 4 (@entry NumR ts) 2 nT (vals 4) (cols w_tet) eq_refl ltac:(lia))|].
    set (T := time_at _ _ _). rewrite (at_table 4 nT (fun x j => heat 2 (vals 4) (cols w_tet) x (T j)) (swap 0 2 0) 0 ltac:(cbn; lia) ltac:(lia)).
    rewrite (at_table 4 nT (fun x j => heat 2 (vals 4) (cols w_tet) x (T j)) 0 0 ltac:(lia) ltac:(lia)). unfold heat, swap. cbn [sum_to Nat.eqb cols vals w_tet].
    assert (Ex := exp_pos (- (T 0%nat * 4))). assert (Q := rt2_sq). nra.
Qed.

(** ** Signatures of meshes *)
Theorem mesh_bounds (m : mesh NumR) t : Valid m -> t = Adjacent \/ (t = Cotangent /\ MeasureM.Closed m) -> exists ts, getMeshLaplacian t m = Ok (ts, m) /\
  forall eigs K nT, let n := length (m_verts m) in ExactEigs eigs n (@entry NumR ts) K -> (2 <= K < n)%nat -> (2 <= nT)%nat ->
   exists H, @getHeatKernelSignatures NumR ln eigs n (@entry NumR ts) (Z.of_nat K) nT = Ok H /\ dims H n nT /\
   (forall x j, (x < n)%nat -> (j < nT)%nat -> 0 <= at2 H x j <= 1) /\
   (forall x j, (x < n)%nat -> (S j < nT)%nat -> at2 H x (S j) <= at2 H x j) /\
   ((forall lam U, eigs n (@entry NumR ts) K = Some (lam, U) -> 0 < lam 1%nat) -> forall x j, (x < n)%nat -> (j < nT)%nat -> 1 / INR n <= at2 H x j).
Proof.
  intros V Ht. assert (G : exists ts, getMeshLaplacian t m = Ok (ts, m) /\ symmetric (length (m_verts m)) (@entry NumR ts) /\ rows_vanish (length (m_verts m)) (@entry NumR ts) /\ psd (length (m_verts m)) (@entry NumR ts)).
  { destruct Ht as [-> | [-> C]].
    - destruct (lap_adjacent_ok m V) as (ts & E & Sy & Rv & Ps & _). exists ts. auto.
    - destruct (lap_cotangent_ok m (valid_wf m V)) as (ts & E & Sy & Rv). destruct (cotangent_psd m V C) as (ts' & E' & Ps). assert (ts' = ts) by congruence. subst ts'. exists ts. auto. }
  destruct G as (ts & E & Sy & Rv & Ps). exists ts. split; [exact E|]. intros eigs K nT n Ex HK HT. destruct (hks_bounds eigs n _ K nT Ps Sy Ex HK HT) as (H & Ru & D & B1 & B2 & _ & B4).
  exists H. split; [exact Ru|]. split; [exact D|]. split; [exact B1|]. split; [exact B2|]. exact (B4 Rv).
Qed.
