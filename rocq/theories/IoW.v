(** Saving and loading: from constructed meshes, examples and refutations. *)
From Coq Require Import List ZArith Floats Arith Lia Bool Permutation.
From Verif Require Import Num NumInst Vec Heap Mesh Construct Spec BuildSpec BuildTri Weld Built Clone BuildProps Witness Examples Io IoSpec IoP.
Import ListNotations.

Lemma construct_save_load (N : Num) (NE : NumEq N) (C : codec N) (ps : list (vec N)) ix m e m0 : NoNaN ps ix -> mesh_of ps ix = Ok m ->
  e <> EOther -> (e = EObj \/ m_indices m0 = []) -> KeptApart C e (positions m) ->
  exists A, TrianglesOf ps ix (positions m) A /\ SurfaceOf m A /\
  ((forall t, In t A -> ~ isolated A t) ->
   exists f m' A', save C e m = Ok (f, m) /\ load f m0 = Ok (tt, m') /\ Valid m' /\ SurfaceOf m' A' /\
    Forall2 (fun t t' => exists t1, cyc_eq t t1 /\ corners m' t' = corners_of (map (through3 C e) (positions m)) t1) A A' /\
    Permutation (positions m') (map (through3 C e) (positions m))).
Proof.
  intros NN E Ee H0 K. destruct (faithful ps ix m NN E) as (_ & _ & A & T & B). exists A. split; [exact T|]. split; [exact (bu_surf _ _ B)|]. intros NI.
  destruct (save_load C m A e m0 B Ee H0 K NI) as (f & m' & A' & Es & El & B' & F & P).
  exists f, m', A'. split; [exact Es|]. split; [exact El|]. split; [exact (so_valid _ _ (bu_surf _ _ B'))|]. split; [exact (bu_surf _ _ B')|]. auto.
Qed.

Section W.
Variables (acosF expF : float -> float) (atan2F : float -> float -> float).
Notation NF := (Witness.NF acosF expF atan2F).

(** A format that keeps every number. *)
Definition exact_codec : codec NF := mkCodec NF float (fun x => x) (fun x => x) (fun x => x).
(** A format whose floats have 24 significant bits, as binary32 (normal numbers): rounding by Veltkamp's splitting. *)
Definition narrow24 (x : float) : float := let c := (x * 536870913)%float in (c - (c - x))%float.
Definition single_codec : codec NF := mkCodec NF float (fun x => x) narrow24 narrow24.

(** A vertex very close to another one. *)
Definition ps_near : list (vec NF) := [pt _ _ _ 0 0 0; pt _ _ _ 1 0 0; pt _ _ _ (1 + 1 / 1073741824) 0 0; pt _ _ _ 0 1 0]%float.

Definition back (C : codec NF) (e : ext) (m m0 : mesh NF) (f : mesh NF -> bool) : bool :=
  match save C e m with Ok (fl, _) => match load fl m0 with Ok (_, m') => f m' | _ => false end | _ => false end.
Lemma back_ok C e m m0 f : back C e m m0 f = true -> exists fl m1 m', save C e m = Ok (fl, m1) /\ load fl m0 = Ok (tt, m') /\ f m' = true.
Proof.
  unfold back. destruct (save C e m) as [[fl m1]| | |]; try discriminate. destruct (load fl m0) as [[[] m']| | |] eqn:E; try discriminate.
  intros H. exists fl, m1, m'. auto.
Qed.

(** A triangle alone is lost. *)
Lemma alone_check (C : codec NF) : with_mesh _ _ _ (mesh_of (ps3 acosF expF atan2F) [0; 1; 2]) (fun m =>
  Nat.eqb (length (m_faces m)) 2 && back C EObj m empty_mesh (fun m' => Nat.eqb (length (m_verts m')) 0) && back C EPly m empty_mesh (fun m' => Nat.eqb (length (m_verts m')) 0)) = true.
Proof. vm_cast_no_check (eq_refl true). Qed.
Lemma alone_refuted (C : codec NF) : exists ps m, mesh_of ps [0; 1; 2] = Ok m /\ length (m_faces m) = 2 /\
  forall e, e <> EOther -> exists f m1 m', save C e m = Ok (f, m1) /\ load f empty_mesh = Ok (tt, m') /\ m_verts m' = [].
Proof.
  assert (H := alone_check C). apply with_ok in H as (m & E & H). apply andb_true_iff in H as [H H3]. apply andb_true_iff in H as [H1 H2].
  apply back_ok in H2 as (f & m1 & m' & S1 & L1 & K1). apply back_ok in H3 as (g & m2 & m'' & S2 & L2 & K2). apply Nat.eqb_eq in H1, K1, K2. apply length_zero_iff_nil in K1, K2.
  exists (ps3 acosF expF atan2F), m. split; [exact E|]. split; [exact H1|]. intros [| |] X; [| |congruence]; [exists f, m1, m'|exists g, m2, m'']; auto.
Qed.

(** Loading a PLY file into the object that wrote it. *)
Lemma used_check : with_mesh _ _ _ (mesh_of (ps_square acosF expF atan2F) [0;1;2; 0;2;3]) (fun m =>
   Nat.eqb (length (m_faces m)) 3 && back exact_codec EPly m empty_mesh (fun m' => Nat.eqb (length (m_faces m')) 3) && back exact_codec EPly m m (fun m' => Nat.eqb (length (m_faces m')) 4)) = true.
Proof. vm_cast_no_check (eq_refl true). Qed.
Lemma used_refuted : exists (C : codec NF), (forall x, c_narrow C x = x) /\ exists ps ix m f m1 m2 m3,
  mesh_of ps ix = Ok m /\ save C EPly m = Ok (f, m1) /\ load f empty_mesh = Ok (tt, m2) /\ load f m = Ok (tt, m3) /\
  length (m_faces m) = 3 /\ length (m_faces m2) = 3 /\ length (m_faces m3) = 4.
Proof.
  exists exact_codec. split; [reflexivity|].
  assert (H := used_check). apply with_ok in H as (m & E & H). apply andb_true_iff in H as [H H3]. apply andb_true_iff in H as [H1 H2].
  apply back_ok in H2 as (f & m1 & m2 & S1 & L1 & K1). apply back_ok in H3 as (g & m1' & m3 & S2 & L2 & K2). apply Nat.eqb_eq in H1, K1, K2.
  rewrite S1 in S2. injection S2 as <- <-.
  exists (ps_square acosF expF atan2F), [0;1;2; 0;2;3], m, f, m1, m2, m3. auto 10.
Qed.

(** Rounding can merge vertices; the triangle between them is lost. *)
Lemma near_check : with_mesh _ _ _ (mesh_of ps_near [0;1;2; 0;2;3]) (fun m => Nat.eqb (length (m_faces m)) 3 && Nat.eqb (length (m_verts m)) 4 &&
   back single_codec EObj m empty_mesh (fun m' => Nat.eqb (length (m_faces m')) 2 && Nat.eqb (length (m_verts m')) 3) &&
   back single_codec EPly m empty_mesh (fun m' => Nat.eqb (length (m_faces m')) 2 && Nat.eqb (length (m_verts m')) 3)) = true.
Proof. vm_cast_no_check (eq_refl true). Qed.
Lemma near_refuted : exists (C : codec NF), (forall x, through C EPly x = narrow24 x) /\ (forall x, through C EObj x = narrow24 x) /\ exists ps ix m, mesh_of ps ix = Ok m /\ length (m_faces m) = 3 /\ length (m_verts m) = 4 /\
  forall e, e <> EOther -> exists f m1 m', save C e m = Ok (f, m1) /\ load f empty_mesh = Ok (tt, m') /\ length (m_faces m') = 2 /\ length (m_verts m') = 3.
Proof.
  exists single_codec. split; [reflexivity|]. split; [reflexivity|].
  assert (H := near_check). apply with_ok in H as (m & E & H). apply andb_true_iff in H as [H H3]. apply andb_true_iff in H as [H H2]. apply andb_true_iff in H as [H0 H1].
  apply back_ok in H2 as (f & m1 & m' & S1 & L1 & K1). apply back_ok in H3 as (g & m2 & m'' & S2 & L2 & K2). apply andb_true_iff in K1 as [K1 K3], K2 as [K2 K4].
  apply Nat.eqb_eq in H0, H1, K1, K2, K3, K4. exists ps_near, [0;1;2; 0;2;3], m. split; [exact E|]. split; [exact H0|]. split; [exact H1|].
  intros [| |] X; [| |congruence]; [exists f, m1, m'|exists g, m2, m'']; auto.
Qed.

(** ** An example for the theorem *)
Lemma closed_no_isolated (m : mesh NF) A : SurfaceOf m A -> (forall h, In h (m_hes m) -> h_bd m h = false) -> forall t, In t A -> ~ isolated A t.
Proof.
  intros S H [[a b] c] It I. assert (Iab : In (a, b) (edges A)) by (unfold edges; apply in_flat_map; exists (a, b, c); split; [exact It|left; reflexivity]).
  destruct (proj1 (so_edges m A S a b) (or_introl Iab)) as (h & Kh).
  assert (X : h_bd m h = true) by (apply (so_flags m A S h a b Kh); left; split; [exact Iab|apply (I a b); left; reflexivity]).
  rewrite (H h (proj1 Kh)) in X. discriminate.
Qed.

Definition keptb (C : codec NF) (e : ext) (ps : list (vec NF)) : bool :=
  forallb (fun i => forallb (fun j => match nth_error ps i, nth_error ps j with
    | Some p, Some q => Bool.eqb (veqb (through3 C e p) (through3 C e q)) (Nat.eqb i j) | _, _ => true end) (seq 0 (length ps))) (seq 0 (length ps)).
Lemma keptb_ok C e ps : keptb C e ps = true -> KeptApart C e ps.
Proof.
  unfold keptb. intros H.
  assert (G : forall i j p q, nth_error ps i = Some p -> nth_error ps j = Some q -> veqb (through3 C e p) (through3 C e q) = Nat.eqb i j).
  { intros i j p q Hp Hq. assert (Li : In i (seq 0 (length ps))) by (apply in_seq; split; [lia|apply nth_error_Some; congruence]).
    assert (Lj : In j (seq 0 (length ps))) by (apply in_seq; split; [lia|apply nth_error_Some; congruence]).
    assert (K := proj1 (forallb_forall _ _) (proj1 (forallb_forall _ _) H i Li) j Lj). cbv beta in K. rewrite Hp, Hq in K. apply eqb_prop in K. exact K. }
  split.
  - intros i j p q Hp Hq V. rewrite (G i j p q Hp Hq) in V. apply Nat.eqb_eq. exact V.
  - intros p Hp. apply In_nth_error in Hp as (i & Hi). rewrite (G i i p p Hi Hi). apply Nat.eqb_refl.
Qed.

Lemma tetra_check : with_mesh _ _ _ (mesh_of (ps_tetra acosF expF atan2F) ix_tetra) (fun m => forallb (fun h => negb (h_bd m h)) (m_hes m) &&
  Nat.eqb (length (m_hes m)) 12 && keptb single_codec EObj (positions m) && keptb single_codec EPly (positions m)) = true.
Proof. vm_cast_no_check (eq_refl true). Qed.
Lemma ex_saved : exists (C : codec NF) ps ix m, NoNaN ps ix /\ mesh_of ps ix = Ok m /\ length (m_hes m) = 12 /\
  KeptApart C EObj (positions m) /\ KeptApart C EPly (positions m) /\ forall A, SurfaceOf m A -> forall t, In t A -> ~ isolated A t.
Proof.
  assert (H := tetra_check). apply with_ok in H as (m & E & H). apply andb_true_iff in H as [H H3]. apply andb_true_iff in H as [H H2]. apply andb_true_iff in H as [H0 H1].
  apply Nat.eqb_eq in H1. exists single_codec, (ps_tetra acosF expF atan2F), ix_tetra, m. split; [apply nonanb_ok; vm_cast_no_check (eq_refl true)|]. split; [exact E|]. split; [exact H1|].
  split; [apply keptb_ok; exact H2|]. split; [apply keptb_ok; exact H3|]. intros A S. apply closed_no_isolated with m; [exact S|].
  intros h Ih. apply negb_true_iff. apply (proj1 (forallb_forall _ _) H0 h Ih).
Qed.

(** An OBJ file with three lines per face and vertex, and an object that holds a mesh. *)
Lemma ex_load : exists (C : codec NF) ls m m', load (C := C) (FObj ls) m = Ok (tt, m') /\ length (m_hes m) = 12 /\ m_indices m <> [] /\ length (m_faces m') = 3.
Proof.
  assert (H : with_mesh _ _ _ (mesh_of (ps_tetra acosF expF atan2F) ix_tetra) (fun m0 => Nat.eqb (length (m_hes m0)) 12 && negb (Nat.eqb (length (m_indices m0)) 0) &&
    with_mesh _ _ _ (mesh_of (ps_square acosF expF atan2F) [0;1;3; 1;2;3]) (fun m => back exact_codec EObj m m0 (fun m' => Nat.eqb (length (m_faces m')) 3))) = true) by vm_cast_no_check (eq_refl true).
  apply with_ok in H as (m0 & _ & H). apply andb_true_iff in H as [H H2]. apply andb_true_iff in H as [H0 H1]. apply with_ok in H2 as (m & Em & H2).
  destruct (faithful (N := NF) _ _ m ltac:(apply nonanb_ok; vm_cast_no_check (eq_refl true)) Em) as (_ & _ & A & _ & B).
  destruct (saved exact_codec m A B) as (l & _ & So & _). apply back_ok in H2 as (f & m1 & m' & S1 & L1 & K1). rewrite So in S1. injection S1 as <- <-.
  exists exact_codec, (map (vline exact_codec) (positions m) ++ flines exact_codec l), m0, m'. split; [exact L1|].
  apply Nat.eqb_eq in H0, K1. apply negb_true_iff, Nat.eqb_neq in H1. split; [exact H0|]. split; [intros X; rewrite X in H1; apply H1; reflexivity|exact K1].
Qed.
End W.
