(** Concrete cases meeting the hypotheses of the property theorems. *)
From Coq Require Import List ZArith Floats Bool Arith Lia Permutation.
From Verif Require Import Num NumInst Vec Heap Mesh Construct Spec EditSpec BuildSpec Orbit Rings Exec Edits Seqs Refuse Queries BuildTri BuildTop Weld Built Clone BuildProps Witness Refute EditRun EditProps.
Import ListNotations.

Lemma divide_mod n : n mod 3 = 0 -> Nat.divide 3 n.
Proof. intros H. exists (n / 3). rewrite (Nat.div_mod_eq n 3) at 1. lia. Qed.
Fixpoint nodupb (l : list (nat * nat)) : bool :=
  match l with [] => true | e :: l' => negb (memb e l') && nodupb l' end.
Lemma nodupb_ok l : nodupb l = true -> NoDup l.
Proof.
  induction l as [|e l IH]; [constructor|]. cbn [nodupb]. intros H. apply andb_true_iff in H as [H1 H2]. constructor; [|exact (IH H2)].
  intros X. apply memb_in in X. rewrite X in H1. discriminate.
Qed.
Lemma nodegb_ok T : forallb (fun t => negb (degb t)) T = true -> forall t, In t T -> ~ degenerate t.
Proof. intros H t It D. rewrite forallb_forall in H. specialize (H t It). apply degb_spec in D. rewrite D in H. discriminate. Qed.
Lemma rangeb_ok n l : forallb (fun i => i <? n) l = true -> forall i, In i l -> i < n.
Proof. intros H i Hi. rewrite forallb_forall in H. apply Nat.ltb_lt, H, Hi. Qed.

Section Gen.
Context {N : Num}.
Definition nonanb (ps : list (vec N)) : bool := forallb (fun p => veqb p p) ps.
Lemma nonanb_ok ps ix : nonanb ps = true -> NoNaN ps ix.
Proof. unfold nonanb. rewrite forallb_forall. intros H i p _ Hp. exact (H p (nth_error_In _ _ Hp)). Qed.
Fixpoint distinctb (ps : list (vec N)) : bool :=
  match ps with [] => true | p :: l => forallb (fun q => negb (veqb p q) && negb (veqb q p)) l && distinctb l end.
Lemma distinctb_ok ps : distinctb ps = true -> PosDistinct ps.
Proof.
  induction ps as [|x ps IH]; intros H i j p q Hi Hj E; [destruct i; discriminate|].
  cbn [distinctb] in H. apply andb_true_iff in H as [H1 H2]. rewrite forallb_forall in H1.
  destruct i as [|i], j as [|j]; cbn [nth_error] in *; [reflexivity| | |].
  - injection Hi as ->. specialize (H1 q (nth_error_In _ _ Hj)). apply andb_true_iff in H1 as [H1 _]. rewrite E in H1. discriminate.
  - injection Hj as ->. specialize (H1 p (nth_error_In _ _ Hi)). apply andb_true_iff in H1 as [_ H1]. rewrite E in H1. discriminate.
  - f_equal. exact (IH H2 i j p q Hi Hj E).
Qed.
Context {NE : NumEq N}.

(** A soup that construction accepts has the fan property. *)
Lemma fans_of_ok (ps : list (vec N)) ix us l m : Welded ps ix us l -> Nat.divide 3 (length ix) ->
  (forall t, In t (triples l) -> ~ degenerate t) -> NoDup (edges (triples l)) -> mesh_of ps ix = Ok m ->
  forall a, a < length us -> Fan (triples l) a.
Proof.
  intros Wd D ND NE' E a La. destruct (build_outcome ps ix us l Wd D) as (T & rem & _ & _ & O & _ & Ot). rewrite (O ND) in Ot.
  destruct Ot as [[(t & It & X) _]|(_ & A & Ac & Ot)]; [destruct (ND t It X)|].
  rewrite (Accepted_det _ _ _ Ac (Accepted_all _ ND NE')) in Ot. destruct Ot as [[_ E']|[(_ & _ & E')|(_ & F & _)]]; try congruence. exact (F a La).
Qed.
Lemma nofan_of_error (ps : list (vec N)) ix us l : Welded ps ix us l -> Nat.divide 3 (length ix) ->
  (forall t, In t (triples l) -> ~ degenerate t) -> NoDup (edges (triples l)) -> mesh_of ps ix = Abort AError ->
  exists a, a < length us /\ ~ Fan (triples l) a.
Proof.
  intros Wd D ND NE' E. destruct (build_outcome ps ix us l Wd D) as (T & rem & _ & _ & O & _ & Ot). rewrite (O ND) in Ot.
  destruct Ot as [[(t & It & X) _]|(_ & A & Ac & Ot)]; [destruct (ND t It X)|].
  rewrite (Accepted_det _ _ _ Ac (Accepted_all _ ND NE')) in Ot. destruct Ot as [[_ E']|[(_ & F & _)|(_ & _ & m & E' & _)]]; [congruence|exact F|congruence].
Qed.
End Gen.

Section Examples.
Variables (acosF expF : float -> float) (atan2F : float -> float -> float).
Notation NF := (Witness.NF acosF expF atan2F).

(** The ten-triangle mesh and what the edits do on its first half-edge. *)
Lemma ex_two : exists (ps : list (vec NF)) ix m he rev m1 m2 m3, NoNaN ps ix /\ mesh_of ps ix = Ok m /\ Valid m /\ In he (m_hes m) /\
  h_rev m he = Some rev /\ h_bd m he = false /\ h_bd m rev = false /\
  splitHE (Some he) m = Ok (true, m1) /\ flipHE (Some he) m = Ok (true, m2) /\ collapseHE (Some he) m = Ok (true, m3).
Proof.
  assert (C := two_check acosF expF atan2F). apply with_ok in C as (m & E & C). unfold chk_two in C.
  repeat (apply andb_true_iff in C; let K := fresh "K" in destruct C as [C K]).
  destruct (h_rev m (first_he acosF expF atan2F m)) as [rev|] eqn:Er; [|discriminate].
  apply is_true_ok in K as (m3 & K). apply is_true_ok in K0 as (m2 & K0). apply is_true_ok in K1 as (m1 & K1). apply Nat.eqb_eq in C.
  exists (ps_two acosF expF atan2F), ix_two, m, (first_he acosF expF atan2F m), rev, m1, m2, m3.
  apply negb_true_iff in K2, K3. apply mesh_of_ok in E as E'.
  split; [apply nonanb_ok; vm_cast_no_check (eq_refl true)|]. split; [exact E|]. split; [exact (proj1 (construct_valid _ _ _ _ E'))|].
  split; [exact (length_in _ 0 37 C)|]. auto 10.
Qed.

(** A tetrahedron, as a soup. *)
Lemma ex_tetra_welded : let ps := ps_tetra acosF expF atan2F in Nat.divide 3 (length ix_tetra) /\
  (forall t, In t (triples ix_tetra) -> ~ degenerate t) /\ NoDup (edges (triples ix_tetra)) /\
  Welded ps ix_tetra ps ix_tetra /\ (forall a, a < length ps -> Fan (triples ix_tetra) a).
Proof.
  intros ps.
  assert (W : weld ps ix_tetra [] [] = Some (ps, ix_tetra)) by vm_cast_no_check (eq_refl (Some (ps, ix_tetra))).
  assert (Wd : Welded ps ix_tetra ps ix_tetra) by (apply weld_Welded; [apply nonanb_ok; vm_cast_no_check (eq_refl true)|exact W]).
  assert (D : Nat.divide 3 (length ix_tetra)) by (apply divide_mod; reflexivity).
  assert (ND : forall t, In t (triples ix_tetra) -> ~ degenerate t) by (apply nodegb_ok; reflexivity).
  assert (NE' : NoDup (edges (triples ix_tetra))) by (apply nodupb_ok; reflexivity).
  assert (C := verify_check acosF expF atan2F). apply with_ok in C as (m & E & _).
  split; [exact D|]. split; [exact ND|]. split; [exact NE'|]. split; [exact Wd|].
  exact (fans_of_ok ps ix_tetra ps ix_tetra m Wd D ND NE' E).
Qed.
Lemma ex_tetra : exists (ps : list (vec NF)) ix us l, Welded ps ix us l /\ Nat.divide 3 (length ix) /\ length ix = 12 /\
  (forall t, In t (triples l) -> ~ degenerate t) /\ NoDup (edges (triples l)) /\ (forall a, a < length us -> Fan (triples l) a).
Proof.
  destruct ex_tetra_welded as (D & ND & NE' & Wd & F). exists (ps_tetra acosF expF atan2F), ix_tetra, (ps_tetra acosF expF atan2F), ix_tetra. auto 10.
Qed.

Lemma ex_tetra_raw : exists (ps : list (vec NF)) ix, PosDistinct ps /\ NoNaN ps ix /\ (forall i, In i ix -> i < length ps) /\ Nat.divide 3 (length ix) /\
  (forall t, In t (triples ix) -> ~ degenerate t) /\ NoDup (edges (triples ix)) /\ (forall a, used (triples ix) a -> Fan (triples ix) a) /\ length ix = 12.
Proof.
  set (ps := ps_tetra acosF expF atan2F).
  assert (W : weld ps ix_tetra [] [] = Some (ps, ix_tetra)) by vm_cast_no_check (eq_refl (Some (ps, ix_tetra))).
  assert (NN : NoNaN ps ix_tetra) by (apply nonanb_ok; vm_cast_no_check (eq_refl true)).
  assert (Wd : Welded ps ix_tetra ps ix_tetra) by (apply weld_Welded; [exact NN|exact W]).
  assert (D : Nat.divide 3 (length ix_tetra)) by (apply divide_mod; reflexivity).
  assert (ND : forall t, In t (triples ix_tetra) -> ~ degenerate t) by (apply nodegb_ok; reflexivity).
  assert (NE' : NoDup (edges (triples ix_tetra))) by (apply nodupb_ok; reflexivity).
  assert (R : forall i, In i ix_tetra -> i < length ps) by (apply rangeb_ok; reflexivity).
  assert (C := verify_check acosF expF atan2F). apply with_ok in C as (m & E & _).
  exists ps, ix_tetra. split; [apply distinctb_ok; vm_cast_no_check (eq_refl true)|]. split; [exact NN|]. split; [exact R|]. split; [exact D|].
  split; [exact ND|]. split; [exact NE'|]. split; [|reflexivity]. intros a (b & Hb).
  apply (fans_of_ok ps ix_tetra ps ix_tetra m Wd D ND NE' E). apply R.
  unfold edges in Hb. apply in_flat_map in Hb as (t & It & Et). apply (triples_in ix_tetra t a It). destruct t as [[x y] z]. cbn [tedges In] in Et.
  destruct Et as [[= <- <-]|[[= <- <-]|[[= <- <-]|[]]]]; auto.
Qed.

(** Two triangles that share one vertex only. *)
Definition ps_bow : list (vec NF) := [pt acosF expF atan2F 0 0 0; pt acosF expF atan2F 1 0 0; pt acosF expF atan2F 0 1 0; pt acosF expF atan2F (-1) 0 0; pt acosF expF atan2F 0 (-1) 0]%float.
Lemma bow_check : is_abort AError (mesh_of ps_bow [0;1;2; 0;3;4]) = true.
Proof. vm_cast_no_check (eq_refl true). Qed.
Lemma ex_bow : exists (ps : list (vec NF)) ix us l, Welded ps ix us l /\ Nat.divide 3 (length ix) /\
  (forall t, In t (triples l) -> ~ degenerate t) /\ NoDup (edges (triples l)) /\ (exists a, a < length us /\ ~ Fan (triples l) a).
Proof.
  set (ix := [0;1;2; 0;3;4]). assert (W : weld ps_bow ix [] [] = Some (ps_bow, ix)) by vm_cast_no_check (eq_refl (Some (ps_bow, ix))).
  assert (Wd : Welded ps_bow ix ps_bow ix) by (apply weld_Welded; [apply nonanb_ok; vm_cast_no_check (eq_refl true)|exact W]).
  assert (D : Nat.divide 3 (length ix)) by (apply divide_mod; reflexivity).
  assert (ND : forall t, In t (triples ix) -> ~ degenerate t) by (apply nodegb_ok; reflexivity).
  assert (NE' : NoDup (edges (triples ix))) by (apply nodupb_ok; reflexivity).
  exists ps_bow, ix, ps_bow, ix. split; [exact Wd|]. split; [exact D|]. split; [exact ND|]. split; [exact NE'|].
  apply (nofan_of_error ps_bow ix ps_bow ix Wd D ND NE'). apply is_abort_ok, bow_check.
Qed.

(** One degenerate triangle and a duplicate one among three. *)
Lemma ex_one_degenerate : exists (ps : list (vec NF)) ix us l, Welded ps ix us l /\ Nat.divide 3 (length ix) /\
  length (filter degb (triples l)) = 1 /\ length (triples l) = 3.
Proof.
  set (ix := [0;1;1; 0;1;2; 0;1;2]). exists (ps3 acosF expF atan2F), ix, (ps3 acosF expF atan2F), ix.
  split; [apply weld_Welded; [apply nonanb_ok; vm_cast_no_check (eq_refl true)|vm_cast_no_check (eq_refl (Some (ps3 acosF expF atan2F, ix)))]|].
  split; [apply divide_mod; reflexivity|]. split; reflexivity.
Qed.

(** The ten-triangle mesh again. *)
Definition chk_len (n : nat) (m : mesh NF) : bool := Nat.eqb (length (m_hes m)) n.
Definition chk_clone (m : mesh NF) : bool := chk_len 38 m && with_mesh acosF expF atan2F (clone m) (chk_len 38) &&
  with_res acosF expF atan2F (getVertexIndices m) (fun l _ => Nat.eqb (length l) 30).
Lemma clone_check : with_mesh acosF expF atan2F (mesh_of (ps_two acosF expF atan2F) ix_two) chk_clone = true.
Proof. vm_cast_no_check (eq_refl true). Qed.
Lemma two_nonan : NoNaN (ps_two acosF expF atan2F) ix_two.
Proof. apply nonanb_ok; vm_cast_no_check (eq_refl true). Qed.
Lemma ex_all : exists ps ix (m : mesh NF), NoNaN ps ix /\ mesh_of ps ix = Ok m /\ length (m_hes m) = 38 /\
  (exists m', clone m = Ok m' /\ length (m_hes m') = 38) /\ (exists l, getVertexIndices m = Ok (l, m) /\ length l = 30).
Proof.
  assert (C := clone_check). apply with_ok in C as (m & E & C). unfold chk_clone, chk_len in C.
  apply andb_true_iff in C as [C C3]. apply andb_true_iff in C as [C1 C2]. apply with_ok in C2 as (m' & E' & C2). apply with_res_ok in C3 as (l & m2 & El & C3).
  apply Nat.eqb_eq in C1, C2, C3.
  exists (ps_two acosF expF atan2F), ix_two, m. split; [exact two_nonan|]. split; [exact E|]. split; [exact C1|]. split; [exists m'; auto|].
  exists l. split; [|exact C3]. destruct (construct_indices _ _ m two_nonan E) as (A & _ & Su & _). 
  destruct (faithful _ _ m two_nonan E) as (_ & _ & A' & _ & B). destruct (built_indices m A' B) as (l' & Ei & _).
  assert (X : (Ok (l, m2) : res (list Z * mesh NF)) = Ok (map Z.of_nat l', m)) by (transitivity (getVertexIndices m); [symmetry; exact El|exact Ei]).
  injection X as X1 X2. transitivity (Ok (l, m2) : res (list Z * mesh NF)); [exact El|]. rewrite X2. reflexivity.
Qed.
Lemma ex_mesh : exists ps ix (m : mesh NF), NoNaN ps ix /\ mesh_of ps ix = Ok m /\ length (m_hes m) = 38.
Proof. destruct ex_all as (ps & ix & m & A & B & C & _). exists ps, ix, m. auto. Qed.
Lemma ex_clone : exists ps ix (m : mesh NF), NoNaN ps ix /\ mesh_of ps ix = Ok m /\ exists m', clone m = Ok m' /\ length (m_hes m') = 38.
Proof. destruct ex_all as (ps & ix & m & A & B & C & D & _). exists ps, ix, m. auto. Qed.
Lemma ex_indices : exists ps ix (m : mesh NF), NoNaN ps ix /\ mesh_of ps ix = Ok m /\ exists l, getVertexIndices m = Ok (l, m) /\ length l = 30.
Proof. destruct ex_all as (ps & ix & m & A & B & C & _ & D). exists ps, ix, m. auto. Qed.
Lemma ex_built : exists ps ix (m m' : mesh NF), construct ps ix m = Ok (tt, m') /\ length (m_hes m') = 38.
Proof. destruct ex_all as (ps & ix & m & _ & B & C & _). exists ps, ix, empty_mesh, m. split; [apply mesh_of_ok; exact B|exact C]. Qed.

(** A tetrahedron with one triangle given twice. *)
Lemma repeated_check : with_mesh acosF expF atan2F (mesh_of (ps_tetra acosF expF atan2F) (ix_tetra ++ [1;2;0])) (fun m => Nat.eqb (length (m_faces m)) 4) = true.
Proof. vm_cast_no_check (eq_refl true). Qed.
Lemma ex_repeated : exists ps ix (m : mesh NF), NoNaN ps ix /\ mesh_of ps ix = Ok m /\ length (triples ix) = 5 /\ length (m_faces m) = 4.
Proof.
  assert (C := repeated_check). apply with_ok in C as (m & E & C). apply Nat.eqb_eq in C.
  exists (ps_tetra acosF expF atan2F), (ix_tetra ++ [1;2;0]), m. split; [apply nonanb_ok; vm_cast_no_check (eq_refl true)|]. auto.
Qed.

(** A square given as two triangles with their own copies of the corners. *)
Definition ps_dup : list (vec NF) := [pt acosF expF atan2F 0 0 0; pt acosF expF atan2F 1 0 0; pt acosF expF atan2F 1 1 0;
  pt acosF expF atan2F 0 0 0; pt acosF expF atan2F 1 1 0; pt acosF expF atan2F 0 1 0]%float.
Lemma dup_check : with_mesh acosF expF atan2F (mesh_of ps_dup [0;1;2; 3;4;5]) (fun m => Nat.eqb (length (m_verts m)) 4) = true.
Proof. vm_cast_no_check (eq_refl true). Qed.
Lemma ex_equal_positions : exists ps ix (m : mesh NF), NoNaN ps ix /\ mesh_of ps ix = Ok m /\ length ps = 6 /\ length (m_verts m) = 4.
Proof.
  assert (C := dup_check). apply with_ok in C as (m & E & C). apply Nat.eqb_eq in C.
  exists ps_dup, [0;1;2; 3;4;5], m. split; [apply nonanb_ok; vm_cast_no_check (eq_refl true)|]. auto.
Qed.

(** A mesh object whose index array has been cleared. *)
Lemma ex_cleared : exists (ps : list (vec NF)) ix us l (m : mesh NF), Welded ps ix us l /\ Nat.divide 3 (length ix) /\ m_indices m = [] /\
  length (m_hes m) = 38 /\ length ix = 12.
Proof.
  destruct ex_tetra as (ps & ix & us & l & W & D & L & _). destruct ex_all as (_ & _ & m & _ & _ & C & _).
  exists ps, ix, us, l, (set_m_indices [] m). auto.
Qed.
End Examples.

Section EditExamples.
Variables (acosF expF : float -> float) (atan2F : float -> float -> float).
Notation NF := (Witness.NF acosF expF atan2F).

(** A valid mesh with triangles. *)
Lemma ex_valid : exists (m : mesh NF) f h v a b c, Valid m /\ In f (m_faces m) /\ Tri m f a b c /\ In h (m_hes m) /\ In v (m_verts m) /\ length (m_hes m) = 12.
Proof.
  set (ps := ps_tetra acosF expF atan2F).
  destruct (ex_tetra_welded acosF expF atan2F) as (D & ND & NE' & Wd & F).
  destruct (accepts_manifold ps ix_tetra ps ix_tetra Wd D ND NE' F) as (m & E & Su & Po).
  destruct (so_tris _ _ Su) as (holes & Ef & T & _). remember (m_faces m) as fs eqn:Efs.
  destruct fs as [|f fs]; [inversion T|]. cbn [length firstn triples ix_tetra] in T. inversion T as [|? ? ? ? Tf _]; subst.
  destruct Tf as (u & v & w & _ & _ & _ & Tf).
  assert (Hf : In f (m_faces m)) by (rewrite <- Efs; left; reflexivity).
  destruct (wf_fhe m (valid_wf m (so_valid _ _ Su)) f Hf) as (h & _ & Ih & _). destruct (wf_src m (valid_wf m (so_valid _ _ Su)) h Ih) as (x & _ & Ix).
  exists m, f, h, x, u, v, w. split; [exact (so_valid _ _ Su)|]. split; [exact Hf|]. split; [exact Tf|]. split; [exact Ih|]. split; [exact Ix|].
  assert (C := verify_check acosF expF atan2F). apply with_ok in C as (m2 & E2 & C). apply andb_true_iff in C as [C _]. apply andb_true_iff in C as [_ C]. apply Nat.eqb_eq in C.
  assert (X : m2 = m). { assert (Y : (Ok m2 : res (mesh NF)) = Ok m) by (transitivity (mesh_of ps ix_tetra); [symmetry; exact E2|exact E]). injection Y; auto. }
  subst m2. unfold wrong_face in C. destruct (h_next m _); exact C.
Qed.
Lemma ex_edits : exists ps ix (m : mesh NF) h, NoNaN ps ix /\ mesh_of ps ix = Ok m /\ edit_args m [ESplit h; ECollapse h] /\
  exists m1, splitHE (Some h) m = Ok (true, m1).
Proof.
  destruct (ex_two acosF expF atan2F) as (ps & ix & m & he & rev & m1 & m2 & m3 & A & B & V & I & _ & _ & _ & S1 & _).
  exists ps, ix, m, he. split; [exact A|]. split; [exact B|]. split; [exact (ex_edit_args m he V I)|]. exists m1. exact S1.
Qed.

(** Nine triangles; the edge from the interior vertex 0 to the boundary vertex 1. *)
Definition ps_gap : list (vec NF) := map (fun p => pt acosF expF atan2F (fst p) (snd p) 0)
  [(0,0); (4,0); (1,4); (-3,2); (-3,-2); (1,-4); (-2,5); (4,4); (-2,-5); (4,-4)]%float.
Definition ix_gap : list nat := [0;1;2; 0;2;3; 0;3;4; 0;4;5; 0;5;1; 3;2;6; 2;1;7; 5;4;8; 1;5;9].
Definition chk_gap (m : mesh NF) : bool :=
  let he := first_he acosF expF atan2F m in
  Nat.eqb (length (m_hes m)) 36 && forallb (fun v => Nat.leb (gaps m v) 1) (m_verts m) &&
  match h_src m he, dst_of m he with Some s, Some d => Nat.eqb (gaps m s + gaps m d) 1 | _, _ => false end &&
  is_true acosF expF atan2F (collapseHE (Some he) m).
Lemma gap_check : with_mesh acosF expF atan2F (mesh_of ps_gap ix_gap) chk_gap = true.
Proof. vm_cast_no_check (eq_refl true). Qed.
Lemma ex_gap : exists (m : mesh NF) he s d m', Valid m /\ In he (m_hes m) /\
  h_src m he = Some s /\ dst_of m he = Some d /\ (forall v, In v (m_verts m) -> gaps m v <= 1) /\ gaps m s + gaps m d = 1 /\ collapseHE (Some he) m = Ok (true, m').
Proof.
  assert (C := gap_check). apply with_ok in C as (m & E & C). unfold chk_gap in C. set (he := first_he acosF expF atan2F m) in *.
  apply andb_true_iff in C as [C C4]. apply andb_true_iff in C as [C C3]. apply andb_true_iff in C as [C1 C2].
  destruct (h_src m he) as [s|] eqn:Es; [|discriminate]. destruct (dst_of m he) as [d|] eqn:Ed; [|discriminate].
  apply Nat.eqb_eq in C1, C3. apply is_true_ok in C4 as (m' & C4). exists m, he, s, d, m'. apply mesh_of_ok in E.
  split; [exact (proj1 (construct_valid _ _ _ _ E))|]. split; [exact (length_in _ 0 35 C1)|]. split; [exact Es|]. split; [exact Ed|].
  split; [|split; [exact C3|exact C4]]. intros v Hv. rewrite forallb_forall in C2. apply Nat.leb_le, C2, Hv.
Qed.

(** A boundary edge of a square: all edits are refused. *)
Definition chk_refused (m : mesh NF) : bool :=
  let he := first_he acosF expF atan2F m in
  Nat.eqb (length (m_hes m)) 10 && with_res acosF expF atan2F (splitHE (Some he) m) (fun b _ => negb b) &&
  with_res acosF expF atan2F (flipHE (Some he) m) (fun b _ => negb b) && with_res acosF expF atan2F (collapseHE (Some he) m) (fun b _ => negb b).
Lemma refused_check : with_mesh acosF expF atan2F (mesh_of (ps_square acosF expF atan2F) [0;1;2; 0;2;3]) chk_refused = true.
Proof. vm_cast_no_check (eq_refl true). Qed.
Lemma ex_refused : exists ps ix (m : mesh NF) he m1 m2 m3, mesh_of ps ix = Ok m /\ In he (m_hes m) /\
  splitHE (Some he) m = Ok (false, m1) /\ flipHE (Some he) m = Ok (false, m2) /\ collapseHE (Some he) m = Ok (false, m3).
Proof.
  assert (C := refused_check). apply with_ok in C as (m & E & C). unfold chk_refused in C. set (he := first_he acosF expF atan2F m) in *.
  apply andb_true_iff in C as [C C4]. apply andb_true_iff in C as [C C3]. apply andb_true_iff in C as [C1 C2]. apply Nat.eqb_eq in C1.
  apply with_res_ok in C2 as (b2 & m1 & E2 & B2). apply with_res_ok in C3 as (b3 & m2 & E3 & B3). apply with_res_ok in C4 as (b4 & m3 & E4 & B4).
  apply negb_true_iff in B2, B3, B4. subst b2 b3 b4.
  exists (ps_square acosF expF atan2F), [0;1;2; 0;2;3], m, he, m1, m2, m3. split; [exact E|]. split; [exact (length_in _ 0 9 C1)|]. auto.
Qed.
End EditExamples.
