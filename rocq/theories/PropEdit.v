(** Properties of the edits: C15-C23.  Vocabulary: Spec.v, EditSpec.v, EditRun.v; the code: Mesh.v. *)
From Coq Require Import List ZArith Floats Arith.
From Verif Require Import Num Vec Heap Mesh Construct Spec EditSpec EditRun BuildSpec Edits Seqs EditProps Refute Examples.
Import ListNotations.
Notation libm1 := (float -> float).
Notation libm2 := (float -> float -> float).

(** ** C15: splitHE. *)
Theorem C15_split : forall (N : Num) (m : mesh N) he, Valid m -> In he (m_hes m) ->
  exists b m' rev s d, h_rev m he = Some rev /\ h_src m he = Some s /\ dst_of m he = Some d /\
    splitHE (Some he) m = Ok (b, m') /\ Valid m' /\
    (b = true <-> h_bd m he = false /\ h_bd m rev = false /\ 3 <= deg_of m s /\ 3 <= deg_of m d) /\
    (b = false -> m' = m) /\
    (b = true -> exists u0 u1 u2 u3 f0 f1 vn g0 g1, SplitEffect m m' he u0 u1 u2 u3 f0 f1 vn g0 g1).
Proof. exact @split_top. Qed.
Print Assumptions C15_split.

(** ** C16: flipHE between two triangles. *)
Theorem C16_flip : forall (N : Num) (m : mesh N) he rev, Valid m -> In he (m_hes m) -> h_rev m he = Some rev ->
  piter (h_next m) 3 he = Some he -> piter (h_next m) 3 rev = Some rev ->
  exists b m', flipHE (Some he) m = Ok (b, m') /\ Valid m' /\ (b = false -> m' = m) /\
    exists u0 u1 u2 u3 f0 f1, h_src m he = Some u0 /\ dst_of m he = Some u2 /\ Tri m f0 u0 u2 u1 /\ Tri m f1 u2 u0 u3 /\
      (b = true <-> 4 < deg_of m u0 /\ 4 < deg_of m u2 /\ ~ adj m u1 u3) /\
      (b = true -> FlipEffect m m' he u0 u1 u2 u3 f0 f1).
Proof. exact @flip_top. Qed.
Print Assumptions C16_flip.

(** ** C17: flipHE on any half-edge.  False on the boundary: the result is not a
    mesh any more and verify() does not come back. *)
Theorem C17_flip_refuted : forall (a e : libm1) (t : libm2), exists ps ix (m : mesh (NumF a e t)) he m',
  mesh_of ps ix = Ok m /\ Valid m /\ In he (m_hes m) /\ h_bd m he = true /\
  flipHE (Some he) m = Ok (true, m') /\ ~ WF m' /\ verify m' = NoFuel.
Proof. exact flip_boundary_refuted. Qed.
Print Assumptions C17_flip_refuted.
(** Missing: edges next to a hole with more than three corners. *)
Theorem C17_flip_partial : forall (N : Num) (m : mesh N) he rev, Valid m -> In he (m_hes m) -> h_rev m he = Some rev ->
  piter (h_next m) 3 he = Some he -> piter (h_next m) 3 rev = Some rev ->
  exists b m', flipHE (Some he) m = Ok (b, m') /\ Valid m' /\ (b = false -> m' = m) /\
    exists u0 u1 u2 u3 f0 f1, h_src m he = Some u0 /\ dst_of m he = Some u2 /\ Tri m f0 u0 u2 u1 /\ Tri m f1 u2 u0 u3 /\
      (b = true <-> 4 < deg_of m u0 /\ 4 < deg_of m u2 /\ ~ adj m u1 u3) /\
      (b = true -> FlipEffect m m' he u0 u1 u2 u3 f0 f1).
Proof. exact @flip_top. Qed.
Print Assumptions C17_flip_partial.

(** ** C18: collapseHE.  The failing assertion needs a position that is not equal
    to itself; everything else is as claimed. *)
Theorem C18_collapse_partial : forall (N : Num) (m : mesh N) he, Valid m -> In he (m_hes m) ->
  collapseHE (Some he) m = Abort AAssert /\ ~ PosOk m \/
  exists b m', collapseHE (Some he) m = Ok (b, m') /\ Valid m' /\ (b = false -> m' = m) /\
    (b = true -> exists u0 u1 u2 u3 f0 f1, CollapseEffect m m' he u0 u1 u2 u3 f0 f1 /\
      3 < deg_of m u0 /\ deg_of m u0 <= deg_of m u2 /\ 4 < deg_of m u1 /\ 4 < deg_of m u3 /\
      (forall w, adj m u0 w -> adj m u2 w -> w = u1 \/ w = u3)).
Proof. exact @collapse_top. Qed.
Print Assumptions C18_collapse_partial.
Theorem C18_collapse_nan_refuted : forall (a e : libm1) (t : libm2), exists (m : mesh (NumF a e t)) he,
  Valid m /\ In he (m_hes m) /\ collapseHE (Some he) m = Abort AAssert.
Proof. exact collapse_nan_refuted. Qed.
Print Assumptions C18_collapse_nan_refuted.

(** ** C19: boundary gaps.  False if both end points lie on the boundary. *)
Theorem C19_one_gap_refuted : forall (a e : libm1) (t : libm2), exists ps ix (m : mesh (NumF a e t)) he m',
  mesh_of ps ix = Ok m /\ Valid m /\ In he (m_hes m) /\
  (forall v, In v (m_verts m) -> gaps m v <= 1) /\ collapseHE (Some he) m = Ok (true, m') /\ exists v, In v (m_verts m') /\ gaps m' v = 2.
Proof. exact pinch_refuted. Qed.
Print Assumptions C19_one_gap_refuted.
(** True if at most one of them does. *)
Theorem C19_one_gap_partial : forall (N : Num) (m : mesh N) he s d m', Valid m -> In he (m_hes m) -> h_src m he = Some s -> dst_of m he = Some d ->
  (forall v, In v (m_verts m) -> gaps m v <= 1) -> gaps m s + gaps m d <= 1 -> collapseHE (Some he) m = Ok (true, m') ->
  forall v, In v (m_verts m') -> gaps m' v <= 1.
Proof. exact @collapse_one_gap. Qed.
Print Assumptions C19_one_gap_partial.

(** C15, C16, C18: on this half-edge all three edits succeed. *)
Example C15_C16_C17_C18_case : forall (a e : libm1) (t : libm2), exists ps ix (m : mesh (NumF a e t)) he rev m1 m2 m3, NoNaN ps ix /\ mesh_of ps ix = Ok m /\ Valid m /\ In he (m_hes m) /\
  h_rev m he = Some rev /\ h_bd m he = false /\ h_bd m rev = false /\
  splitHE (Some he) m = Ok (true, m1) /\ flipHE (Some he) m = Ok (true, m2) /\ collapseHE (Some he) m = Ok (true, m3).
Proof. exact ex_two. Qed.
Example C19_case : forall (a e : libm1) (t : libm2), exists (m : mesh (NumF a e t)) he s d m', Valid m /\ In he (m_hes m) /\
  h_src m he = Some s /\ dst_of m he = Some d /\ (forall v, In v (m_verts m) -> gaps m v <= 1) /\ gaps m s + gaps m d = 1 /\ collapseHE (Some he) m = Ok (true, m').
Proof. exact ex_gap. Qed.

(** ** C20: a refused edit, on any mesh at all. *)
Theorem C20_refused : forall (N : Num) (op : mesh N -> res (bool * mesh N)), (exists he, op = splitHE he \/ op = flipHE he \/ op = collapseHE he) ->
  forall m m', op m = Ok (false, m') -> m' = m.
Proof. exact @refused. Qed.
Print Assumptions C20_refused.
Example C20_case : forall (a e : libm1) (t : libm2), exists ps ix (m : mesh (NumF a e t)) he m1 m2 m3, mesh_of ps ix = Ok m /\ In he (m_hes m) /\
  splitHE (Some he) m = Ok (false, m1) /\ flipHE (Some he) m = Ok (false, m2) /\ collapseHE (Some he) m = Ok (false, m3).
Proof. exact ex_refused. Qed.

(** ** C21: collapseFace.  Safe, but it can return false after one of its two collapses. *)
Theorem C21_collapseFace_refuted : forall (a e : libm1) (t : libm2), exists ps ix (m : mesh (NumF a e t)) f m',
  mesh_of ps ix = Ok m /\ Valid m /\ In f (m_faces m) /\ collapseFace (Some f) m = Ok (false, m') /\ length (m_faces m') < length (m_faces m).
Proof. exact collapseFace_refuted. Qed.
Print Assumptions C21_collapseFace_refuted.
Theorem C21_collapseFace_partial : forall (N : Num) (m : mesh N) f a b c, Valid m -> In f (m_faces m) -> Tri m f a b c ->
  collapseFace (Some f) m = Abort AAssert /\ ~ PosOk m \/
  exists r m', collapseFace (Some f) m = Ok (r, m') /\ Valid m' /\
    (r = true -> exists m1, Collapsed m m1 /\ Valid m1 /\ Collapsed m1 m') /\
    (r = false -> m' = m \/ Collapsed m m').
Proof. exact @collapseFace_top. Qed.
Print Assumptions C21_collapseFace_partial.
Example C21_case : forall (a e : libm1) (t : libm2), exists (m : mesh (NumF a e t)) f h v x y z,
  Valid m /\ In f (m_faces m) /\ Tri m f x y z /\ In h (m_hes m) /\ In v (m_verts m) /\ length (m_hes m) = 12.
Proof. exact ex_valid. Qed.

(** ** C22: sequences of edits from a constructed mesh; [edit_args] says that each
    edit gets an element of the mesh as it then is. *)
Theorem C22_edit_sequences : forall (N : Num) (ps : list (vec N)) ix m es, mesh_of ps ix = Ok m -> edit_args m es ->
  run_edits es m = Abort AAssert /\ (exists pre m1, Valid m1 /\ ~ PosOk m1 /\ run_edits pre m = Ok (tt, m1)) \/
  exists m', run_edits es m = Ok (tt, m') /\ Valid m' /\ euler m' = euler m.
Proof. exact @built_edits. Qed.
Print Assumptions C22_edit_sequences.
(** In exact arithmetic the assertion never fails. *)
Theorem C22_edit_sequences_exact : forall (N : Num) (ps : list (vec N)) ix m es, (forall p : vec N, veqb p p = true) ->
  mesh_of ps ix = Ok m -> edit_args m es -> exists m', run_edits es m = Ok (tt, m') /\ Valid m'.
Proof. exact @built_edits_exact. Qed.
Print Assumptions C22_edit_sequences_exact.

(** ** C23: V - E + F (for fillHoles see PropFill.v). *)
Theorem C23_edits_euler : forall (N : Num) es (m m' : mesh N), Valid m -> edit_args m es -> run_edits es m = Ok (tt, m') -> euler m' = euler m.
Proof. exact @edits_euler. Qed.
Print Assumptions C23_edits_euler.
Example C22_C23_case : forall (a e : libm1) (t : libm2), exists ps ix (m : mesh (NumF a e t)) h, NoNaN ps ix /\ mesh_of ps ix = Ok m /\ edit_args m [ESplit h; ECollapse h] /\
  exists m1, splitHE (Some h) m = Ok (true, m1).
Proof. exact ex_edits. Qed.
