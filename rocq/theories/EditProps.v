(** The edits on constructed meshes: statements used by PropEdit.v. *)
From Coq Require Import List ZArith Arith Bool Lia.
From Verif Require Import Num Vec Heap Mesh Construct Spec EditSpec EditRun BuildSpec Exec Edits Seqs Refuse Queries BuildProps Built Refute.
Import ListNotations.

Section EditProps.
Context {N : Num}.
Implicit Types m : mesh N.

Lemma collapse_one_gap m he s d m' : Valid m -> In he (m_hes m) -> h_src m he = Some s -> dst_of m he = Some d ->
  (forall v, In v (m_verts m) -> gaps m v <= 1) -> gaps m s + gaps m d <= 1 -> collapseHE (Some he) m = Ok (true, m') ->
  forall v, In v (m_verts m') -> gaps m' v <= 1.
Proof.
  intros V I Es Ed G G2 E v Hv'. destruct (collapse_top m he V I) as [[E' _]|(b & m2 & E' & V' & _ & T)]; [congruence|].
  rewrite E in E'. injection E' as <- <-. destruct (T eq_refl) as (u0 & u1 & u2 & u3 & f0 & f1 & X & _).
  destruct (collapse_gaps m m' he u0 u1 u2 u3 f0 f1 V V' X) as [G0 Gv]. destruct (ce_edge _ _ _ _ _ _ _ _ _ X) as (Ends & _).
  assert (S2 : gaps m u0 + gaps m u2 <= 1) by (destruct Ends as [[A B]|[A B]]; rewrite Es in A; rewrite Ed in B; injection A as ->; injection B as ->; lia).
  destruct (Nat.eq_dec v u0) as [->|Hv]; [lia|]. specialize (Gv v Hv). apply (ce_verts _ _ _ _ _ _ _ _ _ X) in Hv' as [Hv' _]. specialize (G v Hv'). lia.
Qed.

Lemma refused : forall (op : mesh N -> res (bool * mesh N)), (exists he, op = splitHE he \/ op = flipHE he \/ op = collapseHE he) ->
  forall m m', op m = Ok (false, m') -> m' = m.
Proof. intros op (he & [-> | [-> | ->]]); [apply split_refused|apply flip_refused|apply collapse_refused]. Qed.

Lemma built_edits ps ix m es : mesh_of ps ix = Ok m -> edit_args m es ->
  run_edits es m = Abort AAssert /\ (exists pre m1, Valid m1 /\ ~ PosOk m1 /\ run_edits pre m = Ok (tt, m1)) \/
  exists m', run_edits es m = Ok (tt, m') /\ Valid m' /\ euler m' = euler m.
Proof. intros E. apply edits_top. apply mesh_of_ok in E. exact (proj1 (construct_valid _ _ _ _ E)). Qed.
Lemma built_edits_exact ps ix m es : (forall p : vec N, veqb p p = true) -> mesh_of ps ix = Ok m -> edit_args m es ->
  exists m', run_edits es m = Ok (tt, m') /\ Valid m'.
Proof.
  intros R E A. apply mesh_of_ok in E. destruct (edits_exact es R m (proj1 (construct_valid _ _ _ _ E)) A) as (m' & X & Y & _). exists m'. auto.
Qed.
Lemma edits_euler es m m' : Valid m -> edit_args m es -> run_edits es m = Ok (tt, m') -> euler m' = euler m.
Proof.
  intros V A E. destruct (edits_top es m V A) as [[E' _]|(m2 & E' & _ & X)]; [congruence|]. rewrite E in E'. injection E' as <-. exact X.
Qed.

(** Splitting an edge and then collapsing one half of it. *)
Lemma ex_edit_args m he : Valid m -> In he (m_hes m) -> edit_args m [ESplit he; ECollapse he].
Proof.
  intros V I. constructor; [exact I|]. intros b m' E. constructor; [|constructor].
  destruct (split_top m he V I) as (b' & m2 & r & s & d & _ & _ & _ & E' & _ & _ & F & T). cbn [run_edit] in E. rewrite E in E'. injection E' as <- <-.
  destruct b; [|rewrite (F eq_refl); exact I]. destruct (T eq_refl) as (u0 & u1 & u2 & u3 & f0 & f1 & vn & g0 & g1 & X).
  destruct (se_hes _ _ _ _ _ _ _ _ _ _ _ _ X) as (l & El & _). cbn [edit_arg]. rewrite El. apply in_or_app. left. exact I.
Qed.
End EditProps.
