(** The statements about construction, clone and getVertexIndices, put together
    from the previous files. *)
From Coq Require Import List ZArith Arith Lia Bool Permutation Relations.
From Verif Require Import Num Vec Heap Mesh Construct Spec BuildSpec Orbit Rings Exec Split Queries BuildTri BuildTop Weld Built Clone.
Import ListNotations.
Local Open Scope mesh_scope.

Section BuildProps.
Context {N : Num}.
Implicit Types m : mesh N.

Lemma mesh_of_ok ps ix m : mesh_of ps ix = Ok m <-> construct ps ix empty_mesh = Ok (tt, m).
Proof.
  unfold mesh_of. destruct (construct ps ix empty_mesh) as [[[] m']| | |] eqn:E; split; congruence.
Qed.

Lemma construct_valid ps ix m m' : construct ps ix m = Ok (tt, m') -> Valid m' /\ FlagsSym m'.
Proof.
  intros E. destruct (construct_built ps ix m m' E) as (us & l & out & rem & A & _ & _ & _ & _ & _ & _ & _ & B & _).
  split; [exact (so_valid _ _ (bu_surf _ _ B))|exact (built_flagsym m' A B)].
Qed.

Lemma accepted_split T1 T2 A : Accepted (T1 ++ T2) A -> exists A1 A2, Accepted T1 A1 /\ A = A1 ++ A2.
Proof.
  revert A. induction T2 as [|t T2 IH] using rev_ind; intros A H; [rewrite app_nil_r in H; exists A, []; rewrite app_nil_r; auto|].
  rewrite app_assoc in H. remember ((T1 ++ T2) ++ [t]) as L eqn:EL. destruct H as [|T A' t' H _|T A' t' e H _ _].
  - destruct (T1 ++ T2); discriminate.
  - apply app_inj_tail in EL as [-> _]. destruct (IH A' H) as (A1 & A2 & Ha & ->). exists A1, (A2 ++ [t']). rewrite app_assoc. auto.
  - apply app_inj_tail in EL as [-> _]. exact (IH A' H).
Qed.

(** Each triangle in its turn. *)
Lemma accepted_turn T1 t T2 A : Accepted (T1 ++ t :: T2) A -> exists A1 A2, Accepted T1 A1 /\
  ((forall e, In e (tedges t) -> ~ In e (edges A1)) /\ A = A1 ++ t :: A2 \/
   (exists e, In e (tedges t) /\ In e (edges A1)) /\ A = A1 ++ A2).
Proof.
  intros H. change (t :: T2) with ([t] ++ T2) in H. rewrite app_assoc in H.
  destruct (accepted_split _ _ _ H) as (B & A2 & HB & ->). remember (T1 ++ [t]) as L eqn:EL. destruct HB as [|T A' t' HB Hn|T A' t' e HB H1 H2].
  - destruct T1; discriminate.
  - apply app_inj_tail in EL as [-> ->]. exists A', A2. split; [exact HB|]. left. split; [exact Hn|]. rewrite <- app_assoc. reflexivity.
  - apply app_inj_tail in EL as [-> ->]. exists A', A2. split; [exact HB|]. right. split; [exists e; auto|reflexivity].
Qed.

Lemma empty_indices : m_indices (N:=N) empty_mesh = [].
Proof. reflexivity. Qed.

Context {NE : NumEq N}.

Lemma faithful ps ix m : NoNaN ps ix -> mesh_of ps ix = Ok m ->
  Nat.divide 3 (length ix) /\ (forall v, In v (m_verts m) -> v_lock m v = false) /\
  exists A, TrianglesOf ps ix (positions m) A /\ Built m A.
Proof.
  intros NN E. apply mesh_of_ok in E.
  destruct (construct_built ps ix _ m E) as (us & l & out & rem & A & W & D & P & R & O & ND & Ac & B & Po & Lo).
  rewrite empty_indices in *. cbn [app] in *. assert (Wd := weld_Welded ps ix us l NN W).
  split; [rewrite <- (we_len _ _ _ _ Wd); exact D|]. split; [exact Lo|]. exists A. split; [|exact B].
  exists l, out, rem. rewrite Po. split; [exact Wd|]. split; [exact P|]. split; [intros t Ht; rewrite Forall_forall in R; exact (R t Ht)|].
  split; [exact ND|]. split; [exact O|exact Ac].
Qed.

Lemma Welded_range ps ix us l : Welded ps ix us l -> forall j, In j l -> j < length us.
Proof.
  intros Wd j H. apply In_nth_error in H as (k & Hk). assert (k < length ix) by (rewrite <- (we_len _ _ _ _ Wd); apply nth_error_Some; congruence).
  destruct (nth_error ix k) as [i|] eqn:Hi; [|apply nth_error_None in Hi; lia].
  destruct (we_same _ _ _ _ Wd k i j Hi Hk) as (p & u & _ & Hu & _). apply nth_error_Some. congruence.
Qed.
Lemma Welded_onto ps ix us l : Welded ps ix us l -> forall j, j < length us -> In j l.
Proof.
  intros Wd j H. destruct (nth_error us j) as [u|] eqn:Hu; [|apply nth_error_None in Hu; lia].
  destruct (we_first _ _ _ _ Wd j u Hu) as (k & i & _ & _ & Hk & _). exact (nth_error_In _ _ Hk).
Qed.

(** Every outcome of Mesh(vertices, indices). *)
Lemma build_outcome ps ix us l : Welded ps ix us l -> Nat.divide 3 (length ix) ->
  exists T rem, Permutation (triples l) (T ++ rem) /\ (forall t, In t rem -> degenerate t) /\
   ((forall t, In t (triples l) -> ~ degenerate t) -> T = triples l) /\
   (length (filter degb (triples l)) <= 1 -> forall t, In t T -> ~ degenerate t) /\
   ((exists t, In t T /\ degenerate t) /\ mesh_of ps ix = Abort AError \/
    (forall t, In t T -> ~ degenerate t) /\ exists A, Accepted T A /\
      ((exists a, a < length us /\ ~ used A a) /\ mesh_of ps ix = UB NullDeref \/
       (forall a, a < length us -> used A a) /\ (exists a, a < length us /\ ~ Fan A a) /\ mesh_of ps ix = Abort AError \/
       (forall a, a < length us -> used A a) /\ (forall a, a < length us -> Fan A a) /\
         exists m, mesh_of ps ix = Ok m /\ SurfaceOf m A /\ positions m = us)).
Proof.
  intros Wd D. unfold mesh_of.
  destruct (construct_outcome ps ix (empty_mesh (N:=N))) as [[W _]|(us' & l' & W & [[Nd _]|(_ & out & rem & _ & P & R & O1 & O2 & Ot)])].
  - rewrite (Welded_weld _ _ _ _ Wd) in W. discriminate.
  - rewrite (Welded_weld _ _ _ _ Wd) in W. injection W as <- <-. rewrite empty_indices in Nd. cbn [app] in Nd. rewrite (we_len _ _ _ _ Wd) in Nd. contradiction.
  - rewrite (Welded_weld _ _ _ _ Wd) in W. injection W as <- <-. rewrite empty_indices in *. cbn [app] in *.
    exists out, rem. split; [exact P|]. split; [rewrite Forall_forall in R; exact R|]. split; [exact O1|]. split; [exact O2|].
    destruct Ot as [[X E]|[[(t & It & X) E]|(X & A & Ac & _ & [[Y E]|(Y & [[Z E]|(Z & m' & E & Sf & Po & _)])])]].
    + left. split; [exact X|]. rewrite E. reflexivity.
    + exfalso. apply X. apply (triples_range (length us) l (Welded_range _ _ _ _ Wd)).
      apply (Permutation_in _ (Permutation_sym P)). apply in_or_app. left; exact It.
    + right. split; [exact X|]. exists A. split; [exact Ac|]. left. split; [exact Y|]. rewrite E. reflexivity.
    + right. split; [exact X|]. exists A. split; [exact Ac|]. right; left. split; [exact Y|]. split; [exact Z|]. rewrite E. reflexivity.
    + right. split; [exact X|]. exists A. split; [exact Ac|]. right; right. split; [exact Y|]. split; [exact Z|]. rewrite E. eauto.
Qed.

Lemma accepts_manifold ps ix us l : Welded ps ix us l -> Nat.divide 3 (length ix) ->
  (forall t, In t (triples l) -> ~ degenerate t) -> NoDup (edges (triples l)) ->
  (forall a, a < length us -> Fan (triples l) a) ->
  exists m, mesh_of ps ix = Ok m /\ SurfaceOf m (triples l) /\ positions m = us.
Proof.
  intros Wd D ND NE' F. rewrite <- (we_len _ _ _ _ Wd) in D.
  destruct (construct_manifold ps ix (empty_mesh (N:=N)) us l eq_refl (Welded_weld _ _ _ _ Wd) D ND NE') as (m & E & B & P).
  - intros a La. apply in_triples; [exact D|]. exact (Welded_onto _ _ _ _ Wd a La).
  - exact F.
  - exists m. split; [apply mesh_of_ok; exact E|]. split; [exact (bu_surf _ _ B)|exact P].
Qed.

Lemma rejects_nonmanifold ps ix us l : Welded ps ix us l -> Nat.divide 3 (length ix) ->
  (forall t, In t (triples l) -> ~ degenerate t) -> NoDup (edges (triples l)) ->
  (exists a, a < length us /\ ~ Fan (triples l) a) -> mesh_of ps ix = Abort AError.
Proof.
  intros Wd D ND NE' (a & La & NF).
  destruct (build_outcome ps ix us l Wd D) as (T & rem & _ & _ & O & _ & Ot). rewrite (O ND) in Ot.
  destruct Ot as [[(t & It & X) _]|(_ & A & Ac & Ot)]; [destruct (ND t It X)|].
  rewrite (Accepted_det _ _ _ Ac (Accepted_all _ ND NE')) in Ot. destruct Ot as [[(b & Lb & X) _]|[(_ & _ & E)|(_ & F & _)]].
  - exfalso. apply X. apply in_triples; [rewrite (we_len _ _ _ _ Wd); exact D|]. exact (Welded_onto _ _ _ _ Wd b Lb).
  - exact E.
  - destruct (NF (F a La)).
Qed.

(** The raw soup, when no two positions are equal. *)
Lemma accepts_raw ps ix : PosDistinct ps -> NoNaN ps ix -> (forall i, In i ix -> i < length ps) -> Nat.divide 3 (length ix) ->
  (forall t, In t (triples ix) -> ~ degenerate t) -> NoDup (edges (triples ix)) ->
  (forall a, used (triples ix) a -> Fan (triples ix) a) ->
  exists m A, mesh_of ps ix = Ok m /\ SurfaceOf m A /\ Forall2 (fun t t' => corners m t' = corners_of ps t) (triples ix) A.
Proof.
  intros Inj NN R D ND NE' F. destruct (Welded_exists ps ix NN R) as (us & l & Wd).
  destruct (weld_rename ps ix us l Wd Inj) as (g & El & Gu & Ginj & Gon). set (T := triples ix) in *.
  assert (Tl : triples l = map (tmap g) T) by (rewrite El; apply triples_map).
  assert (Tin : forall x y z, In (x, y, z) T -> In x ix /\ In y ix /\ In z ix).
  { intros x y z It. split; [|split]; apply (triples_in ix (x, y, z)); auto. }
  assert (Ix : forall a b, In (a, b) (edges T) -> In a ix /\ In b ix).
  { intros a b H. unfold edges in H. apply in_flat_map in H as (t & It & E). split; apply (triples_in ix t); try exact It; destruct t as [[x y] z]; cbn [tedges In] in E;
      destruct E as [[= <- <-]|[[= <- <-]|[[= <- <-]|[]]]]; auto. }
  destruct (accepts_manifold ps ix us l Wd D) as (m & E & Sf & Po).
  - rewrite Tl. intros t Ht. apply in_map_iff in Ht as ([[x y] z] & <- & It). assert (Dx := ND _ It). destruct (Tin x y z It) as (X & Y & Z).
    cbn [tmap degenerate] in *. intros [H|[H|H]]; apply Dx; [left|right; left|right; right]; apply Ginj; assumption.
  - rewrite Tl, edges_map. apply nodup_map_inj; [|exact NE'].
    intros [a b] [c d] H1 H2 Q. unfold emap in Q. cbn [fst snd] in Q. injection Q as E1 E2. destruct (Ix a b H1), (Ix c d H2). f_equal; apply Ginj; assumption.
  - intros j Lj. destruct (Gon j Lj) as (i & Hi & ->). rewrite Tl. apply fan_map.
    + intros b c Hb Q. apply Ginj; [apply (Ix b c Hb)|exact Hi|exact Q].
    + apply F. apply in_triples; [exact D|exact Hi].
  - exists m, (triples l). split; [exact E|]. split; [exact Sf|]. rewrite Tl.
    assert (Tc : forall t, In t T -> corners m (tmap g t) = corners_of ps t).
    { intros [[x y] z] It. destruct (Tin x y z It) as (X & Y & Z). cbn [tmap corners corners_of]. rewrite Po.
      rewrite (proj1 (Gu x X)), (proj1 (Gu y Y)), (proj1 (Gu z Z)). reflexivity. }
    clear - Tc. induction T as [|t T IH]; [constructor|]. cbn [map]. constructor; [apply Tc; left; reflexivity|].
    apply IH. intros u Hu. apply Tc. right; exact Hu.
Qed.

(** ** Degenerate triangles *)
Lemma one_degenerate ps ix us l : Welded ps ix us l -> Nat.divide 3 (length ix) ->
  length (filter degb (triples l)) <= 1 ->
  exists T rem A, Permutation (triples l) (T ++ rem) /\ (forall t, In t rem -> degenerate t) /\ (forall t, In t T -> ~ degenerate t) /\
    Accepted T A /\
    ((forall a, a < length us -> used A a) -> (forall a, a < length us -> Fan A a) ->
       exists m, mesh_of ps ix = Ok m /\ SurfaceOf m A /\ positions m = us).
Proof.
  intros Wd D L1. destruct (build_outcome ps ix us l Wd D) as (T & rem & P & R & _ & O & Ot). specialize (O L1).
  destruct Ot as [[(t & It & X) _]|(_ & A & Ac & Ot)]; [destruct (O t It X)|].
  exists T, rem, A. split; [exact P|]. split; [exact R|]. split; [exact O|]. split; [exact Ac|]. intros U F.
  destruct Ot as [[(a & La & X) _]|[(_ & (a & La & X) & _)|(_ & _ & X)]]; [destruct (X (U a La))|destruct (X (F a La))|exact X].
Qed.

(** ** construct on an object that already holds a mesh *)
Lemma flat_inj T T' : flat T = flat T' -> T = T'.
Proof. intros E. rewrite <- (triples_flat T), E. apply triples_flat. Qed.

Lemma replace_when_empty ps ix m : Nat.divide 3 (length ix) -> m_indices m = [] ->
  (exists m1 m2 A, mesh_of ps ix = Ok m1 /\ construct ps ix m = Ok (tt, m2) /\ SurfaceOf m1 A /\ SurfaceOf m2 A /\ positions m1 = positions m2) \/
  (mesh_of ps ix = Abort AError /\ construct ps ix m = Abort AError) \/
  (mesh_of ps ix = UB NullDeref /\ construct ps ix m = UB NullDeref) \/
  (mesh_of ps ix = UB OutOfBounds /\ construct ps ix m = UB OutOfBounds).
Proof.
  intros D M0. unfold mesh_of.
  destruct (construct_outcome ps ix (empty_mesh (N:=N))) as [[W E]|(us & l & W & Ot)];
  (destruct (construct_outcome ps ix m) as [[W' E']|(us1 & l1 & W' & Ot')]; try congruence).
  { right; right; right. rewrite E. auto. }
  destruct (weld_range ps ix [] [] us l (fun q k (X : In (q, k) []) => match X with end) W) as (Ll & _ & Wr). rewrite <- Ll in D.
  cbv zeta in Ot. rewrite empty_indices in Ot. cbn [app] in Ot.
  destruct Ot as [[Nd E]|(_ & out & rem & Ed & P & R & _ & _ & Ot)]; [contradiction|].
  rewrite W in W'. injection W' as <- <-. cbv zeta in Ot'. rewrite M0 in Ot'. cbn [app] in Ot'.
  destruct Ot' as [[Nd' _]|(_ & out' & rem' & Ed' & P' & R' & _ & _ & Ot')]; [contradiction|].
  assert (out' = out) by (apply flat_inj; congruence). subst out'.
  assert (Rg : forall t, In t out -> in_range (length us) t).
  { intros t It. apply (triples_range (length us) l Wr). apply (Permutation_in _ (Permutation_sym P)). apply in_or_app. left; exact It. }
  destruct Ot as [[(t & It & X) E]|[[(t & It & X) E]|(X & A & Ac & _ & Ot)]]; [|destruct (X (Rg t It))|].
  - right; left. rewrite E. split; [reflexivity|].
    destruct Ot' as [[_ E']|[[(t' & It' & X') _]|(X' & _)]]; [exact E'|destruct (X' (Rg t' It'))|destruct (X' t It X)].
  - destruct Ot' as [[(t' & It' & X') _]|[[(t' & It' & X') _]|(_ & A' & Ac' & _ & Ot')]]; [destruct (X t' It' X')|destruct (X' (Rg t' It'))|].
    rewrite (Accepted_det _ _ _ Ac' Ac) in Ot'. clear A' Ac'.
    destruct Ot as [[(a & La & Y) E]|(Y & [[(a & La & Z) E]|(Z & m1 & E & Sf & Po & _)])];
    destruct Ot' as [[(a' & La' & Y') E']|(Y' & [[(a' & La' & Z') E']|(Z' & m2 & E' & Sf' & Po' & _)])]; rewrite E.
    + right; right; left. auto.
    + destruct (Y (Y' a La)).
    + destruct (Y (Y' a La)).
    + destruct (Y' (Y a' La')).
    + right; left. auto.
    + destruct (Z (Z' a La)).
    + destruct (Y' (Y a' La')).
    + destruct (Z' (Z a' La')).
    + left. exists m1, m2, A. rewrite Po, Po'. auto.
Qed.

(** ** Boundary loops *)
Lemma hole_faces m A : Built m A ->
  exists holes, m_faces m = firstn (length A) (m_faces m) ++ holes /\
    Forall2 (face_is m) (firstn (length A) (m_faces m)) A /\
    (* every open edge occurs once, reversed, on a hole face *)
    (forall a b, open_edge A a b -> exists h f, he_is m h b a /\ In f holes /\ h_face m h = Some f /\ forall h', he_is m h' b a -> h' = h) /\
    (* a hole face consists of reversed open edges, has distinct corners and at least three of them *)
    (forall f, In f holes -> exists l, f_halfedges (Some f) m = Ok (map Some l, m) /\ NoDup l /\ 3 <= length l /\ NoDup (map (h_src m) l) /\
       (forall h, In h l <-> In h (m_hes m) /\ h_face m h = Some f) /\ (forall h, In h l -> exists a b, open_edge A a b /\ he_is m h b a)) /\
    (* closed surfaces *)
    ((forall a b, ~ open_edge A a b) -> holes = [] /\ length (m_faces m) = length A /\ length (m_hes m) = 3 * length A).
Proof.
  intros B. assert (V := so_valid _ _ (bu_surf _ _ B)). assert (W := valid_wf _ V).
  destruct (holes_split m A B) as (holes & Ef & Ft & H1 & H2). exists holes. split; [exact Ef|]. split; [exact Ft|].
  assert (HF : forall f, In f holes -> In f (m_faces m)) by (intros f Hf; rewrite Ef; apply in_or_app; right; exact Hf).
  split; [|split].
  - intros a b O. destruct (proj1 (so_edges _ _ (bu_surf _ _ B) b a)) as (h & Hh); [right; exact (proj1 O)|].
    destruct (H2 h a b O Hh) as (f & Hf & Fh). exists h, f. split; [exact Hh|]. split; [exact Hf|]. split; [exact Fh|].
    intros h' Hh'. exact (he_unique m A B h' h b a Hh' Hh).
  - intros f Hf. destruct (circulate_face m f W (HF f Hf)) as (l & Nd & Il & Nn & Fh & _).
    assert (X : forall h, In h (m_hes m) -> h_face m h = Some f -> exists a b, open_edge A a b /\ he_is m h b a) by (intros h Hh Fh'; apply (H1 f h Hf Hh Fh')).
    destruct (hole_face m A B f l X Nd Nn Il) as [Y Z].
    exists l. split; [exact Fh|]. split; [exact Nd|]. split; [exact Z|]. split; [exact Y|]. split; [exact Il|].
    intros h Hh. apply Il in Hh as [Hh1 Hh2]. exact (X h Hh1 Hh2).
  - intros Cl. assert (Hn : holes = []).
    { destruct holes as [|f holes]; [reflexivity|]. exfalso. destruct (wf_fhe m W f (HF f (or_introl eq_refl))) as (h & _ & Hh & Fh).
      destruct (H1 f h (or_introl eq_refl) Hh Fh) as (_ & a & b & O & _). exact (Cl a b O). }
    split; [exact Hn|]. split.
    + rewrite Hn, app_nil_r in Ef. rewrite <- Ef in Ft. clear - Ft. induction Ft; cbn [length]; congruence.
    + rewrite (halfedge_count m A B). assert (Ho : opens A = []).
      { destruct (opens A) as [|[a b] o] eqn:Eo; [reflexivity|]. exfalso. apply (Cl a b). apply (opens_in A). rewrite Eo. left; reflexivity. }
      rewrite Ho. cbn [length]. lia.
Qed.

(** ** The statements for meshes made from arrays *)
Lemma construct_faithful ps ix m : NoNaN ps ix -> mesh_of ps ix = Ok m ->
  exists A, TrianglesOf ps ix (positions m) A /\ SurfaceOf m A.
Proof. intros NN E. destruct (faithful ps ix m NN E) as (_ & _ & A & T & B). exists A. split; [exact T|exact (bu_surf _ _ B)]. Qed.

Lemma construct_holes ps ix m : NoNaN ps ix -> mesh_of ps ix = Ok m ->
  exists A, TrianglesOf ps ix (positions m) A /\
  exists holes, m_faces m = firstn (length A) (m_faces m) ++ holes /\
    Forall2 (face_is m) (firstn (length A) (m_faces m)) A /\
    (forall a b, open_edge A a b -> exists h f, he_is m h b a /\ In f holes /\ h_face m h = Some f /\ forall h', he_is m h' b a -> h' = h) /\
    (forall f, In f holes -> exists l, f_halfedges (Some f) m = Ok (map Some l, m) /\ NoDup l /\ 3 <= length l /\ NoDup (map (h_src m) l) /\
       (forall h, In h l <-> In h (m_hes m) /\ h_face m h = Some f) /\ (forall h, In h l -> exists a b, open_edge A a b /\ he_is m h b a)) /\
    ((forall a b, ~ open_edge A a b) -> holes = [] /\ length (m_faces m) = length A /\ length (m_hes m) = 3 * length A).
Proof. intros NN E. destruct (faithful ps ix m NN E) as (_ & _ & A & T & B). exists A. split; [exact T|exact (hole_faces m A B)]. Qed.

Lemma construct_boundary ps ix m : NoNaN ps ix -> mesh_of ps ix = Ok m ->
  exists A, TrianglesOf ps ix (positions m) A /\
    (forall h, In h (m_hes m) -> exists a b, he_is m h a b) /\
    (forall h a b, he_is m h a b -> (h_bd m h = true <-> open_edge A a b \/ open_edge A b a)) /\
    (forall a v, nth_error (m_verts m) a = Some v -> exists b, v_isBoundary (Some v) m = Ok (b, m) /\
       (b = true <-> exists c, open_edge A a c \/ open_edge A c a)).
Proof.
  intros NN E. destruct (faithful ps ix m NN E) as (_ & _ & A & T & B). exists A. split; [exact T|]. split; [exact (he_key_ex m A B)|].
  split; [exact (so_flags _ _ (bu_surf _ _ B))|exact (built_v_boundary m A B)].
Qed.

Lemma positions_distinct ps ix us A : TrianglesOf ps ix us A ->
  forall i j p q, nth_error us i = Some p -> nth_error us j = Some q -> veqb p q = true -> i = j.
Proof. intros (l & T & rem & W & _). exact (we_diff _ _ _ _ W). Qed.
Lemma positions_ok ps ix m A : NoNaN ps ix -> TrianglesOf ps ix (positions m) A -> PosOk m.
Proof.
  intros NN (l & T & rem & W & _) v Hv. apply In_nth_error in Hv as (i & Hi).
  assert (Hp : nth_error (positions m) i = Some (v_pos m v)) by (apply map_nth_error; exact Hi).
  destruct (we_first _ _ _ _ W i _ Hp) as (k & i' & Hk & Hp' & _). exact (NN i' _ (nth_error_In _ _ Hk) Hp').
Qed.

Lemma construct_clone ps ix m : NoNaN ps ix -> mesh_of ps ix = Ok m ->
  exists A, TrianglesOf ps ix (positions m) A /\ SurfaceOf m A /\
  ((forall t, In t A -> ~ isolated A t) ->
   exists m' A', clone m = Ok m' /\ Valid m' /\ SurfaceOf m' A' /\
    Forall2 (fun t t' => exists t1, cyc_eq t t1 /\ corners m' t' = corners m t1) A A' /\
    Permutation (positions m') (positions m)).
Proof.
  intros NN E. destruct (faithful ps ix m NN E) as (_ & _ & A & T & B). exists A. split; [exact T|]. split; [exact (bu_surf _ _ B)|]. intros NI.
  destruct (clone_ok m A B (positions_distinct _ _ _ _ T) (positions_ok _ _ _ _ NN T) NI) as (m' & A' & Ec & B' & F & P).
  exists m', A'. split; [exact Ec|]. split; [exact (so_valid _ _ (bu_surf _ _ B'))|]. split; [exact (bu_surf _ _ B')|]. auto.
Qed.

Lemma construct_indices ps ix m : NoNaN ps ix -> mesh_of ps ix = Ok m ->
  exists A, TrianglesOf ps ix (positions m) A /\ SurfaceOf m A /\
  ((forall t, In t A -> ~ isolated A t) ->
   exists l, getVertexIndices m = Ok (map Z.of_nat l, m) /\ length l = 3 * length A /\ Forall2 cyc_eq A (triples l)).
Proof.
  intros NN E. destruct (faithful ps ix m NN E) as (_ & _ & A & T & B). exists A. split; [exact T|]. split; [exact (bu_surf _ _ B)|]. intros NI.
  destruct (built_indices m A B) as (l & Ei & Di & Fi). exists l. split; [exact Ei|].
  assert (Ff : filter (fun t => negb (isolatedb A t)) A = A).
  { clear - NI. assert (H : forall t, In t A -> isolatedb A t = false). { intros t It. destruct (isolatedb A t) eqn:X; [|reflexivity]. apply isolatedb_spec in X. destruct (NI t It X). }
    clear NI. revert H. generalize (isolatedb A). intros P H. induction A as [|t l IH]; [reflexivity|]. cbn [filter]. rewrite (H t (or_introl eq_refl)). cbn [negb]. f_equal. apply IH. intros u Hu. apply H. right; exact Hu. }
  rewrite Ff in Fi. split; [|exact Fi]. rewrite <- (flat_triples l Di), flat_length.
  f_equal. clear - Fi. induction Fi; cbn [length]; congruence.
Qed.

(** Welding is total on arrays with indices in range. *)
Lemma welded_exists ps ix : NoNaN ps ix -> (forall i, In i ix -> i < length ps) -> exists us l, Welded ps ix us l.
Proof.
  intros NN R. destruct (weld ps ix [] []) as [[us l]|] eqn:E; [exists us, l; exact (weld_Welded ps ix us l NN E)|].
  apply weld_none in E as (i & Hi & L). specialize (R i Hi). lia.
Qed.

Lemma construct_welds ps ix m : NoNaN ps ix -> mesh_of ps ix = Ok m ->
  (exists l, Welded ps ix (positions m) l) /\ (forall v, In v (m_verts m) -> exists h, In h (m_hes m) /\ h_src m h = Some v).
Proof.
  intros NN E. destruct (faithful ps ix m NN E) as (_ & _ & A & (l & T & rem & W & _) & B). split; [exists l; exact W|].
  intros v Hv. destruct (wf_vhe m (valid_wf m (so_valid _ _ (bu_surf _ _ B))) v Hv) as (h & _ & Ih & Sh). exists h. auto.
Qed.

(** All outcomes, also with NaN positions. *)
Lemma outcome_kinds ps ix : (forall i, In i ix -> i < length ps) -> Nat.divide 3 (length ix) ->
  (exists m, mesh_of ps ix = Ok m) \/ mesh_of ps ix = Abort AError \/
  mesh_of ps ix = UB NullDeref.
Proof.
  intros R D. destruct (construct_outcome ps ix empty_mesh) as [[W _]|(us & l & W & O)].
  { apply weld_none in W as (i & Hi & L). specialize (R i Hi). lia. }
  destruct (weld_range ps ix [] [] us l ltac:(intros ? ? []) W) as (Ll & _ & Rl).
  cbv zeta in O. rewrite empty_indices in O. cbn [app] in O.
  assert (Dl : Nat.divide 3 (length l)) by (rewrite Ll; exact D).
  destruct O as [[X _]|(_ & out & rem & _ & P & _ & _ & _ & O)]; [destruct (X Dl)|].
  unfold mesh_of. destruct O as [[_ E]|[[(t & It & X) _]|(_ & A & Ac & _ & [[(a & La & X) E]|(_ & [[_ E]|(_ & m' & E & _)])])]].
  - right; left. rewrite E. reflexivity.
  - exfalso. apply X. assert (It' : In t (triples l)) by (apply (Permutation_in _ (Permutation_sym P)), in_app_iff; left; exact It).
    destruct t as [[a b] c]. repeat split; apply Rl; apply (triples_in l _ _ It'); cbn; auto.
  - right; right. rewrite E. reflexivity.
  - right; left. rewrite E. reflexivity.
  - left. exists m'. rewrite E. reflexivity.
Qed.

(** No degenerate triangle and no repeated directed edge: no undefined behaviour. *)
Lemma outcome_safe ps ix us l : Welded ps ix us l -> Nat.divide 3 (length ix) ->
  (forall t, In t (triples l) -> ~ degenerate t) -> NoDup (edges (triples l)) ->
  (exists m, mesh_of ps ix = Ok m /\ SurfaceOf m (triples l) /\ positions m = us) \/ mesh_of ps ix = Abort AError.
Proof.
  intros Wd D ND NE'. destruct (build_outcome ps ix us l Wd D) as (T & rem & _ & _ & O & _ & Ot). rewrite (O ND) in Ot.
  destruct Ot as [[_ E]|(_ & A & Ac & Ot)]; [auto|]. rewrite (Accepted_det _ _ _ Ac (Accepted_all _ ND NE')) in *.
  destruct Ot as [[(a & La & X) _]|[(_ & _ & E)|(_ & _ & m & E)]]; [|auto|left; exists m; exact E].
  exfalso. apply X. apply in_triples; [rewrite (we_len _ _ _ _ Wd); exact D|]. exact (Welded_onto _ _ _ _ Wd a La).
Qed.

Lemma construct_skips ps ix m : NoNaN ps ix -> mesh_of ps ix = Ok m ->
  exists l T rem A, Welded ps ix (positions m) l /\ Permutation (triples l) (T ++ rem) /\ (forall t, In t rem -> degenerate t) /\
    ((forall t, In t (triples l) -> ~ degenerate t) -> T = triples l) /\ SurfaceOf m A /\
    forall T1 t T2, T = T1 ++ t :: T2 -> exists A1 A2,
      (forall x, In x A1 -> In x T1) /\ 
      ((forall e, In e (tedges t) -> ~ In e (edges A1)) /\ A = A1 ++ t :: A2 \/
       (exists e, In e (tedges t) /\ In e (edges A1)) /\ A = A1 ++ A2) /\ Accepted T1 A1.
Proof.
  intros NN E. destruct (faithful ps ix m NN E) as (_ & _ & A & (l & T & rem & W & P & R & _ & O & Ac) & B).
  exists l, T, rem, A. split; [exact W|]. split; [exact P|]. split; [exact R|]. split; [exact O|]. split; [exact (bu_surf _ _ B)|].
  intros T1 t T2 ->. destruct (accepted_turn T1 t T2 A Ac) as (A1 & A2 & Ac1 & H). exists A1, A2. split; [|auto].
  clear - Ac1. induction Ac1 as [|T A t Ac IH H|T A t e Ac IH H1 H2]; intros x Hx; [exact Hx| |].
  - apply in_app_iff in Hx as [Hx|Hx]; apply in_app_iff; auto.
  - apply in_app_iff; auto.
Qed.

End BuildProps.
