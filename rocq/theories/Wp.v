(** Weakest preconditions: rules for programs that run on a valid mesh. *)
From Coq Require Import List ZArith Arith Bool Lia.
From Verif Require Import Num Vec Heap Mesh Spec SmoothSpec Orbit Rings Exec SmoothP.
Import ListNotations.

Section Wp.
Context {N : Num}.
Implicit Types m : mesh N.
(** The controlled failures that may happen. *)
Variable ab : abkind -> Prop.

(** [x] started in [m] ends normally in a state satisfying [Q] or fails in a controlled way;
    it has no undefined behaviour and does not run out of fuel. *)
Definition wp {A} (x : M N A) m (Q : A -> mesh N -> Prop) : Prop :=
  match x m with Ok (a, m') => Q a m' | Abort k => ab k | UB _ | NoFuel => False end.

Lemma wp_ret {A} (a : A) m (Q : A -> mesh N -> Prop) : Q a m -> wp (ret a) m Q.
Proof. auto. Qed.
Lemma wp_bind {A B} (x : M N A) (k : A -> M N B) m Q : wp x m (fun a m' => wp (k a) m' Q) -> wp (bind x k) m Q.
Proof. unfold wp, bind. destruct (x m) as [[a m']| | |]; auto. Qed.
Lemma wp_conseq {A} (x : M N A) m (P Q : A -> mesh N -> Prop) : wp x m P -> (forall a m', P a m' -> Q a m') -> wp x m Q.
Proof. unfold wp. destruct (x m) as [[a m']| | |]; auto. Qed.
Lemma wp_ok {A} (x : M N A) m a m' (Q : A -> mesh N -> Prop) : x m = Ok (a, m') -> Q a m' -> wp x m Q.
Proof. intros E H. unfold wp. rewrite E. exact H. Qed.
Lemma wp_get {A} (f : mesh N -> A) m (Q : A -> mesh N -> Prop) : Q (f m) m -> wp (get f) m Q.
Proof. auto. Qed.
Lemma wp_lift {A} (o : option A) m (Q : A -> mesh N -> Prop) : ab AThrow -> (forall a, o = Some a -> Q a m) -> wp (lift o) m Q.
Proof. intros H1 H2. destruct o as [a|]; [exact (H2 a eq_refl)|exact H1]. Qed.
Lemma wp_assertion b m (Q : unit -> mesh N -> Prop) : b = true -> Q tt m -> wp (assertion b) m Q.
Proof. intros -> H. exact H. Qed.

Section Reads.
Variable m : mesh N.
Hypothesis W : WF m.

Lemma wp_src h (Q : ptr -> mesh N -> Prop) : In h (m_hes m) -> (forall v, h_src m h = Some v -> In v (m_verts m) -> Q (Some v) m) -> wp (he_src (Some h)) m Q.
Proof. intros I H. eapply wp_ok; [exact (r_src m h (h_alive m W h I))|]. destruct (wf_src m W h I) as (v & E & Iv). rewrite E. apply (H v E Iv). Qed.
Lemma wp_next h (Q : ptr -> mesh N -> Prop) : In h (m_hes m) -> (forall n, h_next m h = Some n -> In n (m_hes m) -> Q (Some n) m) -> wp (he_next (Some h)) m Q.
Proof. intros I H. eapply wp_ok; [exact (r_next m h (h_alive m W h I))|]. destruct (wf_next m W h I) as (v & E & Iv). rewrite E. apply (H v E Iv). Qed.
Lemma wp_rev h (Q : ptr -> mesh N -> Prop) : In h (m_hes m) -> (forall n, h_rev m h = Some n -> In n (m_hes m) -> Q (Some n) m) -> wp (he_rev (Some h)) m Q.
Proof. intros I H. eapply wp_ok; [exact (r_rev m h (h_alive m W h I))|]. destruct (wf_rev m W h I) as (v & E & Iv). rewrite E. apply (H v E Iv). Qed.
Lemma wp_face h (Q : ptr -> mesh N -> Prop) : In h (m_hes m) -> (forall n, h_face m h = Some n -> In n (m_faces m) -> Q (Some n) m) -> wp (he_face (Some h)) m Q.
Proof. intros I H. eapply wp_ok; [exact (r_face m h (h_alive m W h I))|]. destruct (wf_face m W h I) as (v & E & Iv). rewrite E. apply (H v E Iv). Qed.
Lemma wp_dst h (Q : ptr -> mesh N -> Prop) : In h (m_hes m) -> (forall v, dst_of m h = Some v -> In v (m_verts m) -> Q (Some v) m) -> wp (he_dst (Some h)) m Q.
Proof.
  intros I H. destruct (wf_rev m W h I) as (r & R & Ir). destruct (wf_src m W r Ir) as (v & E & Iv).
  eapply wp_ok; [exact (dst_ok m W h r I R)|]. rewrite E. apply H; [unfold dst_of; rewrite R; exact E|exact Iv].
Qed.
Lemma wp_pos v (Q : vec N -> mesh N -> Prop) : In v (m_verts m) -> Q (v_pos m v) m -> wp (ve_pos (Some v)) m Q.
Proof. intros I H. eapply wp_ok; [exact (r_pos m v (v_alive m W v I))|exact H]. Qed.
Lemma wp_lock v (Q : bool -> mesh N -> Prop) : In v (m_verts m) -> Q (v_lock m v) m -> wp (ve_lock (Some v)) m Q.
Proof. intros I H. eapply wp_ok; [exact (r_lock m v (v_alive m W v I))|exact H]. Qed.
Lemma wp_vidx v (Q : Z -> mesh N -> Prop) : In v (m_verts m) -> (forall i, nth_error (m_verts m) i = Some v -> Q (Z.of_nat i) m) -> wp (ve_idx (Some v)) m Q.
Proof.
  intros I H. apply In_nth_error in I as [i E]. destruct (wf_v_elem m W i v E) as (L & X & _).
  eapply wp_ok; [exact (r_vidx m v L)|]. rewrite X. apply (H i E).
Qed.
Lemma wp_degree v (Q : Z -> mesh N -> Prop) : In v (m_verts m) -> Q (Z.of_nat (deg_of m v)) m -> wp (degree (Some v)) m Q.
Proof. intros I H. eapply wp_ok; [exact (deg_ok m v W I)|exact H]. Qed.
Lemma wp_v_isBoundary v (Q : bool -> mesh N -> Prop) : In v (m_verts m) -> (forall b : bool, (b = true <-> on_boundary m v) -> Q b m) -> wp (v_isBoundary (Some v)) m Q.
Proof.
  intros I H. destruct (vring m W v I) as (h & l & Eh & R). eapply wp_ok; [exact (v_isBoundary_ok m W v h l I Eh R)|]. apply H.
  rewrite existsb_exists. destruct R as (_ & _ & R). split.
  - intros (x & Ix & B). apply R in Ix as [Ix Sx]. exists x. auto.
  - intros (x & Ix & Sx & B). exists x. split; [apply R; auto|exact B].
Qed.
Lemma wp_f_isBoundary f (Q : bool -> mesh N -> Prop) : In f (m_faces m) -> (forall b : bool, (b = true <-> exists h, In h (m_hes m) /\ h_face m h = Some f /\ h_bd m h = true) -> Q b m) -> wp (f_isBoundary (Some f)) m Q.
Proof.
  intros I H. destruct (fring m W f I) as (h & l & Eh & R). eapply wp_ok; [exact (f_isBoundary_ok m W f h l I Eh R)|]. apply H.
  rewrite existsb_exists. destruct R as (_ & _ & R). split.
  - intros (x & Ix & B). apply R in Ix as [Ix Sx]. exists x. auto.
  - intros (x & Ix & Sx & B). exists x. split; [apply R; auto|exact B].
Qed.
Lemma wp_f_isLocked f (Q : bool -> mesh N -> Prop) : In f (m_faces m) -> (forall b : bool, Q b m) -> wp (f_isLocked (Some f)) m Q.
Proof.
  intros I H. destruct (fring m W f I) as (h & l & Eh & R). eapply wp_ok; [exact (f_isLocked_ok m W f h l I Eh R)|]. apply H.
Qed.
(** The corners of a face, in a row. *)
Lemma wp_f_vertices f (Q : list ptr -> mesh N -> Prop) : In f (m_faces m) ->
  (forall vs, (forall v, In v vs -> In v (m_verts m)) -> (forall h, In h (m_hes m) -> h_face m h = Some f -> piter (h_next m) 3 h = Some h -> NoLoops m -> length vs = 3) -> Q (map Some vs) m) ->
  wp (f_vertices (Some f)) m Q.
Proof.
  intros I H. destruct (fring m W f I) as (h & l & Eh & R). assert (K := R). destruct K as (C & ND & Rm).
  eapply wp_ok; [exact (f_vertices_ok m W f h l I Eh R)|].
  assert (E : forall l', (forall y, In y l' -> In y (m_hes m)) -> exists vs, map (h_src m) l' = map Some vs /\ length vs = length l' /\ forall v, In v vs -> In v (m_verts m)).
  { clear - W. induction l' as [|y l' IH]; intros Hi; [exists []; split; [reflexivity|split; [reflexivity|intros v []]]|].
    destruct IH as (vs & E & L & Iv); [intros z Hz; apply Hi; right; exact Hz|]. destruct (wf_src m W y (Hi y (or_introl eq_refl))) as (s & Es & Is).
    exists (s :: vs). cbn [map length]. rewrite Es, E, L. split; [reflexivity|split; [reflexivity|]]. intros v [<- | Hv]; auto. }
  destruct (E (h :: l)) as (vs & Ev & L & Iv); [intros y Hy; apply Rm, Hy|]. rewrite Ev. apply H; [exact Iv|].
  intros x Ix Fx T NL. rewrite L. assert (Hx : In x (h :: l)) by (apply Rm; auto).
  destruct (cyc_rot_in _ _ _ C Hx) as (l' & C' & P). rewrite (Permutation.Permutation_length P).
  assert (ND' : NoDup (x :: l')) by (apply (Permutation.Permutation_NoDup P), ND).
  cbn [piter] in T. destruct l' as [|a [|b [|c l']]]; cbn [cyc chainto] in C'.
  - exfalso. destruct (wf_rev m W x Ix) as (r & Er & Ir). assert (D := wf_dst m W x x r Ix C' Er). apply (NL x Ix). unfold dst_of. rewrite Er. symmetry. exact D.
  - destruct C' as [A B]. rewrite A, B, A in T. injection T as T. exfalso. inversion ND'; subst. apply H2. left; reflexivity.
  - reflexivity.
  - destruct C' as (A & B & D & _). rewrite A, B, D in T. injection T as T. exfalso. inversion ND'; subst. apply H2. right; right; left; reflexivity.
Qed.
(** The faces around a vertex. *)
Lemma wp_v_faces v (Q : list ptr -> mesh N -> Prop) : In v (m_verts m) -> (forall fs, (forall f, In f fs -> exists h, In h (m_hes m) /\ h_src m h = Some v /\ h_face m h = Some f /\ In f (m_faces m)) -> Q (map Some fs) m) -> wp (v_faces (Some v)) m Q.
Proof.
  intros I H. destruct (vring m W v I) as (h & l & Eh & R). eapply wp_ok; [exact (v_faces_ok m W v h l I Eh R)|]. destruct R as (_ & _ & R).
  assert (E : forall l', (forall y, In y l' -> In y (m_hes m) /\ h_src m y = Some v) -> exists fs, map (h_face m) l' = map Some fs /\ forall f, In f fs -> exists h, In h (m_hes m) /\ h_src m h = Some v /\ h_face m h = Some f /\ In f (m_faces m)).
  { clear - W. induction l' as [|y l' IH]; intros Hi; [exists []; split; [reflexivity|intros v0 []]|].
    destruct IH as (vs & E & Iv); [intros z Hz; apply Hi; right; exact Hz|]. destruct (Hi y (or_introl eq_refl)) as [Iy Sy]. destruct (wf_face m W y Iy) as (s & Es & Is).
    exists (s :: vs). cbn [map]. rewrite Es, E. split; [reflexivity|]. intros f [<- | Hv]; eauto 6. }
  destruct (E (h :: l)) as (fs & Ef & If); [intros y Hy; apply R, Hy|]. rewrite Ef. apply H, If.
Qed.
(** The neighbours of a vertex. *)
Lemma wp_v_neighbors v (Q : list ptr -> mesh N -> Prop) : In v (m_verts m) -> (forall vs, (forall w, In w vs -> In w (m_verts m)) -> Q (map Some vs) m) -> wp (v_neighbors (Some v)) m Q.
Proof.
  intros I H. destruct (vring m W v I) as (h & l & Eh & R). eapply wp_ok; [exact (v_neighbors_ok m W v h l I Eh R)|]. destruct R as (_ & _ & R).
  assert (E : forall l', (forall y, In y l' -> In y (m_hes m)) -> exists vs, map (dst_of m) l' = map Some vs /\ forall w, In w vs -> In w (m_verts m)).
  { clear - W. induction l' as [|y l' IH]; intros Hi; [exists []; split; [reflexivity|intros v0 []]|].
    destruct IH as (vs & E & Iv); [intros z Hz; apply Hi; right; exact Hz|]. destruct (wf_rev m W y (Hi y (or_introl eq_refl))) as (r & Er & Ir). destruct (wf_src m W r Ir) as (s & Es & Is).
    exists (s :: vs). cbn [map]. unfold dst_of at 1. rewrite Er, Es, E. split; [reflexivity|]. intros f [<- | Hv]; auto. }
  destruct (E (h :: l)) as (fs & Ef & If); [intros y Hy; apply R, Hy|]. rewrite Ef. apply H, If.
Qed.
Lemma wp_positions vs (Q : list (vec N) -> mesh N -> Prop) : (forall v, In v vs -> In v (m_verts m)) -> Q (map (v_pos m) vs) m -> wp (mmap ve_pos (map Some vs)) m Q.
Proof.
  intros I H. eapply wp_ok; [|exact H]. clear H. induction vs as [|v vs IH]; [reflexivity|]. cbn [map mmap].
  rewrite (bind_ok _ _ _ _ _ (r_pos m v (v_alive m W v (I v (or_introl eq_refl))))).
  rewrite (bind_ok _ _ _ _ _ (IH (fun w Hw => I w (or_intror Hw)))). reflexivity.
Qed.
End Reads.

Lemma mesh_halfedge_eq m i : mesh_halfedge (Z.of_nat i) m = match nth_error (m_hes m) i with Some a => Ok (Some a, m) | None => Abort AAssert end.
Proof.
  unfold mesh_halfedge. rewrite bind_get. destruct (nth_error (m_hes m) i) as [a|] eqn:E.
  - assert (i < length (m_hes m)) by (apply nth_error_Some; congruence). rewrite bind_assert; [apply vec_at_ok, E|].
    apply andb_true_iff. split; [apply Z.leb_le|apply Z.ltb_lt]; lia.
  - apply nth_error_None in E. unfold bind, assertion. replace ((0 <=? Z.of_nat i) && (Z.of_nat i <? Z.of_nat (length (m_hes m))))%Z with false; [reflexivity|].
    symmetry. apply andb_false_iff. right. apply Z.ltb_ge. lia.
Qed.
Lemma wp_mesh_halfedge m i h (Q : ptr -> mesh N -> Prop) : nth_error (m_hes m) i = Some h -> Q (Some h) m -> wp (mesh_halfedge (Z.of_nat i)) m Q.
Proof. intros E H. eapply wp_ok; [rewrite mesh_halfedge_eq, E; reflexivity|exact H]. Qed.
Lemma wp_mesh_vertex m i h (Q : ptr -> mesh N -> Prop) : nth_error (m_verts m) i = Some h -> Q (Some h) m -> wp (mesh_vertex (Z.of_nat i)) m Q.
Proof. intros E H. eapply wp_ok; [rewrite mesh_vertex_eq, E; reflexivity|exact H]. Qed.
Lemma wp_mesh_face m i h (Q : ptr -> mesh N -> Prop) : nth_error (m_faces m) i = Some h -> Q (Some h) m -> wp (mesh_face (Z.of_nat i)) m Q.
Proof. intros E H. eapply wp_ok; [rewrite mesh_face_eq, E; reflexivity|exact H]. Qed.
Lemma wp_if {A} (b : bool) (x y : M N A) m Q : (b = true -> wp x m Q) -> (b = false -> wp y m Q) -> wp (if b then x else y) m Q.
Proof. destruct b; auto. Qed.

End Wp.
