(** getVertexIndices on every valid mesh: the triangles that are not holes. *)
From Coq Require Import List ZArith Arith Lia Bool Permutation.
From Verif Require Import Num Vec Heap Mesh Spec BuildSpec Orbit Rings Exec Diamond Split Queries.
Import ListNotations.
Local Open Scope mesh_scope.

Section Indices.
Context {N : Num}.
Implicit Types m : mesh N.

(** All half-edges of face [f] are flagged. *)
Definition hole m (f : nat) : bool := forallb (fun h => negb (ptr_eqb (h_face m h) (Some f)) || h_bd m h) (m_hes m).
Definition surface_faces m : list nat := filter (fun f => negb (hole m f)) (m_faces m).

Lemma hole_spec m f : hole m f = true <-> forall h, In h (m_hes m) -> h_face m h = Some f -> h_bd m h = true.
Proof.
  unfold hole. rewrite forallb_forall. split; intros H h Ih.
  - intros Fh. specialize (H h Ih). rewrite Fh in H. cbn [ptr_eqb] in H. rewrite Nat.eqb_refl in H. exact H.
  - destruct (ptr_eqb (h_face m h) (Some f)) eqn:E; [|reflexivity]. cbn [negb orb]. apply (H h Ih). destruct (h_face m h) as [g|]; [|discriminate]. cbn in E. apply Nat.eqb_eq in E. congruence.
Qed.
Lemma isHole_hole m f : WF m -> In f (m_faces m) -> f_isHole (Some f) m = Ok (hole m f, m).
Proof.
  intros W If. destruct (circulate_face m f W If) as (l & _ & Hl & _ & _ & _ & _ & _ & E & _). rewrite E. do 2 f_equal.
  assert (X : forallb (h_bd m) l = true <-> hole m f = true).
  { rewrite hole_spec, forallb_forall. split; intros H h.
    - intros Ih Fh. apply H, Hl. auto.
    - intros Ih. apply Hl in Ih as [Ih Fh]. auto. }
  destruct (forallb (h_bd m) l), (hole m f); try reflexivity; destruct X as [X Y]; [symmetry; apply X; reflexivity|apply Y; reflexivity].
Qed.

(** A face that is not a hole is a triangle of three different vertices. *)
Lemma surface_tri m f : Valid m -> In f (m_faces m) -> hole m f = false ->
  exists x y z a b c, f_he m f = Some x /\ (forall h, In h (m_hes m) /\ h_face m h = Some f <-> h = x \/ h = y \/ h = z) /\
    h_next m x = Some y /\ h_next m y = Some z /\ h_next m z = Some x /\
    h_src m x = Some a /\ h_src m y = Some b /\ h_src m z = Some c /\ a <> b /\ b <> c /\ c <> a /\ In a (m_verts m) /\ In b (m_verts m) /\ In c (m_verts m).
Proof.
  intros V If Nh. assert (W := valid_wf m V). assert (NL := valid_noloops m V). destruct (wf_fhe m W f If) as (x & Ex & Ix & Fx). 
  assert (B : exists h, In h (m_hes m) /\ h_face m h = Some f /\ h_bd m h = false).
  { destruct (existsb (fun h => ptr_eqb (h_face m h) (Some f) && negb (h_bd m h)) (m_hes m)) eqn:E.
    - apply existsb_exists in E as (h & Ih & E). apply andb_true_iff in E as [E1 E2]. exists h. split; [exact Ih|]. split; [|apply negb_true_iff, E2]. destruct (h_face m h) as [g|]; [|discriminate]. cbn in E1. apply Nat.eqb_eq in E1. congruence.
    - exfalso. assert (hole m f = true); [|congruence]. apply hole_spec. intros h Ih Fh. destruct (h_bd m h) eqn:Bh; [reflexivity|]. exfalso. assert (X : existsb (fun h => ptr_eqb (h_face m h) (Some f) && negb (h_bd m h)) (m_hes m) = true); [|congruence].
      apply existsb_exists. exists h. split; [exact Ih|]. rewrite Fh, Bh. cbn [ptr_eqb negb andb]. rewrite Nat.eqb_refl. reflexivity. }
  destruct B as (h & Ih & Fh & Bh). destruct (piter3 _ _ (valid_tri m V h Ih Bh)) as (y & z & E1 & E2 & E3).
  assert (Iy := next_in m W h y Ih E1). assert (Iz := next_in m W y z Iy E2).
  destruct (fring_at m W h f Ih Fh) as (l & Hc & Hnd & Hin).
  destruct (wf_src m W h Ih) as (a & Sh & Ia). destruct (wf_src m W y Iy) as (b & Sy & Ib). destruct (wf_src m W z Iz) as (c & Sz & Ic).
  assert (Nab := noloop_next m h a b y W NL Ih E1 Sh Sy). assert (Nbc := noloop_next m y b c z W NL Iy E2 Sy Sz). assert (Nca := noloop_next m z c a h W NL Iz E3 Sz Sh).
  assert (L : h :: l = [h; y; z]).
  { assert (h <> y) by congruence. assert (y <> z) by congruence. assert (z <> h) by congruence. clear - Hc Hnd E1 E2 E3 H H0 H1. cbn [cyc] in Hc.
    destruct l as [|a1 l]; [cbn [chainto] in Hc; congruence|]. destruct Hc as [H2 Hc]. assert (a1 = y) by congruence; subst a1.
    destruct l as [|b1 l]; [cbn [chainto] in Hc; congruence|]. destruct Hc as [H3 Hc]. assert (b1 = z) by congruence; subst b1.
    destruct l as [|c1 l]; [reflexivity|]. destruct Hc as [H4 Hc]. assert (c1 = h) by congruence; subst c1.
    exfalso. inversion Hnd as [|? ? Hno _]; subst. apply Hno. right; right; left; reflexivity. }
  assert (K : forall k, In k (m_hes m) /\ h_face m k = Some f <-> k = h \/ k = y \/ k = z).
  { intros k. rewrite <- Hin, L. cbn [In]. split; intros Q; intuition. }
  destruct (proj1 (K x) (conj Ix Fx)) as [-> | [-> | ->]].
  - exists h, y, z, a, b, c. tauto.
  - exists y, z, h, b, c, a. split; [exact Ex|]. split; [intros k; rewrite K; tauto|]. tauto.
  - exists z, h, y, c, a, b. split; [exact Ex|]. split; [intros k; rewrite K; tauto|]. tauto.
Qed.

Lemma indices_step m f l r : Valid m -> In f (m_faces m) -> vertex_indices l m = Ok (r, m) ->
  (hole m f = true /\ vertex_indices (f :: l) m = Ok (r, m)) \/
  (hole m f = false /\ exists i j k, face_is m f (i, j, k) /\ vertex_indices (f :: l) m = Ok (Z.of_nat i :: Z.of_nat j :: Z.of_nat k :: r, m)).
Proof.
  intros V If E. assert (W := valid_wf m V). cbn [vertex_indices]. rewrite (bind_ok _ _ _ _ _ (isHole_hole m f W If)). destruct (hole m f) eqn:Hf; [left; auto|]. right. split; [reflexivity|].
  destruct (surface_tri m f V If Hf) as (x & y & z & a & b & c & Ex & K & E1 & E2 & E3 & Sx & Sy & Sz & Nab & Nbc & Nca & Ia & Ib & Ic).
  destruct (In_nth_error _ _ Ia) as (i & Hi). destruct (In_nth_error _ _ Ib) as (j & Hj). destruct (In_nth_error _ _ Ic) as (k & Hk).
  destruct (wf_v_elem m W i a Hi) as (La & Xa & _). destruct (wf_v_elem m W j b Hj) as (Lb & Xb & _). destruct (wf_v_elem m W k c Hk) as (Lc & Xc & _).
  assert (Ix : In x (m_hes m)) by (apply K; tauto). assert (Iy : In y (m_hes m)) by (apply K; tauto). assert (Iz : In z (m_hes m)) by (apply K; tauto).
  exists i, j, k. split.
  { exists a, b, c. repeat (split; [assumption|]). exists x, y, z. tauto. }
  assert (Lf := f_alive m W f If). destruct (prev_inverse m z W Iz) as (_ & (n' & En' & Ep)). assert (n' = x) by congruence. subst n'.
  rewrite (bind_ok _ _ _ _ _ (r_fhe m f Lf)), Ex, (bind_ok _ _ _ _ _ (r_src m x (h_alive m W _ Ix))), Sx, (bind_ok _ _ _ _ _ (r_vidx m a La)).
  rewrite (bind_ok _ _ _ _ _ (r_fhe m f Lf)), Ex, (bind_ok _ _ _ _ _ (r_next m x (h_alive m W _ Ix))), E1, (bind_ok _ _ _ _ _ (r_src m y (h_alive m W _ Iy))), Sy, (bind_ok _ _ _ _ _ (r_vidx m b Lb)).
  rewrite (bind_ok _ _ _ _ _ (r_fhe m f Lf)), Ex, (bind_ok _ _ _ _ _ Ep), (bind_ok _ _ _ _ _ (r_src m z (h_alive m W _ Iz))), Sz, (bind_ok _ _ _ _ _ (r_vidx m c Lc)).
  rewrite (bind_ok _ _ _ _ _ E), Xa, Xb, Xc. reflexivity.
Qed.

(** The indices are, face by face, the three vertex numbers of the faces that are not holes. *)
Theorem indices_valid m : Valid m -> exists l, getVertexIndices m = Ok (map Z.of_nat l, m) /\
  length l = 3 * length (surface_faces m) /\ Forall2 (face_is m) (surface_faces m) (triples l).
Proof.
  intros V. unfold getVertexIndices, surface_faces. rewrite bind_get. assert (S : forall f, In f (m_faces m) -> In f (m_faces m)) by auto. revert S. generalize (m_faces m) at 1 3 4 5. intros fs S. induction fs as [|f fs IH].
  - exists []. split; [reflexivity|]. split; [reflexivity|constructor].
  - destruct (IH (fun g G => S g (or_intror G))) as (l & E & L & F). destruct (indices_step m f fs _ V (S f (or_introl eq_refl)) E) as [[Hf Q] | [Hf (i & j & k & K & Q)]]; cbn [filter]; rewrite Hf; cbn [negb].
    + exists l. auto.
    + exists (i :: j :: k :: l). split; [exact Q|]. split; [cbn [length]; lia|]. cbn [triples]. constructor; [exact K|exact F].
Qed.
End Indices.
