(** Mesh::construct: the closed surface and the final check of the vertex rings
    (mesh.cpp 341-364). *)
From Coq Require Import List ZArith Arith Lia Bool Relations Permutation.
From Verif Require Import Num Vec Heap Mesh Construct Spec BuildSpec Orbit Rings Exec Split BuildTri BuildOpen BuildClose.
Import ListNotations.
Local Open Scope mesh_scope.

Section BuildRing.
Context {N : Num}.
Implicit Types m : mesh N.

(** [WF] without the clause on vertex rings. *)
Record WF0 m : Prop := {
  w0_v : VList m; w0_h : HList m; w0_f : FList m;
  w0_src : forall h, In h (m_hes m) -> exists v, h_src m h = Some v /\ In v (m_verts m);
  w0_next : forall h, In h (m_hes m) -> exists n, h_next m h = Some n /\ In n (m_hes m);
  w0_rev : forall h, In h (m_hes m) -> exists r, h_rev m h = Some r /\ In r (m_hes m);
  w0_face : forall h, In h (m_hes m) -> exists f, h_face m h = Some f /\ In f (m_faces m);
  w0_rev_invol : forall h r, In h (m_hes m) -> h_rev m h = Some r -> h_rev m r = Some h /\ r <> h;
  w0_dst : forall h n r, In h (m_hes m) -> h_next m h = Some n -> h_rev m h = Some r -> h_src m n = h_src m r;
  w0_vhe : forall v, In v (m_verts m) -> exists h, v_he m v = Some h /\ In h (m_hes m) /\ h_src m h = Some v;
  w0_fhe : forall f, In f (m_faces m) -> exists h, f_he m f = Some h /\ In h (m_hes m) /\ h_face m h = Some f;
  w0_face_next : forall h n, In h (m_hes m) -> h_next m h = Some n -> h_face m n = h_face m h;
  w0_face_orbit : forall h h', In h (m_hes m) -> In h' (m_hes m) -> h_face m h = h_face m h' -> reaches (h_next m) h h'
}.

Lemma WF0_WF m : WF0 m ->
  (forall h h', In h (m_hes m) -> In h' (m_hes m) -> h_src m h = h_src m h' -> reaches (rot m) h h') -> WF m.
Proof.
  intros [] H. split; try assumption; try apply w0_v0; try apply w0_h0; try apply w0_f0.
Qed.

Section Closed.
Variables (m c : mesh N) (P : list (nat * nat)) (FS : list nat).
Hypothesis O : Open m.
Hypothesis G : GInv m c P FS.
Hypothesis C : GClosed m c P FS.
Hypothesis All : forall h, In h (m_hes m) -> h_rev m h = None -> In h (map fst P).
Hypothesis Vhe : forall v, In v (m_verts m) -> v_he m v <> None.

Lemma cl_hes h : In h (m_hes c) <-> In h (m_hes m) \/ exists b, In (b, h) P.
Proof.
  rewrite (g_hes _ _ _ _ G), in_app_iff, in_map_iff. split; intros [H|H]; auto.
  - destruct H as ([b r] & <- & H). right. exists b. exact H.
  - destruct H as (b & H). right. exists (b, h). auto.
Qed.
Lemma cl_old h : In h (m_hes m) -> In h (m_hes c). Proof. rewrite cl_hes; auto. Qed.
Lemma cl_fun b r r' : In (b, r) P -> In (b, r') P -> r = r'.
Proof. intros H H'. destruct (g_P _ _ _ _ G b r H) as (A & _). destruct (g_P _ _ _ _ G b r' H') as (B & _). congruence. Qed.
Lemma cl_not_old b r : In (b, r) P -> ~ In r (m_hes m).
Proof. intros H I. pose proof (g_ge _ _ _ _ G b r H). pose proof (o_hlt m O r I). lia. Qed.
Lemma cl_notP h r : In h (m_hes m) -> h_rev m h = Some r -> ~ In h (map fst P).
Proof. intros H R I. apply in_fst_pair in I as (r' & I). destruct (g_pin _ _ _ _ G h r' I). congruence. Qed.
Lemma cl_rev_old h r : In h (m_hes m) -> h_rev m h = Some r -> h_rev c h = Some r.
Proof. intros H R. destruct (g_un _ _ _ _ G h H (cl_notP h r H R)). congruence. Qed.
Lemma cl_rev_B h : isB m h -> exists r, In (h, r) P.
Proof. intros [H R]. apply in_fst_pair. apply All; assumption. Qed.
Lemma cl_next h : In h (m_hes m) -> h_next c h = h_next m h. Proof. intros H. apply (g_old _ _ _ _ G h H). Qed.
Lemma cl_src h : In h (m_hes m) -> h_src c h = h_src m h. Proof. intros H. apply (g_old _ _ _ _ G h H). Qed.
Lemma cl_face h : In h (m_hes m) -> h_face c h = h_face m h. Proof. intros H. apply (g_old _ _ _ _ G h H). Qed.

(** The next of a new half-edge. *)
Lemma cl_new_next b' r' : In (b', r') P -> exists b r, In (b, r) P /\ bnf m b = Some b' /\ h_next c r' = Some r /\ h_face c r = h_face c r'.
Proof.
  intros I. assert (B' := g_pin _ _ _ _ G b' r' I). destruct (bnf_cyc m O b' B') as (l & H1 & H2 & H3).
  destruct (cyc_pred _ _ b' H1 (or_introl eq_refl)) as (b & Hb & E). destruct (cl_rev_B b (H3 b Hb)) as (r & Ir).
  destruct (gc_next _ _ _ _ C b r Ir) as (b2 & r2 & E2 & I2 & N2 & F2). assert (b2 = b') by congruence. subst b2.
  assert (r2 = r') by (eapply cl_fun; eassumption). subst r2. exists b, r. auto.
Qed.

Lemma cl_new_src b r n : In (b, r) P -> h_next m b = Some n -> h_src c r = h_src m n.
Proof. intros I E. apply (g_P _ _ _ _ G b r I). exact E. Qed.

Lemma cl_piter_next n a b : In a (m_hes m) -> piter (h_next m) n a = Some b -> piter (h_next c) n a = Some b.
Proof.
  revert a; induction n as [|n IH]; cbn [piter]; intros a Ha; [auto|]. rewrite (cl_next a Ha).
  destruct (o_next m O a Ha) as (x & E & I & _). rewrite E. apply IH, I.
Qed.

Lemma cl_reach_new n b r b2 r2 : In (b, r) P -> In (b2, r2) P -> piter (bnf m) n b = Some b2 -> piter (h_next c) n r2 = Some r.
Proof.
  revert b r; induction n as [|n IH]; intros b r I I2 H; cbn [piter] in H.
  - injection H as <-. assert (r = r2) by (eapply cl_fun; eassumption). subst. reflexivity.
  - destruct (bnf m b) as [b1|] eqn:E; [|discriminate]. destruct (gc_next _ _ _ _ C b r I) as (b' & r' & E' & I' & N' & _).
    assert (b' = b1) by congruence. subst b'. rewrite (piter_S_r _ _ _ _ (IH b1 r' I' I2 H)). exact N'.
Qed.

Theorem cl_WF0 : WF0 c.
Proof.
  assert (Iv : forall v, In v (m_verts c) <-> In v (m_verts m)) by (intros v; rewrite (g_verts _ _ _ _ G); reflexivity).
  assert (If : forall f, In f (m_faces c) <-> In f (m_faces m) \/ In f FS) by (intros f; rewrite (g_faces _ _ _ _ G); apply in_app_iff).
  assert (Fdis : forall f, In f (m_faces m) -> In f FS -> False).
  { intros f H1 H2. destruct (g_fl _ _ _ _ G) as [ND _]. rewrite (g_faces _ _ _ _ G) in ND.
    apply in_split in H2 as (l1 & l2 & E). rewrite E, app_assoc in ND. apply NoDup_remove_2 in ND. apply ND.
    rewrite !in_app_iff. auto. }
  split.
  - destruct (o_vl m O) as [V1 V2]. split; [rewrite (g_verts _ _ _ _ G); exact V1|]. intros i v Hi. rewrite (g_verts _ _ _ _ G) in Hi.
    rewrite (g_vlive _ _ _ _ G), (g_vidx _ _ _ _ G). destruct (V2 i v Hi) as (A1 & A2 & A3). pose proof (g_fresh _ _ _ _ G). repeat split; try assumption. lia.
  - exact (g_hl _ _ _ _ G).
  - exact (g_fl _ _ _ _ G).
  - intros h H. apply cl_hes in H as [H|(b & H)].
    + destruct (o_src m O h H) as (v & E & I). exists v. rewrite (cl_src h H), Iv. auto.
    + destruct (g_pin _ _ _ _ G b h H) as [Hb _]. destruct (o_next m O b Hb) as (n & En & In_ & _).
      destruct (o_src m O n In_) as (v & E & I). exists v. rewrite (cl_new_src b h n H En), Iv. auto.
  - intros h H. apply cl_hes in H as [H|(b & H)].
    + destruct (o_next m O h H) as (n & E & I & _). exists n. rewrite (cl_next h H). split; [exact E|apply cl_old, I].
    + destruct (cl_new_next b h H) as (b1 & r1 & I1 & _ & E & _). exists r1. split; [exact E|]. apply cl_hes. right; exists b1; exact I1.
  - intros h H. apply cl_hes in H as [H|(b & H)].
    + destruct (h_rev m h) as [r|] eqn:R.
      * exists r. split; [apply cl_rev_old; assumption|]. apply cl_old. apply (o_rev m O h r H R).
      * destruct (cl_rev_B h (conj H R)) as (r & I). exists r. split; [apply (g_P _ _ _ _ G h r I)|]. apply cl_hes. right; exists h; exact I.
    + exists b. split; [apply (g_P _ _ _ _ G b h H)|]. apply cl_old. apply (g_pin _ _ _ _ G b h H).
  - intros h H. apply cl_hes in H as [H|(b & H)].
    + destruct (o_face m O h H) as (f & E & I). exists f. rewrite (cl_face h H), If. auto.
    + destruct (gc_face _ _ _ _ C b h H) as (f & E & I). exists f. rewrite If. auto.
  - intros h r H R. apply cl_hes in H as [H|(b & H)].
    + destruct (h_rev m h) as [r'|] eqn:R'.
      * rewrite (cl_rev_old h r' H R') in R. injection R as <-. destruct (o_rev m O h r' H R') as (I1 & I2 & I3 & _).
        split; [apply cl_rev_old; assumption|exact I3].
      * destruct (cl_rev_B h (conj H R')) as (r' & I). destruct (g_P _ _ _ _ G h r' I) as (A1 & A2 & _). assert (r' = r) by congruence. subst r'.
        split; [exact A2|]. intros ->. apply (cl_not_old h h I H).
    + destruct (g_P _ _ _ _ G b h H) as (A1 & A2 & _). assert (b = r) by congruence. subst b. split; [exact A1|].
      intros ->. apply (cl_not_old h h H). apply (g_pin _ _ _ _ G h h H).
  - intros h n r H En R. apply cl_hes in H as [H|(b & H)].
    + rewrite (cl_next h H) in En. destruct (o_next m O h H) as (n' & En' & In_ & _). assert (n' = n) by congruence. subst n'.
      rewrite (cl_src n In_). destruct (h_rev m h) as [r'|] eqn:R'.
      * rewrite (cl_rev_old h r' H R') in R. injection R as <-. destruct (o_rev m O h r' H R') as (I1 & I2 & I3 & I4).
        rewrite (cl_src r' I1). symmetry. apply I4, En.
      * destruct (cl_rev_B h (conj H R')) as (r' & I). destruct (g_P _ _ _ _ G h r' I) as (A1 & A2 & _). assert (r' = r) by congruence. subst r'.
        symmetry. eapply cl_new_src; eassumption.
    + destruct (g_P _ _ _ _ G b h H) as (A1 & A2 & _). assert (b = r) by congruence. subst b.
      destruct (cl_new_next r h H) as (b1 & r1 & I1 & Eb & E & _). assert (r1 = n) by congruence. subst r1.
      assert (B1 := g_pin _ _ _ _ G b1 n I1). destruct (bnf_spec m O b1 B1) as (x & k & b' & Ex & Ix & _ & _ & _ & Eb' & Sb).
      assert (b' = r) by congruence. subst b'. rewrite (cl_new_src b1 n x I1 Ex), <- Sb. symmetry. apply cl_src. apply (g_pin _ _ _ _ G r h H).
  - intros v Hv. apply Iv in Hv. destruct (v_he m v) as [h|] eqn:E; [|exfalso; exact (Vhe v Hv E)].
    destruct (o_vhe m O v h Hv E) as [I S]. exists h. rewrite (g_vhe _ _ _ _ G), (cl_src h I). split; [exact E|]. split; [apply cl_old, I|exact S].
  - intros f Hf. apply If in Hf as [Hf|Hf].
    + destruct (o_fhe m O f Hf) as (h & E & I & F). exists h. rewrite (g_oldf _ _ _ _ G f Hf), (cl_face h I). split; [exact E|]. split; [apply cl_old, I|exact F].
    + destruct (gc_fhe _ _ _ _ C f Hf) as (b & r & I & E & F). exists r. split; [exact E|]. split; [apply cl_hes; right; exists b; exact I|exact F].
  - intros h n H En. apply cl_hes in H as [H|(b & H)].
    + rewrite (cl_next h H) in En. destruct (o_next m O h H) as (n' & En' & In_ & F & _). assert (n' = n) by congruence. subst n'.
      rewrite (cl_face h H), (cl_face n In_). exact F.
    + destruct (cl_new_next b h H) as (b1 & r1 & I1 & Eb & E & F). congruence.
  - intros h h' H H' E. apply cl_hes in H as [H|(b & H)]; apply cl_hes in H' as [H'|(b' & H')].
    + rewrite (cl_face h H), (cl_face h' H') in E. destruct (o_same m O h h' H H' E) as (k & Hk). exists k. apply cl_piter_next; assumption.
    + exfalso. rewrite (cl_face h H) in E. destruct (o_face m O h H) as (f & E1 & I1). destruct (gc_face _ _ _ _ C b' h' H') as (f' & E2 & I2).
      apply (Fdis f I1). congruence.
    + exfalso. rewrite (cl_face h' H') in E. destruct (o_face m O h' H') as (f & E1 & I1). destruct (gc_face _ _ _ _ C b h H) as (f' & E2 & I2).
      apply (Fdis f I1). congruence.
    + symmetry in E. destruct (gc_orbit _ _ _ _ C b' h' b h H' H E) as (k & Hk). exists k. eapply cl_reach_new; eassumption.
Qed.

(** A rotation cycle with a new half-edge has exactly one, and its predecessor
    is open; one without has no flagged half-edge. *)
Lemma cl_rot_chain k x y : In x (m_hes m) -> piter (rot m) k x = Some y -> reaches (rot c) x y.
Proof.
  revert x; induction k as [|k IH]; cbn [piter]; intros x Hx H; [injection H as <-; apply reaches_refl|].
  destruct (rot m x) as [n|] eqn:E; [|discriminate]. destruct (o_rot m O x n Hx E) as (r & R & Ir & Nr & In_ & _).
  eapply reaches_trans; [|exact (IH n In_ H)]. apply reaches_step. unfold rot. rewrite (cl_rev_old x r Hx R), (cl_next r Ir). exact Nr.
Qed.

Lemma cl_rot_new b r n : In (b, r) P -> h_next m b = Some n -> rot c r = Some n.
Proof. intros I E. unfold rot. destruct (g_P _ _ _ _ G b r I) as (_ & -> & _). rewrite (cl_next b); [exact E|apply (g_pin _ _ _ _ G b r I)]. Qed.

Lemma cl_rot_B b r b' r' : In (b, r) P -> bnf m b = Some b' -> In (b', r') P -> rot c b' = Some r.
Proof.
  intros I E I'. unfold rot. destruct (g_P _ _ _ _ G b' r' I') as (-> & _).
  destruct (gc_next _ _ _ _ C b r I) as (b2 & r2 & E2 & I2 & N2 & _). assert (b2 = b') by congruence. subst b2.
  assert (r2 = r') by (eapply cl_fun; eassumption). congruence.
Qed.

Lemma cl_ring_list k : forall x b' r, In x (m_hes m) -> piter (rot m) k x = Some b' -> rot c b' = Some r ->
  exists L, chainto (rot c) x L r /\ forall y, In y (x :: L) -> In y (m_hes m).
Proof.
  induction k as [|k IH]; intros x b' r Hx Pk Rb; cbn [piter] in Pk.
  - injection Pk as ->. exists []. split; [exact Rb|]. intros y [<-|[]]. exact Hx.
  - destruct (rot m x) as [x1|] eqn:E; [|discriminate]. destruct (o_rot m O x x1 Hx E) as (q & R & Iq & Nq & In_ & _).
    destruct (IH x1 b' r In_ Pk Rb) as (L & H1 & H2). exists (x1 :: L). split.
    + split; [|exact H1]. unfold rot. rewrite (cl_rev_old x q Hx R), (cl_next q Iq). exact Nq.
    + intros y [<-|Hy]; [exact Hx|exact (H2 y Hy)].
Qed.

Lemma cl_ring_new b r Cy : In (b, r) P -> cyc (rot c) Cy -> In r Cy -> forall y, In y Cy -> y = r \/ In y (m_hes m).
Proof.
  intros I HC Hr y Hy. assert (Bb := g_pin _ _ _ _ G b r I).
  destruct (bnf_spec m O b Bb) as (n & k & b' & En & In_ & _ & Pk & Bb' & Eb & _).
  destruct (cl_rev_B b' Bb') as (r' & I').
  destruct (cl_ring_list k n b' r In_ Pk (cl_rot_B b r b' r' I Eb I')) as (L & H1 & H2).
  assert (HC' : cyc (rot c) (r :: n :: L)) by (split; [eapply cl_rot_new; eassumption|exact H1]).
  destruct (cyc_reaches_in _ _ r y HC' (or_introl eq_refl) (cyc_reaches _ _ r y HC Hr Hy)) as [<-|H]; [auto|right; exact (H2 y H)].
Qed.

Definition oldb (h : nat) : bool := if in_dec Nat.eq_dec h (m_hes m) then true else false.
Lemma oldb_spec h : oldb h = true <-> In h (m_hes m).
Proof. unfold oldb. destruct (in_dec Nat.eq_dec h (m_hes m)); split; auto; discriminate. Qed.

Lemma filter_all {A} (p : A -> bool) l : (forall x, In x l -> p x = true) -> filter p l = l.
Proof. induction l as [|x l IH]; intros H; cbn [filter]; [reflexivity|]. rewrite (H x (or_introl eq_refl)), IH; [reflexivity|]. intros y Hy. apply H. right; exact Hy. Qed.

Lemma cl_count Cy : cyc (rot c) Cy -> NoDup Cy -> (forall y, In y Cy -> In y (m_hes c)) ->
  length Cy = length (filter oldb Cy) + (if existsb (h_bd c) Cy then 1 else 0).
Proof.
  intros HC ND Hin. destruct (existsb (fun y => negb (oldb y)) Cy) eqn:X.
  - apply existsb_exists in X as (r & Hr & Xr). apply negb_true_iff in Xr.
    assert (Ir : exists b, In (b, r) P).
    { destruct (proj1 (cl_hes r) (Hin r Hr)) as [H|H]; [|exact H]. apply oldb_spec in H. congruence. }
    destruct Ir as (b & Ir).
    assert (E : existsb (h_bd c) Cy = true) by (apply existsb_exists; exists r; split; [exact Hr|apply (g_P _ _ _ _ G b r Ir)]).
    rewrite E. assert (All' := cl_ring_new b r Cy Ir HC Hr).
    apply in_split in Hr as (l1 & l2 & ->).
    assert (K : forall y, In y (l1 ++ l2) -> oldb y = true).
    { intros y Hy. apply oldb_spec. destruct (All' y) as [->|H]; [|apply NoDup_remove_2 in ND; contradiction|exact H].
      apply in_app_iff in Hy as [H|H]; apply in_or_app; [left|right; right]; exact H. }
    rewrite filter_app. cbn [filter]. rewrite Xr. rewrite !filter_all by (intros y Hy; apply K, in_or_app; auto).
    rewrite !app_length. cbn [length]. lia.
  - assert (K : forall y, In y Cy -> In y (m_hes m)).
    { intros y Hy. apply oldb_spec. destruct (oldb y) eqn:E; [reflexivity|]. exfalso.
      assert (existsb (fun y => negb (oldb y)) Cy = true) by (apply existsb_exists; exists y; rewrite E; auto). congruence. }
    rewrite filter_all by (intros y Hy; apply oldb_spec, K, Hy).
    assert (E : existsb (h_bd c) Cy = false).
    { destruct (existsb (h_bd c) Cy) eqn:E; [|reflexivity]. exfalso. apply existsb_exists in E as (y & Hy & Ey).
      assert (Hm := K y Hy). assert (Iy : In y (map fst P)).
      { destruct (in_dec Nat.eq_dec y (map fst P)) as [D|D]; [exact D|]. destruct (g_un _ _ _ _ G y Hm D). congruence. }
      apply in_fst_pair in Iy as (r' & Iy). destruct (cl_new_next y r' Iy) as (b & r & Ir & _ & Er & _).
      assert (R : rot c y = Some r) by (unfold rot; destruct (g_P _ _ _ _ G y r' Iy) as (-> & _); exact Er).
      destruct (cyc_step_in _ _ _ HC Hy) as (z & Ez & Hz). assert (z = r) by congruence. subst z.
      apply (cl_not_old b r Ir). apply K, Hz. }
    rewrite E. lia.
Qed.

End Closed.

(** ** Rings of a mesh that is well-formed up to the vertex rings *)
Section Rot0.
Variable m : mesh N.
Hypothesis W : WF0 m.

Lemma w0_hlive h : In h (m_hes m) -> h_live m h = true.
Proof. intros H. apply In_nth_error in H as (i & Hi). apply (proj2 (w0_h m W) i h Hi). Qed.
Lemma w0_hlt h : In h (m_hes m) -> h < m_fresh m.
Proof. intros H. apply In_nth_error in H as (i & Hi). apply (proj2 (w0_h m W) i h Hi). Qed.
Lemma w0_vlive h : In h (m_verts m) -> v_live m h = true.
Proof. intros H. apply In_nth_error in H as (i & Hi). apply (proj2 (w0_v m W) i h Hi). Qed.

Lemma w0_next_inj h h' n : In h (m_hes m) -> In h' (m_hes m) -> h_next m h = Some n -> h_next m h' = Some n -> h = h'.
Proof.
  intros H H' E E'. assert (F := w0_face_next m W h n H E). assert (F' := w0_face_next m W h' n H' E').
  destruct (w0_next m W h H) as (n' & En & In_). assert (n' = n) by congruence. subst n'.
  destruct (recurrent_cyc (h_next m) h n E) as (l & H1 & H2); [apply (w0_face_orbit m W); assumption|].
  eapply (cyc_inj (h_next m) (h :: l)); [exact H1|exact H2|left; reflexivity| |exact E|exact E'].
  eapply cyc_reaches_in; [exact H1|left; reflexivity|]. apply (w0_face_orbit m W); congruence.
Qed.

Lemma w0_rot h : In h (m_hes m) -> exists r n, h_rev m h = Some r /\ In r (m_hes m) /\ h_next m r = Some n /\ In n (m_hes m) /\ rot m h = Some n /\ h_src m n = h_src m h.
Proof.
  intros H. destruct (w0_rev m W h H) as (r & R & Ir). destruct (w0_next m W r Ir) as (n & En & In_).
  exists r, n. unfold rot. rewrite R. repeat (split; [assumption || reflexivity|]).
  apply (w0_dst m W r n h Ir En). apply (w0_rev_invol m W h r H R).
Qed.
Lemma w0_rot_in a b : In a (m_hes m) -> rot m a = Some b -> In b (m_hes m).
Proof. intros H E. destruct (w0_rot a H) as (r & n & _ & _ & _ & I & E' & _). congruence. Qed.
Lemma w0_rot_src a b : In a (m_hes m) -> rot m a = Some b -> h_src m b = h_src m a.
Proof. intros H E. destruct (w0_rot a H) as (r & n & _ & _ & _ & _ & E' & I). congruence. Qed.
Lemma w0_rot_inj a b c : In a (m_hes m) -> In b (m_hes m) -> rot m a = Some c -> rot m b = Some c -> a = b.
Proof.
  intros Ha Hb Ea Eb. destruct (w0_rot a Ha) as (r & n & R & Ir & En & _ & E' & _). destruct (w0_rot b Hb) as (r' & n' & R' & Ir' & En' & _ & E'' & _).
  assert (r = r') by (eapply w0_next_inj; [exact Ir|exact Ir'|exact En|congruence]). subst r'.
  destruct (w0_rev_invol m W a r Ha R), (w0_rev_invol m W b r Hb R'). congruence.
Qed.
Lemma w0_rot_tot a : In a (m_hes m) -> rot m a <> None.
Proof. intros H. destruct (w0_rot a H) as (r & n & _ & _ & _ & _ & E' & _). congruence. Qed.

Lemma w0_piter k a b : In a (m_hes m) -> piter (rot m) k a = Some b -> In b (m_hes m) /\ h_src m b = h_src m a.
Proof.
  revert a; induction k as [|k IH]; cbn [piter]; intros a Ha; [intros [= <-]; auto|].
  destruct (rot m a) as [x|] eqn:E; [|discriminate]. intros H. destruct (IH x (w0_rot_in _ _ Ha E) H) as [H1 H2].
  split; [exact H1|]. rewrite H2. apply w0_rot_src; assumption.
Qed.

Lemma w0_ring h : In h (m_hes m) -> exists l, cyc (rot m) (h :: l) /\ NoDup (h :: l) /\
  forall y, In y (h :: l) -> In y (m_hes m) /\ h_src m y = h_src m h.
Proof.
  intros H. destruct (orbit_cyc (rot m) (m_hes m) w0_rot_in w0_rot_inj h w0_rot_tot H) as (l & H1 & H2 & H3).
  exists l. split; [exact H1|]. split; [exact H2|]. intros y Hy. split; [exact (H3 y Hy)|].
  destruct (cyc_reaches _ _ h y H1 (or_introl eq_refl) Hy) as (k & Hk). apply (w0_piter k h y H Hk).
Qed.
Lemma w0_sym x y : In x (m_hes m) -> reaches (rot m) x y -> reaches (rot m) y x.
Proof. intros H. apply (orbit_sym (rot m) (m_hes m) w0_rot_in w0_rot_inj x y w0_rot_tot H). Qed.

(** mesh.cpp 349-362 *)
Lemma count_ring_ok v h : In v (m_verts m) -> v_he m v = Some h -> forall l x fuel k,
  chainto (rot m) x l h -> (forall y, In y (x :: l) -> In y (m_hes m)) -> ~ In h l -> length l <= fuel ->
  count_ring fuel (Some v) (Some x) k m = Ok ((k + Z.of_nat (length (x :: l)))%Z, m).
Proof.
  intros Hv Eh l. induction l as [|y l IH]; intros x fuel k Hc Hin Hni Hf.
  - cbn [chainto] in Hc. destruct (w0_rot x (Hin x (or_introl eq_refl))) as (r & n & R & Ir & En & _ & E & _).
    assert (n = h) by congruence. subst n. assert (Lx := w0_hlive x (Hin x (or_introl eq_refl))). assert (Lr := w0_hlive r Ir). assert (Lv := w0_vlive v Hv).
    destruct fuel; cbn [count_ring]; rewrite (bind_ok _ _ _ _ _ (r_rev m x Lx)), R, (bind_ok _ _ _ _ _ (r_next m r Lr)), En, (bind_ok _ _ _ _ _ (r_vhe m v Lv)), Eh, ptr_eqb_refl; reflexivity.
  - destruct Hc as [H1 H2]. destruct (w0_rot x (Hin x (or_introl eq_refl))) as (r & n & R & Ir & En & _ & E & _).
    assert (n = y) by congruence. subst n. assert (Lx := w0_hlive x (Hin x (or_introl eq_refl))). assert (Lr := w0_hlive r Ir). assert (Lv := w0_vlive v Hv).
    destruct fuel as [|fuel]; [cbn [length] in Hf; lia|]. cbn [count_ring]. rewrite (bind_ok _ _ _ _ _ (r_rev m x Lx)), R, (bind_ok _ _ _ _ _ (r_next m r Lr)), En, (bind_ok _ _ _ _ _ (r_vhe m v Lv)), Eh.
    assert (D : ptr_eqb (Some y) (Some h) = false) by (apply ptr_eqb_neq; intros [= ->]; apply Hni; left; reflexivity).
    rewrite D. rewrite IH; [|exact H2|intros z Hz; apply Hin; right; exact Hz|intros H; apply Hni; right; exact H|cbn [length] in Hf; lia].
    f_equal. f_equal. cbn [length]. lia.
Qed.

Lemma check_ok deg v i h l : nth_error (m_verts m) i = Some v -> v_he m v = Some h -> cyc (rot m) (h :: l) -> NoDup (h :: l) -> (forall y, In y (h :: l) -> In y (m_hes m)) ->
  check_manifold deg v m = if Nat.eqb (length (h :: l)) (deg i + (if existsb (h_bd m) (h :: l) then 1 else 0)) then Ok (tt, m) else Abort AError.
Proof.
  intros Hi Eh Hc ND Hin. assert (Hv := nth_error_In _ _ Hi). assert (Lv := w0_vlive v Hv).
  assert (Hni : ~ In h l) by (inversion ND; assumption).
  assert (Hlen : length (h :: l) <= m_fresh m) by (apply nodup_bound_length; [exact ND|intros y Hy; apply w0_hlt, Hin, Hy]).
  unfold check_manifold. rewrite (bind_ok _ _ _ _ _ (r_vhe m v Lv)), Eh.
  assert (B : v_isBoundary (Some v) m = Ok (existsb (h_bd m) (h :: l), m)).
  { unfold v_isBoundary, circ_v. rewrite (bind_ok _ _ _ _ _ (r_vhe m v Lv)), bind_get, Eh.
    rewrite (circ_chain m (rot m) step_v _ (fun _ y => if h_bd m y then (true, true) else (false, false)) h l h (S (m_fresh m)) false Hc Hni).
    - f_equal. f_equal. clear. induction (h :: l) as [|y k IH]; [reflexivity|]. cbn [bfold existsb]. destruct (h_bd m y); [reflexivity|exact IH].
    - cbn [length] in *; lia.
    - intros y Hy. destruct (w0_rot y (Hin y Hy)) as (r & n & R & Ir & En & _ & E & _). unfold step_v. rewrite (bind_ok _ _ _ _ _ (r_rev m y (w0_hlive y (Hin y Hy)))), R, (r_next m r (w0_hlive r Ir)), E, En. reflexivity.
    - intros y a Hy. rewrite (bind_ok _ _ _ _ _ (r_bd m y (w0_hlive y (Hin y Hy)))). destruct (h_bd m y); reflexivity. }
  rewrite (bind_ok _ _ _ _ _ B), bind_get.
  rewrite (bind_ok _ _ _ _ _ (count_ring_ok v h Hv Eh l h (m_fresh m) (if existsb (h_bd m) (h :: l) then (-1)%Z else 0%Z) Hc Hin Hni ltac:(cbn [length] in Hlen; lia))).
  rewrite (bind_ok _ _ _ _ _ (r_vidx m v Lv)). destruct (proj2 (w0_v m W) i v Hi) as (_ & -> & _). rewrite Nat2Z.id.
  destruct (existsb (h_bd m) (h :: l)).
  - destruct (Nat.eqb_spec (length (h :: l)) (deg i + 1)) as [D|D]; destruct (Z.eqb_spec (-1 + Z.of_nat (length (h :: l))) (Z.of_nat (deg i))) as [D'|D']; try reflexivity; lia.
  - destruct (Nat.eqb_spec (length (h :: l)) (deg i + 0)) as [D|D]; destruct (Z.eqb_spec (0 + Z.of_nat (length (h :: l))) (Z.of_nat (deg i))) as [D'|D']; try reflexivity; lia.
Qed.

(** mesh.cpp 341-346 *)
Lemma bump_ok v : In v (m_verts m) -> exists n, bump_vertex v m = Ok (tt, set_v_he v (Some n) m) /\ In n (m_hes m) /\ h_src m n = Some v.
Proof.
  intros Hv. destruct (w0_vhe m W v Hv) as (h & Eh & Ih & Sh). destruct (w0_rot h Ih) as (r & n & R & Ir & En & In_ & E & Sn).
  exists n. split; [|split; [exact In_|congruence]]. unfold bump_vertex.
  rewrite (bind_ok _ _ _ _ _ (r_vhe m v (w0_vlive v Hv))), Eh, (bind_ok _ _ _ _ _ (r_rev m h (w0_hlive h Ih))), R, (bind_ok _ _ _ _ _ (r_next m r (w0_hlive r Ir))), En.
  apply ww_vhe, w0_vlive, Hv.
Qed.
End Rot0.

Definition with_vhe (g : nat -> ptr) m : mesh N :=
  mkMesh (m_verts m) (m_hes m) (m_faces m) (m_indices m) (m_fresh m)
    (v_live m) (v_pos m) g (v_idx m) (v_lock m)
    (h_live m) (h_src m) (h_next m) (h_rev m) (h_face m) (h_idx m) (h_bd m)
    (f_live m) (f_he m) (f_idx m).

Lemma WF0_vhe m g : WF0 m -> (forall v, In v (m_verts m) -> exists h, g v = Some h /\ In h (m_hes m) /\ h_src m h = Some v) -> WF0 (with_vhe g m).
Proof. intros [] H. split; try assumption. Qed.

Lemma bump_all l : forall m, WF0 m -> (forall v, In v l -> In v (m_verts m)) ->
  exists g, mfor l bump_vertex m = Ok (tt, with_vhe g m) /\ WF0 (with_vhe g m).
Proof.
  induction l as [|v l IH]; intros m W Hl.
  - exists (v_he m). split; [destruct m; reflexivity|]. destruct m; exact W.
  - destruct (bump_ok m W v (Hl v (or_introl eq_refl))) as (n & E & I & S).
    assert (W1 : WF0 (with_vhe (fupd (v_he m) v (Some n)) m)).
    { apply WF0_vhe; [exact W|]. intros u Hu. destruct (Nat.eq_dec u v) as [->|D]; [exists n; rewrite fupd_same; auto|].
      rewrite fupd_other by exact D. apply (w0_vhe m W u Hu). }
    destruct (IH (set_v_he v (Some n) m) W1) as (g & E2 & W2); [intros u Hu; apply Hl; right; exact Hu|].
    exists g. split; [cbn [mfor]; rewrite (bind_ok _ _ _ _ _ E); exact E2|exact W2].
Qed.

End BuildRing.
