(** Rings of a well-formed mesh, and what circulations compute. *)
From Coq Require Import List ZArith Arith Lia Bool Permutation.
From Verif Require Import Num Vec Heap Mesh Spec Orbit.
Import ListNotations.
Local Open Scope mesh_scope.

(** ** Generic list facts *)

Lemma fupd_same {X} (f : nat -> X) a x : fupd f a x a = x.
Proof. unfold fupd; rewrite Nat.eqb_refl; reflexivity. Qed.
Lemma fupd_other {X} (f : nat -> X) a x b : b <> a -> fupd f a x b = f b.
Proof. intros H; unfold fupd; destruct (Nat.eqb_spec b a); [contradiction|reflexivity]. Qed.

Lemma nodup_bound_length (l : list nat) n : NoDup l -> (forall x, In x l -> x < n) -> length l <= n.
Proof.
  intros Hnd Hb. rewrite <- (seq_length n 0). apply NoDup_incl_length; [exact Hnd|].
  intros x Hx; apply in_seq; specialize (Hb _ Hx); lia.
Qed.

Lemma ptr_eqb_refl p : ptr_eqb p p = true.
Proof. destruct p; simpl; [apply Nat.eqb_refl|reflexivity]. Qed.
Lemma ptr_eqb_eq p q : ptr_eqb p q = true <-> p = q.
Proof.
  destruct p, q; simpl; try (split; congruence).
  rewrite Nat.eqb_eq; split; congruence.
Qed.
Lemma ptr_eqb_neq p q : ptr_eqb p q = false <-> p <> q.
Proof. rewrite <- not_true_iff_false, ptr_eqb_eq; reflexivity. Qed.

(** ** Monad laws *)
Section MonadLaws.
Context {N : Num}.
Implicit Types m : mesh N.

Lemma bind_ret {A B} (a : A) (k : A -> M N B) m : bind (ret a) k m = k a m.
Proof. reflexivity. Qed.
Lemma bind_get {A B} (f : mesh N -> A) (k : A -> M N B) m : bind (get f) k m = k (f m) m.
Proof. reflexivity. Qed.
Lemma bind_modify {B} f (k : unit -> M N B) m : bind (modify f) k m = k tt (f m).
Proof. reflexivity. Qed.
Lemma bind_assoc {A B C} (x : M N A) (f : A -> M N B) (g : B -> M N C) m :
  bind (bind x f) g m = bind x (fun a => bind (f a) g) m.
Proof. unfold bind; destruct (x m) as [[a m']| | |]; reflexivity. Qed.
Lemma bind_ok {A B} (x : M N A) (k : A -> M N B) m a m' : x m = Ok (a, m') -> bind x k m = k a m'.
Proof. intros H; unfold bind; rewrite H; reflexivity. Qed.
Lemma bind_assert {B} b (k : unit -> M N B) m : b = true -> bind (assertion b) k m = k tt m.
Proof. intros ->; reflexivity. Qed.
Lemma bind_inv {A B} (x : M N A) (k : A -> M N B) m b m2 :
  bind x k m = Ok (b, m2) -> exists a m1, x m = Ok (a, m1) /\ k a m1 = Ok (b, m2).
Proof. unfold bind; destruct (x m) as [[a m1]| | |]; try discriminate; eauto. Qed.

Lemma r_src m a : h_live m a = true -> he_src (Some a) m = Ok (h_src m a, m).
Proof. intros H; unfold he_src, hrd; rewrite H; reflexivity. Qed.
Lemma r_next m a : h_live m a = true -> he_next (Some a) m = Ok (h_next m a, m).
Proof. intros H; unfold he_next, hrd; rewrite H; reflexivity. Qed.
Lemma r_rev m a : h_live m a = true -> he_rev (Some a) m = Ok (h_rev m a, m).
Proof. intros H; unfold he_rev, hrd; rewrite H; reflexivity. Qed.
Lemma r_face m a : h_live m a = true -> he_face (Some a) m = Ok (h_face m a, m).
Proof. intros H; unfold he_face, hrd; rewrite H; reflexivity. Qed.
Lemma r_hidx m a : h_live m a = true -> he_idx (Some a) m = Ok (h_idx m a, m).
Proof. intros H; unfold he_idx, hrd; rewrite H; reflexivity. Qed.
Lemma r_bd m a : h_live m a = true -> he_bd (Some a) m = Ok (h_bd m a, m).
Proof. intros H; unfold he_bd, hrd; rewrite H; reflexivity. Qed.
Lemma r_pos m a : v_live m a = true -> ve_pos (Some a) m = Ok (v_pos m a, m).
Proof. intros H; unfold ve_pos, vrd; rewrite H; reflexivity. Qed.
Lemma r_vhe m a : v_live m a = true -> ve_he (Some a) m = Ok (v_he m a, m).
Proof. intros H; unfold ve_he, vrd; rewrite H; reflexivity. Qed.
Lemma r_vidx m a : v_live m a = true -> ve_idx (Some a) m = Ok (v_idx m a, m).
Proof. intros H; unfold ve_idx, vrd; rewrite H; reflexivity. Qed.
Lemma r_lock m a : v_live m a = true -> ve_lock (Some a) m = Ok (v_lock m a, m).
Proof. intros H; unfold ve_lock, vrd; rewrite H; reflexivity. Qed.
Lemma r_fhe m a : f_live m a = true -> fa_he (Some a) m = Ok (f_he m a, m).
Proof. intros H; unfold fa_he, frd; rewrite H; reflexivity. Qed.
Lemma r_fidx m a : f_live m a = true -> fa_idx (Some a) m = Ok (f_idx m a, m).
Proof. intros H; unfold fa_idx, frd; rewrite H; reflexivity. Qed.

Lemma ww_src m a x : h_live m a = true -> w_src (Some a) x m = Ok (tt, set_h_src a x m).
Proof. intros H; unfold w_src, hwr; rewrite H; reflexivity. Qed.
Lemma ww_next m a x : h_live m a = true -> w_next (Some a) x m = Ok (tt, set_h_next a x m).
Proof. intros H; unfold w_next, hwr; rewrite H; reflexivity. Qed.
Lemma ww_rev m a x : h_live m a = true -> w_rev (Some a) x m = Ok (tt, set_h_rev a x m).
Proof. intros H; unfold w_rev, hwr; rewrite H; reflexivity. Qed.
Lemma ww_face m a x : h_live m a = true -> w_face (Some a) x m = Ok (tt, set_h_face a x m).
Proof. intros H; unfold w_face, hwr; rewrite H; reflexivity. Qed.
Lemma ww_hidx m a x : h_live m a = true -> w_hidx (Some a) x m = Ok (tt, set_h_idx a x m).
Proof. intros H; unfold w_hidx, hwr; rewrite H; reflexivity. Qed.
Lemma ww_bd m a x : h_live m a = true -> w_bd (Some a) x m = Ok (tt, set_h_bd a x m).
Proof. intros H; unfold w_bd, hwr; rewrite H; reflexivity. Qed.
Lemma ww_pos m a x : v_live m a = true -> w_pos (Some a) x m = Ok (tt, set_v_pos a x m).
Proof. intros H; unfold w_pos, vwr; rewrite H; reflexivity. Qed.
Lemma ww_vhe m a x : v_live m a = true -> w_vhe (Some a) x m = Ok (tt, set_v_he a x m).
Proof. intros H; unfold w_vhe, vwr; rewrite H; reflexivity. Qed.
Lemma ww_vidx m a x : v_live m a = true -> w_vidx (Some a) x m = Ok (tt, set_v_idx a x m).
Proof. intros H; unfold w_vidx, vwr; rewrite H; reflexivity. Qed.
Lemma ww_lock m a x : v_live m a = true -> w_lock (Some a) x m = Ok (tt, set_v_lock a x m).
Proof. intros H; unfold w_lock, vwr; rewrite H; reflexivity. Qed.
Lemma ww_fhe m a x : f_live m a = true -> w_fhe (Some a) x m = Ok (tt, set_f_he a x m).
Proof. intros H; unfold w_fhe, fwr; rewrite H; reflexivity. Qed.
Lemma ww_fidx m a x : f_live m a = true -> w_fidx (Some a) x m = Ok (tt, set_f_idx a x m).
Proof. intros H; unfold w_fidx, fwr; rewrite H; reflexivity. Qed.

Lemma vec_at_ok l i a m : nth_error l i = Some a -> vec_at (N:=N) l (Z.of_nat i) m = Ok (Some a, m).
Proof.
  intros H; unfold vec_at. destruct (Z.ltb_spec (Z.of_nat i) 0); [lia|].
  rewrite Nat2Z.id, H; reflexivity.
Qed.
End MonadLaws.

(** ** Rings *)
Section Rings.
Context {N : Num}.
Implicit Types m : mesh N.

(** The rotation cycle of a vertex / the next-cycle of a face as a list. *)
Definition Vring m (v : nat) (l : list nat) : Prop :=
  cyc (rot m) l /\ NoDup l /\ forall y, In y l <-> In y (m_hes m) /\ h_src m y = Some v.
Definition Fring m (f : nat) (l : list nat) : Prop :=
  cyc (h_next m) l /\ NoDup l /\ forall y, In y l <-> In y (m_hes m) /\ h_face m y = Some f.

Section Facts.
Variable m : mesh N.
Hypothesis W : WF m.

Lemma h_alive h : In h (m_hes m) -> h_live m h = true.
Proof. intros Hi; apply In_nth_error in Hi as [i Hi]; apply (wf_h_elem m W _ _ Hi). Qed.
Lemma v_alive h : In h (m_verts m) -> v_live m h = true.
Proof. intros Hi; apply In_nth_error in Hi as [i Hi]; apply (wf_v_elem m W _ _ Hi). Qed.
Lemma f_alive h : In h (m_faces m) -> f_live m h = true.
Proof. intros Hi; apply In_nth_error in Hi as [i Hi]; apply (wf_f_elem m W _ _ Hi). Qed.
Lemma h_lt h : In h (m_hes m) -> h < m_fresh m.
Proof. intros Hi; apply In_nth_error in Hi as [i Hi]; apply (wf_h_elem m W _ _ Hi). Qed.
Lemma v_lt h : In h (m_verts m) -> h < m_fresh m.
Proof. intros Hi; apply In_nth_error in Hi as [i Hi]; apply (wf_v_elem m W _ _ Hi). Qed.
Lemma f_lt h : In h (m_faces m) -> h < m_fresh m.
Proof. intros Hi; apply In_nth_error in Hi as [i Hi]; apply (wf_f_elem m W _ _ Hi). Qed.

Lemma src_in h v : In h (m_hes m) -> h_src m h = Some v -> In v (m_verts m).
Proof. intros Hi He; destruct (wf_src m W _ Hi) as (v' & E & I); congruence. Qed.
Lemma next_in h n : In h (m_hes m) -> h_next m h = Some n -> In n (m_hes m).
Proof. intros Hi He; destruct (wf_next m W _ Hi) as (v' & E & I); congruence. Qed.
Lemma rev_in h n : In h (m_hes m) -> h_rev m h = Some n -> In n (m_hes m).
Proof. intros Hi He; destruct (wf_rev m W _ Hi) as (v' & E & I); congruence. Qed.
Lemma face_in h n : In h (m_hes m) -> h_face m h = Some n -> In n (m_faces m).
Proof. intros Hi He; destruct (wf_face m W _ Hi) as (v' & E & I); congruence. Qed.
Lemma rev_rev h r : In h (m_hes m) -> h_rev m h = Some r -> h_rev m r = Some h.
Proof. intros Hi He; apply (wf_rev_invol m W _ _ Hi He). Qed.
Lemma rev_neq h r : In h (m_hes m) -> h_rev m h = Some r -> r <> h.
Proof. intros Hi He; apply (wf_rev_invol m W _ _ Hi He). Qed.
Lemma rev_inj h h' r : In h (m_hes m) -> In h' (m_hes m) -> h_rev m h = Some r -> h_rev m h' = Some r -> h = h'.
Proof. intros Hi Hi' H H'; apply rev_rev in H, H'; congruence. Qed.

Lemma rot_some h : In h (m_hes m) -> exists r n, h_rev m h = Some r /\ h_next m r = Some n /\ rot m h = Some n /\ In r (m_hes m) /\ In n (m_hes m).
Proof.
  intros Hi. destruct (wf_rev m W _ Hi) as (r & Er & Ir). destruct (wf_next m W _ Ir) as (n & En & In_).
  exists r, n. unfold rot; rewrite Er, En; auto.
Qed.

Lemma rot_src h n : In h (m_hes m) -> rot m h = Some n -> h_src m n = h_src m h.
Proof.
  intros Hi Hr. destruct (rot_some _ Hi) as (r & n' & Er & En & E & Ir & In').
  rewrite E in Hr; injection Hr as <-.
  apply (wf_dst m W _ _ _ Ir En). apply rev_rev; assumption.
Qed.

Lemma rot_in h n : In h (m_hes m) -> rot m h = Some n -> In n (m_hes m).
Proof.
  intros Hi Hr. destruct (rot_some _ Hi) as (r & n' & Er & En & E & Ir & In').
  rewrite E in Hr; injection Hr as <-; assumption.
Qed.

Lemma reaches_rot_src h h' : In h (m_hes m) -> reaches (rot m) h h' -> In h' (m_hes m) /\ h_src m h' = h_src m h.
Proof.
  intros Hi [n Hn]; revert h Hi Hn; induction n as [|n IH]; simpl; intros h Hi; [intros [= ->]; auto|].
  destruct (rot m h) as [y|] eqn:E; [|discriminate]. intros Hn.
  destruct (IH y (rot_in _ _ Hi E) Hn) as [I S]; split; [exact I|]. rewrite S. apply rot_src; assumption.
Qed.

Lemma reaches_next_face h h' : In h (m_hes m) -> reaches (h_next m) h h' -> In h' (m_hes m) /\ h_face m h' = h_face m h.
Proof.
  intros Hi [n Hn]; revert h Hi Hn; induction n as [|n IH]; simpl; intros h Hi; [intros [= ->]; auto|].
  destruct (h_next m h) as [y|] eqn:E; [|discriminate]. intros Hn.
  destruct (IH y (next_in _ _ Hi E) Hn) as [I S]; split; [exact I|]. rewrite S.
  apply (wf_face_next m W); assumption.
Qed.

Lemma vring_at h v : In h (m_hes m) -> h_src m h = Some v -> exists l, Vring m v (h :: l).
Proof.
  intros Hi Hv. destruct (rot_some _ Hi) as (r & n & Er & En & E & Ir & In_).
  destruct (recurrent_cyc (rot m) h n E) as (l & Hc & Hnd).
  { apply (wf_vertex_orbit m W); [assumption|assumption|]. apply rot_src; assumption. }
  exists l; split; [exact Hc|split; [exact Hnd|]]. intros y; split.
  - intros Hy. assert (R : reaches (rot m) h y) by (apply (cyc_reaches _ (h :: l)); simpl; auto).
    destruct (reaches_rot_src _ _ Hi R) as [I S]; split; congruence.
  - intros [Iy Sy]. apply (cyc_reaches_in (rot m) _ h); [exact Hc|left; reflexivity|].
    apply (wf_vertex_orbit m W); congruence.
Qed.

Lemma vring v : In v (m_verts m) -> exists h l, v_he m v = Some h /\ Vring m v (h :: l).
Proof.
  intros Hi; destruct (wf_vhe m W _ Hi) as (h & E & I & S).
  destruct (vring_at h v I S) as [l Hl]; exists h, l; auto.
Qed.

Lemma fring_at h f : In h (m_hes m) -> h_face m h = Some f -> exists l, Fring m f (h :: l).
Proof.
  intros Hi Hf. destruct (wf_next m W _ Hi) as (n & E & In_).
  destruct (recurrent_cyc (h_next m) h n E) as (l & Hc & Hnd).
  { apply (wf_face_orbit m W); [assumption|assumption|]. apply (wf_face_next m W); assumption. }
  exists l; split; [exact Hc|split; [exact Hnd|]]. intros y; split.
  - intros Hy. assert (R : reaches (h_next m) h y) by (apply (cyc_reaches _ (h :: l)); simpl; auto).
    destruct (reaches_next_face _ _ Hi R) as [I S]; split; congruence.
  - intros [Iy Sy]. apply (cyc_reaches_in (h_next m) _ h); [exact Hc|left; reflexivity|].
    apply (wf_face_orbit m W); congruence.
Qed.

Lemma fring f : In f (m_faces m) -> exists h l, f_he m f = Some h /\ Fring m f (h :: l).
Proof.
  intros Hi; destruct (wf_fhe m W _ Hi) as (h & E & I & S).
  destruct (fring_at h f I S) as [l Hl]; exists h, l; auto.
Qed.

Lemma next_inj h h' n : In h (m_hes m) -> In h' (m_hes m) -> h_next m h = Some n -> h_next m h' = Some n -> h = h'.
Proof.
  intros Hi Hi' E E'. destruct (wf_face m W _ Hi) as (f & Ef & If).
  destruct (fring_at h f Hi Ef) as (l & Hc & Hnd & Hin).
  apply (cyc_inj (h_next m) (h :: l) h h' n); auto; [left; reflexivity|].
  apply Hin; split; [exact Hi'|].
  rewrite <- (wf_face_next m W _ _ Hi' E'), (wf_face_next m W _ _ Hi E); exact Ef.
Qed.

Lemma next_surj n : In n (m_hes m) -> exists h, In h (m_hes m) /\ h_next m h = Some n.
Proof.
  intros Hi. destruct (wf_face m W _ Hi) as (f & Ef & If).
  destruct (fring_at n f Hi Ef) as (l & Hc & Hnd & Hin).
  destruct (cyc_pred _ _ n Hc) as (a & Ha & E); [left; reflexivity|].
  exists a; split; [apply Hin; exact Ha|exact E].
Qed.

Lemma rot_inj h h' n : In h (m_hes m) -> In h' (m_hes m) -> rot m h = Some n -> rot m h' = Some n -> h = h'.
Proof.
  intros Hi Hi' E E'.
  destruct (rot_some _ Hi) as (r & n1 & Er & En & E1 & Ir & _).
  destruct (rot_some _ Hi') as (r' & n1' & Er' & En' & E1' & Ir' & _).
  assert (n1 = n) by congruence; assert (n1' = n) by congruence; subst.
  assert (r = r') by (eapply next_inj; eassumption); subst. eapply rev_inj; eassumption.
Qed.

Lemma vring_len v l : Vring m v l -> length l <= m_fresh m.
Proof.
  intros (_ & Hnd & Hin); apply nodup_bound_length; [exact Hnd|].
  intros x Hx; apply Hin in Hx; apply h_lt; tauto.
Qed.
Lemma fring_len v l : Fring m v l -> length l <= m_fresh m.
Proof.
  intros (_ & Hnd & Hin); apply nodup_bound_length; [exact Hnd|].
  intros x Hx; apply Hin in Hx; apply h_lt; tauto.
Qed.

(** *** Circulations are loops over the ring *)

(** A loop with break over a list. *)
Fixpoint bfold {A} (g : A -> nat -> A * bool) (acc : A) (l : list nat) : A :=
  match l with
  | [] => acc
  | y :: l' => if snd (g acc y) then fst (g acc y) else bfold g (fst (g acc y)) l'
  end.

Lemma circ_chain {A} (f : nat -> option nat) step (body : A -> ptr -> M N (A * bool)) g x0 :
  forall l x fuel acc,
  chainto f x l x0 -> ~ In x0 l -> length (x :: l) <= fuel ->
  (forall y, In y (x :: l) -> step (Some y) m = Ok (f y, m)) ->
  (forall y a, In y (x :: l) -> body a (Some y) m = Ok (g a y, m)) ->
  circ step body fuel (Some x0) (Some x) acc m = Ok (bfold g acc (x :: l), m).
Proof.
  induction l as [|z l IH]; intros x fuel acc Hc Hni Hf Hs Hb; destruct fuel as [|fuel]; try (simpl in Hf; lia).
  - simpl in Hc. cbn [circ]. rewrite (bind_ok _ _ _ _ _ (Hb x acc (or_introl eq_refl))).
    cbn [bfold]. destruct (g acc x) as [a [|]]; cbn [fst snd]; [reflexivity|].
    rewrite (bind_ok _ _ _ _ _ (Hs x (or_introl eq_refl))), Hc, ptr_eqb_refl.
    destruct fuel; reflexivity.
  - destruct Hc as [H1 H2]. cbn [circ]. rewrite (bind_ok _ _ _ _ _ (Hb x acc (or_introl eq_refl))).
    cbn [bfold]. destruct (g acc x) as [a [|]]; cbn [fst snd]; [reflexivity|].
    rewrite (bind_ok _ _ _ _ _ (Hs x (or_introl eq_refl))), H1.
    destruct (ptr_eqb (Some z) (Some x0)) eqn:E.
    + apply ptr_eqb_eq in E; injection E as ->. exfalso; apply Hni; left; reflexivity.
    + apply IH; [exact H2|intros H; apply Hni; right; exact H|simpl in *; lia| |]; intros; [apply Hs|apply Hb]; right; assumption.
Qed.

Lemma step_v_ok y : In y (m_hes m) -> step_v (Some y) m = Ok (rot m y, m).
Proof.
  intros Hi. destruct (rot_some _ Hi) as (r & n & Er & En & E & Ir & _).
  unfold step_v. rewrite (bind_ok _ _ _ _ _ (r_rev _ _ (h_alive _ Hi))), Er, E.
  rewrite r_next by (apply h_alive; exact Ir). rewrite En; reflexivity.
Qed.

Lemma circ_v_ok {A} v h l (body : A -> ptr -> M N (A * bool)) g acc :
  In v (m_verts m) -> v_he m v = Some h -> Vring m v (h :: l) ->
  (forall y a, In y (m_hes m) -> h_src m y = Some v -> body a (Some y) m = Ok (g a y, m)) ->
  circ_v (Some v) acc body m = Ok (bfold g acc (h :: l), m).
Proof.
  intros Hv Eh Hr Hb. unfold circ_v.
  rewrite (bind_ok _ _ _ _ _ (r_vhe _ _ (v_alive _ Hv))), bind_get, Eh.
  pose proof (vring_len _ _ Hr) as Hlen.
  destruct Hr as (Hc & Hnd & Hin).
  eapply circ_chain; [exact Hc|inversion Hnd; assumption|simpl in *; lia| |].
  - intros y Hy; apply step_v_ok, Hin, Hy.
  - intros y a Hy; apply Hb; apply Hin, Hy.
Qed.

Lemma circ_f_ok {A} f h l (body : A -> ptr -> M N (A * bool)) g acc :
  In f (m_faces m) -> f_he m f = Some h -> Fring m f (h :: l) ->
  (forall y a, In y (m_hes m) -> h_face m y = Some f -> body a (Some y) m = Ok (g a y, m)) ->
  circ_f (Some f) acc body m = Ok (bfold g acc (h :: l), m).
Proof.
  intros Hv Eh Hr Hb. unfold circ_f.
  rewrite (bind_ok _ _ _ _ _ (r_fhe _ _ (f_alive _ Hv))), bind_get, Eh.
  pose proof (fring_len _ _ Hr) as Hlen.
  destruct Hr as (Hc & Hnd & Hin).
  eapply circ_chain; [exact Hc|inversion Hnd; assumption|simpl in *; lia| |].
  - intros y Hy; unfold step_f; apply r_next, h_alive, Hin, Hy.
  - intros y a Hy; apply Hb; apply Hin, Hy.
Qed.

Lemma bfold_collect {X} (t : nat -> X) l acc : bfold (fun a y => (a ++ [t y], false)) acc l = acc ++ map t l.
Proof.
  revert acc; induction l as [|y l IH]; intros acc; simpl; [rewrite app_nil_r; reflexivity|].
  rewrite IH, <- app_assoc; reflexivity.
Qed.
Lemma bfold_count l acc : bfold (fun a _ => (a + 1, false)%Z) acc l = (acc + Z.of_nat (length l))%Z.
Proof. revert acc; induction l as [|y l IH]; intros acc; cbn [bfold fst snd length]; [lia|rewrite IH; lia]. Qed.
Lemma bfold_exists (p : nat -> bool) l :
  bfold (fun _ y => if p y then (true, true) else (false, false)) false l = existsb p l.
Proof. induction l as [|y l IH]; simpl; [reflexivity|]. destruct (p y); simpl; auto. Qed.
Lemma bfold_forall (p : nat -> bool) l :
  bfold (fun _ y => if p y then (true, false) else (false, true)) true l = forallb p l.
Proof. induction l as [|y l IH]; simpl; [reflexivity|]. destruct (p y); simpl; auto. Qed.

Lemma dst_ok y r : In y (m_hes m) -> h_rev m y = Some r -> he_dst (Some y) m = Ok (h_src m r, m).
Proof.
  intros Hi Hr. destruct (wf_next m W _ Hi) as (n & En & In_).
  unfold he_dst. rewrite (bind_ok _ _ _ _ _ (r_next _ _ (h_alive _ Hi))), En, r_src by (apply h_alive; exact In_).
  rewrite (wf_dst m W _ _ _ Hi En Hr); reflexivity.
Qed.

Lemma dst_of_ok y : In y (m_hes m) -> he_dst (Some y) m = Ok (dst_of m y, m).
Proof.
  intros Hi. destruct (wf_rev m W _ Hi) as (r & Er & _).
  rewrite (dst_ok _ _ Hi Er). unfold dst_of; rewrite Er; reflexivity.
Qed.

Section V.
Variables (v h : nat) (l : list nat).
Hypotheses (Hv : In v (m_verts m)) (Eh : v_he m v = Some h) (Hr : Vring m v (h :: l)).

Lemma degree_ok : degree (Some v) m = Ok (Z.of_nat (length (h :: l)), m).
Proof.
  unfold degree. rewrite (circ_v_ok v h l _ (fun d _ => (d + 1, false)%Z) _ Hv Eh Hr); [|reflexivity].
  rewrite bfold_count; reflexivity.
Qed.
Lemma v_halfedges_ok : v_halfedges (Some v) m = Ok (map Some (h :: l), m).
Proof.
  unfold v_halfedges. rewrite (circ_v_ok v h l _ (fun a y => (a ++ [Some y], false)) _ Hv Eh Hr); [|reflexivity].
  rewrite bfold_collect; reflexivity.
Qed.
Lemma v_neighbors_ok : v_neighbors (Some v) m = Ok (map (dst_of m) (h :: l), m).
Proof.
  unfold v_neighbors. rewrite (circ_v_ok v h l _ (fun a y => (a ++ [dst_of m y], false)) _ Hv Eh Hr).
  - rewrite bfold_collect; reflexivity.
  - intros y a Hi _. rewrite (bind_ok _ _ _ _ _ (dst_of_ok _ Hi)); reflexivity.
Qed.
Lemma v_faces_ok : v_faces (Some v) m = Ok (map (h_face m) (h :: l), m).
Proof.
  unfold v_faces. rewrite (circ_v_ok v h l _ (fun a y => (a ++ [h_face m y], false)) _ Hv Eh Hr).
  - rewrite bfold_collect; reflexivity.
  - intros y a Hi _. rewrite (bind_ok _ _ _ _ _ (r_face _ _ (h_alive _ Hi))); reflexivity.
Qed.
Lemma v_isBoundary_ok : v_isBoundary (Some v) m = Ok (existsb (h_bd m) (h :: l), m).
Proof.
  unfold v_isBoundary.
  rewrite (circ_v_ok v h l _ (fun _ y => if h_bd m y then (true, true) else (false, false)) _ Hv Eh Hr).
  - rewrite bfold_exists; reflexivity.
  - intros y a Hi _. rewrite (bind_ok _ _ _ _ _ (r_bd _ _ (h_alive _ Hi))); destruct (h_bd m y); reflexivity.
Qed.
End V.

Section F.
Variables (f h : nat) (l : list nat).
Hypotheses (Hf : In f (m_faces m)) (Eh : f_he m f = Some h) (Hr : Fring m f (h :: l)).

Lemma numCorners_ok : numCorners (Some f) m = Ok (Z.of_nat (length (h :: l)), m).
Proof.
  unfold numCorners. rewrite (circ_f_ok f h l _ (fun d _ => (d + 1, false)%Z) _ Hf Eh Hr); [|reflexivity].
  rewrite bfold_count; reflexivity.
Qed.
Lemma f_halfedges_ok : f_halfedges (Some f) m = Ok (map Some (h :: l), m).
Proof.
  unfold f_halfedges. rewrite (circ_f_ok f h l _ (fun a y => (a ++ [Some y], false)) _ Hf Eh Hr); [|reflexivity].
  rewrite bfold_collect; reflexivity.
Qed.
Lemma f_vertices_ok : f_vertices (Some f) m = Ok (map (h_src m) (h :: l), m).
Proof.
  unfold f_vertices. rewrite (circ_f_ok f h l _ (fun a y => (a ++ [h_src m y], false)) _ Hf Eh Hr).
  - rewrite bfold_collect; reflexivity.
  - intros y a Hi _. rewrite (bind_ok _ _ _ _ _ (r_src _ _ (h_alive _ Hi))); reflexivity.
Qed.
Lemma f_isBoundary_ok : f_isBoundary (Some f) m = Ok (existsb (h_bd m) (h :: l), m).
Proof.
  unfold f_isBoundary.
  rewrite (circ_f_ok f h l _ (fun _ y => if h_bd m y then (true, true) else (false, false)) _ Hf Eh Hr).
  - rewrite bfold_exists; reflexivity.
  - intros y a Hi _. rewrite (bind_ok _ _ _ _ _ (r_bd _ _ (h_alive _ Hi))); destruct (h_bd m y); reflexivity.
Qed.
Lemma f_isHole_ok : f_isHole (Some f) m = Ok (forallb (h_bd m) (h :: l), m).
Proof.
  unfold f_isHole.
  rewrite (circ_f_ok f h l _ (fun _ y => if h_bd m y then (true, false) else (false, true)) _ Hf Eh Hr).
  - rewrite bfold_forall; reflexivity.
  - intros y a Hi _. rewrite (bind_ok _ _ _ _ _ (r_bd _ _ (h_alive _ Hi))); destruct (h_bd m y); reflexivity.
Qed.
Definition lockb (y : nat) : bool := match h_src m y with Some s => v_lock m s | None => false end.
Lemma f_isLocked_ok : f_isLocked (Some f) m = Ok (existsb lockb (h :: l), m).
Proof.
  unfold f_isLocked.
  rewrite (circ_f_ok f h l _ (fun _ y => if lockb y then (true, true) else (false, false)) _ Hf Eh Hr).
  - rewrite bfold_exists; reflexivity.
  - intros y a Hi _. rewrite (bind_ok _ _ _ _ _ (r_src _ _ (h_alive _ Hi))). unfold lockb.
    destruct (wf_src m W _ Hi) as (s & Es & Is). rewrite Es.
    rewrite (bind_ok _ _ _ _ _ (r_lock _ _ (v_alive _ Is))); destruct (v_lock m s); reflexivity.
Qed.
End F.

(** prev() *)
Lemma prev_loop_ok self : forall l x fuel,
  chainto (h_next m) x l self -> ~ In self l -> length l <= fuel ->
  (forall y, In y (x :: l) -> In y (m_hes m)) ->
  exists p, prev_loop fuel (Some self) (Some x) m = Ok (Some p, m) /\ In p (x :: l) /\ h_next m p = Some self.
Proof.
  induction l as [|z l IH]; intros x fuel Hc Hni Hf Hi.
  - simpl in Hc. exists x. split; [|split; [left; reflexivity|exact Hc]].
    assert (L : h_live m x = true) by (apply h_alive, Hi; left; reflexivity).
    destruct fuel; cbn [prev_loop]; rewrite (bind_ok _ _ _ _ _ (r_next _ _ L)), Hc, ptr_eqb_refl; reflexivity.
  - destruct Hc as [H1 H2]. destruct fuel as [|fuel]; [simpl in Hf; lia|].
    assert (L : h_live m x = true) by (apply h_alive, Hi; left; reflexivity).
    destruct (IH z fuel H2) as (p & E & Ip & Np).
    + intros H; apply Hni; right; exact H.
    + simpl in Hf; lia.
    + intros y Hy; apply Hi; right; exact Hy.
    + exists p; split; [|split; [right; exact Ip|exact Np]].
      cbn [prev_loop]; rewrite (bind_ok _ _ _ _ _ (r_next _ _ L)), H1.
      destruct (ptr_eqb (Some z) (Some self)) eqn:Ez; [|exact E].
      apply ptr_eqb_eq in Ez; injection Ez as ->; exfalso; apply Hni; left; reflexivity.
Qed.

Lemma he_prev_ok h : In h (m_hes m) -> exists p, he_prev (Some h) m = Ok (Some p, m) /\ In p (m_hes m) /\ h_next m p = Some h.
Proof.
  intros Hi. destruct (wf_face m W _ Hi) as (f & Ef & If).
  destruct (fring_at h f Hi Ef) as (l & Hr).
  pose proof (fring_len _ _ Hr) as Hlen. destruct Hr as (Hc & Hnd & Hin).
  unfold he_prev. rewrite (bind_ok _ _ _ _ _ (r_next _ _ (h_alive _ Hi))), bind_get.
  inversion Hnd as [|? ? Hn1 Hn2]; subst.
  destruct l as [|z l].
  - simpl in Hc. exists h. split; [|split; assumption].
    destruct (m_fresh m) as [|k]; cbn [prev_loop];
      rewrite Hc, (bind_ok _ _ _ _ _ (r_next _ _ (h_alive _ Hi))), Hc, ptr_eqb_refl; reflexivity.
  - destruct Hc as [H1 H2]. rewrite H1.
    destruct (prev_loop_ok h l z (m_fresh m) H2) as (p & E & Ip & Np).
    + intros H; apply Hn1; right; exact H.
    + simpl in Hlen; lia.
    + intros y Hy; apply Hin; right; exact Hy.
    + exists p; split; [exact E|split; [|exact Np]]. apply Hin; right; exact Ip.
Qed.

End Facts.
End Rings.
