(** Tactics for running the model symbolically, and counting facts. *)
From Coq Require Import List ZArith Arith Lia Bool Permutation.
From Verif Require Import Num Vec Heap Mesh Spec Orbit Rings.
Import ListNotations.
Local Open Scope mesh_scope.

(** Evaluate [fupd] chains, given the needed disequalities in the context. *)
Ltac neq_tac := first [assumption | apply not_eq_sym; assumption
  | match goal with
    | H : ?a < _ |- ?a <> _ => clear - H; lia
    | H : ?b < _ |- _ <> ?b => clear - H; lia
    end
  | (clear; lia) | congruence ].
Ltac fu := repeat first [rewrite fupd_same | rewrite fupd_other by neq_tac].
Ltac flds := cbn [m_verts m_hes m_faces m_indices m_fresh v_live v_pos v_he v_idx v_lock
  h_live h_src h_next h_rev h_face h_idx h_bd f_live f_he f_idx
  set_m_verts set_m_hes set_m_faces set_m_indices set_m_fresh set_v_live set_v_pos set_v_he set_v_idx set_v_lock
  set_h_live set_h_src set_h_next set_h_rev set_h_face set_h_idx set_h_bd set_f_live set_f_he set_f_idx].

(** Liveness of a pointer in a modified state. *)
Ltac live := first [assumption | (flds; fu; first [assumption | reflexivity])].

(** One step of a monadic program. *)
Ltac mstep :=
  lazymatch goal with
  | |- bind (ret _) _ _ = _ => rewrite bind_ret
  | |- bind (get _) _ _ = _ => rewrite bind_get
  | |- bind (modify _) _ _ = _ => rewrite bind_modify
  | |- bind (bind _ _) _ _ = _ => rewrite bind_assoc
  | |- bind (he_src (Some ?a)) ?k ?m = _ => rewrite (bind_ok _ k m _ _ (r_src m a ltac:(live)))
  | |- bind (he_next (Some ?a)) ?k ?m = _ => rewrite (bind_ok _ k m _ _ (r_next m a ltac:(live)))
  | |- bind (he_rev (Some ?a)) ?k ?m = _ => rewrite (bind_ok _ k m _ _ (r_rev m a ltac:(live)))
  | |- bind (he_face (Some ?a)) ?k ?m = _ => rewrite (bind_ok _ k m _ _ (r_face m a ltac:(live)))
  | |- bind (he_idx (Some ?a)) ?k ?m = _ => rewrite (bind_ok _ k m _ _ (r_hidx m a ltac:(live)))
  | |- bind (he_bd (Some ?a)) ?k ?m = _ => rewrite (bind_ok _ k m _ _ (r_bd m a ltac:(live)))
  | |- bind (ve_pos (Some ?a)) ?k ?m = _ => rewrite (bind_ok _ k m _ _ (r_pos m a ltac:(live)))
  | |- bind (ve_he (Some ?a)) ?k ?m = _ => rewrite (bind_ok _ k m _ _ (r_vhe m a ltac:(live)))
  | |- bind (ve_idx (Some ?a)) ?k ?m = _ => rewrite (bind_ok _ k m _ _ (r_vidx m a ltac:(live)))
  | |- bind (ve_lock (Some ?a)) ?k ?m = _ => rewrite (bind_ok _ k m _ _ (r_lock m a ltac:(live)))
  | |- bind (fa_he (Some ?a)) ?k ?m = _ => rewrite (bind_ok _ k m _ _ (r_fhe m a ltac:(live)))
  | |- bind (fa_idx (Some ?a)) ?k ?m = _ => rewrite (bind_ok _ k m _ _ (r_fidx m a ltac:(live)))
  | |- bind (w_src (Some ?a) ?x) ?k ?m = _ => rewrite (bind_ok _ k m _ _ (ww_src m a x ltac:(live)))
  | |- bind (w_next (Some ?a) ?x) ?k ?m = _ => rewrite (bind_ok _ k m _ _ (ww_next m a x ltac:(live)))
  | |- bind (w_rev (Some ?a) ?x) ?k ?m = _ => rewrite (bind_ok _ k m _ _ (ww_rev m a x ltac:(live)))
  | |- bind (w_face (Some ?a) ?x) ?k ?m = _ => rewrite (bind_ok _ k m _ _ (ww_face m a x ltac:(live)))
  | |- bind (w_hidx (Some ?a) ?x) ?k ?m = _ => rewrite (bind_ok _ k m _ _ (ww_hidx m a x ltac:(live)))
  | |- bind (w_bd (Some ?a) ?x) ?k ?m = _ => rewrite (bind_ok _ k m _ _ (ww_bd m a x ltac:(live)))
  | |- bind (w_pos (Some ?a) ?x) ?k ?m = _ => rewrite (bind_ok _ k m _ _ (ww_pos m a x ltac:(live)))
  | |- bind (w_vhe (Some ?a) ?x) ?k ?m = _ => rewrite (bind_ok _ k m _ _ (ww_vhe m a x ltac:(live)))
  | |- bind (w_vidx (Some ?a) ?x) ?k ?m = _ => rewrite (bind_ok _ k m _ _ (ww_vidx m a x ltac:(live)))
  | |- bind (w_lock (Some ?a) ?x) ?k ?m = _ => rewrite (bind_ok _ k m _ _ (ww_lock m a x ltac:(live)))
  | |- bind (w_fhe (Some ?a) ?x) ?k ?m = _ => rewrite (bind_ok _ k m _ _ (ww_fhe m a x ltac:(live)))
  | |- bind (w_fidx (Some ?a) ?x) ?k ?m = _ => rewrite (bind_ok _ k m _ _ (ww_fidx m a x ltac:(live)))
  end.

Section Exec.
Context {N : Num}.
Implicit Types m : mesh N.

Lemma vring_deg m v l : WF m -> Vring m v l -> length l = deg_of m v.
Proof.
  intros W (_ & Hnd & Hin). unfold deg_of. apply Permutation_length, NoDup_Permutation.
  - exact Hnd.
  - apply NoDup_filter, (wf_h_nodup m W).
  - intros y. rewrite Hin, filter_In, ptr_eqb_eq. tauto.
Qed.

Lemma deg_ok m v : WF m -> In v (m_verts m) -> degree (Some v) m = Ok (Z.of_nat (deg_of m v), m).
Proof.
  intros W Hv. destruct (vring m W v Hv) as (h & l & Eh & Hr).
  rewrite (degree_ok m W v h l Hv Eh Hr), (vring_deg _ _ _ W Hr). reflexivity.
Qed.

Lemma deg_pos m v : WF m -> In v (m_verts m) -> 0 < deg_of m v.
Proof.
  intros W Hv. destruct (vring m W v Hv) as (h & l & Eh & Hr).
  rewrite <- (vring_deg _ _ _ W Hr). simpl; lia.
Qed.

(** Rings give the orbit clauses of [WF]. *)
Lemma cyc_orbit f l (P : nat -> Prop) :
  cyc f l -> (forall y, P y -> In y l) -> forall a b, P a -> P b -> reaches f a b.
Proof. intros Hc HP a b Ha Hb; eapply cyc_reaches; [exact Hc| |]; auto. Qed.

End Exec.
