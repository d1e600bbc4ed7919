(** An edit that returns false has not written anything, on any mesh. *)
From Coq Require Import List ZArith Arith Bool.
From Verif Require Import Num Vec Heap Mesh Spec Rings.
Import ListNotations.
Local Open Scope mesh_scope.

Section Refuse.
Context {N : Num}.

(** [x] only reads. *)
Definition ro {A} (x : M N A) : Prop := forall m a m', x m = Ok (a, m') -> m' = m.
(** [x] returns false only if it has not written. *)
Definition rof (x : M N bool) : Prop := forall m m', x m = Ok (false, m') -> m' = m.
(** [x] does not return false. *)
Definition nf (x : M N bool) : Prop := forall m m', x m <> Ok (false, m').

Lemma ro_ret {A} (a : A) : ro (ret a). Proof. intros m b m' [=]; auto. Qed.
Lemma ro_get {A} (f : mesh N -> A) : ro (get f). Proof. intros m b m' [=]; auto. Qed.
Lemma ro_abort {A} u : ro (abort (A:=A) u). Proof. intros m b m' [=]. Qed.
Lemma ro_ub {A} u : ro (ub (A:=A) u). Proof. intros m b m' [=]. Qed.
Lemma ro_nofuel {A} : ro (nofuel (A:=A)). Proof. intros m b m' [=]. Qed.
Lemma ro_assertion b : ro (assertion b). Proof. destruct b; [apply ro_ret|apply ro_abort]. Qed.
Lemma ro_lift {A} (o : option A) : ro (lift o). Proof. destruct o; [apply ro_ret|apply ro_abort]. Qed.
Lemma ro_hrd {X} (f : mesh N -> nat -> X) p : ro (hrd f p).
Proof. intros m b m'. unfold hrd. destruct p as [a|]; [destruct (h_live m a)|]; intros [=]; auto. Qed.
Lemma ro_vrd {X} (f : mesh N -> nat -> X) p : ro (vrd f p).
Proof. intros m b m'. unfold vrd. destruct p as [a|]; [destruct (v_live m a)|]; intros [=]; auto. Qed.
Lemma ro_frd {X} (f : mesh N -> nat -> X) p : ro (frd f p).
Proof. intros m b m'. unfold frd. destruct p as [a|]; [destruct (f_live m a)|]; intros [=]; auto. Qed.
Lemma ro_bind {A B} (x : M N A) (k : A -> M N B) : ro x -> (forall a, ro (k a)) -> ro (bind x k).
Proof. intros Hx Hk m b m' H. destruct (bind_inv _ _ _ _ _ H) as (a & m1 & E1 & E2). rewrite <- (Hx _ _ _ E1). eapply Hk, E2. Qed.

Lemma rof_bind {A} (x : M N A) (k : A -> M N bool) : ro x -> (forall a, rof (k a)) -> rof (bind x k).
Proof. intros Hx Hk m m' H. destruct (bind_inv _ _ _ _ _ H) as (a & m1 & E1 & E2). rewrite <- (Hx _ _ _ E1). eapply Hk, E2. Qed.
Lemma rof_ret b : rof (ret b). Proof. intros m m' [=]; auto. Qed.
Lemma rof_abort u : rof (abort u). Proof. intros m m' [=]. Qed.
Lemma rof_nf x : nf x -> rof x. Proof. intros H m m' E. destruct (H _ _ E). Qed.
Lemma nf_bind {A} (x : M N A) (k : A -> M N bool) : (forall a, nf (k a)) -> nf (bind x k).
Proof. intros Hk m m' H. destruct (bind_inv _ _ _ _ _ H) as (a & m1 & E1 & E2). exact (Hk _ _ _ E2). Qed.
Lemma nf_ret : nf (ret true). Proof. intros m m' [=]. Qed.

Lemma ro_circ {A} step (body : A -> ptr -> M N (A * bool)) :
  (forall p, ro (step p)) -> (forall a p, ro (body a p)) -> forall fuel start it acc, ro (circ step body fuel start it acc).
Proof.
  intros Hs Hb. induction fuel as [|fuel IH]; intros start it acc; destruct it as [a|]; cbn [circ]; try apply ro_ret; try apply ro_nofuel.
  apply ro_bind; [apply Hb|]. intros [x b]. cbn [fst snd]. destruct b; [apply ro_ret|]. apply ro_bind; [apply Hs|]. intros n. apply IH.
Qed.
Lemma ro_step_v p : ro (step_v p). Proof. apply ro_bind; intros; apply ro_hrd. Qed.
Lemma ro_circ_v {A} v acc (body : A -> ptr -> M N (A * bool)) : (forall a p, ro (body a p)) -> ro (circ_v v acc body).
Proof.
  intros Hb. apply ro_bind; [apply ro_vrd|intros h]. apply ro_bind; [apply ro_get|intros fr]. apply ro_circ; [apply ro_step_v|exact Hb].
Qed.
Lemma ro_circ_f {A} v acc (body : A -> ptr -> M N (A * bool)) : (forall a p, ro (body a p)) -> ro (circ_f v acc body).
Proof.
  intros Hb. apply ro_bind; [apply ro_frd|intros h]. apply ro_bind; [apply ro_get|intros fr]. apply ro_circ; [intros p; apply ro_hrd|exact Hb].
Qed.
Lemma ro_prev_loop : forall fuel self it, ro (prev_loop (N:=N) fuel self it).
Proof.
  induction fuel as [|fuel IH]; intros self it; cbn [prev_loop]; (apply ro_bind; [apply ro_hrd|intros n]);
    destruct (ptr_eqb n self); try apply ro_ret; [apply ro_nofuel|apply IH].
Qed.
Lemma ro_he_prev p : ro (he_prev (N:=N) p).
Proof. apply ro_bind; [apply ro_hrd|intros it]. apply ro_bind; [apply ro_get|intros fr]. apply ro_prev_loop. Qed.
Lemma ro_he_dst p : ro (he_dst (N:=N) p). Proof. apply ro_bind; intros; apply ro_hrd. Qed.
Lemma ro_degree v : ro (degree (N:=N) v). Proof. apply ro_circ_v. intros; apply ro_ret. Qed.
Lemma ro_f_isBoundary v : ro (f_isBoundary (N:=N) v).
Proof. apply ro_circ_f. intros a p. apply ro_bind; [apply ro_hrd|intros b; apply ro_ret]. Qed.
Lemma ro_mmap {A B} (f : A -> M N B) l : (forall a, ro (f a)) -> ro (mmap f l).
Proof.
  intros Hf. induction l as [|x l IH]; cbn [mmap]; [apply ro_ret|]. apply ro_bind; [apply Hf|intros y]. apply ro_bind; [exact IH|intros; apply ro_ret].
Qed.

Ltac ro1 := first
  [ apply ro_hrd | apply ro_vrd | apply ro_frd | apply ro_get | apply ro_assertion | apply ro_lift | apply ro_ret
  | apply ro_degree | apply ro_f_isBoundary | apply ro_he_prev | apply ro_he_dst
  | apply ro_mmap; intros ?
  | apply ro_circ_v; intros ? ? | apply ro_bind; [|intros ?]
  | match goal with |- ro (if ?b then _ else _) => destruct b end ].
Ltac rof1 := cbv zeta; first
  [ apply rof_ret | apply rof_abort
  | apply rof_bind; [solve [repeat ro1]|intros ?]
  | match goal with |- rof (if ?b then _ else _) => destruct b end
  | match goal with |- rof (match ?p with Some _ => _ | None => _ end) => destruct p end ].
Ltac nf1 := first [apply nf_ret | apply nf_bind; intros ?].

Lemma split_refused he : rof (splitHE he).
Proof. unfold splitHE. repeat rof1. apply rof_nf. repeat nf1. Qed.
Lemma flip_refused he : rof (flipHE he).
Proof. unfold flipHE. repeat rof1. apply rof_nf. repeat nf1. Qed.
Lemma collapse_refused he : rof (collapseHE he).
Proof. unfold collapseHE. repeat rof1. apply rof_nf. repeat nf1. Qed.

End Refuse.
