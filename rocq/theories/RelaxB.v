(** The relaxation does not read the boundary flags: its properties hold for every mesh whose faces are triangles. *)
From Coq Require Import List ZArith Arith Bool Lia Reals.
From Verif Require Import Num NumInst Vec Heap Mesh Spec Orbit Rings Exec GeomSpec VecR Measure MeasureR MeasureM SmoothSpec Curv Lapl LaplSpec LaplM Tensor TensorSpec TensorM Feat FeatSpec FilterSpec FrontA FrontS Relax RelaxSpec RelaxA RelaxQ RelaxR WholeSpec.
Import ListNotations.
Local Open Scope mesh_scope.

Section B.
Context {N : Num}.
Implicit Types m : mesh N.
Definition bdres {A} (b : nat -> bool) (r : res (A * mesh N)) : res (A * mesh N) :=
  match r with Ok (a, m) => Ok (a, with_bd b m) | UB k => UB k | Abort k => Abort k | NoFuel => NoFuel end.
(** [x] does not depend on the flags. *)
Definition Bdi {A} (x : M N A) : Prop := forall b m, x (with_bd b m) = bdres b (x m).
Lemma bdi_ret {A} (a : A) : Bdi (ret a). Proof. intros b m. reflexivity. Qed.
Lemma bdi_ub {A} k : Bdi (@ub N A k). Proof. intros b m. reflexivity. Qed.
Lemma bdi_abort {A} k : Bdi (@abort N A k). Proof. intros b m. reflexivity. Qed.
Lemma bdi_nofuel {A} : Bdi (@nofuel N A). Proof. intros b m. reflexivity. Qed.
Lemma bdi_bind {A B} (x : M N A) (k : A -> M N B) : Bdi x -> (forall a, Bdi (k a)) -> Bdi (bind x k).
Proof. intros Hx Hk b m. unfold bind. rewrite (Hx b m). destruct (x m) as [[a m1]| | |]; [apply Hk|reflexivity|reflexivity|reflexivity]. Qed.
Lemma bdi_get {A} (f : mesh N -> A) : (forall b m, f (with_bd b m) = f m) -> Bdi (get f).
Proof. intros H b m. unfold get. rewrite H. reflexivity. Qed.
Lemma bdi_hrd {X} (f : mesh N -> nat -> X) p : (forall b m, f (with_bd b m) = f m) -> Bdi (hrd f p).
Proof. intros H b m. unfold hrd. destruct p as [a|]; [|reflexivity]. change (h_live (with_bd b m) a) with (h_live m a). destruct (h_live m a); [|reflexivity]. rewrite H. reflexivity. Qed.
Lemma bdi_vrd {X} (f : mesh N -> nat -> X) p : (forall b m, f (with_bd b m) = f m) -> Bdi (vrd f p).
Proof. intros H b m. unfold vrd. destruct p as [a|]; [|reflexivity]. change (v_live (with_bd b m) a) with (v_live m a). destruct (v_live m a); [|reflexivity]. rewrite H. reflexivity. Qed.
Lemma bdi_frd {X} (f : mesh N -> nat -> X) p : (forall b m, f (with_bd b m) = f m) -> Bdi (frd f p).
Proof. intros H b m. unfold frd. destruct p as [a|]; [|reflexivity]. change (f_live (with_bd b m) a) with (f_live m a). destruct (f_live m a); [|reflexivity]. rewrite H. reflexivity. Qed.
Lemma bdi_mfold {A B} (f : B -> A -> M N B) l : (forall b a, Bdi (f b a)) -> forall acc, Bdi (mfold f acc l).
Proof. intros H. induction l as [|x l IH]; intros acc; cbn [mfold]; [apply bdi_ret|]. apply bdi_bind; [apply H|exact IH]. Qed.
Lemma bdi_mmap {A B} (f : A -> M N B) l : (forall a, Bdi (f a)) -> Bdi (mmap f l).
Proof. intros H. induction l as [|x l IH]; cbn [mmap]; [apply bdi_ret|]. apply bdi_bind; [apply H|]. intros y. apply bdi_bind; [exact IH|]. intros ys. apply bdi_ret. Qed.
Lemma bdi_circ {A} step (body : A -> ptr -> M N (A * bool)) : (forall p, Bdi (step p)) -> (forall a p, Bdi (body a p)) -> forall k s it acc, Bdi (circ step body k s it acc).
Proof.
  intros Hs Hb k. induction k as [|k IH]; intros s it acc; cbn [circ]; (destruct it as [i|]; [|apply bdi_ret]); [apply bdi_nofuel|]. apply bdi_bind; [apply Hb|]. intros r. destruct (snd r); [apply bdi_ret|]. apply bdi_bind; [apply Hs|]. intros n. apply IH.
Qed.
Lemma bdi_circ_v {A} v (acc : A) body : (forall a p, Bdi (body a p)) -> Bdi (circ_v v acc body).
Proof. intros H. apply bdi_bind; [apply bdi_vrd; reflexivity|]. intros h. apply bdi_bind; [apply bdi_get; reflexivity|]. intros fr. apply bdi_circ; [|exact H]. intros p. apply bdi_bind; [apply bdi_hrd; reflexivity|]. intros r. apply bdi_hrd. reflexivity. Qed.
Lemma bdi_circ_f {A} v (acc : A) body : (forall a p, Bdi (body a p)) -> Bdi (circ_f v acc body).
Proof. intros H. apply bdi_bind; [apply bdi_frd; reflexivity|]. intros h. apply bdi_bind; [apply bdi_get; reflexivity|]. intros fr. apply bdi_circ; [|exact H]. intros p. apply bdi_hrd. reflexivity. Qed.
End B.
Ltac head_of t := match t with ?f _ => head_of f | _ => t end.
Ltac bdi1 := cbv beta zeta; match goal with
  | |- Bdi (ret _) => apply bdi_ret
  | |- Bdi (ub _) => apply bdi_ub
  | |- Bdi (abort _) => apply bdi_abort
  | |- Bdi nofuel => apply bdi_nofuel
  | |- Bdi (get _) => apply bdi_get; reflexivity
  | |- Bdi (hrd _ _) => apply bdi_hrd; reflexivity
  | |- Bdi (vrd _ _) => apply bdi_vrd; reflexivity
  | |- Bdi (frd _ _) => apply bdi_frd; reflexivity
  | |- Bdi (bind _ _) => apply bdi_bind; [|intros ?]
  | |- Bdi (mfold _ _ _) => apply bdi_mfold; intros ? ?
  | |- Bdi (mmap _ _) => apply bdi_mmap; intros ?
  | |- Bdi (circ_v _ _ _) => apply bdi_circ_v; intros ? ?
  | |- Bdi (circ_f _ _ _) => apply bdi_circ_f; intros ? ?
  | |- Bdi (match ?x with _ => _ end) => destruct x
  | |- Bdi ?x => let h := head_of x in unfold h
  end.
Ltac bdi := repeat bdi1.

Section C.
Context {N : Num}.
Lemma bdi_normal p : Bdi (v_normal (N := N) p). Proof. bdi. Qed.
Lemma bdi_cot p : Bdi (he_cotWeight (N := N) p). Proof. bdi. Qed.
Lemma bdi_lap : Bdi (getMeshLaplacian (N := N) Cotangent). Proof. unfold getMeshLaplacian. bdi. Qed.
Lemma bdi_smooth k l : forall T, Bdi (smooth_normals (N := N) k l T).
Proof. induction k as [|k IH]; intros T; cbn [smooth_normals]; [apply bdi_ret|]. apply bdi_bind; [bdi|exact IH]. Qed.
Lemma bdi_relaxed ncos nsin sparse l : Bdi (relaxed (N := N) ncos nsin sparse l).
Proof. unfold relaxed. apply bdi_bind; [unfold new_normals; apply bdi_bind; [bdi|apply bdi_smooth]|]. intros T. bdi. Qed.
End C.

Local Open Scope R_scope.
Implicit Types m : mesh NumR.
Definition unflag m : mesh NumR := with_bd (fun _ => false) m.
Lemma unflag_back m : with_bd (h_bd m) (unflag m) = m.
Proof. destruct m. reflexivity. Qed.
Lemma unflag_ok {A} (x : M NumR A) a m : Bdi x -> (x (unflag m) = Ok (a, unflag m) <-> x m = Ok (a, m)).
Proof.
  intros H. split; intros E.
  - assert (Q := H (h_bd m) (unflag m)). rewrite unflag_back, E in Q. rewrite Q. cbn [bdres]. rewrite unflag_back. reflexivity.
  - unfold unflag. rewrite (H _ m), E. reflexivity.
Qed.
Lemma unflag_abort {A} (x : M NumR A) k m : Bdi x -> x (unflag m) = Abort k -> x m = Abort k.
Proof. intros H E. assert (Q := H (h_bd m) (unflag m)). rewrite unflag_back, E in Q. exact Q. Qed.
Lemma unflag_valid m : Triangulated m -> Valid (unflag m).
Proof. intros [A B C D]. constructor; [apply wf_bd, A|exact B|exact C|]. intros h I _. exact (D h I). Qed.
Lemma unflag_closed m : Closed (unflag m).
Proof. intros h _. reflexivity. Qed.
Lemma closed_triangulated m : Valid m -> Closed m -> Triangulated m.
Proof. intros [A B C D] K. constructor; [exact A|exact B|exact C|]. intros h I. apply D; [exact I|apply K, I]. Qed.
Lemma unflag_reach m v w : reach m v w -> reach (unflag m) v w.
Proof. induction 1 as [|w w' _ IH A]; [constructor|]. econstructor; [exact IH|exact A]. Qed.
Lemma unflag_region m l : Region m l -> Region (unflag m) l.
Proof. intros [A B C D]. constructor; [exact A|exact B|exact C|]. intros v I. destruct (D v I) as (w & R & Iw & Nw). exists w. split; [apply unflag_reach, R|]. split; [exact Iw|exact Nw]. Qed.
Lemma unflag_poisson m l b x : Poisson m l b x <-> Poisson (unflag m) l b x.
Proof. unfold Poisson. split; intros (ts & E & H); exists ts; (split; [|exact H]); apply (unflag_ok _ ts m bdi_lap), E. Qed.
Lemma unflag_smoothed m l T : Smoothed (unflag m) l T -> Smoothed m l T.
Proof.
  intros (T0 & A & B & C). exists T0. split; [intros v I; apply (unflag_ok _ _ m (bdi_normal _)), A, I|]. split; [exact B|].
  assert (S1 : forall k T T', Sweep (unflag m) k T T' -> Sweep m k T T') by (clear; induction k as [|v k IH]; intros T1 T2; cbn [Sweep]; [auto|]; intros (x & Hb & Hs); exists x; split; [exact Hb|apply IH, Hs]).
  revert C. generalize 1000%nat T0. clear - S1. induction n as [|n IH]; intros T0; cbn [Sweeps]; [auto|]. intros (T1 & Hs & Hn). exists T1. split; [apply S1, Hs|apply IH, Hn].
Qed.
Lemma unflag_relaxed m l x : Relaxed (unflag m) l x -> Relaxed m l x.
Proof. intros (T & b & A & B & C & D). exists T, b. split; [exact A|]. split; [apply unflag_smoothed, B|]. split; [exact C|]. apply unflag_poisson, D. Qed.
Lemma unflag_weights m l : GoodWeights m l -> GoodWeights (unflag m) l.
Proof.
  intros G v I. destruct (G v I) as [A (h & w & m' & Ih & Sh & E & P)].
  assert (K : forall h w m', he_cotWeight (Some h) (unflag m) = Ok (w, m') -> he_cotWeight (Some h) m = Ok (w, with_bd (h_bd m) m')).
  { clear. intros h w m' E. assert (Q := bdi_cot (Some h) (h_bd m) (unflag m)). rewrite unflag_back, E in Q. exact Q. }
  split; [intros h' w' m1 Ih' Sh' E'; exact (A h' w' _ Ih' Sh' (K h' w' m1 E'))|]. exists h, w, (with_bd (fun _ => false) m'). split; [exact Ih|]. split; [exact Sh|]. split; [|exact P]. unfold unflag. rewrite (bdi_cot (Some h) _ m), E. reflexivity.
Qed.

Theorem relaxation_tri m : Triangulated m -> NonDegenerate m -> forall l, Region m l -> forall sparse, ExactSolver sparse ->
  (exists x, relaxed (N := NumR) cos sin sparse l m = Ok (x, m) /\ Relaxed m l x) \/ relaxed (N := NumR) cos sin sparse l m = Abort AThrow.
Proof.
  intros Tg ND l Rg sparse Ex. destruct (relaxed_ok (unflag m) (unflag_valid m Tg) (unflag_closed m) ND l (unflag_region m l Rg) sparse Ex) as [(x & E & H) | E].
  - left. exists x. split; [apply (unflag_ok _ x m (bdi_relaxed _ _ _ _)), E|apply unflag_relaxed, H].
  - right. apply (unflag_abort _ _ m (bdi_relaxed _ _ _ _)), E.
Qed.
Theorem unique_tri m : Triangulated m -> NonDegenerate m -> forall l, Region m l -> forall b x x', Poisson m l b x -> Poisson m l b x' -> forall v, In v (m_verts m) -> x v = x' v.
Proof.
  intros Tg ND l Rg b x x' P P'. exact (poisson_unique (unflag m) (unflag_valid m Tg) (unflag_closed m) ND l (unflag_region m l Rg) b x x' (proj1 (unflag_poisson m l b x) P) (proj1 (unflag_poisson m l b x') P')).
Qed.
Theorem flat_tri m : Triangulated m -> NonDegenerate m -> forall l, Region m l -> forall sparse, ExactSolver sparse ->
  forall n, l <> [] -> Flat m l n -> NotTiny m l -> GoodWeights m l ->
  exists x, relaxed (N := NumR) cos sin sparse l m = Ok (x, m) /\ forall v, In v l -> x v = v_pos m v.
Proof.
  intros Tg ND l Rg sparse Ex n Nl F NT G. destruct (flat_stays (unflag m) (unflag_valid m Tg) (unflag_closed m) ND l (unflag_region m l Rg) sparse Ex n Nl F NT (unflag_weights m l G)) as (x & E & H).
  exists x. split; [apply (unflag_ok _ x m (bdi_relaxed _ _ _ _)), E|exact H].
Qed.
