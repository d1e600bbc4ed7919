(** getPrincipalCurvaturesWithDerivatives: the whole function. *)
From Coq Require Import Reals Lra Lia List ZArith Bool Arith Permutation.
From Verif Require Import Num NumInst Vec Heap Mesh Spec Orbit Rings Exec Queries GeomSpec VecR Measure MeasureR MeasureM Means SmoothSpec Curv CurvN CurvW LinR Features FeaturesR Tensor TensorSpec TensorR TensorM TensorS Deriv DerivSpec DerivR DerivM DerivT LaplP L0T L0W.
Import ListNotations.
Local Open Scope mesh_scope.
Local Open Scope R_scope.
Implicit Types m : mesh NumR.

Section Thr.
Variable thr : Prop.
Variable solve : nat -> (nat -> nat -> R) -> (nat -> R) -> nat -> R.
Hypothesis HS : ExactSolver solve.
Variable m : mesh NumR.
Hypothesis V : Valid m.
Hypothesis C : Closed m.
Hypothesis ND : NonDegenerate m.
Hypothesis Thr : thr \/ exists n, Gentle m n.
Let W := valid_wf m V.
Notation n := (nrm m).
Notation tabf := (tabf m).
Let GT : thr \/ Gentle m n := gentle_nrm thr m V Thr.

Lemma map_eq_tab {X Y} (f : X -> Y) (d : X) L L' : length L = length (m_verts m) -> length L' = length (m_verts m) -> map f L' = map f L -> forall v, In v (m_verts m) -> f (tabf d L' v) = f (tabf d L v).
Proof.
  intros H H' E v Hv. destruct (idx_nth m V v Hv) as (i & Ei & _). destruct (nth_ex _ L i v H Ei) as [x Ex]. destruct (nth_ex _ L' i v H' Ei) as [x' Ex'].
  rewrite (tabf_nth m V d L i v x Ei Ex), (tabf_nth m V d L' i v x' Ei Ex'). assert (Q := f_equal (fun l => nth_error l i) E). cbv beta in Q. rewrite !nth_error_map, Ex, Ex' in Q. cbn in Q. congruence.
Qed.
Lemma good_all T G L : CurvTensors m n T G L -> (forall v, In v (m_verts m) -> vlength (n v) = 1) /\ forall v, In v (m_verts m) -> GoodFrame (n v) (snd (tabf t0F L v)).
Proof.
  intros [Ln Nn _ Vt]. split; [intros v Hv; apply Nn, Hv|]. intros v Hv. destruct (idx_nth m V v Hv) as (i & Ei & _). destruct (nth_ex _ L i v Ln Ei) as [[t F] Ex].
  rewrite (tabf_nth m V t0F L i v (t, F) Ei Ex). exact (good_of m n T G v t F (Vt i v t F Ei Ex)).
Qed.
Lemma stage_ot (b : bool) T G L : CurvTensors m n T G L -> OT thr (if b then smoothingTensors (N := NumR) cos sin L else ret L) m
  (fun L' => length L' = length (m_verts m) /\ map snd L' = map snd L /\ (if b then exists avg, getMeanEdgeLength m = Ok (avg, m) /\ forall v, In v (m_verts m) -> Smoothed m avg n (fun w => tabf t0F L w) v (fst (tabf t0F L' v)) else True)).
Proof.
  intros CT. destruct (good_all T G L CT) as [Un Gf]. assert (LL := ct_length _ _ _ _ _ CT). destruct b; [|apply ot_ret; auto].
  eapply ot_weaken; [apply (smoothing_ot thr m V C n GT Un L LL); intros v Hv; destruct (Gf v Hv); auto|].
  intros L' (avg & Ea & H1 & H2 & H3). split; [exact H1|]. split; [exact H2|]. exists avg. auto.
Qed.
Lemma combine_map {X Y Z} (f : X -> Y) (g : X -> Z) l : combine (map f l) (map g l) = map (fun x => (f x, g x)) l.
Proof. induction l; cbn; congruence. Qed.
Lemma forall2_map_l {X Y Z} (R : Y -> Z -> Prop) (f : X -> Y) l l' : Forall2 R (map f l) l' -> Forall2 (fun x z => R (f x) z) l l'.
Proof. revert l'. induction l as [|x l IH]; intros l' H; inversion H; subst; constructor; auto. Qed.
Lemma combine_map_id {X Z} (g : X -> Z) l : combine l (map g l) = map (fun x => (x, g x)) l.
Proof. induction l; cbn; congruence. Qed.

Theorem derivs_ot (b : bool) : OT thr (getPrincipalCurvaturesWithDerivatives (N := NumR) cos sin solve b) m (Derivatives solve b m).
Proof.
  unfold getPrincipalCurvaturesWithDerivatives.
  destruct (tensors_ot thr solve HS m V C ND Thr) as [(L & EL & T & G0 & CT) | [t E]]; [|right; split; [exact t|]; unfold bind; rewrite E; reflexivity].
  apply (ot_get thr _ _ _ m _ EL). destruct (good_all T G0 L CT) as [Un Gf]. assert (LL := ct_length _ _ _ _ _ CT).
  destruct (stage_ot b T G0 L CT) as [(tf & Etf & Ltf & Sn & _) | [t E]]; [|right; split; [exact t|]; unfold bind; rewrite E; reflexivity].
  apply (ot_get thr _ _ _ m _ Etf).
  assert (Gf' : forall v, In v (m_verts m) -> GoodFrame (n v) (snd (tabf t0F tf v))) by (intros v Hv; rewrite (map_eq_tab snd t0F L tf LL Ltf Sn v Hv); exact (Gf v Hv)).
  destruct (princ_ot thr m V n Un tf Ltf Gf') as [(K & EK & HK) | [t E]]; [|right; split; [exact t|]; unfold bind; rewrite E; reflexivity].
  assert (LK' := LK m tf Ltf K HK).
  apply (ot_get thr _ _ _ m _ EK). apply (ot_get thr _ _ _ m _ (eq_refl : get m_faces m = Ok (m_faces m, m))).
  eapply ot_bind; [apply (ot_mmap thr _ (FaceD m n K)); intros f If; apply (face_deriv_ot thr solve HS m V C ND n GT Un tf Ltf Gf' K HK f If)|]. intros ft Hft.
  apply (ot_get thr _ _ _ m _ (eq_refl : get m_verts m = Ok (m_verts m, m))).
  set (F := fun v => snd (tabf t0F tf v)). set (P := fun v => tabf p0 K v). set (D := fun f => tabff m d0F ft f).
  assert (EC : combine (m_verts m) (combine tf K) = map (fun v => (v, (tabf t0F tf v, P v))) (m_verts m)).
  { rewrite <- (tabf_map m V t0F tf Ltf) at 1. rewrite <- (tabf_map m V p0 K LK') at 1. rewrite combine_map, combine_map_id. reflexivity. }
  rewrite EC.
  eapply ot_bind; [apply (ot_mmap thr _ (fun vx e => VertexDeriv m n (snd (fst (snd vx))) (snd (snd vx)) (fun f => fst (D f)) (fun f => snd (D f)) (fst vx) e))|].
  { intros vx Ix. apply in_map_iff in Ix. destruct Ix as (v & <- & Hv). cbn [fst snd].
    eapply ot_weaken; [apply (vertex_deriv_ot thr m V C ND n GT Un K ft Hft v (F v) Hv (Gf' v Hv))|]. intros e He. apply He.
    assert (KA := K_at m V tf Ltf K HK v Hv). unfold princ in KA. exact (principal_span _ _ _ _ _ _ _ KA). }
  intros es Hes. apply ot_ret. apply forall2_map_l in Hes. cbn [fst snd] in Hes. destruct (forall2_nth _ _ _ Hes) as [Le Pe].
  set (E := fun v => tabf (0, 0) es v).
  exists L, n, T, G0, F, P, (fun f => fst (D f)), (fun f => snd (D f)), E. split; [exact EL|]. split; [exact CT|]. split; [|split; [|split; [|constructor]]].
  - rewrite <- Sn. transitivity (map snd (map (tabf t0F tf) (m_verts m))); [rewrite map_map; reflexivity|rewrite (tabf_map m V t0F tf Ltf); reflexivity].
  - unfold getPrincipalCurvatures. rewrite (bind_ok _ _ _ _ _ EL), (bind_ok _ _ _ _ _ Etf). change (map P (m_verts m)) with (map (tabf p0 K) (m_verts m)). rewrite (tabf_map m V p0 K LK'). exact EK.
  - transitivity (combine (map (tabf p0 K) (m_verts m)) (map (tabf (0, 0) es) (m_verts m))); [rewrite (tabf_map m V p0 K LK'), (tabf_map m V (0, 0) es Le); reflexivity|rewrite combine_map; reflexivity].
  - intros f a c d If Tf. exact (D_at m V n K ft Hft f If a c d Tf).
  - intros v Hv. split; [apply (gf_n _ _ (Gf' v Hv))|]. destruct (idx_nth m V v Hv) as (i & Ei & _). destruct (nth_ex _ es i v Le Ei) as [e Ee]. unfold E. rewrite (tabf_nth m V (0, 0) es i v e Ei Ee). exact (Pe i v e Ei Ee).
Qed.
Theorem smoothing_whole T G L : CurvTensors m n T G L -> OT thr (smoothingTensors (N := NumR) cos sin L) m (SmoothedTensors m n L).
Proof.
  intros CT. assert (LL := ct_length _ _ _ _ _ CT). eapply ot_weaken; [exact (stage_ot true T G L CT)|]. cbv iota. intros L' (H1 & H2 & avg & Ea & H3).
  exists avg, (fun v => tabf t0F L v), (fun v => tabf t0F L' v). split; [exact Ea|]. split; [apply (tabf_map m V t0F L LL)|]. split; [apply (tabf_map m V t0F L' H1)|]. intros v Hv. split; [exact (map_eq_tab snd t0F L L' LL H1 H2 v Hv)|exact (H3 v Hv)].
Qed.
End Thr.

Theorem derivs_ok solve b m : ExactSolver solve -> Valid m -> Closed m -> NonDegenerate m ->
  (exists out, getPrincipalCurvaturesWithDerivatives (N := NumR) cos sin solve b m = Ok (out, m) /\ Derivatives solve b m out) \/ getPrincipalCurvaturesWithDerivatives (N := NumR) cos sin solve b m = Abort AThrow.
Proof. intros HS V C ND. destruct (derivs_ot True solve HS m V C ND (or_introl I) b) as [H | [_ E]]; [left; exact H|right; exact E]. Qed.
Theorem derivs_total solve b m n : ExactSolver solve -> Valid m -> Closed m -> NonDegenerate m -> Gentle m n ->
  exists out, getPrincipalCurvaturesWithDerivatives (N := NumR) cos sin solve b m = Ok (out, m) /\ Derivatives solve b m out.
Proof. intros HS V C ND Ge. destruct (derivs_ot False solve HS m V C ND (or_intror (ex_intro _ n Ge)) b) as [H | [[] _]]; exact H. Qed.
Lemma ct_nrm m n T G L : WF m -> CurvTensors m n T G L -> forall v, In v (m_verts m) -> n v = nrm m v.
Proof. intros W CT v Hv. unfold nrm. rewrite (proj1 (ct_normal _ _ _ _ _ CT v Hv)). reflexivity. Qed.
Theorem smoothing_ok solve m : ExactSolver solve -> Valid m -> Closed m -> NonDegenerate m -> forall L, getCurvatureTensors (N := NumR) cos sin solve m = Ok (L, m) ->
  exists n T G, CurvTensors m n T G L /\
  ((exists L', smoothingTensors (N := NumR) cos sin L m = Ok (L', m) /\ SmoothedTensors m n L L') \/ smoothingTensors (N := NumR) cos sin L m = Abort AThrow).
Proof.
  intros HS V C ND L EL. destruct (tensors_ot True solve HS m V C ND (or_introl I)) as [(L' & E & T & G & CT) | [_ E]]; [|congruence]. rewrite EL in E. injection E as <-.
  exists (nrm m), T, G. split; [exact CT|]. destruct (smoothing_whole True m V C (or_introl I) T G L CT) as [H | [_ E]]; [left; exact H|right; exact E].
Qed.
