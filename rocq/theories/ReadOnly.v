(** Programs that do not change the mesh. *)
From Coq Require Import Bool List ZArith Arith Lia.
From Verif Require Import Num Vec Heap Mesh Measure Tensor Deriv Feat Lapl Hks Bvh Gmm Icp Repair Coherent.
Import ListNotations.

Section RO.
Context {N : Num}.
Definition Ro {A} (x : M N A) : Prop := forall (m : mesh N) a m', x m = Ok (a, m') -> m' = m.
Lemma ro_ret {A} (a : A) : Ro (ret a). Proof. intros m b m' H. injection H as _ <-. reflexivity. Qed.
Lemma ro_bind {A B} (x : M N A) (k : A -> M N B) : Ro x -> (forall a, Ro (k a)) -> Ro (bind x k).
Proof. intros Hx Hk m b m' H. unfold bind in H. destruct (x m) as [[a m1]| | |] eqn:E; try discriminate. apply Hx in E. subst m1. exact (Hk a m b m' H). Qed.
Lemma ro_ub {A} u : Ro (@ub N A u). Proof. intros m a m' H. discriminate H. Qed.
Lemma ro_abort {A} u : Ro (@abort N A u). Proof. intros m a m' H. discriminate H. Qed.
Lemma ro_nofuel {A} : Ro (@nofuel N A). Proof. intros m a m' H. discriminate H. Qed.
Lemma ro_get {A} (f : mesh N -> A) : Ro (get f). Proof. intros m a m' H. injection H as _ <-. reflexivity. Qed.
Lemma ro_hrd {X} (f : mesh N -> nat -> X) p : Ro (hrd f p).
Proof. intros m a m' H. unfold hrd in H. destruct p as [b|]; [|discriminate]. destruct (h_live m b); [|discriminate]. injection H as _ <-. reflexivity. Qed.
Lemma ro_vrd {X} (f : mesh N -> nat -> X) p : Ro (vrd f p).
Proof. intros m a m' H. unfold vrd in H. destruct p as [b|]; [|discriminate]. destruct (v_live m b); [|discriminate]. injection H as _ <-. reflexivity. Qed.
Lemma ro_frd {X} (f : mesh N -> nat -> X) p : Ro (frd f p).
Proof. intros m a m' H. unfold frd in H. destruct p as [b|]; [|discriminate]. destruct (f_live m b); [|discriminate]. injection H as _ <-. reflexivity. Qed.
Lemma ro_mfold {A B} (f : B -> A -> M N B) l : (forall b a, Ro (f b a)) -> forall acc, Ro (mfold f acc l).
Proof. intros H. induction l as [|x l IH]; intros acc; cbn [mfold]; [apply ro_ret|]. apply ro_bind; [apply H|exact IH]. Qed.
Lemma ro_mmap {A B} (f : A -> M N B) l : (forall a, Ro (f a)) -> Ro (mmap f l).
Proof. intros H. induction l as [|x l IH]; cbn [mmap]; [apply ro_ret|]. apply ro_bind; [apply H|]. intros y. apply ro_bind; [exact IH|]. intros ys. apply ro_ret. Qed.
Lemma ro_circ {A} step (body : A -> ptr -> M N (A * bool)) : (forall p, Ro (step p)) -> (forall a p, Ro (body a p)) -> forall k s it acc, Ro (circ step body k s it acc).
Proof.
  intros Hs Hb k. induction k as [|k IH]; intros s it acc; cbn [circ]; (destruct it as [i|]; [|apply ro_ret]); [apply ro_nofuel|]. apply ro_bind; [apply Hb|]. intros r. destruct (snd r); [apply ro_ret|]. apply ro_bind; [apply Hs|]. intros n. apply IH.
Qed.
Lemma ro_liftr {A} (r : res A) : Ro (liftr (N := N) r). Proof. intros m a m' H. unfold liftr in H. destruct r; try discriminate. injection H as _ <-. reflexivity. Qed.
Lemma ro_step_v p : Ro (step_v p). Proof. apply ro_bind; [apply ro_hrd|]. intros r. apply ro_hrd. Qed.
Lemma ro_step_f p : Ro (step_f p). Proof. apply ro_hrd. Qed.
Lemma ro_circ_v {A} v (acc : A) body : (forall a p, Ro (body a p)) -> Ro (circ_v v acc body).
Proof. intros H. apply ro_bind; [apply ro_vrd|]. intros h. apply ro_bind; [apply ro_get|]. intros fr. apply ro_circ; [exact ro_step_v|exact H]. Qed.
Lemma ro_circ_f {A} v (acc : A) body : (forall a p, Ro (body a p)) -> Ro (circ_f v acc body).
Proof. intros H. apply ro_bind; [apply ro_frd|]. intros h. apply ro_bind; [apply ro_get|]. intros fr. apply ro_circ; [exact ro_step_f|exact H]. Qed.
End RO.
Ltac head_of t := match t with ?f _ => head_of f | _ => t end.
Ltac ro1 := cbv beta zeta; match goal with
  | |- Ro (ret _) => apply ro_ret
  | |- Ro (ub _) => apply ro_ub
  | |- Ro (abort _) => apply ro_abort
  | |- Ro nofuel => apply ro_nofuel
  | |- Ro (get _) => apply ro_get
  | |- Ro (hrd _ _) => apply ro_hrd
  | |- Ro (vrd _ _) => apply ro_vrd
  | |- Ro (frd _ _) => apply ro_frd
  | |- Ro (liftr _) => apply ro_liftr
  | |- Ro (bind _ _) => apply ro_bind; [|intros ?]
  | |- Ro (mfold _ _ _) => apply ro_mfold; intros ? ?
  | |- Ro (mmap _ _) => apply ro_mmap; intros ?
  | |- Ro (circ_v _ _ _) => apply ro_circ_v; intros ? ?
  | |- Ro (circ_f _ _ _) => apply ro_circ_f; intros ? ?
  | |- Ro (match ?x with _ => _ end) => destruct x
  | H : forall _, Ro _ |- _ => solve [apply H]
  | H : forall _ _, Ro _ |- _ => solve [apply H]
  | |- Ro ?x => let h := head_of x in unfold h
  end.
Ltac ro := repeat ro1.

Section Programs.
Context {N : Num}.
Lemma ro_edge_reps l : forall seen, Ro (edge_reps (N := N) l seen).
Proof. induction l as [|a l IH]; intros seen; cbn [edge_reps]; ro. Qed.
Lemma ro_meanEdge : Ro (getMeanEdgeLength (N := N)).
Proof. unfold getMeanEdgeLength. apply ro_bind; [ro|]. intros l. apply ro_bind; [apply ro_edge_reps|]. intros s. ro. Qed.
Lemma ro_meanArea : Ro (getMeanFaceArea (N := N)). Proof. ro. Qed.
Variables (ncos nsin : num -> num) (ldlt sparse : nat -> (nat -> nat -> num) -> (nat -> num) -> nat -> num).
Lemma ro_tensors : Ro (getCurvatureTensors ncos nsin ldlt).
Proof.
  unfold getCurvatureTensors. apply ro_bind; [ro|]. intros vs. apply ro_bind; [ro|]. intros fs. apply ro_bind; [ro|]. intros normals. apply ro_bind; [apply ro_meanEdge|]. intros avg. apply ro_bind; [ro|]. intros ?. apply ro_bind; [ro|]. intros ft. ro.
Qed.
Lemma ro_smoothing tf : Ro (smoothingTensors ncos nsin tf).
Proof. unfold smoothingTensors. apply ro_bind; [ro|]. intros vs. apply ro_bind; [apply ro_meanEdge|]. intros avg. ro. Qed.
Lemma ro_curvatures b : Ro (getPrincipalCurvatures ncos nsin ldlt b).
Proof. unfold getPrincipalCurvatures. apply ro_bind; [apply ro_tensors|]. intros tf. apply ro_bind; [destruct b; [apply ro_smoothing|ro]|]. intros tf'. ro. Qed.
Lemma ro_derivs b : Ro (getPrincipalCurvaturesWithDerivatives ncos nsin ldlt b).
Proof. unfold getPrincipalCurvaturesWithDerivatives. apply ro_bind; [apply ro_tensors|]. intros tf. apply ro_bind; [destruct b; [apply ro_smoothing|ro]|]. intros tf'. ro. Qed.
Lemma ro_field b : Ro (getFeatureLineFieldWithFlags ncos nsin ldlt sparse b).
Proof. unfold getFeatureLineFieldWithFlags. apply ro_bind; [apply ro_derivs|]. intros X. ro. Qed.
Lemma ro_laplacian : Ro (getMeshLaplacian (N := N) Cotangent). Proof. ro. Qed.
Lemma ro_spread k : forall rad vis que, Ro (spread (N := N) k rad vis que).
Proof. induction k as [|k IH]; intros rad vis que; cbn [spread]; ro; apply IH. Qed.
Variable horder : forall A : Type, list A -> list A.
Lemma ro_patches rad : Ro (patches (N := N) horder rad).
Proof.
  unfold patches. apply ro_bind; [ro|]. intros n. apply ro_mmap. intros i. apply ro_bind; [|intros fs; ro]. unfold patch_faces. apply ro_bind; [ro|]. intros c. apply ro_bind; [ro|]. intros fs. apply ro_bind; [ro|]. intros k. apply ro_bind; [apply ro_spread|]. intros l. ro.
Qed.
Lemma ro_ids b : Ro (ids_with (N := N) b). Proof. ro. Qed.
Variables (trunc nceil : num -> Z) (nlog pow5 : num -> num) (eigs : nat -> (nat -> nat -> num) -> nat -> option ((nat -> num) * (nat -> nat -> num))) (svd : mat3 N -> mat3 N * vec N * mat3 N) (alg : algos).
Lemma ro_candidates dims t P s g : Ro (candidates trunc dims t P s g). Proof. ro. Qed.
Lemma ro_prepare t P flf x : Ro (prepare trunc svd alg t P flf x). Proof. ro. Qed.
Lemma ro_measured avg : Ro (measured nceil nlog ncos nsin ldlt eigs avg).
Proof. unfold measured. apply ro_bind; [apply ro_curvatures|]. intros K. cbv zeta. apply ro_bind; [apply ro_laplacian|]. intros L. ro. Qed.
Lemma ro_aims T : Ro (aims pow5 T). Proof. ro. Qed.
Lemma ro_soft ids : Ro (soft_system (N := N) ids). Proof. ro. Qed.
End Programs.
