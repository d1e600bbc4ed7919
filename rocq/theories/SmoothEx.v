(** Bundles and examples for PropSmooth.v. *)
From Coq Require Import Reals Lra Lia List ZArith Floats Arith.
From Verif Require Import Num NumInst Vec VecR Heap Mesh Construct Spec BuildSpec Witness GeomSpec Prog SmoothSpec Smooth SmoothD SmoothDn SmoothR MeasureM ExamplesR.
Import ListNotations.

Section A.
Context {N : Num}.
Lemma smoothing_ok (m : mesh N) n o : WF m ->
  ((exists eps cot, smoothLaplacian eps cot n m o) \/ (exists a b, smoothTaubin a b n m o)) ->
  (exists m', o = Ok m' /\ posonly m m' /\ kept m m') \/ o = Abort AThrow.
Proof.
  intros W [(eps & cot & H) | (a & b & H)].
  - destruct (laplacian_det eps cot n m W) as (r & _ & U & C). rewrite (U o H). exact C.
  - destruct (taubin_det a b n m W) as (r & _ & U & C). rewrite (U o H). exact C.
Qed.
Lemma smoothing_det (m : mesh N) n : WF m ->
  (forall eps cot, exists r, smoothLaplacian eps cot n m r /\ forall o, smoothLaplacian eps cot n m o -> o = r) /\
  (forall a b, exists r, smoothTaubin a b n m r /\ forall o, smoothTaubin a b n m o -> o = r).
Proof.
  intros W. split.
  - intros eps cot. destruct (laplacian_det eps cot n m W) as (r & H & U & _). eauto.
  - intros a b. destruct (taubin_det a b n m W) as (r & H & U & _). eauto.
Qed.
Lemma denoise_det (m : mesh N) n o1 o2 : WF m ->
  ((exists s, denoiseNormalGaussian s n m o1 /\ denoiseNormalGaussian s n m o2) \/
   (exists s t, denoiseNormalBilateral s t n m o1 /\ denoiseNormalBilateral s t n m o2)) ->
  (exists m', o1 = Ok m' /\ o2 = Ok m' /\ posonly m m') \/ (exists k1 k2, o1 = Abort k1 /\ o2 = Abort k2).
Proof.
  intros W H. assert (Q : agree o1 o2 /\ forall m', o1 = Ok m' -> posonly m m').
  { destruct H as [(s & H1 & H2) | (s & t & H1 & H2)]; [exact (denoise_gauss_det s n m o1 o2 W H1 H2)|exact (denoise_bilateral_det s t n m o1 o2 W H1 H2)]. }
  destruct Q as [A P]. destruct o1 as [a| |k1|], o2 as [b| |k2|]; cbn in A; try contradiction; [left|right; eauto]. subst b. exists a. auto.
Qed.
Lemma locked_kept (m m' : mesh N) n v : WF m -> v_lock m v = true ->
  ((exists eps cot, smoothLaplacian eps cot n m (Ok m')) \/ (exists a b, smoothTaubin a b n m (Ok m'))) -> v_pos m' v = v_pos m v.
Proof.
  intros W L H. destruct (smoothing_ok m n (Ok m') W H) as [(m2 & [= <-] & _ & K) | C]; [|discriminate]. apply K. left; exact L.
Qed.
End A.

Lemma box_ok : forall (lo hi : vec NumR) (eps : R) n (m : mesh NumR), (0 <= eps <= 1)%R -> WF m ->
  (forall v, In v (m_verts m) -> inside lo hi (v_pos m v)) ->
  (exists m', smoothLaplacian (N := NumR) eps false n m (Ok m')) /\
  forall o, smoothLaplacian (N := NumR) eps false n m o -> exists m', o = Ok m' /\ posonly m m' /\ forall v, In v (m_verts m') -> inside lo hi (v_pos m' v).
Proof.
  intros lo hi eps n m He W B. destruct (laplacian_box lo hi eps n He m W B) as (m' & H & U & P & _ & Q). split; [eauto|]. intros o Ho. exists m'. split; [apply U, Ho|]. auto.
Qed.
Lemma lap_ex : exists m : mesh NumR, mesh_of tetraR ix_tetra = Ok m /\ Valid m /\ Closed m /\ positions m = tetraR /\ length (m_faces m) = 4.
Proof. destruct tetraR_all as (m & A & B & C & D & E & _). exists m. auto. Qed.
Lemma box_ex : exists m : mesh NumR, WF m /\ length (m_verts m) = 4 /\ (forall v, In v (m_verts m) -> inside (V3 (N := NumR) 0%R 0%R 0%R) (V3 (N := NumR) 1%R 1%R 1%R) (v_pos m v)).
Proof.
  destruct lap_ex as (m & _ & V & _ & P & _). exists m. split; [apply (valid_wf m V)|]. split.
  - apply (f_equal (@length _)) in P. unfold positions in P. rewrite map_length in P. exact P.
  - intros v Iv. assert (I : In (v_pos m v) (positions m)) by (apply in_map, Iv). rewrite P in I. cbn [In tetraR] in I.
    repeat (destruct I as [<- | I]; [unfold inside, v3; rn; repeat split; lra|]). destruct I.
Qed.
