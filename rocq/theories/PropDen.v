(** Properties of the normal filters of denoise.cpp: C63, C64, and Face::toTriangle (C51).
    Vocabulary: DenSpec.v, FilterSpec.v, SmoothSpec.v, Spec.v. *)
From Coq Require Import Reals List ZArith.
From Verif Require Import Num NumInst Vec VecR Bounds Heap Mesh Construct Spec BuildSpec GeomSpec Measure MeasureM SmoothSpec Smooth FilterSpec DenSpec DenoiseR DenoiseT Curv RegTet ExamplesR.
Import ListNotations.
Local Open Scope R_scope.

(** ** C63: what denoiseNormalGaussian and denoiseNormalBilateral compute, in exact arithmetic. *)
Theorem C63_gaussian : forall (sigma : R) n (m m' : mesh NumR), Valid m -> denoiseNormalGaussian (N := NumR) sigma n m (Ok m') ->
  exists avg, getMeanEdgeLength m = Ok (avg, m) /\ denoising_passes (gaussian_weight (sigma * avg)) n m m'.
Proof. exact gaussian_computes. Qed.
Print Assumptions C63_gaussian.
Theorem C63_bilateral : forall (sc sn : R) n (m m' : mesh NumR), Valid m -> denoiseNormalBilateral (N := NumR) sc sn n m (Ok m') ->
  exists avg, getMeanEdgeLength m = Ok (avg, m) /\ denoising_passes (bilateral_weight (sc * avg) sn) n m m'.
Proof. exact bilateral_computes. Qed.
Print Assumptions C63_bilateral.
(** On closed meshes one iteration can only fail if the smoothing before it flattens a triangle. *)
Theorem C63_gaussian_succeeds : forall (sigma : R) (m : mesh NumR), Valid m -> Closed m -> (forall m1, smoothTaubin (N := NumR) (/ 2) (53 / 100) 3 m (Ok m1) -> NonDegenerate m1) ->
  exists m', denoiseNormalGaussian (N := NumR) sigma 1 m (Ok m').
Proof. exact gaussian_succeeds. Qed.
Print Assumptions C63_gaussian_succeeds.
Theorem C63_bilateral_succeeds : forall (sc sn : R) (m : mesh NumR), Valid m -> Closed m -> (forall m1, smoothTaubin (N := NumR) (/ 2) (53 / 100) 3 m (Ok m1) -> NonDegenerate m1) ->
  exists m', denoiseNormalBilateral (N := NumR) sc sn 1 m (Ok m').
Proof. exact bilateral_succeeds. Qed.
Print Assumptions C63_bilateral_succeeds.
Example C63_case : forall sigma sc sn : R, exists m m1 m2 : mesh NumR, Valid m /\ Closed m /\ positions m = regR /\
  denoiseNormalGaussian (N := NumR) sigma 1 m (Ok m1) /\ denoiseNormalBilateral (N := NumR) sc sn 1 m (Ok m2).
Proof. exact denoise_ex. Qed.

(** ** C64: the farther a neighbour, the less it counts.  Missing: distances on both sides of 2 sigma. *)
Theorem C64_kernel_partial : forall s x y : R, 0 < s -> 0 <= x <= y -> (y < 2 * s \/ 2 * s <= x) -> @kern NumR y s <= @kern NumR x s.
Proof. exact kern_falls. Qed.
Print Assumptions C64_kernel_partial.
(** There it is false, whatever sigma is. *)
Theorem C64_kernel_refuted : forall s : R, 0 < s -> exists x y : R, 0 <= x < y /\ @kern NumR x s < @kern NumR y s.
Proof. exact kern_grows. Qed.
Print Assumptions C64_kernel_refuted.

(** ** C51: the corners Face::toTriangle returns. *)
Theorem C51_toTriangle : forall (m : mesh NumR) f a b c, WF m -> In f (m_faces m) -> Spec.Tri m f a b c -> a <> b -> b <> c -> c <> a ->
  exists p q r, f_toTriangle (Some f) m = Ok (Bounds.Tri (N := NumR) p q r, m) /\
   (([p; q; r] = [v_pos m a; v_pos m b; v_pos m c]) \/ ([p; q; r] = [v_pos m b; v_pos m c; v_pos m a]) \/ ([p; q; r] = [v_pos m c; v_pos m a; v_pos m b])).
Proof. exact toTriangle_ok. Qed.
Print Assumptions C51_toTriangle.
