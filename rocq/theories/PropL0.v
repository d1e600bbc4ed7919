(** Properties of denoiseL0Smooth: C65, C66, and C33.
    Vocabulary: L0Spec.v, FilterSpec.v, SmoothSpec.v, Spec.v.  [solution] (LaplSpec.v) is an exact solver. *)
From Coq Require Import Reals List ZArith.
From Verif Require Import Num NumInst Vec VecR Heap Mesh Spec BuildSpec Measure MeasureM SmoothSpec Lapl LaplSpec FilterSpec L0 L0Spec L0T L0W RegTet ExamplesR.
Import ListNotations.
Local Open Scope R_scope.

(** ** C65: what denoiseL0Smooth computes, in exact arithmetic. *)
Theorem C65_l0 : forall (al be : R) (m m' : mesh NumR), Valid m -> 0 <= al -> 0 <= be -> denoiseL0Smooth (N := NumR) solution al be m (Ok m') ->
  posonly m m' /\ exists avg dih, getMeanEdgeLength m = Ok (avg, m) /\ getMeanDihedralAngle m = Ok (dih, m) /\ l0_result avg dih al be m m'.
Proof. exact l0_computes. Qed.
Print Assumptions C65_l0.
(** The edge operator vanishes exactly where the two triangles have the same unit normal. *)
Theorem C65_operator_flat : forall (p1 p2 p3 p4 : vec NumR) k, edge_operator p1 p2 p3 p4 k -> 0 < area3 p1 p2 p3 -> 0 < area3 p1 p3 p4 ->
  let n1 := Vec.cross (Vec.vsub p3 p1) (Vec.vsub p2 p1) in let n2 := Vec.cross (Vec.vsub p1 p3) (Vec.vsub p4 p3) in
  lin4 k p1 p2 p3 p4 = vzero <-> Vec.vscale (N := NumR) (/ Vec.vlength n1) n1 = Vec.vscale (N := NumR) (/ Vec.vlength n2) n2.
Proof. exact operator_flat. Qed.
Print Assumptions C65_operator_flat.
Example C65_case : exists m m' : mesh NumR, Valid m /\ Closed m /\ positions m = regR /\ (forall v, In v (m_verts m) -> v_lock m v = true) /\
  denoiseL0Smooth (N := NumR) solution 1 999 m (Ok m') /\ exists v, In v (m_verts m) /\ v_pos m' v <> v_pos m v.
Proof. exact l0_refuted. Qed.

(** ** C66: denoiseL0Smooth ends and its result is determined.  Missing: beta not positive. *)
Theorem C66_ends_partial : forall (al be : R) (m : mesh NumR), Valid m -> 0 <= al -> 0 < be ->
  exists m', denoiseL0Smooth (N := NumR) solution al be m (Ok m') /\ forall o, denoiseL0Smooth (N := NumR) solution al be m o -> o = Ok m'.
Proof. exact l0_ends. Qed.
Print Assumptions C66_ends_partial.
(** There it is false: no call with beta <= 0 ends, whatever the solver answers. *)
Theorem C66_never_refuted : forall solves (al be avg : R) (m : mesh NumR), Valid m -> getMeanEdgeLength m = Ok (avg, m) -> 0 < avg -> be <= 0 ->
  forall o, ~ denoiseL0Smooth (N := NumR) solves al be m o.
Proof. exact l0_never. Qed.
Print Assumptions C66_never_refuted.
Example C66_never_case : exists (m : mesh NumR) avg, Valid m /\ Closed m /\ positions m = regR /\ getMeanEdgeLength m = Ok (avg, m) /\ 0 < avg.
Proof. exact l0_never_ex. Qed.

(** ** C33: denoiseL0Smooth moves locked vertices. *)
Theorem C33_l0_refuted : exists m m' : mesh NumR, Valid m /\ Closed m /\ positions m = regR /\ (forall v, In v (m_verts m) -> v_lock m v = true) /\
  denoiseL0Smooth (N := NumR) solution 1 999 m (Ok m') /\ exists v, In v (m_verts m) /\ v_pos m' v <> v_pos m v.
Proof. exact l0_refuted. Qed.
Print Assumptions C33_l0_refuted.
