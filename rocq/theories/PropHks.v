(** Heat kernel signatures (C77-C80) and the cotangent operator (C81). *)
From Coq Require Import Reals List ZArith Floats.
From Verif Require Import Num NumInst Vec Heap Mesh Construct Spec Witness RegTet MeasureM LaplSpec Lapl Hks HksSpec HksP HksT HksF HksW CotPsd CotW.
Import ListNotations.
Local Open Scope R_scope.

(** ** C77: what getHeatKernelSignatures computes in exact arithmetic. *)
Theorem C77_signatures : forall eigs n L K nTimes lam U, eigs n L K = Some (lam, U) -> (2 <= K < n)%nat -> (2 <= nTimes)%nat ->
  exists H T, getHeatKernelSignatures (N := NumR) ln eigs n L (Z.of_nat K) nTimes = Ok H /\ dims H n nTimes /\
  Geometric nTimes (limit_time (lam (K - 1)%nat)) (limit_time (lam 1%nat)) T /\
  forall x j, (x < n)%nat -> (j < nTimes)%nat -> at2 H x j = heat K lam U x (T j).
Proof. exact hks_ok. Qed.
Print Assumptions C77_signatures.

(** ** C78: the signatures of a mesh are between 0 and 1, fall with time, and never reach zero when the second eigenvalue is positive. *)
Theorem C78_operator : forall eigs n L K nTimes, psd n L -> symmetric n L -> ExactEigs eigs n L K -> (2 <= K < n)%nat -> (2 <= nTimes)%nat ->
  exists H, getHeatKernelSignatures (N := NumR) ln eigs n L (Z.of_nat K) nTimes = Ok H /\ dims H n nTimes /\
   (forall x j, (x < n)%nat -> (j < nTimes)%nat -> 0 <= at2 H x j <= 1) /\
   (forall x j, (x < n)%nat -> (S j < nTimes)%nat -> at2 H x (S j) <= at2 H x j) /\
   (forall j, (j < nTimes)%nat -> sum_to n (fun x => at2 H x j) <= INR K) /\
   (rows_vanish n L -> (forall lam U, eigs n L K = Some (lam, U) -> 0 < lam 1%nat) -> forall x j, (x < n)%nat -> (j < nTimes)%nat -> 1 / INR n <= at2 H x j).
Proof. exact hks_bounds. Qed.
Print Assumptions C78_operator.
Theorem C78_mesh : forall (m : mesh NumR) t, Valid m -> t = Adjacent \/ (t = Cotangent /\ Closed m) -> exists ts, getMeshLaplacian t m = Ok (ts, m) /\
  forall eigs K nTimes, let n := length (m_verts m) in ExactEigs eigs n (entry (N := NumR) ts) K -> (2 <= K < n)%nat -> (2 <= nTimes)%nat ->
   exists H, getHeatKernelSignatures (N := NumR) ln eigs n (entry (N := NumR) ts) (Z.of_nat K) nTimes = Ok H /\ dims H n nTimes /\
   (forall x j, (x < n)%nat -> (j < nTimes)%nat -> 0 <= at2 H x j <= 1) /\
   (forall x j, (x < n)%nat -> (S j < nTimes)%nat -> at2 H x (S j) <= at2 H x j) /\
   ((forall lam U, eigs n (entry (N := NumR) ts) K = Some (lam, U) -> 0 < lam 1%nat) -> forall x j, (x < n)%nat -> (j < nTimes)%nat -> 1 / INR n <= at2 H x j).
Proof. exact mesh_bounds. Qed.
Print Assumptions C78_mesh.

(** ** C79: the signatures depend on the operator only, not on the solver and the numbering.
    Missing: operators whose K-th and next eigenvalue agree. *)
Theorem C79_determined_partial : forall eigs eigs' n L L' p K nTimes, psd n L -> symmetric n L ->
  Renumbering n p -> (forall x y, (x < n)%nat -> (y < n)%nat -> L' (p x) (p y) = L x y) ->
  (2 <= K < n)%nat -> ExactEigs eigs n L K -> ExactEigs eigs' n L' K -> EigsGap eigs n L K ->
  exists H H', getHeatKernelSignatures (N := NumR) ln eigs n L (Z.of_nat K) nTimes = Ok H /\ getHeatKernelSignatures (N := NumR) ln eigs' n L' (Z.of_nat K) nTimes = Ok H' /\
    forall x j, (x < n)%nat -> (j < nTimes)%nat -> at2 H' (p x) j = at2 H x j.
Proof. exact hks_determined. Qed.
Print Assumptions C79_determined_partial.
(** The adjacency operator of a square: eigenvalues 0, 2, 4, 4, of which two are computed. *)
Example C77_C78_C79_case : exists (m : mesh NumR) ts eigs, mesh_of squareR [0;1;2; 0;2;3]%nat = Ok m /\ Valid m /\ length (m_verts m) = 4%nat /\ getMeshLaplacian Adjacent m = Ok (ts, m) /\
  psd 4 (entry (N := NumR) ts) /\ symmetric 4 (entry (N := NumR) ts) /\ rows_vanish 4 (entry (N := NumR) ts) /\ ExactEigs eigs 4 (entry (N := NumR) ts) 2 /\ EigsGap eigs 4 (entry (N := NumR) ts) 2 /\
  (forall lam U, eigs 4%nat (entry (N := NumR) ts) 2%nat = Some (lam, U) -> 0 < lam 1%nat) /\
  Renumbering 4 (swap 1 3) /\ forall x y, (x < 4)%nat -> (y < 4)%nat -> entry (N := NumR) ts (swap 1 3 x) (swap 1 3 y) = entry (N := NumR) ts x y.
Proof. exact exact_ex. Qed.
(** A regular tetrahedron: exchanging two vertices leaves the operator as it is, and the two have different signatures. *)
Theorem C79_determined_refuted : forall nTimes, (1 <= nTimes)%nat -> exists (m : mesh NumR) ts eigs H, mesh_of regR ix_tetra = Ok m /\ Valid m /\ Closed m /\ getMeshLaplacian Adjacent m = Ok (ts, m) /\
  psd 4 (entry (N := NumR) ts) /\ symmetric 4 (entry (N := NumR) ts) /\ ExactEigs eigs 4 (entry (N := NumR) ts) 2 /\
  Renumbering 4 (swap 0 2) /\ (forall x y, (x < 4)%nat -> (y < 4)%nat -> entry (N := NumR) ts (swap 0 2 x) (swap 0 2 y) = entry (N := NumR) ts x y) /\
  getHeatKernelSignatures (N := NumR) ln eigs 4 (entry (N := NumR) ts) 2 nTimes = Ok H /\ at2 H (swap 0 2 0) 0 <> at2 H 0 0.
Proof. exact determined_refuted. Qed.
Print Assumptions C79_determined_refuted.

(** ** C80: signatures for every number of eigenvalues and times (C77 covers two and more of both). *)
(** One eigenvalue: lambda(1) is read beyond the end. *)
Theorem C80_one_refuted : forall (N : Num) nlog eigs n L nTimes r, (2 <= n)%nat -> eigs n L 1%nat = Some r -> getHeatKernelSignatures (N := N) nlog eigs n L 1 nTimes = UB OutOfBounds.
Proof. exact @hks_one. Qed.
Print Assumptions C80_one_refuted.
(** One time: every signature is NaN. *)
Theorem C80_once_refuted : forall (acosF expF : float -> float) (atan2F : float -> float -> float), (forall x, is_nan x = true -> is_nan (expF x) = true) ->
  forall (nlog : float -> float) eigs n L K lam U, (2 <= K < n)%nat -> eigs n L K = Some (lam, U) ->
  exists H, getHeatKernelSignatures (N := NumF acosF expF atan2F) nlog eigs n L (Z.of_nat K) 1 = Ok H /\ length H = n /\ forall row, In row H -> exists y, row = [y] /\ is_nan y = true.
Proof. exact hks_once. Qed.
Print Assumptions C80_once_refuted.
Theorem C80_many_partial : forall eigs n L K nTimes lam U, eigs n L K = Some (lam, U) -> (2 <= K < n)%nat -> (2 <= nTimes)%nat ->
  exists H, getHeatKernelSignatures (N := NumR) ln eigs n L (Z.of_nat K) nTimes = Ok H /\ dims H n nTimes.
Proof. exact hks_many. Qed.
Print Assumptions C80_many_partial.

(** ** C81: the cotangent operator is positive semidefinite. *)
Theorem C81_cotangent_partial : forall m : mesh NumR, Valid m -> Closed m -> exists ts, getMeshLaplacian Cotangent m = Ok (ts, m) /\ psd (length (m_verts m)) (entry (N := NumR) ts).
Proof. exact cotangent_psd. Qed.
Print Assumptions C81_cotangent_partial.
(** Two triangles in a plane: a diagonal entry, so the form at the indicator of that vertex, is negative. *)
Theorem C81_cotangent_refuted : forall acosF expF atan2F, exists ps ix (m : mesh (NumF acosF expF atan2F)) ts m', mesh_of ps ix = Ok m /\ length (m_verts m) = 4%nat /\
  getMeshLaplacian Cotangent m = Ok (ts, m') /\ PrimFloat.ltb (@entry (NumF acosF expF atan2F) ts 1 1) (-0.5)%float = true.
Proof. exact cotangent_indefinite. Qed.
Print Assumptions C81_cotangent_refuted.
