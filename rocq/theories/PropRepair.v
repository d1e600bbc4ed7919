(** C91: the repair of the mesh in holeFillContextCoherent. *)
From Coq Require Import Reals List ZArith Floats.
From Verif Require Import Num NumInst Vec Heap Mesh Construct Spec GeomSpec MeasureM Measure Repair RepairSpec RepairP RepairW.
Import ListNotations.
Local Open Scope R_scope.

(** ** The edge loops end, keep the mesh closed and valid, and leave no long edge at a target after the splits. *)
Theorem C91_edges_partial : forall avgLen (m : mesh NumR) ids, 0 < avgLen -> (forall i, In i ids -> (i < length (m_verts m))%nat) -> Valid m -> Closed m ->
  exists K b1 m1 b2 m2 b3 m3, (forall k, (K <= k)%nat -> repair_split (N := NumR) k avgLen ids false m = Ok (b1, m1) /\ repair_flip (N := NumR) k ids b1 m1 = Ok (b2, m2) /\ repair_collapse (N := NumR) k ids b2 m2 = Ok (b3, m3)) /\
    Intact m m1 /\ Intact m m2 /\ Intact m m3 /\
    (exists l, m_verts m1 = m_verts m ++ l) /\ m_verts m2 = m_verts m1 /\ (forall v, In v (m_verts m3) -> In v (m_verts m2)) /\
    (Ample m -> forall i v, In i ids -> nth_error (m_verts m) i = Some v -> ShortAt (3 / 2 * avgLen) m1 v).
Proof. exact edges_repaired. Qed.
Print Assumptions C91_edges_partial.
Theorem C91_flips_partial : forall (m : mesh NumR) i rep, Valid m -> Closed m ->
  exists K b m', (forall k, (K <= k)%nat -> repair_flip (N := NumR) k [i] rep m = Ok (b, m')) /\ Intact m m' /\ m_verts m' = m_verts m /\
    forall v y, nth_error (m_verts m') i = Some v -> In y (m_hes m') -> h_src m' y = Some v -> obtuse_pair (N := NumR) (Some y) m' = Ok (true, m') -> flipHE (Some y) m' = Ok (false, m').
Proof. exact flips_done. Qed.
Print Assumptions C91_flips_partial.
Theorem C91_collapses_partial : forall (m : mesh NumR) i rep, Valid m -> Closed m ->
  exists K b m', (forall k, (K <= k)%nat -> repair_collapse (N := NumR) k [i] rep m = Ok (b, m')) /\ Intact m m' /\
    forall v y, nth_error (m_verts m') i = Some v -> In y (m_hes m') -> h_src m' y = Some v -> sharp (N := NumR) (Some y) m' = Ok (true, m') -> collapseHE (Some y) m' = Ok (false, m').
Proof. exact collapses_done. Qed.
Print Assumptions C91_collapses_partial.
Example C91_applies : exists m : mesh NumR, Valid m /\ Closed m /\ Ample m /\ (1 < length (m_verts m))%nat.
Proof. exact gyro_ample. Qed.

(** ** Every vertex has a signature afterwards; known signatures do not change. *)
Theorem C91_signatures_partial : forall (N : Num) (m : mesh N) dims t, WF m -> exists t', new_signatures dims t m = Ok (t', m) /\
  (forall v, In v (m_verts m) -> exists f, tfind t' (Some v) = Some f) /\ (forall a f, tfind t (Some a) = Some f -> tfind t' (Some a) = Some f) /\
  (forall a f, ~ In a (m_verts m) -> tfind t' (Some a) = Some f -> tfind t (Some a) = Some f).
Proof. exact @new_signatures_ok. Qed.
Print Assumptions C91_signatures_partial.

(** ** Only the vertex with index 0 may be moved, but another one is removed. *)
Theorem C91_locked_refuted : exists (m m' : mesh NumR) K b, Valid m /\ Closed m /\ (forall i v, nth_error (m_verts m) i = Some v -> v_lock m v = negb (Nat.eqb i 0)) /\
  (forall k, (K <= k)%nat -> repair_collapse (N := NumR) k [0%nat] false m = Ok (b, m')) /\ exists v, In v (m_verts m) /\ v_lock m v = true /\ ~ In v (m_verts m').
Proof. exact locked_removed. Qed.
Print Assumptions C91_locked_refuted.
(** ** The loop over small faces uses freed memory. *)
Theorem C91_faces_refuted : forall (a e : float -> float) (t : float -> float -> float), exists ps ix (m : mesh (NumF a e t)) ar m1,
  mesh_of ps ix = Ok m /\ Valid m /\ Closed m /\ getMeanFaceArea m = Ok (ar, m1) /\ repair_faces 20 ar [1%nat] false m = UB Dangling.
Proof. exact faces_dangling. Qed.
Print Assumptions C91_faces_refuted.
