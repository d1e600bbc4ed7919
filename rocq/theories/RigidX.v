(** Rotations exist, and move meshes. *)
From Coq Require Import Reals List ZArith Lra.
From Verif Require Import Num NumInst Vec Heap Mesh Construct Spec BuildSpec GeomSpec MeasureM Smooth SmoothSpec Remesh WholeSpec ExamplesR Witness RegTet DenoiseT RigidSpec RigidM RigidR.
Import ListNotations.
Lemma turn_rotation (c s : R) : (c * c + s * s = 1)%R -> Rotation (turn c s).
Proof.
  intros E. constructor; intros.
  - apply vec_ext; cbn; ring.
  - apply vec_ext; cbn; ring.
  - unfold dot, turn. cbn. transitivity ((c * c + s * s) * (vx a * vx b + vy a * vy b) + vz a * vz b)%R; [ring|]. rewrite E. ring.
  - apply vec_ext; unfold turn, cross; cbn; [ring|ring|]. transitivity ((c * c + s * s) * (vx a * vy b - vy a * vx b))%R; [ring|]. rewrite E. ring.
Qed.
Lemma turn_ex : Rotation (turn 0%R 1%R) /\ motion (turn 0%R 1%R) (V3 (N := NumR) 0%R 0%R 5%R) (V3 (N := NumR) 1%R 2%R 3%R) = V3 (N := NumR) (-2)%R 1%R 8%R.
Proof. split; [apply turn_rotation; ring|]. apply vec_ext; cbn; ring. Qed.
Lemma rigid_ex (short long keep : R) (n : nat) : exists (m m1 m2 : mesh NumR) o, mesh_of regR ix_tetra = Ok m /\ Valid m /\
  smoothLaplacian (N := NumR) (/ 2)%R true 1 m (Ok m1) /\ smoothTaubin (N := NumR) (/ 2)%R (/ 3)%R 4 m (Ok m2) /\ remeshTriangular (N := NumR) short long keep n m o.
Proof.
  destruct smoothing_ex as (m & m1 & m2 & E & V & _ & _ & H1 & H2). destruct (remesh_exists short long keep n m V) as [o Ho]. exists m, m1, m2, o. auto.
Qed.
