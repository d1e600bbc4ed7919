(** Whole-mesh measurements on two meshes of the same triangles. *)
From Coq Require Import Reals Lra Lia List ZArith Bool Arith Permutation.
From Verif Require Import Num NumInst Vec Heap Mesh Spec BuildSpec Orbit Rings Exec Diamond Queries Bounds GeomSpec VecR Measure MeasureR MeasureM SmoothSpec FilterSpec FairW OrderSpec Order OrderM OrderS OrderD OrderY.
Import ListNotations.
Local Open Scope R_scope.

Theorem whole_same : forall m m' : mesh NumR, SameSurface (N := NumR) m m' ->
  (exists n, numEdges m = Ok (n, m) /\ numEdges m' = Ok (n, m')) /\ (exists a, getMeanEdgeLength m = Ok (a, m) /\ getMeanEdgeLength m' = Ok (a, m')).
Proof.
  intros m m' SS. assert (P := twins_paired (FairW.locked m) (FairW.locked m') (locked_same m m' SS) (fun _ _ _ => eq_refl)).
  destruct SS as (T & T' & S & S' & _). assert (V := so_valid _ _ S). assert (V' := so_valid _ _ S'). assert (W := valid_wf m V). assert (W' := valid_wf m' V').
  assert (G : forall l l', EdgeReps m l -> EdgeReps m' l' -> total (map (edge_length m) l) = total (map (edge_length m') l') /\ IZR (Z.of_nat (length l)) = IZR (Z.of_nat (length l'))).
  { intros l l' A B. exact (reps_same _ (FairW.locked m) (FairW.locked m') (locked_valid m V) (locked_valid m' V') P (fun x x' X => proj2 (proj2 X)) l l' A B). }
  split.
  - destruct (reps_of m W) as (l & A & R1). destruct (reps_of m' W') as (l' & A' & R1'). destruct (G l l' R1 R1') as (_ & Q). apply eq_IZR in Q. 
    eexists. split; [unfold numEdges; rewrite bind_get, (bind_ok _ _ _ _ _ A); unfold ret; rewrite map_length, rev_length; reflexivity|].
    unfold numEdges; rewrite bind_get, (bind_ok _ _ _ _ _ A'); unfold ret; rewrite map_length, rev_length. apply Nat2Z.inj in Q. rewrite Q. reflexivity.
  - destruct (meanEdgeLength_ok m W) as (l & R1 & B). destruct (meanEdgeLength_ok m' W') as (l' & R1' & B'). destruct (G l l' R1 R1') as (T1 & T2). eexists. split; [exact B|]. rewrite B'. do 2 f_equal.
    rewrite (reps_total m l W R1), (reps_total m' l' W' R1'), T1. change (@nofZ NumR (Z.of_nat (length l))) with (IZR (Z.of_nat (length l))). change (@nofZ NumR (Z.of_nat (length l'))) with (IZR (Z.of_nat (length l'))). rewrite T2. reflexivity.
Qed.
