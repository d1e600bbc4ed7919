(** Evaluated runs of simplifyQEM and remeshTriangular. *)
From Coq Require Import List ZArith Floats Bool Arith Lia.
From Verif Require Import Num NumInst Vec Heap Mesh Construct Spec BuildSpec BuildProps Witness SmoothSpec Smooth SmoothW RemeshSpec Simplify Remesh SimplifyP RemeshP RemeshR.
Import ListNotations.

Lemma lock_all_lo a e t (m : mesh (NumF a e t)) : lockonly m (lock_all a e t m).
Proof.
  unfold lock_all. assert (K : forall l m, lockonly m (fold_left (fun (m : mesh (NumF a e t)) (v : nat) => set_v_lock v true m) l m)).
  { induction l as [|v l IH]; intros m0; cbn [fold_left]; [apply lo_refl|]. exact (lo_trans _ _ _ (lo_set m0 v) (IH _)). }
  exact (K _ m).
Qed.
Lemma lock_all_valid a e t (m : mesh (NumF a e t)) : Valid m -> Valid (lock_all a e t m).
Proof. intros V. exact (rm_valid _ _ (lo_rm _ _ (lock_all_lo a e t m) V)). Qed.

Section W.
Variables (acosF expF : float -> float) (atan2F : float -> float -> float).
Notation NF := (Witness.NF acosF expF atan2F).
Notation pt := (Witness.pt acosF expF atan2F).
(** Two pentagonal pyramids, base to base. *)
Definition ps_bip : list (vec NF) := [pt 0 0 2; pt 0 0 (-2); pt 4 0 0; pt 1 4 0; pt (-3) 2 0; pt (-3) (-2) 0; pt 1 (-4) 0]%float.
Definition ix_bip : list nat := [0;2;3; 0;3;4; 0;4;5; 0;5;6; 0;6;2; 1;3;2; 1;4;3; 1;5;4; 1;6;5; 1;2;6].
Definition mid (m : mesh NF) (p : ptr) : vec NF :=
  match p with Some h => match h_src m h, dst_of m h with Some a, Some b => vscale nhalf (vadd (v_pos m a) (v_pos m b)) | _, _ => vzero end | None => vzero end.
Definition bip_chk (m : mesh NF) : bool :=
  Nat.eqb (length (m_faces m)) 10 && match run_simplify mid 9 1 11 (lock_all acosF expF atan2F m) with Ok m' => Nat.eqb (length (m_faces m')) 8 | _ => false end.
Lemma bip_check : with_mesh acosF expF atan2F (mesh_of ps_bip ix_bip) bip_chk = true.
Proof. vm_cast_no_check (eq_refl true). Qed.
Lemma bip_use (m : mesh NF) : bip_chk m = true -> length (m_faces m) = 10 /\ exists m', simplifyQEM 9 1 11 (lock_all acosF expF atan2F m) (Ok m') /\ length (m_faces m') = 8.
Proof.
  unfold bip_chk. intros C. apply andb_true_iff in C as [C1 C2]. apply Nat.eqb_eq in C1. split; [exact C1|].
  assert (R := run_simplify_ok mid 9 1 11 (lock_all acosF expF atan2F m)). destruct (run_simplify mid 9 1 11 (lock_all acosF expF atan2F m)) as [m'| | |]; try discriminate. exists m'. split; [exact R|apply Nat.eqb_eq, C2].
Qed.
Lemma simplify_case : exists m0 m m' : mesh NF, mesh_of ps_bip ix_bip = Ok m0 /\ m = lock_all acosF expF atan2F m0 /\ Valid m /\ length (m_faces m) = 10 /\
  (length (m_faces m) + 1) * Z.to_nat 1 <= 11 /\ simplifyQEM 9 1 11 m (Ok m') /\ length (m_faces m') = 8.
Proof.
  destruct (with_ok _ _ _ _ _ bip_check) as (m0 & E0 & C). destruct (bip_use m0 C) as (L & m' & S & F). exists m0, (lock_all acosF expF atan2F m0), m'.
  assert (V := lock_all_valid _ _ _ m0 (proj1 (construct_valid _ _ _ _ (proj1 (mesh_of_ok _ _ _) E0)))).
  assert (L' : length (m_faces (lock_all acosF expF atan2F m0)) = 10) by (rewrite (lo_eq _ _ (lock_all_lo _ _ _ m0)); exact L).
  split; [exact E0|split; [reflexivity|split; [exact V|split; [exact L'|split; [rewrite L'; cbn; lia|split; [exact S|exact F]]]]]].
Qed.
(** A flat disc with two inner vertices. *)
Definition ps_disc : list (vec NF) := [pt 0 0 0; pt 2 0 0; pt 3 2 0; pt 1 2 0; pt (-1) 2 0; pt (-2) 0 0; pt (-1) (-2) 0; pt 1 (-2) 0; pt 3 (-2) 0; pt 4 0 0; pt 1 4 0; pt 1 (-4) 0]%float.
Definition ix_disc : list nat := [0;1;3; 0;3;4; 0;4;5; 0;5;6; 0;6;7; 0;7;1; 1;7;8; 1;8;9; 1;9;2; 1;2;3; 3;10;4; 3;2;10; 7;6;11; 7;11;8].
Definition disc_chk (m : mesh NF) : bool :=
  Nat.eqb (length (m_faces m)) 15 && match run_simplify mid 13 1 16 m with Ok m' => Nat.eqb (length (m_faces m')) 13 | _ => false end.
Lemma disc_check : with_mesh acosF expF atan2F (mesh_of ps_disc ix_disc) disc_chk = true.
Proof. vm_cast_no_check (eq_refl true). Qed.
Lemma disc_use (m : mesh NF) : disc_chk m = true -> length (m_faces m) = 15 /\ exists m', simplifyQEM 13 1 16 m (Ok m') /\ length (m_faces m') = 13.
Proof.
  unfold disc_chk. intros C. apply andb_true_iff in C as [C1 C2]. apply Nat.eqb_eq in C1. split; [exact C1|].
  assert (R := run_simplify_ok mid 13 1 16 m). destruct (run_simplify mid 13 1 16 m) as [m'| | |]; try discriminate. exists m'. split; [exact R|apply Nat.eqb_eq, C2].
Qed.
Lemma disc_case : exists m m' : mesh NF, mesh_of ps_disc ix_disc = Ok m /\ Valid m /\ FlagsSym m /\ (length (m_faces m) + 1) * Z.to_nat 1 <= 16 /\
  simplifyQEM 13 1 16 m (Ok m') /\ length (m_faces m) = 15 /\ length (m_faces m') = 13.
Proof.
  destruct (with_ok _ _ _ _ _ disc_check) as (m & E & C). destruct (disc_use m C) as (L & m' & S & F). exists m, m'. destruct (construct_valid _ _ _ _ (proj1 (mesh_of_ok _ _ _) E)) as [V FS].
  split; [exact E|split; [exact V|split; [exact FS|split; [rewrite L; cbn; lia|split; [exact S|split; [exact L|exact F]]]]]].
Qed.
End W.

(** For remeshing some acos is needed; this one is coarse. *)
Definition acos0 (x : float) : float := (1.5 - x)%float.
Notation NF0 := (NumF acos0 acos0 (fun x _ => x)).
Definition tet_chk (m : mesh NF0) : bool :=
  let m := set_v_lock (nth 0 (m_verts m) 0) true m in
  Nat.ltb 0 (length (m_verts m)) && match run_remesh (N := NF0) 0.5%float 1.125%float 0%float 1 m with Ok m' => Nat.ltb (length (m_faces m)) (length (m_faces m')) | _ => false end.
Lemma tet_check : with_mesh acos0 acos0 (fun x _ => x) (mesh_of (ps_tetra acos0 acos0 (fun x _ => x)) ix_tetra) tet_chk = true.
Proof. vm_cast_no_check (eq_refl true). Qed.
Lemma tet_use (m : mesh NF0) : Valid m -> tet_chk m = true -> exists m1 m' : mesh NF0, Valid m1 /\ (exists v, In v (m_verts m1) /\ v_lock m1 v = true) /\
  remeshTriangular (N := NF0) 0.5%float 1.125%float 0%float 1 m1 (Ok m') /\ length (m_faces m1) < length (m_faces m').
Proof.
  intros V. unfold tet_chk. set (m1 := set_v_lock (nth 0 (m_verts m) 0) true m). intros C. apply andb_true_iff in C as [C0 C]. apply Nat.ltb_lt in C0.
  assert (R := run_remesh_ok (N := NF0) 0.5%float 1.125%float 0%float 1 m1). destruct (run_remesh (N := NF0) 0.5%float 1.125%float 0%float 1 m1) as [m'| | |]; try discriminate. exists m1, m'.
  split; [exact (rm_valid _ _ (lo_rm _ _ (lo_set m _) V))|]. split; [exists (nth 0 (m_verts m) 0); split; [exact (nth_In (m_verts m) 0 C0)|unfold m1; cbn; unfold fupd; rewrite Nat.eqb_refl; reflexivity]|]. split; [exact R|apply Nat.ltb_lt, C].
Qed.
Lemma remesh_case : exists m m' : mesh NF0, Valid m /\ (exists v, In v (m_verts m) /\ v_lock m v = true) /\
  remeshTriangular (N := NF0) 0.5%float 1.125%float 0%float 1 m (Ok m') /\ length (m_faces m) < length (m_faces m').
Proof.
  destruct (with_ok _ _ _ _ _ tet_check) as (m0 & E0 & C). exact (tet_use m0 (proj1 (construct_valid _ _ _ _ (proj1 (mesh_of_ok _ _ _) E0))) C).
Qed.
