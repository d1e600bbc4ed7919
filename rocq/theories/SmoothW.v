(** Evaluated witnesses for the filters. *)
From Coq Require Import List ZArith Floats Bool Arith.
From Verif Require Import Num Vec Heap Mesh Construct Spec BuildSpec BuildProps Queries Witness Prog ProgP SmoothSpec Smooth.
Import ListNotations.

(** ** The filters with their loops run in index order *)
Section Seq.
Context {N : Num}.
Definition seq_two (s : mem N) n a b : res (mem N) :=
  match in_order (map a (seq 0 n)) s with Ok s1 => in_order (map b (seq 0 n)) s1 | r => r end.
Lemma seq_two_ok s n a b : two_loops s n a b (seq_two s n a b).
Proof.
  assert (O1 := in_order_outcome (map a (seq 0 n)) s [] ltac:(intros p [])). cbn [app] in O1. unfold seq_two.
  destruct (in_order (map a (seq 0 n)) s) as [s1| | |] eqn:E; [|apply two_fail; [exact O1|discriminate]..].
  eapply two_ok; [exact O1|]. apply (in_order_outcome (map b (seq 0 n)) s1 []). intros p [].
Qed.
Definition seq_taubin_step a b it (m : mesh N) : res (mesh N) :=
  mesh_out (seq_two (mem0 m (length (m_verts m))) (length (m_verts m)) taubin_centroid (lap_update (if Nat.even it then a else nopp b))).
Definition seq_lap_step eps cot (_ : nat) (m : mesh N) : res (mesh N) :=
  mesh_out (seq_two (mem0 m (length (m_verts m))) (length (m_verts m)) (lap_centroid cot) (lap_update eps)).
Fixpoint seq_repeats (step : nat -> mesh N -> res (mesh N)) it n m : res (mesh N) :=
  match n with 0 => Ok m | S n' => match step it m with Ok m1 => seq_repeats step (S it) n' m1 | r => r end end.
Lemma seq_repeats_ok step (rel : nat -> mesh N -> res (mesh N) -> Prop) : (forall it m, rel it m (step it m)) -> forall n it m, repeats rel it n m (seq_repeats step it n m).
Proof.
  intros H n. induction n as [|n IH]; intros it m; cbn [seq_repeats]; [apply rep_0|]. assert (Q := H it m). destruct (step it m) as [m1| | |]; [|apply rep_fail; [exact Q|discriminate]..].
  eapply rep_S; [exact Q|apply IH].
Qed.
Lemma seq_taubin a b n m : smoothTaubin a b n m (seq_repeats (seq_taubin_step a b) 0 (n * 2) m).
Proof. apply seq_repeats_ok. intros it m'. eexists. split; [apply seq_two_ok|reflexivity]. Qed.
Lemma seq_lap eps cot n m : smoothLaplacian eps cot n m (seq_repeats (seq_lap_step eps cot) 0 n m).
Proof. unfold smoothLaplacian. apply (seq_repeats_ok (seq_lap_step eps cot) (fun _ => lap_step eps cot)). intros it m'. eexists. split; [apply seq_two_ok|reflexivity]. Qed.
Definition seq_dn_loops w (m : mesh N) : res (mesh N) :=
  match seq_two (mem0 m (length (m_faces m))) (length (m_faces m)) dn_face (dn_filter w) with
  | Ok s => mesh_out (in_order (map dn_update (seq 0 (length (m_verts m)))) s)
  | r => mesh_out r
  end.
Lemma seq_dn_ok w m : dn_loops w m (seq_dn_loops w m).
Proof.
  unfold seq_dn_loops. assert (O1 := seq_two_ok (mem0 m (length (m_faces m))) (length (m_faces m)) dn_face (dn_filter w)).
  destruct (seq_two (mem0 m (length (m_faces m))) (length (m_faces m)) dn_face (dn_filter w)) as [s| | |] eqn:E; [|apply dn_fail; [exact O1|discriminate]..].
  eapply dn_ok; [exact O1|]. apply (in_order_outcome (map dn_update (seq 0 (length (m_verts m)))) s []). intros p [].
Qed.
Definition seq_dn_step w (_ : nat) (m : mesh N) : res (mesh N) :=
  match seq_repeats (seq_taubin_step nhalf (ndiv (nofZ 53) (nofZ 100))) 0 (3 * 2) m with Ok m1 => seq_dn_loops w m1 | r => r end.
Lemma seq_dn_step_ok w it m : dn_step w m (seq_dn_step w it m).
Proof.
  unfold seq_dn_step. assert (O := seq_taubin nhalf (ndiv (nofZ 53) (nofZ 100)) 3 m).
  destruct (seq_repeats (seq_taubin_step nhalf (ndiv (nofZ 53) (nofZ 100))) 0 (3 * 2) m) as [m1| | |]; [|apply dns_fail; [exact O|discriminate]..].
  eapply dns_ok; [exact O|apply seq_dn_ok].
Qed.
Lemma seq_gauss sigma avg n m : getMeanEdgeLength m = Ok (avg, m) -> denoiseNormalGaussian sigma n m (seq_repeats (seq_dn_step (wgt_gauss (nmul sigma avg))) 0 n m).
Proof. intros E. apply (dng sigma n m avg _ E). apply (seq_repeats_ok _ (fun _ => dn_step (wgt_gauss (nmul sigma avg)))). intros it m'. apply seq_dn_step_ok. Qed.
End Seq.

Section W.
Variables (acosF expF : float -> float) (atan2F : float -> float -> float).
Notation NF := (Witness.NF acosF expF atan2F).
Notation pt := (Witness.pt acosF expF atan2F).
(** Vertex::lock (vertex.h 90-92) on every vertex. *)
Definition lock_all (m : mesh NF) : mesh NF := fold_left (fun m v => set_v_lock v true m) (m_verts m) m.
Definition exp2 : float := 0x1.d8e64b8d4ddaep+2%float.
Definition veqf (a b : vec NF) : bool := (@vx NF a =? @vx NF b)%float && (@vy NF a =? @vy NF b)%float && (@vz NF a =? @vz NF b)%float.
Definition dn_chk1 (m : mesh NF) : bool :=
  Nat.eqb (length (m_faces m)) 4 && forallb (v_lock m) (m_verts m) && forallb (fun v => veqf (v_pos m v) (v_pos m v)) (m_verts m) &&
  match getMeanEdgeLength m with
  | Ok (avg, _) =>
    match seq_repeats (seq_dn_step (wgt_gauss (@nmul NF 0x1.51eb851eb851fp-4%float avg))) 0 1 m with
    | Ok m' => existsb (fun v => negb (veqf (v_pos m' v) (v_pos m v))) (m_verts m)
    | _ => false
    end
  | _ => false
  end.
Definition dn_chk (m0 : mesh NF) : bool := dn_chk1 (lock_all m0).
Hypothesis He : expF 2%float = exp2.
Lemma dn_check : with_mesh acosF expF atan2F (mesh_of (ps_tetra acosF expF atan2F) ix_tetra) dn_chk = true.
Proof.
  unfold dn_chk, dn_chk1, wgt_gauss, kern. change (@nexp NF (@ntwo NF)) with (expF 2%float). rewrite He. vm_cast_no_check (eq_refl true).
Qed.
Lemma lock_wf (m : mesh NF) : WF m -> WF (lock_all m).
Proof.
  unfold lock_all. generalize (m_verts m) as l. intros l. revert m. induction l as [|v l IH]; intros m W; cbn [fold_left]; [exact W|]. apply IH.
  constructor; [exact (wf_v_nodup m W)|exact (wf_h_nodup m W)|exact (wf_f_nodup m W)|exact (wf_v_elem m W)|exact (wf_h_elem m W)|exact (wf_f_elem m W)
   |exact (wf_src m W)|exact (wf_next m W)|exact (wf_rev m W)|exact (wf_face m W)|exact (wf_rev_invol m W)|exact (wf_dst m W)|exact (wf_vhe m W)|exact (wf_fhe m W)
   |exact (wf_face_next m W)|exact (wf_face_orbit m W)|exact (wf_vertex_orbit m W)].
Qed.
Lemma moved_some (m m' : mesh NF) : existsb (fun v => negb (veqf (v_pos m' v) (v_pos m v))) (m_verts m) = true -> forallb (fun v => veqf (v_pos m v) (v_pos m v)) (m_verts m) = true ->
  exists v, In v (m_verts m) /\ v_pos m' v <> v_pos m v.
Proof.
  intros H K. apply existsb_exists in H as (v & Iv & Nv). exists v. split; [exact Iv|]. intros Q. rewrite Q in Nv. rewrite (proj1 (forallb_forall _ _) K v Iv) in Nv. discriminate.
Qed.
Lemma dn_chk_use (m : mesh NF) : WF m -> dn_chk1 m = true -> (forall v, In v (m_verts m) -> v_lock m v = true) /\
  exists m', denoiseNormalGaussian (0x1.51eb851eb851fp-4%float : @num NF) 1 m (Ok m') /\ exists v, In v (m_verts m) /\ v_pos m' v <> v_pos m v.
Proof.
  intros W C. unfold dn_chk1 in C. apply andb_true_iff in C as [C C3]. apply andb_true_iff in C as [C C2]. apply andb_true_iff in C as [_ C1].
  split; [intros v Iv; apply (proj1 (forallb_forall _ _) C1 v Iv)|]. destruct (meanEdgeLength_ok m W) as (reps & _ & Ea). rewrite Ea in C3.
  assert (G := seq_gauss (0x1.51eb851eb851fp-4%float : @num NF) _ 1 m Ea).
  match type of C3 with context [seq_repeats ?st 0 1 m] => change (denoiseNormalGaussian (0x1.51eb851eb851fp-4%float : @num NF) 1 m (seq_repeats st 0 1 m)) in G; destruct (seq_repeats st 0 1 m) as [m'| | |]; try discriminate C3 end.
  exists m'. split; [exact G|]. apply moved_some; assumption.
Qed.
Lemma dn_refuted : exists (m0 m m' : mesh NF), mesh_of (ps_tetra acosF expF atan2F) ix_tetra = Ok m0 /\ m = lock_all m0 /\ (forall v, In v (m_verts m) -> v_lock m v = true) /\
  denoiseNormalGaussian (0x1.51eb851eb851fp-4%float : @num NF) 1 m (Ok m') /\ exists v, In v (m_verts m) /\ v_pos m' v <> v_pos m v.
Proof.
  destruct (with_ok _ _ _ _ _ dn_check) as (m0 & E0 & C). assert (W := lock_wf m0 (valid_wf _ (proj1 (construct_valid _ _ _ _ (proj1 (mesh_of_ok _ _ _) E0))))).
  destruct (dn_chk_use (lock_all m0) W C) as (L & m' & D & M). exists m0, (lock_all m0), m'. auto.
Qed.
(** Uniform Laplacian smoothing of ten triangles with a boundary moves a vertex. *)
Definition lap_chk (m : mesh NF) : bool :=
  existsb (h_bd m) (m_hes m) &&
  match seq_repeats (seq_lap_step (0.5%float : @num NF) false) 0 2 m with
  | Ok m' => existsb (fun v => negb (veqf (v_pos m' v) (v_pos m v))) (m_verts m) && forallb (fun v => veqf (v_pos m v) (v_pos m v)) (m_verts m)
  | _ => false
  end.
Lemma lap_check : with_mesh acosF expF atan2F (mesh_of (ps_two acosF expF atan2F) ix_two) lap_chk = true.
Proof. vm_cast_no_check (eq_refl true). Qed.
Lemma lap_case : exists (m m' : mesh NF), mesh_of (ps_two acosF expF atan2F) ix_two = Ok m /\ WF m /\ (exists v, on_boundary m v) /\
  smoothLaplacian (0.5%float : @num NF) false 2 m (Ok m') /\ exists v, In v (m_verts m) /\ v_pos m' v <> v_pos m v.
Proof.
  destruct (with_ok _ _ _ _ _ lap_check) as (m & E0 & C). assert (W := valid_wf _ (proj1 (construct_valid _ _ _ _ (proj1 (mesh_of_ok _ _ _) E0)))).
  unfold lap_chk in C. apply andb_true_iff in C as [B C]. assert (G := seq_lap (0.5%float : @num NF) false 2 m).
  destruct (seq_repeats (seq_lap_step (0.5%float : @num NF) false) 0 2 m) as [m'| | |]; try discriminate C. apply andb_true_iff in C as [C1 C2].
  exists m, m'. split; [exact E0|]. split; [exact W|]. split; [|split; [exact G|apply moved_some; assumption]].
  apply existsb_exists in B as (h & Ih & Bh). destruct (wf_src m W h Ih) as (v & Ev & _). exists v, h. auto.
Qed.
End W.
