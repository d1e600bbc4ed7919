(** Context coherent completion as a whole. *)
From Coq Require Import Bool List ZArith Arith Lia Permutation.
From Verif Require Import Num Vec Heap Mesh Spec Orbit Rings Exec Measure Tensor Deriv Feat SmoothSpec SmoothP Lapl LaplP LaplM Hks Bvh FrontC Gmm Icp Repair Coherent PatchSpec PatchP DescrP ReadOnly CoherSpec.
Import ListNotations.
Local Open Scope mesh_scope.

Section Flags.
Context {N : Num}.
Local Notation mesh := (mesh N).
Definition vat (m : mesh) (i : nat) : nat := nth i (m_verts m) 0.
Lemma vat_nth (m : mesh) i : i < length (m_verts m) -> nth_error (m_verts m) i = Some (vat m i).
Proof. intros H. apply nth_error_nth', H. Qed.
Lemma vat_in (m : mesh) i : i < length (m_verts m) -> In (vat m i) (m_verts m).
Proof. intros H. apply nth_In, H. Qed.
Lemma vertex_read (m : mesh) i : i < length (m_verts m) -> mesh_vertex (Z.of_nat i) m = Ok (Some (vat m i), m).
Proof. intros H. rewrite mesh_vertex_eq, (vat_nth m i H). reflexivity. Qed.
Lemma set_bd_cleared (m0 m : mesh) (l : list nat) (h : nat) :
  m = mkMesh (m_verts m0) (m_hes m0) (m_faces m0) (m_indices m0) (m_fresh m0) (v_live m0) (v_pos m0) (v_he m0) (v_idx m0) (v_lock m0)
        (h_live m0) (h_src m0) (h_next m0) (h_rev m0) (h_face m0) (h_idx m0) (h_bd m) (f_live m0) (f_he m0) (f_idx m0) ->
  set_h_bd h false m = mkMesh (m_verts m0) (m_hes m0) (m_faces m0) (m_indices m0) (m_fresh m0) (v_live m0) (v_pos m0) (v_he m0) (v_idx m0) (v_lock m0)
        (h_live m0) (h_src m0) (h_next m0) (h_rev m0) (h_face m0) (h_idx m0) (h_bd (set_h_bd h false m)) (f_live m0) (f_he m0) (f_idx m0).
Proof. intros E. rewrite E at 1. reflexivity. Qed.
Lemma halfedge_eq (m : mesh) i h : nth_error (m_hes m) i = Some h -> mesh_halfedge (Z.of_nat i) m = Ok (Some h, m).
Proof.
  intros E. assert (i < length (m_hes m)) by (apply nth_error_Some; congruence). unfold mesh_halfedge. rewrite bind_get, bind_assert by (apply andb_true_intro; split; [apply Z.leb_le|apply Z.ltb_lt]; lia). apply vec_at_ok, E.
Qed.
Lemma clear_ok (m0 m' : mesh) : clear_flags m0 = Ok (tt, m') -> FlagsCleared m0 m'.
Proof.
  unfold clear_flags. rewrite bind_get. set (step := fun i : nat => h <- mesh_halfedge (Z.of_nat i) ;; w_bd h false).
  assert (G : forall k n (m : mesh), n + k = length (m_hes m0) ->
    m = mkMesh (m_verts m0) (m_hes m0) (m_faces m0) (m_indices m0) (m_fresh m0) (v_live m0) (v_pos m0) (v_he m0) (v_idx m0) (v_lock m0)
        (h_live m0) (h_src m0) (h_next m0) (h_rev m0) (h_face m0) (h_idx m0) (h_bd m) (f_live m0) (f_he m0) (f_idx m0) ->
    (forall j h, j < n -> nth_error (m_hes m0) j = Some h -> h_bd m h = false) -> mfor (seq n k) step m = Ok (tt, m') -> FlagsCleared m0 m').
  { induction k as [|k IH]; intros n m Hn E C H; cbn [seq mfor] in H.
    - injection H as <-. split; [|exact E]. intros h Ih. apply In_nth_error in Ih as (j & Ej). apply (C j h); [|exact Ej]. assert (j < length (m_hes m0)) by (apply nth_error_Some; congruence). lia.
    - assert (Eh : m_hes m = m_hes m0) by (rewrite E; reflexivity). destruct (nth_error (m_hes m0) n) as [h|] eqn:En; [|apply nth_error_None in En; lia].
      apply bind_inv in H as ([] & m1 & S1 & H). unfold step in S1. rewrite (bind_ok _ _ _ _ _ (halfedge_eq m n h (eq_trans (f_equal (fun l => nth_error l n) Eh) En))) in S1.
      unfold w_bd, hwr in S1. destruct (h_live m h); [|discriminate]. injection S1 as <-. apply (IH (S n) (set_h_bd h false m)); [lia|exact (set_bd_cleared m0 m [] h E)| |exact H].
      intros j x Lj Ej. cbn [h_bd set_h_bd]. unfold fupd. destruct (Nat.eqb_spec x h) as [|D]; [reflexivity|]. apply (C j x); [|exact Ej]. assert (j <> n) by (intros ->; congruence). lia. }
  intros H. apply (G (length (m_hes m0)) 0 m0 eq_refl); [destruct m0; reflexivity|lia|exact H].
Qed.
End Flags.

Section Whole.
Context {N : Num}.
Local Notation mesh := (mesh N).
Variable horder : forall A : Type, list A -> list A.
Variables (trunc nceil : num -> Z) (nlog ncos nsin pow5 : num -> num).
Variable ldlt : nat -> (nat -> nat -> num) -> (nat -> num) -> nat -> num.
Variable sparse : nat -> (nat -> nat -> num) -> (nat -> num) -> nat -> num.
Variable eigs : nat -> (nat -> nat -> num) -> nat -> option ((nat -> num) * (nat -> nat -> num)).
Variables (svd : mat3 N -> mat3 N * vec N * mat3 N) (alg : algos).
Variable relax : mesh -> list nat -> option (nat -> vec N).
Local Notation whole := (holeFillContextCoherent horder trunc nceil nlog ncos nsin pow5 ldlt sparse eigs svd alg relax).

Lemma measured_ok avg (m : mesh) x m' : measured nceil nlog ncos nsin ldlt eigs avg m = Ok (x, m') -> m' = m /\ 300 < length (m_verts m).
Proof.
  intros H. assert (E := ro_measured ncos nsin ldlt nceil nlog eigs avg m x m' H). split; [exact E|]. clear E. unfold measured in H.
  apply bind_inv in H as (K & m1 & H1 & H). apply ro_curvatures in H1. subst m1. cbv zeta in H. apply bind_inv in H as (L & m1 & H1 & H). apply ro_laplacian in H1. subst m1. rewrite bind_get in H.
  apply bind_inv in H as (F & m1 & H1 & H). unfold liftr, getHeatKernelSignatures in H1. destruct (Z.ltb_spec 300 (Z.of_nat (length (m_verts m)))) as [G|G]; cbn [negb] in H1; [lia|discriminate].
Qed.
Lemma coherent_ok k fuel maxiters (m m' : mesh) : whole k fuel maxiters m = Ok (tt, m') ->
  exists m1 m2, fill_fronts relax k fuel m = Ok (tt, m1) /\ FlagsCleared m1 m2 /\ 300 < length (m_verts m1) /\ (maxiters = 0 -> m' = m2).
Proof.
  unfold holeFillContextCoherent. intros H. apply bind_inv in H as ([] & m1 & H1 & H). exists m1. apply bind_inv in H as (avg & m2 & H2 & H). apply ro_meanEdge in H2. subst m2. apply bind_inv in H as (ar & m2 & H2 & H). apply ro_meanArea in H2. subst m2.
  apply bind_inv in H as ([] & m2 & H2 & H). exists m2. assert (C := clear_ok _ _ H2). apply bind_inv in H as (x & m3 & H3 & H). apply measured_ok in H3 as [-> L]. split; [exact H1|]. split; [exact C|]. split.
  - destruct C as [_ C]. rewrite C in L. exact L.
  - intros ->. cbn [iterations] in H. injection H as <-. reflexivity.
Qed.

Section Few.
Variable m : mesh.
Hypothesis W : WF m.
Hypothesis Ho : Orders horder.
Lemma ids_run b : ids_with b m = Ok (map fst (filter (fun x => Bool.eqb (snd x) b) (map (fun i => (i, v_lock m (vat m i))) (seq 0 (length (m_verts m))))), m).
Proof.
  unfold ids_with. rewrite bind_get. rewrite (bind_ok _ _ _ (map (fun i => (i, v_lock m (vat m i))) (seq 0 (length (m_verts m)))) m); [reflexivity|].
  apply (mmap_all _ (fun i => (i, v_lock m (vat m i)))). intros i Hi. apply in_seq in Hi. assert (Li : i < length (m_verts m)) by lia. rewrite (bind_ok _ _ _ _ _ (vertex_read m i Li)).
  rewrite (bind_ok _ _ _ _ _ (r_lock m (vat m i) (v_alive m W _ (vat_in m i Li)))). reflexivity.
Qed.
Lemma filter_fst_map {A B} (p : B -> bool) (g : A -> B) l : map fst (filter (fun x => p (snd x)) (map (fun i => (i, g i)) l)) = filter (fun i => p (g i)) l.
Proof. induction l as [|a l IH]; [reflexivity|]. cbn [map filter snd]. destruct (p (g a)); cbn [map fst]; rewrite IH; reflexivity. Qed.
Lemma ids_eq b : ids_with b m = Ok (filter (fun i => Bool.eqb (v_lock m (vat m i)) b) (seq 0 (length (m_verts m))), m).
Proof. rewrite ids_run. do 2 f_equal. apply (filter_fst_map (fun l => Bool.eqb l b) (fun i => v_lock m (vat m i))). Qed.
Lemma filter_len {A B} (p : B -> bool) (g : A -> B) l : length (filter (fun i => p (g i)) l) = length (filter p (map g l)).
Proof. induction l as [|a l IH]; [reflexivity|]. cbn [map filter]. destruct (p (g a)); cbn [length]; rewrite IH; reflexivity. Qed.
Lemma vat_all : map (vat m) (seq 0 (length (m_verts m))) = m_verts m.
Proof.
  apply nth_ext with (d := vat m (length (m_verts m))) (d' := vat m (length (m_verts m))); [rewrite map_length, seq_length; reflexivity|]. intros i Hi. rewrite map_length, seq_length in Hi. rewrite (map_nth (vat m)), (nth_indep _ _ 0) by (rewrite seq_length; exact Hi).
  rewrite seq_nth by exact Hi. cbn [Nat.add]. symmetry. apply nth_error_nth, vat_nth, Hi.
Qed.
Lemma src_len : length (filter (fun i => Bool.eqb (v_lock m (vat m i)) true) (seq 0 (length (m_verts m)))) = length (locked m).
Proof. rewrite (filter_len (fun v => Bool.eqb (v_lock m v) true) (vat m)), vat_all. unfold locked. f_equal. apply filter_ext. intros v. destruct (v_lock m v); reflexivity. Qed.
Lemma ten s : 10 <= n_cands trunc s.
Proof. unfold n_cands. lia. Qed.
Lemma mmap_first {A B} (f : A -> M N B) x l u : f x m = UB u -> mmap f (x :: l) m = UB u.
Proof. intros H. cbn [mmap]. unfold bind at 1. rewrite H. reflexivity. Qed.
Lemma cands_run dims t P tgt : Signed t m -> (forall p z, In p P -> In z (p_verts p) -> exists i, i < length (m_verts m) /\ z = Z.of_nat i) -> length (locked m) < 10 -> tgt <> [] ->
  candidates trunc dims t P (filter (fun i => Bool.eqb (v_lock m (vat m i)) true) (seq 0 (length (m_verts m)))) tgt m = UB OutOfBounds.
Proof.
  intros St HP L T. set (S0 := filter _ _). assert (LS : length S0 = length (locked m)) by (unfold S0; apply src_len). clearbody S0. unfold candidates.
  assert (D : exists D, mmap (fun p => fs <- mmap (fun i => v <- mesh_vertex i ;; signature t v) (p_verts p) ;; ret (descriptor dims (length P) fs)) P m = Ok (D, m)).
  { generalize (length P). intros n. induction P as [|p P' IH]; cbn [mmap]; [eexists; reflexivity|]. destruct IH as (D & E); [intros q z Iq; apply (HP q z); right; exact Iq|].
    assert (F : exists fs, mmap (fun i => v <- mesh_vertex i ;; signature t v) (p_verts p) m = Ok (fs, m)).
    { assert (Q : forall z, In z (p_verts p) -> exists i, i < length (m_verts m) /\ z = Z.of_nat i) by (intros z; apply (HP p z (or_introl eq_refl))). generalize dependent (p_verts p). intros zs. induction zs as [|z zs IHz]; intros Q; cbn [mmap]; [eexists; reflexivity|].
      destruct IHz as (fs & Ef); [intros y Iy; apply Q; right; exact Iy|]. destruct (Q z (or_introl eq_refl)) as (i & Li & ->). destruct (St (vat m i) (vat_in m i Li)) as (f & Hf). exists (f :: fs).
      rewrite (bind_ok _ _ _ f m); [rewrite (bind_ok _ _ _ _ _ Ef); reflexivity|]. rewrite (bind_ok _ _ _ _ _ (vertex_read m i Li)). unfold signature. rewrite Hf. reflexivity. }
    destruct F as (fs & Ef). exists (descriptor dims n fs :: D). rewrite (bind_ok _ _ _ (descriptor dims n fs) m); [rewrite (bind_ok _ _ _ _ _ E); reflexivity|]. rewrite (bind_ok _ _ _ _ _ Ef). reflexivity. }
  destruct D as (D & ED). rewrite (bind_ok _ _ _ _ _ ED). destruct tgt as [|i tgt]; [contradiction|]. apply mmap_first. unfold liftr. rewrite cands_few; [reflexivity|]. rewrite map_length, LS. assert (Q := ten (length (locked m))). lia.
Qed.
Lemma iteration_few k avgLen avgArea rad dims t : Signed t m -> length (locked m) < 10 -> (exists v, In v (m_verts m) /\ v_lock m v = false) ->
  iteration horder trunc ncos nsin pow5 ldlt sparse svd alg k avgLen avgArea rad dims t m = UB OutOfBounds.
Proof.
  intros St L (v & Iv & Lv). unfold iteration. destruct (patches_run m W horder Ho rad) as (P & EP & LP & HP). rewrite (bind_ok _ _ _ _ _ EP), (bind_ok _ _ _ _ _ (ids_eq true)), (bind_ok _ _ _ _ _ (ids_eq false)).
  unfold bind at 1. rewrite cands_run; [reflexivity|exact St| |exact L|].
  - intros p z Ip Iz. apply In_nth_error in Ip as (i & Ei). assert (Li : i < length (m_verts m)) by (rewrite <- LP; apply nth_error_Some; congruence). destruct (HP i (vat m i) p (vat_nth m i Li) Ei) as (_ & _ & _ & Hz). apply Hz in Iz. destruct Iz as (f & w & j & _ & _ & Ej & ->). exists j. split; [apply nth_error_Some; congruence|reflexivity].
  - intros E. assert (Q : In v (map (vat m) (seq 0 (length (m_verts m))))) by (rewrite vat_all; exact Iv). apply in_map_iff in Q as (i & <- & Ii). assert (X : In i (filter (fun i => Bool.eqb (v_lock m (vat m i)) false) (seq 0 (length (m_verts m))))) by (apply filter_In; split; [exact Ii|rewrite Lv; reflexivity]). rewrite E in X. exact X.
Qed.
End Few.

(** The step of the targets moves the targets only. *)
Lemma steps_only A n s (m0 m' : mesh) : forall l (m : mesh), posonly m0 m -> (forall v, In v (m_verts m0) -> v_lock m0 v = true -> v_pos m v = v_pos m0 v) ->
  (forall ri, In ri l -> exists i v, snd ri = Z.of_nat i /\ nth_error (m_verts m0) i = Some v /\ v_lock m0 v = false) ->
  mfor l (step_to sparse A n s) m = Ok (tt, m') -> posonly m0 m' /\ forall v, In v (m_verts m0) -> v_lock m0 v = true -> v_pos m' v = v_pos m0 v.
Proof.
  induction l as [|ri l IH]; intros m Po K Hl H; cbn [mfor] in H; [injection H as <-; split; assumption|].
  apply bind_inv in H as ([] & m1 & H1 & H). destruct (Hl ri (or_introl eq_refl)) as (i & v & Ei & Ev & Lv). unfold step_to in H1. rewrite Ei in H1. assert (Em : m_verts m = m_verts m0) by (rewrite (po_eq _ _ Po); reflexivity).
  rewrite (bind_ok _ _ _ (Some v) m) in H1 by (rewrite mesh_vertex_eq, Em, Ev; reflexivity). apply bind_inv in H1 as (p & m2 & H2 & H1). unfold ve_pos, vrd in H2. destruct (v_live m v) eqn:Lm; [|discriminate]. injection H2 as <- <-.
  unfold w_pos, vwr in H1. rewrite Lm in H1. injection H1 as <-. eapply IH; [| | |exact H].
  - apply posonly_set; [exact Po|]. exact (nth_error_In _ _ Ev).
  - intros w Iw Lw. cbn [v_pos set_v_pos]. unfold fupd. destruct (Nat.eqb_spec w v) as [->|D]; [congruence|]. exact (K w Iw Lw).
  - intros rj Ij. apply Hl. right. exact Ij.
Qed.
Lemma move_only T (m m' : mesh) ids : ids_with false m = Ok (ids, m) -> WF m -> move_targets pow5 sparse T (map Z.of_nat ids) m = Ok (tt, m') ->
  posonly m m' /\ forall v, In v (m_verts m) -> v_lock m v = true -> v_pos m' v = v_pos m v.
Proof.
  intros Ei W H. rewrite (ids_eq m W) in Ei. injection Ei as <-. unfold move_targets in H. apply bind_inv in H as (A & m1 & H1 & H). apply ro_aims in H1. subst m1. apply bind_inv in H as (s & m1 & H1 & H). apply ro_soft in H1. subst m1.
  eapply steps_only; [apply posonly_refl|reflexivity| |exact H]. intros [r z] Hz. apply in_combine_r in Hz. apply in_map_iff in Hz as (i & <- & Ii). apply filter_In in Ii as [Ii Li]. apply in_seq in Ii. exists i, (vat m i). split; [reflexivity|]. split; [apply vat_nth; lia|]. destruct (v_lock m (vat m i)); [discriminate|reflexivity].
Qed.
End Whole.
