(** The candidates of all targets, and examples beside C92 to C95. *)
From Coq Require Import Reals Lra Lia List ZArith Bool Arith Permutation Floats.
From Verif Require Import Num NumInst Vec Heap Mesh Construct Spec BuildSpec BuildProps Weld Built Orbit Rings Exec Witness Examples GeomSpec ExamplesR VecR MeasureM SmoothSpec SmoothP FillSpec FillP FrontS FrontSpec FrontE FrontW Curv CurvN CurvW RegTet GeomW Bvh BvhR LinR Lapl LaplSpec LaplP LaplM Tensor TensorSpec TensorR TensorM TensorS TensorW L0W Deriv DerivSpec DerivM DerivO Feat FeatSpec FeatO FeatW FrontC FrontD FrontX Repair Coherent PatchSpec PatchP DescrSpec DescrP SoftP MoveSpec MoveP ReadOnly CoherSpec CoherentP.
Import ListNotations.
Local Open Scope mesh_scope.
Local Open Scope R_scope.

Section Cands.
Variable m : mesh NumR.
Variables (trunc : R -> Z) (dims : nat) (t : @table NumR) (P : list patch).
Hypothesis St : Signed t m.
Hypothesis HP : forall p z, In p P -> In z (p_verts p) -> exists i, (i < length (m_verts m))%nat /\ z = Z.of_nat i.
Lemma sigs_run zs : (forall z, In z zs -> exists i, (i < length (m_verts m))%nat /\ z = Z.of_nat i) -> exists fs, mmap (fun i => v <- mesh_vertex i ;; signature t v) zs m = Ok (fs, m) /\
  Forall2 (fun z f => exists i v, z = Z.of_nat i /\ nth_error (m_verts m) i = Some v /\ tfind t (Some v) = Some f) zs fs.
Proof.
  induction zs as [|z zs IH]; intros Q; cbn [mmap]; [exists []; split; [reflexivity|constructor]|]. destruct IH as (fs & Ef & Hf); [intros y Iy; apply Q; right; exact Iy|]. destruct (Q z (or_introl eq_refl)) as (i & Li & ->).
  destruct (St (CoherentP.vat m i) (CoherentP.vat_in m i Li)) as (f & Hv). exists (f :: fs). split.
  - rewrite (bind_ok _ _ _ f m); [rewrite (bind_ok _ _ _ _ _ Ef); reflexivity|]. rewrite (bind_ok _ _ _ _ _ (CoherentP.vertex_read m i Li)). unfold signature. rewrite Hv. reflexivity.
  - constructor; [|exact Hf]. exists i, (CoherentP.vat m i). split; [reflexivity|]. split; [apply CoherentP.vat_nth, Li|exact Hv].
Qed.
Lemma sigs_unique p fs fs' : SignaturesOf t m p fs -> SignaturesOf t m p fs' -> fs = fs'.
Proof.
  unfold SignaturesOf. intros H. revert fs'. induction H as [|z f zs fs (i & v & -> & E1 & E2) H IH]; intros fs' H'; inversion H' as [|? f' ? fs'' (i' & v' & E0' & E1' & E2') H'']; subst; [reflexivity|]. apply Nat2Z.inj in E0'. subst i'. f_equal; [congruence|exact (IH _ H'')].
Qed.
Lemma descrs_run n Q : (forall p z, In p Q -> In z (p_verts p) -> exists i, (i < length (m_verts m))%nat /\ z = Z.of_nat i) ->
  exists D, mmap (fun p => fs <- mmap (fun i => v <- mesh_vertex i ;; signature t v) (p_verts p) ;; ret (descriptor (N := NumR) dims n fs)) Q m = Ok (D, m) /\
  forall i p, nth_error Q i = Some p -> exists fs, SignaturesOf t m p fs /\ nth i D [] = descriptor (N := NumR) dims n fs.
Proof.
  induction Q as [|p Q IH]; intros HQ; cbn [mmap]; [exists []; split; [reflexivity|]; intros [|i] p H; discriminate H|]. destruct IH as (D & E & HD); [intros q z Iq; apply (HQ q z); right; exact Iq|].
  destruct (sigs_run (p_verts p) (fun z => HQ p z (or_introl eq_refl))) as (fs & Ef & Hf). exists (descriptor dims n fs :: D). split.
  - rewrite (bind_ok _ _ _ (descriptor dims n fs) m); [rewrite (bind_ok _ _ _ _ _ E); reflexivity|]. rewrite (bind_ok _ _ _ _ _ Ef). reflexivity.
  - intros [|i] q Eq; cbn [nth_error] in Eq; [injection Eq as <-; exists fs; split; [exact Hf|reflexivity]|]. exact (HD i q Eq).
Qed.
Lemma cands_all src tgt : NoDup src -> (forall i, In i src \/ In i tgt -> (i < length P)%nat) -> (n_cands (N := NumR) trunc (length src) <= length src)%nat ->
  exists C, candidates (N := NumR) trunc dims t P src tgt m = Ok (C, m) /\ length C = length tgt /\
  forall k i l, nth_error tgt k = Some i -> nth_error C k = Some l -> length l = n_cands (N := NumR) trunc (length src) /\ NoDup l /\ incl l src /\
    forall s s' p q q' f g g', In s l -> In s' src -> ~ In s' l -> nth_error P i = Some p -> nth_error P s = Some q -> nth_error P s' = Some q' ->
      SignaturesOf t m p f -> SignaturesOf t m q g -> SignaturesOf t m q' g' ->
      Dist2 (descriptor (N := NumR) dims (length P) f) (descriptor (N := NumR) dims (length P) g) <= Dist2 (descriptor (N := NumR) dims (length P) f) (descriptor (N := NumR) dims (length P) g').
Proof.
  intros NS HI LN. unfold candidates. destruct (descrs_run (length P) P HP) as (D & ED & HD). rewrite (bind_ok _ _ _ _ _ ED). set (srcs := map (fun j => (j, nth j D [])) src).
  assert (Fs : map fst srcs = src) by (unfold srcs; rewrite map_map; cbn [fst]; apply map_id). assert (Ls : length srcs = length src) by (unfold srcs; apply map_length).
  assert (Q : forall tg, (forall i, In i tg -> (i < length P)%nat) -> exists C, mmap (fun i => liftr (cands (N := NumR) (n_cands (N := NumR) trunc (length src)) (nth i D []) srcs)) tg m = Ok (C, m) /\ length C = length tg /\
    forall k i l, nth_error tg k = Some i -> nth_error C k = Some l -> length l = n_cands (N := NumR) trunc (length src) /\ NoDup l /\ incl l src /\ forall a fa b fb, In (a, fa) srcs -> In (b, fb) srcs -> In a l -> ~ In b l -> Dist2 (nth i D []) fa <= Dist2 (nth i D []) fb).
  { induction tg as [|i tg IH]; intros Ht; cbn [mmap]; [exists []; split; [reflexivity|]; split; [reflexivity|]; intros [|k] i l H; discriminate H|]. destruct IH as (C & EC & LC & HC); [intros j Ij; apply Ht; right; exact Ij|].
    destruct (cands_near (n_cands (N := NumR) trunc (length src)) (nth i D []) srcs) as (l & El & L1 & L2 & L3 & L4); [exact (eq_ind_r (@NoDup nat) NS Fs)|exact (eq_ind_r (fun x => (n_cands (N := NumR) trunc (length src) <= x)%nat) LN Ls)|]. exists (l :: C). split; [|split; [cbn [length]; now rewrite LC|]].
    - rewrite (bind_ok _ _ _ l m); [rewrite (bind_ok _ _ _ _ _ EC); reflexivity|]. unfold liftr. change (@num NumR) with R in *. rewrite El. reflexivity.
    - intros [|k] j l' Ej El'; cbn [nth_error] in Ej, El'; [injection Ej as <-; injection El' as <-|exact (HC k j l' Ej El')]. assert (L3' := eq_ind _ (fun x => incl l x) L3 _ Fs). auto. }
  destruct (Q tgt (fun i I => HI i (or_intror I))) as (C & EC & LC & HC). exists C. split; [exact EC|]. split; [exact LC|]. intros k i l Ei El. destruct (HC k i l Ei El) as (L1 & L2 & L3 & L4). split; [exact L1|]. split; [exact L2|]. split; [exact L3|].
  intros s s' p q q' f g g' Is Is' Ns Ep Eq Eq' Sf Sg Sg'. destruct (HD i p Ep) as (f1 & Sf1 & Df). destruct (HD s q Eq) as (g1 & Sg1 & Dg). destruct (HD s' q' Eq') as (g1' & Sg1' & Dg').
  rewrite (sigs_unique _ _ _ Sf1 Sf) in Df. rewrite (sigs_unique _ _ _ Sg1 Sg) in Dg. rewrite (sigs_unique _ _ _ Sg1' Sg') in Dg'. rewrite <- Df, <- Dg, <- Dg'.
  apply (L4 s _ s' _); [apply in_map_iff; exists s; split; [reflexivity|exact (L3 s Is)]|apply in_map_iff; exists s'; split; [reflexivity|exact Is']|exact Is|exact Ns].
Qed.
End Cands.

(** The indices of the unlocked vertices. *)
Lemma ids_free (m : mesh NumR) ids : WF m -> ids_with false m = Ok (ids, m) -> map Z.of_nat ids = free_ids m.
Proof.
  intros W H. rewrite (ids_eq m W) in H. injection H as <-. unfold free_ids, free_list. f_equal.
Qed.
Lemma move_step sparse (m : mesh NumR) (T : list (target NumR)) ids : Valid m -> Closed m -> NonDegenerate m -> LockedReached m -> ExactSolver sparse -> ids_with false m = Ok (ids, m) ->
  (forall t, In t T -> 0 <= g_dissim t /\ (forall z, In z (p_verts (g_patch t)) -> exists i, (i < length (m_verts m))%nat /\ z = Z.of_nat i) /\ forall q, exists c, bvh_closest (g_bvh t) q = Ok c) ->
  (forall i v, nth_error (m_verts m) i = Some v -> v_lock m v = false -> exists t, In t T /\ MoveSpec.covers t i) ->
  exists off m', move_targets (N := NumR) pow5 sparse T (map Z.of_nat ids) m = Ok (tt, m') /\ Offsets m T off /\ Step m T off m'.
Proof. intros V C ND Re HS Ei HT Own. rewrite (ids_free m ids (valid_wf m V) Ei). exact (move_run m V T HT C ND Re sparse HS (fun i Hi => Own i _ (LaplP.vat_nth m i Hi))). Qed.

(** ** Examples *)
Definition lock0 (m : mesh NumR) : mesh NumR := set_v_lock (nth 0 (m_verts m) 0%nat) true m.
Lemma lock_valid (m : mesh NumR) v b : Valid m -> Valid (set_v_lock v b m).
Proof. intros V. constructor; [|exact (valid_noloops m V)|exact (valid_noparallel m V)|exact (valid_tri m V)]. destruct (valid_wf m V). constructor; assumption. Qed.
Definition any_tree : exists b : bvh NumR, forall q, exists c, bvh_closest b q = Ok c.
Proof.
  destruct bvh_ex as (ts & Nt & _ & trunc & alg & TR & AL). destruct (bvh_build trunc TR alg AL ts Nt) as (t & _ & B & Pm). exists (mkBvh (Some t) ts). intros q. destruct (bvh_query ts t q B Pm) as (c & E & _). exists c. exact E.
Qed.
Lemma locked_case : exists (m : mesh NumR) ids (T : list (target NumR)) t, Valid m /\ Closed m /\ NonDegenerate m /\ LockedReached m /\ ExactSolver solveR /\ ids_with false m = Ok (ids, m) /\ ids <> [] /\ T <> [] /\
  (forall t, In t T -> 0 <= g_dissim t /\ (forall z, In z (p_verts (g_patch t)) -> exists i, (i < length (m_verts m))%nat /\ z = Z.of_nat i) /\ forall q, exists c, bvh_closest (g_bvh t) q = Ok c) /\
  (forall i v, nth_error (m_verts m) i = Some v -> v_lock m v = false -> exists t, In t T /\ MoveSpec.covers t i) /\
  Signed t m /\ (length (locked m) < 10)%nat /\ (exists v, In v (m_verts m) /\ v_lock m v = false).
Proof.
  destruct regR_all as (m0 & _ & V0 & C0 & P & Lk & S0). assert (L := reg_len m0 P). destruct any_tree as (b & Hb). exists (lock0 m0). assert (V : Valid (lock0 m0)) by (apply lock_valid, V0). assert (Lm : length (m_verts (lock0 m0)) = 4%nat) by exact L.
  eexists. exists [Tg (N := NumR) 0%nat (Pt [] [0;1;2;3]%Z) 1 b], (combine (m_verts m0) (map (fun v => @nil R) (m_verts m0))).
  assert (Un : forall i v, nth_error (m_verts m0) i = Some v -> i <> 0%nat -> v_lock (lock0 m0) v = false).
  { intros i v Ei Ni. unfold lock0. cbn [v_lock set_v_lock]. unfold fupd. destruct (Nat.eqb_spec v (nth 0 (m_verts m0) 0%nat)) as [E|D]; [|apply Lk, (nth_error_In _ _ Ei)]. exfalso. apply Ni. subst v.
    apply (proj1 (NoDup_nth_error (m_verts m0)) (wf_v_nodup m0 (valid_wf m0 V0))); [apply nth_error_Some; congruence|]. rewrite Ei. symmetry. apply nth_error_nth'. lia. }
  assert (E1 : nth_error (m_verts m0) 1 = Some (nth 1 (m_verts m0) 0%nat)) by (apply nth_error_nth'; lia).
  split; [exact V|]. split; [exact C0|]. split; [exact (sp_nd m0 _ _ (reg_spherical m0 S0 P))|]. split.
  { intros v Hv. exists (LaplP.vat m0 0). split; [|split; [apply (vat_in m0); lia|unfold lock0; cbn [v_lock set_v_lock]; apply fupd_same]]. change (In v (m_verts m0)) in Hv. destruct (vat_of m0 v Hv) as (i & Hi & ->).
    destruct (Nat.eq_dec i 0) as [->|N]; [apply reach_here|]. apply (reach_edge (lock0 m0) _ _ _ (reach_here (lock0 m0) _)). rewrite L in Hi. change (adj m0 (LaplP.vat m0 i) (LaplP.vat m0 0)). apply (tet_adj m0 S0 i 0%nat); [apply vat_nth; rewrite L; exact Hi|apply vat_nth; lia|exact Hi|lia|exact N]. }
  split; [exact solveR_ok|]. split; [apply (ids_eq _ (valid_wf _ V))|]. split.
  { intros E. assert (X : In 1%nat (filter (fun i => Bool.eqb (v_lock (lock0 m0) (CoherentP.vat (lock0 m0) i)) false) (seq 0 (length (m_verts (lock0 m0)))))); [|rewrite E in X; exact X]. apply filter_In. split; [apply in_seq; lia|]. unfold CoherentP.vat. change (m_verts (lock0 m0)) with (m_verts m0). rewrite (Un 1%nat _ E1) by lia. reflexivity. }
  split; [discriminate|]. split.
  { intros t [<-|[]]. cbn [g_dissim g_patch g_bvh p_verts]. split; [lra|]. split; [|exact Hb]. rewrite Lm. intros z [<-|[<-|[<-|[<-|[]]]]]; [exists 0%nat|exists 1%nat|exists 2%nat|exists 3%nat]; (split; [lia|reflexivity]). }
  split.
  { intros i v Ei _. eexists. split; [left; reflexivity|]. unfold MoveSpec.covers. cbn [g_patch p_verts]. assert (i < 4)%nat by (rewrite <- Lm; apply nth_error_Some; congruence). destruct i as [|[|[|[|i]]]]; [left|right;left|right;right;left|right;right;right;left|lia]; reflexivity. }
  split.
  { intros v Iv. change (In v (m_verts m0)) in Iv. unfold tfind. clear - Iv. induction (m_verts m0) as [|x l IH]; [destruct Iv|]. cbn [map combine find fst]. destruct (Nat.eqb_spec x v) as [->|D]; [eexists; reflexivity|]. destruct Iv as [E|Iv]; [congruence|exact (IH Iv)]. }
  split.
  { unfold locked. apply Nat.le_lt_trans with (length (m_verts (lock0 m0))); [|lia]. clear. induction (m_verts (lock0 m0)) as [|x l IH]; [apply Nat.le_refl|]. cbn [filter]. destruct (v_lock (lock0 m0) x); cbn [length]; lia. }
  exists (nth 1 (m_verts m0) 0%nat). split; [exact (nth_error_In _ _ E1)|exact (Un 1%nat _ E1 ltac:(lia))].
Qed.

Lemma orders_id : Orders (fun _ l => l). Proof. intros A l. apply Permutation_refl. Qed.

Lemma cands_near_all horder trunc dims t rad P src tgt (m : mesh NumR) : WF m -> Orders horder -> patches horder rad m = Ok (P, m) -> ids_with true m = Ok (src, m) -> ids_with false m = Ok (tgt, m) -> Signed t m ->
  (n_cands (N := NumR) trunc (length (locked m)) <= length (locked m))%nat ->
  exists C, candidates (N := NumR) trunc dims t P src tgt m = Ok (C, m) /\ length C = length tgt /\
  forall k i l, nth_error tgt k = Some i -> nth_error C k = Some l -> length l = n_cands (N := NumR) trunc (length src) /\ NoDup l /\ incl l src /\
    forall s s' p q q' f g g', In s l -> In s' src -> ~ In s' l -> nth_error P i = Some p -> nth_error P s = Some q -> nth_error P s' = Some q' ->
      SignaturesOf t m p f -> SignaturesOf t m q g -> SignaturesOf t m q' g' ->
      Dist2 (descriptor (N := NumR) dims (length P) f) (descriptor (N := NumR) dims (length P) g) <= Dist2 (descriptor (N := NumR) dims (length P) f) (descriptor (N := NumR) dims (length P) g').
Proof.
  intros W Ho EP Es Et St LN. destruct (patches_run m W horder Ho rad) as (P' & EP' & LP & HP). rewrite EP in EP'. injection EP' as <-. rewrite (ids_eq m W) in Es, Et. injection Es as <-. injection Et as <-. rewrite <- (src_len m) in LN.
  apply (cands_all m trunc dims t P St); [|apply NoDup_filter, seq_NoDup| |exact LN].
  - intros p z Ip Iz. apply In_nth_error in Ip as (i & Ei). assert (Li : (i < length (m_verts m))%nat) by (rewrite <- LP; apply nth_error_Some; congruence). destruct (HP i (CoherentP.vat m i) p (CoherentP.vat_nth m i Li) Ei) as (_ & _ & _ & Hz). apply Hz in Iz. destruct Iz as (f & w & j & _ & _ & Ej & ->). exists j. split; [apply nth_error_Some; congruence|reflexivity].
  - rewrite LP. intros i [I|I]; apply filter_In in I as [I _]; apply in_seq in I; lia.
Qed.

Lemma firstn_nth_error {A} k : forall (l : list A) i, (i < k)%nat -> nth_error (firstn k l) i = nth_error l i.
Proof. induction k as [|k IH]; intros [|x l] [|i] H; try lia; try reflexivity. cbn [firstn nth_error]. apply IH. lia. Qed.
Lemma nth_seq n i : (i < n)%nat -> nth_error (seq 0 n) i = Some i.
Proof. intros H. rewrite (nth_error_nth' _ 0%nat) by (rewrite seq_length; exact H). rewrite seq_nth by exact H. reflexivity. Qed.
(** A double pyramid with twelve vertices. *)
Definition ix_dip : list nat := [0;1;2; 0;2;3; 0;3;4; 0;4;5; 0;5;6; 0;6;7; 0;7;8; 0;8;9; 0;9;10; 0;10;1; 11;2;1; 11;3;2; 11;4;3; 11;5;4; 11;6;5; 11;7;6; 11;8;7; 11;9;8; 11;10;9; 11;1;10]%nat.
Definition dipR : list vecR := map (fun k => v3 (INR k) 0 0) (seq 0 12).
Definition dipF : list (vec (Witness.NF (fun x => x) (fun x => x) (fun x _ => x))) := map (fun x => Witness.pt (fun x => x) (fun x => x) (fun x _ => x) x 0 0) [0;1;2;3;4;5;6;7;8;9;10;11]%float.
Lemma dip_check : Witness.with_mesh (fun x => x) (fun x => x) (fun x _ => x) (mesh_of dipF ix_dip) (fun m => true) = true.
Proof. vm_cast_no_check (eq_refl true). Qed.
Lemma dip_mesh : exists m : mesh NumR, mesh_of dipR ix_dip = Ok m /\ SurfaceOf m (triples ix_dip) /\ positions m = dipR.
Proof.
  assert (Wd : Welded dipF ix_dip dipF ix_dip) by (apply weld_Welded; [apply nonanb_ok; vm_cast_no_check (eq_refl true)|vm_cast_no_check (eq_refl (Some (dipF, ix_dip)))]).
  assert (D : Nat.divide 3 (length ix_dip)) by (apply divide_mod; reflexivity).
  assert (ND : forall t, In t (triples ix_dip) -> ~ degenerate t) by (apply nodegb_ok; reflexivity).
  assert (NE' : NoDup (edges (triples ix_dip))) by (apply nodupb_ok; reflexivity).
  assert (C := dip_check). apply with_ok in C as (m & E & _). assert (F := fans_of_ok dipF ix_dip dipF ix_dip m Wd D ND NE' E).
  apply (accepts_manifold dipR ix_dip dipR ix_dip); [|exact D|exact ND|exact NE'|exact F]. clear m E F Wd.
  apply Welded_id.
  - intros i p _ _. apply veqb_real. reflexivity.
  - intros i j p q Hi Hj E. apply veqb_real in E. subst q. assert (Li : (i < 12)%nat) by (replace 12%nat with (length dipR) by reflexivity; apply nth_error_Some; congruence). assert (Lj : (j < 12)%nat) by (replace 12%nat with (length dipR) by reflexivity; apply nth_error_Some; congruence).
    unfold dipR in Hi, Hj. rewrite (map_nth_error _ i (seq 0 12) (nth_seq 12 i Li)) in Hi. rewrite (map_nth_error _ j (seq 0 12) (nth_seq 12 j Lj)) in Hj.
    injection Hi as Hi. injection Hj as Hj. rewrite <- Hi in Hj. injection Hj as Hj. apply INR_eq in Hj. auto.
  - apply rangeb_ok. reflexivity.
  - intros j Hj. assert (Q : exists k, nth_error ix_dip k = Some j /\ forallb (fun x => Nat.ltb x j) (firstn k ix_dip) = true).
    { change (length dipR) with 12%nat in Hj. destruct j as [|[|[|[|[|[|[|[|[|[|[|[|j]]]]]]]]]]]]; [exists 0%nat|exists 1%nat|exists 2%nat|exists 5%nat|exists 8%nat|exists 11%nat|exists 14%nat|exists 17%nat|exists 20%nat|exists 23%nat|exists 26%nat|exists 30%nat|lia]; split; reflexivity. }
    destruct Q as (k & Ek & Q). exists k. split; [exact Ek|]. intros k' j' Lk Ej. rewrite forallb_forall in Q. apply Nat.ltb_lt, Q. apply nth_error_In with k'. rewrite (firstn_nth_error k ix_dip k' Lk); exact Ej.
Qed.
Definition lock_but (m : mesh NumR) : mesh NumR := with_lock (fun v => negb (v =? nth 0 (m_verts m) 0)%nat) m.
Lemma but_valid (m : mesh NumR) : Valid m -> Valid (lock_but m).
Proof. intros V. constructor; [|exact (valid_noloops m V)|exact (valid_noparallel m V)|exact (valid_tri m V)]. destruct (valid_wf m V). constructor; assumption. Qed.
Lemma cands_case : exists (m : mesh NumR) P src tgt t, Valid m /\ Orders (fun _ l => l) /\ patches (fun _ l => l) 2 m = Ok (P, m) /\ ids_with true m = Ok (src, m) /\ ids_with false m = Ok (tgt, m) /\ tgt = [0%nat] /\ Signed t m /\
  (n_cands (N := NumR) (fun _ => 0%Z) (length (locked m)) < length (locked m))%nat.
Proof.
  destruct dip_mesh as (m0 & _ & S0 & P0). assert (V0 := so_valid _ _ S0). assert (L0 : length (m_verts m0) = 12%nat) by (rewrite <- (map_length (v_pos m0)); change (map (v_pos m0) (m_verts m0)) with (positions m0); rewrite P0; reflexivity).
  assert (V := but_valid m0 V0). exists (lock_but m0). destruct (patches_run (lock_but m0) (valid_wf _ V) (fun _ l => l) orders_id 2) as (P & EP & _). exists P. eexists. eexists. exists (combine (m_verts m0) (map (fun v => @nil R) (m_verts m0))).
  assert (Ml : forall i, (i < 12)%nat -> v_lock (lock_but m0) (CoherentP.vat (lock_but m0) i) = negb (i =? 0)%nat).
  { intros i Hi. unfold lock_but, CoherentP.vat. cbn [v_lock m_verts with_lock]. f_equal. apply eq_true_iff_eq. rewrite !Nat.eqb_eq. split; [|intros ->; reflexivity]. intros E. apply (proj1 (NoDup_nth (m_verts m0) 0%nat) (wf_v_nodup m0 (valid_wf m0 V0))); [lia|lia|exact E]. }
  split; [exact V|]. split; [exact orders_id|]. split; [exact EP|]. split; [apply (ids_eq _ (valid_wf _ V))|]. split; [apply (ids_eq _ (valid_wf _ V))|].
  assert (Sq : length (m_verts (lock_but m0)) = 12%nat) by exact L0. split.
  { rewrite Sq. rewrite (filter_ext_in _ (fun i => (i =? 0)%nat)); [reflexivity|]. intros i I. apply in_seq in I. rewrite Ml by lia. destruct (i =? 0)%nat; reflexivity. }
  split.
  { intros v Iv. change (In v (m_verts m0)) in Iv. unfold tfind. clear - Iv. induction (m_verts m0) as [|x l IH]; [destruct Iv|]. cbn [map combine find fst]. destruct (Nat.eqb_spec x v) as [->|D]; [eexists; reflexivity|]. destruct Iv as [E|Iv]; [congruence|exact (IH Iv)]. }
  rewrite <- (src_len (lock_but m0)), Sq. rewrite (filter_ext_in _ (fun i => negb (i =? 0)%nat)); [cbn; lia|]. intros i I. apply in_seq in I. rewrite Ml by lia. destruct (i =? 0)%nat; reflexivity.
Qed.

Lemma descr_refuted : exists dims n (fs : list (list R)) j, (length fs < n)%nat /\ fs <> [] /\ (forall f, In f fs -> length f = dims) /\ (j < dims)%nat /\ Deviation fs j = 0 /\ 0 < nth (dims + j) (descriptor (N := NumR) dims n fs) 0.
Proof.
  exists 2%nat, 4%nat, [[1; 2]; [1; 3]; [1; 4]], 0%nat. split; [cbn; lia|]. split; [discriminate|]. assert (H : forall f, In f [[1; 2]; [1; 3]; [1; 4]] -> length f = 2%nat) by (intros f [<-|[<-|[<-|[]]]]; reflexivity). split; [exact H|]. split; [lia|].
  apply (descr_const 2 4 [[1; 2]; [1; 3]; [1; 4]] H ltac:(lia) ltac:(lia) ltac:(discriminate) 0 1); [cbn; lia|lia|lra|]. intros f [<-|[<-|[<-|[]]]]; reflexivity.
Qed.

Section F.
Variables (acosF expF : float -> float) (atan2F : float -> float -> float).
Notation NF := (Witness.NF acosF expF atan2F).
Local Open Scope nat_scope.
Definition sizes (l : list patch) : list nat := map (fun p => length (p_faces p)) l.
Definition eqnb (a b : list nat) : bool := if list_eq_dec Nat.eq_dec a b then true else false.
Definition patch_chk (m : mesh NF) : bool :=
  match patches (fun _ l => l) 1 m, patches (fun _ l => l) 2 m with
  | Ok (P1, _), Ok (P2, _) => eqnb (sizes P1) [3;3;3;3] && eqnb (sizes P2) [4;4;4;4] | _, _ => false end.
Lemma patch_check : Witness.with_mesh acosF expF atan2F (mesh_of (ps_tetra acosF expF atan2F) ix_tetra) patch_chk = true.
Proof. vm_cast_no_check (eq_refl true). Qed.
Lemma patch_case : exists (m : mesh NF) P1 P2, WF m /\ Orders (fun _ l => l) /\ patches (fun _ l => l) 1 m = Ok (P1, m) /\ patches (fun _ l => l) 2 m = Ok (P2, m) /\ sizes P1 = [3;3;3;3] /\ sizes P2 = [4;4;4;4].
Proof.
  destruct (with_ok _ _ _ _ _ patch_check) as (m & E & C). unfold patch_chk in C. apply mesh_of_ok in E. destruct (construct_valid _ _ _ m E) as [V _]. assert (W := valid_wf m V). exists m.
  destruct (patches_run m W (fun _ l => l) orders_id 1) as (P1 & E1 & _). destruct (patches_run m W (fun _ l => l) orders_id 2) as (P2 & E2 & _). rewrite E1, E2 in C. exists P1, P2. apply andb_true_iff in C as [C1 C2]. unfold eqnb in C1, C2.
  destruct (list_eq_dec Nat.eq_dec (sizes P1) [3;3;3;3]) as [Q1|]; [|discriminate]. destruct (list_eq_dec Nat.eq_dec (sizes P2) [4;4;4;4]) as [Q2|]; [|discriminate]. exact (conj W (conj orders_id (conj E1 (conj E2 (conj Q1 Q2))))).
Qed.
Definition few_chk (m : mesh NF) : bool :=
  apartb m && Nat.eqb (length (filter (holeb m) (m_faces m))) 1 &&
  match fill_fronts (fun m _ => Some (v_pos m)) 5 1 m with Ok (_, m') => Nat.leb (length (m_verts m')) 300 | _ => false end.
Lemma few_check : Witness.with_mesh acosF expF atan2F (mesh_of (ps_tetra acosF expF atan2F) ix_open) few_chk = true.
Proof. vm_cast_no_check (eq_refl true). Qed.
Lemma coherent_never : exists (m m1 : mesh NF), mesh_of (ps_tetra acosF expF atan2F) ix_open = Ok m /\ HolesApart m /\ (exists f, Hole m f) /\ fill_fronts (fun m _ => Some (v_pos m)) 5 1 m = Ok (tt, m1) /\
  forall horder trunc nceil nlog ncos nsin pow5 ldlt sparse eigs svd alg maxiters m', holeFillContextCoherent (N := NF) horder trunc nceil nlog ncos nsin pow5 ldlt sparse eigs svd alg (fun m _ => Some (v_pos m)) 5 1 maxiters m <> Ok (tt, m').
Proof.
  destruct (with_ok _ _ _ _ _ few_check) as (m & E & C). unfold few_chk in C. apply andb_true_iff in C as [C C3]. apply andb_true_iff in C as [C1 C2].
  destruct (fill_fronts (fun m _ => Some (v_pos m)) 5 1 m) as [[[] m1]| | |] eqn:X; try discriminate C3. exists m, m1. split; [exact E|]. apply mesh_of_ok in E. destruct (construct_valid _ _ _ m E) as [V _]. split; [exact (apart_ok m (valid_wf m V) C1)|]. split; [|split; [exact X|]].
  - apply Nat.eqb_eq in C2. destruct (filter (holeb m) (m_faces m)) as [|f l] eqn:F; [discriminate|]. exists f. assert (I : In f (filter (holeb m) (m_faces m))) by (rewrite F; left; reflexivity). apply filter_In in I as [I H]. apply holeb_iff; assumption.
  - intros horder trunc nceil nlog ncos nsin pow5 ldlt sparse eigs svd alg maxiters m' H. apply coherent_ok in H as (m1' & m2 & F & _ & L & _). rewrite X in F. injection F as <-. apply Nat.leb_le in C3. lia.
Qed.
End F.
Lemma descr_dev dims (fs : list (list R)) : (forall f, In f fs -> length f = dims) -> (0 < dims)%nat -> fs <> [] ->
  (exists j, (j < dims)%nat /\ Deviation fs j <> 0) ->
  exists j0, Largest dims (Deviation fs) j0 /\ forall j, (j < dims)%nat -> nth (dims + j) (descriptor (N := NumR) dims (length fs) fs) 0 = Deviation fs j / Deviation fs j0.
Proof. intros H1 H2 H3. apply (descr_sigma dims (length fs) fs H1 H2); [destruct fs; [contradiction|cbn; lia]|exact H3|reflexivity]. Qed.
Lemma mean_case : let fs := [[1; 2]; [3; 2]] in (forall f, In f fs -> length f = 2%nat) /\ fs <> [] /\ Mean fs 0 = 2 /\ (forall j, 0 <= Mean fs j) /\ Deviation fs 0 = 1.
Proof.
  intros fs. assert (M0 : Mean fs 0 = 2) by (unfold Mean, fs, total, entry_of; cbn; lra). assert (S0 : MeanSquare fs 0 = 5) by (unfold MeanSquare, fs, total, entry_of; cbn; lra). split; [intros f [<-|[<-|[]]]; reflexivity|]. split; [discriminate|]. split; [exact M0|]. split.
  - intros [|[|j]]; unfold Mean, fs, total, entry_of; cbn; [lra|lra|]. destruct j; lra.
  - unfold Deviation. rewrite M0, S0. replace (5 - 2 ^ 2) with 1 by ring. apply sqrt_1.
Qed.
