(** Patches, their descriptors, and context coherent completion. *)
From Coq Require Import Reals Lra Lia List ZArith Bool Arith Permutation Floats.
From Verif Require Import Num NumInst Vec Heap Mesh Construct Spec Witness GeomSpec VecR MeasureM SmoothSpec Curv FillSpec FrontSpec FrontC FrontD FrontX Bvh LinR TensorR TensorSpec Lapl LaplSpec FeatSpec Repair Coherent PatchSpec PatchP DescrSpec DescrP MoveSpec MoveP CoherSpec CoherentP CoherentR.
Import ListNotations.
Local Open Scope R_scope.

(** ** C92: the patch of a vertex has the faces that are reached from it by crossing fewer edges than
    the radius, and the corners of these faces, each once, in whatever order a hash table gives. *)
Theorem C92_patches : forall {N : Num} (m : mesh N), WF m -> forall horder, Orders horder -> forall radius,
  exists P, patches horder radius m = Ok (P, m) /\ length P = length (m_verts m) /\
  forall i v p, nth_error (m_verts m) i = Some v -> nth_error P i = Some p ->
    NoDup (p_faces p) /\ NoDup (p_verts p) /\ (forall f, In f (p_faces p) <-> InPatch m v radius f) /\ forall z, In z (p_verts p) <-> Listed m (p_faces p) z.
Proof. exact @patches_run. Qed.
Print Assumptions C92_patches.
Example C92_case : forall acosF expF atan2F, exists (m : mesh (Witness.NF acosF expF atan2F)) P1 P2, WF m /\ Orders (fun _ l => l) /\
  patches (fun _ l => l) 1 m = Ok (P1, m) /\ patches (fun _ l => l) 2 m = Ok (P2, m) /\ sizes P1 = [3;3;3;3]%nat /\ sizes P2 = [4;4;4;4]%nat.
Proof. exact patch_case. Qed.

(** ** C93: a patch is described by the mean and the deviation of the signatures of its vertices, each
    scaled to a largest entry of 1, and the partners tried for a target are the sources whose
    descriptions are closest.  The first half is the mean.  The second half would be the deviation if the
    patch were the whole mesh. *)
Theorem C93_mean_partial : forall dims n (fs : list (list R)), (forall f, In f fs -> length f = dims) -> (0 < dims)%nat -> (0 < n)%nat -> fs <> [] ->
  (exists j, (j < dims)%nat /\ Mean fs j <> 0) -> (forall j, 0 <= Mean fs j) ->
  exists j0, Largest dims (Mean fs) j0 /\ forall j, (j < dims)%nat -> nth j (descriptor (N := NumR) dims n fs) 0 = Mean fs j / Mean fs j0.
Proof. exact descr_mean. Qed.
Print Assumptions C93_mean_partial.
Theorem C93_deviation_partial : forall dims (fs : list (list R)), (forall f, In f fs -> length f = dims) -> (0 < dims)%nat -> fs <> [] ->
  (exists j, (j < dims)%nat /\ Deviation fs j <> 0) ->
  exists j0, Largest dims (Deviation fs) j0 /\ forall j, (j < dims)%nat -> nth (dims + j) (descriptor (N := NumR) dims (length fs) fs) 0 = Deviation fs j / Deviation fs j0.
Proof. exact descr_dev. Qed.
Print Assumptions C93_deviation_partial.
Theorem C93_candidates_partial : forall horder trunc dims t radius P src tgt (m : mesh NumR), WF m -> Orders horder ->
  patches horder radius m = Ok (P, m) -> ids_with true m = Ok (src, m) -> ids_with false m = Ok (tgt, m) -> Signed t m ->
  (n_cands (N := NumR) trunc (length (locked m)) <= length (locked m))%nat ->
  exists C, candidates (N := NumR) trunc dims t P src tgt m = Ok (C, m) /\ length C = length tgt /\
  forall k i l, nth_error tgt k = Some i -> nth_error C k = Some l -> length l = n_cands (N := NumR) trunc (length src) /\ NoDup l /\ incl l src /\
    forall s s' p q q' f g g', In s l -> In s' src -> ~ In s' l -> nth_error P i = Some p -> nth_error P s = Some q -> nth_error P s' = Some q' ->
      SignaturesOf t m p f -> SignaturesOf t m q g -> SignaturesOf t m q' g' ->
      Dist2 (descriptor (N := NumR) dims (length P) f) (descriptor (N := NumR) dims (length P) g) <= Dist2 (descriptor (N := NumR) dims (length P) f) (descriptor (N := NumR) dims (length P) g').
Proof. exact cands_near_all. Qed.
Print Assumptions C93_candidates_partial.
(** A patch smaller than the mesh on which all signatures have the same entry. *)
Theorem C93_constant_refuted : forall dims n (fs : list (list R)), (forall f, In f fs -> length f = dims) -> (0 < dims)%nat -> (0 < n)%nat -> fs <> [] ->
  forall j a, (length fs < n)%nat -> (j < dims)%nat -> a <> 0 -> (forall f, In f fs -> entry_of f j = a) ->
  Deviation fs j = 0 /\ 0 < nth (dims + j) (descriptor (N := NumR) dims n fs) 0.
Proof. exact descr_const. Qed.
Print Assumptions C93_constant_refuted.
Theorem C93_deviation_refuted : exists dims n (fs : list (list R)) j, (length fs < n)%nat /\ fs <> [] /\ (forall f, In f fs -> length f = dims) /\ (j < dims)%nat /\
  Deviation fs j = 0 /\ 0 < nth (dims + j) (descriptor (N := NumR) dims n fs) 0.
Proof. exact descr_refuted. Qed.
Print Assumptions C93_deviation_refuted.
Example C93_case : exists (m : mesh NumR) P src tgt t, Valid m /\ Orders (fun _ l => l) /\ patches (fun _ l => l) 2 m = Ok (P, m) /\
  ids_with true m = Ok (src, m) /\ ids_with false m = Ok (tgt, m) /\ tgt = [0%nat] /\ Signed t m /\
  (n_cands (N := NumR) (fun _ => 0%Z) (length (locked m)) < length (locked m))%nat.
Proof. exact cands_case. Qed.

Example C93_mean_case : let fs := [[1; 2]; [3; 2]] in (forall f, In f fs -> length f = 2%nat) /\ fs <> [] /\ Mean fs 0 = 2 /\ (forall j, 0 <= Mean fs j) /\ Deviation fs 0 = 1.
Proof. exact mean_case. Qed.

(** ** C94: a step moves every completed vertex a tenth of the way to the weighted mean of the closest
    points on the partners of the patches that have it, shifted so that the completed part stays attached:
    the shift is harmonic and at the locked vertices it is what the partners are off by. *)
Theorem C94_step : forall sparse (m : mesh NumR) (T : list (target NumR)) ids, Valid m -> Closed m -> NonDegenerate m -> LockedReached m -> ExactSolver sparse ->
  ids_with false m = Ok (ids, m) ->
  (forall t, In t T -> 0 <= g_dissim t /\ (forall z, In z (p_verts (g_patch t)) -> exists i, (i < length (m_verts m))%nat /\ z = Z.of_nat i) /\ forall q, exists c, bvh_closest (g_bvh t) q = Ok c) ->
  (forall i v, nth_error (m_verts m) i = Some v -> v_lock m v = false -> exists t, In t T /\ MoveSpec.covers t i) ->
  exists off m', move_targets (N := NumR) pow5 sparse T (map Z.of_nat ids) m = Ok (tt, m') /\ Offsets m T off /\ Step m T off m'.
Proof. exact move_step. Qed.
Print Assumptions C94_step.
(** Whatever the arithmetic, the solver and the partners are: nothing but the positions of unlocked
    vertices changes. *)
Theorem C94_locked_stay : forall {N : Num} (pow5 : num -> num) sparse T (m m' : mesh N) ids, ids_with false m = Ok (ids, m) -> WF m ->
  move_targets pow5 sparse T (map Z.of_nat ids) m = Ok (tt, m') ->
  posonly m m' /\ forall v, In v (m_verts m) -> v_lock m v = true -> v_pos m' v = v_pos m v.
Proof. exact @move_only. Qed.
Print Assumptions C94_locked_stay.
Example C94_C95_case : exists (m : mesh NumR) ids (T : list (target NumR)) t, Valid m /\ Closed m /\ NonDegenerate m /\ LockedReached m /\ ExactSolver solveR /\ ids_with false m = Ok (ids, m) /\ ids <> [] /\ T <> [] /\
  (forall t, In t T -> 0 <= g_dissim t /\ (forall z, In z (p_verts (g_patch t)) -> exists i, (i < length (m_verts m))%nat /\ z = Z.of_nat i) /\ forall q, exists c, bvh_closest (g_bvh t) q = Ok c) /\
  (forall i v, nth_error (m_verts m) i = Some v -> v_lock m v = false -> exists t, In t T /\ MoveSpec.covers t i) /\
  Signed t m /\ (length (locked m) < 10)%nat /\ (exists v, In v (m_verts m) /\ v_lock m v = false).
Proof. exact locked_case. Qed.

(** ** C95: context coherent completion fills the holes of every mesh it accepts.  If it returns, it has
    filled the holes as in C70 to C73, has cleared the boundary flags, and the filled mesh has more
    than 300 vertices; without iterations nothing else happens.  It returns for no smaller mesh, and an
    iteration reads beyond an array if fewer than ten vertices are locked. *)
Theorem C95_returns_partial : forall {N : Num} horder trunc nceil nlog ncos nsin pow5 ldlt sparse eigs svd alg relax k fuel maxiters (m m' : mesh N),
  holeFillContextCoherent horder trunc nceil nlog ncos nsin pow5 ldlt sparse eigs svd alg relax k fuel maxiters m = Ok (tt, m') ->
  exists m1 m2, fill_fronts relax k fuel m = Ok (tt, m1) /\ FlagsCleared m1 m2 /\ (300 < length (m_verts m1))%nat /\ (maxiters = 0%nat -> m' = m2).
Proof. exact @coherent_ok. Qed.
Print Assumptions C95_returns_partial.
Theorem C95_small_refuted : forall acosF expF atan2F, exists (m m1 : mesh (Witness.NF acosF expF atan2F)),
  mesh_of (ps_tetra acosF expF atan2F) ix_open = Ok m /\ HolesApart m /\ (exists f, Hole m f) /\ fill_fronts (fun m _ => Some (v_pos m)) 5 1 m = Ok (tt, m1) /\
  forall horder trunc nceil nlog ncos nsin pow5 ldlt sparse eigs svd alg maxiters m',
    holeFillContextCoherent horder trunc nceil nlog ncos nsin pow5 ldlt sparse eigs svd alg (fun m _ => Some (v_pos m)) 5 1 maxiters m <> Ok (tt, m').
Proof. exact coherent_never. Qed.
Print Assumptions C95_small_refuted.
Theorem C95_few_locked_refuted : forall {N : Num} horder trunc ncos nsin pow5 ldlt sparse svd alg (m : mesh N), WF m -> Orders horder -> forall k avgLen avgArea radius dims t,
  Signed t m -> (length (locked m) < 10)%nat -> (exists v, In v (m_verts m) /\ v_lock m v = false) ->
  iteration horder trunc ncos nsin pow5 ldlt sparse svd alg k avgLen avgArea radius dims t m = UB OutOfBounds.
Proof. exact @iteration_few. Qed.
Print Assumptions C95_few_locked_refuted.
