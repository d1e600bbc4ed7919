(** One step of the completed part towards its partners. *)
From Coq Require Import Reals List ZArith.
From Verif Require Import Num NumInst Vec Heap Mesh Spec GeomSpec VecR SmoothSpec LinR Lapl LaplSpec FeatSpec Bvh Coherent.
Import ListNotations.
Local Open Scope R_scope.

Section MoveSpec.
Variables (m : mesh NumR) (T : list (target NumR)).
Let n := length (m_verts m).
(** The target patch [t] has the vertex [i]. *)
Definition covers (t : target NumR) (i : nat) : Prop := In (Z.of_nat i) (p_verts (g_patch t)).
(** A patch counts by how similar its partner is. *)
Definition patch_weight (t : target NumR) : R := 1 / (g_dissim t ^ 5 + / 10 ^ 12).
(** [p] is the weighted mean of the points that are closest to the vertex [v] with index [i] on the partners of the patches that have [i]. *)
Definition PullsTo (i v : nat) (p : vecR) : Prop :=
  exists cs : list (target NumR * vecR),
    map fst cs = filter (fun t => if in_dec Z.eq_dec (Z.of_nat i) (p_verts (g_patch t)) then true else false) T /\ cs <> [] /\
    (forall t c, In (t, c) cs -> bvh_closest (g_bvh t) (v_pos m v) = Ok c /\ 0 < patch_weight t) /\
    vscale (fold_right Rplus 0 (map (fun tc => patch_weight (fst tc)) cs)) p = fold_right vadd vzero (map (fun tc => vscale (patch_weight (fst tc)) (snd tc)) cs).
(** [off]: zero where no patch pulls, from the pulled point to the vertex at the locked vertices, and
    extended to the others so that the cotangent operator gives zero there. *)
Definition OffsetAt (i v : nat) (o : vecR) : Prop :=
  (forall p, PullsTo i v p -> o = vsub (v_pos m v) p) /\ ((forall t, In t T -> ~ covers t i) -> o = vzero).
Definition Offsets (off : nat -> vecR) : Prop :=
  (forall i v, nth_error (m_verts m) i = Some v -> v_lock m v = true -> OffsetAt i v (off i)) /\
  exists ts, getMeshLaplacian Cotangent m = Ok (ts, m) /\
    forall i v, nth_error (m_verts m) i = Some v -> v_lock m v = false ->
      sum_to n (fun j => entry ts i j * vx (off j)) = 0 /\ sum_to n (fun j => entry ts i j * vy (off j)) = 0 /\ sum_to n (fun j => entry ts i j * vz (off j)) = 0.
(** The other vertices go a tenth of the way. *)
Definition Step (off : nat -> vecR) (m' : mesh NumR) : Prop :=
  posonly m m' /\
  forall i v, nth_error (m_verts m) i = Some v ->
    (v_lock m v = true -> v_pos m' v = v_pos m v) /\
    (v_lock m v = false -> exists p, PullsTo i v p /\ v_pos m' v = vadd (v_pos m v) (vscale (1 / 10) (vsub (vadd p (off i)) (v_pos m v)))).
(** Every vertex can reach a locked one. *)
Definition LockedReached : Prop := forall v, In v (m_verts m) -> exists w, reach m v w /\ In w (m_verts m) /\ v_lock m w = true.
End MoveSpec.
