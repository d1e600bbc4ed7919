(** Hole filling with an advancing front, together with the relaxation: C99.
    Vocabulary: FrontSpec.v, RelaxSpec.v and WholeSpec.v; the code: Front.v, Relax.v and Whole.v. *)
From Coq Require Import List ZArith Floats Arith Reals.
From Verif Require Import Num NumInst Vec Heap Mesh Construct Spec FillSpec GeomSpec VecR Measure MeasureR MeasureM BuildSpec SmoothSpec Curv Lapl LaplSpec TensorSpec TensorR LaplSpec RegTet FrontA FrontS FrontSpec FrontE Front FrontW Relax RelaxSpec RelaxW Whole WholeSpec WholeP WholeR.
Import ListNotations.

(** ** C99: if the function returns, the hole is filled with triangles and the rest of the mesh is intact.  The
    relaxation reads only elements that exist and divides, indexes and solves safely: the only undefined
    behaviour is the index -1, when no angle is below 1e20. *)
Theorem C99_filled : forall (N : Num) ncos nsin sparse fuel (m : mesh N) f ring bs, WF m -> NoLoops m -> In f (m_faces m) -> Corners m f ring bs -> NoDup bs -> 3 <= length bs ->
  match fillAdvancingFront ncos nsin sparse fuel (Some f) m with
  | Ok (_, m') => FrontFilled m f bs m' | UB k => k = OutOfBounds /\ ~ AnglesBelow N | Abort _ | NoFuel => True
  end.
Proof. exact @whole_front. Qed.
Print Assumptions C99_filled.
Theorem C99_filled_constructed : forall (N : Num) ncos nsin sparse fuel (ps : list (vec N)) ix m f, mesh_of ps ix = Ok m -> In f (m_faces m) -> exists ring bs, Corners m f ring bs /\
  match fillAdvancingFront ncos nsin sparse fuel (Some f) m with
  | Ok (_, m') => FrontFilled m f bs m' | UB k => k = OutOfBounds /\ ~ AnglesBelow N | Abort _ | NoFuel => True
  end.
Proof. exact @whole_constructed. Qed.
Print Assumptions C99_filled_constructed.
Theorem C99_filled_real : forall ncos nsin sparse fuel (m : mesh NumR) f ring bs, WF m -> NoLoops m -> In f (m_faces m) -> Corners m f ring bs -> NoDup bs -> 3 <= length bs ->
  match fillAdvancingFront ncos nsin sparse fuel (Some f) m with Ok (_, m') => FrontFilled m f bs m' | UB _ => False | Abort _ | NoFuel => True end.
Proof. exact whole_real. Qed.
Print Assumptions C99_filled_real.
(** The vertices that the relaxation moves are those that one gets to from the last triangle through
    unlocked vertices.  All of them are new. *)
Theorem C99_moved : forall (N : Num) ncos nsin sparse fuel (m m' : mesh N) f ring bs, WF m -> NoLoops m -> In f (m_faces m) -> Corners m f ring bs -> NoDup bs -> 3 <= length bs ->
  fillAdvancingFront ncos nsin sparse fuel (Some f) m = Ok (tt, m') ->
  exists l p x, NoDup l /\ (forall v, In v l <-> FreeFrom m' f v) /\ (forall v, In v l -> In v (m_verts m') /\ ~ In v (m_verts m)) /\
    relaxed ncos nsin sparse l (at_positions m' p) = Ok (x, at_positions m' p) /\ forall v, v_pos m' v = if in_dec Nat.eq_dec v l then x v else p v.
Proof. exact @whole_moved. Qed.
Print Assumptions C99_moved.
(** Such vertices there are: in a hole with six corners a vertex is put in the middle and moved. *)
Example C99_case : forall a e : float -> float, exists (m m' : mesh (NumF a e atan2_about)) f ring bs v, mesh_of (ps_hexagon a e) ix_hexagon = Ok m /\ Hole m f /\ Corners m f ring bs /\ NoDup bs /\ length bs = 6 /\
  fillAdvancingFront (N := NumF a e atan2_about) cosF sinF solve1 8 (Some f) m = Ok (tt, m') /\ FreeFrom m' f v.
Proof. exact hexagon_facts. Qed.
(** In exact arithmetic, with an exact solver, they get the positions that solve the Poisson equation (see
    C96), if the mesh has no other hole, is connected and its triangles do not degenerate.  No other vertex
    moves. *)
Theorem C99_relaxed : forall sparse fuel (m m' : mesh NumR) f ring bs, WF m -> NoLoops m -> In f (m_faces m) -> Corners m f ring bs -> NoDup bs -> 3 <= length bs ->
  fillAdvancingFront (N := NumR) cos sin sparse fuel (Some f) m = Ok (tt, m') -> ExactSolver sparse -> Triangulated m' -> Connected m' ->
  exists l p, NoDup l /\ (forall v, In v l <-> FreeFrom m' f v) /\ (forall v, ~ In v l -> p v = v_pos m' v) /\
    (NonDegenerate (at_positions m' p) -> Relaxed (at_positions m' p) l (v_pos m')).
Proof. exact whole_relaxed. Qed.
Print Assumptions C99_relaxed.
(** [Triangulated] holds if all other faces are triangles and no two edges are parallel. *)
Theorem C99_triangulated : forall (N : Num) (m m' : mesh N) f bs, WF m -> FrontFilled m f bs m' ->
  (forall h, In h (m_hes m) -> h_face m h <> Some f -> piter (h_next m) 3 h = Some h) -> NoParallel m' -> Triangulated m'.
Proof. exact @filled_triangulated. Qed.
Print Assumptions C99_triangulated.
(** A hole with three corners becomes a triangle in one step, and no vertex moves. *)
Theorem C99_three : forall (N : Num) ncos nsin sparse fuel (m : mesh N) f ring bs, WF m -> In f (m_faces m) -> Corners m f ring bs -> length bs = 3 ->
  exists k b p, fillAdvancingFront ncos nsin sparse (S fuel) (Some f) m = Ok (tt, with_pos p (with_bd b (with_lock k m))) /\ (forall v, p v = v_pos m v) /\ forall v, k v = true <-> v_lock m v = true \/ In v bs.
Proof. exact @three_corners. Qed.
Print Assumptions C99_three.
Example C99_three_case : forall sparse, exists (m m' : mesh NumR) f ring bs, WF m /\ NoLoops m /\ In f (m_faces m) /\ Corners m f ring bs /\ NoDup bs /\ length bs = 3 /\
  fillAdvancingFront (N := NumR) cos sin sparse 1 (Some f) m = Ok (tt, m') /\ Triangulated m' /\ Connected m' /\ NonDegenerate m' /\ positions m' = regR.
Proof. exact three_case. Qed.
Example C99_solver : ExactSolver solveR.
Proof. exact solveR_ok. Qed.
(** C70 to C73 speak of the same function: what they say of every relaxation holds of this one. *)
Theorem C99_same : forall (N : Num) ncos nsin sparse fuel f (m m' : mesh N),
  fillAdvancingFront ncos nsin sparse fuel f m = Ok (tt, m') <-> holeFillAdvancingFront (relaxation ncos nsin sparse) fuel f m = Ok (tt, m').
Proof. exact @whole_same. Qed.
Print Assumptions C99_same.
