(** Properties of construction: C01-C10, C14, C27, C28.
    Vocabulary: Spec.v and BuildSpec.v; the code: Mesh.v and Construct.v. *)
From Coq Require Import List ZArith Floats Arith Permutation.
From Verif Require Import Num NumInst Vec Heap Mesh Construct Spec BuildSpec BuildTri BuildProps Built Witness Refute Examples Degen.
Import ListNotations.

(** The binary64 instance; acos, exp and atan2 of the C library are arbitrary functions. *)
Notation libm1 := (float -> float).
Notation libm2 := (float -> float -> float).

(** ** C01: what construction returns is a valid mesh. *)
Theorem C01_construct_valid : forall (N : Num) (ps : list (vec N)) ix (m m' : mesh N),
  construct ps ix m = Ok (tt, m') -> Valid m' /\ FlagsSym m'.
Proof. exact @construct_valid. Qed.
Print Assumptions C01_construct_valid.
Example C01_case : forall (a e : libm1) (t : libm2), exists ps ix (m m' : mesh (NumF a e t)), construct ps ix m = Ok (tt, m') /\ length (m_hes m') = 38.
Proof. exact ex_built. Qed.

(** ** C02: the faces are the accepted triangles. *)
Theorem C02_construct_faithful : forall (N : Num) (NE : NumEq N) (ps : list (vec N)) ix m, NoNaN ps ix -> mesh_of ps ix = Ok m ->
  exists A, TrianglesOf ps ix (positions m) A /\ SurfaceOf m A.
Proof. exact @construct_faithful. Qed.
Print Assumptions C02_construct_faithful.
Example C02_case : forall (a e : libm1) (t : libm2), exists ps ix (m : mesh (NumF a e t)), NoNaN ps ix /\ mesh_of ps ix = Ok m /\ length (m_hes m) = 38.
Proof. exact ex_mesh. Qed.

(** ** C03: manifold soups are accepted. *)
Theorem C03_manifold_accepted : forall (N : Num) (NE : NumEq N) (ps : list (vec N)) ix us l, Welded ps ix us l -> Nat.divide 3 (length ix) ->
  (forall t, In t (triples l) -> ~ degenerate t) -> NoDup (edges (triples l)) ->
  (forall a, a < length us -> Fan (triples l) a) ->
  exists m, mesh_of ps ix = Ok m /\ SurfaceOf m (triples l) /\ positions m = us.
Proof. exact @accepts_manifold. Qed.
Print Assumptions C03_manifold_accepted.
Example C03_case : forall (a e : libm1) (t : libm2), exists (ps : list (vec (NumF a e t))) ix us l, Welded ps ix us l /\ Nat.divide 3 (length ix) /\ length ix = 12 /\
  (forall t, In t (triples l) -> ~ degenerate t) /\ NoDup (edges (triples l)) /\ (forall a, a < length us -> Fan (triples l) a).
Proof. exact ex_tetra. Qed.

(** The same for arrays without two equal positions, in terms of the arrays themselves. *)
Theorem C03_manifold_accepted_distinct : forall (N : Num) (NE : NumEq N) (ps : list (vec N)) ix, PosDistinct ps -> NoNaN ps ix ->
  (forall i, In i ix -> i < length ps) -> Nat.divide 3 (length ix) ->
  (forall t, In t (triples ix) -> ~ degenerate t) -> NoDup (edges (triples ix)) ->
  (forall a, used (triples ix) a -> Fan (triples ix) a) ->
  exists m A, mesh_of ps ix = Ok m /\ SurfaceOf m A /\ Forall2 (fun t t' => corners m t' = corners_of ps t) (triples ix) A.
Proof. exact @accepts_raw. Qed.
Print Assumptions C03_manifold_accepted_distinct.
Example C03_case_distinct : forall (a e : libm1) (t : libm2), exists (ps : list (vec (NumF a e t))) ix, PosDistinct ps /\ NoNaN ps ix /\ (forall i, In i ix -> i < length ps) /\ Nat.divide 3 (length ix) /\
  (forall t, In t (triples ix) -> ~ degenerate t) /\ NoDup (edges (triples ix)) /\ (forall a, used (triples ix) a -> Fan (triples ix) a) /\ length ix = 12.
Proof. exact ex_tetra_raw. Qed.

(** ** C04: a vertex without a single fan is rejected. *)
Theorem C04_nonmanifold_rejected : forall (N : Num) (NE : NumEq N) (ps : list (vec N)) ix us l, Welded ps ix us l -> Nat.divide 3 (length ix) ->
  (forall t, In t (triples l) -> ~ degenerate t) -> NoDup (edges (triples l)) ->
  (exists a, a < length us /\ ~ Fan (triples l) a) -> mesh_of ps ix = Abort AError.
Proof. exact @rejects_nonmanifold. Qed.
Print Assumptions C04_nonmanifold_rejected.
Example C04_case : forall (a e : libm1) (t : libm2), exists (ps : list (vec (NumF a e t))) ix us l, Welded ps ix us l /\ Nat.divide 3 (length ix) /\
  (forall t, In t (triples l) -> ~ degenerate t) /\ NoDup (edges (triples l)) /\ (exists a, a < length us /\ ~ Fan (triples l) a).
Proof. exact ex_bow. Qed.

(** ** C05: a triangle is skipped exactly if it repeats a directed edge of an accepted one. *)
Theorem C05_skipped_iff_repeated : forall (N : Num) (NE : NumEq N) (ps : list (vec N)) ix m, NoNaN ps ix -> mesh_of ps ix = Ok m ->
  exists l T rem A, Welded ps ix (positions m) l /\ Permutation (triples l) (T ++ rem) /\ (forall t, In t rem -> degenerate t) /\
    ((forall t, In t (triples l) -> ~ degenerate t) -> T = triples l) /\ SurfaceOf m A /\
    forall T1 t T2, T = T1 ++ t :: T2 -> exists A1 A2,
      (forall x, In x A1 -> In x T1) /\
      ((forall e, In e (tedges t) -> ~ In e (edges A1)) /\ A = A1 ++ t :: A2 \/
       (exists e, In e (tedges t) /\ In e (edges A1)) /\ A = A1 ++ A2) /\ Accepted T1 A1.
Proof. exact @construct_skips. Qed.
Print Assumptions C05_skipped_iff_repeated.
(** An input with a repeated triangle that is accepted. *)
Example C05_case : forall (a e : libm1) (t : libm2), exists ps ix (m : mesh (NumF a e t)), NoNaN ps ix /\ mesh_of ps ix = Ok m /\
  length (triples ix) = 5 /\ length (m_faces m) = 4.
Proof. exact ex_repeated. Qed.

(** ** C06: degenerate triangles.  False in general: two of them, one at the end,
    make construction fail although the rest of the array is fine. *)
Theorem C06_degenerate_refuted : forall (a e : libm1) (t : libm2), exists (ps : list (vec (NumF a e t))) ix ix' rem m,
  (forall i, In i ix -> i < length ps) /\ NoNaN ps ix /\
  Permutation (triples ix) (triples ix' ++ rem) /\ Forall degenerate rem /\ mesh_of ps ix' = Ok m /\ mesh_of ps ix = Abort AError.
Proof. exact degenerate_refuted. Qed.
Print Assumptions C06_degenerate_refuted.

(** True for at most one degenerate triangle.  Missing: any number of them. *)
Theorem C06_degenerate_dropped_partial : forall (N : Num) (NE : NumEq N) (ps : list (vec N)) ix us l, Welded ps ix us l -> Nat.divide 3 (length ix) ->
  length (filter degb (triples l)) <= 1 ->
  exists T rem A, Permutation (triples l) (T ++ rem) /\ (forall t, In t rem -> degenerate t) /\ (forall t, In t T -> ~ degenerate t) /\
    Accepted T A /\ ((forall a, a < length us -> used A a) -> (forall a, a < length us -> Fan A a) ->
      exists m, mesh_of ps ix = Ok m /\ SurfaceOf m A /\ positions m = us).
Proof. exact @one_degenerate. Qed.
Print Assumptions C06_degenerate_dropped_partial.
Example C06_case : forall (a e : libm1) (t : libm2), exists (ps : list (vec (NumF a e t))) ix us l, Welded ps ix us l /\ Nat.divide 3 (length ix) /\
  length (filter degb (triples l)) = 1 /\ length (triples l) = 3.
Proof. exact ex_one_degenerate. Qed.

(** For any number of them the outcome is decided by the last one: all are dropped if at
    least as many triangles follow it as degenerate ones precede it, and construction
    ends in an error otherwise. *)
Theorem C06_all_dropped_partial : forall (N : Num) (NE : NumEq N) (ps : list (vec N)) ix us l p t post, Welded ps ix us l -> Nat.divide 3 (length ix) ->
  triples l = p ++ t :: post -> degenerate t -> (forall u, In u post -> ~ degenerate u) -> length (filter degb p) <= length post ->
  exists T rem A, Permutation (triples l) (T ++ rem) /\ (forall u, In u rem -> degenerate u) /\ (forall u, In u T -> ~ degenerate u) /\
    Accepted T A /\ ((forall a, a < length us -> used A a) -> (forall a, a < length us -> Fan A a) ->
      exists m, mesh_of ps ix = Ok m /\ SurfaceOf m A /\ positions m = us).
Proof. exact @all_dropped. Qed.
Print Assumptions C06_all_dropped_partial.
Theorem C06_some_left : forall (N : Num) (NE : NumEq N) (ps : list (vec N)) ix us l p t post, Welded ps ix us l -> Nat.divide 3 (length ix) ->
  triples l = p ++ t :: post -> degenerate t -> length post < length (filter degb p) -> mesh_of ps ix = Abort AError.
Proof. exact @some_left. Qed.
Print Assumptions C06_some_left.
Example C06_dropped_case : forall (a e : libm1) (t0 : libm2), exists (ps : list (vec (NumF a e t0))) ix us l p t post, Welded ps ix us l /\ Nat.divide 3 (length ix) /\ triples l = p ++ t :: post /\ degenerate t /\
  (forall u, In u post -> ~ degenerate u) /\ length (filter degb p) = 2 /\ length post = 2.
Proof. exact ex_all_dropped. Qed.
Example C06_left_case : forall (a e : libm1) (t0 : libm2), exists (ps : list (vec (NumF a e t0))) ix us l p t post, Welded ps ix us l /\ Nat.divide 3 (length ix) /\ triples l = p ++ t :: post /\ degenerate t /\
  length (filter degb p) = 2 /\ length post = 1.
Proof. exact ex_some_left. Qed.

(** ** C07: construct on an object that already holds a mesh.  False: the old
    index array is kept in front of the new one. *)
Theorem C07_replace_refuted : forall (a e : libm1) (t : libm2), exists (ps1 ps2 : list (vec (NumF a e t))) ix1 ix2 m1 m2 m3,
  mesh_of ps1 ix1 = Ok m1 /\ mesh_of ps2 ix2 = Ok m2 /\ construct ps2 ix2 m1 = Ok (tt, m3) /\
  length (m_faces m2) = 3 /\ length (m_faces m3) = 4.
Proof. exact replace_refuted. Qed.
Print Assumptions C07_replace_refuted.
Theorem C07_replace_out_of_bounds_refuted : forall (a e : libm1) (t : libm2), exists (ps1 ps2 : list (vec (NumF a e t))) ix1 ix2 m1 m2,
  mesh_of ps1 ix1 = Ok m1 /\ mesh_of ps2 ix2 = Ok m2 /\ construct ps2 ix2 m1 = UB OutOfBounds.
Proof. exact replace_ub. Qed.
Print Assumptions C07_replace_out_of_bounds_refuted.

(** True if the object holds no indices (for instance a fresh one, or after loadOBJ's clear),
    whatever else it holds.  Missing: objects constructed before. *)
Theorem C07_replace_partial : forall (N : Num) (ps : list (vec N)) ix (m : mesh N), Nat.divide 3 (length ix) -> m_indices m = [] ->
  (exists m1 m2 A, mesh_of ps ix = Ok m1 /\ construct ps ix m = Ok (tt, m2) /\ SurfaceOf m1 A /\ SurfaceOf m2 A /\ positions m1 = positions m2) \/
  mesh_of ps ix = Abort AError /\ construct ps ix m = Abort AError \/
  mesh_of ps ix = UB NullDeref /\ construct ps ix m = UB NullDeref \/
  mesh_of ps ix = UB OutOfBounds /\ construct ps ix m = UB OutOfBounds.
Proof. exact @replace_when_empty. Qed.
Print Assumptions C07_replace_partial.
Example C07_case : forall (a e : libm1) (t : libm2), exists (ps : list (vec (NumF a e t))) ix us l (m : mesh (NumF a e t)), Welded ps ix us l /\ Nat.divide 3 (length ix) /\ m_indices m = [] /\
  length (m_hes m) = 38 /\ length ix = 12.
Proof. exact ex_cleared. Qed.

(** ** C08: welding. *)
Theorem C08_welded : forall (N : Num) (NE : NumEq N) (ps : list (vec N)) ix m, NoNaN ps ix -> mesh_of ps ix = Ok m ->
  (exists l, Welded ps ix (positions m) l) /\ (forall v, In v (m_verts m) -> exists h, In h (m_hes m) /\ h_src m h = Some v).
Proof. exact @construct_welds. Qed.
Print Assumptions C08_welded.
(** An input with equal positions at different indices. *)
Example C08_case : forall (a e : libm1) (t : libm2), exists ps ix (m : mesh (NumF a e t)), NoNaN ps ix /\ mesh_of ps ix = Ok m /\
  length ps = 6 /\ length (m_verts m) = 4.
Proof. exact ex_equal_positions. Qed.

(** ** C09: undefined behaviour.  False in general: a vertex that occurs only in a
    skipped triangle. *)
Theorem C09_no_ub_refuted : forall (a e : libm1) (t : libm2), exists (ps : list (vec (NumF a e t))) ix, NoNaN ps ix /\ (forall i, In i ix -> i < length ps) /\ Nat.divide 3 (length ix) /\
  (forall t, In t (triples ix) -> ~ degenerate t) /\ mesh_of ps ix = UB NullDeref.
Proof. exact skipped_refuted. Qed.
Print Assumptions C09_no_ub_refuted.
(** That null dereference is the only kind of undefined behaviour, also with NaN;
    construction always terminates. *)
Theorem C09_outcomes_partial : forall (N : Num) (ps : list (vec N)) ix, (forall i, In i ix -> i < length ps) -> Nat.divide 3 (length ix) ->
  (exists m, mesh_of ps ix = Ok m) \/ mesh_of ps ix = Abort AError \/ mesh_of ps ix = UB NullDeref.
Proof. exact @outcome_kinds. Qed.
Print Assumptions C09_outcomes_partial.
(** Without degenerate triangles and repeated edges there is none. *)
Theorem C09_no_ub_partial : forall (N : Num) (NE : NumEq N) (ps : list (vec N)) ix us l, Welded ps ix us l -> Nat.divide 3 (length ix) ->
  (forall t, In t (triples l) -> ~ degenerate t) -> NoDup (edges (triples l)) ->
  (exists m, mesh_of ps ix = Ok m /\ SurfaceOf m (triples l) /\ positions m = us) \/ mesh_of ps ix = Abort AError.
Proof. exact @outcome_safe. Qed.
Print Assumptions C09_no_ub_partial.
(** When exactly which outcome occurs. *)
Theorem C09_classified_partial : forall (N : Num) (NE : NumEq N) (ps : list (vec N)) ix us l, Welded ps ix us l -> Nat.divide 3 (length ix) ->
  exists T rem, Permutation (triples l) (T ++ rem) /\ (forall t, In t rem -> degenerate t) /\
    ((forall t, In t (triples l) -> ~ degenerate t) -> T = triples l) /\
    (length (filter degb (triples l)) <= 1 -> forall t, In t T -> ~ degenerate t) /\
    ((exists t, In t T /\ degenerate t) /\ mesh_of ps ix = Abort AError \/
     (forall t, In t T -> ~ degenerate t) /\ exists A, Accepted T A /\
      ((exists a, a < length us /\ ~ used A a) /\ mesh_of ps ix = UB NullDeref \/
       (forall a, a < length us -> used A a) /\ (exists a, a < length us /\ ~ Fan A a) /\ mesh_of ps ix = Abort AError \/
       (forall a, a < length us -> used A a) /\ (forall a, a < length us -> Fan A a) /\
         exists m, mesh_of ps ix = Ok m /\ SurfaceOf m A /\ positions m = us)).
Proof. exact @build_outcome. Qed.
Print Assumptions C09_classified_partial.
Example C09_case : forall (a e : libm1) (t : libm2), exists (ps : list (vec (NumF a e t))) ix us l, Welded ps ix us l /\ Nat.divide 3 (length ix) /\
  length (filter degb (triples l)) = 1 /\ length (triples l) = 3.
Proof. exact ex_one_degenerate. Qed.

(** ** C10: hole faces. *)
Theorem C10_hole_faces : forall (N : Num) (NE : NumEq N) (ps : list (vec N)) ix m, NoNaN ps ix -> mesh_of ps ix = Ok m ->
  exists A, TrianglesOf ps ix (positions m) A /\
  exists holes, m_faces m = firstn (length A) (m_faces m) ++ holes /\
    Forall2 (face_is m) (firstn (length A) (m_faces m)) A /\
    (forall a b, open_edge A a b -> exists h f, he_is m h b a /\ In f holes /\ h_face m h = Some f /\ forall h', he_is m h' b a -> h' = h) /\
    (forall f, In f holes -> exists l, f_halfedges (Some f) m = Ok (map Some l, m) /\ NoDup l /\ 3 <= length l /\ NoDup (map (h_src m) l) /\
       (forall h, In h l <-> In h (m_hes m) /\ h_face m h = Some f) /\ (forall h, In h l -> exists a b, open_edge A a b /\ he_is m h b a)) /\
    ((forall a b, ~ open_edge A a b) -> holes = [] /\ length (m_faces m) = length A /\ length (m_hes m) = 3 * length A).
Proof. exact @construct_holes. Qed.
Print Assumptions C10_hole_faces.
Example C10_case : forall (a e : libm1) (t : libm2), exists ps ix (m : mesh (NumF a e t)), NoNaN ps ix /\ mesh_of ps ix = Ok m /\ length (m_hes m) = 38.
Proof. exact ex_mesh. Qed.

(** ** C14: isBoundary. *)
Theorem C14_boundary : forall (N : Num) (NE : NumEq N) (ps : list (vec N)) ix m, NoNaN ps ix -> mesh_of ps ix = Ok m ->
  exists A, TrianglesOf ps ix (positions m) A /\
    (forall h, In h (m_hes m) -> exists a b, he_is m h a b) /\
    (forall h a b, he_is m h a b -> (h_bd m h = true <-> open_edge A a b \/ open_edge A b a)) /\
    (forall a v, nth_error (m_verts m) a = Some v -> exists b, v_isBoundary (Some v) m = Ok (b, m) /\
       (b = true <-> exists c, open_edge A a c \/ open_edge A c a)).
Proof. exact @construct_boundary. Qed.
Print Assumptions C14_boundary.
Example C14_case : forall (a e : libm1) (t : libm2), exists ps ix (m : mesh (NumF a e t)), NoNaN ps ix /\ mesh_of ps ix = Ok m /\ length (m_hes m) = 38.
Proof. exact ex_mesh. Qed.

(** ** C27: clone.  A function from the mesh: the original is not changed. Proved
    unless some triangle shares no edge with another one; such triangles are lost. *)
Theorem C27_clone_partial : forall (N : Num) (NE : NumEq N) (ps : list (vec N)) ix m, NoNaN ps ix -> mesh_of ps ix = Ok m ->
  exists A, TrianglesOf ps ix (positions m) A /\ SurfaceOf m A /\
  ((forall t, In t A -> ~ isolated A t) ->
   exists m' A', clone m = Ok m' /\ Valid m' /\ SurfaceOf m' A' /\
    Forall2 (fun t t' => exists t1, cyc_eq t t1 /\ corners m' t' = corners m t1) A A' /\
    Permutation (positions m') (positions m)).
Proof. exact @construct_clone. Qed.
Print Assumptions C27_clone_partial.
Example C27_case : forall (a e : libm1) (t : libm2), exists ps ix (m : mesh (NumF a e t)), NoNaN ps ix /\ mesh_of ps ix = Ok m /\
  exists m', clone m = Ok m' /\ length (m_hes m') = 38.
Proof. exact ex_clone. Qed.
Theorem C27_C28_single_triangle_refuted : forall (a e : libm1) (t : libm2), exists (ps : list (vec (NumF a e t))) m m',
  mesh_of ps [0;1;2] = Ok m /\ length (m_faces m) = 2 /\ getVertexIndices m = Ok ([], m) /\
  clone m = Ok m' /\ m_verts m' = [] /\ m_faces m' = [].
Proof. exact single_refuted. Qed.
Print Assumptions C27_C28_single_triangle_refuted.

(** ** C28: getVertexIndices; same restriction. *)
Theorem C28_indices_partial : forall (N : Num) (NE : NumEq N) (ps : list (vec N)) ix m, NoNaN ps ix -> mesh_of ps ix = Ok m ->
  exists A, TrianglesOf ps ix (positions m) A /\ SurfaceOf m A /\
  ((forall t, In t A -> ~ isolated A t) ->
   exists l, getVertexIndices m = Ok (map Z.of_nat l, m) /\ length l = 3 * length A /\ Forall2 cyc_eq A (triples l)).
Proof. exact @construct_indices. Qed.
Print Assumptions C28_indices_partial.
Example C28_case : forall (a e : libm1) (t : libm2), exists ps ix (m : mesh (NumF a e t)), NoNaN ps ix /\ mesh_of ps ix = Ok m /\
  exists l, getVertexIndices m = Ok (l, m) /\ length l = 30.
Proof. exact ex_indices. Qed.
