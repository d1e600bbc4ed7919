(** Properties of simplification and remeshing: C35-C37, C52, C53.  Vocabulary: Spec.v,
    SmoothSpec.v, RemeshSpec.v.  [simplifyQEM nt mt fuel m o]: the call with target [nt] and at
    most [mt] fruitless passes can end with [o], for some edge costs, some positions of
    the contracted vertices and some order of the queue; more than [fuel] passes would
    give [NoFuel].  [remeshTriangular short long keep n m o]: the call with these
    parameters can end with [o], for some shuffles. *)
From Coq Require Import Reals List ZArith Floats Arith.
From Verif Require Import Num NumInst Vec Heap Mesh Construct Spec BuildSpec Witness GeomSpec Measure SmoothSpec SmoothW RemeshSpec Simplify Remesh RemeshR RemeshW RemeshX.
Import ListNotations.
Notation libm1 := (float -> float).
Notation libm2 := (float -> float -> float).

(** ** C35: simplification ends after at most (faces + 1) * trials passes.  The face count goes down in
    steps of two, and not further than to one below the target. *)
Theorem C35_simplify : forall (N : Num) (nt mt : Z) fuel (m : mesh N), Valid m -> (length (m_faces m) + 1) * Z.to_nat mt <= fuel ->
  (exists o, simplifyQEM nt mt fuel m o) /\
  forall o, simplifyQEM nt mt fuel m o -> o <> NoFuel /\
    forall m', o = Ok m' -> exists k, length (m_faces m) = 2 * k + length (m_faces m') /\ (k = 0 \/ (nt - 1 <= Z.of_nat (length (m_faces m')))%Z).
Proof. exact @simplify_ends. Qed.
Print Assumptions C35_simplify.
(** Ten faces, target nine, eight faces left. *)
Example C35_C36_case : forall (a e : libm1) (t : libm2), exists m0 m m' : mesh (NumF a e t), mesh_of (ps_bip a e t) ix_bip = Ok m0 /\ m = lock_all a e t m0 /\ Valid m /\ length (m_faces m) = 10 /\
  (length (m_faces m) + 1) * Z.to_nat 1 <= 11 /\ simplifyQEM 9 1 11 m (Ok m') /\ length (m_faces m') = 8.
Proof. exact simplify_case. Qed.

(** ** C36: simplification of a valid mesh gives a valid mesh; otherwise it ends with an exception (a division by
    zero) or a failed assertion (a NaN position or the target 0), never with
    undefined behaviour. *)
Theorem C36_simplify : forall (N : Num) (nt mt : Z) fuel (m : mesh N) o, Valid m -> (length (m_faces m) + 1) * Z.to_nat mt <= fuel -> simplifyQEM nt mt fuel m o ->
  (exists m', o = Ok m' /\ Valid m') \/ o = Abort AThrow \/ o = Abort AAssert.
Proof. exact @simplify_valid. Qed.
Print Assumptions C36_simplify.
(** With exact arithmetic and a target other than 0 it always returns. *)
Theorem C36_simplify_exact : forall (nt mt : Z) fuel (m : mesh NumR) o, Valid m -> (length (m_faces m) + 1) * Z.to_nat mt <= fuel -> nt <> 0%Z -> simplifyQEM nt mt fuel m o ->
  exists m', o = Ok m' /\ Valid m'.
Proof. exact simplify_valid_R. Qed.
Print Assumptions C36_simplify_exact.

(** ** C37: remeshing of a valid mesh gives a valid mesh with the locked vertices where they were. *)
Theorem C37_remesh : forall (N : Num) (short long keep : num) n (m : mesh N), Valid m ->
  (exists o, remeshTriangular short long keep n m o) /\
  forall o, remeshTriangular short long keep n m o ->
    (exists m', o = Ok m' /\ Valid m' /\ forall v, In v (m_verts m) -> v_lock m v = true -> In v (m_verts m') /\ v_lock m' v = true /\ v_pos m' v = v_pos m v) \/
    o = Abort AThrow \/ o = Abort AAssert.
Proof. exact @remesh_valid. Qed.
Print Assumptions C37_remesh.
(** With exact arithmetic it always returns, and the ends of an edge with a dihedral angle below [keep] also stay. *)
Theorem C37_remesh_exact : forall (short long keep : R) n (m : mesh NumR) o, Valid m -> remeshTriangular (N := NumR) short long keep n m o ->
  exists m', o = Ok m' /\ Valid m' /\
    forall v w a b f g, Spec.Tri m f v w a -> Spec.Tri m g w v b -> (dihedral (v_pos m b) (v_pos m v) (v_pos m w) (v_pos m a) < keep)%R ->
      In v (m_verts m') /\ v_lock m' v = true /\ v_pos m' v = v_pos m v.
Proof. exact remesh_valid_R. Qed.
Print Assumptions C37_remesh_exact.
(** A tetrahedron with a locked vertex, which gets more faces. *)
Example C37_case : exists m m' : mesh NF0, Valid m /\ (exists v, In v (m_verts m) /\ v_lock m v = true) /\
  remeshTriangular (N := NF0) 0.5%float 1.125%float 0%float 1 m (Ok m') /\ length (m_faces m) < length (m_faces m').
Proof. exact remesh_case. Qed.
(** Two triangles over an edge with a right angle, which is below 3. *)
Example C37_exact_case : exists (m : mesh NumR) v w a b f g, Valid m /\ Spec.Tri m f v w a /\ Spec.Tri m g w v b /\ (dihedral (v_pos m b) (v_pos m v) (v_pos m w) (v_pos m a) < 3)%R.
Proof. exact feature_case. Qed.

(** ** C52: simplification leaves the boundary vertices of a mesh with symmetric flags where they are. *)
Theorem C52_boundary : forall (N : Num) (nt mt : Z) fuel (m m' : mesh N), Valid m -> FlagsSym m -> (length (m_faces m) + 1) * Z.to_nat mt <= fuel -> simplifyQEM nt mt fuel m (Ok m') ->
  FlagsSym m' /\ forall v, In v (m_verts m) -> on_boundary m v -> In v (m_verts m') /\ on_boundary m' v /\ v_pos m' v = v_pos m v.
Proof. exact @simplify_boundary. Qed.
Print Assumptions C52_boundary.
Example C52_case : forall (a e : libm1) (t : libm2), exists m m' : mesh (NumF a e t), mesh_of (ps_disc a e t) ix_disc = Ok m /\ Valid m /\ FlagsSym m /\ (length (m_faces m) + 1) * Z.to_nat 1 <= 16 /\
  simplifyQEM 13 1 16 m (Ok m') /\ length (m_faces m) = 15 /\ length (m_faces m') = 13.
Proof. exact disc_case. Qed.

(** ** C53: simplification and remeshing keep vertices - edges + faces.  C35_C36_case, C37_case and C52_case are cases. *)
Theorem C53_euler : forall (N : Num) (m m' : mesh N), Valid m ->
  (exists nt mt fuel, (length (m_faces m) + 1) * Z.to_nat mt <= fuel /\ simplifyQEM nt mt fuel m (Ok m')) \/ (exists short long keep n, remeshTriangular short long keep n m (Ok m')) ->
  euler m' = euler m.
Proof. exact @remesh_euler. Qed.
Print Assumptions C53_euler.
