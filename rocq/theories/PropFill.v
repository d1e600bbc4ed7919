(** Properties of hole filling: C25, C26, C54 and the part of C23 about fillHoles.
    Vocabulary: Spec.v and FillSpec.v; the code: Fill.v.  [cabs] is the function that the name
    abs stands for in completion.cpp, any function; NumAngle (FillD.v) is what is asked of acos. *)
From Coq Require Import List ZArith Floats Arith.
From Verif Require Import Num NumInst Vec Heap Mesh Construct Spec EditRun FillSpec Fill FillD FillE FillR.
Import ListNotations.
Notation libm1 := (float -> float).
Notation libm2 := (float -> float -> float).

(** ** C25: fillHoles fills every hole with n corners by n - 2 triangles and changes nothing else. *)
Theorem C25_fill : forall (N : Num) (NA : NumAngle N) cabs (m : mesh N), Valid m -> AtLeast3 m ->
  exists m' hs gs, fillHoles cabs m = Ok (tt, m') /\ NoDup hs /\ (forall f, In f hs <-> Hole m f) /\ FilledWith m hs gs m' /\
    (forall h, In h (m_hes m') -> piter (h_next m') 3 h = Some h) /\
    ((forall f ring bs, Hole m f -> Corners m f ring bs -> NoDup bs) -> NoLoops m').
Proof. exact @fill_top. Qed.
Print Assumptions C25_fill.
(** For meshes made from arrays nothing need be assumed. *)
Theorem C25_fill_constructed : forall (N : Num) (NA : NumAngle N) cabs (ps : list (vec N)) ix m, mesh_of ps ix = Ok m ->
  exists m' hs gs, fillHoles cabs m = Ok (tt, m') /\ NoDup hs /\ (forall f, In f hs <-> Hole m f) /\ FilledWith m hs gs m' /\
    (forall h, In h (m_hes m') -> piter (h_next m') 3 h = Some h) /\ NoLoops m'.
Proof. exact @fill_constructed. Qed.
Print Assumptions C25_fill_constructed.
(** Edits of such meshes lead to meshes that C25_fill applies to. *)
Theorem C25_fill_edited : forall (N : Num) (ps : list (vec N)) ix m0 es m, mesh_of ps ix = Ok m0 -> edit_args m0 es -> run_edits es m0 = Ok (tt, m) ->
  Valid m /\ AtLeast3 m.
Proof. exact @fill_edited. Qed.
Print Assumptions C25_fill_edited.
(** A second call changes nothing. *)
Theorem C25_fill_again : forall (N : Num) (NA : NumAngle N) cabs (m m' : mesh N), Valid m -> AtLeast3 m ->
  fillHoles cabs m = Ok (tt, m') -> fillHoles cabs m' = Ok (tt, m').
Proof. exact @fill_again. Qed.
Print Assumptions C25_fill_again.
(** A mesh with a hole with six corners.  (NumAngle holds of the reals, FillD.v.) *)
Example C25_case : forall (a e : libm1) (t : libm2), exists (m : mesh (NumF a e t)), mesh_of (ps_torus a e t) ix_torus = Ok m /\ Valid m /\ AtLeast3 m /\ Distinct m /\ length (m_hes m) = 30 /\
  (forall x y, In x (m_verts m) -> In y (m_verts m) -> x <> y -> adj m x y) /\
  (exists f ring bs, Hole m f /\ Corners m f ring bs /\ length ring = 6) /\
  (exists h f, In h (m_hes m) /\ h_bd m h = true /\ h_face m h = Some f /\ ~ Hole m f).
Proof. exact torus_facts. Qed.
Example C25_angle_case : forall (e : libm1) (t : libm2), NumAngle (NumF (fun _ => 1.5)%float e t).
Proof. exact angle_float. Qed.
Example C25_angle_real : NumAngle NumR.
Proof. exact NumAngleR. Qed.

(** ** C26: the triangles next to a filled hole keep their flags, so vertices, half-edges and
    faces there still say that they are on the boundary. *)
Theorem C26_flags_refuted : forall (a e : libm1) (t : libm2) (NA : NumAngle (NumF a e t)) cabs, exists ps ix (m m' : mesh (NumF a e t)),
  mesh_of ps ix = Ok m /\ fillHoles cabs m = Ok (tt, m') /\
  (exists h, In h (m_hes m') /\ h_bd m' h = true) /\ (exists v, In v (m_verts m') /\ v_isBoundary (Some v) m' = Ok (true, m')) /\
  (exists f, In f (m_faces m') /\ f_isBoundary (Some f) m' = Ok (true, m')).
Proof. exact fill_flags_refuted. Qed.
Print Assumptions C26_flags_refuted.
(** No face says that it is a hole.  The flags that remain are those on the outer side of the holes' edges. *)
Theorem C26_no_hole_partial : forall (N : Num) (NA : NumAngle N) cabs (m m' : mesh N), Valid m -> AtLeast3 m -> fillHoles cabs m = Ok (tt, m') ->
  (forall f, In f (m_faces m') -> f_isHole (Some f) m' = Ok (false, m')) /\
  (forall h, In h (m_hes m') -> h_bd m' h = true <-> In h (m_hes m) /\ h_bd m h = true /\ forall f, h_face m h = Some f -> ~ Hole m f).
Proof. exact @fill_bd. Qed.
Print Assumptions C26_no_hole_partial.

(** ** C23, the part about fillHoles: V - E + F does not change. *)
Theorem C23_fill_euler : forall (N : Num) (NA : NumAngle N) cabs (m m' : mesh N), Valid m -> AtLeast3 m -> fillHoles cabs m = Ok (tt, m') -> euler m' = euler m.
Proof. exact @fill_euler. Qed.
Print Assumptions C23_fill_euler.

(** ** C54: fillHoles may join vertices that are neighbours already. *)
Theorem C54_duplicate_edges_refuted : forall (a e : libm1) (t : libm2) (NA : NumAngle (NumF a e t)) cabs, exists ps ix (m m' : mesh (NumF a e t)),
  mesh_of ps ix = Ok m /\ Valid m /\ fillHoles cabs m = Ok (tt, m') /\ ~ NoParallel m'.
Proof. exact fill_parallel_refuted. Qed.
Print Assumptions C54_duplicate_edges_refuted.
(** Every duplicate involves a new inner edge of a hole; holes with three corners have none. *)
Theorem C54_duplicate_edges_partial : forall (N : Num) (NA : NumAngle N) cabs (m m' : mesh N), Valid m -> AtLeast3 m -> fillHoles cabs m = Ok (tt, m') ->
  (forall h h', In h (m_hes m') -> In h' (m_hes m') -> h_src m' h = h_src m' h' -> dst_of m' h = dst_of m' h' -> h = h' \/ ~ In h (m_hes m) \/ ~ In h' (m_hes m)) /\
  ((forall f ring bs, Hole m f -> Corners m f ring bs -> length ring = 3) -> Valid m').
Proof. exact @fill_dup. Qed.
Print Assumptions C54_duplicate_edges_partial.
