(** Properties of saving and loading: C29 and the part of C07 about load.
    Vocabulary: Spec.v, BuildSpec.v and IoSpec.v; the code: Io.v. *)
From Coq Require Import List ZArith Floats Arith Permutation.
From Verif Require Import Num NumInst Vec Heap Mesh Construct Spec BuildSpec Built Io IoSpec IoP IoW.
Import ListNotations.

Notation libm1 := (float -> float).
Notation libm2 := (float -> float -> float).

(** ** C07: loading an OBJ file gives the mesh a fresh object would get, or fails in the same way,
    whatever the file and whatever the object held before. *)
Theorem C07_load_obj : forall (N : Num) (C : codec N) (ls : list (obj_line C)) (m : mesh N),
  (exists m1 m2 A, mesh_from (FObj ls) = Ok m1 /\ load (FObj ls) m = Ok (tt, m2) /\ SurfaceOf m1 A /\ SurfaceOf m2 A /\ positions m1 = positions m2) \/
  mesh_from (FObj ls) = Abort AError /\ load (FObj ls) m = Abort AError \/
  mesh_from (FObj ls) = UB NullDeref /\ load (FObj ls) m = UB NullDeref \/
  mesh_from (FObj ls) = UB OutOfBounds /\ load (FObj ls) m = UB OutOfBounds.
Proof. exact @load_obj_replaces. Qed.
Print Assumptions C07_load_obj.
(** An object that holds a mesh, and a file. *)
Example C07_load_case : forall (a e : libm1) (t : libm2), exists (C : codec (NumF a e t)) ls m m',
  load (C := C) (FObj ls) m = Ok (tt, m') /\ length (m_hes m) = 12 /\ m_indices m <> [] /\ length (m_faces m') = 3.
Proof. exact ex_load. Qed.

(** ** C29: saving and loading.  [C] is what the formats do to numbers: arbitrary functions.
    The triangles come back, up to the corner each is read from, over the positions as the file
    holds them.  Missing: triangles that share no edge with another one (they are lost), formats
    that make positions equal (vertices are merged), PLY files loaded into objects that hold
    indices (the old triangles stay). *)
Theorem C29_save_load_partial : forall (N : Num) (NE : NumEq N) (C : codec N) (ps : list (vec N)) ix m e m0, NoNaN ps ix -> mesh_of ps ix = Ok m ->
  e <> EOther -> (e = EObj \/ m_indices m0 = []) -> KeptApart C e (positions m) ->
  exists A, TrianglesOf ps ix (positions m) A /\ SurfaceOf m A /\
  ((forall t, In t A -> ~ isolated A t) ->
   exists f m' A', save C e m = Ok (f, m) /\ load f m0 = Ok (tt, m') /\ Valid m' /\ SurfaceOf m' A' /\
    Forall2 (fun t t' => exists t1, cyc_eq t t1 /\ corners m' t' = corners_of (map (through3 C e) (positions m)) t1) A A' /\
    Permutation (positions m') (map (through3 C e) (positions m))).
Proof. exact @construct_save_load. Qed.
Print Assumptions C29_save_load_partial.
(** A mesh in formats with 24 bit numbers. *)
Example C29_case : forall (a e : libm1) (t : libm2), exists (C : codec (NumF a e t)) ps ix m, NoNaN ps ix /\ mesh_of ps ix = Ok m /\ length (m_hes m) = 12 /\
  KeptApart C EObj (positions m) /\ KeptApart C EPly (positions m) /\ forall A, SurfaceOf m A -> forall t, In t A -> ~ isolated A t.
Proof. exact ex_saved. Qed.

(** A single triangle is lost in every format. *)
Theorem C29_alone_refuted : forall (a e : libm1) (t : libm2) (C : codec (NumF a e t)), exists ps m, mesh_of ps [0; 1; 2] = Ok m /\ length (m_faces m) = 2 /\
  forall e', e' <> EOther -> exists f m1 m', save C e' m = Ok (f, m1) /\ load f empty_mesh = Ok (tt, m') /\ m_verts m' = [].
Proof. exact alone_refuted. Qed.
Print Assumptions C29_alone_refuted.
(** Loading the PLY file a mesh has written into the same object gives one more face, even if the
    format loses nothing. *)
Theorem C29_C07_load_ply_refuted : forall (a e : libm1) (t : libm2), exists (C : codec (NumF a e t)), (forall x, c_narrow C x = x) /\ exists ps ix m f m1 m2 m3,
  mesh_of ps ix = Ok m /\ save C EPly m = Ok (f, m1) /\ load f empty_mesh = Ok (tt, m2) /\ load f m = Ok (tt, m3) /\
  length (m_faces m) = 3 /\ length (m_faces m2) = 3 /\ length (m_faces m3) = 4.
Proof. exact used_refuted. Qed.
Print Assumptions C29_C07_load_ply_refuted.
(** With numbers of 24 bits, as in binary32, a vertex and a triangle can be lost. *)
Theorem C29_rounding_refuted : forall (a e : libm1) (t : libm2), exists (C : codec (NumF a e t)),
  (forall x, through C EPly x = narrow24 x) /\ (forall x, through C EObj x = narrow24 x) /\ exists ps ix m,
  mesh_of ps ix = Ok m /\ length (m_faces m) = 3 /\ length (m_verts m) = 4 /\
  forall e', e' <> EOther -> exists f m1 m', save C e' m = Ok (f, m1) /\ load f empty_mesh = Ok (tt, m') /\ length (m_faces m') = 2 /\ length (m_verts m') = 3.
Proof. exact near_refuted. Qed.
Print Assumptions C29_rounding_refuted.
