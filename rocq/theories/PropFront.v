(** Properties of hole filling with an advancing front: C70 to C73.
    Vocabulary: Spec.v, FillSpec.v and FrontSpec.v; the code: Front.v and FrontC.v.  [relax] is the second
    part of the function, which moves the vertices inside, any function of the mesh and these vertices. *)
From Coq Require Import List ZArith Floats Arith.
From Verif Require Import Num NumInst Vec Heap Mesh Construct Spec FillSpec Front FrontS FrontSpec FrontE FrontC FrontW FrontD FrontX.
Import ListNotations.
Notation libm1 := (float -> float).
Notation libm2 := (float -> float -> float).

(** ** C70: if holeFillAdvancingFront returns, the hole is filled with triangles and the rest of the mesh is
    intact.  The only undefined behaviour is the index -1, when no angle is below 1e20. *)
Theorem C70_front : forall (N : Num) relax fuel (m : mesh N) f ring bs, WF m -> NoLoops m -> In f (m_faces m) -> Corners m f ring bs -> NoDup bs -> 3 <= length bs ->
  match holeFillAdvancingFront relax fuel (Some f) m with
  | Ok (_, m') => FrontFilled m f bs m' | UB k => k = OutOfBounds /\ ~ AnglesBelow N | Abort _ | NoFuel => True
  end.
Proof. exact @advancing_front. Qed.
Print Assumptions C70_front.
(** For meshes made from arrays nothing need be assumed. *)
Theorem C70_front_constructed : forall (N : Num) relax fuel (ps : list (vec N)) ix m f, mesh_of ps ix = Ok m -> In f (m_faces m) -> exists ring bs, Corners m f ring bs /\
  match holeFillAdvancingFront relax fuel (Some f) m with
  | Ok (_, m') => FrontFilled m f bs m' | UB k => k = OutOfBounds /\ ~ AnglesBelow N | Abort _ | NoFuel => True
  end.
Proof. exact @front_constructed. Qed.
Print Assumptions C70_front_constructed.
(** Over the reals there is no undefined behaviour. *)
Theorem C70_front_real : forall relax fuel (m : mesh NumR) f ring bs, WF m -> NoLoops m -> In f (m_faces m) -> Corners m f ring bs -> NoDup bs -> 3 <= length bs ->
  match holeFillAdvancingFront relax fuel (Some f) m with Ok (_, m') => FrontFilled m f bs m' | UB _ => False | Abort _ | NoFuel => True end.
Proof. exact front_real. Qed.
Print Assumptions C70_front_real.
(** A square hole, filled in three steps, if atan2 of 1 and 0 is the double next to half of pi. *)
Example C70_case : forall (a e : libm1) (t : libm2) relax, (forall m, relax m [] <> None) -> exists (m m' : mesh (NumF a e (right_angle t))) f ring bs,
  mesh_of (ps_square a e t) ix_square = Ok m /\ Hole m f /\ Corners m f ring bs /\ length bs = 4 /\ NoDup bs /\ holeFillAdvancingFront relax 3 (Some f) m = Ok (tt, m') /\
  (exists v, In v bs /\ v_pos m' v <> v_pos m v) /\
  (exists v, In v (m_verts m') /\ v_isBoundary (Some v) m' = Ok (true, m') /\ forall h g, In h (m_hes m') -> h_src m' h = Some v -> h_face m' h = Some g -> ~ Hole m' g).
Proof. exact square_facts. Qed.

(** ** C71: the vertices of the hole move although they are locked. *)
Theorem C71_rim_refuted : forall (a e : libm1) (t : libm2) relax, (forall m, relax m [] <> None) -> exists ps ix (m m' : mesh (NumF a e (right_angle t))) f ring bs fuel,
  mesh_of ps ix = Ok m /\ Hole m f /\ Corners m f ring bs /\ holeFillAdvancingFront relax fuel (Some f) m = Ok (tt, m') /\
  exists v, In v bs /\ v_pos m' v <> v_pos m v.
Proof. exact rim_refuted. Qed.
Print Assumptions C71_rim_refuted.
(** All other vertices stay where they are. *)
Theorem C71_rim_partial : forall (N : Num) relax fuel (m m' : mesh N) f ring bs, WF m -> NoLoops m -> In f (m_faces m) -> Corners m f ring bs -> NoDup bs -> 3 <= length bs ->
  holeFillAdvancingFront relax fuel (Some f) m = Ok (tt, m') -> forall v, In v (m_verts m) -> ~ In v bs -> v_pos m' v = v_pos m v /\ v_lock m' v = v_lock m v.
Proof. exact @front_others. Qed.
Print Assumptions C71_rim_partial.

(** ** C72: vertices that are not on a hole any more still say that they are on the boundary. *)
Theorem C72_flags_refuted : forall (a e : libm1) (t : libm2) relax, (forall m, relax m [] <> None) -> exists ps ix (m m' : mesh (NumF a e (right_angle t))) f fuel,
  mesh_of ps ix = Ok m /\ Hole m f /\ holeFillAdvancingFront relax fuel (Some f) m = Ok (tt, m') /\
  exists v, In v (m_verts m') /\ v_isBoundary (Some v) m' = Ok (true, m') /\ forall h g, In h (m_hes m') -> h_src m' h = Some v -> h_face m' h = Some g -> ~ Hole m' g.
Proof. exact front_flags_refuted. Qed.
Print Assumptions C72_flags_refuted.
(** No new face is a hole, there are no new holes, and no flag of an old face appears. *)
Theorem C72_flags_partial : forall (N : Num) relax fuel (m m' : mesh N) f ring bs, WF m -> NoLoops m -> In f (m_faces m) -> Corners m f ring bs -> NoDup bs -> 3 <= length bs ->
  holeFillAdvancingFront relax fuel (Some f) m = Ok (tt, m') ->
  (forall g, Hole m' g -> Hole m g /\ g <> f) /\
  (forall h, In h (m_hes m) -> h_face m h <> Some f -> h_bd m' h = true -> h_bd m h = true).
Proof. exact @front_flags. Qed.
Print Assumptions C72_flags_partial.

(** ** C73: the first part of holeFillContextCoherent fills every hole, if no edge lies between two holes. *)
Theorem C73_all : forall (N : Num) relax k fuel (m : mesh N), WF m -> NoLoops m -> HolesApart m -> Corners3 m ->
  match fill_fronts relax k fuel m with
  | Ok (_, m') => FrontsFilled (fun _ => True) m m' | UB u => u = OutOfBounds /\ ~ AnglesBelow N | Abort _ | NoFuel => True
  end.
Proof. exact @fill_fronts_ok. Qed.
Print Assumptions C73_all.
Theorem C73_all_constructed : forall (N : Num) relax k fuel (ps : list (vec N)) ix m, mesh_of ps ix = Ok m -> HolesApart m ->
  match fill_fronts relax k fuel m with
  | Ok (_, m') => FrontsFilled (fun _ => True) m m' | UB u => u = OutOfBounds /\ ~ AnglesBelow N | Abort _ | NoFuel => True
  end.
Proof. exact @fill_fronts_constructed. Qed.
Print Assumptions C73_all_constructed.
Example C73_case : forall (a e : libm1) (t : libm2), exists m m' : mesh (NumF a e t), mesh_of (Witness.ps_tetra a e t) ix_open = Ok m /\ HolesApart m /\ (exists f, Hole m f) /\
  fill_fronts (fun m _ => Some (v_pos m)) 5 1 m = Ok (tt, m').
Proof. exact open_facts. Qed.
