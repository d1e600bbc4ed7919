(** What filling a hole with an advancing front leaves behind. *)
From Coq Require Import List ZArith Arith.
From Verif Require Import Num Vec Heap Mesh Spec FillSpec.
Import ListNotations.

Section FrontSpec.
Context {N : Num}.

(** [m'] is [m] with the face [f], whose corners are [bs], replaced by new triangles.  [f] itself
    is the last of them. *)
Record FrontFilled (m : mesh N) (f : nat) (bs : list nat) (m' : mesh N) : Prop := {
  ff_wf : WF m';
  ff_noloops : NoLoops m';
  (** The Euler characteristic does not change. *)
  ff_euler : euler m' = euler m;
  (** Vertices and faces keep their indices. *)
  ff_vert : forall i v, nth_error (m_verts m) i = Some v -> nth_error (m_verts m') i = Some v;
  ff_face : forall i g, nth_error (m_faces m) i = Some g -> nth_error (m_faces m') i = Some g;
  (** The other faces keep their half-edges, in order, and their corners. *)
  ff_he : forall h, In h (m_hes m) -> h_face m h <> Some f ->
    In h (m_hes m') /\ h_src m' h = h_src m h /\ h_next m' h = h_next m h /\ h_face m' h = h_face m h;
  ff_outer : forall h g, In h (m_hes m') -> h_face m' h = Some g -> In g (m_faces m) -> g <> f -> In h (m_hes m) /\ h_face m h = Some g;
  (** Nothing at all changes at the edges that are not edges of the hole. *)
  ff_same : forall h r, In h (m_hes m) -> h_rev m h = Some r -> h_face m h <> Some f -> h_face m r <> Some f -> SameHE m m' h;
  ff_flag : forall h, In h (m_hes m) -> h_face m h <> Some f -> h_bd m' h = true -> h_bd m h = true;
  (** The new faces are triangles with three different corners, and no holes. *)
  ff_new : forall g, In g (m_faces m') -> ~ In g (m_faces m) \/ g = f ->
    (exists a b c, Tri m' g a b c /\ a <> b /\ b <> c /\ c <> a) /\ ~ Hole m' g;
  (** There is no new hole, and [f] is none. *)
  ff_hole : forall g, Hole m' g -> Hole m g /\ g <> f;
  (** Only corners of the hole move; they are locked, the others keep their locks; new vertices are not locked. *)
  ff_pos : forall v, In v (m_verts m) -> ~ In v bs -> SameData m m' v;
  ff_lock : forall v, In v bs -> v_lock m' v = true;
  ff_newv : forall v, In v (m_verts m') -> ~ In v (m_verts m) -> v_lock m' v = false }.

(** No edge lies between two holes. *)
Definition HolesApart (m : mesh N) : Prop := forall h r f g, In h (m_hes m) -> h_rev m h = Some r ->
  h_face m h = Some f -> h_face m r = Some g -> Hole m f -> ~ Hole m g.

(** Every hole has at least three corners, all different. *)
Definition Corners3 (m : mesh N) : Prop := forall f ring bs, Hole m f -> Corners m f ring bs -> NoDup bs /\ 3 <= length bs.
(** [v] is a corner of a hole. *)
Definition AtHole (m : mesh N) (v : nat) : Prop := exists h f, In h (m_hes m) /\ h_src m h = Some v /\ h_face m h = Some f /\ Hole m f.

(** [m'] is [m] with every hole replaced by new triangles; of the old vertices those in [L] are locked. *)
Record FrontsFilled (L : nat -> Prop) (m m' : mesh N) : Prop := {
  fs_wf : WF m';
  fs_noloops : NoLoops m';
  fs_euler : euler m' = euler m;
  fs_vert : forall i v, nth_error (m_verts m) i = Some v -> nth_error (m_verts m') i = Some v;
  fs_face : forall i g, nth_error (m_faces m) i = Some g -> nth_error (m_faces m') i = Some g;
  (** The faces that are no holes keep their half-edges, in order, and their corners. *)
  fs_he : forall h g, In h (m_hes m) -> h_face m h = Some g -> ~ Hole m g ->
    In h (m_hes m') /\ h_src m' h = h_src m h /\ h_next m' h = h_next m h /\ h_face m' h = h_face m h;
  fs_outer : forall h g, In h (m_hes m') -> h_face m' h = Some g -> In g (m_faces m) -> ~ Hole m g -> In h (m_hes m) /\ h_face m h = Some g;
  (** The new faces, and the old holes, are triangles with three different corners. *)
  fs_new : forall g, In g (m_faces m') -> ~ In g (m_faces m) \/ Hole m g -> exists a b c, Tri m' g a b c /\ a <> b /\ b <> c /\ c <> a;
  fs_hole : forall g, ~ Hole m' g;
  (** Only corners of holes move.  The new vertices are not locked. *)
  fs_pos : forall v, In v (m_verts m) -> ~ AtHole m v -> v_pos m' v = v_pos m v;
  fs_lock : forall v, In v (m_verts m) -> (v_lock m' v = true <-> L v);
  fs_newv : forall v, In v (m_verts m') -> ~ In v (m_verts m) -> v_lock m' v = false }.

End FrontSpec.
