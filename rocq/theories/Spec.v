(** Vocabulary of the properties.  This file does not mention the algorithms of
    the model, only the data a user can read off a mesh: the three element
    lists, and of each element its fields. *)
From Coq Require Import List ZArith Arith Bool.
From Verif Require Import Num Vec Heap.
Import ListNotations.

(** ** Orbits of a partial map *)

Fixpoint piter (f : nat -> option nat) (n : nat) (x : nat) : option nat :=
  match n with
  | O => Some x
  | S n' => match f x with Some y => piter f n' y | None => None end
  end.

(** [y] is reached from [x] by applying [f] some number of times. *)
Definition reaches (f : nat -> option nat) (x y : nat) : Prop := exists n, piter f n x = Some y.

Section Spec.
Context {N : Num}.

(** Rotation around the source vertex: h -> next(rev h). *)
Definition rot (m : mesh N) (h : nat) : option nat :=
  match h_rev m h with Some r => h_next m r | None => None end.

(** Destination vertex: the source of the opposite half-edge. *)
Definition dst_of (m : mesh N) (h : nat) : option nat :=
  match h_rev m h with Some r => h_src m r | None => None end.

(** ** Structural validity of a half-edge mesh

    [WF]: the pointer structure is a combinatorial map in which every face is
    one [next]-cycle and every vertex one rotation cycle. *)
Record WF (m : mesh N) : Prop := {
  (* the element lists: no repetition, index() is the position, objects are live *)
  wf_v_nodup : NoDup (m_verts m);
  wf_h_nodup : NoDup (m_hes m);
  wf_f_nodup : NoDup (m_faces m);
  wf_v_elem : forall i v, nth_error (m_verts m) i = Some v ->
      v_live m v = true /\ v_idx m v = Z.of_nat i /\ v < m_fresh m;
  wf_h_elem : forall i h, nth_error (m_hes m) i = Some h ->
      h_live m h = true /\ h_idx m h = Z.of_nat i /\ h < m_fresh m;
  wf_f_elem : forall i f, nth_error (m_faces m) i = Some f ->
      f_live m f = true /\ f_idx m f = Z.of_nat i /\ f < m_fresh m;
  (* every field of a half-edge refers to an element of the mesh *)
  wf_src : forall h, In h (m_hes m) -> exists v, h_src m h = Some v /\ In v (m_verts m);
  wf_next : forall h, In h (m_hes m) -> exists n, h_next m h = Some n /\ In n (m_hes m);
  wf_rev : forall h, In h (m_hes m) -> exists r, h_rev m h = Some r /\ In r (m_hes m);
  wf_face : forall h, In h (m_hes m) -> exists f, h_face m h = Some f /\ In f (m_faces m);
  (* rev is an involution without fixed point; next starts where the half-edge ends *)
  wf_rev_invol : forall h r, In h (m_hes m) -> h_rev m h = Some r -> h_rev m r = Some h /\ r <> h;
  wf_dst : forall h n r, In h (m_hes m) -> h_next m h = Some n -> h_rev m h = Some r -> h_src m n = h_src m r;
  (* vertices and faces know one of their half-edges *)
  wf_vhe : forall v, In v (m_verts m) -> exists h, v_he m v = Some h /\ In h (m_hes m) /\ h_src m h = Some v;
  wf_fhe : forall f, In f (m_faces m) -> exists h, f_he m f = Some h /\ In h (m_hes m) /\ h_face m h = Some f;
  (* one next-cycle per face, one rotation cycle per vertex *)
  wf_face_next : forall h n, In h (m_hes m) -> h_next m h = Some n -> h_face m n = h_face m h;
  wf_face_orbit : forall h h', In h (m_hes m) -> In h' (m_hes m) -> h_face m h = h_face m h' -> reaches (h_next m) h h';
  wf_vertex_orbit : forall h h', In h (m_hes m) -> In h' (m_hes m) -> h_src m h = h_src m h' -> reaches (rot m) h h'
}.

(** No edge joins a vertex to itself. *)
Definition NoLoops (m : mesh N) : Prop :=
  forall h, In h (m_hes m) -> dst_of m h <> h_src m h.

(** No two half-edges join the same ordered pair of vertices. *)
Definition NoParallel (m : mesh N) : Prop :=
  forall h h', In h (m_hes m) -> In h' (m_hes m) ->
    h_src m h = h_src m h' -> dst_of m h = dst_of m h' -> h = h'.

(** Faces with a half-edge not flagged as boundary are triangles. *)
Definition TriFaces (m : mesh N) : Prop :=
  forall h, In h (m_hes m) -> h_bd m h = false -> piter (h_next m) 3 h = Some h.

Record Valid (m : mesh N) : Prop := {
  valid_wf : WF m;
  valid_noloops : NoLoops m;
  valid_noparallel : NoParallel m;
  valid_tri : TriFaces m
}.

(** Boundary flags of opposite half-edges agree, and exactly the edges next to a
    hole are flagged (holes are marked by [isHoleFace]). *)
Definition FlagsSym (m : mesh N) : Prop :=
  forall h r, In h (m_hes m) -> h_rev m h = Some r -> h_bd m h = h_bd m r.

(** Comparing all positions with themselves succeeds (no NaN). *)
Definition PosOk (m : mesh N) : Prop :=
  forall v, In v (m_verts m) -> veqb (v_pos m v) (v_pos m v) = true.

(** ** Reading a mesh *)

(** Number of half-edges leaving [v]; without parallel edges, of its neighbours. *)
Definition deg_of (m : mesh N) (v : nat) : nat :=
  length (filter (fun h => ptr_eqb (h_src m h) (Some v)) (m_hes m)).

(** An edge leads from [a] to [b]. *)
Definition adj (m : mesh N) (a b : nat) : Prop :=
  exists h, In h (m_hes m) /\ h_src m h = Some a /\ dst_of m h = Some b.

(** Face [f] is the triangle a, b, c (in this cyclic order). *)
Definition Tri (m : mesh N) (f a b c : nat) : Prop :=
  exists x y z, (forall h, In h (m_hes m) /\ h_face m h = Some f <-> h = x \/ h = y \/ h = z) /\
    h_next m x = Some y /\ h_next m y = Some z /\ h_next m z = Some x /\
    h_src m x = Some a /\ h_src m y = Some b /\ h_src m z = Some c.

(** [h] belongs to a hole face: all half-edges of its face are flagged. *)
Definition on_hole (m : mesh N) (h : nat) : bool :=
  forallb (fun k => negb (ptr_eqb (h_face m k) (h_face m h)) || h_bd m k) (m_hes m).

(** Number of gaps (boundary corners) at vertex [v]: half-edges leaving [v] along a hole. *)
Definition gaps (m : mesh N) (v : nat) : nat :=
  length (filter (fun h => ptr_eqb (h_src m h) (Some v) && on_hole m h) (m_hes m)).

(** All fields of half-edge [h] are the same in both meshes. *)
Definition SameHE (m m' : mesh N) (h : nat) : Prop :=
  h_src m' h = h_src m h /\ h_next m' h = h_next m h /\ h_rev m' h = h_rev m h /\
  h_face m' h = h_face m h /\ h_bd m' h = h_bd m h.

(** All user data of vertex [v] is the same in both meshes. *)
Definition SameData (m m' : mesh N) (v : nat) : Prop :=
  v_pos m' v = v_pos m v /\ v_lock m' v = v_lock m v.

(** {a,b} = {c,d} *)
Definition same_pair (a b c d : nat) : Prop := (a = c /\ b = d) \/ (a = d /\ b = c).

(** V - E + F, with two half-edges per edge. *)
Definition euler (m : mesh N) : Z :=
  (Z.of_nat (length (m_verts m)) - Z.of_nat (length (m_hes m)) / 2 + Z.of_nat (length (m_faces m)))%Z.

(** One half-edge per edge. *)
Definition EdgeReps (m : mesh N) (reps : list nat) : Prop :=
  NoDup reps /\ (forall h, In h reps -> In h (m_hes m)) /\
  (forall h r, In h (m_hes m) -> h_rev m h = Some r -> (In h reps \/ In r reps) /\ ~ (In h reps /\ In r reps)).

(** Euclidean length of the edge of [h]. *)
Definition edge_length (m : mesh N) (h : nat) : num :=
  match h_src m h, dst_of m h with Some a, Some b => vlength (vsub (v_pos m a) (v_pos m b)) | _, _ => nzero end.

End Spec.
