(** Vocabulary for hole filling (C25, C26, C54). *)
From Coq Require Import List ZArith Arith.
From Verif Require Import Num Vec Heap Spec Orbit.
Import ListNotations.

Section FillSpec.
Context {N : Num}.

(** A face is a hole if all its half-edges are flagged as boundary. *)
Definition Hole (m : mesh N) (f : nat) : Prop :=
  In f (m_faces m) /\ forall h, In h (m_hes m) -> h_face m h = Some f -> h_bd m h = true.

(** [ring] lists the half-edges of face [f] in order, [bs] the corners where they start. *)
Definition Corners (m : mesh N) (f : nat) (ring bs : list nat) : Prop :=
  NoDup ring /\ cyc (h_next m) ring /\ (forall h, In h ring <-> In h (m_hes m) /\ h_face m h = Some f) /\
  map (h_src m) ring = map Some bs.

(** No face has fewer than three corners. *)
Definition AtLeast3 (m : mesh N) : Prop := forall h, In h (m_hes m) -> piter (h_next m) 2 h <> Some h.

(** In [m'] the faces [fs] are triangles that fill the face [f] of [m]. *)
Definition Patch (m m' : mesh N) (f : nat) (fs : list nat) : Prop :=
  exists ring bs, Corners m f ring bs /\
    (* n - 2 triangles *)
    NoDup fs /\ length ring = length fs + 2 /\
    (* their vertices are corners of the hole, in the hole's order; no half-edge is flagged *)
    (forall g, In g fs -> In g (m_faces m') /\ (exists i j k a b c, i < j /\ j < k /\
        nth_error bs i = Some a /\ nth_error bs j = Some b /\ nth_error bs k = Some c /\ Tri m' g a b c) /\
        forall h, In h (m_hes m') -> h_face m' h = Some g -> h_bd m' h = false) /\
    (* each half-edge of the hole belongs to one of them *)
    (forall h, In h ring -> exists g, In g fs /\ h_face m' h = Some g) /\
    (* their other half-edges are new and join two of them *)
    (forall h g, In h (m_hes m') -> h_face m' h = Some g -> In g fs -> In h ring \/
        ~ In h (m_hes m) /\ exists r g', h_rev m' h = Some r /\ h_face m' r = Some g' /\ In g' fs).

(** [m'] is [m] with the faces [hs] filled by triangles: [gs] lists, for each of them, its triangles. *)
Record FilledWith (m : mesh N) (hs : list nat) (gs : list (list nat)) (m' : mesh N) : Prop := {
  fw_wf : WF m';
  (* the vertices are the same, and so are their positions and locks *)
  fw_verts : m_verts m' = m_verts m /\ v_pos m' = v_pos m /\ v_lock m' = v_lock m;
  (* every half-edge is kept and joins the same vertices; those of other faces are unchanged *)
  fw_hes : forall h, In h (m_hes m) -> In h (m_hes m') /\ h_src m' h = h_src m h /\ h_rev m' h = h_rev m h;
  fw_same : forall h f, In h (m_hes m) -> h_face m h = Some f -> ~ In f hs -> SameHE m m' h;
  (* the other faces are kept in their place *)
  fw_kept : forall i f, nth_error (m_faces m) i = Some f -> ~ In f hs -> nth_error (m_faces m') i = Some f /\ f_he m' f = f_he m f;
  (* each of the faces is replaced by triangles *)
  fw_patch : Forall2 (Patch m m') hs gs;
  (* there are no other faces *)
  fw_faces : forall f, In f (m_faces m') <-> In f (m_faces m) /\ ~ In f hs \/ In f (concat gs);
  fw_new : NoDup (concat gs) /\ forall f, In f (concat gs) -> ~ In f (m_faces m);
  (* each hole with n corners gets n - 3 inner edges *)
  fw_count_h : length (m_hes m') + 2 * length hs = length (m_hes m) + 2 * length (concat gs);
  fw_count_f : length (m_faces m') + length hs = length (m_faces m) + length (concat gs)
}.
End FillSpec.
