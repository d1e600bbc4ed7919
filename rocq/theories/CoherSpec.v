(** What context coherent completion leaves alone. *)
From Coq Require Import List ZArith.
From Verif Require Import Num Vec Heap Mesh Spec Repair Coherent PatchSpec.
Import ListNotations.

Section CoherSpec.
Context {N : Num}.
(** [m'] is [m] with no half-edge marked as boundary. *)
Record FlagsCleared (m m' : mesh N) : Prop := {
  fc_flags : forall h, In h (m_hes m) -> h_bd m' h = false;
  fc_rest : m' = mkMesh (m_verts m) (m_hes m) (m_faces m) (m_indices m) (m_fresh m) (v_live m) (v_pos m) (v_he m) (v_idx m) (v_lock m)
              (h_live m) (h_src m) (h_next m) (h_rev m) (h_face m) (h_idx m) (h_bd m') (f_live m) (f_he m) (f_idx m) }.
(** The vertices that may serve as centres of source patches. *)
Definition locked (m : mesh N) : list nat := filter (v_lock m) (m_verts m).
(** Every vertex has a signature. *)
Definition Signed (t : table) (m : mesh N) : Prop := forall v, In v (m_verts m) -> exists f, tfind t (Some v) = Some f.
(** [fs] are the signatures of the vertices of the patch [p]. *)
Definition SignaturesOf (t : table) (m : mesh N) (p : patch) (fs : list (list num)) : Prop :=
  Forall2 (fun z f => exists i v, z = Z.of_nat i /\ nth_error (m_verts m) i = Some v /\ tfind t (Some v) = Some f) (p_verts p) fs.
End CoherSpec.
