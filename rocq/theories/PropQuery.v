(** Properties of the queries: C11-C13, C24.  Vocabulary: Spec.v; the code: Mesh.v. *)
From Coq Require Import List ZArith Floats Arith.
From Verif Require Import Num Vec Heap Mesh Spec Queries Refute Examples.
Import ListNotations.
Notation libm1 := (float -> float).
Notation libm2 := (float -> float -> float).

(** ** C11: circulating a vertex. *)
Theorem C11_circulate_vertex : forall (N : Num) (m : mesh N) v, WF m -> In v (m_verts m) ->
  exists l, NoDup l /\ (forall h, In h l <-> In h (m_hes m) /\ h_src m h = Some v) /\ l <> [] /\
    v_halfedges (Some v) m = Ok (map Some l, m) /\
    v_neighbors (Some v) m = Ok (map (dst_of m) l, m) /\
    v_faces (Some v) m = Ok (map (h_face m) l, m) /\
    degree (Some v) m = Ok (Z.of_nat (length l), m) /\
    length l = deg_of m v /\ v_isBoundary (Some v) m = Ok (existsb (h_bd m) l, m) /\ (NoParallel m -> NoDup (map (dst_of m) l)).
Proof. exact @circulate_vertex. Qed.
Print Assumptions C11_circulate_vertex.

(** ** C12: circulating a face; prev. *)
Theorem C12_circulate_face : forall (N : Num) (m : mesh N) f, WF m -> In f (m_faces m) ->
  exists l, NoDup l /\ (forall h, In h l <-> In h (m_hes m) /\ h_face m h = Some f) /\ l <> [] /\
    f_halfedges (Some f) m = Ok (map Some l, m) /\
    f_vertices (Some f) m = Ok (map (h_src m) l, m) /\
    numCorners (Some f) m = Ok (Z.of_nat (length l), m) /\
    f_isBoundary (Some f) m = Ok (existsb (h_bd m) l, m) /\
    f_isHole (Some f) m = Ok (forallb (h_bd m) l, m) /\ (TriFaces m -> forallb (h_bd m) l = false -> NoLoops m -> length l = 3).
Proof. exact @circulate_face. Qed.
Print Assumptions C12_circulate_face.
Theorem C12_prev : forall (N : Num) (m : mesh N) h, WF m -> In h (m_hes m) ->
  (exists p, he_prev (Some h) m = Ok (Some p, m) /\ In p (m_hes m) /\ h_next m p = Some h) /\
  (exists n, h_next m h = Some n /\ he_prev (Some n) m = Ok (Some h, m)).
Proof. exact @prev_inverse. Qed.
Print Assumptions C12_prev.

(** ** C13: edges. *)
Theorem C13_numEdges : forall (N : Num) (m : mesh N), WF m ->
  exists n, numEdges m = Ok (n, m) /\ length (m_hes m) = 2 * n /\ Z.of_nat n = (Z.of_nat (length (m_hes m)) / 2)%Z.
Proof. exact @numEdges_ok. Qed.
Print Assumptions C13_numEdges.
Theorem C13_meanEdgeLength : forall (N : Num) (m : mesh N), WF m -> exists reps, EdgeReps m reps /\
  getMeanEdgeLength m = Ok (ndiv (fold_left nadd (map (edge_length m) reps) nzero) (nofZ (Z.of_nat (length reps))), m).
Proof. exact @meanEdgeLength_ok. Qed.
Print Assumptions C13_meanEdgeLength.

(** ** C24: verify.  It accepts every valid mesh with finite positions, and refuses
    one with a non-finite position.  Missing: it refuses every invalid mesh. *)
Theorem C24_verify_partial : forall (N : Num) (m : mesh N), WF m ->
  verify m = Ok (forallb (fun v => vfinite (v_pos m v)) (m_verts m), m).
Proof. exact @verify_wf. Qed.
Print Assumptions C24_verify_partial.
(** That part is false: it does not look at rev, next and face. *)
Theorem C24_verify_refuted : forall (a e : libm1) (t : libm2), exists m : mesh (NumF a e t), verify m = Ok (true, m) /\ ~ WF m.
Proof. exact verify_refuted. Qed.
Print Assumptions C24_verify_refuted.

(** A mesh, face, half-edge and vertex to which the theorems of this file apply. *)
Example C11_C12_C13_C24_case : forall (a e : libm1) (t : libm2), exists (m : mesh (NumF a e t)) f h v x y z,
  Valid m /\ In f (m_faces m) /\ Tri m f x y z /\ In h (m_hes m) /\ In v (m_verts m) /\ length (m_hes m) = 12.
Proof. exact ex_valid. Qed.
