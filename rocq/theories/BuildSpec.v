(** Vocabulary for Mesh::construct: triangle soups, independent of the code. *)
From Coq Require Import List Arith Bool Relations Permutation.
From Verif Require Import Num Vec Heap Spec.
Import ListNotations.

(** A triangle: three vertex numbers in cyclic order. *)
Definition tri := (nat * nat * nat)%type.
Definition tedges (t : tri) : list (nat * nat) := let '(a, b, c) := t in [(a, b); (b, c); (c, a)].
(** The directed edges of a list of triangles. *)
Definition edges (T : list tri) : list (nat * nat) := flat_map tedges T.

(** The index array read in threes. *)
Fixpoint triples (l : list nat) : list tri :=
  match l with a :: b :: c :: l' => (a, b, c) :: triples l' | _ => [] end.

Definition degenerate (t : tri) : Prop := let '(a, b, c) := t in a = b \/ b = c \/ c = a.
(** The same as a test, to count them. *)
Definition degb (t : tri) : bool := let '(a, b, c) := t in (a =? b) || (b =? c) || (c =? a).
Definition in_range (n : nat) (t : tri) : Prop := let '(a, b, c) := t in a < n /\ b < n /\ c < n.

(** One after the other, a triangle is accepted unless one of its directed edges
    already belongs to an accepted triangle. *)
Inductive Accepted : list tri -> list tri -> Prop :=
| acc_nil : Accepted [] []
| acc_take T A t : Accepted T A -> (forall e, In e (tedges t) -> ~ In e (edges A)) -> Accepted (T ++ [t]) (A ++ [t])
| acc_skip T A t e : Accepted T A -> In e (tedges t) -> In e (edges A) -> Accepted (T ++ [t]) A.

(** Vertex [a] is a corner of some triangle. *)
Definition used (T : list tri) (a : nat) : Prop := exists b, In (a, b) (edges T).

(** The link of [a]: the triangle (a,b,c) joins b to c. *)
Definition link (T : list tri) (a b c : nat) : Prop :=
  exists t, In t T /\ In (a, b) (tedges t) /\ In (b, c) (tedges t) /\ In (c, a) (tedges t).

(** The triangles around [a] form a single (open or closed) fan: its link is connected. *)
Definition Fan (T : list tri) (a : nat) : Prop :=
  forall b c, In (a, b) (edges T) -> In (a, c) (edges T) -> clos_refl_sym_trans nat (link T a) b c.

(** A directed edge used by one triangle only. *)
Definition open_edge (T : list tri) (a b : nat) : Prop := In (a, b) (edges T) /\ ~ In (b, a) (edges T).

(** The same triangle, possibly starting at another corner. *)
Definition cyc_eq (t t' : tri) : Prop := let '(a, b, c) := t in t' = (a, b, c) \/ t' = (b, c, a) \/ t' = (c, a, b).

(** A triangle none of whose edges is shared with another triangle. *)
Definition isolated (T : list tri) (t : tri) : Prop := forall a b, In (a, b) (tedges t) -> ~ In (b, a) (edges T).

Section BuildSpec.
Context {N : Num}.

(** Half-edge [h] of [m] leads from vertex number [a] to vertex number [b]. *)
Definition he_is (m : mesh N) (h a b : nat) : Prop :=
  In h (m_hes m) /\ exists u v, nth_error (m_verts m) a = Some u /\ nth_error (m_verts m) b = Some v /\
    h_src m h = Some u /\ dst_of m h = Some v.

(** Face [f] of [m] is the triangle [t]. *)
Definition face_is (m : mesh N) (f : nat) (t : tri) : Prop :=
  let '(a, b, c) := t in
  exists u v w, nth_error (m_verts m) a = Some u /\ nth_error (m_verts m) b = Some v /\ nth_error (m_verts m) c = Some w /\
    Tri m f u v w.

(** The mesh [m] is the surface made of the triangles [T]: the first faces are
    the triangles, in order; the others fill the boundary loops. *)
Record SurfaceOf (m : mesh N) (T : list tri) : Prop := {
  so_valid : Valid m;
  so_tris : exists holes, m_faces m = firstn (length T) (m_faces m) ++ holes /\
     Forall2 (face_is m) (firstn (length T) (m_faces m)) T /\
     (* half-edges of the other faces are the open edges, reversed; all are flagged *)
     (forall f h, In f holes -> In h (m_hes m) -> h_face m h = Some f ->
        h_bd m h = true /\ exists a b, open_edge T a b /\ he_is m h b a);
  (* every directed edge has its half-edge, and so has every open edge in reverse *)
  so_edges : forall a b, In (a, b) (edges T) \/ In (b, a) (edges T) <-> exists h, he_is m h a b;
  (* the flag marks exactly the edges used by one triangle only *)
  so_flags : forall h a b, he_is m h a b -> (h_bd m h = true <-> open_edge T a b \/ open_edge T b a)
}.

(** The positions of the vertices, in order. *)
Definition positions (m : mesh N) : list (vec N) := map (v_pos m) (m_verts m).

(** Welding: [us] are the distinct positions (by ==) among those of [ps] that
    [ix] refers to, numbered by first use; [l] is [ix] in the new numbers. *)
Record Welded (ps : list (vec N)) (ix : list nat) (us : list (vec N)) (l : list nat) : Prop := {
  we_len : length l = length ix;
  (* each index is replaced by the number of an equal position *)
  we_same : forall k i j, nth_error ix k = Some i -> nth_error l k = Some j ->
     exists p u, nth_error ps i = Some p /\ nth_error us j = Some u /\ veqb u p = true;
  (* equal positions have one number *)
  we_diff : forall i j u v, nth_error us i = Some u -> nth_error us j = Some v -> veqb u v = true -> i = j;
  (* each position is the one referred to when its number first occurs, and
     all numbers occurring earlier are smaller *)
  we_first : forall j u, nth_error us j = Some u -> exists k i, nth_error ix k = Some i /\ nth_error ps i = Some u /\
     nth_error l k = Some j /\ forall k' j', k' < k -> nth_error l k' = Some j' -> j' < j
}.

(** No referenced position has a NaN coordinate. *)
Definition NoNaN (ps : list (vec N)) (ix : list nat) : Prop :=
  forall i p, In i ix -> nth_error ps i = Some p -> veqb p p = true.

(** [A] are the triangles a mesh made from the arrays [ps], [ix] consists of, as
    triples of numbers into the welded positions [us]: the triangles of the input
    without the degenerate ones (in input order if there are none), less those
    that repeat a directed edge. *)
Definition TrianglesOf (ps : list (vec N)) (ix : list nat) (us : list (vec N)) (A : list tri) : Prop :=
  exists l T rem, Welded ps ix us l /\
    Permutation (triples l) (T ++ rem) /\ (forall t, In t rem -> degenerate t) /\ (forall t, In t T -> ~ degenerate t) /\
    ((forall t, In t (triples l) -> ~ degenerate t) -> T = triples l) /\
    Accepted T A.

(** The corner positions of a triangle of [m]. *)
Definition corners (m : mesh N) (t : tri) : option (vec N) * option (vec N) * option (vec N) :=
  let '(a, b, c) := t in (nth_error (positions m) a, nth_error (positions m) b, nth_error (positions m) c).

(** No two of the positions are equal. *)
Definition PosDistinct (ps : list (vec N)) : Prop :=
  forall i j p q, nth_error ps i = Some p -> nth_error ps j = Some q -> veqb p q = true -> i = j.
(** The corner positions of a triangle of the arrays. *)
Definition corners_of (ps : list (vec N)) (t : tri) : option (vec N) * option (vec N) * option (vec N) :=
  let '(a, b, c) := t in (nth_error ps a, nth_error ps b, nth_error ps c).

End BuildSpec.
