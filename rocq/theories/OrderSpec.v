(** Vocabulary: two inputs that describe the same triangles in space. *)
From Coq Require Import List Permutation.
From Verif Require Import Num Vec Heap Spec BuildSpec.
Import ListNotations.

Section OrderSpec.
Context {N : Num}.

(** Number [i] of [ps] and number [j] of [qs] are the same point (by ==). *)
Definition at_same (ps qs : list (vec N)) (i j : nat) : Prop :=
  exists p q, nth_error ps i = Some p /\ nth_error qs j = Some q /\ veqb p q = true.

(** Triangle [t] of [ps] and triangle [u] of [qs] have the same corners in the same
    cyclic order, possibly starting at another one. *)
Definition same_tri (ps qs : list (vec N)) (t u : tri) : Prop :=
  exists a b c a' b' c', cyc_eq t (a, b, c) /\ u = (a', b', c') /\ at_same ps qs a a' /\ at_same ps qs b b' /\ at_same ps qs c c'.

(** The triangles [T] of [ps] are the triangles [U] of [qs], each as often, in any order. *)
Definition SameTriangles (ps : list (vec N)) (T : list tri) (qs : list (vec N)) (U : list tri) : Prop :=
  exists L, Permutation T L /\ Forall2 (same_tri ps qs) L U.

(** Two meshes of the same triangles.  No two vertices of a mesh are at the same point,
    so this pairs the vertices, edges and faces of one with those of the other. *)
Definition SameSurface (m m' : mesh N) : Prop :=
  exists T T', SurfaceOf m T /\ SurfaceOf m' T' /\ length (m_verts m) = length (m_verts m') /\ PosDistinct (positions m) /\ PosDistinct (positions m') /\
    SameTriangles (positions m) T (positions m') T'.
End OrderSpec.
