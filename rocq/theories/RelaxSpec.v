(** Vocabulary of the statements about the relaxation of the vertices that were put into a hole. *)
From Coq Require Import Reals List ZArith.
From Verif Require Import Num NumInst Vec Heap Mesh Spec SmoothSpec FilterSpec Smooth LaplSpec Lapl GeomSpec VecR MeasureR Measure FeatSpec.
Import ListNotations.
Local Open Scope R_scope.

Section Region.
Variable m : mesh NumR.
(** The vertices that are moved. *)
Variable l : list nat.
Record Region : Prop := {
  rg_nodup : NoDup l;
  rg_in : forall v, In v l -> In v (m_verts m);
  (** around them the vertices are locked; *)
  rg_rim : forall v u, In v l -> adj m v u -> In u l \/ v_lock m u = true;
  (** from every vertex one gets to a vertex that stays. *)
  rg_stay : forall v, In v (m_verts m) -> exists w, reach m v w /\ In w (m_verts m) /\ ~ In w l
}.

(** ** The equation
    [x] solves the Poisson equation of the cotangent operator with right-hand side [b] at the
    vertices that are moved; the other vertices keep their positions. *)
Definition Poisson (b x : nat -> vecR) : Prop :=
  exists ts, getMeshLaplacian Cotangent m = Ok (ts, m) /\
    (forall v, In v (m_verts m) -> ~ In v l -> x v = v_pos m v) /\
    (forall i v, nth_error (m_verts m) i = Some v -> In v l ->
      sum_to (length (m_verts m)) (fun j => entry ts i j * vx (x (nth j (m_verts m) 0%nat))) = vx (b v) /\
      sum_to (length (m_verts m)) (fun j => entry ts i j * vy (x (nth j (m_verts m) 0%nat))) = vy (b v) /\
      sum_to (length (m_verts m)) (fun j => entry ts i j * vz (x (nth j (m_verts m) 0%nat))) = vz (b v)).

(** ** The right-hand side *)

(** The unit normal of a triangle. *)
Definition Normal (a b c n : vecR) : Prop := vlength n = 1 /\ exists s, 0 < s /\ vscale s n = cross (vsub b a) (vsub c a).
(** The direction of the sum of three vectors. *)
Definition Mean3 (a b c n : vecR) : Prop := vlength n = 1 /\ exists s, 0 < s /\ vscale s n = vadd (vadd a b) c.
(** Half of the side p1 p2, turned by a right angle in the plane of the triangle, away from p0:
    q is the foot of the altitude from p0. *)
Definition AwayFrom (p0 p1 p2 e : vecR) : Prop :=
  exists t, let q := vadd p1 (vscale t (vsub p2 p1)) in
    dot (vsub p0 q) (vsub p2 p1) = 0 /\ p0 <> q /\
    vscale (vlength (vsub p0 q)) e = vscale (- (vlength (vsub p2 p1) / 2)) (vsub p0 q).
(** What is applied to it in place of the rotation that takes n0 to n1. *)
Definition turned (n0 n1 x : vecR) : vecR :=
  let a := cross n0 n1 in
  vadd (vadd x (vscale (vlength a) (cross a x))) (vscale (1 - dot n0 n1) (cross a (cross a x))).
(** The mean over the triangles at [v], where [T] are the smoothed normals. *)
Definition Pull (T : nat -> vecR) (v : nat) (g : vecR) : Prop :=
  exists L : list (nat * vecR),
    NoDup (map fst L) /\
    (forall f, In f (map fst L) <-> In f (m_faces m) /\ exists b c, Spec.Tri m f v b c) /\
    (forall f x b c, In (f, x) L -> Spec.Tri m f v b c ->
      exists n0 n1 e, Normal (v_pos m v) (v_pos m b) (v_pos m c) n0 /\ Mean3 (T v) (T b) (T c) n1 /\
        AwayFrom (v_pos m v) (v_pos m b) (v_pos m c) e /\ x = turned n0 n1 e) /\
    vscale (INR (length L)) g = vsum (map snd L).
(** The smoothed normals: unit vectors at the vertices that are moved, and zero elsewhere. *)
Definition NormalField (T : nat -> vecR) : Prop :=
  (forall v, In v l -> vlength (T v) = 1) /\ (forall v, ~ In v l -> T v = vzero).
(** [x] has the direction of the point halfway between T v and the mean of its neighbours, with cotangent
    weights. *)
Definition Blend (T : nat -> vecR) (v : nat) (x : vecR) : Prop :=
  exists ws W c, NoDup ws /\ (forall w, In w ws <-> adj m v w) /\ (forall w, adj m v w -> cotangent_weight m v w (W w)) /\
    weighted_mean ws W T c /\ vlength x = 1 /\ exists s, 0 < s /\ vscale s x = towards (/ 2) (T v) c.
(** One vertex after the other is changed in this way; *)
Fixpoint Sweep (k : list nat) (T T' : nat -> vecR) : Prop :=
  match k with
  | [] => T' = T
  | v :: k' => exists x, Blend T v x /\ Sweep k' (fun u => if Nat.eqb u v then x else T u) T'
  end.
(** this is repeated; *)
Fixpoint Sweeps (k : nat) (T T' : nat -> vecR) : Prop :=
  match k with O => T' = T | S k' => exists T1, Sweep l T T1 /\ Sweeps k' T1 T' end.
(** and it starts with the normals of the vertices. *)
Definition Smoothed (T : nat -> vecR) : Prop :=
  exists T0, (forall v, In v l -> v_normal (Some v) m = Ok (T0 v, m)) /\ (forall v, ~ In v l -> T0 v = vzero) /\ Sweeps 1000 T0 T.
(** The result of the relaxation. *)
Definition Relaxed (x : nat -> vecR) : Prop :=
  exists T b, NormalField T /\ Smoothed T /\ (forall v, In v l -> Pull T v (b v)) /\
    Poisson b (fun v => if in_dec Nat.eq_dec v l then x v else v_pos m v).

(** ** Conditions on the region *)
(** The cotangent weights of the edges at the vertices are not negative, and some are positive. *)
Definition GoodWeights : Prop := forall v, In v l ->
  (forall h w m', In h (m_hes m) -> h_src m h = Some v -> he_cotWeight (Some h) m = Ok (w, m') -> 0 <= w) /\
  (exists h w m', In h (m_hes m) /\ h_src m h = Some v /\ he_cotWeight (Some h) m = Ok (w, m') /\ 0 < w).
(** The triangles at the vertices lie in parallel planes. *)
Definition Flat (n : vecR) : Prop := forall f v b c, In v l -> In f (m_faces m) -> Spec.Tri m f v b c -> Normal (v_pos m v) (v_pos m b) (v_pos m c) n.
(** The triangles are not tiny. *)
Definition NotTiny : Prop := forall f v b c, In v l -> In f (m_faces m) -> Spec.Tri m f v b c -> / 10 ^ 6 <= 2 * tri_area (v_pos m v) (v_pos m b) (v_pos m c).
End Region.
(** A vertex over the plane of its neighbours: n is its normal, the neighbours lie in the plane {x | x . n = k},
    and the triangles are inclined by less than a right angle. *)
Definition Dome (m : mesh NumR) (v : nat) (n : vecR) (k : R) : Prop :=
  v_normal (Some v) m = Ok (n, m) /\
  (forall u, adj m v u -> dot (v_pos m u) n = k) /\ k < dot (v_pos m v) n /\
  (forall f b c n0, In f (m_faces m) -> Spec.Tri m f v b c -> Normal (v_pos m v) (v_pos m b) (v_pos m c) n0 -> 0 < dot n0 n).
