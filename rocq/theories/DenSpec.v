(** What the normal filters of denoise.cpp compute, in exact arithmetic. *)
From Coq Require Import Reals List ZArith.
From Verif Require Import Num NumInst Vec Heap Spec SmoothSpec FilterSpec.
Import ListNotations.
Local Open Scope R_scope.

(** The half-edges of a face and those leaving a vertex, in the order of the mesh's list. *)
Definition sides (m : mesh NumR) (f : nat) : list nat := filter (fun h => ptr_eqb (h_face m h) (Some f)) (m_hes m).
Definition leaving (m : mesh NumR) (v : nat) : list nat := filter (fun h => ptr_eqb (h_src m h) (Some v)) (m_hes m).
(** The face of a half-edge and the one on its other side. *)
Definition own (m : mesh NumR) (h : nat) : nat := match h_face m h with Some g => g | None => 0%nat end.
Definition across (m : mesh NumR) (h : nat) : nat := match h_rev m h with Some r => own m r | None => 0%nat end.
(** The sum of vectors. *)
Definition sumv (l : list (vec NumR)) : vec NumR := fold_right (@vadd NumR) vzero l.

(** The face [f] is a triangle with unit normal [n], centroid [c] and area [A] > 0. *)
Definition triangle_data (m : mesh NumR) (f : nat) (n c : vec NumR) (A : R) : Prop :=
  exists u v w, Tri m f u v w /\
    let p := v_pos m u in let q := v_pos m v in let r := v_pos m w in
    let x := Vec.cross (Vec.vsub q p) (Vec.vsub r p) in
    0 < A /\ A = Vec.vlength x / 2 /\ Vec.vscale (N := NumR) (2 * A) n = x /\ Vec.vscale (N := NumR) 3 c = vadd (vadd p q) r.

(** One pass over a mesh whose faces are all triangles: [fl f] is the direction of the mean of
    the normals of the three neighbours of [f], each counting with its area times a weight
    that depends on the distance of the centroids and on the distance of the normals (zero if
    that mean vanishes); every vertex then moves by the mean, with the areas as weights, of its
    offsets along [fl f] from the planes through the centroids of the faces around it. *)
Record normal_pass (weight : R -> R -> R -> Prop) (m m' : mesh NumR) : Prop := {
  np_same : posonly m m';
  np_moved : exists (nr ce fl : nat -> vec NumR) (ar : nat -> R) (wt : nat -> nat -> R),
    (forall f, In f (m_faces m) -> triangle_data m f (nr f) (ce f) (ar f)) /\
    (forall f g, In f (m_faces m) -> In g (m_faces m) -> weight (dist3 (ce f) (ce g)) (dist3 (nr f) (nr g)) (wt f g)) /\
    (forall f, In f (m_faces m) ->
       let S := sumv (map (fun h => Vec.vscale (N := NumR) (wt f (across m h) * ar (across m h)) (nr (across m h))) (sides m f)) in
       Vec.vscale (N := NumR) (Vec.vlength S) (fl f) = S /\ (S <> vzero -> Vec.vlength (fl f) = 1) /\ (S = vzero -> fl f = vzero)) /\
    (forall v, In v (m_verts m) ->
       Vec.vscale (N := NumR) (total (map (fun h => ar (own m h)) (leaving m v))) (Vec.vsub (v_pos m' v) (v_pos m v)) =
       sumv (map (fun h => let f := own m h in Vec.vscale (N := NumR) (ar f * Vec.dot (fl f) (Vec.vsub (ce f) (v_pos m v))) (fl f)) (leaving m v))) }.

(** The kernel: a Gaussian up to 2 [s], a quartic from there to 4 [s], then 0. *)
Definition kernel (s x y : R) : Prop :=
  (x < 2 * s -> y = exp (- (x * x) / (s * s)) / (sqrt (2 * PI) * s)) /\
  (2 * s <= x < 4 * s -> y = (4 - x / s) * (4 - x / s) * (4 - x / s) * (4 - x / s) / (16 * exp 2) / (sqrt (2 * PI) * s)) /\
  (2 * s <= x -> 4 * s <= x -> y = 0).
Definition gaussian_weight (s : R) (dc dn y : R) : Prop := kernel s dc y.
Definition bilateral_weight (sc sn : R) (dc dn y : R) : Prop := exists a b, kernel sc dc a /\ kernel sn dn b /\ y = a * b.

(** [n] times: three Taubin iterations (six smoothing passes), then one pass of the filter. *)
Definition denoising_passes (weight : R -> R -> R -> Prop) (n : nat) (m m' : mesh NumR) : Prop :=
  exists ms sm : nat -> mesh NumR, ms 0%nat = m /\ ms n = m' /\ forall i, (i < n)%nat ->
    smoothing_passes uniform_weight (fun k => if Nat.even k then / 2 else - (53 / 100)) 6 (ms i) (sm i) /\ normal_pass weight (sm i) (ms (S i)).
