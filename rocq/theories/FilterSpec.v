(** What the smoothing filters and the mesh Laplacians compute, in exact arithmetic. *)
From Coq Require Import Reals List ZArith.
From Verif Require Import Num NumInst Vec Heap Spec SmoothSpec.
Import ListNotations.
Local Open Scope R_scope.

Definition total (l : list R) : R := fold_right Rplus 0 l.
(** The distance of two points. *)
Definition dist3 (p q : vec NumR) : R :=
  sqrt ((vx p - vx q) * (vx p - vx q) + (vy p - vy q) * (vy p - vy q) + (vz p - vz q) * (vz p - vz q)).
(** The cotangent of the angle at [b] of the triangle a, b, c; the sine (times the lengths of
    the sides) is replaced by 1e-6 if it is smaller. *)
Definition cotan (a b c : vec NumR) : R :=
  Vec.dot (Vec.vsub a b) (Vec.vsub c b) / Rmax (Vec.vlength (Vec.cross (Vec.vsub a b) (Vec.vsub c b))) (/ 10 ^ 6).

(** [x] is a weight of the edge from [v] to [w]. *)
Definition uniform_weight (m : mesh NumR) (v w : nat) (x : R) : Prop := x = 1.
Definition cotangent_weight (m : mesh NumR) (v w : nat) (x : R) : Prop :=
  exists f g a b, Tri m f v w a /\ Tri m g w v b /\
    x = (cotan (v_pos m v) (v_pos m a) (v_pos m w) + cotan (v_pos m v) (v_pos m b) (v_pos m w)) / 2.
Definition heat_weight (h : R) (m : mesh NumR) (v w : nat) (x : R) : Prop :=
  x = exp (- (dist3 (v_pos m v) (v_pos m w) * dist3 (v_pos m v) (v_pos m w)) / (4 * h)) / (4 * PI * h).

(** [c] is the mean of the positions [pos w], w in [ws], with the weights [W w]. *)
Definition weighted_mean (ws : list nat) (W : nat -> R) (pos : nat -> vec NumR) (c : vec NumR) : Prop :=
  total (map W ws) <> 0 /\
  vx c * total (map W ws) = total (map (fun w => W w * vx (pos w)) ws) /\
  vy c * total (map W ws) = total (map (fun w => W w * vy (pos w)) ws) /\
  vz c * total (map W ws) = total (map (fun w => W w * vz (pos w)) ws).
(** The point a fraction [eps] of the way from [p] to [c]. *)
Definition towards (eps : R) (p c : vec NumR) : vec NumR :=
  V3 (N := NumR) ((1 - eps) * vx p + eps * vx c) ((1 - eps) * vy p + eps * vy c) ((1 - eps) * vz p + eps * vz c).

(** One smoothing pass: every vertex that is neither locked nor on the boundary moves the
    fraction [eps] of the way to the weighted mean of its neighbours; nothing else changes. *)
Record smoothing_pass (weight : mesh NumR -> nat -> nat -> R -> Prop) (eps : R) (m m' : mesh NumR) : Prop := {
  sp_same : posonly m m';
  sp_kept : kept m m';
  sp_moved : forall v, In v (m_verts m) -> v_lock m v = false -> ~ on_boundary m v ->
    exists ws W c, NoDup ws /\ (forall w, In w ws <-> adj m v w) /\ (forall w, adj m v w -> weight m v w (W w)) /\
      weighted_mean ws W (v_pos m) c /\ v_pos m' v = towards eps (v_pos m v) c }.
(** [n] passes one after the other; the i-th one uses the fraction [eps i]. *)
Definition smoothing_passes weight (eps : nat -> R) (n : nat) (m m' : mesh NumR) : Prop :=
  exists ms : nat -> mesh NumR, ms 0%nat = m /\ ms n = m' /\ forall i, (i < n)%nat -> smoothing_pass weight (eps i) (ms i) (ms (S i)).

(** The entries of a Laplacian matrix outside the diagonal are minus the weights of the edges. *)
Definition off_diagonal (weight : mesh NumR -> nat -> nat -> R -> Prop) (m : mesh NumR) (L : nat -> nat -> R) : Prop :=
  forall i j u v, i <> j -> nth_error (m_verts m) i = Some u -> nth_error (m_verts m) j = Some v ->
    (forall x, adj m u v -> weight m u v x -> L i j = - x) /\ (~ adj m u v -> L i j = 0).

(** One implicit step: every vertex away from the boundary whose weights do not add up to 0
    is now where it has to be to have come the fraction [eps] of the way to the weighted mean
    of its neighbours' new positions; the weights are those of the old positions. *)
Record fairing_step (eps : R) (m m' : mesh NumR) : Prop := {
  fs_same : posonly m m';
  fs_solved : forall v, In v (m_verts m) -> ~ on_boundary m v ->
    exists ws W, NoDup ws /\ (forall w, In w ws <-> adj m v w) /\ (forall w, adj m v w -> cotangent_weight m v w (W w)) /\
      (total (map W ws) <> 0 -> exists c, weighted_mean ws W (v_pos m') c /\ v_pos m v = towards (- eps) (v_pos m' v) c) }.
Definition fairing_steps (eps : R) (n : nat) (m m' : mesh NumR) : Prop :=
  exists ms : nat -> mesh NumR, ms 0%nat = m /\ ms n = m' /\ forall i, (i < n)%nat -> fairing_step eps (ms i) (ms (S i)).
