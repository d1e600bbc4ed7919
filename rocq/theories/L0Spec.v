(** What denoiseL0Smooth computes, in exact arithmetic. *)
From Coq Require Import Reals List ZArith.
From Verif Require Import Num NumInst Vec Heap Spec SmoothSpec FilterSpec.
Import ListNotations.
Local Open Scope R_scope.

Definition sqlen (v : vec NumR) : R := vx v * vx v + vy v * vy v + vz v * vz v.
Definition area3 (a b c : vec NumR) : R := Vec.vlength (Vec.cross (Vec.vsub b a) (Vec.vsub c a)) / 2.

(** The corners around the edge of the half-edge [h]: its ends [c1] and [c3], the corner [c2]
    after it on its face and the corner [c4] after it on the face on the other side. *)
Definition vid (p : ptr) : nat := match p with Some v => v | None => 0%nat end.
Definition tip {N : Num} (m : mesh N) (p : ptr) : ptr := match p with Some h => match h_next m h with Some k => dst_of m k | None => None end | None => None end.
Definition c1 {N : Num} (m : mesh N) (h : nat) : nat := vid (h_src m h).
Definition c2 {N : Num} (m : mesh N) (h : nat) : nat := vid (tip m (Some h)).
Definition c3 {N : Num} (m : mesh N) (h : nat) : nat := vid (dst_of m h).
Definition c4 {N : Num} (m : mesh N) (h : nat) : nat := vid (tip m (h_rev m h)).
Definition lin4 (k : R * R * R * R) (p q r s : vec NumR) : vec NumR :=
  let '(k1, k2, k3, k4) := k in
  vadd (vadd (Vec.vscale (N := NumR) k1 p) (Vec.vscale (N := NumR) k2 q)) (vadd (Vec.vscale (N := NumR) k3 r) (Vec.vscale (N := NumR) k4 s)).
Definition comb (m : mesh NumR) (k : R * R * R * R) (P : nat -> vec NumR) (h : nat) : vec NumR :=
  lin4 k (P (c1 m h)) (P (c2 m h)) (P (c3 m h)) (P (c4 m h)).

(** The coefficients of the edge operator of the triangles p1 p2 p3 and p1 p3 p4: each tip
    counts with the area of the other triangle, the coefficients add up to 0, and the result
    is perpendicular to the edge p1 p3. *)
Definition edge_operator (p1 p2 p3 p4 : vec NumR) (k : R * R * R * R) : Prop :=
  let '(k1, k2, k3, k4) := k in let S := area3 p1 p2 p3 + area3 p1 p3 p4 in
  0 < S -> p1 <> p3 -> k2 = area3 p1 p3 p4 / S /\ k4 = area3 p1 p2 p3 / S /\ k1 + k2 + k3 + k4 = 0 /\ Vec.dot (lin4 k p1 p2 p3 p4) (Vec.vsub p3 p1) = 0.

(** Distance to the given positions, regularity, and fidelity to [dl] of the edge operator. *)
Definition energy (m : mesh NumR) (hs : list nat) (K : nat -> R * R * R * R) (al be : R) (P0 : nat -> vec NumR) (dl : nat -> vec NumR) (P : nat -> vec NumR) : R :=
  total (map (fun v => sqlen (Vec.vsub (P v) (P0 v))) (m_verts m)) + al * total (map (fun h => sqlen (comb m (1, -1, 1, -1) P h)) hs) +
  be * total (map (fun h => sqlen (Vec.vsub (comb m (K h) P h) (dl h))) hs).
(** One round: small values of the edge operator are replaced by zero, then the energy is minimised. *)
Definition l0_round (m : mesh NumR) (hs : list nat) (K : nat -> R * R * R * R) (P0 : nat -> vec NumR) (lam al be : R) (P P' : nat -> vec NumR) : Prop :=
  exists dl : nat -> vec NumR,
    (forall h, In h hs -> let y := comb m (K h) P h in (sqlen y < lam / be -> dl h = vzero) /\ (lam / be <= sqlen y -> dl h = y)) /\
    forall X, energy m hs K al be P0 dl P' <= energy m hs K al be P0 dl X /\
      (energy m hs K al be P0 dl X = energy m hs K al be P0 dl P' -> forall v, In v (m_verts m) -> X v = P' v).

(** [cnt] rounds from the positions of [m]: the weights start at [al] and [be]; [al] is halved
    and [be] multiplied by the square root of two after each round; the rounds end when [be] has reached [bmax]. *)
Definition l0_rounds (m : mesh NumR) (hs : list nat) (K : nat -> R * R * R * R) (lam bmax al be : R) (cnt : nat) (Ps : nat -> nat -> vec NumR) : Prop :=
  Ps 0%nat = v_pos m /\
  (forall i, (i < cnt)%nat -> be * sqrt 2 ^ i < bmax /\ l0_round m hs K (v_pos m) lam (al * / 2 ^ i) (be * sqrt 2 ^ i) (Ps i) (Ps (S i))) /\
  bmax <= be * sqrt 2 ^ cnt.
(** The edge operators are those of the smoothed mesh [sm] in every round. *)
Definition l0_result (avg dih al be : R) (m m' : mesh NumR) : Prop :=
  exists sm hs K cnt Ps,
    smoothing_passes uniform_weight (fun k => if Nat.even k then / 2 else - (53 / 100)) 6 m sm /\ EdgeReps m hs /\
    (forall h, In h hs -> edge_operator (v_pos sm (c1 m h)) (v_pos sm (c2 m h)) (v_pos sm (c3 m h)) (v_pos sm (c4 m h)) (K h)) /\
    l0_rounds m hs K (2 / 100 * avg * avg * dih) (1000 * avg) (al * avg) (be * avg) cnt Ps /\
    forall v, In v (m_verts m) -> v_pos m' v = Ps cnt v.
