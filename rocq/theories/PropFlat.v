(** Properties of the triangles that hole filling chooses: C106, C107 and C108.
    The arithmetic is exact.  The proofs are in Flat*.v and Cut*.v. *)
From Coq Require Import Reals List.
From Verif Require Import Num NumInst Vec GeomSpec VecR Heap Mesh Spec Fill FillSpec FlatSpec FlatE CutSpec CutE.
Import ListNotations.
Local Open Scope R_scope.

(** ** C106: a hole in a flat region is filled by triangles in that plane that all face the way their
    neighbours do, whenever the corners of the hole can be joined by such triangles at all, whatever bound
    is given for the angles. *)
Theorem C106_hole : forall (cabs : R -> R) (m : mesh NumR) nrm f (bound : R), Valid m -> AtLeast3 m -> In f (m_faces m) -> FlatHole nrm m f ->
  exists gs m', holeFillMinDihedral (N := NumR) cabs (Some f) bound m = Ok (tt, m') /\ FilledWith m [f] [gs] m' /\
    forall g, In g gs -> exists a b c, Tri m' g a b c /\ faces_up nrm (v_pos m' a) (v_pos m' b) (v_pos m' c).
Proof. exact flat_one. Qed.
Print Assumptions C106_hole.
(** The same for fillHoles, for each of the holes that is such a hole. *)
Theorem C106_fill : forall (cabs : R -> R) (m : mesh NumR), Valid m -> AtLeast3 m ->
  exists m' hs gs, fillHoles (N := NumR) cabs m = Ok (tt, m') /\ NoDup hs /\ (forall f, In f hs <-> Hole m f) /\ FilledWith m hs gs m' /\
    forall f fs, In (f, fs) (combine hs gs) -> forall nrm, FlatHole nrm m f ->
      forall g, In g fs -> exists a b c, Tri m' g a b c /\ faces_up nrm (v_pos m' a) (v_pos m' b) (v_pos m' c).
Proof. exact flat_all. Qed.
Print Assumptions C106_fill.
(** Convex rims can always be joined by such triangles. *)
Theorem C106_convex : forall nrm (p : nat -> vecR) n, (1 <= n)%nat -> (forall i j k, (i < j < k)%nat -> (k <= n)%nat -> faces_up nrm (p i) (p j) (p k)) -> Unfolded nrm p 0 n.
Proof. exact convex_unfolded. Qed.
Print Assumptions C106_convex.
(** A hole shaped like an arrowhead: one of its diagonals gives such triangles and the other one does not. *)
Example C106_case : exists (m : mesh NumR) f a b c d, Valid m /\ AtLeast3 m /\ Hole m f /\ FlatHole (v3 0 0 1) m f /\ (exists ring, Corners m f ring [a; b; c; d]) /\
  map (v_pos m) [a; b; c; d] = [v3 0 3 0; v3 (-3) (-3) 0; v3 0 (-1) 0; v3 3 (-3) 0] /\ ~ faces_up (v3 0 0 1) (v_pos m b) (v_pos m c) (v_pos m d).
Proof. exact arrow_case. Qed.

(** ** C107: among all ways to join the corners of a hole by triangles, the one whose sharpest bend is smallest
    is taken.  This is so for holes with four corners, but for the bend along the edge from the last corner to
    the first, which is not looked at, and but for ways with a smaller area whose sharpest bend is greater by
    less than the bound. *)
Theorem C107_four_partial : forall (m : mesh NumR) f (bound : R), Valid m -> In f (m_faces m) -> (exists ring bs, Corners m f ring bs /\ length bs = 4%nat) ->
  exists ring a b c d, Corners m f ring [a; b; c; d] /\ forall x y z, Beside m f a b x -> Beside m f b c y -> Beside m f c d z ->
    exists g1 g2 m', holeFillMinDihedral (N := NumR) Rabs (Some f) bound m = Ok (tt, m') /\ FilledWith m [f] [[g1; g2]] m' /\
      let p := v_pos m in
      let Abd := sharpest (bends_bd (p a) (p b) (p c) (p d) (p x) (p y) (p z)) in let Sbd := area_bd (p a) (p b) (p c) (p d) in
      let Aac := sharpest (bends_ac (p a) (p b) (p c) (p d) (p x) (p y) (p z)) in let Sac := area_ac (p a) (p b) (p c) (p d) in
      (Tri m' g1 a b d /\ Tri m' g2 b c d /\ may_take bound Abd Sbd Aac Sac) \/ (Tri m' g1 a c d /\ Tri m' g2 a b c /\ may_take bound Aac Sac Abd Sbd).
Proof. exact four_top. Qed.
Print Assumptions C107_four_partial.
(** With the default bound, with which the function is documented to be Barequet's, a hole with four corners is filled with a bend of more than a right angle although
    the other diagonal leaves only bends of less than a right angle. *)
Theorem C107_bound_refuted : exists (m m' : mesh NumR) f ring a b c d x y z w g, Valid m /\ AtLeast3 m /\ Hole m f /\ Corners m f ring [a; b; c; d] /\
  Beside m f a b x /\ Beside m f b c y /\ Beside m f c d z /\ Beside m f d a w /\
  holeFillMinDihedral (N := NumR) Rabs (Some f) PI m = Ok (tt, m') /\ In g (m_faces m') /\ ~ In g (m_faces m) /\ Tri m' g a b c /\
  let p := v_pos m in sharpest (bend (p d) (p a) (p b) (p w) :: bends_bd (p a) (p b) (p c) (p d) (p x) (p y) (p z)) < PI / 2 /\ PI / 2 < bend (p a) (p b) (p c) (p x).
Proof. exact bound_refuted. Qed.
Print Assumptions C107_bound_refuted.
(** The same happens with the bound 0, along the edge that is not looked at. *)
Theorem C107_last_refuted : exists (m m' : mesh NumR) f ring a b c d x y z w g, Valid m /\ AtLeast3 m /\ Hole m f /\ Corners m f ring [a; b; c; d] /\
  Beside m f a b x /\ Beside m f b c y /\ Beside m f c d z /\ Beside m f d a w /\
  holeFillMinDihedral (N := NumR) Rabs (Some f) 0 m = Ok (tt, m') /\ In g (m_faces m') /\ ~ In g (m_faces m) /\ Tri m' g a b d /\
  let p := v_pos m in sharpest (bend (p d) (p a) (p c) (p w) :: bends_ac (p a) (p b) (p c) (p d) (p x) (p y) (p z)) < PI / 2 /\ PI / 2 < bend (p d) (p a) (p b) (p w).
Proof. exact last_refuted. Qed.
Print Assumptions C107_last_refuted.
(** The hypotheses of the first of these are met by the meshes of the other two. *)
Example C107_case : exists (m : mesh NumR) f ring a b c d x y z, Valid m /\ In f (m_faces m) /\ Corners m f ring [a; b; c; d] /\ Beside m f a b x /\ Beside m f b c y /\ Beside m f c d z.
Proof. exact quad_case. Qed.

(** ** C108: with the default bound the filling has the smallest area, as in Barequet's method.  With four
    corners, a way with a greater area is taken only if its bends are smaller, but for the bend along the edge
    from the last corner to the first. *)
Theorem C108_four_partial : forall (m : mesh NumR) f, Valid m -> In f (m_faces m) -> (exists ring bs, Corners m f ring bs /\ length bs = 4%nat) ->
  exists ring a b c d, Corners m f ring [a; b; c; d] /\ forall x y z, Beside m f a b x -> Beside m f b c y -> Beside m f c d z ->
    exists g1 g2 m', holeFillMinDihedral (N := NumR) Rabs (Some f) PI m = Ok (tt, m') /\ FilledWith m [f] [[g1; g2]] m' /\
      let p := v_pos m in
      let Abd := sharpest (bends_bd (p a) (p b) (p c) (p d) (p x) (p y) (p z)) in let Sbd := area_bd (p a) (p b) (p c) (p d) in
      let Aac := sharpest (bends_ac (p a) (p b) (p c) (p d) (p x) (p y) (p z)) in let Sac := area_ac (p a) (p b) (p c) (p d) in
      (Tri m' g1 a b d /\ Tri m' g2 b c d /\ (Sbd <= Sac \/ Abd < Aac)) \/ (Tri m' g1 a c d /\ Tri m' g2 a b c /\ (Sac <= Sbd \/ Aac < Abd)).
Proof. exact four_area. Qed.
Print Assumptions C108_four_partial.
Theorem C108_refuted : exists (m m' : mesh NumR) f ring a b c d g1 g2, Valid m /\ AtLeast3 m /\ Hole m f /\ Corners m f ring [a; b; c; d] /\
  holeFillMinDihedral (N := NumR) Rabs (Some f) PI m = Ok (tt, m') /\ FilledWith m [f] [[g1; g2]] m' /\ Tri m' g1 a c d /\ Tri m' g2 a b c /\
  let p := v_pos m in area_bd (p a) (p b) (p c) (p d) < area_ac (p a) (p b) (p c) (p d).
Proof. exact area_refuted. Qed.
Print Assumptions C108_refuted.
Example C108_case : exists (m : mesh NumR) f ring a b c d x y z, Valid m /\ In f (m_faces m) /\ Corners m f ring [a; b; c; d] /\ Beside m f a b x /\ Beside m f b c y /\ Beside m f c d z.
Proof. exact quad_case. Qed.
