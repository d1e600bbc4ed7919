(** Curvatures, vertex normals and means (C59-C62). *)
From Coq Require Import Reals List ZArith Bool Arith Floats.
From Verif Require Import Num NumInst Vec Heap Mesh Construct Spec BuildSpec Witness GeomSpec Bounds Indices SmoothSpec VecR Measure MeasureR MeasureM RegTet Curv CurvN Means CurvW.
Import ListNotations.
Notation libm1 := (float -> float).
Notation libm2 := (float -> float -> float).
Local Open Scope R_scope.

(** ** C59: the Gaussian curvature.  [is_angle a b c t]: t is the angle at a of the triangle a, b, c. *)
Theorem C59_angle_defect : forall (m : mesh NumR) v, Valid m -> ~ on_boundary m v -> NonDegenerateAt m v -> In v (m_verts m) -> exists (A : R) (L : list (nat * R)),
  v_volonoi (Some v) m = Ok (A, m) /\ 0 < A /\
  NoDup (map fst L) /\ (forall f, In f (map fst L) <-> In f (m_faces m) /\ exists b c, Spec.Tri m f v b c) /\
  (forall f t b c, In (f, t) L -> Spec.Tri m f v b c -> is_angle (v_pos m v) (v_pos m b) (v_pos m c) t) /\
  v_K (Some v) m = Ok ((2 * PI - fold_right Rplus 0 (map snd L)) / A, m).
Proof. exact K_defect. Qed.
Print Assumptions C59_angle_defect.
(** Gauss-Bonnet. *)
Theorem C59_gauss_bonnet : forall m : mesh NumR, Valid m -> Closed m -> NonDegenerate m -> exists A K : nat -> R,
  (forall v, In v (m_verts m) -> v_volonoi (Some v) m = Ok (A v, m) /\ v_K (Some v) m = Ok (K v, m)) /\
  fold_right Rplus 0 (map (fun v => K v * A v) (m_verts m)) = 2 * PI * IZR (euler m).
Proof. exact gauss_bonnet. Qed.
Print Assumptions C59_gauss_bonnet.
Example C59_case : exists m : mesh NumR, mesh_of regR ix_tetra = Ok m /\ Valid m /\ Closed m /\ NonDegenerate m /\ length (m_verts m) = 4%nat.
Proof. exact gb_ex. Qed.

(** ** C60: the vertex normal is the normalised sum of the face normals, weighted by sine over the product of the lengths. *)
Theorem C60_vertex_normal : forall (m : mesh NumR) v, Valid m -> ~ on_boundary m v -> NonDegenerateAt m v -> In v (m_verts m) -> exists L : list (nat * vecR),
  NoDup (map fst L) /\ (forall f, In f (map fst L) <-> In f (m_faces m) /\ exists b c, Spec.Tri m f v b c) /\
  (forall f w b c, In (f, w) L -> Spec.Tri m f v b c -> let e1 := vsub (v_pos m b) (v_pos m v) in let e2 := vsub (v_pos m c) (v_pos m v) in w = vscale (/ (dot e1 e1 * dot e2 e2)) (cross e1 e2)) /\
  (vsum (map snd L) = vzero -> v_normal (Some v) m = Abort AThrow) /\
  (vsum (map snd L) <> vzero -> exists n, v_normal (Some v) m = Ok (n, m) /\ vlength n = 1 /\ vscale (vlength (vsum (map snd L))) n = vsum (map snd L)).
Proof. exact normal_ok. Qed.
Print Assumptions C60_vertex_normal.
(** It exists and points to the side from which all triangles at the vertex are seen from the front. *)
Theorem C60_side : forall (m : mesh NumR) v (g : vecR), Valid m -> ~ on_boundary m v -> NonDegenerateAt m v -> In v (m_verts m) ->
  (forall f b c, In f (m_faces m) -> Spec.Tri m f v b c -> 0 < dot (cross (vsub (v_pos m b) (v_pos m v)) (vsub (v_pos m c) (v_pos m v))) g) ->
  exists n, v_normal (Some v) m = Ok (n, m) /\ vlength n = 1 /\ 0 < dot n g.
Proof. exact normal_side. Qed.
Print Assumptions C60_side.
(** On a sphere it is the radius, exactly. *)
Theorem C60_sphere : forall (m : mesh NumR) v (o : vecR) (r : R) n m', Valid m -> ~ on_boundary m v -> NonDegenerateAt m v -> In v (m_verts m) -> 0 < r ->
  vlength (vsub (v_pos m v) o) = r -> (forall w, adj m v w -> vlength (vsub (v_pos m w) o) = r) ->
  v_normal (Some v) m = Ok (n, m') -> vscale r n = vsub (v_pos m v) o \/ vscale r n = vsub o (v_pos m v).
Proof. exact normal_sphere. Qed.
Print Assumptions C60_sphere.
Example C60_case : exists (m : mesh NumR) v n, mesh_of regR ix_tetra = Ok m /\ Valid m /\ ~ on_boundary m v /\ NonDegenerateAt m v /\ In v (m_verts m) /\ v_pos m v = v3 1 1 1 /\
  vlength (vsub (v_pos m v) vzero) = R_sqrt.sqrt 3 /\ (forall w, adj m v w -> vlength (vsub (v_pos m w) vzero) = R_sqrt.sqrt 3) /\
  (forall f b c, In f (m_faces m) -> Spec.Tri m f v b c -> 0 < dot (cross (vsub (v_pos m b) (v_pos m v)) (vsub (v_pos m c) (v_pos m v))) (v_pos m v)) /\
  v_normal (Some v) m = Ok (n, m).
Proof. exact sphere_ex. Qed.

(** ** C61: the mean curvature.  [cotg a b c]: the cotangent of the angle at b, with the code's guard of 1e-20. *)
Theorem C61_mean_curvature : forall (m : mesh NumR) v, Valid m -> ~ on_boundary m v -> NonDegenerateAt m v -> In v (m_verts m) -> forall n, v_normal (Some v) m = Ok (n, m) ->
  exists (A : R) (L : list (nat * R)), v_volonoi (Some v) m = Ok (A, m) /\ 0 < A /\
  NoDup (map fst L) /\ (forall w, In w (map fst L) <-> adj m v w) /\
  (forall w k f a g b, In (w, k) L -> Spec.Tri m f v w a -> Spec.Tri m g w v b -> k = cotg (v_pos m v) (v_pos m a) (v_pos m w) + cotg (v_pos m v) (v_pos m b) (v_pos m w)) /\
  v_H (Some v) m = Ok (- dot (fold_right (fun x s => vadd (vscale (snd x) (vsub (v_pos m (fst x)) (v_pos m v))) s) vzero L) n / (2 * A), m).
Proof. exact H_formula. Qed.
Print Assumptions C61_mean_curvature.
(** It vanishes at a vertex in the plane of its neighbours. *)
Theorem C61_flat : forall (m : mesh NumR) v (g : vecR) x m', Valid m -> ~ on_boundary m v -> NonDegenerateAt m v -> In v (m_verts m) -> g <> vzero ->
  (forall w, adj m v w -> dot (vsub (v_pos m w) (v_pos m v)) g = 0) -> v_H (Some v) m = Ok (x, m') -> x = 0.
Proof. exact H_flat. Qed.
Print Assumptions C61_flat.
Example C61_case : exists (m : mesh NumR) v n x, mesh_of flatR ix_tetra = Ok m /\ Valid m /\ ~ on_boundary m v /\ NonDegenerateAt m v /\ In v (m_verts m) /\ length (m_verts m) = 4%nat /\
  v3 0 0 1 <> vzero /\ (forall w, adj m v w -> dot (vsub (v_pos m w) (v_pos m v)) (v3 0 0 1) = 0) /\ v_normal (Some v) m = Ok (n, m) /\ v_H (Some v) m = Ok (x, m).
Proof. exact flat_ex. Qed.

(** ** C62: means over the faces and edges.  The faces that fill the holes count, too. *)
Theorem C62_face_area_partial : forall (N : Num) (m : mesh N), WF m -> exists A : nat -> num, (forall f, In f (m_faces m) -> f_area (Some f) m = Ok (A f, m)) /\
  getMeanFaceArea m = Ok (ndiv (fold_left nadd (map A (m_faces m)) nzero) (nofZ (Z.of_nat (length (m_faces m)))), m).
Proof. exact @meanFaceArea_ok. Qed.
Print Assumptions C62_face_area_partial.
(** A square of two triangles of area 1/2: the mean exceeds 5/8. *)
Theorem C62_open_refuted : forall (a e : libm1) (t : libm2), exists ps ix (m : mesh (NumF a e t)) x l m1 m2, mesh_of ps ix = Ok m /\ getMeanFaceArea m = Ok (x, m1) /\
  mmap (fun f => f_area (Some f)) (surface_faces m) m = Ok (l, m2) /\ length l = 2%nat /\ (forall y, In y l -> @neqb (NumF a e t) y nhalf = true) /\ @nltb (NumF a e t) (nmul (nadd none_ nquarter) nhalf) x = true.
Proof. exact mean_refuted. Qed.
Print Assumptions C62_open_refuted.
Theorem C62_dihedral : forall (N : Num) (m : mesh N), Valid m -> exists reps (T : nat -> @num N), EdgeReps m reps /\
  getMeanDihedralAngle m = Ok (ndiv (fold_left nadd (map T reps) nzero) (nofZ (Z.of_nat (length reps))), m) /\
  (forall h u w f a g b, In h reps -> h_src m h = Some u -> dst_of m h = Some w -> Spec.Tri m f u w a -> Spec.Tri m g w u b -> T h = Vec.dihedral (v_pos m a) (v_pos m u) (v_pos m w) (v_pos m b)).
Proof. exact @meanDihedral_ok. Qed.
Print Assumptions C62_dihedral.
