(** Properties of the geometric part: C38-C51.  Vocabulary: GeomSpec.v, BvhSpec.v, Spec.v.
    Statements about real numbers are about the code evaluated in exact arithmetic. *)
From Coq Require Import Reals List ZArith Floats Arith Permutation Ascii.
From Verif Require Import Num NumInst Vec VecN Heap Mesh Construct Spec BuildSpec Witness Bounds GeomSpec VecR BoundsR Bvh BvhSpec BvhR Measure MeasureR MeasureM Indices Hausdorff HausdorffW
  Features FeaturesR Progress ProgressP ExamplesR Examples GeomW.
Import ListNotations.
Notation libm1 := (float -> float).
Notation libm2 := (float -> float -> float).
Local Open Scope R_scope.

(** ** C38: Triangle::closestPoint returns a point of the triangle.  It is always on one of the two
    edges at the first corner.  No point of the triangle is closer if the query lies in the region of
    the first or third corner or of the edge between them.  Missing: the other regions. *)
Theorem C38_closestPoint_partial : forall t q, let r := @tri_closest NumR t q in
  let d1 := dot (vsub (tp1 t) (tp0 t)) (vsub q (tp0 t)) in let d2 := dot (vsub (tp2 t) (tp0 t)) (vsub q (tp0 t)) in
  let d3 := dot (vsub (tp1 t) (tp0 t)) (vsub q (tp2 t)) in let d4 := dot (vsub (tp2 t) (tp0 t)) (vsub q (tp2 t)) in
  in_triangle t r /\ (on_segment (tp0 t) (tp1 t) r \/ on_segment (tp0 t) (tp2 t) r) /\
  (d1 <= 0 /\ d2 <= 0 \/ 0 <= d4 /\ d3 < d4 \/ 0 <= d2 /\ d4 <= 0 /\ d3 < 0 /\ d3 * d2 <= d1 * d4 /\ (d1 < 0 \/ d3 * d2 < d1 * d4) ->
   forall x, in_triangle t x -> edist q r <= edist q x).
Proof. exact closest_partial. Qed.
Print Assumptions C38_closestPoint_partial.
Example C38_case : exists (t : triangle NumR) q0 q2 q02,
  let d1 q := dot (vsub (tp1 t) (tp0 t)) (vsub q (tp0 t)) in let d2 q := dot (vsub (tp2 t) (tp0 t)) (vsub q (tp0 t)) in
  let d3 q := dot (vsub (tp1 t) (tp0 t)) (vsub q (tp2 t)) in let d4 q := dot (vsub (tp2 t) (tp0 t)) (vsub q (tp2 t)) in
  cross (vsub (tp1 t) (tp0 t)) (vsub (tp2 t) (tp0 t)) <> v3 0 0 0 /\
  d1 q0 < 0 /\ d2 q0 < 0 /\ 0 < d4 q2 /\ d3 q2 < d4 q2 /\ 0 < d2 q02 /\ d4 q02 < 0 /\ d3 q02 < 0 /\ d3 q02 * d2 q02 < d1 q02 * d4 q02.
Proof. exact closest_case. Qed.
(** There it is wrong: a point strictly inside a triangle is never returned for itself. *)
Theorem C38_inside_refuted : forall t u v w x, cross (vsub (tp1 t) (tp0 t)) (vsub (tp2 t) (tp0 t)) <> v3 0 0 0 -> 0 < u -> 0 < v -> 0 < w -> u + v + w = 1 ->
  x = v3 (u * X (tp0 t) + v * X (tp1 t) + w * X (tp2 t)) (u * Y (tp0 t) + v * Y (tp1 t) + w * Y (tp2 t)) (u * Z_ (tp0 t) + v * Z_ (tp1 t) + w * Z_ (tp2 t)) ->
  in_triangle t x /\ @tri_closest NumR t x <> x.
Proof. exact tri_closest_inside. Qed.
Print Assumptions C38_inside_refuted.
(** A query above the inside. *)
Theorem C38_closestPoint_refuted : exists t q x, in_triangle t x /\ edist q x < edist q (@tri_closest NumR t q).
Proof. exact tri_closest_wrong. Qed.
Print Assumptions C38_closestPoint_refuted.

(** ** C39: a BVH query agrees with asking every triangle (if one is nearer than 1e20). *)
Theorem C39_bvh_agrees : forall trunc alg (ts : list (triangle NumR)) q, truncates trunc -> algos_ok alg -> ts <> [] ->
  exists b c, @bvh_of_tris NumR trunc alg ts = Ok b /\ bvh_closest b q = Ok c /\
    ((exists tr, In tr ts /\ c = tri_closest tr q /\ edist q c < 10 ^ 20 /\ forall tr', In tr' ts -> edist q c <= edist q (tri_closest tr' q)) \/
     (c = vzero /\ forall tr', In tr' ts -> 10 ^ 20 <= edist q (tri_closest tr' q))).
Proof. exact bvh_agrees. Qed.
Print Assumptions C39_bvh_agrees.
Example C39_C40_case : exists ts : list (triangle NumR), ts <> [] /\ length ts = 2%nat /\ exists trunc alg, truncates trunc /\ algos_ok alg.
Proof. exact bvh_ex. Qed.

(** ** C40: building a BVH terminates, stores every triangle in one leaf, and boxes contain triangles. *)
Theorem C40_bvh_build : forall trunc, truncates trunc -> forall alg, algos_ok alg -> forall ts : list (triangle NumR), ts <> [] ->
  exists t, @bvh_of_tris NumR trunc alg ts = Ok (mkBvh (Some t) ts) /\ boxed ts t /\ Permutation (leaves t) (seq 0 (length ts)).
Proof. exact bvh_build. Qed.
Print Assumptions C40_bvh_build.

(** ** C41: the Hausdorff distance of meshes with at least one face: it is computed, is
    symmetric and non-negative, and is the largest distance of a vertex to the nearest
    point offered by the triangles of the other mesh.  Missing: the distance of a mesh to
    itself is 0. *)
Theorem C41_hausdorff_partial : forall trunc, truncates trunc -> forall alg, algos_ok alg -> forall m0 m1 : mesh NumR,
  Valid m0 -> Valid m1 -> surface_faces m0 <> [] -> surface_faces m1 <> [] ->
  (forall ts, surface_of m1 ts -> close_by m0 ts) -> (forall ts, surface_of m0 ts -> close_by m1 ts) ->
  exists ts0 ts1 r0 r1, surface_of m0 ts0 /\ surface_of m1 ts1 /\ farthest m0 ts1 r0 /\ farthest m1 ts0 r1 /\
    @hausdorff NumR trunc alg m0 m1 = Ok (Rmax r0 r1) /\ @hausdorff NumR trunc alg m1 m0 = Ok (Rmax r0 r1) /\ 0 <= Rmax r0 r1.
Proof. exact hausdorff_ok. Qed.
Print Assumptions C41_hausdorff_partial.
Example C41_case : exists m : mesh NumR, Valid m /\ surface_faces m <> [] /\ (forall ts, surface_of m ts -> close_by m ts) /\ length (m_faces m) = 4%nat.
Proof. exact tetraR_close. Qed.
(** The distance of the unit square to itself is positive, whatever nth_element does. *)
Theorem C41_hausdorff_self_refuted : forall (a e : libm1) (t : libm2) (trunc : float -> Z) (alg : algos), algos_ok alg ->
  exists ps ix (m : mesh (NumF a e t)) d, mesh_of ps ix = Ok m /\ @hausdorff (NumF a e t) trunc alg m m = Ok d /\ nltb nzero d = true.
Proof. exact hausdorff_self_refuted'. Qed.
Print Assumptions C41_hausdorff_self_refuted.
(** Each distance is that of a point of the other surface, so the result never underestimates. *)
Theorem C41_nearest_point : forall ts q r, nearest ts q r -> exists t x, In t ts /\ in_triangle t x /\ edist q x = r.
Proof. exact nearest_point. Qed.
Print Assumptions C41_nearest_point.
(** A mesh without faces that are not holes has an empty BVH; asking it dereferences null. *)
Theorem C41_empty_refuted : forall (trunc : R -> Z) (alg : algos) (m : mesh NumR) (q : vecR), Valid m -> surface_faces m = [] ->
  exists b, @bvh_of_mesh NumR trunc alg m = Ok b /\ bvh_closest b q = UB NullDeref.
Proof. exact bvh_empty. Qed.
Print Assumptions C41_empty_refuted.

(** ** C42: principal curvatures: k_max >= k_min with the right sum and product; the
    directions are unit eigenvectors, of the other curvature. *)
Theorem C42_principal_partial : forall (a b d : R) (u v : vecR), orthonormal u v ->
  exists (kM km : R) (tM tm : vecR), @principal NumR a b d u v (cross u v) = Some (kM, km, tM, tm) /\ kM >= km /\ kM + km = a + d /\ kM * km = a * d - b * b /\
   ((Rabs (km - kM) < / 10 ^ 6 /\ tM = vzero /\ tm = vzero) \/
    (/ 10 ^ 6 <= Rabs (km - kM) /\ vlength tM = 1 /\ vlength tm = 1 /\ dot tM tm = 0 /\ eigen a b d u v tM km /\ eigen a b d u v tm kM)).
Proof. exact principal_ok. Qed.
Print Assumptions C42_principal_partial.
Theorem C42_principal_refuted : exists (a b d : R) (u v : vecR) (kM km : R) (tM tm : vecR), orthonormal u v /\ @principal NumR a b d u v (cross u v) = Some (kM, km, tM, tm) /\
  tM <> vzero /\ ~ eigen a b d u v tM kM /\ ~ eigen a b d u v tm km.
Proof. exact principal_swapped. Qed.
Print Assumptions C42_principal_refuted.

(** ** C43: the mixed Voronoi areas of the corners of a triangle add up to its area, up to the guard. *)
Theorem C43_corner_areas : forall (m : mesh NumR) f a b c, WF m -> In f (m_faces m) -> Spec.Tri m f a b c -> a <> b -> b <> c -> c <> a ->
  exists A Aa Ab Ac : R, f_area (Some f) m = Ok (A, m) /\ A = tri_area (v_pos m a) (v_pos m b) (v_pos m c) /\
    v_volonoiIn (Some a) (Some f) m = Ok (Aa, m) /\ v_volonoiIn (Some b) (Some f) m = Ok (Ab, m) /\ v_volonoiIn (Some c) (Some f) m = Ok (Ac, m) /\
    0 <= A - (Aa + Ab + Ac) <= / 10 ^ 20 / 2 /\ (@obtuse NumR (v_pos m a) (v_pos m b) (v_pos m c) = true -> Aa + Ab + Ac = A).
Proof. exact volonoi_face. Qed.
Print Assumptions C43_corner_areas.
Example C43_C49_C51_case : exists m : mesh NumR, mesh_of tetraR ix_tetra = Ok m /\ Valid m /\ Closed m /\ positions m = tetraR /\ length (m_faces m) = 4%nat /\
  exists f a b c, In f (m_faces m) /\ Spec.Tri m f a b c /\ a <> b /\ b <> c /\ c <> a /\ v_pos m a = v3 0 0 0 /\ v_pos m b = v3 1 0 0 /\ v_pos m c = v3 0 1 0.
Proof. exact tetraR_all. Qed.
Example C43_C51_area : tri_area (v3 0 0 0) (v3 1 0 0) (v3 0 1 0) = / 2 /\ nrm (v3 0 0 0) (v3 1 0 0) (v3 0 1 0) <> vzero.
Proof. exact unit_area. Qed.

(** ** C44: vector arithmetic.  Missing: v - s and s - v. *)
Theorem C44_vector_space_partial : (forall a b : vecR, vadd a b = vadd b a) /\ (forall a b c : vecR, vadd a (vadd b c) = vadd (vadd a b) c) /\ (forall a : vecR, vadd a vzero = a) /\
  (forall a b : vecR, vsub a b = v3 (vx a - vx b) (vy a - vy b) (vz a - vz b)) /\
  (forall a : vecR, vscale 1 a = a) /\ (forall (s t : R) (a : vecR), vscale s (vscale t a) = vscale (s * t) a) /\
  (forall (s : R) (a b : vecR), vscale s (vadd a b) = vadd (vscale s a) (vscale s b)) /\ (forall (s t : R) (a : vecR), vscale (s + t) a = vadd (vscale s a) (vscale t a)) /\
  (forall (a : vecR) (s : R), s <> 0 -> vdiv a s = Some (vscale (/ s) a)) /\ (forall a : vecR, vdiv a 0 = None).
Proof. exact vec_laws. Qed.
Print Assumptions C44_vector_space_partial.
Theorem C44_products_partial : (forall a b : vecR, dot a b = vx a * vx b + vy a * vy b + vz a * vz b) /\ (forall a b : vecR, dot a b = dot b a) /\ (forall a b c : vecR, dot (vadd a b) c = dot a c + dot b c) /\
  (forall (s : R) (a b : vecR), dot (vscale s a) b = s * dot a b) /\ (forall a b : vecR, cross a b = vneg (cross b a)) /\
  (forall a b c : vecR, cross (vadd a b) c = vadd (cross a c) (cross b c)) /\ (forall (s : R) (a b : vecR), cross (vscale s a) b = vscale s (cross a b)) /\
  (forall a b : vecR, dot (cross a b) a = 0 /\ dot (cross a b) b = 0) /\
  (forall a b : vecR, dot (cross a b) (cross a b) = dot a a * dot b b - dot a b * dot a b) /\
  (forall a : vecR, 0 <= vlength a /\ vlength a * vlength a = dot a a) /\ (forall a b : vecR, vlength (vadd a b) <= vlength a + vlength b) /\
  (forall a : vecR, a <> vzero -> exists u, normalize a = Some u /\ vlength u = 1 /\ vscale (vlength a) u = a) /\ normalize (vzero : vecR) = None.
Proof. exact vec_products. Qed.
Print Assumptions C44_products_partial.
(** v - s and s - v multiply instead. *)
Theorem C44_subtract_scalar_refuted : exists (v : vecR) (s : R), vsubs v s <> v3 (vx v - s) (vy v - s) (vz v - s) /\ ssubv s v <> v3 (s - vx v) (s - vy v) (s - vz v).
Proof. exact vsubs_wrong. Qed.
Print Assumptions C44_subtract_scalar_refuted.

(** ** C45: the component constructor stays inside the vector if it has three components
    or more.  Missing: vectors with fewer. *)
Theorem C45_constructor_partial : forall (A : Type) (D : nat) (x y z w : A), (3 <= D)%nat -> vec_ctor D x y z w = Ok (x :: y :: z :: repeat w (D - 3)).
Proof. exact @ctor_ok. Qed.
Print Assumptions C45_constructor_partial.
(** These are written out of bounds (Vec2 is Vec<double, 2>). *)
Theorem C45_constructor_refuted : forall (A : Type) (D : nat) (x y z w : A), (D <= 2)%nat -> vec_ctor D x y z w = UB OutOfBounds.
Proof. exact @ctor_bad. Qed.
Print Assumptions C45_constructor_refuted.

(** ** C46: dihedral is an angle.  [nrm a b c] is the (unnormalised) normal of the triangle. *)
Theorem C46_dihedral : forall a b c d : vecR,
  (nrm a b c <> vzero -> nrm d b c <> vzero ->
    let n1 := nrm a b c in let n4 := nrm d b c in
    dihedral a b c d = acos (dot n1 n4 / (vlength n1 * vlength n4)) /\ -1 <= dot n1 n4 / (vlength n1 * vlength n4) <= 1 /\
    0 <= dihedral a b c d <= PI /\ cos (dihedral a b c d) * (vlength n1 * vlength n4) = dot n1 n4) /\
  (nrm a b c = vzero \/ nrm d b c = vzero -> dihedral a b c d = 0) /\
  dihedral a c b d = dihedral a b c d /\ dihedral d b c a = dihedral a b c d.
Proof. exact dihedral_all. Qed.
Print Assumptions C46_dihedral.

(** ** C47: bounding boxes bound. *)
Theorem C47_bounds : (forall (ps : list vecR) p, In p ps -> in_box (fold_left box_add ps box0) p) /\
  (forall (ps : list vecR) B, ps <> [] -> Forall moderate ps -> (forall p, In p ps -> in_box B p) -> box_within (fold_left box_add ps box0) B) /\
  (forall a b : box NumR, box_within a (box_merge a b) /\ box_within b (box_merge a b)) /\
  (forall a b B : box NumR, box_within a B -> box_within b B -> box_within (box_merge a b) B) /\
  (forall b p, @box_inside NumR b p = true <-> in_box b p) /\
  (forall b p x, in_box b x -> @box_distance NumR b p <= edist p x) /\
  (forall b p, (exists x, in_box b x) -> exists x, in_box b x /\ @box_distance NumR b p = edist p x).
Proof. exact bounds_bound. Qed.
Print Assumptions C47_bounds.

(** ** C48: the progress bar.  A history of steps that does not exceed the total never
    throws; with moderate numbers and a clock that moves all its calls succeed and each
    line shows a bar of 40 characters.  Missing: histories that exceed the total, and a
    first call within the first millisecond. *)
Theorem C48_progress_no_throw_partial : forall (total : Z) (l : list (Z * Z)), (forall n e, In (n, e) l -> (1 <= n)%Z) -> (total_of l <= total)%Z ->
  pb_run (pb_new total) l <> PThrow /\ (forall b' o, pb_run (pb_new total) l = POk b' o -> b' = PBar (total_of l) total).
Proof. exact progress_nothrow. Qed.
Print Assumptions C48_progress_no_throw_partial.
Theorem C48_progress_partial : forall (total : Z) (l : list (Z * Z)), (total <= 2000000)%Z -> (total_of l <= total)%Z ->
  (forall n e, In (n, e) l -> (1 <= n /\ 1 <= e /\ e * total <= 2000000000000)%Z) ->
  (exists o, pb_run (pb_new total) l = POk (PBar (total_of l) total) o) /\
  (forall x, In x (pb_lines (pb_new total) l) -> List.length (ln_bar x) = 40%nat /\
      Z.of_nat (count_occ ascii_dec (ln_bar x) "="%char) = (40 * ln_step x / total)%Z /\ ln_total x = total).
Proof. exact progress_ok. Qed.
Print Assumptions C48_progress_partial.
Example C48_case : let l := [(2, 5); (2, 9); (3, 70)]%Z in (total_of l <= 7)%Z /\ (forall n e, In (n, e) l -> (1 <= n /\ 1 <= e /\ e * 7 <= 2000000000000)%Z).
Proof. exact progress_case. Qed.
(** finish() then completes the bar. *)
Theorem C48_finish_partial : forall (total : Z) (l : list (Z * Z)) (e : Z), (total <= 2000000)%Z -> (total_of l <= total)%Z ->
  (forall n e', In (n, e') l -> (1 <= n /\ 1 <= e' /\ e' * total <= 2000000000000)%Z) -> (1 <= e /\ e * total <= 2000000000000)%Z ->
  exists b o o', pb_run (pb_new total) l = POk b o /\ pb_finish b e = POk (PBar total total) o' /\
    (forall x, o' = Some x -> ln_bar x = repeat "="%char 40 /\ ln_step x = total /\ ln_total x = total) /\ (total_of l < total -> o' <> None)%Z.
Proof. exact progress_finish. Qed.
Print Assumptions C48_finish_partial.
(** Stepping by two (as simplifyQEM does) over an odd total of at most 39 throws at the last step. *)
Theorem C48_progress_throws_refuted : forall k e : Z, (0 <= k)%Z -> (2 * k + 1 <= 40)%Z -> (1 <= e <= 1000000000)%Z ->
  forall es : list Z, (forall x, In x es -> (1 <= x <= 1000000000)%Z) -> List.length es = Z.to_nat k ->
  pb_run (pb_new (2 * k + 1)) (map (fun x => (2%Z, x)) es ++ [(2%Z, e)]) = PThrow.
Proof. exact overshoot. Qed.
Print Assumptions C48_progress_throws_refuted.
Theorem C48_progress_undefined_refuted : forall total n : Z, pb_do (pb_new total) n 0 = PUndef.
Proof. exact early_undefined. Qed.
Print Assumptions C48_progress_undefined_refuted.

(** ** C49: on a closed mesh the areas of the vertices add up to the areas of the faces, up to the guard. *)
Theorem C49_areas_closed_partial : forall m : mesh NumR, Valid m -> Closed m -> exists A F : nat -> R,
  (forall v, In v (m_verts m) -> v_volonoi (Some v) m = Ok (A v, m)) /\
  (forall f, In f (m_faces m) -> f_area (Some f) m = Ok (F f, m)) /\
  0 <= fold_right Rplus 0 (map F (m_faces m)) - fold_right Rplus 0 (map A (m_verts m)) <= INR (length (m_faces m)) * (/ 10 ^ 20 / 2).
Proof. exact volonoi_partition. Qed.
Print Assumptions C49_areas_closed_partial.
(** On the unit square the area is 1 and the vertices have more. *)
Theorem C49_areas_open_refuted : forall (a e : libm1) (t : libm2), exists ps ix (m : mesh (NumF a e t)) la lb m1 m2, mesh_of ps ix = Ok m /\
  mmap (fun v => v_volonoi (Some v)) (m_verts m) m = Ok (la, m1) /\ mmap (fun f => f_area (Some f)) (surface_faces m) m = Ok (lb, m2) /\
  @neqb (NumF a e t) (fold_left nadd lb nzero) none_ = true /\ nltb none_ (fold_left nadd la nzero) = true.
Proof. exact area_refuted'. Qed.
Print Assumptions C49_areas_open_refuted.

(** ** C50: getVertexIndices of any valid mesh (so also after edits) lists the faces that are not holes. *)
Theorem C50_indices_valid : forall (N : Num) (m : mesh N), Valid m -> exists l, getVertexIndices m = Ok (map Z.of_nat l, m) /\
  length l = (3 * length (surface_faces m))%nat /\ Forall2 (face_is m) (surface_faces m) (triples l).
Proof. exact @indices_valid. Qed.
Print Assumptions C50_indices_valid.

(** ** C51: area and normal of a triangular face. *)
Theorem C51_face_area : forall (m : mesh NumR) f a b c, WF m -> In f (m_faces m) -> Spec.Tri m f a b c -> a <> b -> b <> c -> c <> a ->
  f_area (Some f) m = Ok (/ 2 * vlength (cross (vsub (v_pos m b) (v_pos m a)) (vsub (v_pos m c) (v_pos m a))), m).
Proof. exact f_area_ok. Qed.
Print Assumptions C51_face_area.
Theorem C51_face_normal : forall (m : mesh NumR) f a b c, WF m -> In f (m_faces m) -> Spec.Tri m f a b c -> a <> b -> b <> c -> c <> a ->
  0 < tri_area (v_pos m a) (v_pos m b) (v_pos m c) ->
  exists n, f_normal (Some f) m = Ok (n, m) /\ vlength n = 1 /\
    n = vscale (/ (2 * tri_area (v_pos m a) (v_pos m b) (v_pos m c))) (cross (vsub (v_pos m b) (v_pos m a)) (vsub (v_pos m c) (v_pos m a))).
Proof. exact f_normal_ok. Qed.
Print Assumptions C51_face_normal.
