(** Facts for the geometric properties: bundles, and the refutations that are evaluated. *)
From Coq Require Import Reals Lra Lia List ZArith Bool Arith Floats Permutation.
From Verif Require Import Num NumInst Vec VecN Heap Mesh Construct Spec BuildSpec Witness Bounds GeomSpec VecR BoundsR Bvh BvhSpec BvhR Measure MeasureR MeasureM Indices Hausdorff HausdorffW ExamplesR.
Import ListNotations.

(** ** The component constructor *)
Lemma arr_set_len {A} (l : list A) i x : length (arr_set l i x) = length l.
Proof. revert i; induction l as [|y l IH]; intros [|i]; cbn; auto. Qed.
Lemma ctor_ok {A} (D : nat) (x y z w : A) : 3 <= D -> vec_ctor D x y z w = Ok (x :: y :: z :: repeat w (D - 3)).
Proof.
  intros H. destruct D as [|[|[|D]]]; try lia. unfold vec_ctor, arr_write. cbn. rewrite Nat.sub_0_r. reflexivity.
Qed.
Lemma ctor_bad {A} (D : nat) (x y z w : A) : D <= 2 -> vec_ctor D x y z w = UB OutOfBounds.
Proof. intros H. destruct D as [|[|[|D]]]; try lia; reflexivity. Qed.

(** ** An open mesh: the areas of its vertices do not add up to the areas of its faces *)
Section W.
Variables (acosF expF : float -> float) (atan2F : float -> float -> float).
Notation NF := (Witness.NF acosF expF atan2F).
Definition area_sums (m : mesh NF) : option (num * num) :=
  match mmap (fun v => v_volonoi (Some v)) (m_verts m) m, mmap (fun f => f_area (Some f)) (filter (fun f => negb (hole m f)) (m_faces m)) m with
  | Ok (a, _), Ok (b, _) => Some (fold_left nadd a nzero, fold_left nadd b nzero)
  | _, _ => None
  end.
Lemma area_check : with_mesh acosF expF atan2F (mesh_of (ps_square acosF expF atan2F) [0;1;2; 0;2;3]) (fun m =>
  match area_sums m with Some (a, b) => @neqb NF b none_ && @nltb NF none_ a | None => false end) = true.
Proof. vm_cast_no_check (eq_refl true). Qed.
Lemma area_refuted : exists (m : mesh NF) a b m1 m2, mesh_of (ps_square acosF expF atan2F) [0;1;2; 0;2;3] = Ok m /\
  mmap (fun v => v_volonoi (Some v)) (m_verts m) m = Ok (a, m1) /\ mmap (fun f => f_area (Some f)) (surface_faces m) m = Ok (b, m2) /\
  @neqb NF (fold_left nadd b nzero) none_ = true /\ nltb none_ (fold_left nadd a nzero) = true.
Proof.
  destruct (with_ok _ _ _ _ _ area_check) as (m & E & C). unfold area_sums in C. fold (surface_faces m) in C.
  destruct (mmap (fun v => v_volonoi (Some v)) (m_verts m) m) as [[a m1]| | |] eqn:E1; try discriminate C.
  destruct (mmap (fun f => f_area (Some f)) (surface_faces m) m) as [[b m2]| | |] eqn:E2; try discriminate C.
  apply andb_true_iff in C as [C1 C2]. exists m, a, b, m1, m2. split; [exact E|]. split; [exact E1|]. split; [exact E2|]. split; [exact C1|exact C2].
Qed.
End W.

Local Open Scope R_scope.
(** ** Bundles *)
Lemma vec_laws : (forall a b : vecR, vadd a b = vadd b a) /\ (forall a b c : vecR, vadd a (vadd b c) = vadd (vadd a b) c) /\ (forall a : vecR, vadd a vzero = a) /\ (forall a b : vecR, vsub a b = v3 (vx a - vx b) (vy a - vy b) (vz a - vz b)) /\ (forall a : vecR, vscale 1 a = a) /\ (forall (s t : R) (a : vecR), vscale s (vscale t a) = vscale (s * t) a) /\ (forall (s : R) (a b : vecR), vscale s (vadd a b) = vadd (vscale s a) (vscale s b)) /\ (forall (s t : R) (a : vecR), vscale (s + t) a = vadd (vscale s a) (vscale t a)) /\ (forall (a : vecR) (s : R), s <> 0 -> vdiv a s = Some (vscale (/ s) a)) /\ (forall a : vecR, vdiv a 0 = None).
Proof.
  split; [exact vadd_comm|]. split; [exact vadd_assoc|]. split; [exact vadd_zero|]. split; [exact vsub_comp|]. split; [exact vscale_one|]. split; [exact vscale_mul|]. split; [exact vscale_addv|]. split; [exact vscale_adds|]. split; [exact vdiv_ok|exact vdiv_zero].
Qed.
Lemma vec_products : (forall a b : vecR, dot a b = vx a * vx b + vy a * vy b + vz a * vz b) /\ (forall a b : vecR, dot a b = dot b a) /\ (forall a b c : vecR, dot (vadd a b) c = dot a c + dot b c) /\ (forall (s : R) (a b : vecR), dot (vscale s a) b = s * dot a b) /\ (forall a b : vecR, cross a b = vneg (cross b a)) /\ (forall a b c : vecR, cross (vadd a b) c = vadd (cross a c) (cross b c)) /\ (forall (s : R) (a b : vecR), cross (vscale s a) b = vscale s (cross a b)) /\ (forall a b : vecR, dot (cross a b) a = 0 /\ dot (cross a b) b = 0) /\ (forall a b : vecR, dot (cross a b) (cross a b) = dot a a * dot b b - dot a b * dot a b) /\ (forall a : vecR, 0 <= vlength a /\ vlength a * vlength a = dot a a) /\ (forall a b : vecR, vlength (vadd a b) <= vlength a + vlength b) /\ (forall a : vecR, a <> vzero -> exists u, normalize a = Some u /\ vlength u = 1 /\ vscale (vlength a) u = a) /\ normalize (vzero : vecR) = None.
Proof.
  split; [exact dot_eq|]. split; [exact dot_sym|]. split; [exact dot_add|]. split; [exact dot_scale|]. split; [exact cross_anti|]. split; [exact cross_add|]. split; [exact cross_scale|].
  split; [intros a b; split; [apply cross_orth1|apply cross_orth2]|]. split; [exact cross_lagrange|]. split; [intros a; split; [apply vlength_pos|apply vlength_sq]|]. split; [exact vlength_tri|]. split; [exact normalize_unit|exact normalize_zero].
Qed.
Lemma dihedral_all (a b c d : vecR) :
  (nrm a b c <> vzero -> nrm d b c <> vzero ->
    let n1 := nrm a b c in let n4 := nrm d b c in
    dihedral a b c d = acos (dot n1 n4 / (vlength n1 * vlength n4)) /\ -1 <= dot n1 n4 / (vlength n1 * vlength n4) <= 1 /\
    0 <= dihedral a b c d <= PI /\ cos (dihedral a b c d) * (vlength n1 * vlength n4) = dot n1 n4) /\
  (nrm a b c = vzero \/ nrm d b c = vzero -> dihedral a b c d = 0) /\
  dihedral a c b d = dihedral a b c d /\ dihedral d b c a = dihedral a b c d.
Proof. split; [apply dihedral_angle|]. split; [apply dihedral_degenerate|]. split; [apply dihedral_swap|apply dihedral_rev]. Qed.
Lemma bounds_bound : (forall (ps : list vecR) p, In p ps -> in_box (fold_left box_add ps box0) p) /\
  (forall (ps : list vecR) B, ps <> [] -> Forall moderate ps -> (forall p, In p ps -> in_box B p) -> box_within (fold_left box_add ps box0) B) /\
  (forall a b : box NumR, box_within a (box_merge a b) /\ box_within b (box_merge a b)) /\
  (forall a b B : box NumR, box_within a B -> box_within b B -> box_within (box_merge a b) B) /\
  (forall b p, @box_inside NumR b p = true <-> in_box b p) /\
  (forall b p x, in_box b x -> @box_distance NumR b p <= edist p x) /\
  (forall b p, (exists x, in_box b x) -> exists x, in_box b x /\ @box_distance NumR b p = edist p x).
Proof.
  split; [intros ps p H; apply fold_in; exact H|]. split; [exact fold_smallest|]. split; [intros a b; split; [apply box_merge_l|apply box_merge_r]|]. split; [exact box_merge_least|]. split; [exact box_inside_iff|]. split; [exact box_distance_le|exact box_distance_attained].
Qed.
(** A BVH over triangles: building and asking. *)
Lemma bvh_agrees trunc alg (ts : list (triangle NumR)) q : truncates trunc -> algos_ok alg -> ts <> [] ->
  exists b c, @bvh_of_tris NumR trunc alg ts = Ok b /\ bvh_closest b q = Ok c /\
    ((exists tr, In tr ts /\ c = tri_closest tr q /\ edist q c < 10 ^ 20 /\ forall tr', In tr' ts -> edist q c <= edist q (tri_closest tr' q)) \/
     (c = vzero /\ forall tr', In tr' ts -> 10 ^ 20 <= edist q (tri_closest tr' q))).
Proof.
  intros T A H. destruct (bvh_build trunc T alg A ts H) as (t & E & B & P). destruct (bvh_query ts t q B P) as (c & Ec & D). exists (mkBvh (Some t) ts), c. auto.
Qed.
Lemma bvh_ex : exists ts : list (triangle NumR), ts <> [] /\ length ts = 2%nat /\ exists trunc alg, truncates trunc /\ algos_ok alg.
Proof.
  exists [unit_tri; unit_tri]. split; [discriminate|]. split; [reflexivity|]. eexists. eexists. split; [exact trunc_exists|exact algos_exist].
Qed.
Lemma closest_partial : forall t q, let r := @tri_closest NumR t q in
  let d1 := dot (vsub (tp1 t) (tp0 t)) (vsub q (tp0 t)) in let d2 := dot (vsub (tp2 t) (tp0 t)) (vsub q (tp0 t)) in
  let d3 := dot (vsub (tp1 t) (tp0 t)) (vsub q (tp2 t)) in let d4 := dot (vsub (tp2 t) (tp0 t)) (vsub q (tp2 t)) in
  in_triangle t r /\ (on_segment (tp0 t) (tp1 t) r \/ on_segment (tp0 t) (tp2 t) r) /\
  (d1 <= 0 /\ d2 <= 0 \/ 0 <= d4 /\ d3 < d4 \/ 0 <= d2 /\ d4 <= 0 /\ d3 < 0 /\ d3 * d2 <= d1 * d4 /\ (d1 < 0 \/ d3 * d2 < d1 * d4) ->
   forall x, in_triangle t x -> edist q r <= edist q x).
Proof.
  intros t q r d1 d2 d3 d4. split; [apply tri_closest_in|]. split; [apply tri_closest_edges|]. intros [[A B]|[[A B]|(A & B & C & D & E)]] x I.
  - unfold r. destruct (tri_closest_p0 t q x A B I) as [-> K]. exact K.
  - exact (tri_closest_p2 t q x A B I).
  - exact (tri_closest_p02 t q x A B C D E I).
Qed.
(** A query in each of the three regions of the unit triangle. *)
Lemma closest_case : exists (t : triangle NumR) q0 q2 q02,
  let d1 q := dot (vsub (tp1 t) (tp0 t)) (vsub q (tp0 t)) in let d2 q := dot (vsub (tp2 t) (tp0 t)) (vsub q (tp0 t)) in
  let d3 q := dot (vsub (tp1 t) (tp0 t)) (vsub q (tp2 t)) in let d4 q := dot (vsub (tp2 t) (tp0 t)) (vsub q (tp2 t)) in
  cross (vsub (tp1 t) (tp0 t)) (vsub (tp2 t) (tp0 t)) <> v3 0 0 0 /\
  d1 q0 < 0 /\ d2 q0 < 0 /\ 0 < d4 q2 /\ d3 q2 < d4 q2 /\ 0 < d2 q02 /\ d4 q02 < 0 /\ d3 q02 < 0 /\ d3 q02 * d2 q02 < d1 q02 * d4 q02.
Proof.
  exists unit_tri, (v3 (-1) (-1) 1), (v3 0 3 1), (v3 (-1) (/ 2) 1). cbv zeta. unfold unit_tri, v3. cbn [tp0 tp1 tp2]. rewrite !dot_eq. unfold cross, vsub, vadd, vneg, X, Y, Z_. rn.
  split; [intros H; injection H as H; lra|]. repeat split; lra.
Qed.
Lemma hausdorff_self_refuted' (a e : float -> float) (t : float -> float -> float) (trunc : float -> Z) (alg : algos) : algos_ok alg ->
  exists ps ix (m : mesh (NumF a e t)) d, mesh_of ps ix = Ok m /\ @hausdorff (NumF a e t) trunc alg m m = Ok d /\ nltb nzero d = true.
Proof. intros A. destruct (HausdorffW.hausdorff_self_refuted a e t trunc alg A) as (m & d & H). do 2 eexists. exists m, d. exact H. Qed.
Lemma area_refuted' (a e : float -> float) (t : float -> float -> float) : exists ps ix (m : mesh (NumF a e t)) la lb m1 m2, mesh_of ps ix = Ok m /\
  mmap (fun v => v_volonoi (Some v)) (m_verts m) m = Ok (la, m1) /\ mmap (fun f => f_area (Some f)) (surface_faces m) m = Ok (lb, m2) /\
  @neqb (NumF a e t) (fold_left nadd lb nzero) none_ = true /\ nltb none_ (fold_left nadd la nzero) = true.
Proof. destruct (area_refuted a e t) as (m & la & lb & m1 & m2 & H). do 2 eexists. exists m, la, lb, m1, m2. exact H. Qed.
