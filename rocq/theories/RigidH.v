(** Distances between moved meshes. *)
From Coq Require Import Reals Lra Lia List ZArith Bool Arith Permutation.
From Verif Require Import Num NumInst Vec Heap Mesh Spec BuildSpec Bounds BoundsR Bvh BvhSpec BvhR Clone Indices Hausdorff GeomW WholeSpec RigidSpec RigidM RigidE RigidQ.
Import ListNotations.

Section Rigid.
Variables (Q : vecR -> vecR) (t : vecR).
Hypothesis HQ : Rotation Q.
Notation T := (motion Q t).
Notation MV := (move Q t).
Definition tri_move (tr : triangle NumR) : triangle NumR := Bounds.Tri (T (tp0 tr)) (T (tp1 tr)) (T (tp2 tr)).
Lemma closest_move tr p : tri_closest (tri_move tr) (T p) = T (tri_closest tr p).
Proof.
  unfold tri_closest, tri_move. cbn [tp0 tp1 tp2]. cbv zeta. rg HQ. repeat match goal with |- (if ?b then _ else _) = _ => destruct b; [reflexivity|] end. reflexivity.
Qed.
Lemma edist_move p q : GeomSpec.edist (T p) (T q) = GeomSpec.edist p q.
Proof. rewrite <- !edist_len. rg HQ. reflexivity. Qed.
Lemma near_move ts q d : nearest ts q d -> nearest (map tri_move ts) (T q) d.
Proof.
  intros ((tr & I1 & E) & L). split.
  - exists (tri_move tr). split; [apply in_map, I1|]. rewrite closest_move, edist_move. exact E.
  - intros tr' I'. apply in_map_iff in I'. destruct I' as (x & <- & Ix). rewrite closest_move, edist_move. apply L, Ix.
Qed.
Lemma read_tris_move ps : forall n ix, length ix <= n -> read_tris (N := NumR) (map T ps) ix = match read_tris (N := NumR) ps ix with Ok ts => Ok (map tri_move ts) | UB u => UB u | Abort u => Abort u | NoFuel => NoFuel end.
Proof.
  induction n as [|n IH]; intros ix L; [destruct ix; [reflexivity|cbn in L; lia]|]. destruct ix as [|i [|j [|k ix]]]; cbn [read_tris]; try reflexivity.
  rewrite !nth_error_map. destruct (nth_error ps i); cbn [option_map]; [|reflexivity]. destruct (nth_error ps j); cbn [option_map]; [|reflexivity]. destruct (nth_error ps k); cbn [option_map]; [|reflexivity].
  rewrite IH by (cbn in L; lia). destruct (read_tris ps ix); reflexivity.
Qed.
Lemma tris_move tr al tr' al' m b b' : @bvh_of_mesh NumR tr al m = Ok b -> @bvh_of_mesh NumR tr' al' (MV m) = Ok b' -> bv_tris b' = map tri_move (bv_tris b).
Proof.
  unfold bvh_of_mesh. rewrite (mv_getVertices Q t m), (mv_getVertexIndices Q t m). destruct (getVertices m) as [[ps m1]| | |]; cbn [move_out]; try discriminate. destruct (getVertexIndices m) as [[ix m2]| | |]; cbn [move_out]; try discriminate.
  unfold bvh_construct, same. rewrite (read_tris_move ps (length (map Z.to_nat ix)) _ (le_n _)). destruct (read_tris ps (map Z.to_nat ix)) as [ts| | |]; try discriminate. unfold bvh_of_tris.
  destruct (build_rec tr al (length ts) (prims_from 0 ts)); try discriminate. destruct (build_rec tr' al' (length (map tri_move ts)) (prims_from 0 (map tri_move ts))); try discriminate. intros [= <-] [= <-]. reflexivity.
Qed.
Lemma positions_of (m : mesh NumR) : positions (MV m) = map T (positions m).
Proof. unfold positions. rewrite map_map. reflexivity. Qed.

Variables (trunc trunc' : R -> Z) (alg alg' : algos).
Hypothesis TR : truncates trunc.
Hypothesis TR' : truncates trunc'.
Hypothesis AL : algos_ok alg.
Hypothesis AL' : algos_ok alg'.
Theorem shortest_move src dst : Valid src -> Valid dst -> surface_faces dst <> [] -> (forall ts, surface_of dst ts -> close_by src ts) ->
  exists ds, @shortest_distances NumR trunc alg src dst = Ok ds /\ @shortest_distances NumR trunc' alg' (MV src) (MV dst) = Ok ds.
Proof.
  intros Vs Vd NE C. destruct (bvh_mesh_ok trunc TR alg AL dst Vd NE) as (ts & n & S1 & E & B & P). specialize (C ts S1).
  destruct (bvh_mesh_ok trunc' TR' alg' AL' (MV dst) (valid_move Q t dst Vd) NE) as (ts' & n' & _ & E' & B' & P'). assert (X := tris_move _ _ _ _ _ _ _ E E'). cbn [bv_tris] in X. subst ts'.
  assert (Cq : forall q, In q (positions src) -> exists tr, In tr ts /\ (GeomSpec.edist q (tri_closest tr q) < 10 ^ 20)%R). { intros q I1. unfold positions in I1. apply in_map_iff in I1 as (v & <- & Iv). exact (C v Iv). }
  destruct (distances_ok ts n (positions src) B P Cq) as (ds & Ed & F & _).
  destruct (distances_ok (map tri_move ts) n' (positions (MV src)) B' P') as (ds' & Ed' & F' & _).
  { rewrite positions_of. intros q I1. apply in_map_iff in I1. destruct I1 as (q0 & <- & I0). destruct (Cq q0 I0) as (tr & It & Lt). exists (tri_move tr). split; [apply in_map, It|]. rewrite closest_move, edist_move. exact Lt. }
  exists ds. unfold shortest_distances. cbn [num NumR] in *. rewrite E, E', (getVertices_ok src (valid_wf src Vs)), (getVertices_ok (MV src) (valid_wf _ (valid_move Q t src Vs))). split; [exact Ed|].
  rewrite Ed'. f_equal. rewrite positions_of in F'. clear - F F' HQ. revert ds' F'. induction F as [|q d qs ds H _ IH]; intros ds' F'; inversion F' as [|? d' ? ds2 H' F2]; subst; [reflexivity|]. f_equal; [|apply IH; exact F2].
  exact (nearest_unique _ _ _ _ H' (near_move _ _ _ H)).
Qed.
Theorem hausdorff_move m0 m1 : Valid m0 -> Valid m1 -> surface_faces m0 <> [] -> surface_faces m1 <> [] ->
  (forall ts, surface_of m1 ts -> close_by m0 ts) -> (forall ts, surface_of m0 ts -> close_by m1 ts) ->
  exists d, @hausdorff NumR trunc alg m0 m1 = Ok d /\ @hausdorff NumR trunc' alg' (MV m0) (MV m1) = Ok d.
Proof.
  intros V0 V1 N0 N1 C01 C10. destruct (hausdorff_ok trunc TR alg AL m0 m1 V0 V1 N0 N1 C01 C10) as (_ & _ & r0 & r1 & _ & _ & _ & _ & E & _). exists (Rmax r0 r1). split; [exact E|]. refine (eq_trans _ E). clear E. unfold hausdorff.
  destruct (shortest_move m0 m1 V0 V1 N1 C01) as (d0 & A0 & B0). destruct (shortest_move m1 m0 V1 V0 N0 C10) as (d1 & A1 & B1). cbn [num NumR] in *. rewrite A0, B0, A1, B1. reflexivity.
Qed.
End Rigid.

(** ** Far away *)
Lemma id_rotation : Rotation (fun p => p).
Proof. constructor; reflexivity. Qed.
Theorem far_refuted trunc alg : truncates trunc -> algos_ok alg -> exists (tr : triangle NumR) (q t : vecR) b b' d d',
  @bvh_of_tris NumR trunc alg [tr] = Ok b /\ bvh_distance b q = Ok d /\
  @bvh_of_tris NumR trunc alg [tri_move (fun p => p) t tr] = Ok b' /\ bvh_distance b' (motion (fun p => p) t q) = Ok d' /\ (d = 10 ^ 21 /\ d' = 0)%R.
Proof.
  intros TR AL. set (tr := Bounds.Tri (N := NumR) (V3 (N := NumR) 0 0 0)%R (V3 (N := NumR) 1 0 0)%R (V3 (N := NumR) 0 1 0)%R). set (q := V3 (N := NumR) 0%R 0%R (10 ^ 21)%R). set (t := V3 (N := NumR) 0%R 0%R (- 10 ^ 21)%R).
  assert (Z0 : forall x : vecR, vx x = 0%R -> vy x = 0%R -> GeomSpec.edist x vzero = Rabs (vz x)).
  { intros [x y z] X Y. cbn in X, Y. subst x y. unfold GeomSpec.edist, GeomSpec.X, GeomSpec.Y, GeomSpec.Z_. cbn. rewrite <- sqrt_Rsqr_abs. f_equal. unfold Rsqr. ring. }
  assert (P21 : (10 ^ 20 < 10 ^ 21)%R) by (apply Rlt_pow; [lra|lia]). assert (P0 : (0 < 10 ^ 20)%R) by (apply pow_lt; lra).
  assert (C : tri_closest tr q = vzero).
  { unfold tri_closest, tr, q. cbn [tp0 tp1 tp2]. cbv zeta. match goal with |- (if nleb ?a ?z && nleb ?b _ then _ else _) = _ => assert (A : a = 0%R) by (cbn; match goal with |- @eq _ ?a ?b => change (@eq R a b) end; ring); assert (B : b = 0%R) by (cbn; match goal with |- @eq _ ?a ?b => change (@eq R a b) end; ring); rewrite A, B end.
    cbn. unfold Rleb. destruct (Rle_dec 0 0) as [_|N0]; [reflexivity|exfalso; apply N0; lra]. }
  assert (D : GeomSpec.edist q vzero = (10 ^ 21)%R). { rewrite Z0 by reflexivity. cbn [vz q]. apply Rabs_right. lra. }
  destruct (bvh_agrees trunc alg [tr] q TR AL ltac:(discriminate)) as (b & c & Eb & Ec & [(x & [<- | []] & -> & L & _) | (-> & _)]); [exfalso; rewrite C, D in L; lra|].
  destruct (bvh_agrees trunc alg [tri_move (fun p => p) t tr] (motion (fun p => p) t q) TR AL ltac:(discriminate)) as (b' & c' & Eb' & Ec' & [(x & [<- | []] & -> & L & _) | (-> & _)]).
  { exfalso. rewrite (closest_move _ t id_rotation), (edist_move _ t id_rotation), C, D in L. lra. }
  exists tr, q, t, b, b', (10 ^ 21)%R, 0%R. split; [exact Eb|]. unfold bvh_distance. cbn [num NumR] in *. rewrite Ec, Ec'. split; [f_equal; rewrite edist_len, edist_sym; exact D|]. split; [exact Eb'|]. split; [|split; reflexivity].
  f_equal. rewrite edist_len, edist_sym, Z0; [|cbn; ring|cbn; ring]. unfold q, t, motion, vadd. cbn [vz]. change (@nadd NumR) with Rplus. replace (10 ^ 21 + - 10 ^ 21)%R with 0%R by ring. apply Rabs_R0.
Qed.
