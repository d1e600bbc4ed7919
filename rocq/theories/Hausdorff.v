(** getPerVertexShortestDistances and getHausdorffDistance on valid meshes, over the reals. *)
From Coq Require Import Reals Lra Lia List ZArith Bool Arith Permutation.
From Verif Require Import Num NumInst Vec Heap Mesh Spec BuildSpec Bounds GeomSpec VecR BoundsR Bvh BvhSpec BvhR Rings Clone Indices.
Import ListNotations.
Local Open Scope R_scope.

(** The triangle of face [f], by its corner positions. *)
Definition face_tri (m : mesh NumR) (f : nat) (t : triangle NumR) : Prop :=
  exists a b c, Spec.Tri m f a b c /\ t = Bounds.Tri (v_pos m a) (v_pos m b) (v_pos m c).
(** [ts] are the triangles of the surface of [m] (its faces that are not holes). *)
Definition surface_of (m : mesh NumR) (ts : list (triangle NumR)) : Prop := Forall2 (face_tri m) (surface_faces m) ts.
(** [d] is the least distance of [q] to the points the triangles offer. *)
Definition nearest (ts : list (triangle NumR)) (q : vecR) (d : R) : Prop :=
  (exists t, In t ts /\ d = edist q (tri_closest t q)) /\ forall t, In t ts -> d <= edist q (tri_closest t q).
(** All vertices of [m] are less than 1e20 away from some triangle. *)
Definition close_by (m : mesh NumR) (ts : list (triangle NumR)) : Prop :=
  forall v, In v (m_verts m) -> exists t, In t ts /\ edist (v_pos m v) (tri_closest t (v_pos m v)) < 10 ^ 20.
(** [r] is the largest of the vertices' distances. *)
Definition farthest (m : mesh NumR) (ts : list (triangle NumR)) (r : R) : Prop :=
  (exists v, In v (m_verts m) /\ nearest ts (v_pos m v) r) /\ (forall v d, In v (m_verts m) -> nearest ts (v_pos m v) d -> d <= r).

Section H.
Variable trunc : R -> Z.
Hypothesis TR : truncates trunc.
Variable alg : algos.
Hypothesis AL : algos_ok alg.
Notation bvh_of_mesh := (@Bvh.bvh_of_mesh NumR trunc alg).
Notation shortest := (@Bvh.shortest_distances NumR trunc alg).
Notation hausdorff := (@Bvh.hausdorff NumR trunc alg).

Lemma read_tris_ok (m : mesh NumR) l : forall fs, length l = (3 * length fs)%nat -> Forall2 (face_is m) fs (triples l) ->
  exists ts, read_tris (positions m) l = Ok ts /\ Forall2 (face_tri m) fs ts.
Proof.
  assert (G : forall n l fs, length fs = n -> length l = (3 * n)%nat -> Forall2 (face_is m) fs (triples l) -> exists ts, read_tris (positions m) l = Ok ts /\ Forall2 (face_tri m) fs ts).
  { clear. induction n as [|n IH]; intros l fs Lf Ll F.
    - destruct fs; [|discriminate]. destruct l; [|discriminate]. exists []. split; [reflexivity|constructor].
    - destruct l as [|i [|j [|k l]]]; try (cbn in Ll; lia). destruct fs as [|f fs]; [discriminate|]. cbn [triples] in F. inversion F as [|? ? ? ? K F']; subst.
      destruct (IH l fs) as (ts & E & Q); [cbn in Lf; lia|cbn in Ll; lia|exact F'|]. destruct K as (a & b & c & Ha & Hb & Hc & T). cbn [read_tris]. unfold positions. rewrite !nth_error_map. rewrite Ha, Hb, Hc. cbn [option_map]. unfold positions in E. cbn [num NumR] in *. rewrite E.
      eexists. split; [reflexivity|]. constructor; [|exact Q]. exists a, b, c. auto. }
  intros fs L F. apply (G (length fs) l fs); auto.
Qed.
Lemma bvh_mesh_ok m : Valid m -> surface_faces m <> [] -> exists ts t, surface_of m ts /\ bvh_of_mesh m = Ok (mkBvh (Some t) ts) /\ boxed ts t /\ Permutation (leaves t) (seq 0 (length ts)).
Proof.
  intros V NE. destruct (indices_valid m V) as (l & E & L & F). destruct (read_tris_ok m l _ L F) as (ts & Er & Q).
  assert (Nt : ts <> []) by (intros ->; inversion Q; congruence). destruct (bvh_build trunc TR alg AL ts Nt) as (t & Eb & B & P). exists ts, t. split; [exact Q|]. split; [|split; assumption].
  unfold Bvh.bvh_of_mesh. rewrite (getVertices_ok m (valid_wf m V)), E. rewrite map_map, (map_ext _ (fun x => x) Nat2Z.id), map_id. unfold bvh_construct. cbn [num NumR] in *. rewrite Er. exact Eb.
Qed.
Lemma empty_surface m : Valid m -> surface_faces m = [] -> bvh_of_mesh m = Ok (mkBvh None []).
Proof.
  intros V NE. destruct (indices_valid m V) as (l & E & L & F). rewrite NE in L. destruct l; [|discriminate L].
  unfold Bvh.bvh_of_mesh. rewrite (getVertices_ok m (valid_wf m V)), E. reflexivity.
Qed.
Lemma nearest_unique ts q d d' : nearest ts q d -> nearest ts q d' -> d = d'.
Proof. intros ((t & I & ->) & H) ((t' & I' & ->) & H'). assert (A := H t' I'). assert (B := H' t I). lra. Qed.
Lemma bvh_distance_ok ts t q : boxed ts t -> Permutation (leaves t) (seq 0 (length ts)) ->
  (exists tr, In tr ts /\ edist q (tri_closest tr q) < 10 ^ 20) -> exists d, bvh_distance (mkBvh (Some t) ts) q = Ok d /\ nearest ts q d /\ 0 <= d.
Proof.
  intros B P (tr0 & I0 & C0). destruct (bvh_query ts t q B P) as (c & E & [(tr & I & -> & _ & M) | (_ & M)]); [|specialize (M tr0 I0); lra].
  exists (edist (tri_closest tr q) q). unfold bvh_distance. cbn [num NumR] in *. rewrite E. rewrite edist_len. split; [reflexivity|]. rewrite edist_sym. split; [|apply edist_pos]. split; [exists tr; auto|exact M].
Qed.
Lemma distances_ok ts t qs : boxed ts t -> Permutation (leaves t) (seq 0 (length ts)) ->
  (forall q, In q qs -> exists tr, In tr ts /\ edist q (tri_closest tr q) < 10 ^ 20) -> exists ds, distances (mkBvh (Some t) ts) qs = Ok ds /\ Forall2 (nearest ts) qs ds /\ Forall (fun d => 0 <= d) ds.
Proof.
  intros B P. induction qs as [|q qs IH]; intros C; [exists []; split; [reflexivity|split; constructor]|].
  destruct (IH (fun x X => C x (or_intror X))) as (ds & E & F & G). destruct (bvh_distance_ok ts t q B P (C q (or_introl eq_refl))) as (d & Ed & Nd & Pd).
  exists (d :: ds). cbn [distances]. cbn [num NumR] in *. rewrite Ed, E. split; [reflexivity|]. split; constructor; assumption.
Qed.
(** Per-vertex shortest distances: one entry per vertex, in order. *)
Lemma shortest_ok src dst : Valid src -> Valid dst -> surface_faces dst <> [] -> (forall ts, surface_of dst ts -> close_by src ts) ->
  exists ts ds, surface_of dst ts /\ shortest src dst = Ok ds /\ Forall2 (fun v d => nearest ts (v_pos src v) d) (m_verts src) ds /\ Forall (fun d => 0 <= d) ds.
Proof.
  intros Vs Vd NE C. destruct (bvh_mesh_ok dst Vd NE) as (ts & t & S & E & B & P). specialize (C ts S).
  destruct (distances_ok ts t (positions src) B P) as (ds & Ed & F & G).
  { intros q I. unfold positions in I. apply in_map_iff in I as (v & <- & Iv). exact (C v Iv). }
  exists ts, ds. split; [exact S|]. split; [|split; [|exact G]].
  - unfold Bvh.shortest_distances. cbn [num NumR] in *. rewrite E. rewrite (getVertices_ok src (valid_wf src Vs)). exact Ed.
  - clear - F. unfold positions in F. revert ds F. induction (m_verts src) as [|v vs IH]; intros ds F; inversion F; subst; constructor; auto.
Qed.
Lemma fold_max l : forall x, let y := fold_left (@nmax NumR) l x in x <= y /\ (forall z, In z l -> z <= y) /\ (y = x \/ In y l).
Proof.
  induction l as [|a l IH]; intros x; cbn [fold_left]; [split; [rl|]; split; [intros z []|left; reflexivity]|]. destruct (IH (@nmax NumR x a)) as (A & B & C). rewrite nmax_R in *.
  assert (M1 := Rmax_l x a). assert (M2 := Rmax_r x a). cbn [num NumR] in *. split; [rl|]. split.
  - intros z [-> | I]; [rl|apply B, I].
  - destruct C as [-> | I]; [|right; right; exact I]. unfold Rmax. destruct (Rle_dec x a); [right; left; reflexivity|left; reflexivity].
Qed.
Lemma max_ok (vs : list nat) (P : nat -> R -> Prop) ds : (forall v d d', P v d -> P v d' -> d = d') -> vs <> [] -> Forall2 P vs ds -> Forall (fun d => 0 <= d) ds ->
  exists r, @max_coeff NumR ds = Ok r /\ 0 <= r /\ (exists v, In v vs /\ P v r) /\ (forall v d, In v vs -> P v d -> d <= r).
Proof.
  intros U NE F G. destruct ds as [|x ds]; [inversion F; congruence|]. cbn [max_coeff]. eexists. split; [reflexivity|]. destruct (fold_max ds x) as (A & B & C). revert A B C. generalize (fold_left (@nmax NumR) ds x). intros r A B C. cbn [num NumR] in *.
  assert (Ir : In r (x :: ds)) by (destruct C as [-> | C]; [left; reflexivity|right; exact C]). assert (Ub : forall z, In z (x :: ds) -> z <= r) by (intros z [<- | I]; auto). 
  split; [rewrite Forall_forall in G; exact (G r Ir)|]. clear - F U Ir Ub. revert Ir Ub. generalize dependent (x :: ds). intros l F Ir Ub. split.
  - clear Ub. induction F as [|v d vs l Pv F IH]; [destruct Ir|]. destruct Ir as [-> | Ir]; [exists v; split; [left; reflexivity|exact Pv]|]. destruct (IH Ir) as (w & Iw & Pw). exists w. split; [right; exact Iw|exact Pw].
  - clear Ir. intros v d Iv Pd. apply Ub. clear Ub. induction F as [|w e vs l Pv F IH]; [destruct Iv|]. destruct Iv as [-> | Iv]; [left; apply (U v); assumption|right; apply IH, Iv].
Qed.
Theorem hausdorff_ok m0 m1 : Valid m0 -> Valid m1 -> surface_faces m0 <> [] -> surface_faces m1 <> [] ->
  (forall ts, surface_of m1 ts -> close_by m0 ts) -> (forall ts, surface_of m0 ts -> close_by m1 ts) ->
  exists ts0 ts1 r0 r1, surface_of m0 ts0 /\ surface_of m1 ts1 /\ farthest m0 ts1 r0 /\ farthest m1 ts0 r1 /\
    hausdorff m0 m1 = Ok (Rmax r0 r1) /\ hausdorff m1 m0 = Ok (Rmax r0 r1) /\ 0 <= Rmax r0 r1.
Proof.
  intros V0 V1 N0 N1 C0 C1.
  destruct (shortest_ok m0 m1 V0 V1 N1 C0) as (ts1 & d0 & S1 & E0 & F0 & G0). destruct (shortest_ok m1 m0 V1 V0 N0 C1) as (ts0 & d1 & S0 & E1 & F1 & G1).
  assert (NV : forall m : mesh NumR, Valid m -> surface_faces m <> [] -> m_verts m <> []).
  { intros m V NF X. destruct (surface_faces m) as [|f fs] eqn:Ef; [congruence|]. assert (If : In f (surface_faces m)) by (rewrite Ef; left; reflexivity). apply filter_In in If as [If _].
    destruct (wf_fhe m (valid_wf m V) f If) as (h & _ & Ih & _). destruct (wf_src m (valid_wf m V) h Ih) as (v & _ & Iv). rewrite X in Iv. exact Iv. }
  destruct (max_ok _ (fun v d => nearest ts1 (v_pos m0 v) d) d0 (fun v d d' => nearest_unique ts1 _ d d') (NV m0 V0 N0) F0 G0) as (r0 & M0 & P0 & A0).
  destruct (max_ok _ (fun v d => nearest ts0 (v_pos m1 v) d) d1 (fun v d d' => nearest_unique ts0 _ d d') (NV m1 V1 N1) F1 G1) as (r1 & M1 & P1 & A1).
  exists ts0, ts1, r0, r1. split; [exact S0|]. split; [exact S1|]. split; [exact A0|]. split; [exact A1|].
  assert (H0 : hausdorff m0 m1 = Ok (Rmax r0 r1)) by (unfold Bvh.hausdorff; cbn [num NumR] in *; rewrite E0, E1, M0, M1, nmax_R; reflexivity).
  assert (H1 : hausdorff m1 m0 = Ok (Rmax r0 r1)) by (unfold Bvh.hausdorff; cbn [num NumR] in *; rewrite E0, E1, M0, M1, nmax_R, Rmax_comm; reflexivity).
  split; [exact H0|]. split; [exact H1|]. assert (Q := Rmax_l r0 r1). lra.
Qed.
(** It never underestimates: every vertex of each mesh has a point of the other within the result. *)
Theorem nearest_point ts q r : nearest ts q r -> exists t x, In t ts /\ in_triangle t x /\ edist q x = r.
Proof. intros ((t & I & ->) & _). exists t, (tri_closest t q). split; [exact I|]. split; [apply tri_closest_in|reflexivity]. Qed.
(** The BVH of a mesh without surface has no root. *)
Theorem bvh_empty m q : Valid m -> surface_faces m = [] -> exists b, bvh_of_mesh m = Ok b /\ bvh_closest b q = UB NullDeref.
Proof. intros V E. exists (mkBvh None []). split; [apply empty_surface; assumption|reflexivity]. Qed.
End H.
