(** A tetrahedron with real coordinates: meets the hypotheses of the geometric properties. *)
From Coq Require Import Reals Lra Lia List ZArith Bool Arith Permutation.
From Verif Require Import Built Built Num NumInst Vec Heap Mesh Construct Spec BuildSpec BuildProps Rings Witness Examples Bounds GeomSpec VecR BoundsR Bvh BvhSpec Measure MeasureR MeasureM Indices Hausdorff.
Import ListNotations.

(** Positions that are first used in their own order weld to themselves. *)
Lemma Welded_id {N : Num} (ps : list (vec N)) ix : NoNaN ps ix -> PosDistinct ps -> (forall i, In i ix -> i < length ps) ->
  (forall j, j < length ps -> exists k, nth_error ix k = Some j /\ forall k' j', k' < k -> nth_error ix k' = Some j' -> j' < j) -> Welded ps ix ps ix.
Proof.
  intros NN D Rg F. constructor.
  - reflexivity.
  - intros k i j Hi Hj. assert (i = j) by congruence. subst j. assert (Ii := nth_error_In _ _ Hi). destruct (nth_error ps i) as [p|] eqn:E; [|apply nth_error_None in E; specialize (Rg i Ii); lia]. exists p, p. split; [reflexivity|]. split; [reflexivity|]. exact (NN i p Ii E).
  - intros i j u v Hi Hj E. exact (D i j u v Hi Hj E).
  - intros j u Hj. destruct (F j) as (k & Hk & L); [apply nth_error_Some; congruence|]. exists k, j. auto.
Qed.

Local Open Scope R_scope.
Definition tetraR : list vecR := [v3 0 0 0; v3 1 0 0; v3 0 1 0; v3 0 0 1].
Lemma tetraR_distinct : PosDistinct tetraR.
Proof.
  intros i j p q Hi Hj E. apply veqb_real in E. subst q.
  destruct i as [|[|[|[|i]]]]; cbn [tetraR nth_error] in Hi; [| | | |destruct i; discriminate Hi]; injection Hi as <-;
  destruct j as [|[|[|[|j]]]]; cbn [tetraR nth_error] in Hj; try reflexivity; try (destruct j; discriminate Hj); exfalso; injection Hj; unfold v3; rn; intros; lra.
Qed.
Lemma tetraR_mesh : exists m : mesh NumR, mesh_of tetraR ix_tetra = Ok m /\ SurfaceOf m (triples ix_tetra) /\ positions m = tetraR.
Proof.
  destruct (ex_tetra_welded (fun x => x) (fun x => x) (fun x _ => x)) as (D & ND & NE & _ & F).
  apply (accepts_manifold tetraR ix_tetra tetraR ix_tetra); [|exact D|exact ND|exact NE|exact F].
  apply Welded_id.
  - intros i p _ _. apply veqb_real. reflexivity.
  - exact tetraR_distinct.
  - apply rangeb_ok. reflexivity.
  - intros j Hj. cbn [tetraR length] in Hj. destruct j as [|[|[|[|j]]]]; [exists 0%nat|exists 1%nat|exists 2%nat|exists 4%nat|lia]; (split; [reflexivity|]); intros k' j' Lk Hk;
      destruct k' as [|[|[|[|k']]]]; try lia; cbn [ix_tetra nth_error] in Hk; injection Hk as <-; lia.
Qed.
Lemma tetraR_closed (m : mesh NumR) : SurfaceOf m (triples ix_tetra) -> Closed m.
Proof.
  intros S h Ih. assert (V := so_valid _ _ S). assert (W := valid_wf m V). destruct (wf_src m W h Ih) as (u & Su & Iu). destruct (wf_rev m W h Ih) as (r & Er & Ir). destruct (wf_src m W r Ir) as (v & Sv & Iv).
  destruct (In_nth_error _ _ Iu) as (a & Ha). destruct (In_nth_error _ _ Iv) as (b & Hb).
  assert (K : he_is m h a b) by (split; [exact Ih|]; exists u, v; repeat (split; [assumption|]); unfold dst_of; rewrite Er; exact Sv).
  destruct (h_bd m h) eqn:B; [|reflexivity]. exfalso. apply (so_flags _ _ S h a b K) in B. 
  assert (C : forallb (fun e => Built.memb (snd e, fst e) (edges (triples ix_tetra))) (edges (triples ix_tetra)) = true) by reflexivity. rewrite forallb_forall in C.
  destruct B as [[B1 B2] | [B1 B2]]; apply B2; apply Built.memb_in; exact (C _ B1).
Qed.
Lemma tetraR_all : exists m : mesh NumR, mesh_of tetraR ix_tetra = Ok m /\ Valid m /\ Closed m /\ positions m = tetraR /\ length (m_faces m) = 4%nat /\
  exists f a b c, In f (m_faces m) /\ Spec.Tri m f a b c /\ a <> b /\ b <> c /\ c <> a /\ v_pos m a = v3 0 0 0 /\ v_pos m b = v3 1 0 0 /\ v_pos m c = v3 0 1 0.
Proof.
  destruct tetraR_mesh as (m & E & S & P). exists m. split; [exact E|]. assert (V := so_valid _ _ S). assert (W := valid_wf m V). assert (C := tetraR_closed m S). split; [exact V|]. split; [exact C|]. split; [exact P|].
  destruct (so_tris _ _ S) as (holes & Ef & F & Hh).
  assert (Hn : holes = []). { destruct holes as [|f hs]; [reflexivity|]. exfalso. assert (If : In f (m_faces m)) by (rewrite Ef; apply in_or_app; right; left; reflexivity). destruct (wf_fhe m W f If) as (h & _ & Ih & Fh). destruct (Hh f h (or_introl eq_refl) Ih Fh) as [B _]. rewrite (C h Ih) in B. discriminate. }
  assert (L4 : length (m_faces m) = 4%nat). { rewrite Ef, Hn, app_nil_r. clear - F. remember (triples ix_tetra) as T eqn:ET. assert (length T = 4%nat) by (rewrite ET; reflexivity). rewrite <- H. clear ET H. revert F. generalize (firstn (length T) (m_faces m)). intros l F. induction F; cbn; auto. }
  split; [exact L4|]. cbn [triples ix_tetra] in F. destruct (m_faces m) as [|f fs] eqn:Em; [discriminate L4|]. cbn [length firstn triples ix_tetra] in F. inversion F as [|? ? ? ? K _]; subst. destruct K as (a & b & c & Ha & Hb & Hc & T).
  exists f, a, b, c. split; [left; reflexivity|]. split; [exact T|].
  assert (Q : forall i v, nth_error (m_verts m) i = Some v -> nth_error tetraR i = Some (v_pos m v)) by (intros i v Hv; rewrite <- P; unfold positions; rewrite nth_error_map, Hv; reflexivity).
  assert (Pa := Q _ _ Ha). assert (Pb := Q _ _ Hb). assert (Pc := Q _ _ Hc). cbn [tetraR nth_error] in Pa, Pb, Pc. injection Pa as Pa. injection Pb as Pb. injection Pc as Pc.
  assert (ND := wf_v_nodup m W). assert (Dif : forall i j x y, i <> j -> nth_error (m_verts m) i = Some x -> nth_error (m_verts m) j = Some y -> x <> y).
  { intros i j x y N Hx Hy ->. apply N. apply (proj1 (NoDup_nth_error (m_verts m)) ND); [apply nth_error_Some; congruence|congruence]. }
  split; [apply (Dif 0%nat 1%nat); auto|]. split; [apply (Dif 1%nat 2%nat); auto|]. split; [apply (Dif 2%nat 0%nat); auto|]. auto.
Qed.

(** Points with coordinates between 0 and 1 are less than 1e20 apart. *)
Definition unitbox (p : vecR) : Prop := 0 <= X p <= 1 /\ 0 <= Y p <= 1 /\ 0 <= Z_ p <= 1.
Lemma unit_close p q : unitbox p -> unitbox q -> edist p q < 10 ^ 20.
Proof.
  intros (A & B & C) (D & E & F). unfold edist. apply Rle_lt_trans with (sqrt (2 * 2)); [|rewrite sqrt_square by lra; lra]. apply sqrt_le_1_alt.
  assert (S : forall a b, 0 <= a <= 1 -> 0 <= b <= 1 -> (a - b) * (a - b) <= 1) by (intros; nra). assert (H1 := S _ _ A D). assert (H2 := S _ _ B E). assert (H3 := S _ _ C F). lra.
Qed.
Lemma unit_tri_in t x : unitbox (tp0 t) -> unitbox (tp1 t) -> unitbox (tp2 t) -> in_triangle t x -> unitbox x.
Proof.
  intros (A & B & C) (D & E & F) (G & H & I) (u & v & w & Hu & Hv & Hw & S & EX & EY & EZ). unfold unitbox. rewrite EX, EY, EZ.
  assert (K : forall a b c, 0 <= a <= 1 -> 0 <= b <= 1 -> 0 <= c <= 1 -> 0 <= u * a + v * b + w * c <= 1) by (intros; split; nra).
  split; [|split]; apply K; assumption.
Qed.
Lemma tetraR_close : exists m : mesh NumR, Valid m /\ surface_faces m <> [] /\ (forall ts, surface_of m ts -> close_by m ts) /\ length (m_faces m) = 4%nat.
Proof.
  destruct tetraR_all as (m & _ & V & C & P & L & _). exists m. split; [exact V|].
  assert (SF : surface_faces m <> []). { destruct (m_faces m) as [|f fs] eqn:E; [discriminate L|]. intros X. assert (I : In f (surface_faces m)); [|rewrite X in I; exact I]. apply filter_In. assert (If : In f (m_faces m)) by (rewrite E; left; reflexivity). split; [exact If|].
    apply negb_true_iff. destruct (hole m f) eqn:H; [|reflexivity]. exfalso. rewrite hole_spec in H. destruct (wf_fhe m (valid_wf m V) f If) as (h & _ & Ih & Fh). specialize (H h Ih Fh). rewrite (C h Ih) in H. discriminate. }
  split; [exact SF|]. split; [|exact L]. intros ts S v Iv.
  assert (U : forall x, In x (m_verts m) -> unitbox (v_pos m x)).
  { intros x Ix. assert (Ip : In (v_pos m x) (positions m)) by (apply in_map; exact Ix). rewrite P in Ip. unfold unitbox. destruct Ip as [<- | [<- | [<- | [<- | []]]]]; unfold X, Y, Z_, v3; rn; lra. }
  unfold surface_of in S. destruct S as [|f t fs ts K S]; [congruence|]. exists t. split; [left; reflexivity|]. destruct K as (a & b & c & T & ->). 
  destruct T as (x & y & z & Hx & _ & _ & _ & Sx & Sy & Sz). assert (W := valid_wf m V).
  apply unit_close; [apply U, Iv|]. apply (unit_tri_in (Bounds.Tri (v_pos m a) (v_pos m b) (v_pos m c))); cbn [tp0 tp1 tp2]; [apply U, (src_in m W x); [apply Hx; auto|exact Sx]|apply U, (src_in m W y); [apply Hx; auto|exact Sy]|apply U, (src_in m W z); [apply Hx; auto|exact Sz]|apply tri_closest_in].
Qed.

(** static_cast<int>, nth_element and partition as the theorems assume them exist. *)
Lemma trunc_exists : truncates (fun x => (up x - 1)%Z).
Proof. intros x _. rewrite minus_IZR. destruct (archimed x) as [A B]. lra. Qed.
Lemma algos_exist : algos_ok (mkAlgos (fun A lt k l => l) (fun A f l => (filter f l, filter (fun x => negb (f x)) l))).
Proof.
  constructor; cbn [a_nth a_part fst snd].
  - intros. apply Permutation_refl.
  - intros A f l. induction l as [|x l IH]; [constructor|]. cbn [filter]. destruct (f x); cbn [negb app]; [constructor; exact IH|]. apply Permutation_cons_app. exact IH.
  - intros A f l x I. apply filter_In in I. tauto.
  - intros A f l x I. apply filter_In in I as [_ I]. apply negb_true_iff. exact I.
Qed.
Lemma unit_area : tri_area (v3 0 0 0) (v3 1 0 0) (v3 0 1 0) = / 2 /\ nrm (v3 0 0 0) (v3 1 0 0) (v3 0 1 0) <> vzero.
Proof.
  assert (E : nrm (v3 0 0 0) (v3 1 0 0) (v3 0 1 0) = v3 0 0 1) by (unfold nrm, v3; vring). split.
  - unfold tri_area. fold (nrm (v3 0 0 0) (v3 1 0 0) (v3 0 1 0)). rewrite E. unfold Vec.vlength. rewrite dot_eq. unfold v3. rn. replace (0 * 0 + 0 * 0 + 1 * 1) with 1 by ring. rewrite sqrt_1. lra.
  - rewrite E. unfold v3, vzero, vfill. intros X. injection X. rn. lra.
Qed.
