(** Areas of faces and vertices of a mesh over the real numbers. *)
From Coq Require Import Reals Lra Lia List ZArith Bool Arith Permutation.
From Verif Require Import Num NumInst Vec Heap Mesh Spec Orbit Rings Exec Diamond Bounds GeomSpec VecR Measure MeasureR.
Import ListNotations.
Local Open Scope mesh_scope.

Section Any.
Context {N : Num}.
Implicit Types m : mesh N.

Definition pos_at m (p : ptr) : vec N := match p with Some v => v_pos m v | None => vzero end.

Lemma pos_read m v : WF m -> In v (m_verts m) -> ve_pos (Some v) m = Ok (v_pos m v, m).
Proof. intros W H. exact (r_pos m v (v_alive m W _ H)). Qed.
Lemma f_positions_ok m f h l : WF m -> In f (m_faces m) -> f_he m f = Some h -> Fring m f (h :: l) ->
  f_positions (Some f) m = Ok (map (fun y => pos_at m (h_src m y)) (h :: l), m).
Proof.
  intros W Hf Eh Hr. unfold f_positions. rewrite (circ_f_ok m W f h l _ (fun a y => (a ++ [pos_at m (h_src m y)], false)) _ Hf Eh Hr).
  - rewrite bfold_collect; reflexivity.
  - intros y a Hi _. destruct (wf_src m W y Hi) as (s & Es & Is). rewrite (bind_ok _ _ _ _ _ (r_src m y (h_alive m W _ Hi))). rewrite Es.
    rewrite (bind_ok _ _ _ _ _ (pos_read m s W Is)). reflexivity.
Qed.
Lemma v_positions_ok m v h l : WF m -> In v (m_verts m) -> v_he m v = Some h -> Vring m v (h :: l) ->
  v_positions (Some v) m = Ok (map (fun y => pos_at m (dst_of m y)) (h :: l), m).
Proof.
  intros W Hf Eh Hr. unfold v_positions. rewrite (circ_v_ok m W v h l _ (fun a y => (a ++ [pos_at m (dst_of m y)], false)) _ Hf Eh Hr).
  - rewrite bfold_collect; reflexivity.
  - intros y a Hi _. destruct (wf_rev m W y Hi) as (r & Er & Ir). destruct (wf_src m W r Ir) as (s & Es & Is). assert (E : dst_of m y = Some s) by (unfold dst_of; rewrite Er; exact Es).
    rewrite (bind_ok _ _ _ _ _ (dst_of_ok m W y Hi)). rewrite E. rewrite (bind_ok _ _ _ _ _ (pos_read m s W Is)). reflexivity.
Qed.

(** The ring of a triangular face is one of its three rotations. *)
Lemma tri_ring m f x y z h l : Fring m f (h :: l) -> (forall k, In k (m_hes m) /\ h_face m k = Some f <-> k = x \/ k = y \/ k = z) ->
  h_next m x = Some y -> h_next m y = Some z -> h_next m z = Some x -> x <> y -> y <> z -> z <> x ->
  h :: l = [x; y; z] \/ h :: l = [y; z; x] \/ h :: l = [z; x; y].
Proof.
  intros (Hc & Hnd & Hin) Hf Ex Ey Ez Nxy Nyz Nzx.
  assert (G : forall a b c, h_next m a = Some b -> h_next m b = Some c -> h_next m c = Some a -> a <> b -> b <> c -> c <> a -> h = a -> h :: l = [a; b; c]).
  { clear - Hc Hnd. intros a b c Ea Eb Ec Nab Nbc Nca ->. cbn [cyc] in Hc.
    destruct l as [|a1 l]; [cbn [chainto] in Hc; congruence|]. destruct Hc as [H1 Hc]. assert (a1 = b) by congruence; subst a1.
    destruct l as [|b1 l]; [cbn [chainto] in Hc; congruence|]. destruct Hc as [H2 Hc]. assert (b1 = c) by congruence; subst b1.
    destruct l as [|c1 l]; [reflexivity|]. destruct Hc as [H3 Hc]. assert (c1 = a) by congruence; subst c1.
    exfalso. inversion Hnd as [|? ? Hno _]; subst. apply Hno. right; right; left; reflexivity. }
  assert (Hh : h = x \/ h = y \/ h = z) by (apply Hf, Hin; left; reflexivity).
  destruct Hh as [H | [H | H]]; [left|right; left|right; right]; apply G; auto.
Qed.
Lemma tri_face_ring m f a b c : WF m -> In f (m_faces m) -> Spec.Tri m f a b c -> a <> b -> b <> c -> c <> a ->
  exists h l, f_he m f = Some h /\ Fring m f (h :: l) /\ In a (m_verts m) /\ In b (m_verts m) /\ In c (m_verts m) /\
    (map (h_src m) (h :: l) = [Some a; Some b; Some c] \/ map (h_src m) (h :: l) = [Some b; Some c; Some a] \/ map (h_src m) (h :: l) = [Some c; Some a; Some b]).
Proof.
  intros W Hf (x & y & z & Hin & Ex & Ey & Ez & Sx & Sy & Sz) Nab Nbc Nca. destruct (fring m W f Hf) as (h & l & Eh & Hr). exists h, l.
  assert (Ix : In x (m_hes m)) by (apply Hin; tauto). assert (Iy : In y (m_hes m)) by (apply Hin; tauto). assert (Iz : In z (m_hes m)) by (apply Hin; tauto).
  split; [exact Eh|]. split; [exact Hr|]. split; [exact (src_in m W x a Ix Sx)|]. split; [exact (src_in m W y b Iy Sy)|]. split; [exact (src_in m W z c Iz Sz)|].
  destruct (tri_ring m f x y z h l Hr Hin Ex Ey Ez) as [E | [E | E]]; try congruence; rewrite E; cbn [map]; rewrite Sx, Sy, Sz; tauto.
Qed.

(** Positions of the corners of a triangular face, in the order of the circulation. *)
Lemma tri_positions m f a b c : WF m -> In f (m_faces m) -> Spec.Tri m f a b c -> a <> b -> b <> c -> c <> a ->
  exists p q r, f_positions (Some f) m = Ok ([p; q; r], m) /\
   (([p; q; r] = [v_pos m a; v_pos m b; v_pos m c]) \/ ([p; q; r] = [v_pos m b; v_pos m c; v_pos m a]) \/ ([p; q; r] = [v_pos m c; v_pos m a; v_pos m b])).
Proof.
  intros W Hf T Nab Nbc Nca. destruct (tri_face_ring m f a b c W Hf T Nab Nbc Nca) as (h & l & Eh & Hr & Ia & Ib & Ic & E).
  assert (F := f_positions_ok m f h l W Hf Eh Hr). rewrite <- (map_map (h_src m) (pos_at m)) in F.
  destruct E as [E | [E | E]]; rewrite E in F; cbn [map pos_at] in F; do 3 eexists; (split; [exact F|tauto]).
Qed.

(** volonoiArea(f) of the three corners of a triangular face. *)
Lemma volonoiIn_ok m f a b c : WF m -> In f (m_faces m) -> Spec.Tri m f a b c -> a <> b -> b <> c -> c <> a ->
  v_volonoiIn (Some a) (Some f) m = Ok (Measure.corner_area (v_pos m a) (v_pos m b) (v_pos m c), m).
Proof.
  intros W Hf T Nab Nbc Nca. destruct (tri_face_ring m f a b c W Hf T Nab Nbc Nca) as (h & l & Eh & Hr & Ia & Ib & Ic & E).
  unfold v_volonoiIn. rewrite (bind_ok _ _ _ _ _ (f_vertices_ok m W f h l Hf Eh Hr)).
  assert (Eaa : ptr_eqb (Some a) (Some a) = true) by (cbn; apply Nat.eqb_refl).
  assert (Eba : ptr_eqb (Some b) (Some a) = false) by (cbn; apply Nat.eqb_neq; congruence).
  assert (Eca : ptr_eqb (Some c) (Some a) = false) by (cbn; apply Nat.eqb_neq; congruence).
  assert (Pa := pos_read m a W Ia). assert (Pb := pos_read m b W Ib). assert (Pc := pos_read m c W Ic).
  destruct E as [E | [E | E]]; rewrite E; unfold last_index; rewrite ?Eaa, ?Eba, ?Eca; cbn [length Nat.eqb assertion Nat.modulo Nat.divmod Nat.add nth fst snd Nat.sub]; rewrite bind_ret;
    rewrite (bind_ok _ _ _ _ _ Pa), (bind_ok _ _ _ _ _ Pb), (bind_ok _ _ _ _ _ Pc); reflexivity.
Qed.
End Any.

Local Open Scope R_scope.
Implicit Types m : mesh NumR.

(** ** Triangular faces *)
Lemma tri_rot {N : Num} (m : mesh N) f a b c : Spec.Tri m f a b c -> Spec.Tri m f b c a.
Proof.
  intros (x & y & z & Hin & Ex & Ey & Ez & Sx & Sy & Sz). exists y, z, x. split; [intros k; rewrite Hin; tauto|]. tauto.
Qed.
Lemma cget3 (p q r : vecR) : cget [p; q; r] 0 = p /\ cget [p; q; r] 1 = q /\ cget [p; q; r] 2 = r.
Proof. repeat split. Qed.
Lemma poly_area3 (p q r : vecR) : poly_area [p; q; r] = tri_area p q r.
Proof.
  unfold poly_area. cbn [length Nat.sub seq fold_left]. cbn [cget Nat.modulo Nat.divmod length fst snd Nat.sub Nat.add nth]. rn.
  transitivity (tri_area q p r); [unfold tri_area; ring|]. rewrite <- (area_rot p q r). apply area_swap.
Qed.
Lemma f_area_ok m f a b c : WF m -> In f (m_faces m) -> Spec.Tri m f a b c -> a <> b -> b <> c -> c <> a ->
  f_area (Some f) m = Ok (tri_area (v_pos m a) (v_pos m b) (v_pos m c), m).
Proof.
  intros W Hf T Nab Nbc Nca. destruct (tri_positions m f a b c W Hf T Nab Nbc Nca) as (p & q & r & E & D). unfold f_area. rewrite (bind_ok _ _ _ _ _ E). unfold ret. rewrite poly_area3.
  do 2 f_equal. destruct D as [D | [D | D]]; injection D as -> -> ->; [reflexivity|apply area_rot|rewrite <- (area_rot (v_pos m c)); reflexivity].
Qed.
Lemma poly_normal3 (p q r : vecR) : poly_normal [p; q; r] = vscale 3 (cross (vsub q p) (vsub r p)).
Proof.
  unfold poly_normal. cbn [length seq fold_left]. cbn [cget Nat.modulo Nat.divmod length fst snd Nat.sub Nat.add nth]. vring.
Qed.
Lemma f_normal_ok m f a b c : WF m -> In f (m_faces m) -> Spec.Tri m f a b c -> a <> b -> b <> c -> c <> a ->
  0 < tri_area (v_pos m a) (v_pos m b) (v_pos m c) ->
  exists n, f_normal (Some f) m = Ok (n, m) /\ vlength n = 1 /\
    n = vscale (/ (2 * tri_area (v_pos m a) (v_pos m b) (v_pos m c))) (cross (vsub (v_pos m b) (v_pos m a)) (vsub (v_pos m c) (v_pos m a))).
Proof.
  intros W Hf T Nab Nbc Nca P. destruct (tri_positions m f a b c W Hf T Nab Nbc Nca) as (p & q & r & E & D). unfold f_normal. rewrite (bind_ok _ _ _ _ _ E). rewrite poly_normal3.
  assert (C : cross (vsub q p) (vsub r p) = cross (vsub (v_pos m b) (v_pos m a)) (vsub (v_pos m c) (v_pos m a))) by (destruct D as [D | [D | D]]; injection D as -> -> ->; vring).
  rewrite C. unfold tri_area in *. set (w := cross (vsub (v_pos m b) (v_pos m a)) (vsub (v_pos m c) (v_pos m a))) in *.
  assert (L : 0 < vlength w) by lra. assert (L3 : vlength (vscale 3 w) = 3 * vlength w) by (rewrite vlength_scale, Rabs_right; lra).
  unfold normalize. rewrite L3, vdiv_ok by lra. rewrite vscale_mul. replace (/ (3 * vlength w) * 3) with (/ vlength w) by (field; lra). cbn [lift].
  exists (vscale (/ vlength w) w). split; [reflexivity|]. split.
  - rewrite vlength_scale, Rabs_right; [rn; field; lra|]. apply Rle_ge, Rlt_le, Rinv_0_lt_compat, L.
  - f_equal. rn. field; lra.
Qed.
(** The guarded formula misses at most half of 1e-20. *)
Lemma corners_close (a b c : vecR) : 0 <= tri_area a b c - (corner_area a b c + corner_area b c a + corner_area c a b) <= / 10 ^ 20 / 2.
Proof.
  change (/ 10 ^ 20) with guard. assert (G := guard_pos). destruct (obtuse a b c) eqn:O.
  - rewrite (corners_obtuse a b c O). lra.
  - assert (E := corners_acute a b c O). assert (P := area_nonneg a b c). set (A := tri_area a b c) in *. set (S := corner_area a b c + corner_area b c a + corner_area c a b) in *. clearbody A S. set (g := guard) in *. clearbody g.
    assert (D : (A - S) * (2 * A + g) = A * g) by lra. assert (Q : 0 < 2 * A + g) by lra. split.
    + apply (Rmult_le_reg_r (2 * A + g)); [exact Q|]. nra.
    + apply (Rmult_le_reg_r (2 * A + g)); [exact Q|]. nra.
Qed.

Lemma volonoi_face m f a b c : WF m -> In f (m_faces m) -> Spec.Tri m f a b c -> a <> b -> b <> c -> c <> a ->
  exists A Aa Ab Ac, f_area (Some f) m = Ok (A, m) /\ A = tri_area (v_pos m a) (v_pos m b) (v_pos m c) /\
    v_volonoiIn (Some a) (Some f) m = Ok (Aa, m) /\ v_volonoiIn (Some b) (Some f) m = Ok (Ab, m) /\ v_volonoiIn (Some c) (Some f) m = Ok (Ac, m) /\
    0 <= A - (Aa + Ab + Ac) <= / 10 ^ 20 / 2 /\ (obtuse (v_pos m a) (v_pos m b) (v_pos m c) = true -> Aa + Ab + Ac = A).
Proof.
  intros W Hf T Nab Nbc Nca. do 4 eexists. split; [exact (f_area_ok m f a b c W Hf T Nab Nbc Nca)|]. split; [reflexivity|].
  split; [exact (volonoiIn_ok m f a b c W Hf T Nab Nbc Nca)|]. split; [exact (volonoiIn_ok m f b c a W Hf (tri_rot _ _ _ _ _ T) Nbc Nca Nab)|].
  split; [exact (volonoiIn_ok m f c a b W Hf (tri_rot _ _ _ _ _ (tri_rot _ _ _ _ _ T)) Nca Nab Nbc)|]. split; [apply corners_close|apply corners_obtuse].
Qed.

(** ** Sums *)
Definition rsum (l : list R) : R := fold_right Rplus 0 l.
Lemma rsum_cons x l : rsum (x :: l) = x + rsum l. Proof. reflexivity. Qed.
Lemma rsum_perm l l' : Permutation l l' -> rsum l = rsum l'.
Proof. induction 1; unfold rsum in *; cbn [fold_right]; lra. Qed.
Lemma rsum_app l l' : rsum (l ++ l') = rsum l + rsum l'.
Proof. induction l; unfold rsum in *; cbn [fold_right app]; lra. Qed.
Lemma fold_sum {A} (F : A -> R) l : forall a : R, fold_left (fun s i => @nadd NumR s (F i)) l a = a + rsum (map F l).
Proof. induction l as [|x l IH]; intros a; cbn [fold_left map rsum fold_right]; [rg|]. rewrite IH. rn. unfold rsum. ring. Qed.
Lemma rsum_ext {A} (F G : A -> R) l : (forall x, In x l -> F x = G x) -> rsum (map F l) = rsum (map G l).
Proof. induction l as [|x l IH]; intros H; cbn; [reflexivity|]. rewrite (H x (or_introl eq_refl)). f_equal. apply IH. intros y Y. apply H. right. exact Y. Qed.
Lemma rsum_plus {A} (F G : A -> R) l : rsum (map (fun x => F x + G x) l) = rsum (map F l) + rsum (map G l).
Proof. induction l as [|x l IH]; cbn; [ring|]. fold (rsum (map (fun x => F x + G x) l)). unfold rsum in *. rewrite IH. ring. Qed.
Lemma sum_close (F G : nat -> R) (g : R) l : (forall x, In x l -> 0 <= F x - G x <= g) -> 0 <= rsum (map F l) - rsum (map G l) <= INR (length l) * g.
Proof.
  intros Each. induction l as [|f fs IH]; [cbn; lra|]. rewrite !map_cons, !rsum_cons. cbn [length]. rewrite S_INR.
  assert (E1 := Each f (or_introl eq_refl)). assert (E2 := IH (fun k K => Each k (or_intror K))). rewrite Rmult_plus_distr_r, Rmult_1_l. lra.
Qed.
(** Summing class by class. *)
Lemma rsum_key (g : nat -> R) (key : nat -> ptr) vs : NoDup vs -> forall hs, (forall h, In h hs -> exists v, key h = Some v /\ In v vs) ->
  rsum (map (fun v => rsum (map g (filter (fun h => ptr_eqb (key h) (Some v)) hs))) vs) = rsum (map g hs).
Proof.
  intros NV. induction hs as [|h hs IH]; intros K.
  - cbn. clear. induction vs as [|v vs IH]; cbn; [reflexivity|]. unfold rsum in IH. rewrite IH. lra.
  - cbn [map rsum fold_right]. fold (rsum (map g hs)). rewrite <- IH by (intros x X; apply K; right; exact X). destruct (K h (or_introl eq_refl)) as (w & Ew & Iw).
    assert (S : rsum (map (fun v => if ptr_eqb (key h) (Some v) then g h else 0) vs) = g h).
    { clear - NV Iw Ew. rewrite Ew. cbn [ptr_eqb]. induction NV as [|v vs Nv NV IHv]; [destruct Iw|]. cbn [map rsum fold_right]. fold (rsum (map (fun v => if Nat.eqb w v then g h else 0) vs)).
      destruct Iw as [-> | Iw].
      - rewrite Nat.eqb_refl. rewrite (rsum_ext _ (fun _ => 0)); [|intros x X; destruct (Nat.eqb_spec w x); [subst; contradiction|reflexivity]]. 
        assert (Zs : rsum (map (fun _ : nat => 0) vs) = 0) by (clear; induction vs as [|? ? IH]; cbn; [reflexivity|]; unfold rsum in IH; rewrite IH; lra). rewrite Zs. lra.
      - destruct (Nat.eqb_spec w v); [subst; contradiction|]. rewrite IHv by exact Iw. lra. }
    rewrite <- S at 1. rewrite <- rsum_plus. apply rsum_ext. intros v _. cbn [filter]. destruct (ptr_eqb (key h) (Some v)); cbn [map rsum fold_right]; unfold rsum; lra.
Qed.

Lemma chainto_nth f x l z : chainto f x l z -> forall i, (i <= length l)%nat -> f (nth i (x :: l) 0%nat) = Some (nth i (l ++ [z]) 0%nat).
Proof.
  revert x. induction l as [|y l IH]; intros x H i Hi.
  - cbn [chainto length] in *. assert (i = 0%nat) by lia. subst. exact H.
  - destruct H as [H1 H2]. destruct i as [|i]; [exact H1|]. cbn [nth app length] in *. apply (IH y H2 i). lia.
Qed.
Lemma cyc_nth f l : cyc f l -> forall i, (i < length l)%nat -> f (nth i l 0%nat) = Some (nth (Nat.modulo (i + 1) (length l)) l 0%nat).
Proof.
  destruct l as [|x l]; [intros []|]. intros H i Hi. cbn [cyc] in H. rewrite (chainto_nth f x l x H i) by (cbn in Hi; lia). f_equal. cbn [length] in *.
  destruct (Nat.eq_dec i (length l)) as [-> | Ne].
  - rewrite Nat.add_1_r, Nat.mod_same by lia. rewrite app_nth2, Nat.sub_diag by lia. reflexivity.
  - rewrite Nat.mod_small by lia. rewrite app_nth1 by lia. rewrite Nat.add_1_r. reflexivity.
Qed.
Lemma map_seq_nth {A} (G : nat -> A) l : map (fun i => G (nth i l 0%nat)) (seq 0 (length l)) = map G l.
Proof.
  rewrite <- (map_map (fun i => nth i l 0%nat) G). f_equal. induction l as [|x l IH]; [reflexivity|]. cbn [length seq map nth]. f_equal. rewrite <- seq_shift, map_map. exact IH.
Qed.

(** ** Area of a vertex as a sum over its half-edges *)
Definition rot_of m (h : nat) : nat := match rot m h with Some k => k | None => 0%nat end.
Definition hcorner m (h : nat) : R := corner_area (pos_at m (h_src m h)) (pos_at m (dst_of m h)) (pos_at m (dst_of m (rot_of m h))).
Lemma volonoi_sum m v : WF m -> In v (m_verts m) ->
  v_volonoi (Some v) m = Ok (rsum (map (hcorner m) (filter (fun h => ptr_eqb (h_src m h) (Some v)) (m_hes m))), m).
Proof.
  intros W Hv. destruct (vring m W v Hv) as (h & l & Eh & Hr). unfold v_volonoi. rewrite (bind_ok _ _ _ _ _ (v_positions_ok m v h l W Hv Eh Hr)).
  rewrite (bind_ok _ _ _ _ _ (pos_read m v W Hv)). unfold ret. do 2 f_equal. destruct Hr as (Hc & Hnd & Hin). clear Eh. revert Hc Hnd Hin. generalize (h :: l). clear h l. intros l Hc Hnd Hin.
  unfold ring_area. rewrite fold_sum. rewrite map_length. cbn [nzero NumR]. rewrite Rplus_0_l.
  transitivity (rsum (map (hcorner m) l)).
  - rewrite <- (map_seq_nth (hcorner m) l). apply rsum_ext. intros i Hi. apply in_seq in Hi. destruct Hi as [_ Hi]. cbn [Nat.add] in Hi.
    assert (Hn := cyc_nth _ l Hc i Hi). unfold hcorner. assert (Ii : In (nth i l 0%nat) l) by (apply nth_In; exact Hi). apply Hin in Ii. destruct Ii as [Ii Si]. rewrite Si. cbn [pos_at].
    unfold rot_of. rewrite Hn. unfold cget. rewrite map_length. rewrite (Nat.mod_small i) by exact Hi.
    set (G := fun y => pos_at m (dst_of m y)). assert (Nth : forall k, (k < length l)%nat -> nth k (map G l) vzero = G (nth k l 0%nat)).
    { intros k Hk. rewrite (nth_indep (map G l) vzero (G 0%nat)) by (rewrite map_length; exact Hk). apply map_nth. }
    rewrite !Nth; [reflexivity|apply Nat.mod_upper_bound; lia|exact Hi].
  - apply rsum_perm, Permutation_map. apply NoDup_Permutation; [exact Hnd|apply NoDup_filter, (wf_h_nodup m W)|]. intros y. rewrite Hin, filter_In. 
    split; intros [A B]; (split; [exact A|]).
    + rewrite B. cbn. apply Nat.eqb_refl.
    + destruct (h_src m y) as [s|]; [|discriminate]. cbn in B. apply Nat.eqb_eq in B. congruence.
Qed.

(** ... and of a face as a sum over its half-edges. *)
Definition next_of m (h : nat) : nat := match h_next m h with Some k => k | None => 0%nat end.
Definition prev_src m (h : nat) : ptr := h_src m (next_of m (next_of m h)).
Definition fcorner m (h : nat) : R := corner_area (pos_at m (h_src m h)) (pos_at m (prev_src m h)) (pos_at m (dst_of m h)).
Definition Closed {N : Num} (m : mesh N) : Prop := forall h, In h (m_hes m) -> h_bd m h = false.
Lemma closed_next3 m h : Valid m -> Closed m -> In h (m_hes m) -> exists y z, h_next m h = Some y /\ h_next m y = Some z /\ h_next m z = Some h /\ In y (m_hes m) /\ In z (m_hes m).
Proof.
  intros V C Hh. assert (W := valid_wf m V). destruct (piter3 _ _ (valid_tri m V h Hh (C h Hh))) as (y & z & E1 & E2 & E3). exists y, z.
  assert (Iy := next_in m W h y Hh E1). assert (Iz := next_in m W y z Iy E2). tauto.
Qed.
Lemma hcorner_rot m h : Valid m -> Closed m -> In h (m_hes m) -> hcorner m h = fcorner m (rot_of m h).
Proof.
  intros V C Hh. assert (W := valid_wf m V). destruct (rot_some m W h Hh) as (r & n & Er & En & E & Ir & In_). unfold hcorner, fcorner, rot_of. rewrite E.
  rewrite (rot_src m W h n Hh E). f_equal. f_equal. unfold dst_of. rewrite Er. unfold prev_src, next_of. 
  destruct (closed_next3 m r V C Ir) as (y & z & E1 & E2 & E3 & _). assert (y = n) by congruence. subst y. rewrite E2, E3. reflexivity.
Qed.
Lemma rot_perm m : WF m -> Permutation (map (rot_of m) (m_hes m)) (m_hes m).
Proof.
  intros W. assert (NH := wf_h_nodup m W). apply NoDup_Permutation_bis.
  - apply (NoDup_nth _ 0%nat). intros i j Hi Hj E. rewrite map_length in Hi, Hj. rewrite !(nth_indep (map (rot_of m) (m_hes m)) 0%nat (rot_of m 0%nat)) in E by (rewrite map_length; assumption). rewrite !map_nth in E.
    assert (Ii := nth_In (m_hes m) 0%nat Hi). assert (Ij := nth_In (m_hes m) 0%nat Hj).
    destruct (rot_some m W _ Ii) as (r & n & _ & _ & E1 & _). destruct (rot_some m W _ Ij) as (r' & n' & _ & _ & E2 & _). unfold rot_of in E. rewrite E1, E2 in E. subst n'.
    apply (proj1 (NoDup_nth (m_hes m) 0%nat) NH i j Hi Hj). eapply (rot_inj m W); eassumption.
  - rewrite map_length. lia.
  - intros k Hk. apply in_map_iff in Hk. destruct Hk as (h & <- & Hh). destruct (rot_some m W h Hh) as (r & n & _ & _ & E & _ & In_). unfold rot_of. rewrite E. exact In_.
Qed.
Lemma valid_face_tri m f : Valid m -> Closed m -> In f (m_faces m) ->
  exists x y z a b c, Fring m f [x; y; z] /\ Spec.Tri m f a b c /\ a <> b /\ b <> c /\ c <> a /\
    h_src m x = Some a /\ h_src m y = Some b /\ h_src m z = Some c /\ h_next m x = Some y /\ h_next m y = Some z /\ h_next m z = Some x /\ In x (m_hes m) /\ In y (m_hes m) /\ In z (m_hes m).
Proof.
  intros V C Hf. assert (W := valid_wf m V). assert (NL := valid_noloops m V). destruct (wf_fhe m W f Hf) as (x & _ & Ix & Fx). destruct (closed_next3 m x V C Ix) as (y & z & Ex & Ey & Ez & Iy & Iz).
  destruct (wf_src m W x Ix) as (a & Sx & Ia). destruct (wf_src m W y Iy) as (b & Sy & Ib). destruct (wf_src m W z Iz) as (c & Sz & Ic).
  assert (Nab := noloop_next m x a b y W NL Ix Ex Sx Sy). assert (Nbc := noloop_next m y b c z W NL Iy Ey Sy Sz). assert (Nca := noloop_next m z c a x W NL Iz Ez Sz Sx).
  assert (Fy : h_face m y = Some f) by (rewrite (wf_face_next m W x y Ix Ex); exact Fx). assert (Fz : h_face m z = Some f) by (rewrite (wf_face_next m W y z Iy Ey); exact Fy).
  assert (Nxy : x <> y) by congruence. assert (Nyz : y <> z) by congruence. assert (Nzx : z <> x) by congruence.
  destruct (fring_at m W x f Ix Fx) as (l & Hc & Hnd & Hin).
  assert (L : x :: l = [x; y; z]).
  { clear - Hc Hnd Ex Ey Ez Nxy Nyz Nzx. cbn [cyc] in Hc.
    destruct l as [|a1 l]; [cbn [chainto] in Hc; congruence|]. destruct Hc as [H1 Hc]. assert (a1 = y) by congruence; subst a1.
    destruct l as [|b1 l]; [cbn [chainto] in Hc; congruence|]. destruct Hc as [H2 Hc]. assert (b1 = z) by congruence; subst b1.
    destruct l as [|c1 l]; [reflexivity|]. destruct Hc as [H3 Hc]. assert (c1 = x) by congruence; subst c1.
    exfalso. inversion Hnd as [|? ? Hno _]; subst. apply Hno. right; right; left; reflexivity. }
  exists x, y, z, a, b, c. rewrite L in *. split; [split; [exact Hc|split; [exact Hnd|exact Hin]]|]. split; [|tauto]. exists x, y, z. split; [|tauto]. intros k. rewrite <- Hin. cbn [In]. split; intros; intuition.
Qed.

(** On a closed mesh the areas of the vertices add up to the areas of the faces. *)
Theorem volonoi_partition m : Valid m -> Closed m -> exists A F : nat -> R,
  (forall v, In v (m_verts m) -> v_volonoi (Some v) m = Ok (A v, m)) /\
  (forall f, In f (m_faces m) -> f_area (Some f) m = Ok (F f, m)) /\
  0 <= rsum (map F (m_faces m)) - rsum (map A (m_verts m)) <= INR (length (m_faces m)) * (/ 10 ^ 20 / 2).
Proof.
  intros V C. assert (W := valid_wf m V).
  exists (fun v => rsum (map (hcorner m) (filter (fun h => ptr_eqb (h_src m h) (Some v)) (m_hes m)))).
  exists (fun f => match f_area (Some f) m with Ok (x, _) => x | _ => 0 end).
  split; [intros v Hv; apply volonoi_sum; assumption|]. split.
  { intros f Hf. destruct (valid_face_tri m f V C Hf) as (x & y & z & a & b & c & _ & T & Nab & Nbc & Nca & _). rewrite (f_area_ok m f a b c W Hf T Nab Nbc Nca). reflexivity. }
  rewrite (rsum_key (hcorner m) (h_src m) (m_verts m) (wf_v_nodup m W) (m_hes m) (wf_src m W)).
  rewrite (rsum_ext (hcorner m) (fun h => fcorner m (rot_of m h))) by (intros h Hh; apply hcorner_rot; assumption).
  rewrite <- (map_map (rot_of m) (fcorner m)). rewrite (rsum_perm _ _ (Permutation_map (fcorner m) (rot_perm m W))).
  rewrite <- (rsum_key (fcorner m) (h_face m) (m_faces m) (wf_f_nodup m W) (m_hes m) (wf_face m W)).
  assert (Each : forall f, In f (m_faces m) -> 0 <= (match f_area (Some f) m with Ok (x, _) => x | _ => 0 end) - rsum (map (fcorner m) (filter (fun h => ptr_eqb (h_face m h) (Some f)) (m_hes m))) <= / 10 ^ 20 / 2).
  { intros f Hf. destruct (valid_face_tri m f V C Hf) as (x & y & z & a & b & c & (Hc & Hnd & Hin) & T & Nab & Nbc & Nca & Sx & Sy & Sz & Ex & Ey & Ez & Ix & Iy & Iz).
    rewrite (f_area_ok m f a b c W Hf T Nab Nbc Nca).
    assert (P : Permutation (filter (fun h => ptr_eqb (h_face m h) (Some f)) (m_hes m)) [x; y; z]).
    { apply NoDup_Permutation; [apply NoDup_filter, (wf_h_nodup m W)|exact Hnd|]. intros k. rewrite Hin, filter_In. split; intros [A B]; (split; [exact A|]).
      - destruct (h_face m k) as [s|]; [|discriminate]. cbn in B. apply Nat.eqb_eq in B. congruence.
      - rewrite B. cbn. apply Nat.eqb_refl. }
    rewrite (rsum_perm _ _ (Permutation_map (fcorner m) P)). cbn [map rsum fold_right]. unfold fcorner, prev_src, next_of. rewrite ?Ex, ?Ey, ?Ez, ?Ex, ?Ey.
    rewrite (dst_next m x y W Ix Ex), (dst_next m y z W Iy Ey), (dst_next m z x W Iz Ez), Sx, Sy, Sz. cbn [pos_at].
    rewrite (corner_flip (v_pos m a)), (corner_flip (v_pos m b)), (corner_flip (v_pos m c)). assert (Q := corners_close (v_pos m a) (v_pos m b) (v_pos m c)). lra. }
  exact (sum_close _ _ _ (m_faces m) Each).
Qed.
