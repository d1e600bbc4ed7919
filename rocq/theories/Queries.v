(** Circulation, numEdges, getMeanEdgeLength and verify on valid meshes. *)
From Coq Require Import List ZArith Arith Lia Bool Permutation.
From Verif Require Import Num Vec Heap Mesh Spec Orbit Rings Exec Diamond.
From Verif Require EditFx.
Import ListNotations.
Local Open Scope mesh_scope.

Section Queries.
Context {N : Num}.
Implicit Types m : mesh N.

(** ** Vertices and faces *)
Theorem circulate_vertex m v : WF m -> In v (m_verts m) ->
  exists l, NoDup l /\ (forall h, In h l <-> In h (m_hes m) /\ h_src m h = Some v) /\ l <> [] /\
    v_halfedges (Some v) m = Ok (map Some l, m) /\
    v_neighbors (Some v) m = Ok (map (dst_of m) l, m) /\
    v_faces (Some v) m = Ok (map (h_face m) l, m) /\
    degree (Some v) m = Ok (Z.of_nat (length l), m) /\
    length l = deg_of m v /\
    v_isBoundary (Some v) m = Ok (existsb (h_bd m) l, m) /\
    (NoParallel m -> NoDup (map (dst_of m) l)).
Proof.
  intros W Hv. destruct (vring m W v Hv) as (h & l & Eh & Hr). exists (h :: l).
  destruct Hr as (Hc & Hnd & Hin). assert (Hr : Vring m v (h :: l)) by (split; [exact Hc|split; [exact Hnd|exact Hin]]).
  split; [exact Hnd|]. split; [exact Hin|]. split; [discriminate|].
  split; [exact (v_halfedges_ok m W v h l Hv Eh Hr)|].
  split; [exact (v_neighbors_ok m W v h l Hv Eh Hr)|].
  split; [exact (v_faces_ok m W v h l Hv Eh Hr)|].
  split; [exact (degree_ok m W v h l Hv Eh Hr)|].
  split; [exact (vring_deg _ _ _ W Hr)|].
  split; [exact (v_isBoundary_ok m W v h l Hv Eh Hr)|].
  intros NP. clear Hc Hr Eh. revert Hnd Hin. generalize (h :: l). intros L Hnd Hin.
  assert (HL : forall x y, In x L -> In y L -> dst_of m x = dst_of m y -> x = y).
  { intros x y Hx Hy E. apply Hin in Hx as [Hx1 Hx2]. apply Hin in Hy as [Hy1 Hy2]. apply NP; try assumption; congruence. }
  clear Hin. induction Hnd as [|x L Hx Hnd IH]; cbn [map]; constructor.
  - intros H. apply in_map_iff in H as (y & E & Hy). apply Hx. rewrite (HL x y); [exact Hy|left; reflexivity|right; exact Hy|congruence].
  - apply IH. intros; apply HL; try right; assumption.
Qed.

Theorem circulate_face m f : WF m -> In f (m_faces m) ->
  exists l, NoDup l /\ (forall h, In h l <-> In h (m_hes m) /\ h_face m h = Some f) /\ l <> [] /\
    f_halfedges (Some f) m = Ok (map Some l, m) /\
    f_vertices (Some f) m = Ok (map (h_src m) l, m) /\
    numCorners (Some f) m = Ok (Z.of_nat (length l), m) /\
    f_isBoundary (Some f) m = Ok (existsb (h_bd m) l, m) /\
    f_isHole (Some f) m = Ok (forallb (h_bd m) l, m) /\
    (TriFaces m -> forallb (h_bd m) l = false -> NoLoops m -> length l = 3).
Proof.
  intros W Hf. destruct (fring m W f Hf) as (h & l & Eh & Hr). exists (h :: l).
  destruct Hr as (Hc & Hnd & Hin). assert (Hr : Fring m f (h :: l)) by (split; [exact Hc|split; [exact Hnd|exact Hin]]).
  split; [exact Hnd|]. split; [exact Hin|]. split; [discriminate|].
  split; [exact (f_halfedges_ok m W f h l Hf Eh Hr)|].
  split; [exact (f_vertices_ok m W f h l Hf Eh Hr)|].
  split; [exact (numCorners_ok m W f h l Hf Eh Hr)|].
  split; [exact (f_isBoundary_ok m W f h l Hf Eh Hr)|].
  split; [exact (f_isHole_ok m W f h l Hf Eh Hr)|].
  intros TF Hb NL. 
  assert (exists x, In x (h :: l) /\ h_bd m x = false) as (x & Hx & Bx).
  { clear - Hb. induction (h :: l) as [|y L IH]; [discriminate|]. cbn [forallb] in Hb. destruct (h_bd m y) eqn:E.
    - destruct (IH Hb) as (x & ? & ?). exists x. split; [right|]; assumption.
    - exists y. split; [left; reflexivity|exact E]. }
  assert (Hx0 := Hx). apply Hin in Hx0 as [Ix Fx]. pose proof (TF x Ix Bx) as T.
  destruct (fring_at m W x f Ix Fx) as (l' & Hc' & Hnd' & Hin').
  assert (EL : length (h :: l) = length (x :: l')).
  { apply Permutation_length, NoDup_Permutation; [exact Hnd|exact Hnd'|]. intros y. rewrite Hin, Hin'. tauto. }
  rewrite EL. destruct (wf_next m W x Ix) as (y & Ey & Iy). destruct (wf_next m W y Iy) as (z & Ez & Iz).
  cbn [piter] in T. rewrite Ey, Ez in T. destruct (h_next m z) as [x'|] eqn:Ez'; [|discriminate]. injection T as ->.
  assert (Nxy : x <> y) by (intros E; subst y; apply (NL x Ix); rewrite (dst_next m x x W Ix Ey); reflexivity).
  assert (Nyz : y <> z) by (intros E; subst z; apply (NL y Iy); rewrite (dst_next m y y W Iy Ez); reflexivity).
  assert (Nzx : z <> x) by (intros E; subst z; apply (NL x Ix); rewrite (dst_next m x x W Ix Ez'); reflexivity).
  cbn [cyc] in Hc'. destruct l' as [|a l']; [cbn [chainto] in Hc'; congruence|]. destruct Hc' as [H1 Hc']. assert (a = y) by congruence; subst a.
  destruct l' as [|b l']; [cbn [chainto] in Hc'; congruence|]. destruct Hc' as [H2 Hc']. assert (b = z) by congruence; subst b.
  destruct l' as [|c l']; [reflexivity|]. destruct Hc' as [H3 Hc']. assert (c = x) by congruence; subst c.
  exfalso. inversion Hnd' as [|? ? Hno _]; subst. apply Hno. right; right; left; reflexivity.
Qed.

Theorem prev_inverse m h : WF m -> In h (m_hes m) ->
  (exists p, he_prev (Some h) m = Ok (Some p, m) /\ In p (m_hes m) /\ h_next m p = Some h) /\
  (exists n, h_next m h = Some n /\ he_prev (Some n) m = Ok (Some h, m)).
Proof.
  intros W Hh. split; [apply he_prev_ok; assumption|].
  destruct (wf_next m W h Hh) as (n & En & In_). exists n. split; [exact En|].
  destruct (he_prev_ok m W n In_) as (p & E & Ip & Np). assert (p = h) by (eapply (next_inj m W); eassumption). subst; exact E.
Qed.

(** ** Edges *)
Lemma pmem_in p l : pmem p l = true <-> In p l.
Proof.
  unfold pmem. rewrite existsb_exists. split.
  - intros (x & Hx & E). apply ptr_eqb_eq in E. subst; exact Hx.
  - intros H. exists p. split; [exact H|apply ptr_eqb_refl].
Qed.

Lemma edge_reps_ok m : WF m -> forall l seen, incl l (m_hes m) -> NoDup l -> NoDup seen -> incl seen (m_hes m) ->
  (forall h r, In h seen -> h_rev m h = Some r -> ~ In r seen) -> (forall h, In h l -> ~ In h seen) ->
  exists out, edge_reps l (map Some seen) m = Ok (map Some out, m) /\ NoDup out /\ incl out (m_hes m) /\
    incl seen out /\ (forall h r, In h out -> h_rev m h = Some r -> ~ In r out) /\
    (forall h r, In h l -> h_rev m h = Some r -> In h out \/ In r out).
Proof.
  intros W. induction l as [|a l IH]; intros seen Hl Hnl Hns Hs Hx Hd.
  - exists seen. cbn [edge_reps]. unfold ret. split; [reflexivity|]. split; [exact Hns|]. split; [exact Hs|]. split; [intros x; auto|]. split; [exact Hx|]. intros h r [].
  - cbn [edge_reps]. inversion Hnl as [|? ? Hna Hnl']; subst.
    assert (Ia : In a (m_hes m)) by (apply Hl; left; reflexivity).
    destruct (pmem (Some a) (map Some seen)) eqn:E1.
    { apply pmem_in, in_map_iff in E1 as (x & [= ->] & Hxx). destruct (Hd a); [left; reflexivity|exact Hxx]. }
    destruct (wf_rev m W a Ia) as (r & Er & Ir).
    rewrite (bind_ok _ _ _ _ _ (r_rev m a (h_alive m W _ Ia))), Er.
    destruct (pmem (Some r) (map Some seen)) eqn:E2.
    + apply pmem_in, in_map_iff in E2 as (x & [= ->] & Hxx).
      destruct (IH seen) as (out & E & O1 & O2 & O3 & O4 & O5); try assumption.
      { intros x Hx'; apply Hl; right; exact Hx'. } { intros x Hx'; apply Hd; right; exact Hx'. }
      exists out. split; [exact E|]. do 4 (split; [assumption|]). intros h r' [<-|Hh] Er'; [|eapply O5; eassumption].
      right. assert (r' = r) by congruence. subst. apply O3, Hxx.
    + assert (Hr : ~ In r seen). { intros H. assert (E : pmem (Some r) (map Some seen) = true) by (apply pmem_in, in_map, H). congruence. }
      change (Some a :: map Some seen) with (map Some (a :: seen)).
      destruct (IH (a :: seen)) as (out & E & O1 & O2 & O3 & O4 & O5); try assumption.
      { intros x Hx'; apply Hl; right; exact Hx'. }
      { constructor; [apply Hd; left; reflexivity|exact Hns]. }
      { intros x [<-|Hx']; [exact Ia|apply Hs, Hx']. }
      { intros h r' [<-|Hh] Er' [E'|Hr'].
        - subst r'. eapply (rev_neq m W); [exact Ia|exact Er'|reflexivity].
        - assert (r' = r) by congruence. subst. contradiction.
        - subst r'. apply Hr. pose proof (rev_rev m W _ _ (Hs _ Hh) Er'). assert (h = r) by congruence. subst; exact Hh.
        - exact (Hx h r' Hh Er' Hr'). }
      { intros h Hh [->|Hs']; [contradiction|]. apply (Hd h); [right; exact Hh|exact Hs']. }
      exists out. split; [exact E|]. split; [assumption|]. split; [assumption|]. split; [intros x Hx'; apply O3; right; exact Hx'|]. split; [assumption|].
      intros h r' [<-|Hh] Er'; [left; apply O3; left; reflexivity|eapply O5; eassumption].
Qed.

Lemma reps_of m : WF m -> exists reps, edge_reps (m_hes m) [] m = Ok (map Some (List.rev reps), m) /\ EdgeReps m reps.
Proof.
  intros W.
  destruct (edge_reps_ok m W (m_hes m) [] ltac:(intros ? H; exact H) (wf_h_nodup m W) (NoDup_nil _) ltac:(intros ? []) ltac:(intros ? ? []) ltac:(intros ? ? []))
    as (out & E & O1 & O2 & O3 & O4 & O5).
  exists (List.rev out). split; [rewrite rev_involutive; exact E|]. split; [apply NoDup_rev; exact O1|]. split; [intros h Hh; apply O2, in_rev, Hh|].
  intros h r Hh Er. rewrite <- !in_rev. split; [eapply O5; eassumption|]. intros [A B]. exact (O4 h r A Er B).
Qed.

Lemma reps_half m reps : WF m -> EdgeReps m reps -> length (m_hes m) = 2 * length reps.
Proof.
  intros W (Hnd & Hin & Hx).
  set (rv := fun h => match h_rev m h with Some r => r | None => h end).
  assert (Hrv : forall h, In h (m_hes m) -> h_rev m h = Some (rv h) /\ In (rv h) (m_hes m)).
  { intros h Hh. destruct (wf_rev m W h Hh) as (r & E & I). unfold rv. rewrite E. auto. }
  assert (P : Permutation (m_hes m) (reps ++ map rv reps)).
  { apply NoDup_Permutation; [apply (wf_h_nodup m W)| |].
    - apply EditFx.nodup_app; [exact Hnd| |].
      + clear Hx. induction Hnd as [|x l Hnx Hnd' IH]; cbn [map]; constructor.
        * intros H. apply in_map_iff in H as (y & E & Hy). apply Hnx.
          destruct (Hrv x) as [Rx _]; [apply Hin; left; reflexivity|]. destruct (Hrv y) as [Ry _]; [apply Hin; right; exact Hy|].
          assert (x = y) by (eapply (rev_inj m W); [apply Hin; left; reflexivity|apply Hin; right; exact Hy|exact Rx|rewrite Ry, E; reflexivity]).
          subst; exact Hy.
        * apply IH. intros h Hh; apply Hin; right; exact Hh.
      + intros x H1 H2. apply in_map_iff in H2 as (y & E & Hy). destruct (Hrv y (Hin y Hy)) as [Ry _].
        destruct (Hx y (rv y) (Hin y Hy) Ry) as [_ HH]. apply HH. split; [exact Hy|rewrite E; exact H1].
    - intros h. rewrite in_app_iff, in_map_iff. split.
      + intros Hh. destruct (Hrv h Hh) as [Rh Ih]. destruct (Hx h (rv h) Hh Rh) as [[A|A] _]; [left; exact A|right].
        exists (rv h). split; [|exact A]. destruct (Hrv (rv h) Ih) as [R2 _]. pose proof (rev_rev m W _ _ Hh Rh). congruence.
      + intros [H|(y & E & Hy)]; [apply Hin, H|]. subst h. apply Hrv, Hin, Hy. }
  apply Permutation_length in P. rewrite P, app_length, map_length. lia.
Qed.

Theorem numEdges_ok m : WF m -> exists n, numEdges m = Ok (n, m) /\ length (m_hes m) = 2 * n /\ Z.of_nat n = (Z.of_nat (length (m_hes m)) / 2)%Z.
Proof.
  intros W. destruct (reps_of m W) as (reps & E & R). exists (length reps). unfold numEdges. rewrite bind_get, (bind_ok _ _ _ _ _ E).
  split; [unfold ret; rewrite map_length, rev_length; reflexivity|]. rewrite (reps_half m reps W R). split; [reflexivity|].
  rewrite Nat2Z.inj_mul, Z.mul_comm, Z.div_mul by lia. reflexivity.
Qed.

Lemma he_length_ok m h : WF m -> In h (m_hes m) -> he_length (Some h) m = Ok (edge_length m h, m).
Proof.
  intros W Hh. unfold he_length, edge_length.
  destruct (wf_src m W h Hh) as (s & Es & Is). destruct (wf_rev m W h Hh) as (r & Er & Ir). destruct (wf_src m W r Ir) as (d & Ed & Id).
  rewrite (bind_ok _ _ _ _ _ (r_src m h (h_alive m W _ Hh))), (bind_ok _ _ _ _ _ (dst_of_ok m W h Hh)).
  unfold dst_of. rewrite Er, Es, Ed.
  rewrite (bind_ok _ _ _ _ _ (r_pos m s (v_alive m W _ Is))), (bind_ok _ _ _ _ _ (r_pos m d (v_alive m W _ Id))). reflexivity.
Qed.

Theorem meanEdgeLength_ok m : WF m -> exists reps, EdgeReps m reps /\
  getMeanEdgeLength m = Ok (ndiv (fold_left nadd (map (edge_length m) reps) nzero) (nofZ (Z.of_nat (length reps))), m).
Proof.
  intros W. destruct (reps_of m W) as (reps & E & R). exists reps. split; [exact R|]. unfold getMeanEdgeLength.
  rewrite bind_get, (bind_ok _ _ _ _ _ E), map_length, rev_length, <- map_rev, rev_involutive.
  destruct R as (_ & Hin & _).
  assert (X : forall acc, mfold (fun acc h => x <- he_length h ;; ret (nadd acc x)) acc (map Some reps) m = Ok (fold_left nadd (map (edge_length m) reps) acc, m)).
  { clear E. induction reps as [|h reps IH]; intros acc; [reflexivity|]. cbn [map mfold fold_left]. rewrite bind_assoc.
    rewrite (bind_ok _ _ _ _ _ (he_length_ok m h W (Hin h (or_introl eq_refl)))), bind_ret. apply IH. intros x Hx; apply Hin; right; exact Hx. }
  rewrite (bind_ok _ _ _ _ _ (X nzero)). reflexivity.
Qed.

(** ** verify *)
Lemma verifyVertex_ok m v : WF m -> In v (m_verts m) -> verifyVertex (Some v) m = Ok (vfinite (v_pos m v), m).
Proof.
  intros W Hv. destruct (vring m W v Hv) as (h & l & Eh & Hr). unfold verifyVertex. rewrite bind_get.
  assert (Lv := v_alive m W v Hv).
  rewrite (bind_ok _ _ _ _ _ (r_vidx m v Lv)), (bind_ok _ _ _ _ _ (r_pos m v Lv)).
  erewrite bind_ok; cycle 1.
  { apply (circ_v_ok m W v h l _ (fun ok y => (ok && ptr_eqb (h_src m y) (Some v), false)) true Hv Eh Hr).
    intros y a Hy Sy. cbv beta. rewrite (bind_ok _ _ _ _ _ (r_src m y (h_alive m W _ Hy))). reflexivity. }
  unfold ret. do 2 f_equal.
  assert (B : bfold (fun ok y => (ok && ptr_eqb (h_src m y) (Some v), false)) true (h :: l) = true).
  { destruct Hr as (_ & _ & Hin). assert (G : forall y, In y (h :: l) -> h_src m y = Some v) by (intros y Hy; apply Hin, Hy).
    clear - G. induction (h :: l) as [|y L IH]; [reflexivity|]. cbn [bfold fst snd]. rewrite (G y (or_introl eq_refl)), ptr_eqb_refl. cbn [andb].
    apply IH. intros z Hz; apply G; right; exact Hz. }
  rewrite B, andb_true_r. apply In_nth_error in Hv as (i & Hi). destruct (wf_v_elem m W _ _ Hi) as (_ & Ei & _).
  assert (i < length (m_verts m)) by (apply nth_error_Some; congruence).
  replace (Z.of_nat (length (m_verts m)) <=? v_idx m v)%Z with false; [reflexivity|]. symmetry. apply Z.leb_gt. rewrite Ei. clear - H. lia.
Qed.

Lemma verify_vertices_ok m : WF m -> forall l i, (forall k v, nth_error l k = Some v -> nth_error (m_verts m) (i + k) = Some v) ->
  verify_vertices i l m = Ok (forallb (fun v => vfinite (v_pos m v)) l, m).
Proof.
  intros W. induction l as [|a l IH]; intros i H; [reflexivity|]. cbn [verify_vertices forallb].
  pose proof (H 0 a eq_refl) as H0. rewrite Nat.add_0_r in H0. destruct (wf_v_elem m W _ _ H0) as (La & Ei & _).
  rewrite (bind_ok _ _ _ _ _ (r_vidx m a La)), (bind_ok _ _ _ _ _ (verifyVertex_ok m a W (nth_error_In _ _ H0))).
  rewrite (bind_ok _ _ _ _ _ (IH (S i) ltac:(intros k v Hk; rewrite Nat.add_succ_comm; apply H; exact Hk))).
  unfold ret. rewrite Ei, Z.eqb_refl. reflexivity.
Qed.
Lemma verify_halfedges_ok m : WF m -> forall l i, (forall k v, nth_error l k = Some v -> nth_error (m_hes m) (i + k) = Some v) ->
  verify_halfedges i l m = Ok (true, m).
Proof.
  intros W. induction l as [|a l IH]; intros i H; [reflexivity|]. cbn [verify_halfedges].
  pose proof (H 0 a eq_refl) as H0. rewrite Nat.add_0_r in H0. destruct (wf_h_elem m W _ _ H0) as (La & Ei & _).
  rewrite (bind_ok _ _ _ _ _ (r_hidx m a La)).
  rewrite (bind_ok _ _ _ _ _ (IH (S i) ltac:(intros k v Hk; rewrite Nat.add_succ_comm; apply H; exact Hk))).
  unfold ret. rewrite Ei, Z.eqb_refl. reflexivity.
Qed.
Lemma verify_faces_ok m : WF m -> forall l i, (forall k v, nth_error l k = Some v -> nth_error (m_faces m) (i + k) = Some v) ->
  verify_faces i l m = Ok (true, m).
Proof.
  intros W. induction l as [|a l IH]; intros i H; [reflexivity|]. cbn [verify_faces].
  pose proof (H 0 a eq_refl) as H0. rewrite Nat.add_0_r in H0. destruct (wf_f_elem m W _ _ H0) as (La & Ei & _).
  destruct (wf_fhe m W a (nth_error_In _ _ H0)) as (h & Eh & _).
  rewrite (bind_ok _ _ _ _ _ (r_fidx m a La)), (bind_ok _ _ _ _ _ (r_fhe m a La)).
  rewrite (bind_ok _ _ _ _ _ (IH (S i) ltac:(intros k v Hk; rewrite Nat.add_succ_comm; apply H; exact Hk))).
  unfold ret. rewrite Ei, Z.eqb_refl, Eh. reflexivity.
Qed.

(** On a well-formed mesh verify() says whether all coordinates are finite. *)
Theorem verify_wf m : WF m -> verify m = Ok (forallb (fun v => vfinite (v_pos m v)) (m_verts m), m).
Proof.
  intros W. unfold verify. rewrite !bind_get.
  rewrite (bind_ok _ _ _ _ _ (verify_vertices_ok m W (m_verts m) 0 ltac:(intros; assumption))).
  rewrite (bind_ok _ _ _ _ _ (verify_halfedges_ok m W (m_hes m) 0 ltac:(intros; assumption))).
  rewrite (bind_ok _ _ _ _ _ (verify_faces_ok m W (m_faces m) 0 ltac:(intros; assumption))).
  unfold ret. rewrite !andb_true_r. reflexivity.
Qed.

End Queries.
