(** holeFillAdvancingFront: new vertices and half-edges on the front. *)
From Coq Require Import List ZArith Arith Lia Bool.
From Verif Require Import Num Vec Heap Mesh Spec Orbit Rings Exec Remove Split BuildTri Collapse Construct Fill Front FrontF.
Import ListNotations.
Local Open Scope mesh_scope.

(** ** Lists of writes *)
Fixpoint wr {X} (l : list (nat * X)) (s : nat -> X) : nat -> X := match l with [] => s | q :: l' => wr l' (fupd s (fst q) (snd q)) end.
Lemma wr_out {X} (l : list (nat * X)) : forall s y, ~ In y (map fst l) -> wr l s y = s y.
Proof.
  induction l as [|[a b] l IH]; intros s y H; cbn [wr fst snd]; [reflexivity|]. rewrite IH by (intros K; apply H; right; exact K). apply fupd_other. intros ->. apply H. left. reflexivity.
Qed.
Lemma wr_in {X} (l : list (nat * X)) : forall s a b, NoDup (map fst l) -> In (a, b) l -> wr l s a = b.
Proof.
  induction l as [|[c d] l IH]; intros s a b ND I; [destruct I|]. cbn [map fst] in ND. inversion ND as [|? ? X1 X2]; subst. cbn [wr fst snd]. destruct I as [I | I].
  - injection I as -> ->. rewrite wr_out by exact X1. apply fupd_same.
  - apply IH; assumption.
Qed.
Lemma in_combine_nth {X Y} : forall (l : list X) (l' : list Y) j x y, nth_error l j = Some x -> nth_error l' j = Some y -> In (x, y) (combine l l').
Proof. induction l as [|a l IH]; intros [|b l'] [|j] x y E E'; try discriminate; cbn [nth_error combine] in *; [injection E as ->; injection E' as ->; left; reflexivity|right; eapply IH; eauto]. Qed.
Lemma fst_combine {X Y} : forall (l : list X) (l' : list Y), length l = length l' -> map fst (combine l l') = l.
Proof. induction l as [|a l IH]; intros [|b l'] E; try discriminate; [reflexivity|]. cbn [combine map fst]. f_equal. apply IH. injection E as E. exact E. Qed.
Lemma combine_some {Y} : forall (l : list nat) (l' : list Y), combine (map Some l) l' = map (fun q => (Some (fst q), snd q)) (combine l l').
Proof. induction l as [|a l IH]; intros [|b l']; try reflexivity. cbn [map combine fst snd]. f_equal. apply IH. Qed.
Lemma nth_seq a k j : j < k -> nth_error (seq a k) j = Some (a + j).
Proof. revert a j. induction k as [|k IH]; intros a j L; [lia|]. destruct j as [|j]; cbn [seq nth_error]; [f_equal; lia|]. rewrite IH by lia. f_equal. lia. Qed.

Section A.
Context {N : Num}.
Implicit Types m : mesh N.

Definition with_next (s : nat -> ptr) m : mesh N :=
  mkMesh (m_verts m) (m_hes m) (m_faces m) (m_indices m) (m_fresh m) (v_live m) (v_pos m) (v_he m) (v_idx m) (v_lock m)
    (h_live m) (h_src m) s (h_rev m) (h_face m) (h_idx m) (h_bd m) (f_live m) (f_he m) (f_idx m).
Definition with_face (s : nat -> ptr) m : mesh N :=
  mkMesh (m_verts m) (m_hes m) (m_faces m) (m_indices m) (m_fresh m) (v_live m) (v_pos m) (v_he m) (v_idx m) (v_lock m)
    (h_live m) (h_src m) (h_next m) (h_rev m) s (h_idx m) (h_bd m) (f_live m) (f_he m) (f_idx m).
Definition with_bd (s : nat -> bool) m : mesh N :=
  mkMesh (m_verts m) (m_hes m) (m_faces m) (m_indices m) (m_fresh m) (v_live m) (v_pos m) (v_he m) (v_idx m) (v_lock m)
    (h_live m) (h_src m) (h_next m) (h_rev m) (h_face m) (h_idx m) s (f_live m) (f_he m) (f_idx m).
Definition with_vhe (s : nat -> ptr) m : mesh N :=
  mkMesh (m_verts m) (m_hes m) (m_faces m) (m_indices m) (m_fresh m) (v_live m) (v_pos m) s (v_idx m) (v_lock m)
    (h_live m) (h_src m) (h_next m) (h_rev m) (h_face m) (h_idx m) (h_bd m) (f_live m) (f_he m) (f_idx m).
Definition ps {Y} (l : list (nat * Y)) : list (ptr * Y) := map (fun q => (Some (fst q), snd q)) l.

Lemma mfor_wsrc : forall l m, (forall h, In h (map fst l) -> h_live m h = true) -> mfor (ps l) (fun x => w_src (fst x) (snd x)) m = Ok (tt, with_src (wr l (h_src m)) m).
Proof.
  induction l as [|[h b] l IH]; intros m L; cbn [ps map mfor fst snd wr]; [destruct m; reflexivity|].
  rewrite (bind_ok _ _ _ _ _ (ww_src m h b (L h (or_introl eq_refl)))). fold (ps l). rewrite IH; [reflexivity|]. intros y Iy. flds. apply L. right. exact Iy.
Qed.
Lemma mfor_wnext : forall l m, (forall h, In h (map fst l) -> h_live m h = true) -> mfor (ps l) (fun x => w_next (fst x) (snd x)) m = Ok (tt, with_next (wr l (h_next m)) m).
Proof.
  induction l as [|[h b] l IH]; intros m L; cbn [ps map mfor fst snd wr]; [destruct m; reflexivity|].
  rewrite (bind_ok _ _ _ _ _ (ww_next m h b (L h (or_introl eq_refl)))). fold (ps l). rewrite IH; [reflexivity|]. intros y Iy. flds. apply L. right. exact Iy.
Qed.
Lemma mfor_wvhe : forall l m, (forall h, In h (map fst l) -> v_live m h = true) -> mfor (ps l) (fun x => w_vhe (fst x) (snd x)) m = Ok (tt, with_vhe (wr l (v_he m)) m).
Proof.
  induction l as [|[h b] l IH]; intros m L; cbn [ps map mfor fst snd wr]; [destruct m; reflexivity|].
  rewrite (bind_ok _ _ _ _ _ (ww_vhe m h b (L h (or_introl eq_refl)))). fold (ps l). rewrite IH; [reflexivity|]. intros y Iy. flds. apply L. right. exact Iy.
Qed.
Lemma mfor_wbd b : forall (l : list nat) m, (forall h, In h l -> h_live m h = true) -> mfor (map Some l) (fun h => w_bd h b) m = Ok (tt, with_bd (wr (map (fun h => (h, b)) l) (h_bd m)) m).
Proof.
  induction l as [|h l IH]; intros m L; cbn [map mfor fst snd wr]; [destruct m; reflexivity|].
  rewrite (bind_ok _ _ _ _ _ (ww_bd m h b (L h (or_introl eq_refl)))). rewrite IH; [reflexivity|]. intros y Iy. flds. apply L. right. exact Iy.
Qed.
Lemma mfor_wface b : forall (l : list nat) m, (forall h, In h l -> h_live m h = true) -> mfor (map Some l) (fun h => w_face h b) m = Ok (tt, with_face (wr (map (fun h => (h, b)) l) (h_face m)) m).
Proof.
  induction l as [|h l IH]; intros m L; cbn [map mfor fst snd wr]; [destruct m; reflexivity|].
  rewrite (bind_ok _ _ _ _ _ (ww_face m h b (L h (or_introl eq_refl)))). rewrite IH; [reflexivity|]. intros y Iy. flds. apply L. right. exact Iy.
Qed.
Lemma fst_const {X} (b : X) (l : list nat) : map fst (map (fun h => (h, b)) l) = l.
Proof. rewrite map_map. cbn [fst]. apply map_id. Qed.

(** ** New vertices *)
Record NewVs m m' (qs : list (vec N)) : Prop := {
  nv_fresh : m_fresh m' = m_fresh m + length qs;
  nv_lists : m_verts m' = m_verts m /\ m_hes m' = m_hes m /\ m_faces m' = m_faces m /\ m_indices m' = m_indices m;
  nv_h : h_live m' = h_live m /\ h_src m' = h_src m /\ h_next m' = h_next m /\ h_rev m' = h_rev m /\ h_face m' = h_face m /\ h_idx m' = h_idx m /\ h_bd m' = h_bd m;
  nv_f : f_live m' = f_live m /\ f_he m' = f_he m /\ f_idx m' = f_idx m;
  nv_old : forall y, y < m_fresh m -> v_live m' y = v_live m y /\ v_pos m' y = v_pos m y /\ v_he m' y = v_he m y /\ v_idx m' y = v_idx m y /\ v_lock m' y = v_lock m y;
  nv_new : forall j q, nth_error qs j = Some q -> v_live m' (m_fresh m + j) = true /\ v_pos m' (m_fresh m + j) = q /\ v_lock m' (m_fresh m + j) = false }.
Lemma new_vertices_ok : forall qs m, exists m', mmap new_vertex qs m = Ok (map Some (seq (m_fresh m) (length qs)), m') /\ NewVs m m' qs.
Proof.
  induction qs as [|q qs IH]; intros m; cbn [mmap].
  - exists m. split; [reflexivity|]. constructor; try (repeat split; reflexivity); [cbn; lia|]. intros [|j] ? E; discriminate.
  - rewrite (bind_ok _ _ _ _ _ (x_new_vertex q m)). destruct (IH (st_new_vertex q m)) as (m' & X & [A1 (A2 & A3 & A4 & A5) AH AF AO AN]). rewrite (bind_ok _ _ _ _ _ X).
    exists m'. split; [reflexivity|]. set (m1 := st_new_vertex q m) in *.
    assert (F1 : m_fresh m1 = S (m_fresh m)) by reflexivity.
    assert (O1 : forall y, y < m_fresh m -> v_live m1 y = v_live m y /\ v_pos m1 y = v_pos m y /\ v_he m1 y = v_he m y /\ v_idx m1 y = v_idx m y /\ v_lock m1 y = v_lock m y).
    { intros y L. unfold m1, st_new_vertex. cbv zeta. flds. rewrite !fupd_other by lia. repeat split; reflexivity. }
    assert (N1 : v_live m1 (m_fresh m) = true /\ v_pos m1 (m_fresh m) = q /\ v_lock m1 (m_fresh m) = false) by (unfold m1, st_new_vertex; cbv zeta; flds; rewrite !fupd_same; auto).
    constructor.
    + rewrite A1, F1. cbn [length]. lia.
    + rewrite A2, A3, A4, A5. repeat split; reflexivity.
    + exact AH.
    + exact AF.
    + intros y L. destruct (AO y) as (B1 & B2 & B3 & B4 & B5); [rewrite F1; lia|]. rewrite B1, B2, B3, B4, B5. apply O1, L.
    + intros [|j] q' E; cbn [nth_error] in E.
      * injection E as <-. rewrite Nat.add_0_r. destruct (AO (m_fresh m)) as (B1 & B2 & _ & _ & B5); [rewrite F1; lia|]. rewrite B1, B2, B5. exact N1.
      * destruct (AN j q' E) as (B1 & B2 & B3). rewrite F1 in *. replace (m_fresh m + S j) with (S (m_fresh m) + j) by lia. auto.
Qed.
Record NewHs m m' (k : nat) : Prop := {
  nx_fresh : m_fresh m' = m_fresh m + k;
  nx_lists : m_verts m' = m_verts m /\ m_hes m' = m_hes m /\ m_faces m' = m_faces m /\ m_indices m' = m_indices m;
  nx_v : v_live m' = v_live m /\ v_pos m' = v_pos m /\ v_he m' = v_he m /\ v_idx m' = v_idx m /\ v_lock m' = v_lock m;
  nx_f : f_live m' = f_live m /\ f_he m' = f_he m /\ f_idx m' = f_idx m;
  nx_old : forall y, y < m_fresh m -> h_live m' y = h_live m y /\ h_src m' y = h_src m y /\ h_next m' y = h_next m y /\ h_rev m' y = h_rev m y /\ h_face m' y = h_face m y /\ h_idx m' y = h_idx m y /\ h_bd m' y = h_bd m y;
  nx_new : forall j, j < k -> h_live m' (m_fresh m + j) = true /\ h_rev m' (m_fresh m + j) = None }.
Lemma new_halfedges_ok {X} : forall (l : list X) m, exists m', mmap (fun _ => new_he) l m = Ok (map Some (seq (m_fresh m) (length l)), m') /\ NewHs m m' (length l).
Proof.
  induction l as [|q qs IH]; intros m; cbn [mmap].
  - exists m. split; [reflexivity|]. constructor; try (repeat split; reflexivity); [cbn; lia|]. intros j L. cbn in L. lia.
  - rewrite (bind_ok _ _ _ _ _ (x_new_he m)). destruct (IH (st_new_he m)) as (m' & Y & [A1 (A2 & A3 & A4 & A5) AH AF AO AN]). rewrite (bind_ok _ _ _ _ _ Y).
    exists m'. split; [reflexivity|]. set (m1 := st_new_he m) in *.
    assert (F1 : m_fresh m1 = S (m_fresh m)) by reflexivity.
    assert (N1 : h_live m1 (m_fresh m) = true /\ h_rev m1 (m_fresh m) = None) by (unfold m1, st_new_he; cbv zeta; flds; rewrite !fupd_same; auto).
    constructor.
    + rewrite A1, F1. cbn [length]. lia.
    + rewrite A2, A3, A4, A5. repeat split; reflexivity.
    + exact AH.
    + exact AF.
    + intros y L. destruct (AO y) as (B1 & B2 & B3 & B4 & B5 & B6 & B7); [rewrite F1; lia|]. rewrite B1, B2, B3, B4, B5, B6, B7.
      destruct (new_he_old m y) as (C1 & C2 & C3 & C4 & C5 & C6 & C7); [lia|]. auto 10.
    + intros [|j] L.
      * rewrite Nat.add_0_r. destruct (AO (m_fresh m)) as (B1 & _ & _ & B4 & _); [rewrite F1; lia|]. rewrite B1, B4. exact N1.
      * cbn [length] in L. destruct (AN j) as (B1 & B2); [lia|]. rewrite F1 in *. replace (m_fresh m + S j) with (S (m_fresh m) + j) by lia. auto.
Qed.
(** They are appended to the lists. *)
Definition app_v (l : list nat) (ix : nat -> Z) m : mesh N :=
  mkMesh (m_verts m ++ l) (m_hes m) (m_faces m) (m_indices m) (m_fresh m) (v_live m) (v_pos m) (v_he m) ix (v_lock m)
    (h_live m) (h_src m) (h_next m) (h_rev m) (h_face m) (h_idx m) (h_bd m) (f_live m) (f_he m) (f_idx m).
Definition app_h (l : list nat) (ix : nat -> Z) m : mesh N :=
  mkMesh (m_verts m) (m_hes m ++ l) (m_faces m) (m_indices m) (m_fresh m) (v_live m) (v_pos m) (v_he m) (v_idx m) (v_lock m)
    (h_live m) (h_src m) (h_next m) (h_rev m) (h_face m) ix (h_bd m) (f_live m) (f_he m) (f_idx m).
Lemma listok_snoc l live idx a : ListOk l live idx -> ~ In a l -> live a = true -> ListOk (l ++ [a]) live (fupd idx a (Z.of_nat (length l))).
Proof.
  intros [ND E] NI La. split; [apply nodup_snoc; assumption|]. intros i y Y. apply nth_error_snoc in Y as [Y | [-> ->]]; [|rewrite fupd_same; auto].
  rewrite fupd_other by (intros ->; apply NI, (nth_error_In _ _ Y)). exact (E i y Y).
Qed.
Lemma add_vertices_ok : forall l m, ListOk (m_verts m) (v_live m) (v_idx m) -> NoDup l -> (forall v, In v l -> v_live m v = true /\ ~ In v (m_verts m)) ->
  exists ix, mfor (map Some l) addVertex m = Ok (tt, app_v l ix m) /\ ListOk (m_verts m ++ l) (v_live m) ix.
Proof.
  induction l as [|a l IH]; intros m LO ND H; cbn [map mfor].
  - exists (v_idx m). rewrite app_nil_r. split; [|exact LO]. unfold app_v. rewrite app_nil_r. destruct m; reflexivity.
  - inversion ND as [|? ? X1 X2]; subst. destruct (H a (or_introl eq_refl)) as [La Na]. rewrite (bind_ok _ _ _ _ _ (x_addVertex m a (m_verts m) La eq_refl)).
    destruct (IH (set_m_verts (m_verts m ++ [a]) (set_v_idx a (Z.of_nat (length (m_verts m))) m))) as (ix & X & L).
    + exact (listok_snoc _ _ _ _ LO Na La).
    + exact X2.
    + intros v I. destruct (H v (or_intror I)) as [Lv Nv]. split; [exact Lv|]. flds. rewrite in_app_iff. intros [K | [K | []]]; [exact (Nv K)|]. subst v. exact (X1 I).
    + exists ix. change (m_verts (set_m_verts (m_verts m ++ [a]) (set_v_idx a (Z.of_nat (length (m_verts m))) m))) with (m_verts m ++ [a]) in L. rewrite <- app_assoc in L. split; [|exact L]. rewrite X. unfold app_v. flds. rewrite <- app_assoc. reflexivity.
Qed.
Lemma add_halfedges_ok : forall l m, ListOk (m_hes m) (h_live m) (h_idx m) -> NoDup l -> (forall v, In v l -> h_live m v = true /\ ~ In v (m_hes m)) ->
  exists ix, mfor (map Some l) addHalfedge m = Ok (tt, app_h l ix m) /\ ListOk (m_hes m ++ l) (h_live m) ix.
Proof.
  induction l as [|a l IH]; intros m LO ND H; cbn [map mfor].
  - exists (h_idx m). rewrite app_nil_r. split; [|exact LO]. unfold app_h. rewrite app_nil_r. destruct m; reflexivity.
  - inversion ND as [|? ? X1 X2]; subst. destruct (H a (or_introl eq_refl)) as [La Na]. rewrite (bind_ok _ _ _ _ _ (x_addHalfedge m a (m_hes m) La eq_refl)).
    destruct (IH (set_m_hes (m_hes m ++ [a]) (set_h_idx a (Z.of_nat (length (m_hes m))) m))) as (ix & X & L).
    + exact (listok_snoc _ _ _ _ LO Na La).
    + exact X2.
    + intros v I. destruct (H v (or_intror I)) as [Lv Nv]. split; [exact Lv|]. flds. rewrite in_app_iff. intros [K | [K | []]]; [exact (Nv K)|]. subst v. exact (X1 I).
    + exists ix. change (m_hes (set_m_hes (m_hes m ++ [a]) (set_h_idx a (Z.of_nat (length (m_hes m))) m))) with (m_hes m ++ [a]) in L. rewrite <- app_assoc in L. split; [|exact L]. rewrite X. unfold app_h. flds. rewrite <- app_assoc. reflexivity.
Qed.

(** ** The new part of the front *)
Record NewFront m m' (k pv pp nn : nat) : Prop := {
  nf_lists : Lists m';
  nf_fresh : m_fresh m' = m_fresh m + k + S k;
  nf_app : m_verts m' = m_verts m ++ seq (m_fresh m) k /\ m_hes m' = m_hes m ++ seq (m_fresh m + k) (S k) /\ m_faces m' = m_faces m /\ m_indices m' = m_indices m;
  nf_f : f_live m' = f_live m /\ f_he m' = f_he m /\ f_idx m' = f_idx m;
  nf_vold : forall v, v < m_fresh m -> v_he m' v = v_he m v /\ v_pos m' v = v_pos m v /\ v_lock m' v = v_lock m v;
  nf_vnew : forall j, 1 <= j <= k -> v_he m' (m_fresh m + j - 1) = Some (m_fresh m + k + j) /\ v_lock m' (m_fresh m + j - 1) = false;
  nf_hold : forall h, h < m_fresh m -> h_src m' h = h_src m h /\ h_rev m' h = h_rev m h /\ h_face m' h = h_face m h /\ h_bd m' h = h_bd m h /\ (h <> pp -> h_next m' h = h_next m h);
  nf_pp : h_next m' pp = Some (m_fresh m + k);
  nf_src : forall j, j <= k -> h_src m' (m_fresh m + k + j) = Some (if j =? 0 then pv else m_fresh m + j - 1);
  nf_next : forall j, j <= k -> h_next m' (m_fresh m + k + j) = Some (if j =? k then nn else m_fresh m + k + S j);
  nf_new : forall j, j <= k -> h_bd m' (m_fresh m + k + j) = true /\ h_rev m' (m_fresh m + k + j) = None }.

Lemma front_new_ok m (news : list (vec N)) pv pp nn : Lists m -> In pp (m_hes m) -> let k := length news in
  exists m1, front_new news m = Ok ((map Some (seq (m_fresh m) k), map Some (seq (m_fresh m + k) (S k))), m1) /\
    exists m2, front_wire (Some pv) (Some pp) (Some nn) (map Some (seq (m_fresh m) k)) (map Some (seq (m_fresh m + k) (S k))) m1 = Ok (tt, m2) /\
      NewFront m m2 k pv pp nn.
Proof.
  intros ((LV & LH & LF) & BV & BH & BF) Ipp k. set (F := m_fresh m) in *.
  destruct (new_vertices_ok news m) as (ma & X1 & [A1 (A2 & A3 & A4 & A5) (A6 & A7 & A8 & A9 & A10 & A11 & A12) (A13 & A14 & A15) AO AN]). fold F k in X1, A1, AO, AN.
  assert (LVa : ListOk (m_verts ma) (v_live ma) (v_idx ma)).
  { rewrite A2. split; [apply LV|]. intros i y Y. destruct (AO y) as (B1 & _ & _ & B4 & _); [apply BV, (nth_error_In _ _ Y)|]. rewrite B1, B4. exact (proj2 LV i y Y). }
  assert (NVl : forall v, In v (seq F k) -> v_live ma v = true /\ ~ In v (m_verts ma)).
  { intros v I. apply in_seq in I. split; [|rewrite A2; intros K; apply BV in K; fold F in K; lia].
    destruct (nth_error news (v - F)) as [q|] eqn:E; [|apply nth_error_None in E; fold k in E; lia]. destruct (AN (v - F) q E) as (B & _). replace (F + (v - F)) with v in B by lia. exact B. }
  destruct (add_vertices_ok (seq F k) ma LVa (seq_NoDup k F) NVl) as (ixv & X2 & LVb).
  set (mb := app_v (seq F k) ixv ma) in X2.
  destruct (new_halfedges_ok (seq 0 (S k)) mb) as (mc & X3 & [C1 (C2 & C3 & C4 & C5) (C6 & C7 & C8 & C9 & C10) (C13 & C14 & C15) CO CN]).
  rewrite seq_length in X3, C1, CN. assert (Fb : m_fresh mb = F + k) by exact A1. rewrite Fb in *.
  assert (LHc : ListOk (m_hes mc) (h_live mc) (h_idx mc)).
  { rewrite C3. change (m_hes mb) with (m_hes ma). rewrite A3. split; [apply LH|]. intros i y Y. destruct (CO y) as (B1 & _ & _ & _ & _ & B6 & _); [apply nth_error_In, BH in Y; fold F in Y; lia|].
    rewrite B1, B6. change (h_live mb y) with (h_live ma y). change (h_idx mb y) with (h_idx ma y). rewrite A6, A11. exact (proj2 LH i y Y). }
  assert (NHl : forall v, In v (seq (F + k) (S k)) -> h_live mc v = true /\ ~ In v (m_hes mc)).
  { intros v I. apply in_seq in I. split.
    - destruct (CN (v - (F + k))) as (B & _); [lia|]. replace (F + k + (v - (F + k))) with v in B by lia. exact B.
    - rewrite C3. change (m_hes mb) with (m_hes ma). rewrite A3. intros K. apply BH in K. fold F in K. lia. }
  destruct (add_halfedges_ok (seq (F + k) (S k)) mc LHc (seq_NoDup (S k) (F + k)) NHl) as (ixh & X4 & LHd).
  set (md := app_h (seq (F + k) (S k)) ixh mc) in X4.
  assert (TL : tl (map Some (seq (F + k) (S k))) = map Some (seq (S (F + k)) k)) by reflexivity.
  set (lv := combine (seq F k) (map (@Some nat) (seq (S (F + k)) k)) : list (nat * ptr)).
  assert (FL1 : map fst lv = seq F k) by (apply fst_combine; rewrite map_length, !seq_length; reflexivity).
  assert (LVd : forall v, In v (map fst lv) -> v_live md v = true).
  { intros v I. rewrite FL1 in I. change (v_live md v) with (v_live mc v). rewrite C6. apply NVl, I. }
  assert (X5 := mfor_wvhe lv md LVd). set (me := with_vhe (wr lv (v_he md)) md) in X5.
  exists me. split.
  { unfold front_new. rewrite (bind_ok _ _ _ _ _ X1), (bind_ok _ _ _ _ _ X2). fold k. rewrite (bind_ok _ _ _ _ _ X3), (bind_ok _ _ _ _ _ X4).
    match goal with |- bind (mfor ?l _) _ _ = _ => replace l with (ps lv) by (unfold ps, lv; rewrite <- combine_some; reflexivity) end. rewrite (bind_ok _ _ _ _ _ X5). reflexivity. }
  assert (HLe : forall h, In h (seq (F + k) (S k)) -> h_live me h = true) by (intros h I; apply NHl, I).
  set (ls := (combine (seq (F + k) (S k)) (Some pv :: map (@Some nat) (seq F k))) : list (nat * ptr)).
  assert (FL2 : map fst ls = seq (F + k) (S k)) by (apply fst_combine; cbn [length]; rewrite map_length, !seq_length; reflexivity).
  assert (X6 := mfor_wsrc ls me ltac:(intros h I; apply HLe; rewrite FL2 in I; exact I)). set (mf := with_src (wr ls (h_src me)) me) in X6.
  assert (X7 := mfor_wbd true (seq (F + k) (S k)) mf HLe). set (lb := map (fun h => (h, true)) (seq (F + k) (S k))) in X7. set (mg := with_bd (wr lb (h_bd mf)) mf) in X7.
  assert (LPP : h_live mg pp = true).
  { change (h_live mc pp = true). assert (Lp := BH pp Ipp). fold F in Lp. destruct (CO pp) as (B & _); [lia|]. rewrite B. change (h_live mb pp) with (h_live ma pp). rewrite A6. apply In_nth_error in Ipp as (i & E). apply (proj2 LH i pp E). }
  set (ln := (combine (seq (F + k) (S k)) (map (@Some nat) (seq (S (F + k)) k) ++ [Some nn])) : list (nat * ptr)).
  assert (FL3 : map fst ln = seq (F + k) (S k)) by (apply fst_combine; rewrite app_length, map_length, !seq_length; cbn [length]; lia).
  set (mh := set_h_next pp (Some (F + k)) mg). assert (X8 := mfor_wnext ln mh ltac:(intros h I; apply HLe; rewrite FL3 in I; exact I)).
  exists (with_next (wr ln (h_next mh)) mh). split.
  { unfold front_wire. match goal with |- bind (mfor ?l _) _ _ = _ => replace l with (ps ls) by (unfold ps, ls; rewrite <- combine_some; reflexivity) end. rewrite (bind_ok _ _ _ _ _ X6), (bind_ok _ _ _ _ _ X7). change (hd None (map Some (seq (F + k) (S k)))) with (Some (F + k)).
    rewrite (bind_ok _ _ _ _ _ (ww_next mg pp (Some (F + k)) LPP)).
    match goal with |- mfor ?l _ _ = _ => replace l with (ps ln) by (unfold ps, ln; rewrite <- combine_some; reflexivity) end. exact X8. }
  assert (Lp := BH pp Ipp). fold F in Lp.
  assert (OUT : forall h (X : Type) (l : list (nat * X)), h < F -> map fst l = seq (F + k) (S k) -> ~ In h (map fst l)) by (intros h X l L E I; rewrite E in I; apply in_seq in I; lia).
  assert (NDx : forall (X : Type) (l : list (nat * X)), map fst l = seq (F + k) (S k) -> NoDup (map fst l)) by (intros X l E; rewrite E; apply seq_NoDup).
  assert (FLb : map fst lb = seq (F + k) (S k)) by apply fst_const.
  assert (NX : forall j, j <= k -> nth_error (seq (F + k) (S k)) j = Some (F + k + j)) by (intros j L; apply nth_seq; lia).
  constructor.
  - split; [split; [|split]|split; [|split]].
    + change (ListOk (m_verts mc) (v_live mc) (v_idx mc)). rewrite C2, C6, C9. exact LVb.
    + exact LHd.
    + change (ListOk (m_faces mc) (f_live mc) (f_idx mc)). rewrite C4, C13, C15. change (ListOk (m_faces ma) (f_live ma) (f_idx ma)). rewrite A4, A13, A15. exact LF.
    + change (forall y, In y (m_verts mc) -> y < m_fresh mc). rewrite C1, C2. change (m_verts mb) with (m_verts ma ++ seq F k). rewrite A2. intros y I. apply in_app_iff in I as [I | I]; [apply BV in I; fold F in I; lia|apply in_seq in I; lia].
    + change (forall y, In y (m_hes mc ++ seq (F + k) (S k)) -> y < m_fresh mc). rewrite C1, C3. change (m_hes mb) with (m_hes ma). rewrite A3. intros y I. apply in_app_iff in I as [I | I]; [apply BH in I; fold F in I; lia|apply in_seq in I; lia].
    + change (forall y, In y (m_faces mc) -> y < m_fresh mc). rewrite C1, C4. change (m_faces mb) with (m_faces ma). rewrite A4. intros y I. apply BF in I. fold F in I. lia.
  - exact C1.
  - change (m_verts mc = m_verts m ++ seq F k /\ m_hes mc ++ seq (F + k) (S k) = m_hes m ++ seq (F + k) (S k) /\ m_faces mc = m_faces m /\ m_indices mc = m_indices m).
    rewrite C2, C3, C4, C5. change (m_verts ma ++ seq F k = m_verts m ++ seq F k /\ m_hes ma ++ seq (F + k) (S k) = m_hes m ++ seq (F + k) (S k) /\ m_faces ma = m_faces m /\ m_indices ma = m_indices m). rewrite A2, A3, A4, A5. auto.
  - change (f_live mc = f_live m /\ f_he mc = f_he m /\ f_idx mc = f_idx m). rewrite C13, C14, C15. change (f_live ma = f_live m /\ f_he ma = f_he m /\ f_idx ma = f_idx m). auto.
  - intros v L. change (wr lv (v_he mc) v = v_he m v /\ v_pos mc v = v_pos m v /\ v_lock mc v = v_lock m v). rewrite wr_out by (rewrite FL1; intros I; apply in_seq in I; lia). rewrite C7, C8, C10.
    change (v_he ma v = v_he m v /\ v_pos ma v = v_pos m v /\ v_lock ma v = v_lock m v). destruct (AO v L) as (_ & B2 & B3 & _ & B5). auto.
  - intros j L. change (wr lv (v_he mc) (F + j - 1) = Some (F + k + j) /\ v_lock mc (F + j - 1) = false). split.
    + apply (wr_in lv); [rewrite FL1; apply seq_NoDup|]. apply (in_combine_nth _ _ (j - 1)); [rewrite nth_seq by lia; f_equal; lia|]. rewrite nth_error_map, nth_seq by lia. cbn [option_map]. do 2 f_equal. lia.
    + rewrite C10. change (v_lock ma (F + j - 1) = false). destruct (nth_error news (j - 1)) as [q|] eqn:E; [|apply nth_error_None in E; fold k in E; lia]. destruct (AN (j - 1) q E) as (_ & _ & B). replace (F + (j - 1)) with (F + j - 1) in B by lia. exact B.
  - intros h L. destruct (CO h) as (_ & B2 & B3 & B4 & B5 & _ & B7); [lia|].
    change (wr ls (h_src mc) h = h_src m h /\ h_rev mc h = h_rev m h /\ h_face mc h = h_face m h /\ wr lb (h_bd mc) h = h_bd m h /\ (h <> pp -> wr ln (fupd (h_next mc) pp (Some (F + k))) h = h_next m h)).
    rewrite !wr_out by (apply OUT; assumption). rewrite B2, B4, B5, B7. change (h_src ma h = h_src m h /\ h_rev ma h = h_rev m h /\ h_face ma h = h_face m h /\ h_bd ma h = h_bd m h /\ (h <> pp -> fupd (h_next mc) pp (Some (F + k)) h = h_next m h)).
    rewrite A7, A9, A10, A12. repeat (split; [reflexivity|]). intros D. rewrite fupd_other by exact D. rewrite B3. change (h_next ma h = h_next m h). rewrite A8. reflexivity.
  - change (wr ln (fupd (h_next mc) pp (Some (F + k))) pp = Some (F + k)). rewrite wr_out by (apply OUT; assumption). apply fupd_same.
  - intros j L. change (wr ls (h_src mc) (F + k + j) = Some (if j =? 0 then pv else F + j - 1)). apply (wr_in ls); [apply NDx, FL2|]. apply (in_combine_nth _ _ j); [exact (NX j L)|].
    destruct j as [|j]; [reflexivity|]. cbn [nth_error Nat.eqb]. rewrite nth_error_map, nth_seq by lia. cbn [option_map]. do 2 f_equal. lia.
  - intros j L. change (wr ln (fupd (h_next mc) pp (Some (F + k))) (F + k + j) = Some (if j =? k then nn else F + k + S j)). apply (wr_in ln); [apply NDx, FL3|]. apply (in_combine_nth _ _ j); [exact (NX j L)|].
    destruct (Nat.eqb_spec j k) as [->|D].
    + rewrite nth_error_app2 by (rewrite map_length, seq_length; lia). rewrite map_length, seq_length, Nat.sub_diag. reflexivity.
    + rewrite nth_error_app1 by (rewrite map_length, seq_length; lia). rewrite nth_error_map, nth_seq by lia. cbn [option_map]. do 2 f_equal. lia.
  - intros j L. change (wr lb (h_bd mc) (F + k + j) = true /\ h_rev mc (F + k + j) = None). split.
    + apply (wr_in lb); [apply NDx, FLb|]. apply in_map_iff. exists (F + k + j). split; [reflexivity|]. apply (nth_error_In _ j). exact (NX j L).
    + destruct (CN j) as (_ & B); [lia|exact B].
Qed.
End A.
