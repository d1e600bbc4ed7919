(** Mesh::construct(vertices, indices): welding equal positions (mesh.cpp 88-107). *)
From Coq Require Import List ZArith Arith Lia Bool Permutation.
From Verif Require Import Num Vec Heap Mesh Construct Spec BuildSpec Orbit Rings Exec Split BuildTri BuildTop.
Import ListNotations.
Local Open Scope mesh_scope.

Section Weld.
Context {N : Num}.
Implicit Types m : mesh N.

Fixpoint weld (ps : list (vec N)) (ix : list nat) (um : list (vec N * nat)) (us : list (vec N)) : option (list (vec N) * list nat) :=
  match ix with
  | [] => Some (us, [])
  | i :: ix' =>
      match nth_error ps i with
      | None => None
      | Some pos =>
          let um1 := match um_find um pos with Some _ => um | None => um ++ [(pos, length us)] end in
          let us1 := match um_find um pos with Some _ => us | None => us ++ [pos] end in
          let um2 := match um_find um1 pos with Some _ => um1 | None => um1 ++ [(pos, 0)] end in
          let j := match um_find um1 pos with Some k => k | None => 0 end in
          match weld ps ix' um2 us1 with Some (us', l) => Some (us', j :: l) | None => None end
      end
  end.

(** ** The loop computes [weld] *)
Record Fresh m (us : list (vec N)) : Prop := {
  fr_bare : Bare m;
  fr_pos : positions m = us;
  fr_lock : forall v, In v (m_verts m) -> v_lock m v = false
}.

Lemma Fresh_push m us pos : Fresh m us -> exists m' a, new_vertex pos m = Ok (Some a, m') /\
  Fresh (set_m_verts (m_verts m ++ [a]) m') (us ++ [pos]) /\ m_verts m' = m_verts m /\ m_indices m' = m_indices m.
Proof.
  intros [[Bnd Bl Bh Bf] P L].
  exists (st_new_vertex pos m), (m_fresh m). split; [apply x_new_vertex|].
  assert (Fr : forall v, In v (m_verts m) -> v <> m_fresh m) by (intros v Hv; destruct (Bl v Hv) as (_ & X & _); lia).
  assert (Old := fun v H => new_vertex_old pos m v H). destruct (new_vertex_new pos m) as (K1 & K2 & K3).
  assert (K4 : v_he (st_new_vertex pos m) (m_fresh m) = None) by (unfold st_new_vertex; cbv zeta; flds; apply fupd_same).
  assert (K5 : m_fresh (st_new_vertex pos m) = S (m_fresh m)) by reflexivity.
  assert (K6 : m_verts (st_new_vertex pos m) = m_verts m /\ m_indices (st_new_vertex pos m) = m_indices m /\
     m_hes (st_new_vertex pos m) = m_hes m /\ m_faces (st_new_vertex pos m) = m_faces m) by (repeat split; reflexivity).
  set (m' := st_new_vertex pos m) in *. clearbody m'. destruct K6 as (K6 & K7 & K8 & K9).
  split; [|split; assumption]. split; [split| |].
  - cbn [set_m_verts m_verts]. apply nodup_snoc; [exact Bnd|]. intros H. exact (Fr _ H eq_refl).
  - cbn [set_m_verts m_verts v_live v_he m_fresh]. rewrite K5. intros v Hv. apply in_app_iff in Hv as [Hv|[<-|[]]].
    + destruct (Old v (Fr v Hv)) as (-> & -> & _). destruct (Bl v Hv) as (X & Y & Z). split; [exact X|]. split; [lia|exact Z].
    + split; [exact K1|]. split; [lia|exact K4].
  - cbn [set_m_verts m_hes]. congruence.
  - cbn [set_m_verts m_faces]. congruence.
  - unfold positions. cbn [set_m_verts m_verts v_pos]. rewrite map_app. cbn [map]. rewrite K2. f_equal.
    rewrite <- P. apply map_ext_in. intros v Hv. apply (Old v (Fr v Hv)).
  - cbn [set_m_verts m_verts v_lock]. intros v Hv. apply in_app_iff in Hv as [Hv|[<-|[]]]; [|exact K3].
    destruct (Old v (Fr v Hv)) as (_ & _ & _ & _ & ->). exact (L v Hv).
Qed.

Lemma Fresh_ix m us l : Fresh m us -> Fresh (set_m_indices l m) us.
Proof. intros [[A B C D] P L]. split; [split|exact P|exact L]; assumption. Qed.

Lemma dedup_weld ps : forall ix um us m, Fresh m us ->
  match weld ps ix um us with
  | Some (us', l) => exists m', dedup_loop ps ix um m = Ok (tt, m') /\ Fresh m' us' /\ m_indices m' = m_indices m ++ l
  | None => dedup_loop ps ix um m = UB OutOfBounds
  end.
Proof.
  induction ix as [|i ix IH]; intros um us m F; cbn [weld dedup_loop].
  - exists m. rewrite app_nil_r. split; [reflexivity|]. auto.
  - destruct (nth_error ps i) as [pos|]; [|reflexivity].
    set (um1 := match um_find um pos with Some _ => um | None => um ++ [(pos, length us)] end).
    set (us1 := match um_find um pos with Some _ => us | None => us ++ [pos] end).
    assert (St : exists m1, (match um_find um pos with
                  | Some _ => ret um
                  | None =>
                      l <- get m_verts ;;
                      v <- new_vertex pos ;;
                      match v with
                      | Some a => modify (set_m_verts (l ++ [a])) ;; ret (um ++ [(pos, length l)])
                      | None => ub NullDeref
                      end
                  end) m = Ok (um1, m1) /\ Fresh m1 us1 /\ m_indices m1 = m_indices m).
    { unfold um1, us1. destruct (um_find um pos) as [k|].
      - exists m. split; [reflexivity|]. auto.
      - destruct (Fresh_push m us pos F) as (m' & a & E & F' & Vs & Ix). exists (set_m_verts (m_verts m ++ [a]) m').
        split; [|split; [exact F'|exact Ix]]. rewrite bind_get, (bind_ok _ _ _ _ _ E), bind_modify.
        assert (Hl : length us = length (m_verts m)) by (rewrite <- (fr_pos _ _ F); unfold positions; apply map_length).
        rewrite Hl. reflexivity. }
    destruct St as (m1 & E & F1 & I1). rewrite (bind_ok _ _ _ _ _ E).
    set (um2 := match um_find um1 pos with Some _ => um1 | None => um1 ++ [(pos, 0)] end).
    set (j := match um_find um1 pos with Some k => k | None => 0 end).
    replace (match um_find um1 pos with Some k => (k, um1) | None => (0, um1 ++ [(pos, 0)]) end) with (j, um2) by (unfold j, um2; destruct (um_find um1 pos); reflexivity).
    rewrite bind_modify. set (m2 := set_m_indices (m_indices m1 ++ [j]) m1).
    assert (F2 : Fresh m2 us1) by (apply Fresh_ix, F1). specialize (IH um2 us1 m2 F2).
    destruct (weld ps ix um2 us1) as [[us' l]|]; [|exact IH]. destruct IH as (m' & E' & F' & I'). exists m'. split; [exact E'|]. split; [exact F'|].
    rewrite I'. unfold m2. cbn [set_m_indices m_indices]. rewrite I1, <- app_assoc. reflexivity.
Qed.

Lemma weld_none ps : forall ix um us, weld ps ix um us = None <-> exists i, In i ix /\ length ps <= i.
Proof.
  induction ix as [|i ix IH]; intros um us; cbn [weld].
  - split; [discriminate|intros (i & [] & _)].
  - destruct (nth_error ps i) as [pos|] eqn:E.
    + match goal with |- context [weld ps ix ?a ?b] => specialize (IH a b); destruct (weld ps ix a b) as [[us' l]|] end.
      * split; [discriminate|]. intros (k & [<-|H] & L); [exfalso; assert (i < length ps) by (apply nth_error_Some; congruence); lia|].
        assert (X : Some (us', l) = None) by (apply IH; exists k; auto). discriminate X.
      * split; [|reflexivity]. intros _. destruct (proj1 IH eq_refl) as (k & H & L). exists k. split; [right; exact H|exact L].
    + split; [|reflexivity]. intros _. exists i. split; [left; reflexivity|apply nth_error_None; exact E].
Qed.

Lemma um_find_some (um : list (vec N * nat)) p k : um_find um p = Some k -> exists q, In (q, k) um /\ veqb q p = true.
Proof.
  induction um as [|[q i] um IH]; cbn [um_find]; [discriminate|]. destruct (veqb q p) eqn:E.
  - intros [= <-]. exists q. split; [left; reflexivity|exact E].
  - intros H. destruct (IH H) as (r & I & V). exists r. split; [right; exact I|exact V].
Qed.
Lemma um_find_none (um : list (vec N * nat)) p : um_find um p = None -> forall q k, In (q, k) um -> veqb q p = false.
Proof.
  induction um as [|[q i] um IH]; cbn [um_find]; [intros _ ? ? []|]. destruct (veqb q p) eqn:E; [discriminate|].
  intros H r k [[= <- <-]|I]; [exact E|exact (IH H r k I)].
Qed.
Lemma um_find_app (um um' : list (vec N * nat)) p : um_find (um ++ um') p = match um_find um p with Some k => Some k | None => um_find um' p end.
Proof. induction um as [|[q i] um IH]; cbn [um_find app]; [reflexivity|]. destruct (veqb q p); [reflexivity|exact IH]. Qed.

(** Even with NaN all numbers are in range. *)
Lemma weld_range ps : forall ix um us us' l, (forall q k, In (q, k) um -> k < length us) ->
  weld ps ix um us = Some (us', l) -> length l = length ix /\ length us <= length us' /\ (forall j, In j l -> j < length us').
Proof.
  induction ix as [|i ix IH]; intros um us us' l H; cbn [weld].
  - intros [= <- <-]. split; [reflexivity|]. split; [lia|]. intros j [].
  - destruct (nth_error ps i) as [pos|]; [|discriminate].
    set (um1 := match um_find um pos with Some _ => um | None => um ++ [(pos, length us)] end).
    set (us1 := match um_find um pos with Some _ => us | None => us ++ [pos] end).
    assert (H1 : forall q k, In (q, k) um1 -> k < length us1).
    { unfold um1, us1. destruct (um_find um pos); [exact H|]. intros q k I. rewrite app_length. cbn [length].
      apply in_app_iff in I as [I|[[= <- <-]|[]]]; [specialize (H q k I); lia|lia]. }
    assert (L1 : length us <= length us1 /\ 0 < length us1).
    { unfold us1. destruct (um_find um pos) as [k|] eqn:E; [|rewrite app_length; cbn [length]; lia].
      apply um_find_some in E as (q & I & _). specialize (H q k I). lia. }
    match goal with |- context [weld ps ix ?a us1] => set (um2 := a); destruct (weld ps ix um2 us1) as [[us2 l2]|] eqn:W; [|discriminate] end.
    intros [= <- <-].
    assert (H2 : forall q k, In (q, k) um2 -> k < length us1).
    { unfold um2. destruct (um_find um1 pos); [exact H1|]. intros q k I.
      apply in_app_iff in I as [I|[[= <- <-]|[]]]; [exact (H1 q k I)|lia]. }
    destruct (IH um2 us1 us2 l2 H2 W) as (A & B & C). split; [cbn [length]; lia|]. split; [lia|].
    intros j [<-|I]; [|exact (C j I)]. destruct (um_find um1 pos) as [k|] eqn:E; [|lia].
    apply um_find_some in E as (q & I & _). specialize (H1 q k I). lia.
Qed.

(** ** Without NaN: [weld] is [Welded] *)
Definition idx_of (us : list (vec N)) (um : list (vec N * nat)) : Prop :=
  forall q k, In (q, k) um <-> nth_error us k = Some q.
Lemma idx_of_push us um pos : idx_of us um -> idx_of (us ++ [pos]) (um ++ [(pos, length us)]).
Proof.
  intros H q k. rewrite in_app_iff, (H q k). cbn [In]. split.
  - intros [E|[[= <- <-]|[]]]; [rewrite nth_error_app1; [exact E|apply nth_error_Some; congruence]|].
    rewrite nth_error_app2, Nat.sub_diag by lia. reflexivity.
  - intros E. destruct (Nat.lt_ge_cases k (length us)) as [L|L]; [left; rewrite nth_error_app1 in E by exact L; exact E|].
    right. left. rewrite nth_error_app2 in E by exact L. destruct (k - length us) as [|n] eqn:X; [|destruct n; discriminate].
    injection E as ->. f_equal. lia.
Qed.

Context {NE : NumEq N}.
Lemma veqb_sym (a b : vec N) : veqb a b = veqb b a.
Proof. unfold veqb. rewrite (neqb_sym (vx a)), (neqb_sym (vy a)), (neqb_sym (vz a)). reflexivity. Qed.
Lemma veqb_trans (a b c : vec N) : veqb a b = true -> veqb b c = true -> veqb a c = true.
Proof.
  unfold veqb. rewrite !andb_true_iff. intros [[A1 A2] A3] [[B1 B2] B3].
  split; [split|]; eapply neqb_trans; eassumption.
Qed.

Lemma Welded_nil ps : Welded ps [] [] [].
Proof.
  split; [reflexivity| | |].
  - intros [|k] i j; discriminate.
  - intros [|i] j u v; discriminate.
  - intros [|j] u; discriminate.
Qed.

Lemma nth_snoc {A} (l : list A) x k y : nth_error (l ++ [x]) k = Some y -> nth_error l k = Some y \/ k = length l /\ y = x.
Proof.
  intros H. destruct (Nat.lt_ge_cases k (length l)) as [L|L]; [left; rewrite nth_error_app1 in H by exact L; exact H|right].
  rewrite nth_error_app2 in H by exact L. destruct (k - length l) as [|n] eqn:X; [|destruct n; discriminate].
  injection H as <-. split; [lia|reflexivity].
Qed.
Lemma nth_pre {A} (l r : list A) k y : nth_error l k = Some y -> nth_error (l ++ r) k = Some y.
Proof. intros H. rewrite nth_error_app1; [exact H|apply nth_error_Some; congruence]. Qed.
Lemma nth_end {A} (l : list A) x : nth_error (l ++ [x]) (length l) = Some x.
Proof. rewrite nth_error_app2, Nat.sub_diag by lia. reflexivity. Qed.

Lemma Welded_hit ps ix us l i p j u : Welded ps ix us l -> nth_error ps i = Some p -> nth_error us j = Some u -> veqb u p = true ->
  Welded ps (ix ++ [i]) us (l ++ [j]).
Proof.
  intros [A B C D] Hp Hu E. split.
  - rewrite !app_length, A. reflexivity.
  - intros k i' j' Hi Hj. apply nth_snoc in Hi as [Hi|[-> ->]].
    + apply nth_snoc in Hj as [Hj|[-> ->]]; [exact (B k i' j' Hi Hj)|]. exfalso. assert (length l < length ix) by (apply nth_error_Some; congruence). lia.
    + rewrite <- A, nth_end in Hj. injection Hj as <-. exists p, u. auto.
  - exact C.
  - intros j' u' H. destruct (D j' u' H) as (k & i' & H1 & H2 & H3 & H4). exists k, i'.
    split; [apply nth_pre; exact H1|]. split; [exact H2|]. split; [apply nth_pre; exact H3|].
    intros k' j'' Hk Hj. apply nth_snoc in Hj as [Hj|[-> ->]]; [exact (H4 k' j'' Hk Hj)|].
    exfalso. assert (k < length l) by (apply nth_error_Some; congruence). lia.
Qed.

Lemma Welded_lt ps ix us l k j : Welded ps ix us l -> nth_error l k = Some j -> j < length us.
Proof.
  intros W H. assert (L : k < length ix) by (rewrite <- (we_len _ _ _ _ W); apply nth_error_Some; congruence).
  destruct (nth_error ix k) as [i|] eqn:E; [|apply nth_error_None in E; lia].
  destruct (we_same _ _ _ _ W k i j E H) as (p & u & _ & Hu & _). apply nth_error_Some; congruence.
Qed.

Lemma Welded_miss ps ix us l i p : Welded ps ix us l -> nth_error ps i = Some p -> veqb p p = true ->
  (forall u, In u us -> veqb u p = false) -> Welded ps (ix ++ [i]) (us ++ [p]) (l ++ [length us]).
Proof.
  intros W Hp E Nu. assert (W' := W). destruct W as [A B C D]. split.
  - rewrite !app_length, A. reflexivity.
  - intros k i' j' Hi Hj. apply nth_snoc in Hi as [Hi|[-> ->]].
    + apply nth_snoc in Hj as [Hj|[-> ->]].
      * destruct (B k i' j' Hi Hj) as (q & u & X & Y & Z). exists q, u. split; [exact X|]. split; [apply nth_pre; exact Y|exact Z].
      * exfalso. assert (length l < length ix) by (apply nth_error_Some; congruence). lia.
    + rewrite <- A, nth_end in Hj. injection Hj as <-. exists p, p. split; [exact Hp|]. split; [apply nth_end|exact E].
  - intros a b u v Ha Hb V. apply nth_snoc in Ha as [Ha|[-> ->]]; apply nth_snoc in Hb as [Hb|[-> ->]].
    + exact (C a b u v Ha Hb V).
    + rewrite (Nu u (nth_error_In _ _ Ha)) in V. discriminate.
    + rewrite veqb_sym, (Nu v (nth_error_In _ _ Hb)) in V. discriminate.
    + reflexivity.
  - intros j u H. apply nth_snoc in H as [H|[-> ->]].
    + destruct (D j u H) as (k & i' & H1 & H2 & H3 & H4). exists k, i'.
      split; [apply nth_pre; exact H1|]. split; [exact H2|]. split; [apply nth_pre; exact H3|].
      intros k' j'' Hk Hj. apply nth_snoc in Hj as [Hj|[-> ->]]; [exact (H4 k' j'' Hk Hj)|].
      exfalso. assert (k < length l) by (apply nth_error_Some; congruence). lia.
    + exists (length ix), i. split; [apply nth_end|]. split; [exact Hp|]. split; [rewrite <- A; apply nth_end|].
      intros k' j' Hk Hj. apply nth_snoc in Hj as [Hj|[-> ->]]; [exact (Welded_lt _ _ _ _ _ _ W' Hj)|]. lia.
Qed.

Lemma weld_step us um p : idx_of us um -> veqb p p = true ->
  match um_find um p with
  | Some j => exists u, nth_error us j = Some u /\ veqb u p = true
  | None => (forall u, In u us -> veqb u p = false) /\ um_find (um ++ [(p, length us)]) p = Some (length us)
  end.
Proof.
  intros I E. destruct (um_find um p) as [j|] eqn:F.
  - apply um_find_some in F as (q & Hq & V). apply I in Hq. eauto.
  - split.
    + intros u Hu. apply In_nth_error in Hu as (k & Hk). apply (um_find_none _ _ F u k). apply I. exact Hk.
    + rewrite um_find_app, F. cbn [um_find]. rewrite E. reflexivity.
Qed.

Lemma weld_welded ps : forall ix um us us' l ixd ld, NoNaN ps ix -> idx_of us um -> Welded ps ixd us ld ->
  weld ps ix um us = Some (us', l) -> Welded ps (ixd ++ ix) us' (ld ++ l).
Proof.
  induction ix as [|i ix IH]; intros um us us' l ixd ld NN I W; cbn [weld].
  - intros [= <- <-]. rewrite !app_nil_r. exact W.
  - destruct (nth_error ps i) as [p|] eqn:Hp; [|discriminate].
    assert (E : veqb p p = true) by (apply (NN i p); [left; reflexivity|exact Hp]).
    assert (NN' : NoNaN ps ix) by (intros k q Hk; apply NN; right; exact Hk).
    assert (Sx := weld_step us um p I E). destruct (um_find um p) as [j|] eqn:F.
    + destruct Sx as (u & Hu & V). rewrite F. destruct (weld ps ix um us) as [[us2 l2]|] eqn:R; [|discriminate]. intros [= <- <-].
      assert (X := IH um us us2 l2 (ixd ++ [i]) (ld ++ [j]) NN' I (Welded_hit _ _ _ _ _ _ _ _ W Hp Hu V) R).
      rewrite <- !app_assoc in X. exact X.
    + destruct Sx as (Nu & ->). destruct (weld ps ix (um ++ [(p, length us)]) (us ++ [p])) as [[us2 l2]|] eqn:R; [|discriminate]. intros [= <- <-].
      assert (X := IH _ _ us2 l2 (ixd ++ [i]) (ld ++ [length us]) NN' (idx_of_push us um p I) (Welded_miss _ _ _ _ _ _ W Hp E Nu) R).
      rewrite <- !app_assoc in X. exact X.
Qed.

Lemma idx_of_nil : idx_of [] [].
Proof. intros q [|k]; cbn; split; [intros []|discriminate|intros []|discriminate]. Qed.

(** [Welded] determines its result. *)
Lemma welded_weld ps ix us l : Welded ps ix us l -> forall ixd ixr ld lr n um,
  ix = ixd ++ ixr -> l = ld ++ lr -> length ld = length ixd -> n <= length us ->
  (forall j, In j ld -> j < n) -> (forall j, j < n -> In j ld) -> idx_of (firstn n us) um ->
  weld ps ixr um (firstn n us) = Some (us, lr).
Proof.
  intros W. destruct W as [A B C D].
  intros ixd ixr. revert ixd. induction ixr as [|i ixr IH]; intros ixd ld lr n um -> -> Ll Ln H1 H2 I.
  - rewrite !app_length in A. cbn [length] in A. assert (lr = []) by (destruct lr; [reflexivity|cbn [length] in A; lia]). subst lr.
    cbn [weld]. rewrite firstn_all2; [reflexivity|]. apply Nat.nlt_ge. intros Lt.
    destruct (nth_error us n) as [u|] eqn:E; [|apply nth_error_None in E; lia].
    destruct (D n u E) as (k & i & _ & _ & K & _). rewrite app_nil_r in K. apply nth_error_In in K. specialize (H1 n K). lia.
  - destruct lr as [|j lr]; [rewrite !app_length in A; cbn [length] in A; lia|].
    assert (Ni : nth_error (ixd ++ i :: ixr) (length ixd) = Some i) by (rewrite nth_error_app2, Nat.sub_diag by lia; reflexivity).
    assert (Nj : nth_error (ld ++ j :: lr) (length ixd) = Some j) by (rewrite <- Ll, nth_error_app2, Nat.sub_diag by lia; reflexivity).
    destruct (B _ _ _ Ni Nj) as (p & u & Hp & Hu & V). cbn [weld]. rewrite Hp.
    assert (E : veqb p p = true) by (eapply veqb_trans; [rewrite veqb_sym; exact V|exact V]).
    assert (Lf : length (firstn n us) = n) by (rewrite firstn_length; lia).
    assert (NF : forall k w, nth_error (firstn n us) k = Some w -> k < n /\ nth_error us k = Some w).
    { intros k w Hk. assert (k < n) by (rewrite <- Lf; apply nth_error_Some; congruence). split; [assumption|].
      rewrite <- (firstn_skipn n us). apply nth_pre. exact Hk. }
    assert (FN : forall k w, k < n -> nth_error us k = Some w -> nth_error (firstn n us) k = Some w).
    { intros k w Lk Hk. rewrite <- (firstn_skipn n us), nth_error_app1 in Hk by lia. exact Hk. }
    assert (Sx := weld_step (firstn n us) um p I E). destruct (um_find um p) as [j'|] eqn:F.
    + destruct Sx as (w & Hw & Vw). rewrite F. apply NF in Hw as [Lj Hw].
      assert (j' = j). { apply (C j' j w u Hw Hu). eapply veqb_trans; [exact Vw|rewrite veqb_sym; exact V]. } subst j'.
      rewrite (IH (ixd ++ [i]) (ld ++ [j]) lr n um); [reflexivity|rewrite <- app_assoc; reflexivity|rewrite <- app_assoc; reflexivity|rewrite !app_length; cbn [length]; lia|exact Ln| | |exact I].
      * intros k Hk. apply in_app_iff in Hk as [Hk|[<-|[]]]; auto.
      * intros k Hk. apply in_or_app. left. auto.
    + destruct Sx as (Nu & Fi). rewrite Fi, Lf.
      assert (Lj : n <= j). { apply Nat.nlt_ge. intros Lt. assert (X := FN j u Lt Hu). rewrite (Nu u (nth_error_In _ _ X)) in V. discriminate. }
      assert (Lu : j < length us) by (apply nth_error_Some; congruence).
      destruct (nth_error us n) as [w|] eqn:Ew; [|apply nth_error_None in Ew; lia].
      destruct (D n w Ew) as (k & i' & Hi' & Hw & Kn & Kl).
      assert (k = length ixd).
      { destruct (Nat.lt_trichotomy k (length ixd)) as [L|[L|L]]; [|exact L|].
        - rewrite nth_error_app1 in Kn by lia. specialize (H1 n (nth_error_In _ _ Kn)). lia.
        - specialize (Kl _ _ L Nj). lia. }
      subst k. rewrite Nj in Kn. injection Kn as ->. rewrite Ni in Hi'. injection Hi' as <-. rewrite Hp in Hw. injection Hw as <-.
      assert (Ef : firstn n us ++ [p] = firstn (S n) us).
      { clear - Ew. revert n Ew. induction us as [|x us IH]; intros [|n] Ew; try discriminate; [injection Ew as ->; reflexivity|].
        cbn [nth_error] in Ew. change (firstn (S (S n)) (x :: us)) with (x :: firstn (S n) us). rewrite <- (IH n Ew). reflexivity. }
      assert (I' := idx_of_push _ _ p I). rewrite Ef, Lf in *.
      rewrite (IH (ixd ++ [i]) (ld ++ [n]) lr (S n) _); [reflexivity|rewrite <- app_assoc; reflexivity|rewrite <- app_assoc; reflexivity|rewrite !app_length; cbn [length]; lia|lia| | |exact I'].
      * intros k Hk. apply in_app_iff in Hk as [Hk|[<-|[]]]; [specialize (H1 k Hk); lia|lia].
      * intros k Hk. apply in_or_app. destruct (Nat.eq_dec k n) as [->|]; [right; left; reflexivity|left; apply H2; lia].
Qed.

Lemma Welded_weld ps ix us l : Welded ps ix us l -> weld ps ix [] [] = Some (us, l).
Proof.
  intros W. apply (welded_weld ps ix us l W [] ix [] l 0 []); [reflexivity|reflexivity|reflexivity|lia|intros j []|intros j L; lia|apply idx_of_nil].
Qed.
Lemma Welded_unique ps ix us l us' l' : Welded ps ix us l -> Welded ps ix us' l' -> us = us' /\ l = l'.
Proof. intros A B. apply Welded_weld in A, B. rewrite A in B. injection B as <- <-. auto. Qed.
Lemma weld_Welded ps ix us l : NoNaN ps ix -> weld ps ix [] [] = Some (us, l) -> Welded ps ix us l.
Proof. intros NN W. exact (weld_welded ps ix [] [] us l [] [] NN idx_of_nil (Welded_nil ps) W). Qed.
Lemma Welded_exists ps ix : NoNaN ps ix -> (forall i, In i ix -> i < length ps) -> exists us l, Welded ps ix us l.
Proof.
  intros NN R. destruct (weld ps ix [] []) as [[us l]|] eqn:W; [exists us, l; exact (weld_Welded _ _ _ _ NN W)|].
  apply weld_none in W as (i & H & L). specialize (R i H). lia.
Qed.

End Weld.
