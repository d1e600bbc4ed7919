(** The threads of the parallel loops are independent of each other. *)
From Coq Require Import Bool List ZArith Arith Lia FunctionalExtensionality.
From Verif Require Import Num Vec Heap Mesh Spec Rings SmoothSpec Prog ProgP Smooth.
Import ListNotations.
Local Open Scope prog_scope.

(** ** Programs and the mesh monad *)
Section Lift.
Context {N : Num}.
Lemma with_mesh (s : mem N) m : l_mesh s = m -> mkMem m (l_cent s) (l_norm s) (l_new s) (l_area s) = s.
Proof. intros <-. destruct s; reflexivity. Qed.
Lemma solo_onm {X} (x : M N X) s : solo (onm x) s = lift_mem x s.
Proof. unfold onm, act. cbn [solo]. destruct (lift_mem x s) as [[a s']| | |]; reflexivity. Qed.
Lemma solo_lift {A B} (p : prog (mem N) A) (k : A -> prog (mem N) B) (x : M N A) (k' : A -> M N B) :
  (forall s, solo p s = lift_mem x s) -> (forall a s, solo (k a) s = lift_mem (k' a) s) -> forall s, solo (pbind p k) s = lift_mem (bind x k') s.
Proof.
  intros H1 H2 s. rewrite solo_bind, H1. unfold lift_mem, bind. destruct (x (l_mesh s)) as [[a m']| | |]; try reflexivity.
  rewrite H2. unfold lift_mem. cbn [l_mesh l_cent l_norm l_new l_area]. reflexivity.
Qed.
Lemma solo_ret {A} (a : A) (s : mem N) : solo (PRet a) s = lift_mem (ret a) s.
Proof. unfold lift_mem, ret. cbn [solo]. rewrite with_mesh; reflexivity. Qed.
Lemma solo_circ {A} st st' (body' : A -> ptr -> prog (mem N) (A * bool)) (body : A -> ptr -> M N (A * bool)) :
  (forall p s, solo (st' p) s = lift_mem (st p) s) -> (forall a p s, solo (body' a p) s = lift_mem (body a p) s) ->
  forall fuel start it acc s, solo (pcirc st' body' fuel start it acc) s = lift_mem (circ st body fuel start it acc) s.
Proof.
  intros H1 H2 fuel. induction fuel as [|fuel IH]; intros start [h|] acc s; cbn [pcirc circ]; try apply solo_ret; [apply solo_onm|].
  apply solo_lift; [intros; apply H2|]. intros [a [|]] s'; cbn [fst snd]; [apply solo_ret|].
  apply solo_lift; [intros; apply H1|]. intros n s2. apply IH.
Qed.
Lemma solo_step_v p (s : mem N) : solo (p_step_v p) s = lift_mem (step_v p) s.
Proof. unfold p_step_v, step_v. apply solo_lift; intros; apply solo_onm. Qed.
Lemma solo_dst p (s : mem N) : solo (p_dst p) s = lift_mem (he_dst p) s.
Proof. unfold p_dst, he_dst. apply solo_lift; intros; apply solo_onm. Qed.
Lemma solo_circ_v {A} v acc (body' : A -> ptr -> prog (mem N) (A * bool)) (body : A -> ptr -> M N (A * bool)) s :
  (forall a p s, solo (body' a p) s = lift_mem (body a p) s) -> solo (p_circ_v v acc body') s = lift_mem (circ_v v acc body) s.
Proof.
  intros H. unfold p_circ_v, circ_v. apply solo_lift; [intros; apply solo_onm|]. intros h s1.
  apply solo_lift; [intros; apply solo_onm|]. intros fr s2. apply solo_circ; [apply solo_step_v|exact H].
Qed.
Lemma solo_circ_f {A} v acc (body' : A -> ptr -> prog (mem N) (A * bool)) (body : A -> ptr -> M N (A * bool)) s :
  (forall a p s, solo (body' a p) s = lift_mem (body a p) s) -> solo (p_circ_f v acc body') s = lift_mem (circ_f v acc body) s.
Proof.
  intros H. unfold p_circ_f, circ_f. apply solo_lift; [intros; apply solo_onm|]. intros h s1.
  apply solo_lift; [intros; apply solo_onm|]. intros fr s2. apply solo_circ; [intros; apply solo_onm|exact H].
Qed.
Lemma solo_isBoundary v (s : mem N) : solo (p_isBoundary v) s = lift_mem (v_isBoundary v) s.
Proof. apply solo_circ_v. intros a p s1. apply solo_lift; [intros; apply solo_onm|]. intros b s2. apply solo_ret. Qed.
Lemma solo_cotWeight p (s : mem N) : solo (p_cotWeight p) s = lift_mem (he_cotWeight p) s.
Proof.
  unfold p_cotWeight, he_cotWeight.
  repeat (first [apply solo_lift; [intros; first [apply solo_onm | apply solo_dst]|intros ? ?]|idtac]). apply solo_ret.
Qed.
End Lift.

(** ** Local threads *)
Section Loc.
Context {N : Num}.
Variable I : mem N -> Prop.
Variable R : nat -> mem N -> mem N -> Prop.
Hypothesis Rr : forall i s, R i s s.
Notation Loc := (Local I R).

Lemma local_bind i {A B} (p : prog (mem N) A) (k : A -> prog (mem N) B) : Loc i p -> (forall x, Loc i (k x)) -> Loc i (pbind p k).
Proof. intros H K. induction H as [a|X c k' H1 H2 IH H3]; cbn [pbind]; [apply K|]. apply LAct; [exact H1| |exact H3]. intros s x s' Is E. apply (IH s x s' Is E). Qed.

Definition rlift {X} (r : res X) (s : mem N) : res (X * mem N) :=
  match r with Ok x => Ok (x, s) | UB u => UB u | Abort u => Abort u | NoFuel => NoFuel end.
(** An action that gives the same answer and changes nothing in all states of interest. *)
Definition steady {X} (c : mem N -> res (X * mem N)) : Prop := exists r, forall s, I s -> c s = rlift r s.
Lemma local_steady_bind i {X B} (c : mem N -> res (X * mem N)) (k : X -> prog (mem N) B) : steady c ->
  (forall x, (forall s, I s -> c s = Ok (x, s)) -> Loc i (k x)) -> Loc i (pbind (act c) k).
Proof.
  intros [r H] K. unfold act. cbn [pbind]. apply LAct.
  - intros s x s' Is E. rewrite (H s Is) in E. destruct r; cbn in E; try discriminate. injection E as <- <-. split; [exact Is|]. intros j _. apply Rr.
  - intros s x s' Is E. rewrite (H s Is) in E. destruct r; cbn in E; try discriminate. injection E as <- <-. apply K. intros t It. rewrite (H t It). reflexivity.
  - intros s t Is It Rst. rewrite (H s Is), (H t It). destruct r; cbn; auto.
Qed.
Lemma local_steady i {X} (c : mem N -> res (X * mem N)) : steady c -> Loc i (act c).
Proof. intros H. change (act c) with (pbind (act c) PRet). apply local_steady_bind; [exact H|]. intros x _. apply LRet. Qed.
Lemma local_circ i {A} st (body : A -> ptr -> prog (mem N) (A * bool)) : (forall p, Loc i (st p)) -> (forall a p, Loc i (body a p)) ->
  forall fuel start it acc, Loc i (pcirc st body fuel start it acc).
Proof.
  intros H1 H2 fuel. induction fuel as [|fuel IH]; intros start [h|] acc; cbn [pcirc]; try apply LRet.
  - apply local_steady. exists NoFuel. reflexivity.
  - apply local_bind; [apply H2|]. intros [a [|]]; cbn [fst snd]; [apply LRet|]. apply local_bind; [apply H1|]. intros n. apply IH.
Qed.
End Loc.

(** Accesses that do not look at positions. *)
Section Acc.
Context {N : Num}.
Lemma posonly_refl m : posonly m m.
Proof. split; [reflexivity|destruct m; reflexivity]. Qed.
Lemma posonly_trans a b c : posonly a b -> posonly b c -> posonly a c.
Proof.
  intros [p1 e1] [p2 e2]. assert (V : m_verts b = m_verts a) by (rewrite e1; reflexivity). split.
  - intros v H. rewrite p2 by (rewrite V; exact H). apply p1, H.
  - destruct a, b, c. cbn in *. injection e1 as -> -> -> -> -> -> -> -> -> -> -> -> -> -> -> -> -> -> ->. injection e2 as -> -> -> -> -> -> -> -> -> -> -> -> -> -> -> -> -> -> ->. reflexivity.
Qed.
Lemma posonly_eq m a b : posonly m a -> posonly m b -> (forall v, In v (m_verts m) -> v_pos a v = v_pos b v) -> a = b.
Proof.
  intros [p1 e1] [p2 e2] H. assert (E : v_pos a = v_pos b).
  { apply functional_extensionality. intros v. destruct (in_dec Nat.eq_dec v (m_verts m)) as [D | D]; [apply H, D|]. rewrite p1, p2 by exact D. reflexivity. }
  rewrite e1, e2, E. reflexivity.
Qed.

Definition ro {X} (x : M N X) : Prop := forall m a m', x m = Ok (a, m') -> m' = m.
(** Its result is the same after moving vertices. *)
Definition nopos {X} (x : M N X) : Prop := forall m0 m, posonly m0 m -> exists r, (forall n, posonly m0 n -> x n = match r with Ok a => Ok (a, n) | UB u => UB u | Abort u => Abort u | NoFuel => NoFuel end).
Lemma nopos_gen {X} (x : M N X) : (forall m0, exists r, forall n, posonly m0 n -> x n = match r with Ok a => Ok (a, n) | UB u => UB u | Abort u => Abort u | NoFuel => NoFuel end) -> nopos x.
Proof. intros H m0 m _. apply H. Qed.
Ltac np := intros m0; match goal with |- exists r, forall n, posonly m0 n -> ?x n = _ =>
  exists (match x m0 with Ok (a, _) => Ok a | UB u => UB u | Abort u => Abort u | NoFuel => NoFuel end) end; intros n [_ ->].
Lemma np_h {X} (fld : mesh N -> nat -> X) p : (forall m0 n, posonly m0 n -> fld n = fld m0) -> nopos (hrd fld p).
Proof.
  intros H. apply nopos_gen. intros m0. destruct p as [a|]; [|exists (UB NullDeref); reflexivity].
  exists (if h_live m0 a then Ok (fld m0 a) else UB Dangling). intros n Hn. unfold hrd. rewrite (H _ _ Hn). assert (E : h_live n = h_live m0) by (destruct Hn as [_ ->]; reflexivity). rewrite E. destruct (h_live m0 a); reflexivity.
Qed.
Lemma np_v {X} (fld : mesh N -> nat -> X) p : (forall m0 n, posonly m0 n -> fld n = fld m0) -> nopos (vrd fld p).
Proof.
  intros H. apply nopos_gen. intros m0. destruct p as [a|]; [|exists (UB NullDeref); reflexivity].
  exists (if v_live m0 a then Ok (fld m0 a) else UB Dangling). intros n Hn. unfold vrd. rewrite (H _ _ Hn). assert (E : v_live n = v_live m0) by (destruct Hn as [_ ->]; reflexivity). rewrite E. destruct (v_live m0 a); reflexivity.
Qed.
Lemma np_f {X} (fld : mesh N -> nat -> X) p : (forall m0 n, posonly m0 n -> fld n = fld m0) -> nopos (frd fld p).
Proof.
  intros H. apply nopos_gen. intros m0. destruct p as [a|]; [|exists (UB NullDeref); reflexivity].
  exists (if f_live m0 a then Ok (fld m0 a) else UB Dangling). intros n Hn. unfold frd. rewrite (H _ _ Hn). assert (E : f_live n = f_live m0) by (destruct Hn as [_ ->]; reflexivity). rewrite E. destruct (f_live m0 a); reflexivity.
Qed.
Lemma np_src p : nopos (he_src p). Proof. apply np_h. intros m0 n [_ ->]; reflexivity. Qed.
Lemma np_next p : nopos (he_next p). Proof. apply np_h. intros m0 n [_ ->]; reflexivity. Qed.
Lemma np_rev p : nopos (he_rev p). Proof. apply np_h. intros m0 n [_ ->]; reflexivity. Qed.
Lemma np_face p : nopos (he_face p). Proof. apply np_h. intros m0 n [_ ->]; reflexivity. Qed.
Lemma np_bd p : nopos (he_bd p). Proof. apply np_h. intros m0 n [_ ->]; reflexivity. Qed.
Lemma np_vhe p : nopos (ve_he p). Proof. apply np_v. intros m0 n [_ ->]; reflexivity. Qed.
Lemma np_lock p : nopos (ve_lock p). Proof. apply np_v. intros m0 n [_ ->]; reflexivity. Qed.
Lemma np_fhe p : nopos (fa_he p). Proof. apply np_f. intros m0 n [_ ->]; reflexivity. Qed.
Lemma np_fidx p : nopos (fa_idx p). Proof. apply np_f. intros m0 n [_ ->]; reflexivity. Qed.
Lemma np_fresh : nopos (get m_fresh). Proof. apply nopos_gen. intros m0. exists (Ok (m_fresh m0)). intros n [_ ->]. reflexivity. Qed.
Lemma np_lift {X} (o : option X) : nopos (lift o). Proof. apply nopos_gen. intros m0. destruct o as [x|]; [exists (Ok x)|exists (Abort AThrow)]; reflexivity. Qed.
Lemma np_abort {X} k : nopos (abort k : M N X). Proof. apply nopos_gen. intros m0. exists (Abort k). reflexivity. Qed.
Lemma mesh_vertex_eq (m : mesh N) i : mesh_vertex (Z.of_nat i) m = match nth_error (m_verts m) i with Some a => Ok (Some a, m) | None => Abort AAssert end.
Proof.
  unfold mesh_vertex. rewrite bind_get. destruct (nth_error (m_verts m) i) as [a|] eqn:E.
  - assert (i < length (m_verts m)) by (apply nth_error_Some; congruence). rewrite bind_assert by (apply andb_true_intro; split; [apply Z.leb_le|apply Z.ltb_lt]; lia). apply vec_at_ok, E.
  - apply nth_error_None in E. unfold bind, assertion. destruct (Z.ltb_spec (Z.of_nat i) (Z.of_nat (length (m_verts m)))); [lia|]. rewrite andb_false_r. reflexivity.
Qed.
Lemma mesh_face_eq (m : mesh N) i : mesh_face (Z.of_nat i) m = match nth_error (m_faces m) i with Some a => Ok (Some a, m) | None => Abort AAssert end.
Proof.
  unfold mesh_face. rewrite bind_get. destruct (nth_error (m_faces m) i) as [a|] eqn:E.
  - assert (i < length (m_faces m)) by (apply nth_error_Some; congruence). rewrite bind_assert by (apply andb_true_intro; split; [apply Z.leb_le|apply Z.ltb_lt]; lia). apply vec_at_ok, E.
  - apply nth_error_None in E. unfold bind, assertion. destruct (Z.ltb_spec (Z.of_nat i) (Z.of_nat (length (m_faces m)))); [lia|]. rewrite andb_false_r. reflexivity.
Qed.
Lemma np_vertex i : nopos (mesh_vertex (Z.of_nat i)).
Proof.
  apply nopos_gen. intros m0. exists (match nth_error (m_verts m0) i with Some a => Ok (Some a) | None => Abort AAssert end).
  intros n Hn. rewrite mesh_vertex_eq. assert (E : m_verts n = m_verts m0) by (destruct Hn as [_ ->]; reflexivity). rewrite E. destruct (nth_error _ _); reflexivity.
Qed.
Lemma np_mface i : nopos (mesh_face (Z.of_nat i)).
Proof.
  apply nopos_gen. intros m0. exists (match nth_error (m_faces m0) i with Some a => Ok (Some a) | None => Abort AAssert end).
  intros n Hn. rewrite mesh_face_eq. assert (E : m_faces n = m_faces m0) by (destruct Hn as [_ ->]; reflexivity). rewrite E. destruct (nth_error _ _); reflexivity.
Qed.

(** Steadiness, if the mesh keeps its structure ([nopos]) or does not change at all. *)
Lemma steady_nopos (I : mem N -> Prop) m0 {X} (x : M N X) : (forall s, I s -> posonly m0 (l_mesh s)) -> nopos x -> steady I (lift_mem x).
Proof.
  intros H Hx. destruct (Hx m0 m0 (posonly_refl m0)) as [r Hr]. exists r. intros s Is. unfold lift_mem. rewrite (Hr _ (H s Is)).
  destruct r; try reflexivity. cbn. rewrite with_mesh; reflexivity.
Qed.
Lemma steady_const (I : mem N -> Prop) m0 {X} (x : M N X) : (forall s, I s -> l_mesh s = m0) -> ro x -> steady I (lift_mem x).
Proof.
  intros H Hx. exists (match x m0 with Ok (a, _) => Ok a | UB u => UB u | Abort u => Abort u | NoFuel => NoFuel end).
  intros s Is. unfold lift_mem. rewrite (H s Is). destruct (x m0) as [[a m']| | |] eqn:E; try reflexivity. rewrite (Hx _ _ _ E). cbn. rewrite with_mesh; [reflexivity|apply H, Is].
Qed.
Lemma ro_nopos {X} (x : M N X) : nopos x -> ro x.
Proof. intros H m a m' E. destruct (H m m (posonly_refl m)) as [r Hr]. rewrite (Hr m (posonly_refl m)) in E. destruct r; congruence. Qed.
Lemma ro_pos p : ro (ve_pos p : M N (vec N)).
Proof. intros m a m' E. unfold ve_pos, vrd in E. destruct p as [v|]; [|discriminate]. destruct (v_live m v); [|discriminate]. congruence. Qed.
End Acc.
#[export] Hint Resolve np_src np_next np_rev np_face np_bd np_vhe np_lock np_fhe np_fidx np_fresh np_lift np_abort np_vertex np_mface : np.

(** ** The loops that fill an array: the mesh is not written. *)
Section LoopA.
Context {N : Num}.
Variable m0 : mesh N.
Variable n : nat.
Definition IA (s : mem N) : Prop := l_mesh s = m0 /\ length (l_cent s) = n /\ length (l_norm s) = n /\ length (l_new s) = n /\ length (l_area s) = n.
Definition RA (i : nat) (s t : mem N) : Prop :=
  nth_error (l_cent s) i = nth_error (l_cent t) i /\ nth_error (l_norm s) i = nth_error (l_norm t) i /\
  nth_error (l_new s) i = nth_error (l_new t) i /\ nth_error (l_area s) i = nth_error (l_area t) i.
Lemma RAr i s : RA i s s. Proof. repeat split. Qed.
Lemma RAs i s t : RA i s t -> RA i t s. Proof. intros (A & B & C & D). repeat split; congruence. Qed.
Lemma RAt i s t u : RA i s t -> RA i t u -> RA i s u. Proof. intros (A & B & C & D) (A' & B' & C' & D'). repeat split; congruence. Qed.
Notation Loc := (Local IA RA).
Lemma locA i {X} (x : M N X) : ro x -> Loc i (onm x).
Proof. intros H. apply local_steady; [apply RAr|]. apply (steady_const IA m0); [intros s Is; apply Is|exact H]. Qed.
Lemma locA_np i {X} (x : M N X) : nopos x -> Loc i (onm x).
Proof. intros H. apply locA, ro_nopos, H. Qed.
Lemma set_lt {X} (l : list X) i x j : i < length l -> nth_error (setnth l i x) j = if Nat.eqb i j then Some x else nth_error l j.
Proof.
  intros H. destruct (Nat.eqb_spec i j) as [<- | D]; [|apply setnth_other, D].
  destruct (nth_error l i) as [y|] eqn:E; [apply (setnth_same _ _ _ _ E)|]. apply nth_error_None in E. lia.
Qed.
Ltac arr := apply LAct;
  [ intros s x' s' Is E; destruct Is as (Im & L1 & L2 & L3 & L4);
    match type of E with (if Nat.ltb ?i ?l then _ else _) = _ => destruct (Nat.ltb_spec i l); [|discriminate] end; injection E as <- <-;
    split; [unfold IA; cbn; rewrite ?setnth_length; auto 6|];
    intros j D; unfold RA; cbn; rewrite ?setnth_other by auto; auto
  | intros; apply LRet
  | intros s t (Is & L1 & L2 & L3 & L4) (It & K1 & K2 & K3 & K4) (A & B & C & D);
    match goal with |- context [Nat.ltb ?i ?l] => destruct (Nat.ltb_spec i l) end;
    match goal with |- context [Nat.ltb ?i ?l] => destruct (Nat.ltb_spec i l) end; try lia; [|reflexivity];
    split; [reflexivity|]; unfold RA; cbn; rewrite ?set_lt by lia; rewrite ?Nat.eqb_refl; auto ].
Lemma locA_cent i x : Loc i (arr_set l_cent set_cent i x). Proof. unfold arr_set, act. arr. Qed.
Lemma locA_norm i x : Loc i (arr_set l_norm set_norm i x). Proof. unfold arr_set, act. arr. Qed.
Lemma locA_area i x : Loc i (arr_set l_area set_area i x). Proof. unfold arr_set, act. arr. Qed.
Ltac la := repeat first
  [ apply LRet
  | apply locA_np; solve [eauto with np]
  | apply locA, ro_pos
  | apply locA_cent | apply locA_norm | apply locA_area
  | apply local_circ; intros
  | apply local_bind; [|intros]
  | match goal with |- Local _ _ _ (if ?b then _ else _) => destruct b end
  | match goal with |- Local _ _ _ (match ?b with _ => _ end) => destruct b end
  | progress unfold p_circ_v, p_circ_f, p_step_v, p_step_f, p_dst, p_cotWeight ].
Lemma loc_lap_centroid cot i : Loc i (lap_centroid cot i).
Proof. unfold lap_centroid. la; apply RAr. Qed.
Lemma loc_taubin_centroid i : Loc i (taubin_centroid i).
Proof. unfold taubin_centroid. la; apply RAr. Qed.
Lemma loc_dn_face i : Loc i (dn_face i).
Proof. unfold dn_face. la; apply RAr. Qed.

Lemma IA0 : IA (mem0 m0 n).
Proof. unfold IA, mem0. cbn. rewrite !repeat_length. auto. Qed.
Lemma list_ext {X} (a b : list X) : length a = length b -> (forall i, i < length a -> nth_error a i = nth_error b i) -> a = b.
Proof.
  revert b; induction a as [|x a IH]; intros [|y b] L H; try discriminate; [reflexivity|].
  assert (E := H 0 ltac:(cbn; lia)). cbn in E. injection E as ->. f_equal. apply IH; [cbn in L; lia|]. intros i Hi. apply (H (S i)). cbn. lia.
Qed.
(** Two states with the same cells are the same. *)
Lemma IA_eq s t : IA s -> IA t -> (forall i, i < n -> RA i s t) -> s = t.
Proof.
  intros (A & B & C & D & E) (A' & B' & C' & D' & E') H. destruct s as [sm s1 s2 s3 s4], t as [tm t1 t2 t3 t4]. cbn in *.
  f_equal; [congruence| | | |]; apply list_ext; try congruence; intros i Hi; destruct (H i ltac:(congruence)) as (Q1 & Q2 & Q3 & Q4); cbn in *; assumption.
Qed.
End LoopA.

(** ** The filter loop: reads centroids, normals and areas of all faces, writes newNormals. *)
Section LoopF.
Context {N : Num}.
Variable m0 : mesh N.
Variable n : nat.
Variable s0 : mem N.
Definition IF (s : mem N) : Prop := l_mesh s = m0 /\ length (l_new s) = n /\ l_cent s = l_cent s0 /\ l_norm s = l_norm s0 /\ l_area s = l_area s0.
Definition RF (i : nat) (s t : mem N) : Prop := nth_error (l_new s) i = nth_error (l_new t) i.
Lemma RFr i s : RF i s s. Proof. reflexivity. Qed.
Notation Loc := (Local IF RF).
Lemma locF_np i {X} (x : M N X) : nopos x -> Loc i (onm x).
Proof. intros H. apply local_steady; [apply RFr|]. apply (steady_const IF m0); [intros s Is; apply Is|apply ro_nopos, H]. Qed.
Lemma locF_arr i {X} (f : mem N -> list X) j : (forall s, IF s -> f s = f s0) -> Loc i (arr_get f j).
Proof.
  intros H. apply local_steady; [apply RFr|]. exists (if (j <? 0)%Z then UB OutOfBounds else match nth_error (f s0) (Z.to_nat j) with Some x => Ok x | None => UB OutOfBounds end).
  intros s Is. rewrite (H s Is). destruct (j <? 0)%Z; [reflexivity|]. destruct (nth_error (f s0) (Z.to_nat j)); reflexivity.
Qed.
Lemma locF_new i x : Loc i (arr_set l_new set_new i x).
Proof.
  unfold arr_set, act. apply LAct.
  - intros s y s' (A & B & C & D & E) Eq. destruct (Nat.ltb_spec i (length (l_new s))); [|discriminate]. injection Eq as <- <-.
    split; [unfold IF; cbn; rewrite setnth_length; auto 6|]. intros j Dj. unfold RF; cbn. rewrite setnth_other by auto. reflexivity.
  - intros; apply LRet.
  - intros s t (A & B & C & D & E) (A' & B' & C' & D' & E') Q. rewrite B, B'. destruct (Nat.ltb_spec i n); [|reflexivity]. split; [reflexivity|].
    unfold RF; cbn. rewrite !set_lt by lia. rewrite Nat.eqb_refl. reflexivity.
Qed.
Ltac lf := repeat first
  [ apply LRet
  | apply locF_np; solve [eauto with np]
  | apply locF_arr; solve [intros ? (? & ? & ? & ? & ?); assumption]
  | apply locF_new
  | apply local_circ; intros
  | apply local_bind; [|intros]
  | match goal with |- Local _ _ _ (if ?b then _ else _) => destruct b end
  | progress unfold p_circ_v, p_circ_f, p_step_v, p_step_f, p_dst, p_cotWeight ].
Lemma loc_dn_filter wgt i : Loc i (dn_filter wgt i).
Proof. unfold dn_filter. lf; apply RFr. Qed.
Lemma IF_eq s t : IF s -> IF t -> (forall i, i < n -> RF i s t) -> s = t.
Proof.
  intros (A & B & C & D & E) (A' & B' & C' & D' & E') H. destruct s as [sm s1 s2 s3 s4], t as [tm t1 t2 t3 t4]. cbn in *.
  f_equal; try congruence. apply list_ext; [congruence|]. intros i Hi. apply (H i). congruence.
Qed.
End LoopF.

(** ** The loops that move vertices. *)
Section LoopB.
Context {N : Num}.
Variable m0 : mesh N.
Variable s0 : mem N.
Hypothesis ND : NoDup (m_verts m0).
Definition IB (s : mem N) : Prop := posonly m0 (l_mesh s) /\ l_cent s = l_cent s0 /\ l_norm s = l_norm s0 /\ l_new s = l_new s0 /\ l_area s = l_area s0.
Definition RB (i : nat) (s t : mem N) : Prop := forall v, nth_error (m_verts m0) i = Some v -> v_pos (l_mesh s) v = v_pos (l_mesh t) v.
Lemma RBr i s : RB i s s. Proof. intros v _; reflexivity. Qed.
Lemma RBs i s t : RB i s t -> RB i t s. Proof. intros H v E; symmetry; apply H, E. Qed.
Lemma RBt i s t u : RB i s t -> RB i t u -> RB i s u. Proof. intros H K v E. rewrite (H v E). apply K, E. Qed.
Notation Loc := (Local IB RB).
Lemma locB_np i {X} (x : M N X) : nopos x -> Loc i (onm x).
Proof. intros H. apply local_steady; [apply RBr|]. apply (steady_nopos IB m0); [intros s Is; apply Is|exact H]. Qed.
Lemma locB_arr i {X} (f : mem N -> list X) j : (forall s, IB s -> f s = f s0) -> Loc i (arr_get f j).
Proof.
  intros H. apply local_steady; [apply RBr|]. exists (if (j <? 0)%Z then UB OutOfBounds else match nth_error (f s0) (Z.to_nat j) with Some x => Ok x | None => UB OutOfBounds end).
  intros s Is. rewrite (H s Is). destruct (j <? 0)%Z; [reflexivity|]. destruct (nth_error (f s0) (Z.to_nat j)); reflexivity.
Qed.
Lemma locB_vertex i {B} (k : ptr -> prog (mem N) B) : (forall v, nth_error (m_verts m0) i = Some v -> Loc i (k (Some v))) -> Loc i (pbind (onm (mesh_vertex (Z.of_nat i))) k).
Proof.
  intros H. unfold onm. apply local_steady_bind; [apply RBr|apply (steady_nopos IB m0); [intros s Is; apply Is|apply np_vertex]|].
  intros x Hx. destruct (nth_error (m_verts m0) i) as [v|] eqn:E.
  - assert (Is : IB (mkMem m0 (l_cent s0) (l_norm s0) (l_new s0) (l_area s0))) by (split; [apply posonly_refl|cbn; auto]).
    specialize (Hx _ Is). unfold lift_mem in Hx. cbn [l_mesh] in Hx. rewrite mesh_vertex_eq, E in Hx. injection Hx as <-. apply H. reflexivity.
  - exfalso. assert (Is : IB (mkMem m0 (l_cent s0) (l_norm s0) (l_new s0) (l_area s0))) by (split; [apply posonly_refl|cbn; auto]).
    specialize (Hx _ Is). unfold lift_mem in Hx. cbn [l_mesh] in Hx. rewrite mesh_vertex_eq, E in Hx. discriminate.
Qed.
Lemma IB_live s v : IB s -> v_live (l_mesh s) v = v_live m0 v.
Proof. intros [[_ E] _]. rewrite E. reflexivity. Qed.
Lemma locB_pos i v : nth_error (m_verts m0) i = Some v -> Loc i (onm (ve_pos (Some v))).
Proof.
  intros E. unfold onm, act. apply LAct.
  - intros s x s' Is H. unfold lift_mem, ve_pos, vrd in H. destruct (v_live (l_mesh s) v); [|discriminate]. rewrite with_mesh in H by reflexivity. injection H as _ <-. split; [exact Is|]. intros j _. apply RBr.
  - intros; apply LRet.
  - intros s t Is It Rst. unfold lift_mem, ve_pos, vrd. rewrite !IB_live by assumption. destruct (v_live m0 v); [|reflexivity]. rewrite !with_mesh by reflexivity. split; [apply Rst, E|exact Rst].
Qed.
Lemma posonly_set m v x : posonly m0 m -> In v (m_verts m0) -> posonly m0 (set_v_pos v x m).
Proof.
  intros [p e] I. split.
  - intros w Hw. cbn [v_pos set_v_pos]. rewrite fupd_other; [apply p, Hw|]. intros ->. contradiction.
  - rewrite e at 1. reflexivity.
Qed.
Lemma locB_set i v x : nth_error (m_verts m0) i = Some v -> Loc i (onm (w_pos (Some v) x)).
Proof.
  intros E. unfold onm, act. apply LAct.
  - intros s y s' Is H. unfold lift_mem, w_pos, vwr in H. destruct (v_live (l_mesh s) v); [|discriminate]. injection H as _ <-.
    destruct Is as (P & A & B & C & D). split; [split; [cbn [l_mesh]; apply posonly_set; [exact P|apply (nth_error_In _ _ E)]|cbn; auto]|].
    intros j Dj w Ew. cbn [l_mesh v_pos set_v_pos]. rewrite fupd_other; [reflexivity|]. intros ->. apply Dj.
    apply (proj1 (NoDup_nth_error (m_verts m0)) ND); [apply nth_error_Some; congruence|congruence].
  - intros; apply LRet.
  - intros s t Is It Rst. unfold lift_mem, w_pos, vwr. rewrite !IB_live by assumption. destruct (v_live m0 v); [|reflexivity]. split; [reflexivity|].
    intros w Ew. rewrite E in Ew. injection Ew as <-. cbn [l_mesh v_pos set_v_pos]. rewrite !fupd_same. reflexivity.
Qed.
Ltac lb := repeat first
  [ apply LRet
  | apply locB_vertex; intros
  | apply locB_np; solve [eauto with np]
  | apply locB_arr; solve [intros ? (? & ? & ? & ? & ?); assumption]
  | apply locB_pos; assumption
  | apply locB_set; assumption
  | apply local_circ; intros
  | apply local_bind; [|intros]
  | match goal with |- Local _ _ _ (if ?b then _ else _) => destruct b end
  | progress unfold p_circ_v, p_circ_f, p_step_v, p_step_f, p_dst, p_cotWeight, p_isBoundary ].
Lemma loc_lap_update eps i : Loc i (lap_update eps i).
Proof. unfold lap_update. lb; apply RBr. Qed.
Lemma loc_dn_update i : Loc i (dn_update i).
Proof. unfold dn_update. lb; apply RBr. Qed.
Lemma IB_eq s t : IB s -> IB t -> (forall i, i < length (m_verts m0) -> RB i s t) -> s = t.
Proof.
  intros (A & B & C & D & E) (A' & B' & C' & D' & E') H. assert (Em : l_mesh s = l_mesh t).
  { apply (posonly_eq m0); [exact A|exact A'|]. intros v Hv. apply In_nth_error in Hv as [i Hi]. apply (H i); [apply nth_error_Some; congruence|exact Hi]. }
  destruct s as [sm s1 s2 s3 s4], t as [tm t1 t2 t3 t4]. cbn in *. f_equal; congruence.
Qed.
End LoopB.
