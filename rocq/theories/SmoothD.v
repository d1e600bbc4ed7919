(** Outcomes of the parallel loops on well-formed meshes. *)
From Coq Require Import Bool List ZArith Arith Lia.
From Verif Require Import Num Vec Heap Mesh Spec Orbit Rings Prog ProgP SmoothSpec Smooth SmoothP.
Import ListNotations.
Local Open Scope prog_scope.

Section D.
Context {N : Num}.

Lemma posonly_wf (m m' : mesh N) : WF m -> posonly m m' -> WF m'.
Proof.
  intros W [_ ->]. constructor; [exact (wf_v_nodup m W)|exact (wf_h_nodup m W)|exact (wf_f_nodup m W)|exact (wf_v_elem m W)|exact (wf_h_elem m W)|exact (wf_f_elem m W)
   |exact (wf_src m W)|exact (wf_next m W)|exact (wf_rev m W)|exact (wf_face m W)|exact (wf_rev_invol m W)|exact (wf_dst m W)|exact (wf_vhe m W)|exact (wf_fhe m W)
   |exact (wf_face_next m W)|exact (wf_face_orbit m W)|exact (wf_vertex_orbit m W)].
Qed.
Lemma posonly_valid (m m' : mesh N) : Valid m -> posonly m m' -> Valid m'.
Proof.
  intros V P. assert (W := posonly_wf m m' (valid_wf m V) P). destruct P as [_ E]. constructor; [exact W| | |]; rewrite E; [exact (valid_noloops m V)|exact (valid_noparallel m V)|exact (valid_tri m V)].
Qed.
Lemma posonly_bd (m m' : mesh N) v : posonly m m' -> (on_boundary m' v <-> on_boundary m v).
Proof. intros [_ ->]. reflexivity. Qed.
Lemma posonly_lock (m m' : mesh N) v : posonly m m' -> v_lock m' v = v_lock m v.
Proof. intros [_ ->]. reflexivity. Qed.
Lemma posonly_verts (m m' : mesh N) : posonly m m' -> m_verts m' = m_verts m.
Proof. intros [_ ->]. reflexivity. Qed.
Lemma posonly_faces (m m' : mesh N) : posonly m m' -> m_faces m' = m_faces m.
Proof. intros [_ ->]. reflexivity. Qed.

(** ** One thread alone *)
Definition pos_at (m : mesh N) (p : ptr) : vec N := match p with Some v => v_pos m v | None => vzero end.
Definition wgt (m : mesh N) (cot : bool) (y : nat) : num :=
  if cot then match he_cotWeight (Some y) m with Ok (w, _) => w | _ => nzero end else none_.
Definition wsum (m : mesh N) (cot : bool) (l : list nat) : vec N * num :=
  fold_left (fun acc y => (vadd (fst acc) (vscale (wgt m cot y) (pos_at m (dst_of m y))), nadd (snd acc) (wgt m cot y))) l (vzero, nzero).

Lemma bfold_fold {A} (f : A -> nat -> A) l acc : bfold (fun a y => (f a y, false)) acc l = fold_left f l acc.
Proof. revert acc; induction l as [|y l IH]; intros acc; cbn [bfold fold_left fst snd]; auto. Qed.

Section W.
Variable m : mesh N.
Hypothesis W : WF m.
Lemma dst_pos y : In y (m_hes m) -> exists d, dst_of m y = Some d /\ In d (m_verts m) /\ he_dst (Some y) m = Ok (Some d, m) /\ ve_pos (Some d) m = Ok (v_pos m d, m).
Proof.
  intros Hi. destruct (wf_rev m W y Hi) as (r & Er & Ir). destruct (wf_src m W r Ir) as (d & Ed & Id). exists d. unfold dst_of. rewrite Er, Ed.
  split; [reflexivity|]. split; [exact Id|]. split; [rewrite (dst_ok m W y r Hi Er), Ed; reflexivity|]. apply r_pos, (v_alive m W), Id.
Qed.
Lemma cot_ok y : In y (m_hes m) -> he_cotWeight (Some y) m = Ok (wgt m true y, m).
Proof.
  intros Hi. assert (E : exists w, he_cotWeight (Some y) m = Ok (w, m)).
  { unfold he_cotWeight. destruct (wf_src m W y Hi) as (v0 & E0 & I0). rewrite (bind_ok _ _ _ _ _ (r_src m y (h_alive m W y Hi))), E0.
    destruct (dst_pos y Hi) as (v1 & E1 & I1 & D1 & P1). rewrite (bind_ok _ _ _ _ _ D1).
    destruct (wf_next m W y Hi) as (n & En & In_). rewrite (bind_ok _ _ _ _ _ (r_next m y (h_alive m W y Hi))), En.
    destruct (dst_pos n In_) as (v2 & E2 & I2 & D2 & P2). rewrite (bind_ok _ _ _ _ _ D2).
    destruct (wf_rev m W y Hi) as (r & Er & Ir). rewrite (bind_ok _ _ _ _ _ (r_rev m y (h_alive m W y Hi))), Er.
    destruct (wf_next m W r Ir) as (rn & Ern & Irn). rewrite (bind_ok _ _ _ _ _ (r_next m r (h_alive m W r Ir))), Ern.
    destruct (dst_pos rn Irn) as (v3 & E3 & I3 & D3 & P3). rewrite (bind_ok _ _ _ _ _ D3).
    rewrite (bind_ok _ _ _ _ _ (r_pos m v0 (v_alive m W v0 I0))), (bind_ok _ _ _ _ _ P1), (bind_ok _ _ _ _ _ P2), (bind_ok _ _ _ _ _ P3). eexists. reflexivity. }
  destruct E as [w E]. unfold wgt. rewrite E. reflexivity.
Qed.
Lemma lap_body (cot : bool) y (acc : vec N * num) : In y (m_hes m) ->
  bind (if cot then he_cotWeight (Some y) else ret none_) (fun w => bind (he_dst (Some y)) (fun d => bind (ve_pos d) (fun p =>
    ret ((vadd (fst acc) (vscale w p), nadd (snd acc) w), false)))) m =
  Ok (((vadd (fst acc) (vscale (wgt m cot y) (pos_at m (dst_of m y))), nadd (snd acc) (wgt m cot y)), false), m).
Proof.
  intros Hi. assert (E : (if cot then he_cotWeight (Some y) else ret none_) m = Ok (wgt m cot y, m)) by (destruct cot; [apply cot_ok, Hi|reflexivity]).
  rewrite (bind_ok _ _ _ _ _ E). destruct (dst_pos y Hi) as (d & Ed & Id & D & P). rewrite (bind_ok _ _ _ _ _ D), (bind_ok _ _ _ _ _ P), Ed. reflexivity.
Qed.

Definition cent_write (s : mem N) (i : nat) (o : option (vec N)) : res (unit * mem N) :=
  match o with Some q => Ok (tt, set_cent (setnth (l_cent s) i q) s) | None => Abort AThrow end.
Lemma solo_arr_cent (s : mem N) i q : i < length (l_cent s) -> solo (arr_set l_cent set_cent i q) s = Ok (tt, set_cent (setnth (l_cent s) i q) s).
Proof. intros H. unfold arr_set, act. cbn [solo]. destruct (Nat.ltb_spec i (length (l_cent s))); [reflexivity|lia]. Qed.

Lemma solo_lap_centroid cot i v s : nth_error (m_verts m) i = Some v -> l_mesh s = m -> i < length (l_cent s) ->
  forall h l, v_he m v = Some h -> Vring m v (h :: l) -> solo (lap_centroid cot i) s = cent_write s i (vdiv (fst (wsum m cot (h :: l))) (snd (wsum m cot (h :: l)))).
Proof.
  intros E Em Hl h l Eh Hr. assert (Iv := nth_error_In _ _ E).
  unfold lap_centroid. rewrite solo_bind, solo_onm. unfold lift_mem at 1. rewrite Em, mesh_vertex_eq, E. rewrite (with_mesh s m Em). rewrite solo_bind.
  rewrite (solo_circ_v (Some v) _ _ (fun acc it => bind (if cot then he_cotWeight it else ret none_) (fun w => bind (he_dst it) (fun d => bind (ve_pos d) (fun p =>
    ret ((vadd (fst acc) (vscale w p), nadd (snd acc) w), false)))))).
  2:{ intros a p s'. apply solo_lift; [intros s2; destruct cot; [apply solo_cotWeight|apply solo_ret]|]. intros w s2. apply solo_lift; [intros; apply solo_dst|]. intros d s3. apply solo_lift; [intros; apply solo_onm|]. intros q s4. apply solo_ret. }
  unfold lift_mem. rewrite Em.
  rewrite (circ_v_ok m W v h l _ (fun acc y => ((vadd (fst acc) (vscale (wgt m cot y) (pos_at m (dst_of m y))), nadd (snd acc) (wgt m cot y)), false)) _ Iv Eh Hr) by (intros y a Iy _; apply lap_body, Iy).
  rewrite (bfold_fold (fun acc y => (vadd (fst acc) (vscale (wgt m cot y) (pos_at m (dst_of m y))), nadd (snd acc) (wgt m cot y)))). fold (wsum m cot (h :: l)).
  rewrite (with_mesh s m Em), solo_bind, solo_onm. destruct (vdiv (fst (wsum m cot (h :: l))) (snd (wsum m cot (h :: l)))) as [q|]; unfold lift_mem, lift, ret, abort; [|reflexivity].
  rewrite Em, (with_mesh s m Em). cbn [cent_write]. apply solo_arr_cent, Hl.
Qed.

Lemma solo_taubin_centroid i v s : nth_error (m_verts m) i = Some v -> l_mesh s = m -> i < length (l_cent s) ->
  forall h l, v_he m v = Some h -> Vring m v (h :: l) -> solo (taubin_centroid i) s =
    cent_write s i (vdiv (fold_left vadd (map (fun y => pos_at m (dst_of m y)) (h :: l)) vzero) (nofZ (Z.of_nat (length (h :: l))))).
Proof.
  intros E Em Hl h l Eh Hr. assert (Iv := nth_error_In _ _ E).
  unfold taubin_centroid. rewrite solo_bind, solo_onm. unfold lift_mem at 1. rewrite Em, mesh_vertex_eq, E. rewrite (with_mesh s m Em). rewrite solo_bind.
  rewrite (solo_circ_v (Some v) _ _ (fun acc it => bind (he_dst it) (fun d => bind (ve_pos d) (fun p => ret (acc ++ [p], false))))).
  2:{ intros a p s'. apply solo_lift; [intros; apply solo_dst|]. intros d s3. apply solo_lift; [intros; apply solo_onm|]. intros q s4. apply solo_ret. }
  unfold lift_mem. rewrite Em.
  rewrite (circ_v_ok m W v h l _ (fun acc y => (acc ++ [pos_at m (dst_of m y)], false)) _ Iv Eh Hr).
  2:{ intros y a Iy _. destruct (dst_pos y Iy) as (d & Ed & Id & D & P). rewrite (bind_ok _ _ _ _ _ D), (bind_ok _ _ _ _ _ P), Ed. reflexivity. }
  rewrite (bfold_collect (fun y => pos_at m (dst_of m y))). cbn [app]. rewrite map_length.
  rewrite (with_mesh s m Em), solo_bind, solo_onm. destruct (vdiv _ _) as [q|]; unfold lift_mem, lift, ret, abort; [|reflexivity].
  rewrite Em, (with_mesh s m Em). cbn [cent_write]. apply solo_arr_cent, Hl.
Qed.

Lemma solo_lap_update eps i v c s : nth_error (m_verts m) i = Some v -> l_mesh s = m -> nth_error (l_cent s) i = Some c ->
  solo (lap_update eps i) s =
   (if existsb (fun h => ptr_eqb (h_src m h) (Some v) && h_bd m h) (m_hes m) || v_lock m v then Ok (tt, s)
    else Ok (tt, mkMem (set_v_pos v (moved eps (v_pos m v) c) m) (l_cent s) (l_norm s) (l_new s) (l_area s))).
Proof.
  intros E Em Hc. assert (Iv := nth_error_In _ _ E). destruct (vring m W v Iv) as (h & l & Eh & Hr).
  unfold lap_update. rewrite solo_bind, solo_onm. unfold lift_mem at 1. rewrite Em, mesh_vertex_eq, E. rewrite (with_mesh s m Em). rewrite solo_bind, solo_isBoundary.
  unfold lift_mem at 1. rewrite Em, (v_isBoundary_ok m W v h l Iv Eh Hr), (with_mesh s m Em).
  assert (Eb : existsb (h_bd m) (h :: l) = existsb (fun h => ptr_eqb (h_src m h) (Some v) && h_bd m h) (m_hes m)).
  { apply eq_iff_eq_true. rewrite !existsb_exists. destruct Hr as (_ & _ & Hin). split.
    - intros (x & Ix & Bx). apply Hin in Ix as [Ix Sx]. exists x. rewrite Sx, ptr_eqb_refl. auto.
    - intros (x & Ix & Bx). apply andb_true_iff in Bx as [Sx Bx]. apply ptr_eqb_eq in Sx. exists x. split; [apply Hin; auto|exact Bx]. }
  rewrite Eb. destruct (existsb (fun h => ptr_eqb (h_src m h) (Some v) && h_bd m h) (m_hes m)); [reflexivity|]. cbn [orb].
  rewrite solo_bind, solo_onm. unfold lift_mem at 1. rewrite Em, (r_lock m v (v_alive m W v Iv)), (with_mesh s m Em). destruct (v_lock m v); [reflexivity|].
  rewrite solo_bind, solo_onm. unfold lift_mem at 1. rewrite Em, (r_pos m v (v_alive m W v Iv)), (with_mesh s m Em).
  rewrite solo_bind. unfold arr_get, act. cbn [solo]. destruct (Z.ltb_spec (Z.of_nat i) 0); [lia|]. rewrite Nat2Z.id, Hc.
  rewrite solo_onm. unfold lift_mem. rewrite Em, (ww_pos m v _ (v_alive m W v Iv)). reflexivity.
Qed.
End W.

(** ** Outcomes of one loop *)
Definition agree {A} (o1 o2 : res A) : Prop :=
  match o1, o2 with Ok a, Ok b => a = b | Abort _, Abort _ => True | _, _ => False end.

Lemma det_loop (I : mem N -> Prop) (R : nat -> mem N -> mem N -> Prop) s ts o1 o2 : (forall i s, R i s s) -> (forall i s t, R i s t -> R i t s) -> (forall i s t u, R i s t -> R i t u -> R i s u) ->
  I s -> all_local I R ts -> (forall a b, I a -> I b -> (forall i, i < length ts -> R i a b) -> a = b) ->
  (forall i p, nth_error ts i = Some p -> match solo p s with Ok _ => True | Abort _ => True | _ => False end) ->
  outcome s ts o1 -> outcome s ts o2 -> agree o1 o2.
Proof.
  intros Rr Rs Rt Is L Eq G O1 O2. apply (outcomes I R Rr Rs Rt) in O1; [|exact Is|exact L]. apply (outcomes I R Rr Rs Rt) in O2; [|exact Is|exact L].
  assert (F : forall o, match o with
       | Ok s' => I s' /\ forall i p, nth_error ts i = Some p -> exists si, solo p s = Ok (tt, si) /\ R i si s'
       | UB u => exists i p, nth_error ts i = Some p /\ solo p s = UB u
       | Abort u => exists i p, nth_error ts i = Some p /\ solo p s = Abort u
       | NoFuel => exists i p, nth_error ts i = Some p /\ solo p s = NoFuel end -> (exists s', o = Ok s') \/ (exists k, o = Abort k)).
  { intros [s'|u|u|] H; [left; eauto| |right; eauto|]; exfalso; destruct H as (i & p & Hp & Es); specialize (G i p Hp); rewrite Es in G; contradiction. }
  destruct (F o1 O1) as [[a ->] | [k1 ->]], (F o2 O2) as [[b ->] | [k2 ->]]; cbn; trivial.
  - apply Eq; [apply O1|apply O2|]. intros i Hi. destruct (nth_error ts i) as [p|] eqn:Ep; [|apply nth_error_None in Ep; lia].
    destruct (proj2 O1 i p Ep) as (x & Ex & Rx). destruct (proj2 O2 i p Ep) as (y & Ey & Ry). assert (x = y) by congruence. subst y. apply (Rt i _ x); [apply Rs, Rx|exact Ry].
  - destruct O2 as (i & p & Hp & Es). destruct (proj2 O1 i p Hp) as (x & Ex & _). congruence.
  - destruct O1 as (i & p & Hp & Es). destruct (proj2 O2 i p Hp) as (x & Ex & _). congruence.
Qed.

Lemma nth_map_seq {X} (f : nat -> X) n i p : nth_error (map f (seq 0 n)) i = Some p -> i < n /\ p = f i.
Proof.
  intros H. assert (Hi : i < length (map f (seq 0 n))) by (apply nth_error_Some; congruence). rewrite map_length, seq_length in Hi. split; [exact Hi|].
  rewrite (nth_error_nth' _ (f 0)) in H by (rewrite map_length, seq_length; exact Hi). injection H as <-. rewrite (map_nth f). rewrite seq_nth by exact Hi. reflexivity.
Qed.
Lemma nth_seq_map {X} (f : nat -> X) n i : i < n -> nth_error (map f (seq 0 n)) i = Some (f i).
Proof. intros H. rewrite (nth_error_nth' _ (f 0)) by (rewrite map_length, seq_length; exact H). rewrite (map_nth f), seq_nth by exact H. reflexivity. Qed.

Section Steps.
Variable m : mesh N.
Hypothesis W : WF m.
Notation n := (length (m_verts m)).
(** A centroid loop: all its threads are like [lap_centroid] and [taubin_centroid]. *)
Variable body : nat -> prog (mem N) unit.
Variable cv : nat -> option (vec N).
Hypothesis Lb : forall i, Local (IA m n) RA i (body i).
Hypothesis Sb : forall i v s, nth_error (m_verts m) i = Some v -> l_mesh s = m -> i < length (l_cent s) -> solo (body i) s = cent_write s i (cv i).

Lemma first_loop o : outcome (mem0 m n) (map body (seq 0 n)) o ->
  (exists s, o = Ok s /\ IA m n s /\ forall i, i < n -> cv i <> None /\ nth_error (l_cent s) i = cv i) \/
  (o = Abort AThrow /\ exists i, i < n /\ cv i = None).
Proof.
  intros O. apply (outcomes (IA m n) RA RAr RAs RAt) in O; [|apply IA0|intros i p Hp; apply nth_map_seq in Hp as [_ ->]; apply Lb].
  assert (Q : forall i, i < n -> solo (body i) (mem0 m n) = cent_write (mem0 m n) i (cv i)).
  { intros i Hi. destruct (nth_error (m_verts m) i) as [v|] eqn:E; [|apply nth_error_None in E; lia]. apply (Sb i v); [exact E|reflexivity|cbn; rewrite repeat_length; exact Hi]. }
  destruct o as [s|u|u|].
  - left. exists s. split; [reflexivity|]. split; [apply O|]. intros i Hi. destruct (proj2 O i (body i) (nth_seq_map body n i Hi)) as (si & Es & Rs).
    rewrite (Q i Hi) in Es. destruct (cv i) as [q|]; cbn in Es; [|discriminate]. split; [discriminate|]. injection Es as <-. destruct Rs as (Rs & _). cbn in Rs. rewrite <- Rs.
    rewrite set_lt by (rewrite repeat_length; exact Hi). rewrite Nat.eqb_refl. reflexivity.
  - exfalso. destruct O as (i & p & Hp & Es). apply nth_map_seq in Hp as [Hi ->]. rewrite (Q i Hi) in Es. destruct (cv i); discriminate.
  - right. destruct O as (i & p & Hp & Es). apply nth_map_seq in Hp as [Hi ->]. rewrite (Q i Hi) in Es. destruct (cv i) eqn:Ec; cbn in Es; [discriminate|]. split; [congruence|]. eauto.
  - exfalso. destruct O as (i & p & Hp & Es). apply nth_map_seq in Hp as [Hi ->]. rewrite (Q i Hi) in Es. destruct (cv i); discriminate.
Qed.

Definition fixedb (v : nat) : bool := existsb (fun h => ptr_eqb (h_src m h) (Some v) && h_bd m h) (m_hes m) || v_lock m v.
Lemma fixedb_spec v : fixedb v = true <-> v_lock m v = true \/ on_boundary m v.
Proof.
  unfold fixedb, on_boundary. rewrite orb_true_iff, existsb_exists. split.
  - intros [(x & Ix & Bx) | L]; [|left; exact L]. apply andb_true_iff in Bx as [Sx Bx]. apply ptr_eqb_eq in Sx. right. eauto.
  - intros [L | (x & Ix & Sx & Bx)]; [right; exact L|left]. exists x. rewrite Sx, ptr_eqb_refl. auto.
Qed.
(** The position after one pass. *)
Definition newpos (eps : num) (v : nat) : vec N :=
  if fixedb v then v_pos m v
  else match cv (Z.to_nat (v_idx m v)) with Some c => moved eps (v_pos m v) c | None => v_pos m v end.

Lemma second_loop eps s o : IA m n s -> (forall i, i < n -> cv i <> None /\ nth_error (l_cent s) i = cv i) ->
  outcome s (map (lap_update eps) (seq 0 n)) o ->
  exists s', o = Ok s' /\ posonly m (l_mesh s') /\ forall v, In v (m_verts m) -> v_pos (l_mesh s') v = newpos eps v.
Proof.
  intros Is Hc O. assert (Em : l_mesh s = m) by apply Is.
  apply (outcomes (IB m s) (RB m) (RBr m) (RBs m) (RBt m)) in O; [|split; [rewrite Em; apply posonly_refl|auto]|intros i p Hp; apply nth_map_seq in Hp as [_ ->]; apply loc_lap_update, (wf_v_nodup m W)].
  assert (Q : forall i v, nth_error (m_verts m) i = Some v -> exists c, cv i = Some c /\ solo (lap_update eps i) s =
    (if fixedb v then Ok (tt, s) else Ok (tt, mkMem (set_v_pos v (moved eps (v_pos m v) c) m) (l_cent s) (l_norm s) (l_new s) (l_area s)))).
  { intros i v E. assert (Hi : i < n) by (apply nth_error_Some; congruence). destruct (Hc i Hi) as [C1 C2]. destruct (cv i) as [c|] eqn:Ec; [|contradiction]. exists c. split; [reflexivity|].
    apply (solo_lap_update m W eps i v c s E Em C2). }
  assert (V : forall i, i < n -> exists v, nth_error (m_verts m) i = Some v).
  { intros i Hi. destruct (nth_error (m_verts m) i) as [v|] eqn:E; [eauto|]. apply nth_error_None in E. lia. }
  destruct o as [s'|u|u|].
  - exists s'. split; [reflexivity|]. split; [apply O|]. intros v Iv. apply In_nth_error in Iv as [i E]. assert (Hi : i < n) by (apply nth_error_Some; congruence).
    destruct (Q i v E) as (c & Ec & Es). destruct (proj2 O i (lap_update eps i) (nth_seq_map _ n i Hi)) as (si & Esi & Rs). rewrite Es in Esi. specialize (Rs v E). rewrite <- Rs.
    unfold newpos. destruct (wf_v_elem m W i v E) as (_ & Ei & _). rewrite Ei, Nat2Z.id, Ec. destruct (fixedb v); injection Esi as <-; [rewrite Em; reflexivity|]. cbn [l_mesh v_pos set_v_pos]. apply fupd_same.
  - exfalso. destruct O as (i & p & Hp & Es). apply nth_map_seq in Hp as [Hi ->]. destruct (V i Hi) as [v E]. destruct (Q i v E) as (c & _ & Q'). rewrite Q' in Es. destruct (fixedb v); discriminate.
  - exfalso. destruct O as (i & p & Hp & Es). apply nth_map_seq in Hp as [Hi ->]. destruct (V i Hi) as [v E]. destruct (Q i v E) as (c & _ & Q'). rewrite Q' in Es. destruct (fixedb v); discriminate.
  - exfalso. destruct O as (i & p & Hp & Es). apply nth_map_seq in Hp as [Hi ->]. destruct (V i Hi) as [v E]. destruct (Q i v E) as (c & _ & Q'). rewrite Q' in Es. destruct (fixedb v); discriminate.
Qed.

(** One pass: all outcomes are equal. *)
Lemma pass eps : exists r, (exists o, two_loops (mem0 m n) n body (lap_update eps) o /\ mesh_out o = r) /\
  (forall o, two_loops (mem0 m n) n body (lap_update eps) o -> mesh_out o = r) /\
  ((exists m', r = Ok m' /\ posonly m m' /\ (forall i, i < n -> cv i <> None) /\ forall v, In v (m_verts m) -> v_pos m' v = newpos eps v) \/
   (r = Abort AThrow /\ exists i, i < n /\ cv i = None)).
Proof.
  assert (O1 := in_order_outcome (map body (seq 0 n)) (mem0 m n) [] ltac:(intros p [])). cbn [app] in O1.
  assert (All : forall o, two_loops (mem0 m n) n body (lap_update eps) o ->
     (exists s', o = Ok s' /\ posonly m (l_mesh s') /\ (forall i, i < n -> cv i <> None) /\ forall v, In v (m_verts m) -> v_pos (l_mesh s') v = newpos eps v) \/ (o = Abort AThrow /\ exists i, i < n /\ cv i = None)).
  { intros o [s1 o' A B | o' A NO].
    - destruct (first_loop _ A) as [(s & [= <-] & Is & Hc) | [A' _]]; [|discriminate]. left.
      destruct (second_loop eps s1 o' Is Hc B) as (s' & -> & P & Q). exists s'. split; [reflexivity|]. split; [exact P|]. split; [intros i Hi; apply (Hc i Hi)|exact Q].
    - destruct (first_loop _ A) as [(s & -> & _) | H]; [exfalso; apply (NO s); reflexivity|]. right. exact H. }
  assert (Ex : exists o, two_loops (mem0 m n) n body (lap_update eps) o).
  { destruct (first_loop _ O1) as [(s & E & Is & Hc) | (E & _)].
    - rewrite E in O1. assert (O2 := in_order_outcome (map (lap_update eps) (seq 0 n)) s [] ltac:(intros p [])). cbn [app] in O2. eexists. eapply two_ok; [exact O1|exact O2].
    - exists (Abort AThrow). apply two_fail; [rewrite <- E; exact O1|discriminate]. }
  destruct Ex as [o Ho]. exists (mesh_out o). split; [eauto|]. split.
  - intros o' Ho'. destruct (All o Ho) as [(s & -> & P & C & Q) | (-> & i & Hi & Ci)], (All o' Ho') as [(s' & -> & P' & C' & Q') | (-> & i' & Hi' & Ci')]; cbn; try reflexivity.
    + f_equal. apply (posonly_eq m); [exact P'|exact P|]. intros v Iv. rewrite Q, Q' by exact Iv. reflexivity.
    + exfalso. apply (C i' Hi' Ci').
    + exfalso. apply (C' i Hi Ci).
  - destruct (All o Ho) as [(s & -> & P & C & Q) | (-> & H)]; cbn; [left|right; auto]. exists (l_mesh s). auto.
Qed.
End Steps.

(** The ring of a vertex, starting with its half-edge. *)
Definition ring_of (m : mesh N) (v : nat) : list nat :=
  match v_halfedges (Some v) m with Ok (l, _) => flat_map (fun p => match p with Some h => [h] | None => [] end) l | _ => [] end.
Lemma ring_of_eq (m : mesh N) v h l : WF m -> In v (m_verts m) -> v_he m v = Some h -> Vring m v (h :: l) -> ring_of m v = h :: l.
Proof.
  intros W Iv Eh Hr. unfold ring_of, v_halfedges. rewrite (circ_v_ok m W v h l _ (fun acc y => (acc ++ [Some y], false)) [] Iv Eh Hr) by reflexivity.
  rewrite (bfold_collect (fun y => Some y)). cbn [app]. generalize (h :: l) as k. induction k as [|x k IH]; cbn; [reflexivity|]. f_equal. exact IH.
Qed.
Lemma ring_of_ring (m : mesh N) v : WF m -> In v (m_verts m) -> Vring m v (ring_of m v) /\ ring_of m v <> [].
Proof. intros W Iv. destruct (vring m W v Iv) as (h & l & Eh & Hr). rewrite (ring_of_eq m v h l W Iv Eh Hr). split; [exact Hr|discriminate]. Qed.

(** The centroids of the two filters. *)
Definition vert_ring (m : mesh N) (i : nat) : list nat := match nth_error (m_verts m) i with Some v => ring_of m v | None => [] end.
Definition lap_cv (m : mesh N) (cot : bool) (i : nat) : option (vec N) :=
  vdiv (fst (wsum m cot (vert_ring m i))) (snd (wsum m cot (vert_ring m i))).
Definition taubin_cv (m : mesh N) (i : nat) : option (vec N) :=
  vdiv (fold_left vadd (map (fun y => pos_at m (dst_of m y)) (vert_ring m i)) vzero) (nofZ (Z.of_nat (length (vert_ring m i)))).

Lemma lap_solo (m : mesh N) cot : WF m -> forall i v s, nth_error (m_verts m) i = Some v -> l_mesh s = m -> i < length (l_cent s) ->
  solo (lap_centroid cot i) s = cent_write s i (lap_cv m cot i).
Proof.
  intros W i v s E Em Hl. assert (Iv := nth_error_In _ _ E). destruct (vring m W v Iv) as (h & l & Eh & Hr).
  unfold lap_cv, vert_ring. rewrite E, (ring_of_eq m v h l W Iv Eh Hr). apply (solo_lap_centroid m W cot i v s E Em Hl h l Eh Hr).
Qed.
Lemma taubin_solo (m : mesh N) : WF m -> forall i v s, nth_error (m_verts m) i = Some v -> l_mesh s = m -> i < length (l_cent s) ->
  solo (taubin_centroid i) s = cent_write s i (taubin_cv m i).
Proof.
  intros W i v s E Em Hl. assert (Iv := nth_error_In _ _ E). destruct (vring m W v Iv) as (h & l & Eh & Hr).
  unfold taubin_cv, vert_ring. rewrite E, (ring_of_eq m v h l W Iv Eh Hr). apply (solo_taubin_centroid m W i v s E Em Hl h l Eh Hr).
Qed.

(** One pass of either filter. *)
Definition good_step (step : nat -> mesh N -> res (mesh N) -> Prop) : Prop := forall it m, WF m ->
  exists r, step it m r /\ (forall o, step it m o -> o = r) /\ ((exists m', r = Ok m' /\ posonly m m' /\ kept m m') \/ r = Abort AThrow).

Lemma newpos_kept (m m' : mesh N) cv eps : posonly m m' -> (forall v, In v (m_verts m) -> v_pos m' v = newpos m cv eps v) -> kept m m'.
Proof.
  intros P Q v F. destruct (in_dec Nat.eq_dec v (m_verts m)) as [D | D]; [|apply (po_pos _ _ P), D].
  rewrite (Q v D). unfold newpos. rewrite (proj2 (fixedb_spec m v) F). reflexivity.
Qed.
Lemma lap_good eps cot : good_step (fun _ => lap_step eps cot).
Proof.
  intros it m W. destruct (pass m W (lap_centroid cot) (lap_cv m cot) (loc_lap_centroid m _ cot) (lap_solo m cot W) eps) as (r & (o & Ho & Er) & U & C).
  exists r. split; [exists o; auto|]. split; [intros o2 (o' & Ho' & ->); apply U, Ho'|]. destruct C as [(m' & E & P & _ & Q) | (E & _)]; [left|right; exact E].
  exists m'. split; [exact E|]. split; [exact P|]. apply (newpos_kept m m' _ eps P Q).
Qed.
Lemma taubin_good a b : good_step (taubin_step a b).
Proof.
  intros it m W. destruct (pass m W taubin_centroid (taubin_cv m) (loc_taubin_centroid m _) (taubin_solo m W) (if Nat.even it then a else nopp b)) as (r & (o & Ho & Er) & U & C).
  exists r. split; [exists o; auto|]. split; [intros o2 (o' & Ho' & ->); apply U, Ho'|]. destruct C as [(m' & E & P & _ & Q) | (E & _)]; [left|right; exact E].
  exists m'. split; [exact E|]. split; [exact P|]. apply (newpos_kept m m' _ _ P Q).
Qed.

Lemma kept_trans (a b c : mesh N) : posonly a b -> kept a b -> kept b c -> kept a c.
Proof.
  intros P K1 K2 v F. rewrite (K2 v); [apply K1, F|]. rewrite (posonly_lock a b v P), (posonly_bd a b v P). exact F.
Qed.
Lemma repeats_good step : good_step step -> forall n it m, WF m ->
  exists r, repeats step it n m r /\ (forall o, repeats step it n m o -> o = r) /\ ((exists m', r = Ok m' /\ posonly m m' /\ kept m m') \/ r = Abort AThrow).
Proof.
  intros G n. induction n as [|n IH]; intros it m W.
  - exists (Ok m). split; [apply rep_0|]. split; [intros o H; inversion H; reflexivity|]. left. exists m. split; [reflexivity|]. split; [apply posonly_refl|]. intros v _; reflexivity.
  - destruct (G it m W) as (r & Hr & U & [(m' & -> & P & K) | ->]).
    + destruct (IH (S it) m' (posonly_wf m m' W P)) as (r2 & H2 & U2 & C). exists r2. split; [apply (rep_S step it n m m' r2 Hr H2)|]. split.
      * intros o H. inversion H as [|? ? ? m1 ? A B|? ? ? ? A B]; subst; [|exfalso; apply (B m'), (U o A)]. assert (E := U _ A). injection E as ->. apply U2, B.
      * destruct C as [(m2 & -> & P2 & K2) | ->]; [left|right; reflexivity]. exists m2. split; [reflexivity|]. split; [apply (posonly_trans m m' m2 P P2)|apply (kept_trans m m' m2 P K K2)].
    + exists (Abort AThrow). split; [apply (rep_fail step it n m _ Hr); discriminate|]. split; [|right; reflexivity].
      intros o H. inversion H as [|? ? ? m1 ? A B|? ? ? ? A B]; subst; [apply U in A; discriminate|apply U, A].
Qed.

Definition SmoothResult (m : mesh N) (r : res (mesh N)) : Prop :=
  (exists m', r = Ok m' /\ posonly m m' /\ kept m m') \/ r = Abort AThrow.
Theorem laplacian_det eps cot n (m : mesh N) : WF m ->
  exists r, smoothLaplacian eps cot n m r /\ (forall o, smoothLaplacian eps cot n m o -> o = r) /\ SmoothResult m r.
Proof. intros W. apply (repeats_good _ (lap_good eps cot) n 0 m W). Qed.
Theorem taubin_det a b n (m : mesh N) : WF m ->
  exists r, smoothTaubin a b n m r /\ (forall o, smoothTaubin a b n m o -> o = r) /\ SmoothResult m r.
Proof. intros W. apply (repeats_good _ (taubin_good a b) (n * 2) 0 m W). Qed.

End D.
