(** The normal filters of denoise.cpp compute what DenSpec.v says. *)
From Coq Require Import Bool List ZArith Arith Lia.
From Verif Require Import Num Vec Heap Mesh Spec Orbit Rings Prog ProgP SmoothSpec Smooth SmoothP SmoothD SmoothDn.
Import ListNotations.
Local Open Scope prog_scope.

Section G.
Context {N : Num}.
Definition vat_ (l : list (vec N)) (i : nat) : vec N := nth i l vzero.
Definition nat_ (l : list num) (i : nat) : num := nth i l nzero.
Lemma nth_vat l i x : nth_error l i = Some x -> vat_ l i = x.
Proof. intros H. apply nth_error_nth. exact H. Qed.
Lemma nth_nat l i x : nth_error l i = Some x -> nat_ l i = x.
Proof. intros H. apply nth_error_nth. exact H. Qed.
Section W.
Variable m : mesh N.
Hypothesis W : WF m.
Notation nf := (length (m_faces m)).
Lemma lift_inv {X B} (o : option X) (k : X -> prog (mem N) B) s b s' : l_mesh s = m -> solo (pbind (onm (lift o)) k) s = Ok (b, s') -> exists x, o = Some x /\ solo (k x) s = Ok (b, s').
Proof. intros Em. rewrite solo_bind, solo_onm. unfold lift_mem. rewrite Em. destruct o as [x|]; cbn [lift ret abort]; [|discriminate]. rewrite (with_mesh s m Em). eauto. Qed.
Definition jf (y : nat) : nat := match h_face m y with Some g => Z.to_nat (f_idx m g) | None => 0 end.
Definition jr (y : nat) : nat := match h_rev m y with Some r => jf r | None => 0 end.

Lemma arr_at_v (f : mem N -> list (vec N)) s j : (0 <= j)%Z -> Z.to_nat j < length (f s) -> solo (arr_get f j) s = Ok (vat_ (f s) (Z.to_nat j), s).
Proof. intros H L. destruct (arr_at f s j H L) as [x E]. rewrite E. unfold arr_get, act in E. cbn [solo] in E. destruct (Z.ltb_spec j 0); [lia|]. destruct (nth_error (f s) (Z.to_nat j)) as [y|] eqn:Ey; [|discriminate]. injection E as ->. rewrite (nth_vat _ _ _ Ey). reflexivity. Qed.
Lemma arr_at_n (f : mem N -> list num) s j : (0 <= j)%Z -> Z.to_nat j < length (f s) -> solo (arr_get f j) s = Ok (nat_ (f s) (Z.to_nat j), s).
Proof. intros H L. destruct (arr_at f s j H L) as [x E]. rewrite E. unfold arr_get, act in E. cbn [solo] in E. destruct (Z.ltb_spec j 0); [lia|]. destruct (nth_error (f s) (Z.to_nat j)) as [y|] eqn:Ey; [|discriminate]. injection E as ->. rewrite (nth_nat _ _ _ Ey). reflexivity. Qed.

Lemma face_inv s s' i f : l_mesh s = m -> nth_error (m_faces m) i = Some f ->
  i < length (l_cent s) -> i < length (l_norm s) -> i < length (l_area s) -> solo (dn_face i) s = Ok (tt, s') ->
  exists h l v0 v1 v2, f_he m f = Some h /\ Fring m f (h :: l) /\ map (fun y => pos_at m (h_src m y)) (h :: l) = [v0; v1; v2] /\
    normalize (cross (vsub v1 v0) (vsub v2 v0)) = Some (vat_ (l_norm s') i) /\ vdiv (vadd (vadd v0 v1) v2) (nofZ 3) = Some (vat_ (l_cent s') i) /\
    nat_ (l_area s') i = nmul nhalf (vlength (cross (vsub v1 v0) (vsub v2 v0))).
Proof.
  intros Em E L1 L2 L3. assert (If := nth_error_In _ _ E). destruct (fring m W f If) as (h & l & Eh & Hr).
  unfold dn_face. rewrite solo_bind, (mface_at m s i f Em E), solo_bind.
  rewrite (pcirc_f_ok m W s f h l _ (fun acc y => (acc ++ [pos_at m (h_src m y)], false)) _ Em If Eh Hr).
  2:{ intros y a Iy _. destruct (wf_src m W y Iy) as (v & Ev & Iv). rewrite solo_bind, (solo_at m _ s _ Em (r_src m y (h_alive m W y Iy))), Ev, solo_bind, (solo_at m _ s _ Em (r_pos m v (v_alive m W v Iv))). reflexivity. }
  rewrite (bfold_collect (fun y => pos_at m (h_src m y))). cbn [app].
  assert (Ab : solo (onm (abort AError) : prog (mem N) unit) s <> Ok (tt, s')) by (rewrite solo_onm; unfold lift_mem; discriminate).
  destruct (map (fun y => pos_at m (h_src m y)) (h :: l)) as [|v0 [|v1 [|v2 [|v4 r]]]] eqn:Ev; try (intros H; exfalso; exact (Ab H)).
  intros H. apply (lift_inv _ _ _ _ _ Em) in H as (nn & En & H).
  rewrite solo_bind, (arr_set_at l_norm set_norm s i nn L2) in H.
  rewrite solo_bind, solo_onm in H. unfold lift_mem in H. cbn [l_mesh set_norm] in H. destruct (vdiv _ _) as [c|] eqn:Ec; cbn [lift ret abort] in H; [|discriminate].
  rewrite solo_bind, arr_set_at in H by exact L1. rewrite arr_set_at in H by exact L3. injection H as <-.
  exists h, l, v0, v1, v2. split; [exact Eh|]. split; [exact Hr|]. split; [exact Ev|].
  cbn [l_norm l_cent l_area set_norm set_cent set_area].
  rewrite !(nth_vat (setnth _ i _) i _) by (rewrite set_lt by assumption; rewrite Nat.eqb_refl; reflexivity). 
  rewrite !(nth_nat (setnth _ i _) i _) by (rewrite set_lt by assumption; rewrite Nat.eqb_refl; reflexivity).
  split; [exact En|]. split; [exact Ec|reflexivity].
Qed.

Definition fsum (w : vec N -> vec N -> vec N -> vec N -> num -> num) (nn cc : nat -> vec N) (aa : nat -> num) (i : nat) (l : list nat) : vec N :=
  fold_left (fun a y => vadd a (vscale (w (cc i) (cc (jr y)) (nn i) (nn (jr y)) (aa (jr y))) (nn (jr y)))) l vzero.
Lemma filter_inv w s s' i f : l_mesh s = m -> nth_error (m_faces m) i = Some f ->
  length (l_cent s) = nf -> length (l_norm s) = nf -> length (l_new s) = nf -> length (l_area s) = nf ->
  solo (dn_filter w i) s = Ok (tt, s') ->
  exists h l, f_he m f = Some h /\ Fring m f (h :: l) /\
    let S := fsum w (vat_ (l_norm s)) (vat_ (l_cent s)) (nat_ (l_area s)) i (h :: l) in
    if neqb (vlength S) nzero then vat_ (l_new s') i = vat_ (l_new s) i else vdiv S (vlength S) = Some (vat_ (l_new s') i).
Proof.
  intros Em E L1 L2 L3 L4. assert (If := nth_error_In _ _ E). destruct (fring m W f If) as (h & l & Eh & Hr). assert (Hi : i < nf) by (apply nth_error_Some; congruence).
  unfold dn_filter. rewrite solo_bind, (mface_at m s i f Em E), solo_bind.
  rewrite (pcirc_f_ok m W s f h l _ (fun a y => (vadd a (vscale (w (vat_ (l_cent s) i) (vat_ (l_cent s) (jr y)) (vat_ (l_norm s) i) (vat_ (l_norm s) (jr y)) (nat_ (l_area s) (jr y))) (vat_ (l_norm s) (jr y))), false)) _ Em If Eh Hr).
  2:{ intros y a Iy _. destruct (wf_rev m W y Iy) as (r & Er & Ir). destruct (wf_face m W r Ir) as (g & Eg & Ig). destruct (face_index m W r g Ir Eg) as (Ej & J0 & J1).
      rewrite solo_bind, (solo_at m _ s _ Em (r_rev m y (h_alive m W y Iy))), Er, solo_bind, (solo_at m _ s _ Em (r_face m r (h_alive m W r Ir))), Eg, solo_bind, (solo_at m _ s _ Em Ej).
      unfold jr, jf. rewrite Er, Eg.
      rewrite solo_bind, (arr_at_v l_cent s (Z.of_nat i)) by lia. rewrite solo_bind, (arr_at_v l_cent s (f_idx m g)) by lia.
      rewrite solo_bind, (arr_at_v l_norm s (Z.of_nat i)) by lia. rewrite solo_bind, (arr_at_v l_norm s (f_idx m g)) by lia.
      rewrite solo_bind, (arr_at_n l_area s (f_idx m g)) by lia. rewrite Nat2Z.id. reflexivity. }
  rewrite (bfold_fold (fun a y => vadd a (vscale (w (vat_ (l_cent s) i) (vat_ (l_cent s) (jr y)) (vat_ (l_norm s) i) (vat_ (l_norm s) (jr y)) (nat_ (l_area s) (jr y))) (vat_ (l_norm s) (jr y))))).
  change (fold_left _ (h :: l) vzero) with (fsum w (vat_ (l_norm s)) (vat_ (l_cent s)) (nat_ (l_area s)) i (h :: l)).
  intros H. exists h, l. split; [exact Eh|]. split; [exact Hr|]. cbv zeta. set (S := fsum _ _ _ _ _ _) in *.
  destruct (neqb (vlength S) nzero) eqn:Z; cbn [negb] in H; [cbn [solo] in H; injection H as <-; reflexivity|].
  apply (lift_inv _ _ _ _ _ Em) in H as (x & Ex & H). rewrite arr_set_at in H by lia. injection H as <-. cbn [l_new set_new].
  rewrite (nth_vat (setnth _ i _) i x) by (rewrite set_lt by lia; rewrite Nat.eqb_refl; reflexivity). exact Ex.
Qed.

Definition usum (nw cc : nat -> vec N) (aa : nat -> num) (p : vec N) (l : list nat) : num * vec N :=
  fold_left (fun acc y => (nadd (fst acc) (aa (jf y)), vadd (snd acc) (vscale (nmul (aa (jf y)) (dot (nw (jf y)) (vsub (cc (jf y)) p))) (nw (jf y))))) l (nzero, vzero).
Lemma update_inv s s' i v : l_mesh s = m -> nth_error (m_verts m) i = Some v ->
  length (l_cent s) = nf -> length (l_new s) = nf -> length (l_area s) = nf -> solo (dn_update i) s = Ok (tt, s') ->
  exists h l inc, v_he m v = Some h /\ Vring m v (h :: l) /\
    let r := usum (vat_ (l_new s)) (vat_ (l_cent s)) (nat_ (l_area s)) (v_pos m v) (h :: l) in vdiv (snd r) (fst r) = Some inc /\ v_pos (l_mesh s') v = vadd (v_pos m v) inc.
Proof.
  intros Em E L1 L3 L4. assert (Iv := nth_error_In _ _ E). destruct (vring m W v Iv) as (h & l & Eh & Hr).
  unfold dn_update. rewrite solo_bind, (mvertex_at m s i v Em E), solo_bind.
  rewrite (pcirc_v_ok m W s v h l _ (fun acc y => ((nadd (fst acc) (nat_ (l_area s) (jf y)), vadd (snd acc) (vscale (nmul (nat_ (l_area s) (jf y)) (dot (vat_ (l_new s) (jf y)) (vsub (vat_ (l_cent s) (jf y)) (v_pos m v)))) (vat_ (l_new s) (jf y)))), false)) _ Em Iv Eh Hr).
  2:{ intros y a Iy _. destruct (wf_face m W y Iy) as (g & Eg & Ig). destruct (face_index m W y g Iy Eg) as (Ej & J0 & J1).
      rewrite solo_bind, (solo_at m _ s _ Em (r_face m y (h_alive m W y Iy))), Eg, solo_bind, (solo_at m _ s _ Em Ej). unfold jf. rewrite Eg.
      rewrite solo_bind, (arr_at_n l_area s (f_idx m g)) by lia. rewrite solo_bind, (arr_at_v l_new s (f_idx m g)) by lia. rewrite solo_bind, (arr_at_v l_cent s (f_idx m g)) by lia.
      rewrite solo_bind, (solo_at m _ s _ Em (r_pos m v (v_alive m W v Iv))). reflexivity. }
  rewrite (bfold_fold (fun acc y => (nadd (fst acc) (nat_ (l_area s) (jf y)), vadd (snd acc) (vscale (nmul (nat_ (l_area s) (jf y)) (dot (vat_ (l_new s) (jf y)) (vsub (vat_ (l_cent s) (jf y)) (v_pos m v)))) (vat_ (l_new s) (jf y)))))).
  change (fold_left _ (h :: l) (nzero, vzero)) with (usum (vat_ (l_new s)) (vat_ (l_cent s)) (nat_ (l_area s)) (v_pos m v) (h :: l)).
  intros H. apply (lift_inv _ _ _ _ _ Em) in H as (x & Ex & H). exists h, l, x. split; [exact Eh|]. split; [exact Hr|]. cbv zeta. split; [exact Ex|].
  rewrite solo_bind, (solo_at m _ s _ Em (r_pos m v (v_alive m W v Iv))), solo_onm in H. unfold lift_mem in H. rewrite Em, (ww_pos m v _ (v_alive m W v Iv)) in H. injection H as <-. cbn [l_mesh v_pos set_v_pos]. apply fupd_same.
Qed.

(** One pass, face by face and vertex by vertex. *)
Lemma dn_values w m' : dn_loops w m (Ok m') -> exists (nn cc nw : nat -> vec N) (aa : nat -> num), posonly m m' /\
  (forall i f, nth_error (m_faces m) i = Some f -> exists h l v0 v1 v2, f_he m f = Some h /\ Fring m f (h :: l) /\ map (fun y => pos_at m (h_src m y)) (h :: l) = [v0; v1; v2] /\
    normalize (cross (vsub v1 v0) (vsub v2 v0)) = Some (nn i) /\ vdiv (vadd (vadd v0 v1) v2) (nofZ 3) = Some (cc i) /\ aa i = nmul nhalf (vlength (cross (vsub v1 v0) (vsub v2 v0)))) /\
  (forall i f, nth_error (m_faces m) i = Some f -> exists h l, f_he m f = Some h /\ Fring m f (h :: l) /\
    let S := fsum w nn cc aa i (h :: l) in if neqb (vlength S) nzero then nw i = vzero else vdiv S (vlength S) = Some (nw i)) /\
  (forall i v, nth_error (m_verts m) i = Some v -> exists h l inc, v_he m v = Some h /\ Vring m v (h :: l) /\
    let r := usum nw cc aa (v_pos m v) (h :: l) in vdiv (snd r) (fst r) = Some inc /\ v_pos m' v = vadd (v_pos m v) inc).
Proof.
  intros D. assert (P := dn_pos m W w m' D). inversion D as [s2 o T O E | o T NO E]; subst; [|destruct o; cbn in E; try discriminate; exfalso; eapply NO; reflexivity].
  destruct o as [s3|u|u|]; cbn in E; try discriminate. injection E as <-.
  inversion T as [s1 o A B | o A NO]; subst; [|exfalso; eapply NO; reflexivity].
  assert (I1 := face_loop_ok m s1 A). assert (I2 := filter_loop_ok m w s1 s2 I1 B). destruct I1 as (M1 & L1 & L2 & L3 & L4). destruct I2 as (M2 & K1 & K2 & K3 & K4).
  apply (outcomes (IA m nf) RA RAr RAs RAt) in A; [|apply IA0|intros i p Hp; apply nth_map_seq in Hp as [_ ->]; apply loc_dn_face].
  apply (outcomes (IF m nf s1) RF RFr RFs RFt) in B; [|repeat split; auto|intros i p Hp; apply nth_map_seq in Hp as [_ ->]; apply loc_dn_filter].
  apply (outcomes (IB m s2) (RB m) (RBr m) (RBs m) (RBt m)) in O; [|split; [rewrite M2; apply posonly_refl|auto]|intros i p Hp; apply nth_map_seq in Hp as [_ ->]; apply loc_dn_update, (wf_v_nodup m W)].
  destruct A as [IA1 A]. destruct B as [(_ & _ & Ec & En & Ea) B]. destruct O as [IB1 O].
  assert (New0 : forall i, vat_ (l_new s1) i = vzero).
  { intros i. destruct (Nat.lt_ge_cases i nf) as [Hi|Hi]; [|unfold vat_; apply nth_overflow; lia].
    destruct (nth_error (m_faces m) i) as [f|] eqn:Ef; [|apply nth_error_None in Ef; lia].
    destruct (A i (dn_face i) (nth_seq_map _ _ i Hi)) as (si & Es & (_ & _ & R3 & _)).
    assert (Q : l_new si = l_new (mem0 m nf)).
    { revert Es. unfold dn_face. rewrite solo_bind, (mface_at m (mem0 m nf) i f eq_refl Ef), solo_bind. destruct (fring m W f (nth_error_In _ _ Ef)) as (h & l & Eh & Hr).
      rewrite (pcirc_f_ok m W (mem0 m nf) f h l _ (fun acc y => (acc ++ [pos_at m (h_src m y)], false)) _ eq_refl (nth_error_In _ _ Ef) Eh Hr).
      2:{ intros y a Iy _. destruct (wf_src m W y Iy) as (v & Ev & Iv). rewrite solo_bind, (solo_at m _ (mem0 m nf) _ eq_refl (r_src m y (h_alive m W y Iy))), Ev, solo_bind, (solo_at m _ (mem0 m nf) _ eq_refl (r_pos m v (v_alive m W v Iv))). reflexivity. }
      rewrite (bfold_collect (fun y => pos_at m (h_src m y))). cbn [app].
      destruct (map (fun y => pos_at m (h_src m y)) (h :: l)) as [|v0 [|v1 [|v2 [|v4 r]]]] eqn:Ev; try (rewrite solo_onm; unfold lift_mem; discriminate).
      intros H. apply (lift_inv _ _ (mem0 m nf) _ _ eq_refl) in H as (x & _ & H). rewrite solo_bind, arr_set_at in H by (cbn; rewrite repeat_length; exact Hi).
      rewrite solo_bind, solo_onm in H. unfold lift_mem in H. cbn [l_mesh set_norm] in H. destruct (vdiv _ _) as [c|] eqn:Ec'; cbn [lift ret abort] in H; [|discriminate].
      rewrite solo_bind, arr_set_at in H by (cbn; rewrite repeat_length; exact Hi). rewrite arr_set_at in H by (cbn; rewrite repeat_length; exact Hi). injection H as <-. reflexivity. }
    apply nth_vat. rewrite <- R3, Q. cbn [mem0 l_new]. apply nth_error_repeat. exact Hi. }
  exists (vat_ (l_norm s1)), (vat_ (l_cent s1)), (vat_ (l_new s2)), (nat_ (l_area s1)). split; [exact P|]. split; [|split].
  - intros i f Ef. assert (Hi : i < nf) by (apply nth_error_Some; congruence). destruct (A i (dn_face i) (nth_seq_map _ _ i Hi)) as (si & Es & (R1 & R2 & _ & R4)).
    destruct (face_inv (mem0 m nf) si i f eq_refl Ef) as (h & l & v0 & v1 & v2 & Q1 & Q2 & Q3 & Q4 & Q5 & Q6); try (cbn; rewrite repeat_length; exact Hi); [exact Es|].
    exists h, l, v0, v1, v2. split; [exact Q1|]. split; [exact Q2|]. split; [exact Q3|].
    assert (Hn : forall a b : list (vec N), nth_error a i = nth_error b i -> vat_ a i = vat_ b i). { intros a b Hab. unfold vat_. destruct (nth_error a i) as [x|] eqn:X; [rewrite (nth_error_nth _ _ _ X), (nth_error_nth _ _ _ (eq_sym Hab)); reflexivity|]. rewrite !nth_overflow by (apply nth_error_None; congruence). reflexivity. }
    assert (Hm : forall a b : list num, nth_error a i = nth_error b i -> nat_ a i = nat_ b i). { intros a b Hab. unfold nat_. destruct (nth_error a i) as [x|] eqn:X; [rewrite (nth_error_nth _ _ _ X), (nth_error_nth _ _ _ (eq_sym Hab)); reflexivity|]. rewrite !nth_overflow by (apply nth_error_None; congruence). reflexivity. }
    rewrite <- (Hn _ _ R1), <- (Hn _ _ R2), <- (Hm _ _ R4). auto.
  - intros i f Ef. assert (Hi : i < nf) by (apply nth_error_Some; congruence). destruct (B i (dn_filter w i) (nth_seq_map _ _ i Hi)) as (si & Es & R).
    destruct (filter_inv w s1 si i f M1 Ef L1 L2 L3 L4 Es) as (h & l & Q1 & Q2 & Q3). exists h, l. split; [exact Q1|]. split; [exact Q2|]. cbv zeta in *.
    assert (Ew : vat_ (l_new si) i = vat_ (l_new s2) i). { unfold RF in R. unfold vat_. destruct (nth_error (l_new si) i) as [x|] eqn:X; [rewrite (nth_error_nth _ _ _ X), (nth_error_nth _ _ _ (eq_sym R)); reflexivity|]. rewrite !nth_overflow by (apply nth_error_None; congruence). reflexivity. }
    rewrite Ew in Q3. destruct (neqb _ _); [rewrite Q3; apply New0|exact Q3].
  - intros i v Ev. assert (Hi : i < length (m_verts m)) by (apply nth_error_Some; congruence). destruct (O i (dn_update i) (nth_seq_map _ _ i Hi)) as (si & Es & R).
    destruct (update_inv s2 si i v M2 Ev K1 K3 K4 Es) as (h & l & inc & Q1 & Q2 & Q3 & Q4). exists h, l, inc. split; [exact Q1|]. split; [exact Q2|]. cbv zeta in *. rewrite Ec, Ea in Q3. split; [exact Q3|]. rewrite <- (R v Ev). exact Q4.
Qed.
End W.
End G.
