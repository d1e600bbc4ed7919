(** The normal filters of denoise.cpp: outcomes of their parallel loops. *)
From Coq Require Import Bool List ZArith Arith Lia.
From Verif Require Import Num Vec Heap Mesh Spec Orbit Rings Prog ProgP SmoothSpec Smooth SmoothP SmoothD.
Import ListNotations.
Local Open Scope prog_scope.

Section D.
Context {N : Num}.

Lemma pcirc_chain {A} (s : mem N) (f : nat -> ptr) (step : ptr -> prog (mem N) ptr) (body : A -> ptr -> prog (mem N) (A * bool)) g x0 :
  forall l x fuel acc,
  chainto f x l x0 -> ~ In x0 l -> length (x :: l) <= fuel ->
  (forall y, In y (x :: l) -> solo (step (Some y)) s = Ok (f y, s)) ->
  (forall y a, In y (x :: l) -> solo (body a (Some y)) s = Ok (g a y, s)) ->
  solo (pcirc step body fuel (Some x0) (Some x) acc) s = Ok (bfold g acc (x :: l), s).
Proof.
  induction l as [|z l IH]; intros x fuel acc Hc Hni Hf Hs Hb; destruct fuel as [|fuel]; try (simpl in Hf; lia).
  - simpl in Hc. cbn [pcirc]. rewrite solo_bind, (Hb x acc (or_introl eq_refl)).
    cbn [bfold]. destruct (g acc x) as [a [|]]; cbn [fst snd]; [reflexivity|].
    rewrite solo_bind, (Hs x (or_introl eq_refl)), Hc, ptr_eqb_refl. destruct fuel; reflexivity.
  - destruct Hc as [H1 H2]. cbn [pcirc]. rewrite solo_bind, (Hb x acc (or_introl eq_refl)).
    cbn [bfold]. destruct (g acc x) as [a [|]]; cbn [fst snd]; [reflexivity|].
    rewrite solo_bind, (Hs x (or_introl eq_refl)), H1.
    destruct (ptr_eqb (Some z) (Some x0)) eqn:E.
    + apply ptr_eqb_eq in E; injection E as ->. exfalso; apply Hni; left; reflexivity.
    + apply IH; [exact H2|intros H; apply Hni; right; exact H|simpl in *; lia| |]; intros; [apply Hs|apply Hb]; right; assumption.
Qed.

Section W.
Variable m : mesh N.
Hypothesis W : WF m.
Lemma solo_at {X} (x : M N X) s a : l_mesh s = m -> x m = Ok (a, m) -> solo (onm x) s = Ok (a, s).
Proof. intros Em E. rewrite solo_onm. unfold lift_mem. rewrite Em, E, (with_mesh s m Em). reflexivity. Qed.
Lemma pcirc_v_ok {A} s v h l (body : A -> ptr -> prog (mem N) (A * bool)) g acc : l_mesh s = m ->
  In v (m_verts m) -> v_he m v = Some h -> Vring m v (h :: l) ->
  (forall y a, In y (m_hes m) -> h_src m y = Some v -> solo (body a (Some y)) s = Ok (g a y, s)) ->
  solo (p_circ_v (Some v) acc body) s = Ok (bfold g acc (h :: l), s).
Proof.
  intros Em Hv Eh Hr Hb. unfold p_circ_v.
  rewrite solo_bind, (solo_at _ s _ Em (r_vhe m v (v_alive m W v Hv))), Eh, solo_bind, (solo_at (get m_fresh) s _ Em eq_refl).
  pose proof (vring_len m W _ _ Hr) as Hlen. destruct Hr as (Hc & Hnd & Hin).
  eapply pcirc_chain; [exact Hc|inversion Hnd; assumption|simpl in *; lia| |].
  - intros y Hy. rewrite solo_step_v. unfold lift_mem. rewrite Em, (step_v_ok m W y) by apply Hin, Hy. rewrite (with_mesh s m Em). reflexivity.
  - intros y a Hy; apply Hb; apply Hin, Hy.
Qed.
Lemma pcirc_f_ok {A} s f h l (body : A -> ptr -> prog (mem N) (A * bool)) g acc : l_mesh s = m ->
  In f (m_faces m) -> f_he m f = Some h -> Fring m f (h :: l) ->
  (forall y a, In y (m_hes m) -> h_face m y = Some f -> solo (body a (Some y)) s = Ok (g a y, s)) ->
  solo (p_circ_f (Some f) acc body) s = Ok (bfold g acc (h :: l), s).
Proof.
  intros Em Hv Eh Hr Hb. unfold p_circ_f.
  rewrite solo_bind, (solo_at _ s _ Em (r_fhe m f (f_alive m W f Hv))), Eh, solo_bind, (solo_at (get m_fresh) s _ Em eq_refl).
  pose proof (fring_len m W _ _ Hr) as Hlen. destruct Hr as (Hc & Hnd & Hin).
  eapply pcirc_chain; [exact Hc|inversion Hnd; assumption|simpl in *; lia| |].
  - intros y Hy. unfold p_step_f. rewrite (solo_at _ s _ Em (r_next m y (h_alive m W y (proj1 (proj1 (Hin y) Hy))))). reflexivity.
  - intros y a Hy; apply Hb; apply Hin, Hy.
Qed.
Lemma mvertex_at s i v : l_mesh s = m -> nth_error (m_verts m) i = Some v -> solo (onm (mesh_vertex (Z.of_nat i))) s = Ok (Some v, s).
Proof. intros Em E. apply solo_at; [exact Em|]. rewrite mesh_vertex_eq, E. reflexivity. Qed.
Lemma mface_at s i v : l_mesh s = m -> nth_error (m_faces m) i = Some v -> solo (onm (mesh_face (Z.of_nat i))) s = Ok (Some v, s).
Proof. intros Em E. apply solo_at; [exact Em|]. rewrite mesh_face_eq, E. reflexivity. Qed.

Definition okab {A} (r : res A) : Prop := match r with Ok _ => True | Abort _ => True | _ => False end.
Lemma okab_lift {X B} (o : option X) (k : X -> prog (mem N) B) s : l_mesh s = m -> (forall x, okab (solo (k x) s)) -> okab (solo (pbind (onm (lift o)) k) s).
Proof. intros Em H. rewrite solo_bind, solo_onm. unfold lift_mem. rewrite Em. destruct o as [x|]; cbn [lift ret abort]; [|exact I]. rewrite (with_mesh s m Em). apply H. Qed.

Lemma arr_set_at {X} (f : mem N -> list X) upd s i x : i < length (f s) -> solo (arr_set f upd i x) s = Ok (tt, upd (setnth (f s) i x) s).
Proof. intros H. unfold arr_set, act. cbn [solo]. destruct (Nat.ltb_spec i (length (f s))); [reflexivity|lia]. Qed.
Lemma solo_dn_face s i f : l_mesh s = m -> nth_error (m_faces m) i = Some f ->
  i < length (l_cent s) -> i < length (l_norm s) -> i < length (l_area s) -> okab (solo (dn_face i) s).
Proof.
  intros Em E L1 L2 L3. assert (If := nth_error_In _ _ E). destruct (fring m W f If) as (h & l & Eh & Hr).
  unfold dn_face. rewrite solo_bind, (mface_at s i f Em E), solo_bind.
  rewrite (pcirc_f_ok s f h l _ (fun acc y => (acc ++ [pos_at m (h_src m y)], false)) _ Em If Eh Hr).
  2:{ intros y a Iy _. destruct (wf_src m W y Iy) as (v & Ev & Iv). rewrite solo_bind, (solo_at _ s _ Em (r_src m y (h_alive m W y Iy))), Ev, solo_bind, (solo_at _ s _ Em (r_pos m v (v_alive m W v Iv))). reflexivity. }
  rewrite (bfold_collect (fun y => pos_at m (h_src m y))). cbn [app].
  assert (Ab : okab (solo (onm (abort AError) : prog (mem N) unit) s)) by (rewrite solo_onm; unfold lift_mem; exact I).
  destruct (map (fun y => pos_at m (h_src m y)) (h :: l)) as [|v0 [|v1 [|v2 [|v4 r]]]]; try exact Ab.
  apply okab_lift; [exact Em|]. intros nn. rewrite solo_bind, (arr_set_at l_norm set_norm s i nn L2).
  rewrite solo_bind, solo_onm. unfold lift_mem. cbn [l_mesh set_norm]. destruct (vdiv _ _) as [c|]; cbn [lift ret abort]; [|exact I].
  rewrite solo_bind, arr_set_at by exact L1. rewrite arr_set_at by exact L3. exact I.
Qed.

Lemma arr_at {X} (f : mem N -> list X) s j : (0 <= j)%Z -> Z.to_nat j < length (f s) -> exists x, solo (arr_get f j) s = Ok (x, s).
Proof.
  intros H L. unfold arr_get, act. cbn [solo]. destruct (Z.ltb_spec j 0); [lia|]. destruct (nth_error (f s) (Z.to_nat j)) as [x|] eqn:E; [exists x; reflexivity|]. apply nth_error_None in E. lia.
Qed.
Lemma face_index y f : In y (m_hes m) -> h_face m y = Some f -> fa_idx (Some f) m = Ok (f_idx m f, m) /\ (0 <= f_idx m f)%Z /\ Z.to_nat (f_idx m f) < length (m_faces m).
Proof.
  intros Iy Ef. assert (If := face_in m W y f Iy Ef). split; [apply r_fidx, (f_alive m W), If|]. apply In_nth_error in If as [i E]. destruct (wf_f_elem m W i f E) as (_ & -> & _).
  assert (i < length (m_faces m)) by (apply nth_error_Some; congruence). lia.
Qed.
(** The value of a program that changes nothing. *)
Definition pval {A} (d : A) (p : prog (mem N) A) (s : mem N) : A := match solo p s with Ok (a, _) => a | _ => d end.

Lemma solo_dn_filter w s i f : l_mesh s = m -> nth_error (m_faces m) i = Some f ->
  length (l_cent s) = length (m_faces m) -> length (l_norm s) = length (m_faces m) -> length (l_new s) = length (m_faces m) -> length (l_area s) = length (m_faces m) ->
  okab (solo (dn_filter w i) s).
Proof.
  intros Em E L1 L2 L3 L4. assert (If := nth_error_In _ _ E). destruct (fring m W f If) as (h & l & Eh & Hr). assert (Hi : i < length (m_faces m)) by (apply nth_error_Some; congruence).
  unfold dn_filter. rewrite solo_bind, (mface_at s i f Em E), solo_bind.
  match goal with |- context [p_circ_f (Some f) vzero ?b] => set (body := b) end.
  rewrite (pcirc_f_ok s f h l body (fun a y => pval (a, false) (body a (Some y)) s) _ Em If Eh Hr).
  2:{ intros y a Iy _. assert (Ex : exists r, solo (body a (Some y)) s = Ok (r, s)).
      { unfold body. destruct (wf_rev m W y Iy) as (r & Er & Ir). destruct (wf_face m W r Ir) as (g & Eg & Ig). destruct (face_index r g Ir Eg) as (Ej & J0 & J1).
        rewrite solo_bind, (solo_at _ s _ Em (r_rev m y (h_alive m W y Iy))), Er, solo_bind, (solo_at _ s _ Em (r_face m r (h_alive m W r Ir))), Eg, solo_bind, (solo_at _ s _ Em Ej).
        destruct (arr_at l_cent s (Z.of_nat i)) as [x1 E1]; [lia|lia|]. rewrite solo_bind, E1. destruct (arr_at l_cent s (f_idx m g)) as [x2 E2]; [lia|lia|]. rewrite solo_bind, E2.
        destruct (arr_at l_norm s (Z.of_nat i)) as [x3 E3]; [lia|lia|]. rewrite solo_bind, E3. destruct (arr_at l_norm s (f_idx m g)) as [x4 E4]; [lia|lia|]. rewrite solo_bind, E4.
        destruct (arr_at l_area s (f_idx m g)) as [x5 E5]; [lia|lia|]. rewrite solo_bind, E5. eexists. reflexivity. }
      destruct Ex as [r Ex]. unfold pval. rewrite Ex. reflexivity. }
  generalize (bfold (fun a y => pval (a, false) (body a (Some y)) s) vzero (h :: l)). intros norm. destruct (negb (neqb (vlength norm) nzero)); [|exact I].
  apply okab_lift; [exact Em|]. intros x. unfold arr_set, act. cbn [solo]. destruct (Nat.ltb_spec i (length (l_new s))); [exact I|lia].
Qed.

Lemma solo_dn_update s i v : l_mesh s = m -> nth_error (m_verts m) i = Some v ->
  length (l_cent s) = length (m_faces m) -> length (l_new s) = length (m_faces m) -> length (l_area s) = length (m_faces m) ->
  okab (solo (dn_update i) s).
Proof.
  intros Em E L1 L3 L4. assert (Iv := nth_error_In _ _ E). destruct (vring m W v Iv) as (h & l & Eh & Hr). assert (Hi : i < length (m_verts m)) by (apply nth_error_Some; congruence).
  unfold dn_update. rewrite solo_bind, (mvertex_at s i v Em E), solo_bind.
  match goal with |- context [p_circ_v (Some v) (nzero, vzero) ?b] => set (body := b) end.
  rewrite (pcirc_v_ok s v h l body (fun a y => pval (a, false) (body a (Some y)) s) _ Em Iv Eh Hr).
  2:{ intros y a Iy _. assert (Ex : exists r, solo (body a (Some y)) s = Ok (r, s)).
      { unfold body. destruct (wf_face m W y Iy) as (g & Eg & Ig). destruct (face_index y g Iy Eg) as (Ej & J0 & J1).
        rewrite solo_bind, (solo_at _ s _ Em (r_face m y (h_alive m W y Iy))), Eg, solo_bind, (solo_at _ s _ Em Ej).
        destruct (arr_at l_area s (f_idx m g)) as [x1 E1]; [lia|lia|]. rewrite solo_bind, E1. destruct (arr_at l_new s (f_idx m g)) as [x2 E2]; [lia|lia|]. rewrite solo_bind, E2.
        destruct (arr_at l_cent s (f_idx m g)) as [x3 E3]; [lia|lia|]. rewrite solo_bind, E3. rewrite solo_bind, (solo_at _ s _ Em (r_pos m v (v_alive m W v Iv))). eexists. reflexivity. }
      destruct Ex as [r Ex]. unfold pval. rewrite Ex. reflexivity. }
  generalize (bfold (fun a y => pval (a, false) (body a (Some y)) s) (nzero, vzero) (h :: l)). intros r.
  apply okab_lift; [exact Em|]. intros x. rewrite solo_bind, (solo_at _ s _ Em (r_pos m v (v_alive m W v Iv))). rewrite solo_onm. unfold lift_mem. rewrite Em, (ww_pos m v _ (v_alive m W v Iv)). exact I.
Qed.
End W.

Lemma agree_ok {A} (o1 o2 : res A) : agree o1 o2 -> forall a, o1 = Ok a -> o2 = Ok a.
Proof. intros H a ->. destruct o2; cbn in H; try contradiction. congruence. Qed.
Lemma agree_refl_okab {A} (o1 o2 : res A) : agree o1 o2 -> okab o1.
Proof. destruct o1, o2; cbn; tauto. Qed.
Lemma RFs i (s t : mem N) : RF i s t -> RF i t s. Proof. unfold RF; congruence. Qed.
Lemma RFt i (s t u : mem N) : RF i s t -> RF i t u -> RF i s u. Proof. unfold RF; congruence. Qed.

Section Loops.
Variable m : mesh N.
Hypothesis W : WF m.
Notation nf := (length (m_faces m)).
Lemma face_loop o1 o2 : outcome (mem0 m nf) (map dn_face (seq 0 nf)) o1 -> outcome (mem0 m nf) (map dn_face (seq 0 nf)) o2 -> agree o1 o2.
Proof.
  apply (det_loop (IA m nf) RA _ _ _ _ RAr RAs RAt (IA0 m nf)).
  - intros i p Hp. apply nth_map_seq in Hp as [_ ->]. apply loc_dn_face.
  - intros a b Ia Ib H. rewrite map_length, seq_length in H. apply (IA_eq m nf a b Ia Ib H).
  - intros i p Hp. apply nth_map_seq in Hp as [Hi ->]. destruct (nth_error (m_faces m) i) as [f|] eqn:E; [|apply nth_error_None in E; lia].
    apply (solo_dn_face m W (mem0 m nf) i f eq_refl E); cbn; rewrite repeat_length; exact Hi.
Qed.
Lemma face_loop_ok s : outcome (mem0 m nf) (map dn_face (seq 0 nf)) (Ok s) -> IA m nf s.
Proof.
  intros O. apply (outcomes (IA m nf) RA RAr RAs RAt) in O; [apply O|apply IA0|]. intros i p Hp. apply nth_map_seq in Hp as [_ ->]. apply loc_dn_face.
Qed.
Lemma filter_loop w s o1 o2 : IA m nf s -> outcome s (map (dn_filter w) (seq 0 nf)) o1 -> outcome s (map (dn_filter w) (seq 0 nf)) o2 -> agree o1 o2.
Proof.
  intros (Em & L1 & L2 & L3 & L4). apply (det_loop (IF m nf s) RF _ _ _ _ RFr RFs RFt).
  - repeat split; auto.
  - intros i p Hp. apply nth_map_seq in Hp as [_ ->]. apply loc_dn_filter.
  - intros a b Ia Ib H. rewrite map_length, seq_length in H. apply (IF_eq m nf s a b Ia Ib H).
  - intros i p Hp. apply nth_map_seq in Hp as [Hi ->]. destruct (nth_error (m_faces m) i) as [f|] eqn:E; [|apply nth_error_None in E; lia].
    apply (solo_dn_filter m W w s i f Em E); assumption.
Qed.
Lemma filter_loop_ok w s s' : IA m nf s -> outcome s (map (dn_filter w) (seq 0 nf)) (Ok s') -> IA m nf s'.
Proof.
  intros (Em & L1 & L2 & L3 & L4) O. apply (outcomes (IF m nf s) RF RFr RFs RFt) in O.
  - destruct O as ((A & B & C & D & E) & _). unfold IA. rewrite C, D, E. auto.
  - repeat split; auto.
  - intros i p Hp. apply nth_map_seq in Hp as [_ ->]. apply loc_dn_filter.
Qed.
Lemma update_loop s o1 o2 : IA m nf s -> outcome s (map dn_update (seq 0 (length (m_verts m)))) o1 -> outcome s (map dn_update (seq 0 (length (m_verts m)))) o2 -> agree o1 o2.
Proof.
  intros (Em & L1 & L2 & L3 & L4). apply (det_loop (IB m s) (RB m) _ _ _ _ (RBr m) (RBs m) (RBt m)).
  - split; [rewrite Em; apply posonly_refl|auto].
  - intros i p Hp. apply nth_map_seq in Hp as [_ ->]. apply loc_dn_update, (wf_v_nodup m W).
  - intros a b Ia Ib H. rewrite map_length, seq_length in H. apply (IB_eq m s a b Ia Ib H).
  - intros i p Hp. apply nth_map_seq in Hp as [Hi ->]. destruct (nth_error (m_verts m) i) as [f|] eqn:E; [|apply nth_error_None in E; lia].
    apply (solo_dn_update m W s i f Em E); assumption.
Qed.
Lemma update_loop_ok s s' : IA m nf s -> outcome s (map dn_update (seq 0 (length (m_verts m)))) (Ok s') -> posonly m (l_mesh s').
Proof.
  intros (Em & L1 & L2 & L3 & L4) O. apply (outcomes (IB m s) (RB m) (RBr m) (RBs m) (RBt m)) in O; [apply O|split; [rewrite Em; apply posonly_refl|auto]|].
  intros i p Hp. apply nth_map_seq in Hp as [_ ->]. apply loc_dn_update, (wf_v_nodup m W).
Qed.
Lemma two_det w o1 o2 : two_loops (mem0 m nf) nf dn_face (dn_filter w) o1 -> two_loops (mem0 m nf) nf dn_face (dn_filter w) o2 -> agree o1 o2.
Proof.
  intros [s1 o A B | o A NO] [s2 o' A' B' | o' A' NO'].
  - assert (E := face_loop _ _ A A'). cbn in E. subst s2. apply (filter_loop w s1 o o' (face_loop_ok s1 A) B B').
  - assert (E := agree_ok _ _ (face_loop _ _ A A') s1 eq_refl). exfalso. apply (NO' s1 E).
  - assert (E := agree_ok _ _ (face_loop _ _ A' A) s2 eq_refl). exfalso. apply (NO s2 E).
  - apply (face_loop _ _ A A').
Qed.
Lemma two_ok_IA w s : two_loops (mem0 m nf) nf dn_face (dn_filter w) (Ok s) -> IA m nf s.
Proof. intros H. inversion H as [s1 o A B | o A NO]; subst; [apply (filter_loop_ok w s1 s (face_loop_ok s1 A) B)|exfalso; apply (NO s eq_refl)]. Qed.
Lemma mesh_out_agree (o1 o2 : res (mem N)) : agree o1 o2 -> agree (mesh_out o1) (mesh_out o2).
Proof. destruct o1, o2; cbn; try tauto. congruence. Qed.
Lemma dn_det w o1 o2 : dn_loops w m o1 -> dn_loops w m o2 -> agree o1 o2.
Proof.
  intros [s o A B | o A NO] [s' o' A' B' | o' A' NO'].
  - assert (E := two_det w _ _ A A'). cbn in E. subst s'. apply mesh_out_agree, (update_loop s o o' (two_ok_IA w s A) B B').
  - exfalso. apply (NO' s). apply (agree_ok _ _ (two_det w _ _ A A') s eq_refl).
  - exfalso. apply (NO s'). apply (agree_ok _ _ (two_det w _ _ A' A) s' eq_refl).
  - apply mesh_out_agree, (two_det w o o' A A').
Qed.
Lemma dn_pos w m' : dn_loops w m (Ok m') -> posonly m m'.
Proof.
  intros H. inversion H as [s o A B E | o A NO E]; subst.
  - destruct o as [s'| | |]; cbn in E; try discriminate. injection E as <-. apply (update_loop_ok s s' (two_ok_IA w s A) B).
  - destruct o as [s'| | |]; cbn in E; try discriminate. exfalso. apply (NO s' eq_refl).
Qed.
Lemma dn_exists w : exists o, dn_loops w m o.
Proof.
  assert (O1 := in_order_outcome (map dn_face (seq 0 nf)) (mem0 m nf) [] ltac:(intros p [])). cbn [app] in O1.
  destruct (in_order (map dn_face (seq 0 nf)) (mem0 m nf)) as [s|u|u|] eqn:E1.
  - assert (O2 := in_order_outcome (map (dn_filter w) (seq 0 nf)) s [] ltac:(intros p [])). cbn [app] in O2.
    destruct (in_order (map (dn_filter w) (seq 0 nf)) s) as [s'|u|u|] eqn:E2.
    + assert (O3 := in_order_outcome (map dn_update (seq 0 (length (m_verts m)))) s' [] ltac:(intros p [])). cbn [app] in O3. eexists. eapply dn_ok; [eapply two_ok; [exact O1|exact O2]|exact O3].
    + eexists. eapply dn_fail; [eapply two_ok; [exact O1|exact O2]|discriminate].
    + eexists. eapply dn_fail; [eapply two_ok; [exact O1|exact O2]|discriminate].
    + eexists. eapply dn_fail; [eapply two_ok; [exact O1|exact O2]|discriminate].
  - eexists. eapply dn_fail; [apply two_fail; [exact O1|discriminate]|discriminate].
  - eexists. eapply dn_fail; [apply two_fail; [exact O1|discriminate]|discriminate].
  - eexists. eapply dn_fail; [apply two_fail; [exact O1|discriminate]|discriminate].
Qed.
End Loops.

(** Steps whose outcomes agree. *)
Definition fair_step (step : nat -> mesh N -> res (mesh N) -> Prop) : Prop := forall it m, WF m ->
  (exists o, step it m o) /\ (forall o1 o2, step it m o1 -> step it m o2 -> agree o1 o2) /\ (forall m', step it m (Ok m') -> posonly m m').
Lemma dn_fair w : fair_step (fun _ => dn_step w).
Proof.
  intros it m W. destruct (taubin_det nhalf (ndiv (nofZ 53) (nofZ 100)) 3 m W) as (r & Hr & U & C). fold (@taubin_default N) in Hr, U.
  destruct C as [(m1 & -> & P & K) | ->].
  - assert (W1 := posonly_wf m m1 W P). split; [|split].
    + destruct (dn_exists m1 w) as [o Ho]. exists o. apply (dns_ok w m m1 o Hr Ho).
    + intros o1 o2 H1 H2. inversion H1 as [a o A B|o A NO]; subst; [|exfalso; apply (NO m1), (U _ A)]. inversion H2 as [a2 o A2 B2|o A2 NO2]; subst; [|exfalso; apply (NO2 m1), (U _ A2)].
      assert (E := U _ A). injection E as ->. assert (E := U _ A2). injection E as ->. apply (dn_det m1 W1 w o1 o2 B B2).
    + intros m' H. inversion H as [a o A B|o A NO]; subst; [|exfalso; apply (NO m' eq_refl)]. assert (E := U _ A). injection E as ->. apply (posonly_trans m m1 m' P), (dn_pos m1 W1 w m' B).
  - split; [|split].
    + exists (Abort AThrow). apply (dns_fail w m _ Hr). discriminate.
    + intros o1 o2 H1 H2. inversion H1 as [a o A B|o A NO]; subst; [apply U in A; discriminate|]. inversion H2 as [a2 o A2 B2|o A2 NO2]; subst; [apply U in A2; discriminate|]. rewrite (U _ A), (U _ A2). exact I.
    + intros m' H. inversion H as [a o A B|o A NO]; subst; [apply U in A; discriminate|exfalso; apply (NO m' eq_refl)].
Qed.
Lemma repeats_fair step : fair_step step -> forall n it m, WF m ->
  (exists o, repeats step it n m o) /\ (forall o1 o2, repeats step it n m o1 -> repeats step it n m o2 -> agree o1 o2) /\ (forall m', repeats step it n m (Ok m') -> posonly m m').
Proof.
  intros G n. induction n as [|n IH]; intros it m W.
  - split; [exists (Ok m); apply rep_0|]. split.
    + intros o1 o2 H1 H2. inversion H1; inversion H2; subst. reflexivity.
    + intros m' H. inversion H; subst. apply posonly_refl.
  - destruct (G it m W) as ((o & Ho) & U & P). split; [|split].
    + assert (D : (exists m1, o = Ok m1) \/ forall m1, o <> Ok m1) by (destruct o as [x| | |]; [left; exists x; reflexivity|right|right|right]; discriminate).
      destruct D as [(m1 & ->) | NO].
      * destruct (IH (S it) m1 (posonly_wf m m1 W (P m1 Ho))) as ((o2 & H2) & _). exists o2. apply (rep_S step it n m m1 o2 Ho H2).
      * exists o. apply (rep_fail step it n m o Ho NO).
    + intros o1 o2 H1 H2. inversion H1 as [|? ? ? a ? A B|? ? ? ? A NO]; subst.
      * inversion H2 as [|? ? ? a2 ? A2 B2|? ? ? ? A2 NO2]; subst; [|exfalso; apply (NO2 a), (agree_ok _ _ (U _ _ A A2) a eq_refl)].
        assert (E := U _ _ A A2). cbn in E. subst a2. destruct (IH (S it) a (posonly_wf m a W (P a A))) as (_ & U2 & _). apply (U2 _ _ B B2).
      * inversion H2 as [|? ? ? a2 ? A2 B2|? ? ? ? A2 NO2]; subst; [exfalso; apply (NO a2), (agree_ok _ _ (U _ _ A2 A) a2 eq_refl)|]. apply (U _ _ A A2).
    + intros m' H. inversion H as [|? ? ? a ? A B|? ? ? ? A NO]; subst; [|exfalso; apply (NO m' eq_refl)].
      destruct (IH (S it) a (posonly_wf m a W (P a A))) as (_ & _ & P2). apply (posonly_trans m a m' (P a A) (P2 m' B)).
Qed.
Theorem denoise_gauss_det sigma n (m : mesh N) o1 o2 : WF m -> denoiseNormalGaussian sigma n m o1 -> denoiseNormalGaussian sigma n m o2 ->
  agree o1 o2 /\ forall m', o1 = Ok m' -> posonly m m'.
Proof.
  intros W [a1 p1 E1 H1] [a2 p2 E2 H2]. assert (a1 = a2) by congruence. subst a2. destruct (repeats_fair _ (dn_fair (wgt_gauss (nmul sigma a1))) n 0 m W) as (_ & U & P). split; [apply (U _ _ H1 H2)|]. intros m' ->. apply (P m' H1).
Qed.
Theorem denoise_bilateral_det sc sn n (m : mesh N) o1 o2 : WF m -> denoiseNormalBilateral sc sn n m o1 -> denoiseNormalBilateral sc sn n m o2 ->
  agree o1 o2 /\ forall m', o1 = Ok m' -> posonly m m'.
Proof.
  intros W [a1 p1 E1 H1] [a2 p2 E2 H2]. assert (a1 = a2) by congruence. subst a2. destruct (repeats_fair _ (dn_fair (wgt_bilateral (nmul sc a1) sn)) n 0 m W) as (_ & U & P). split; [apply (U _ _ H1 H2)|]. intros m' ->. apply (P m' H1).
Qed.
End D.
