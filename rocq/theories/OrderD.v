(** The normal filters on two meshes of the same triangles. *)
From Coq Require Import Reals Lra Lia List ZArith Bool Arith Permutation.
From Verif Require Import Num NumInst Vec Heap Mesh Spec BuildSpec Orbit Rings Exec Diamond Queries Bounds GeomSpec VecR Measure MeasureR MeasureM SmoothSpec SmoothP SmoothD FilterSpec DenSpec SmoothF Smooth Smooth DenoiseR Clone Curv CurvN CurvW OrderSpec Order OrderM OrderS.
Import ListNotations.
Local Open Scope R_scope.
Implicit Types m : mesh NumR.

Lemma sumv_xyz l : sumv l = V3 (N := NumR) (total (map vx l)) (total (map vy l)) (total (map vz l)).
Proof. induction l as [|a l IH]; [reflexivity|]. cbn [sumv fold_right map total]. unfold sumv in IH. rewrite IH. unfold vadd. cbn [vx vy vz]. rn. reflexivity. Qed.

Section Dn.
Variables (R : nat -> nat -> Prop) (m m' : mesh NumR).
Hypothesis V : Valid m. Hypothesis V' : Valid m'. Hypothesis C : Closed m. Hypothesis C' : Closed m'. Hypothesis P : Paired R m m'.
Hypothesis E : forall v v', R v v' -> v_pos m v = v_pos m' v'.
Let W := valid_wf m V. Let W' := valid_wf m' V'.

Definition hp (h h' : nat) : Prop := In h (m_hes m) /\ In h' (m_hes m') /\ exists a b a' b', h_src m h = Some a /\ dst_of m h = Some b /\ h_src m' h' = Some a' /\ dst_of m' h' = Some b' /\ R a a' /\ R b b'.
Lemma hp_l h : In h (m_hes m) -> exists h', hp h h'.
Proof.
  intros Ih. destruct (wf_src m W h Ih) as (a & Sa & Ia). destruct (dst_in m h W Ih) as (b & Db & Ib). destruct (pr_l _ _ _ P a Ia) as (a' & Ra). destruct (pr_l _ _ _ P b Ib) as (b' & Rb).
  destruct (proj1 (pr_adj _ _ _ P a a' b b' Ra Rb)) as (h' & Ih' & S' & D'); [exists h; auto|]. exists h'. split; [exact Ih|]. split; [exact Ih'|]. exists a, b, a', b'. auto 10.
Qed.
Lemma hp_r h' : In h' (m_hes m') -> exists h, hp h h'.
Proof.
  intros Ih. destruct (wf_src m' W' h' Ih) as (a & Sa & Ia). destruct (dst_in m' h' W' Ih) as (b & Db & Ib). destruct (pr_r _ _ _ P a Ia) as (a' & Ra). destruct (pr_r _ _ _ P b Ib) as (b' & Rb).
  destruct (proj2 (pr_adj _ _ _ P a' a b' b Ra Rb)) as (h & Ih' & S' & D'); [exists h'; auto|]. exists h. split; [exact Ih'|]. split; [exact Ih|]. exists a', b', a, b. auto 10.
Qed.
Lemma hp_fun h x y : hp h x -> hp h y -> x = y.
Proof.
  intros (_ & Ix & a & b & a' & b' & A1 & A2 & A3 & A4 & A5 & A6) (_ & Iy & c & d & c' & d' & B1 & B2 & B3 & B4 & B5 & B6). assert (c = a) by congruence. assert (d = b) by congruence. subst c d.
  apply (valid_noparallel m' V' x y Ix Iy); [rewrite A3, B3; f_equal; exact (pr_fun _ _ _ P _ _ _ A5 B5)|rewrite A4, B4; f_equal; exact (pr_fun _ _ _ P _ _ _ A6 B6)].
Qed.
Lemma hp_inj x y h : hp x h -> hp y h -> x = y.
Proof.
  intros (Ix & _ & a & b & a' & b' & A1 & A2 & A3 & A4 & A5 & A6) (Iy & _ & c & d & c' & d' & B1 & B2 & B3 & B4 & B5 & B6). assert (c' = a') by congruence. assert (d' = b') by congruence. subst c' d'.
  apply (valid_noparallel m V x y Ix Iy); [rewrite A1, B1; f_equal; exact (pr_inj _ _ _ P _ _ _ A5 B5)|rewrite A2, B2; f_equal; exact (pr_inj _ _ _ P _ _ _ A6 B6)].
Qed.
Lemma inner (n : mesh NumR) v : Closed n -> ~ on_boundary n v.
Proof. intros Cn (h & Ih & _ & B). rewrite (Cn h Ih) in B. discriminate. Qed.
Lemma own_tri (n : mesh NumR) h a b : Valid n -> Closed n -> In h (m_hes n) -> h_src n h = Some a -> dst_of n h = Some b -> exists c, In (own n h) (m_faces n) /\ h_face n h = Some (own n h) /\ Spec.Tri n (own n h) a b c /\ In c (m_verts n).
Proof.
  intros Vn Cn Ih Sh Dh. destruct (he_tri n h Vn Ih (Cn h Ih)) as (f & x & y & c & If & Ef & T & _ & _ & _ & S1 & S2 & S3). exists c. unfold own. rewrite Ef. split; [exact If|]. split; [reflexivity|].
  assert (x = a) by congruence. assert (y = b) by congruence. subst. split; [exact T|]. destruct T as (p & q & t & Hx & _ & _ & _ & _ & _ & St). destruct (wf_src n (valid_wf n Vn) t) as (s & Es & Is); [apply (Hx t); auto|]. congruence.
Qed.
Lemma hp_tri h h' : hp h h' -> exists a b c a' b' c', Spec.Tri m (own m h) a b c /\ Spec.Tri m' (own m' h') a' b' c' /\ R a a' /\ R b b' /\ R c c'.
Proof.
  intros (Ih & Ih' & a & b & a' & b' & A1 & A2 & A3 & A4 & A5 & A6). destruct (own_tri m h a b V C Ih A1 A2) as (c & _ & _ & T & Ic). destruct (own_tri m' h' a' b' V' C' Ih' A3 A4) as (c' & _ & _ & T' & _).
  destruct (pr_l _ _ _ P c Ic) as (c1 & Rc). destruct (proj1 (pr_tri _ _ _ P a a' b b' c c1 A5 A6 Rc (inner m a C)) (ex_intro (fun f => Spec.Tri m f a b c) _ T)) as (f1 & T1). rewrite (tri_third m' _ _ _ _ _ _ V' T1 T') in Rc.
  exists a, b, c, a', b', c'. auto 10.
Qed.
Lemma hp_rev h h' : hp h h' -> exists r r', h_rev m h = Some r /\ h_rev m' h' = Some r' /\ hp r r'.
Proof.
  intros (Ih & Ih' & a & b & a' & b' & A1 & A2 & A3 & A4 & A5 & A6). destruct (wf_rev m W h Ih) as (r & Er & _). destruct (wf_rev m' W' h' Ih') as (r' & Er' & _).
  destruct (rev_he m h r a b W Ih Er A1 A2) as (Ir & S1 & D1). destruct (rev_he m' h' r' a' b' W' Ih' Er' A3 A4) as (Ir' & S1' & D1'). exists r, r'. split; [exact Er|]. split; [exact Er'|]. split; [exact Ir|]. split; [exact Ir'|]. exists b, a, b', a'. auto 10.
Qed.
Lemma across_rev (n : mesh NumR) h r : h_rev n h = Some r -> across n h = own n r.
Proof. intros Er. unfold across. rewrite Er. reflexivity. Qed.

(** The half-edges of corresponding triangles correspond. *)
Lemma tri_edges (n : mesh NumR) f a b c k : WF n -> Spec.Tri n f a b c -> In k (m_hes n) -> h_face n k = Some f -> exists u v, h_src n k = Some u /\ dst_of n k = Some v /\ In (u, v) [(a, b); (b, c); (c, a)].
Proof.
  intros Wn (x & y & z & Hx & N1 & N2 & N3 & S1 & S2 & S3) Ik Fk. assert (Ix : In x (m_hes n)) by (apply (Hx x); auto). assert (Iy : In y (m_hes n)) by (apply (Hx y); auto). assert (Iz : In z (m_hes n)) by (apply (Hx z); auto).
  destruct (proj1 (Hx k) (conj Ik Fk)) as [-> | [-> | ->]].
  - exists a, b. split; [exact S1|]. split; [exact (tri_dst n x y b Wn Ix N1 S2)|cbn; auto].
  - exists b, c. split; [exact S2|]. split; [exact (tri_dst n y z c Wn Iy N2 S3)|cbn; auto].
  - exists c, a. split; [exact S3|]. split; [exact (tri_dst n z x a Wn Iz N3 S1)|cbn; auto].
Qed.
Lemma edges_tri (n : mesh NumR) f a b c k u v : Valid n -> Spec.Tri n f a b c -> In k (m_hes n) -> h_src n k = Some u -> dst_of n k = Some v -> In (u, v) [(a, b); (b, c); (c, a)] -> h_face n k = Some f.
Proof.
  intros Vn (x & y & z & Hx & N1 & N2 & N3 & S1 & S2 & S3) Ik Sk Dk I. assert (Wn := valid_wf n Vn). assert (Ix : In x (m_hes n) /\ h_face n x = Some f) by (apply (Hx x); auto). assert (Iy : In y (m_hes n) /\ h_face n y = Some f) by (apply (Hx y); auto). assert (Iz : In z (m_hes n) /\ h_face n z = Some f) by (apply (Hx z); auto).
  destruct Ix as (Ix & Fx), Iy as (Iy & Fy), Iz as (Iz & Fz). assert (NP := valid_noparallel n Vn).
  destruct I as [I|[I|[I|[]]]]; injection I as -> ->.
  - rewrite (NP k x Ik Ix); [exact Fx|congruence|rewrite Dk, (tri_dst n x y v Wn Ix N1 S2); reflexivity].
  - rewrite (NP k y Ik Iy); [exact Fy|congruence|rewrite Dk, (tri_dst n y z v Wn Iy N2 S3); reflexivity].
  - rewrite (NP k z Ik Iz); [exact Fz|congruence|rewrite Dk, (tri_dst n z x v Wn Iz N3 S1); reflexivity].
Qed.
Lemma side_iff h h' k k' : hp h h' -> hp k k' -> (h_face m k = Some (own m h) <-> h_face m' k' = Some (own m' h')).
Proof.
  intros Hh Hk. destruct (hp_tri h h' Hh) as (a & b & c & a' & b' & c' & T & T' & Ra & Rb & Rc). destruct Hk as (Ik & Ik' & u & v & u' & v' & A1 & A2 & A3 & A4 & A5 & A6).
  assert (F := pr_fun _ _ _ P). assert (G := pr_inj _ _ _ P). split; intros Q.
  - destruct (tri_edges m _ a b c k W T Ik Q) as (u0 & v0 & B1 & B2 & B3). assert (u0 = u) by congruence. assert (v0 = v) by congruence. subst u0 v0. apply (edges_tri m' _ a' b' c' k' u' v' V' T' Ik' A3 A4).
    destruct B3 as [B|[B|[B|[]]]]; injection B as <- <-; cbn; [left|right; left|right; right; left]; f_equal; eapply F; eassumption.
  - destruct (tri_edges m' _ a' b' c' k' W' T' Ik' Q) as (u0 & v0 & B1 & B2 & B3). assert (u0 = u') by congruence. assert (v0 = v') by congruence. subst u0 v0. apply (edges_tri m _ a b c k u v V T Ik A1 A2).
    destruct B3 as [B|[B|[B|[]]]]; injection B as <- <-; cbn; [left|right; left|right; right; left]; f_equal; eapply G; eassumption.
Qed.

(** Corresponding sums. *)
Lemma filt_match (p p' : nat -> bool) (F F' : nat -> Rdefinitions.R) : (forall h h', hp h h' -> p h = p' h') -> (forall h h', hp h h' -> p h = true -> F h = F' h') ->
  total (map F (filter p (m_hes m))) = total (map F' (filter p' (m_hes m'))).
Proof.
  intros Q QF. apply (sum_match hp F F' hp_fun hp_inj); [apply NoDup_filter, (wf_h_nodup m W)|apply NoDup_filter, (wf_h_nodup m' W')| | |].
  - intros h Ih. apply filter_In in Ih. destruct Ih as (Ih & Ph). destruct (hp_l h Ih) as (h' & H). exists h'. split; [|exact H]. apply filter_In. split; [apply H|]. rewrite <- (Q h h' H). exact Ph.
  - intros h' Ih. apply filter_In in Ih. destruct Ih as (Ih & Ph). destruct (hp_r h' Ih) as (h & H). exists h. split; [|exact H]. apply filter_In. split; [apply H|]. rewrite (Q h h' H). exact Ph.
  - intros h h' Ih H. apply filter_In in Ih. apply (QF h h' H). apply Ih.
Qed.
Lemma filt_vec (p p' : nat -> bool) (F F' : nat -> vecR) : (forall h h', hp h h' -> p h = p' h') -> (forall h h', hp h h' -> p h = true -> F h = F' h') ->
  sumv (map F (filter p (m_hes m))) = sumv (map F' (filter p' (m_hes m'))).
Proof.
  intros Q QF. rewrite !sumv_xyz, !map_map. f_equal; apply (filt_match p p'); try exact Q; intros h h' H Hp; rewrite (QF h h' H Hp); reflexivity.
Qed.

Lemma data_same h h' n c A n' c' A' : hp h h' -> triangle_data m (own m h) n c A -> triangle_data m' (own m' h') n' c' A' -> n = n' /\ c = c' /\ A = A'.
Proof.
  intros H (u & v & w & T & D) (u' & v' & w' & T' & D'). destruct (hp_tri h h' H) as (x & y & z & x' & y' & z' & S & S' & Rx & Ry & Rz).
  assert (G : forall p q r p' q' r' : vecR, (p' = p /\ q' = q /\ r' = r) \/ (p' = q /\ q' = r /\ r' = p) \/ (p' = r /\ q' = p /\ r' = q) -> Vec.cross (Vec.vsub q' p') (Vec.vsub r' p') = Vec.cross (Vec.vsub q p) (Vec.vsub r p) /\ vadd (vadd p' q') r' = vadd (vadd p q) r).
  { intros p q r0 p' q' r' [(-> & -> & ->) | [(-> & -> & ->) | (-> & -> & ->)]]; split; try reflexivity; clear; vring. }
  assert (G1 := G (v_pos m u) (v_pos m v) (v_pos m w) (v_pos m x) (v_pos m y) (v_pos m z)). assert (G2 := G (v_pos m' u') (v_pos m' v') (v_pos m' w') (v_pos m' x') (v_pos m' y') (v_pos m' z')).
  destruct G1 as (X1 & X2). { destruct (tri_rotation m _ _ _ _ _ _ _ S T) as [(-> & -> & ->) | [(-> & -> & ->) | (-> & -> & ->)]]; auto 10. }
  destruct G2 as (Y1 & Y2). { destruct (tri_rotation m' _ _ _ _ _ _ _ S' T') as [(-> & -> & ->) | [(-> & -> & ->) | (-> & -> & ->)]]; auto 10. }
  rewrite (E _ _ Rx), (E _ _ Ry), (E _ _ Rz) in X1, X2. rewrite Y1 in X1. rewrite Y2 in X2. cbv zeta in D, D'. rewrite <- X1, <- X2 in D. clear G X1 X2 Y1 Y2 T T' S S'.
  destruct D as (D0 & D1 & D2 & D3), D' as (D0' & D1' & D2' & D3'). rewrite <- D1' in D1. subst A'. rewrite <- D2' in D2. rewrite <- D3' in D3.
  assert (K : forall (k : Rdefinitions.R) (a b : vecR), k <> 0 -> Vec.vscale (N := NumR) k a = Vec.vscale (N := NumR) k b -> a = b).
  { intros k [a1 a2 a3] [b1 b2 b3] Hk Q. unfold Vec.vscale in Q. cbn [vx vy vz] in Q. injection Q as Q1 Q2 Q3. revert Q1 Q2 Q3. rn. intros Q1 Q2 Q3. apply Rmult_eq_reg_r in Q1; [|exact Hk]. apply Rmult_eq_reg_r in Q2; [|exact Hk]. apply Rmult_eq_reg_r in Q3; [|exact Hk]. congruence. }
  split; [|split; [|reflexivity]]; [apply (K (2 * A)); [lra|exact D2]|apply (K 3); [lra|exact D3]].
Qed.

Lemma ptr_iff (p q : ptr) a b : (p = Some a <-> q = Some b) -> ptr_eqb p (Some a) = ptr_eqb q (Some b).
Proof.
  intros H. assert (Q : forall (p : ptr) a, ptr_eqb p (Some a) = true <-> p = Some a). { intros [x|] y; cbn; [rewrite Nat.eqb_eq; split; congruence|split; discriminate]. }
  destruct (ptr_eqb p (Some a)) eqn:A, (ptr_eqb q (Some b)) eqn:B; try reflexivity; exfalso.
  - apply Q in A. apply H in A. apply Q in A. congruence.
  - apply Q in B. apply H in B. apply Q in B. congruence.
Qed.

Lemma dn_same (weight : Rdefinitions.R -> Rdefinitions.R -> Rdefinitions.R -> Prop) m1 m1' : (forall x y a b, weight x y a -> weight x y b -> a = b) ->
  normal_pass weight m m1 -> normal_pass weight m' m1' -> forall v v', R v v' -> v_pos m1 v = v_pos m1' v'.
Proof.
  intros WF_ [_ (nr & ce & fl & ar & wt & A1 & A2 & A3 & A4)] [_ (nr' & ce' & fl' & ar' & wt' & B1 & B2 & B3 & B4)] v v' Rv.
  assert (Fc : forall (n : mesh NumR) h, Valid n -> Closed n -> In h (m_hes n) -> In (own n h) (m_faces n) /\ h_face n h = Some (own n h)).
  { intros n h Vn Cn Ih. destruct (wf_src n (valid_wf n Vn) h Ih) as (a & Sa & _). destruct (dst_in n h (valid_wf n Vn) Ih) as (b & Db & _). destruct (own_tri n h a b Vn Cn Ih Sa Db) as (c & I & F & _). auto. }
  assert (Dt : forall h h', hp h h' -> nr (own m h) = nr' (own m' h') /\ ce (own m h) = ce' (own m' h') /\ ar (own m h) = ar' (own m' h')).
  { intros h h' H. apply (data_same h h' _ _ _ _ _ _ H); [apply A1, (Fc m h V C), H|apply B1, (Fc m' h' V' C'), H]. }
  assert (Wt : forall h h' k k', hp h h' -> hp k k' -> wt (own m h) (own m k) = wt' (own m' h') (own m' k')).
  { intros h h' k k' H K. assert (X := A2 _ _ (proj1 (Fc m h V C (proj1 H))) (proj1 (Fc m k V C (proj1 K)))). assert (Y := B2 _ _ (proj1 (Fc m' h' V' C' (proj1 (proj2 H)))) (proj1 (Fc m' k' V' C' (proj1 (proj2 K))))).
    destruct (Dt h h' H) as (D1 & D2 & _). destruct (Dt k k' K) as (D3 & D4 & _). rewrite D1, D2, D3, D4 in X. exact (WF_ _ _ _ _ X Y). }
  assert (Fl : forall h h', hp h h' -> fl (own m h) = fl' (own m' h')).
  { intros h h' H. assert (X := A3 _ (proj1 (Fc m h V C (proj1 H)))). assert (Y := B3 _ (proj1 (Fc m' h' V' C' (proj1 (proj2 H))))). cbv zeta in X, Y.
    assert (Q : sumv (map (fun k => Vec.vscale (N := NumR) (wt (own m h) (across m k) * ar (across m k)) (nr (across m k))) (sides m (own m h))) = sumv (map (fun k => Vec.vscale (N := NumR) (wt' (own m' h') (across m' k) * ar' (across m' k)) (nr' (across m' k))) (sides m' (own m' h')))).
    { unfold sides. apply filt_vec.
      - intros k k' K. apply ptr_iff. apply side_iff; assumption.
      - intros k k' K _. destruct (hp_rev k k' K) as (r & r' & Er & Er' & Hr). rewrite (across_rev m k r Er), (across_rev m' k' r' Er'). destruct (Dt r r' Hr) as (D1 & _ & D3). rewrite D1, D3, (Wt h h' r r' H Hr). reflexivity. }
    rewrite Q in X. set (S := sumv (map _ (sides m' _))) in X, Y. destruct X as (X1 & X2 & X3), Y as (Y1 & Y2 & Y3). clearbody S. clear Q.
    destruct (Req_dec (vlength S) 0) as [Z | Z]; [apply vlength_zero in Z; rewrite (X3 Z), (Y3 Z); reflexivity|].
    apply eq_sym in Y1. assert (X0 := eq_trans X1 Y1). clear X1. rename X0 into X1. revert X1 Z. clear. generalize (vlength S). intros s X1 Z. destruct (fl (own m h)) as [a1 a2 a3], (fl' (own m' h')) as [b1 b2 b3]. unfold Vec.vscale in X1. cbn [vx vy vz] in X1. injection X1 as Q1 Q2 Q3. revert Q1 Q2 Q3. rn. intros Q1 Q2 Q3.
    apply Rmult_eq_reg_r in Q1; [|exact Z]. apply Rmult_eq_reg_r in Q2; [|exact Z]. apply Rmult_eq_reg_r in Q3; [|exact Z]. congruence. }
  destruct (pr_in _ _ _ P v v' Rv) as (Iv & Iv'). assert (X := A4 v Iv). assert (Y := B4 v' Iv'). cbv zeta in X, Y. unfold leaving in X, Y.
  assert (Pq : forall k k', hp k k' -> ptr_eqb (h_src m k) (Some v) = ptr_eqb (h_src m' k') (Some v')).
  { intros k k' (_ & _ & a & b & a' & b' & S1 & _ & S2 & _ & Ra & _). apply ptr_iff. rewrite S1, S2. split; intros Q; injection Q as ->; f_equal; [exact (pr_fun _ _ _ P _ _ _ Ra Rv)|exact (pr_inj _ _ _ P _ _ _ Ra Rv)]. }
  rewrite (filt_match _ _ (fun h => ar (own m h)) (fun h => ar' (own m' h)) Pq) in X by (intros h h' H _; apply (Dt h h' H)).
  rewrite (filt_vec _ _ _ (fun h => Vec.vscale (N := NumR) (ar' (own m' h) * Vec.dot (fl' (own m' h)) (Vec.vsub (ce' (own m' h)) (v_pos m' v'))) (fl' (own m' h))) Pq) in X.
  2: { intros h h' H _. destruct (Dt h h' H) as (_ & D2 & D3). rewrite D2, D3, (Fl h h' H), (E v v' Rv). reflexivity. }
  rewrite <- Y in X. clear Y.
  assert (Z : 0 < total (map (fun h => ar' (own m' h)) (filter (fun h => ptr_eqb (h_src m' h) (Some v')) (m_hes m')))).
  { destruct (wf_vhe m' W' v' Iv') as (h & _ & Ih & Sh). assert (In h (filter (fun h => ptr_eqb (h_src m' h) (Some v')) (m_hes m'))) by (apply filter_In; split; [exact Ih|rewrite Sh; cbn; apply Nat.eqb_refl]).
    assert (Pos : forall k, In k (filter (fun h => ptr_eqb (h_src m' h) (Some v')) (m_hes m')) -> 0 < ar' (own m' k)). { intros k Ik. apply filter_In in Ik. destruct (B1 _ (proj1 (Fc m' k V' C' (proj1 Ik)))) as (? & ? & ? & _ & D & _). exact D. }
    revert H Pos. generalize (filter (fun h => ptr_eqb (h_src m' h) (Some v')) (m_hes m')). clear. intros l I Pos.
    assert (G : forall l, (forall k, In k l -> 0 < ar' (own m' k)) -> 0 <= total (map (fun h => ar' (own m' h)) l)).
    { clear. induction l as [|k l IH]; intros Q; cbn [map total fold_right]; [lra|]. assert (0 < ar' (own m' k)) by (apply Q; left; reflexivity). assert (0 <= total (map (fun h => ar' (own m' h)) l)) by (apply IH; intros; apply Q; right; assumption). unfold total in *. lra. }
    destruct l as [|k l]; [destruct I|]. cbn [map total fold_right]. assert (0 < ar' (own m' k)) by (apply Pos; left; reflexivity). assert (0 <= total (map (fun h => ar' (own m' h)) l)) by (apply G; intros; apply Pos; right; assumption). unfold total in *. lra. }
  rewrite (E v v' Rv) in X. revert X Z. generalize (total (map (fun h => ar' (own m' h)) (filter (fun h => ptr_eqb (h_src m' h) (Some v')) (m_hes m')))). clear. intros s X Z.
  destruct (v_pos m1 v) as [a1 a2 a3], (v_pos m1' v') as [b1 b2 b3], (v_pos m' v') as [p1 p2 p3]. unfold Vec.vscale, Vec.vsub, vadd, vneg in X. cbn [vx vy vz] in X. injection X as Q1 Q2 Q3. revert Q1 Q2 Q3. rn. intros Q1 Q2 Q3.
  apply Rmult_eq_reg_r in Q1; [|lra]. apply Rmult_eq_reg_r in Q2; [|lra]. apply Rmult_eq_reg_r in Q3; [|lra]. f_equal; lra.
Qed.

(** The mean edge length. *)
Lemma reps_total (n : mesh NumR) reps : WF n -> EdgeReps n reps -> fold_left (@nadd NumR) (map (edge_length n) reps) nzero = total (map (edge_length n) reps).
Proof.
  intros _ _. assert (G : forall l a, fold_left (@nadd NumR) l a = a + total l). { induction l as [|x l IH]; intros a; cbn [fold_left total fold_right]; [lra|]. rewrite IH. unfold total. rn. lra. }
  rewrite G. change (@nzero NumR) with 0. lra.
Qed.
Lemma reps_same l l' : EdgeReps m l -> EdgeReps m' l' -> total (map (edge_length m) l) = total (map (edge_length m') l') /\ IZR (Z.of_nat (length l)) = IZR (Z.of_nat (length l')).
Proof.
  intros (N1 & N2 & N3) (N1' & N2' & N3').
  set (ep := fun h h' => In h l /\ In h' l' /\ (hp h h' \/ exists r, h_rev m h = Some r /\ hp r h')).
  assert (Rv : forall h r r', hp h r' -> h_rev m h = Some r -> exists s, h_rev m' r' = Some s /\ hp r s). { intros h r r' H Er. destruct (hp_rev h r' H) as (x & y & X & Y & Z). assert (x = r) by congruence. subst x. exists y. auto. }
  assert (Iv : forall h r, In h (m_hes m) -> h_rev m h = Some r -> h_rev m r = Some h) by (intros h r A1 A2; exact (proj1 (wf_rev_invol m W h r A1 A2))). assert (Iv' : forall h r, In h (m_hes m') -> h_rev m' h = Some r -> h_rev m' r = Some h) by (intros h r A1 A2; exact (proj1 (wf_rev_invol m' W' h r A1 A2))).
  assert (FU : forall v a b, ep v a -> ep v b -> a = b).
  { intros v x y (I1 & I2 & H1) (_ & J2 & H2). destruct H1 as [H1 | (r & Er & H1)], H2 as [H2 | (r2 & Er2 & H2)].
    - exact (hp_fun v x y H1 H2).
    - exfalso. destruct (Rv v r2 x H1 Er2) as (s & Es & Hs). assert (s = y) by exact (hp_fun r2 s y Hs H2). subst s. apply (proj2 (N3' x y (N2' x I2) Es)). auto.
    - exfalso. destruct (Rv v r y H2 Er) as (s & Es & Hs). assert (s = x) by exact (hp_fun r s x Hs H1). subst s. apply (proj2 (N3' y x (N2' y J2) Es)). auto.
    - assert (r2 = r) by congruence. subst. exact (hp_fun r x y H1 H2). }
  assert (IJ : forall a b v, ep a v -> ep b v -> a = b).
  { intros x y v (I1 & _ & H1) (J1 & _ & H2). destruct H1 as [H1 | (r & Er & H1)], H2 as [H2 | (r2 & Er2 & H2)].
    - exact (hp_inj x y v H1 H2).
    - exfalso. assert (x = r2) by exact (hp_inj x r2 v H1 H2). subst. apply (proj2 (N3 y r2 (N2 y J1) Er2)). auto.
    - exfalso. assert (y = r) by exact (hp_inj y r v H2 H1). subst. apply (proj2 (N3 x r (N2 x I1) Er)). auto.
    - assert (r = r2) by exact (hp_inj r r2 v H1 H2). subst. assert (X := Iv x r2 (N2 x I1) Er). assert (Y := Iv y r2 (N2 y J1) Er2). congruence. }
  assert (LL : forall w, In w l -> exists w', In w' l' /\ ep w w').
  { intros w Iw. destruct (hp_l w (N2 w Iw)) as (w' & H). destruct (hp_rev w w' H) as (r & r' & Er & Er' & Hr). destruct (proj1 (N3' w' r' (proj1 (proj2 H)) Er')) as [J|J].
    - exists w'. split; [exact J|]. split; [exact Iw|]. split; [exact J|left; exact H].
    - exists r'. split; [exact J|]. split; [exact Iw|]. split; [exact J|right; exists r; auto]. }
  assert (RR : forall w', In w' l' -> exists w, In w l /\ ep w w').
  { intros w' Iw. destruct (hp_r w' (N2' w' Iw)) as (w & H). destruct (wf_rev m W w (proj1 H)) as (r & Er & Ir). destruct (proj1 (N3 w r (proj1 H) Er)) as [J|J].
    - exists w. split; [exact J|]. split; [exact J|]. split; [exact Iw|left; exact H].
    - exists r. split; [exact J|]. split; [exact J|]. split; [exact Iw|right]. exists w. split; [exact (Iv w r (proj1 H) Er)|exact H]. }
  assert (Le : forall h h', hp h h' -> edge_length m h = edge_length m' h').
  { intros h h' (_ & _ & x & y & x' & y' & S1 & S2 & S3 & S4 & S5 & S6). unfold edge_length. rewrite S1, S2, S3, S4, (E _ _ S5), (E _ _ S6). reflexivity. }
  assert (Lr : forall h r, In h (m_hes m) -> h_rev m h = Some r -> edge_length m h = edge_length m r).
  { intros h r Ih Er. destruct (wf_src m W h Ih) as (x & Sx & _). destruct (dst_in m h W Ih) as (y & Dy & _). destruct (rev_he m h r x y W Ih Er Sx Dy) as (_ & S2 & D2). unfold edge_length. rewrite Sx, Dy, S2, D2. unfold Vec.vlength. f_equal. unfold Vec.vsub, vadd, vneg, Vec.dot. cbn [vx vy vz]. rn. ring. }
  assert (T1 : total (map (edge_length m) l) = total (map (edge_length m') l')).
  { apply (sum_match ep _ _ FU IJ l l' N1 N1' LL RR). intros w w' Iw (_ & _ & [H | (r & Er & H)]); [exact (Le w w' H)|]. rewrite (Lr w r (N2 w Iw) Er). exact (Le r w' H). }
  assert (T2 : total (map (fun _ => 1) l) = total (map (fun _ => 1) l')) by (apply (sum_match ep _ _ FU IJ l l' N1 N1' LL RR); reflexivity).
  assert (G : forall k : list nat, total (map (fun _ => 1) k) = IZR (Z.of_nat (length k))). { intros k. rewrite <- INR_IZR_INZ. induction k as [|x k IH]; [reflexivity|]. cbn [map total fold_right length]. rewrite S_INR. unfold total in IH. rewrite IH. lra. }
  rewrite !G in T2. auto.
Qed.
Lemma mean_same a a' : getMeanEdgeLength m = Ok (a, m) -> getMeanEdgeLength m' = Ok (a', m') -> a = a'.
Proof.
  intros A A'. destruct (meanEdgeLength_ok m W) as (l & N & B). destruct (meanEdgeLength_ok m' W') as (l' & N' & B').
  assert (QA := eq_trans (eq_sym A) B). assert (QB := eq_trans (eq_sym A') B'). injection QA as ->. injection QB as ->. rewrite !reps_total; [|exact W'|exact N'|exact W|exact N]. destruct (reps_same l l' N N') as (T1 & T2). rewrite T1.
  change (@nofZ NumR (Z.of_nat (length l))) with (IZR (Z.of_nat (length l))). change (@nofZ NumR (Z.of_nat (length l'))) with (IZR (Z.of_nat (length l'))). rewrite T2. reflexivity.
Qed.
End Dn.

Lemma kernel_fun s x a b : kernel s x a -> kernel s x b -> a = b.
Proof.
  intros (A1 & A2 & A3) (B1 & B2 & B3). destruct (Rlt_le_dec x (2 * s)) as [H|H]; [rewrite (A1 H), (B1 H); reflexivity|]. destruct (Rlt_le_dec x (4 * s)) as [K|K].
  - rewrite (A2 (conj H K)), (B2 (conj H K)). reflexivity.
  - rewrite (A3 H K), (B3 H K). reflexivity.
Qed.

Lemma denoising_same R (weight : Rdefinitions.R -> Rdefinitions.R -> Rdefinitions.R -> Prop) n : (forall x y a b, weight x y a -> weight x y b -> a = b) -> forall m m' m1 m1', Valid m -> Valid m' -> Closed m -> Closed m' -> Paired R m m' -> (forall v v', R v v' -> v_pos m v = v_pos m' v') ->
  denoising_passes weight n m m1 -> denoising_passes weight n m' m1' -> forall v v', R v v' -> v_pos m1 v = v_pos m1' v'.
Proof.
  intros WF_ m m' m1 m1' V V' C C' P E (ms & sm & E0 & En & H) (ms' & sm' & E0' & En' & H').
  assert (Cp : forall n n' : mesh NumR, Closed n -> posonly n n' -> Closed n') by (intros k k' Ck [_ ->]; exact Ck).
  assert (G : forall i, (i <= n)%nat -> posonly m (ms i) /\ posonly m' (ms' i) /\ forall v v', R v v' -> v_pos (ms i) v = v_pos (ms' i) v').
  { induction i as [|i IH]; intros Hi; [rewrite E0, E0'; split; [apply posonly_refl|]; split; [apply posonly_refl|]; exact E|].
    destruct IH as (A & A' & B); [lia|]. destruct (H i ltac:(lia)) as (S & D). destruct (H' i ltac:(lia)) as (S' & D').
    destruct (passes_same R false _ 6 (ms i) (ms' i) (sm i) (sm' i) (posonly_valid m _ V A) (posonly_valid m' _ V' A') (paired_pos R m m' _ _ P A A') B S S') as (K & K' & Q).
    assert (L := posonly_trans _ _ _ A K). assert (L' := posonly_trans _ _ _ A' K'). split; [exact (posonly_trans _ _ _ L (np_same _ _ _ D))|]. split; [exact (posonly_trans _ _ _ L' (np_same _ _ _ D'))|].
    exact (dn_same R (sm i) (sm' i) (posonly_valid m _ V L) (posonly_valid m' _ V' L') (Cp _ _ C L) (Cp _ _ C' L') (paired_pos R m m' _ _ P L L') Q weight _ _ WF_ D D'). }
  rewrite <- En, <- En'. apply G. lia.
Qed.

Theorem denoising_order : forall m m', SameSurface (N := NumR) m m' -> Closed m -> (forall v v', In v (m_verts m) -> In v' (m_verts m') -> v_pos m v = v_pos m' v' -> v_lock m v = v_lock m' v') ->
  forall v v', In v (m_verts m) -> In v' (m_verts m') -> v_pos m v = v_pos m' v' ->
  (forall sigma n m1 m1', denoiseNormalGaussian (N := NumR) sigma n m (Ok m1) -> denoiseNormalGaussian (N := NumR) sigma n m' (Ok m1') -> v_pos m1 v = v_pos m1' v') /\
  (forall sc sn n m1 m1', denoiseNormalBilateral (N := NumR) sc sn n m (Ok m1) -> denoiseNormalBilateral (N := NumR) sc sn n m' (Ok m1') -> v_pos m1 v = v_pos m1' v').
Proof.
  intros m m' SS C L v v' Iv Iv' E. assert (P := twins_paired m m' SS (fun a b H => L a b (proj1 H) (proj1 (proj2 H)) (proj2 (proj2 H)))).
  destruct SS as (T & T' & S & S' & _). assert (V := so_valid _ _ S). assert (V' := so_valid _ _ S').
  assert (C' : Closed m'). { intros h' Ih'. destruct (h_bd m' h') eqn:B; [|reflexivity]. exfalso. destruct (wf_src m' (valid_wf m' V') h' Ih') as (a' & Sa & Ia). destruct (pr_r _ _ _ P a' Ia) as (a & Ra).
    apply (inner m a C). apply (pr_bd _ _ _ P a a' Ra). exists h'. auto. }
  assert (Tw : twin m m' v v') by (split; [|split]; assumption). assert (TE : forall x x', twin m m' x x' -> v_pos m x = v_pos m' x') by (intros x x' X; apply X). split.
  - intros sigma n m1 m1' H H'. destruct (gaussian_computes sigma n m m1 V H) as (a & A & D). destruct (gaussian_computes sigma n m' m1' V' H') as (a' & A' & D'). rewrite (mean_same _ m m' V V' P TE a a' A A') in D.
    apply (denoising_same (twin m m') _ n (fun x y p q => kernel_fun _ x p q) m m' m1 m1' V V' C C' P TE D D' v v' Tw).
  - intros sc sn n m1 m1' H H'. destruct (bilateral_computes sc sn n m m1 V H) as (a & A & D). destruct (bilateral_computes sc sn n m' m1' V' H') as (a' & A' & D'). rewrite (mean_same _ m m' V V' P TE a a' A A') in D.
    refine (denoising_same (twin m m') _ n _ m m' m1 m1' V V' C C' P TE D D' v v' Tw). intros x y p q (p1 & p2 & K1 & K2 & ->) (q1 & q2 & K3 & K4 & ->). rewrite (kernel_fun _ _ _ _ K1 K3), (kernel_fun _ _ _ _ K2 K4). reflexivity.
Qed.
