(** Measurements on two meshes of the same triangles. *)
From Coq Require Import Reals Lra Lia List ZArith Bool Arith Permutation.
From Verif Require Import Num NumInst Vec Heap Mesh Spec BuildSpec Orbit Rings Exec Diamond Queries Bounds GeomSpec VecR Measure MeasureR MeasureM SmoothSpec Clone Curv CurvN CurvW OrderSpec Order.
Import ListNotations.
Local Open Scope R_scope.
Implicit Types m : mesh NumR.

Lemma as_real (ps qs : list vecR) i j : at_same (N := NumR) ps qs i j <-> exists p, nth_error ps i = Some p /\ nth_error qs j = Some p.
Proof.
  split.
  - intros (p & q & A & B & C). apply veqb_real in C. subst. eauto.
  - intros (p & A & B). exists p, p. split; [exact A|]. split; [exact B|]. apply veqb_real. reflexivity.
Qed.
(** The same point in both meshes. *)
Definition twin m m' (v v' : nat) : Prop := In v (m_verts m) /\ In v' (m_verts m') /\ v_pos m v = v_pos m' v'.
Lemma twin_sym m m' v v' : twin m m' v v' -> twin m' m v' v.
Proof. intros (A & B & C). split; [exact B|]. split; [exact A|]. symmetry. exact C. Qed.
Lemma pos_inj m u v : PosDistinct (N := NumR) (positions m) -> In u (m_verts m) -> In v (m_verts m) -> v_pos m u = v_pos m v -> u = v.
Proof.
  intros D U V E. apply In_nth_error in U, V. destruct U as (i & U), V as (j & V). assert (i = j); [|congruence].
  apply (D i j (v_pos m u) (v_pos m v)); [unfold positions; rewrite (map_nth_error _ _ _ U); reflexivity|unfold positions; rewrite (map_nth_error _ _ _ V); reflexivity|]. apply veqb_real. exact E.
Qed.
Lemma twin_fun m m' v a b : PosDistinct (N := NumR) (positions m') -> twin m m' v a -> twin m m' v b -> a = b.
Proof. intros D (_ & A & E) (_ & B & F). apply (pos_inj m' a b D A B). congruence. Qed.
Lemma as_twin m m' i j : at_same (N := NumR) (positions m) (positions m') i j -> exists v v', nth_error (m_verts m) i = Some v /\ nth_error (m_verts m') j = Some v' /\ twin m m' v v'.
Proof.
  intros H. apply as_real in H. destruct H as (p & A & B). unfold positions in A, B. rewrite nth_error_map in A, B.
  destruct (nth_error (m_verts m) i) as [v|] eqn:I; [|discriminate]. destruct (nth_error (m_verts m') j) as [v'|] eqn:J; [|discriminate]. cbn in A, B. exists v, v'. split; [reflexivity|]. split; [reflexivity|].
  split; [exact (nth_error_In _ _ I)|]. split; [exact (nth_error_In _ _ J)|]. congruence.
Qed.

(** Half-edges and triangles of a surface. *)
Lemma surf_he m T t a b c u v w : SurfaceOf m T -> In t T -> cyc_eq t (a, b, c) -> nth_error (m_verts m) a = Some u -> nth_error (m_verts m) b = Some v -> nth_error (m_verts m) c = Some w ->
  exists x, In x (m_hes m) /\ h_src m x = Some u /\ dst_of m x = Some v /\ prev_src m x = Some w.
Proof.
  intros S It C A B D. assert (V := so_valid _ _ S). assert (W := valid_wf m V). destruct (so_tris _ _ S) as (holes & _ & F & _).
  destruct (f2_in (fun x y => face_is m y x) T (firstn (length T) (m_faces m)) t (f2_flip _ _ (fun a b H => H) _ _ F) It) as (f & If & X).
  assert (Y : exists f, Spec.Tri m f u v w).
  { exists f. destruct t as [[i j] k]. destruct X as (x & y & z & X1 & X2 & X3 & X). destruct C as [C|[C|C]]; injection C as -> -> ->.
    - replace u with x by congruence. replace v with y by congruence. replace w with z by congruence. exact X.
    - replace u with y by congruence. replace v with z by congruence. replace w with x by congruence. apply tri_rot, X.
    - replace u with z by congruence. replace v with x by congruence. replace w with y by congruence. apply tri_rot, tri_rot, X. }
  clear f If X. destruct Y as (f & x & y & z & H & N1 & N2 & N3 & S1 & S2 & S3).
  assert (Ix : In x (m_hes m)) by (apply (H x); auto). exists x. split; [exact Ix|]. split; [exact S1|]. split; [rewrite (dst_next m x y W Ix N1); exact S2|]. unfold prev_src, next_of. rewrite N1, N2. exact S3.
Qed.
Lemma idx_fun m i j v : WF m -> nth_error (m_verts m) i = Some v -> nth_error (m_verts m) j = Some v -> i = j.
Proof. intros W A B. apply (proj1 (NoDup_nth_error (m_verts m)) (wf_v_nodup m W)); [apply nth_error_Some; congruence|congruence]. Qed.
Lemma he_surf m T h : SurfaceOf m T -> In h (m_hes m) -> h_bd m h = false -> exists t a b c u v w, In t T /\ cyc_eq t (a, b, c) /\
  nth_error (m_verts m) a = Some u /\ nth_error (m_verts m) b = Some v /\ nth_error (m_verts m) c = Some w /\ h_src m h = Some u /\ dst_of m h = Some v /\ prev_src m h = Some w.
Proof.
  intros S Ih B. assert (V := so_valid _ _ S). assert (W := valid_wf m V). destruct (he_tri m h V Ih B) as (f & u & v & w & If & Fh & Tf & _ & _ & _ & Sh & Dh & Ph).
  destruct (so_tris _ _ S) as (holes & E & F & Hh). rewrite E in If. apply in_app_iff in If. destruct If as [If|If]; [|destruct (Hh f h If Ih Fh) as [B' _]; congruence].
  destruct (f2_in _ _ _ f F If) as (t & It & X). exists t. destruct t as [[i j] k]. destruct X as (x & y & z & X1 & X2 & X3 & X).
  destruct (tri_rotation m f u v w x y z Tf X) as [(-> & -> & ->)|[(-> & -> & ->)|(-> & -> & ->)]].
  - exists i, j, k, x, y, z. cbn. auto 20.
  - exists j, k, i, y, z, x. cbn. auto 20.
  - exists k, i, j, z, x, y. cbn. auto 20.
Qed.
Lemma st_cyc (ps qs : list vecR) t t' a b c : same_tri (N := NumR) ps qs t t' -> cyc_eq t (a, b, c) -> exists a' b' c', cyc_eq t' (a', b', c') /\ at_same (N := NumR) ps qs a a' /\ at_same (N := NumR) ps qs b b' /\ at_same (N := NumR) ps qs c c'.
Proof.
  intros (x & y & z & x' & y' & z' & C & -> & X & Y & Z) D. destruct t as [[i j] k].
  destruct C as [C|[C|C]]; injection C as -> -> ->; destruct D as [D|[D|D]]; injection D as -> -> ->;
  first [exists x', y', z'; cbn; auto; fail | exists y', z', x'; cbn; auto; fail | exists z', x', y'; cbn; auto; fail].
Qed.

Section Twin.
Variables m m' : mesh NumR.
Variables T T' : list tri.
Hypothesis S : SurfaceOf m T.
Hypothesis S' : SurfaceOf m' T'.
Hypothesis D : PosDistinct (N := NumR) (positions m).
Hypothesis D' : PosDistinct (N := NumR) (positions m').
Hypothesis ST : SameTriangles (N := NumR) (positions m) T (positions m') T'.
Lemma he_twin h : In h (m_hes m) -> h_bd m h = false -> exists h' u v w u' v' w', In h' (m_hes m') /\ h_src m h = Some u /\ dst_of m h = Some v /\ prev_src m h = Some w /\
  h_src m' h' = Some u' /\ dst_of m' h' = Some v' /\ prev_src m' h' = Some w' /\ twin m m' u u' /\ twin m m' v v' /\ twin m m' w w'.
Proof.
  intros Ih B. destruct (he_surf m T h S Ih B) as (t & a & b & c & u & v & w & It & C & Ea & Eb & Ec & S1 & S2 & S3).
  destruct (tri_img _ _ T T' ST t It) as (t' & It' & X). destruct (st_cyc _ _ _ _ a b c X C) as (a' & b' & c' & C' & Xa & Xb & Xc).
  destruct (as_twin _ _ _ _ Xa) as (u0 & u' & U1 & U2 & U3). destruct (as_twin _ _ _ _ Xb) as (v0 & v' & V1 & V2 & V3). destruct (as_twin _ _ _ _ Xc) as (w0 & w' & W1 & W2 & W3).
  assert (u0 = u) by congruence. assert (v0 = v) by congruence. assert (w0 = w) by congruence. subst u0 v0 w0.
  destruct (surf_he m' T' t' a' b' c' u' v' w' S' It' C' U2 V2 W2) as (h' & Ih' & Q1 & Q2 & Q3). exists h', u, v, w, u', v', w'. auto 20.
Qed.
Lemma inner_twin v v' : twin m m' v v' -> ~ on_boundary m v -> ~ on_boundary m' v'.
Proof.
  intros Tw NB (h' & Ih' & Sh' & B'). apply NB. assert (V' := so_valid _ _ S'). assert (W' := valid_wf m' V'). assert (W := valid_wf m (so_valid _ _ S)).
  assert (H : exists a' b' w', he_is m' h' a' b' /\ nth_error (m_verts m') a' = Some v' /\ nth_error (m_verts m') b' = Some w').
  { destruct (wf_rev m' W' h' Ih') as (r' & Er & Ir). destruct (wf_src m' W' r' Ir) as (w' & Sw & Iw). destruct Tw as (_ & Iv' & _). apply In_nth_error in Iw, Iv'. destruct Iw as (b' & Eb), Iv' as (a' & Ea).
    exists a', b', w'. split; [|auto]. split; [exact Ih'|]. exists v', w'. split; [exact Ea|]. split; [exact Eb|]. split; [exact Sh'|]. unfold dst_of. rewrite Er. exact Sw. }
  destruct H as (a' & b' & w' & H & Ea' & Eb'). 
  assert (K : exists a b, at_same (N := NumR) (positions m) (positions m') a a' /\ (open_edge T a b \/ open_edge T b a)).
  { destruct (proj1 (so_flags _ _ S' h' a' b' H) B') as [[O1 O2]|[O1 O2]]; destruct (edge_back _ _ T T' D' ST _ _ O1) as (a & b & I & Ex & Ey); subst.
    - exists a, b. split; [apply (edge_img _ _ T T' D' ST _ _ I)|]. left. split; [exact I|]. intros J. apply O2. apply (edge_img _ _ T T' D' ST _ _ J).
    - exists b, a. destruct (edge_end T _ _ I) as (c & J). split; [apply (edge_img _ _ T T' D' ST _ _ J)|]. right. split; [exact I|]. intros J2. apply O2. apply (edge_img _ _ T T' D' ST _ _ J2). }
  destruct K as (a & b & A & O). destruct (as_twin _ _ _ _ A) as (x & x' & X1 & X2 & X3). assert (x' = v') by congruence. subst x'. assert (x = v) by exact (twin_fun m' m v' x v D (twin_sym _ _ _ _ X3) (twin_sym _ _ _ _ Tw)). subst x.
  assert (HE : exists h, he_is m h a b) by (apply (so_edges _ _ S); destruct O as [[O _]|[O _]]; auto). destruct HE as (h & HE). exists h. split; [apply HE|]. split; [|apply (so_flags _ _ S h a b HE), O].
  destruct HE as (_ & p & q & P1 & _ & P2 & _). congruence.
Qed.
End Twin.

Lemma dst_rot m h r : WF m -> In h (m_hes m) -> h_rev m h = Some r -> dst_of m (rot_of m h) = prev_src m r.
Proof.
  intros W Ih Er. destruct (rot_some m W h Ih) as (r0 & n & E1 & E2 & E3 & I1 & I2). assert (r0 = r) by congruence. subst r0. unfold rot_of, prev_src, next_of. rewrite E3, E2.
  destruct (wf_next m W n I2) as (k & Ek & Ik). rewrite Ek. exact (dst_next m n k W I2 Ek).
Qed.
Lemma rev_he m h r u v : WF m -> In h (m_hes m) -> h_rev m h = Some r -> h_src m h = Some u -> dst_of m h = Some v -> In r (m_hes m) /\ h_src m r = Some v /\ dst_of m r = Some u.
Proof.
  intros W Ih Er Su Dv. destruct (wf_rev m W h Ih) as (r0 & E & I). assert (r0 = r) by congruence. subst r0. split; [exact I|]. split; [unfold dst_of in Dv; rewrite Er in Dv; exact Dv|].
  unfold dst_of. rewrite (rev_rev m W h r Ih Er). exact Su.
Qed.
Lemma he_at m T h u v : SurfaceOf m T -> In h (m_hes m) -> h_src m h = Some u -> dst_of m h = Some v -> exists a b, he_is m h a b /\ nth_error (m_verts m) a = Some u /\ nth_error (m_verts m) b = Some v.
Proof.
  intros S Ih Su Dv. assert (W := valid_wf m (so_valid _ _ S)). destruct (wf_rev m W h Ih) as (r & Er & Ir). destruct (wf_src m W h Ih) as (u0 & E1 & I1). destruct (wf_src m W r Ir) as (v0 & E2 & I2).
  assert (u0 = u) by congruence. assert (v0 = v) by (unfold dst_of in Dv; rewrite Er in Dv; congruence). subst. apply In_nth_error in I1, I2. destruct I1 as (a & A), I2 as (b & B). exists a, b. split; [|auto]. split; [exact Ih|]. exists u, v. auto.
Qed.
Lemma rev_flag m T h r : SurfaceOf m T -> In h (m_hes m) -> h_rev m h = Some r -> h_bd m h = false -> h_bd m r = false.
Proof.
  intros S Ih Er B. assert (W := valid_wf m (so_valid _ _ S)). destruct (wf_src m W h Ih) as (u & Su & _). destruct (wf_rev m W h Ih) as (r0 & E0 & Ir). assert (r0 = r) by congruence. subst r0. destruct (wf_src m W r Ir) as (v & Sv & _).
  assert (Dv : dst_of m h = Some v) by (unfold dst_of; rewrite Er; exact Sv). destruct (rev_he m h r u v W Ih Er Su Dv) as (_ & _ & Du).
  destruct (he_at m T h u v S Ih Su Dv) as (a & b & H & A & B0). assert (H2 : he_is m r b a) by (split; [exact Ir|]; exists v, u; auto). destruct (h_bd m r) eqn:Br; [|reflexivity].
  assert (h_bd m h = true); [|congruence]. apply (so_flags _ _ S h a b H). apply (so_flags _ _ S r b a H2) in Br. tauto.
Qed.

(** What is seen from a vertex along a half-edge: its end and the corners on both sides. *)
Definition star m (h : nat) : vecR * vecR * vecR := (pos_at m (dst_of m h), pos_at m (prev_src m h), pos_at m (dst_of m (rot_of m h))).
Section Star.
Variables m m' : mesh NumR.
Variables T T' : list tri.
Hypothesis S : SurfaceOf m T.
Hypothesis S' : SurfaceOf m' T'.
Hypothesis D : PosDistinct (N := NumR) (positions m).
Hypothesis D' : PosDistinct (N := NumR) (positions m').
Hypothesis ST : SameTriangles (N := NumR) (positions m) T (positions m') T'.
Lemma star_twin v v' h : twin m m' v v' -> ~ on_boundary m v -> In h (at_v m v) -> exists h', In h' (at_v m' v') /\ star m h = star m' h'.
Proof.
  intros Tw NB Ih. assert (B := inner_bd m v h NB Ih). apply at_v_in in Ih. destruct Ih as [Ih Sh]. assert (W := valid_wf m (so_valid _ _ S)). assert (W' := valid_wf m' (so_valid _ _ S')).
  destruct (he_twin m m' T T' S S' ST h Ih B) as (h' & u & b & c & u' & b' & c' & Ih' & E1 & E2 & E3 & F1 & F2 & F3 & T1 & T2 & T3).
  assert (u = v) by congruence. subst u. assert (u' = v') by exact (twin_fun m m' v u' v' D' T1 Tw). subst u'. exists h'. split; [apply at_v_in; auto|].
  destruct (wf_rev m W h Ih) as (r & Er & Ir). assert (Br := rev_flag m T h r S Ih Er B). destruct (rev_he m h r v b W Ih Er E1 E2) as (_ & R1 & R2).
  destruct (he_twin m m' T T' S S' ST r Ir Br) as (g' & b1 & v1 & d & b1' & v1' & d' & Ig' & G1 & G2 & G3 & H1 & H2 & H3 & T4 & T5 & T6).
  assert (b1 = b) by congruence. assert (v1 = v) by congruence. subst b1 v1. assert (b1' = b') by exact (twin_fun m m' b b1' b' D' T4 T2). assert (v1' = v') by exact (twin_fun m m' v v1' v' D' T5 T1). subst b1' v1'.
  destruct (wf_rev m' W' h' Ih') as (r' & Er' & Ir'). destruct (rev_he m' h' r' v' b' W' Ih' Er' F1 F2) as (_ & R1' & R2').
  assert (g' = r') by (apply (valid_noparallel m' (so_valid _ _ S')); [exact Ig'|exact Ir'|congruence|congruence]). subst g'.
  unfold star. rewrite (dst_rot m h r W Ih Er), (dst_rot m' h' r' W' Ih' Er'), E2, E3, G3, F2, F3, H3. cbn [pos_at].
  rewrite (proj2 (proj2 T2)), (proj2 (proj2 T3)), (proj2 (proj2 T6)). reflexivity.
Qed.
Lemma star_nodup v : NoDup (map (star m) (at_v m v)).
Proof.
  assert (V := so_valid _ _ S). assert (W := valid_wf m V). apply nodup_map_inj; [|apply NoDup_filter, (wf_h_nodup m W)]. intros h k Ih Ik E. apply at_v_in in Ih, Ik. destruct Ih as [Ih Sh], Ik as [Ik Sk].
  apply (valid_noparallel m V); [exact Ih|exact Ik|congruence|]. assert (E' : pos_at m (dst_of m h) = pos_at m (dst_of m k)) by (unfold star in E; congruence).
  destruct (wf_rev m W h Ih) as (r & Er & Ir). destruct (wf_rev m W k Ik) as (q & Eq & Iq). destruct (wf_src m W r Ir) as (x & Sx & Ix). destruct (wf_src m W q Iq) as (y & Sy & Iy).
  unfold dst_of in *. rewrite Er, Eq, Sx, Sy in *. cbn [pos_at] in E'. f_equal. exact (pos_inj m x y D Ix Iy E').
Qed.
End Star.
Section Measured.
Variables m m' : mesh NumR.
Hypothesis SS : SameSurface (N := NumR) m m'.
Variables v v' : nat.
Hypothesis Hv : In v (m_verts m).
Hypothesis Hv' : In v' (m_verts m').
Hypothesis Ep : v_pos m v = v_pos m' v'.
Hypothesis NB : ~ on_boundary m v.
Lemma stars : Valid m /\ Valid m' /\ ~ on_boundary m' v' /\ Permutation (map (star m) (at_v m v)) (map (star m') (at_v m' v')).
Proof.
  destruct SS as (T & T' & S & S' & _ & D & D' & ST). assert (Tw : twin m m' v v') by (split; [exact Hv|]; split; [exact Hv'|exact Ep]). assert (NB' := inner_twin m m' T T' S S' D D' ST v v' Tw NB).
  split; [exact (so_valid _ _ S)|]. split; [exact (so_valid _ _ S')|]. split; [exact NB'|]. assert (ST' := same_sym _ _ _ _ ST).
  apply NoDup_Permutation; [exact (star_nodup m T S D v)|exact (star_nodup m' T' S' D' v')|]. intros x. split; intros I; apply in_map_iff in I; destruct I as (h & <- & Ih).
  - destruct (star_twin m m' T T' S S' D' ST v v' h Tw NB Ih) as (h' & Ih' & ->). apply in_map, Ih'.
  - destruct (star_twin m' m T' T S' S D ST' v' v h (twin_sym _ _ _ _ Tw) NB' Ih) as (h' & Ih' & ->). apply in_map, Ih'.
Qed.
Lemma star_map {X} (G : vecR -> vecR * vecR * vecR -> X) (F F' : nat -> X) : (forall h, In h (at_v m v) -> F h = G (v_pos m v) (star m h)) -> (forall h, In h (at_v m' v') -> F' h = G (v_pos m' v') (star m' h)) ->
  Permutation (map F (at_v m v)) (map F' (at_v m' v')).
Proof.
  intros H H'. destruct stars as (_ & _ & _ & P). rewrite (map_ext_in _ _ _ H), (map_ext_in _ _ _ H'). rewrite <- (map_map (star m) (G (v_pos m v))), <- (map_map (star m') (G (v_pos m' v'))), Ep. apply Permutation_map, P.
Qed.
Lemma cor_same C : rsum (map (hcor C m) (at_v m v)) = rsum (map (hcor C m') (at_v m' v')).
Proof.
  apply rsum_perm, (star_map (fun p x => C p (fst (fst x)) (snd x))); intros h Ih; apply at_v_in in Ih; unfold hcor, star; rewrite (proj2 Ih); reflexivity.
Qed.
Lemma wn_same : vsum (map (hwn m) (at_v m v)) = vsum (map (hwn m') (at_v m' v')).
Proof. apply vsum_perm, (star_map (fun p x => wnormal p (fst (fst x)) (snd (fst x)))); intros h Ih; apply at_v_in in Ih; unfold hwn, star; rewrite (proj2 Ih); reflexivity. Qed.
Lemma hv_same : vsum (map (hHv m) (at_v m v)) = vsum (map (hHv m') (at_v m' v')).
Proof.
  apply vsum_perm, (star_map (fun p x => vscale (cotg p (snd (fst x)) (fst (fst x)) + cotg p (snd x) (fst (fst x))) (vsub (fst (fst x)) p))); intros h Ih; apply at_v_in in Ih; unfold hHv, hH, star; rewrite (proj2 Ih); reflexivity.
Qed.
Lemma deg_same : length (at_v m v) = length (at_v m' v').
Proof. destruct stars as (_ & _ & _ & P). apply Permutation_length in P. rewrite !map_length in P. exact P. Qed.
Lemma degree_at (n : mesh NumR) x : WF n -> In x (m_verts n) -> degree (Some x) n = Ok (Z.of_nat (length (at_v n x)), n).
Proof.
  intros W Hx. destruct (vring n W x Hx) as (h & l & Eh & Hr). rewrite (degree_ok n W x h l Hx Eh Hr). destruct Hr as (Hc & Hnd & Hin). do 3 f_equal. apply Permutation_length.
  apply NoDup_Permutation; [exact Hnd|apply NoDup_filter, (wf_h_nodup n W)|]. intros y. rewrite Hin, at_v_in. reflexivity.
Qed.
Hypothesis ND : NonDegenerateAt m v.
Lemma nd_same : NonDegenerateAt m' v'.
Proof.
  intros f b c If Tf. destruct stars as (V & V' & NB' & P). assert (W' := valid_wf m' V').
  destruct Tf as (x & y & z & H & N1 & N2 & N3 & S1 & S2 & S3). assert (Ix : In x (m_hes m')) by (apply (H x); auto).
  assert (I : In (star m' x) (map (star m) (at_v m v))) by (apply (Permutation_in _ (Permutation_sym P)), in_map, at_v_in; auto).
  apply in_map_iff in I. destruct I as (h & E & Ih). assert (Bh := inner_bd m v h NB Ih). apply at_v_in in Ih. destruct Ih as [Ih Sh].
  destruct (he_tri m h V Ih Bh) as (g & u & w & k & Ig & _ & Tg & _ & _ & _ & Su & Dw & Pk). assert (u = v) by congruence. subst u. assert (A := ND g w k Ig Tg).
  unfold star in E. rewrite Dw, Pk, (dst_next m' x y W' Ix N1), S2 in E. replace (prev_src m' x) with (Some c) in E by (unfold prev_src, next_of; rewrite N1, N2; auto). cbn [pos_at] in E.
  rewrite <- Ep. injection E as E1 E2 _. rewrite <- E1, <- E2. exact A.
Qed.
Theorem measured : (exists d, degree (Some v) m = Ok (d, m) /\ degree (Some v') m' = Ok (d, m')) /\
  (exists A, v_volonoi (Some v) m = Ok (A, m) /\ v_volonoi (Some v') m' = Ok (A, m')) /\
  (exists K, v_K (Some v) m = Ok (K, m) /\ v_K (Some v') m' = Ok (K, m')) /\
  (v_normal (Some v) m = Abort AThrow /\ v_normal (Some v') m' = Abort AThrow \/
   exists n H, v_normal (Some v) m = Ok (n, m) /\ v_normal (Some v') m' = Ok (n, m') /\ v_H (Some v) m = Ok (H, m) /\ v_H (Some v') m' = Ok (H, m')).
Proof.
  destruct stars as (V & V' & NB' & P). assert (W := valid_wf m V). assert (W' := valid_wf m' V'). split; [|split; [|split]].
  - exists (Z.of_nat (length (at_v m v))). split; [apply degree_at; assumption|]. rewrite deg_same. apply degree_at; assumption.
  - exists (rsum (map (hcor Measure.corner_area m) (at_v m v))). split; [exact (volonoi_at m v W Hv)|]. rewrite cor_same. exact (volonoi_at m' v' W' Hv').
  - eexists. split; [exact (K_at m v W Hv)|]. rewrite !cor_same. exact (K_at m' v' W' Hv').
  - destruct (vring m W v Hv) as (h & l & Eh & Hr). destruct (vring m' W' v' Hv') as (h' & l' & Eh' & Hr').
    assert (E := circ_sum m v h l V NB ND Hv Eh Hr). assert (E' := circ_sum m' v' h' l' V' NB' nd_same Hv' Eh' Hr'). rewrite <- wn_same in E'.
    destruct (normalize (vsum (map (hwn m) (at_v m v)))) as [n|].
    + right. exists n. eexists. split; [exact E|]. split; [exact E'|]. split; [exact (H_at m v V NB Hv n E)|]. rewrite cor_same, hv_same. exact (H_at m' v' V' NB' Hv' n E').
    + left. split; [exact E|exact E'].
Qed.
End Measured.
