(** The regular octahedron: an edge that simplifyQEM contracts. *)
From Coq Require Import Reals Lra Bool List ZArith Arith Lia Floats.
From Verif Require Import Num NumInst Vec VecR Heap Mesh Construct Spec EditSpec BuildSpec BuildProps Orbit Rings Exec GeomSpec Witness CollapseFlipW MeasureM FilterSpec SmoothSpec L0Spec QemSpec QemM Prog Smooth SmoothP Wp RemeshSpec Simplify SimplifyP Qem QemP.
Import ListNotations.

Definition ix_octa : list nat := [0;1;2; 1;3;2; 3;4;2; 4;0;2; 1;0;5; 3;1;5; 4;3;5; 0;4;5].
Definition idF (x : float) : float := x.
Notation NI := (Witness.NF idF idF (fun x _ => x)).
Notation pI := (Witness.pt idF idF (fun x _ => x)).
Definition ps_octa : list (vec NI) := [pI 1 0 0; pI 0 1 0; pI 0 0 1; pI (-1) 0 0; pI 0 (-1) 0; pI 0 0 (-1)]%float.
Definition octaR (v : nat) : vec NumR := nth v [v3 1 0 0; v3 0 1 0; v3 0 0 1; v3 (-1) 0 0; v3 0 (-1) 0; v3 0 0 (-1)]%R (Vec.vzero (N := NumR)).

Definition nats_eqb (l l' : list nat) : bool := Nat.eqb (length l) (length l') && forallb (fun pq => Nat.eqb (fst pq) (snd pq)) (combine l l').
Lemma nats_eqb_ok l : forall l', nats_eqb l l' = true -> l = l'.
Proof.
  unfold nats_eqb. induction l as [|a l IH]; intros [|b l'] H; cbn in H; try discriminate; [reflexivity|]. apply andb_true_iff in H as [H1 H2]. apply andb_true_iff in H2 as [H2 H3]. apply Nat.eqb_eq in H2. subst. f_equal. apply IH. rewrite H1. exact H3.
Qed.
(** The specification's functions for any arithmetic, so that they can be evaluated. *)
Definition cornerG {N : Num} (m : mesh N) (v f : nat) : bool := existsb (fun h => ptr_eqb (h_face m h) (Some f) && ptr_eqb (h_src m h) (Some v)) (m_hes m).
Definition facesG {N : Num} (m : mesh N) (v : nat) : list nat := filter (cornerG m v) (filter (fun f => negb (existsb (fun h => ptr_eqb (h_face m h) (Some f) && h_bd m h) (m_hes m))) (m_faces m)).
Definition cornersG {N : Num} (m : mesh N) (f : nat) : list nat := let h := vid (f_he m f) in [c1 m h; c3 m h; c2 m h].
Lemma octa_check : Witness.with_mesh idF idF (fun x _ => x) (mesh_of ps_octa ix_octa) (fun m =>
  true && nats_eqb (m_verts m) [0;1;2;3;4;5] && forallb (fun h => negb (h_bd m h)) (m_hes m) && forallb (fun v => Nat.eqb (deg_of m v) 4) (m_verts m) && existsb (Nat.eqb 7) (m_hes m) &&
  ptr_eqb (h_src m 7) (Some 0) && ptr_eqb (dst_of m 7) (Some 1) && ptr_eqb (h_rev m 7) (Some 23) && ptr_eqb (h_face m 7) (Some 6) && ptr_eqb (h_face m 23) (Some 22) &&
  nats_eqb (facesG m 0) [6; 18; 22; 34] && nats_eqb (facesG m 1) [6; 10; 22; 26] &&
  nats_eqb (cornersG m 6) [2; 0; 1] && nats_eqb (cornersG m 10) [2; 1; 3] && nats_eqb (cornersG m 18) [2; 4; 0] && nats_eqb (cornersG m 22) [5; 1; 0] && nats_eqb (cornersG m 26) [5; 3; 1] && nats_eqb (cornersG m 34) [5; 0; 4]) = true.
Proof. vm_cast_no_check (eq_refl true). Qed.

Definition octa_at (m : mesh NumR) : Prop :=
  Valid m /\ Closed m /\ m_verts m = [0;1;2;3;4;5]%nat /\ v_pos m = octaR /\ (forall v, In v (m_verts m) -> deg_of m v = 4%nat) /\ In 7%nat (m_hes m) /\ h_src m 7 = Some 0%nat /\ dst_of m 7 = Some 1%nat /\ h_rev m 7 = Some 23%nat /\ h_face m 7 = Some 6%nat /\ h_face m 23 = Some 22%nat /\
  faces_at m 0 = [6; 18; 22; 34]%nat /\ faces_at m 1 = [6; 10; 22; 26]%nat /\
  cornersG m 6 = [2; 0; 1]%nat /\ cornersG m 10 = [2; 1; 3]%nat /\ cornersG m 18 = [2; 4; 0]%nat /\ cornersG m 22 = [5; 1; 0]%nat /\ cornersG m 26 = [5; 3; 1]%nat /\ cornersG m 34 = [5; 0; 4]%nat.
Lemma octa_mesh : exists m : mesh NumR, octa_at m.
Proof.
  assert (C := octa_check). apply with_ok in C as (m & E & C). repeat (apply andb_true_iff in C; let K := fresh "K" in destruct C as [C K]).
  assert (V : Valid m) by (apply mesh_of_ok in E; apply (construct_valid _ _ _ _ E)). exists (retype m octaR). repeat match goal with H : nats_eqb _ _ = true |- _ => apply nats_eqb_ok in H end. repeat match goal with H : ptr_eqb _ _ = true |- _ => apply ptr_eqb_eq in H end.
  split; [apply retype_valid, V|]. split; [intros h Ih; rewrite forallb_forall in K14; apply negb_true_iff, K14, Ih|]. split; [exact K15|]. split; [reflexivity|]. split; [intros v Iv; rewrite forallb_forall in K13; apply Nat.eqb_eq, K13, Iv|].
  split; [apply existsb_exists in K12 as (x & Ix & Ex); apply Nat.eqb_eq in Ex; subst; exact Ix|].
  split; [exact K11|]. split; [exact K10|]. split; [exact K9|]. split; [exact K8|]. split; [exact K7|]. split; [exact K6|]. split; [exact K5|]. split; [exact K4|]. split; [exact K3|]. split; [exact K2|]. split; [exact K1|]. split; [exact K0|exact K].
Qed.

Local Open Scope R_scope.
Local Notation sqrt := R_sqrt.sqrt.
Definition third : R := / (sqrt 3 + / 10 ^ 12).
Lemma eps12_pos : 0 < / 10 ^ 12. Proof. apply Rinv_0_lt_compat, pow_lt. lra. Qed.
Lemma third_lo : / 2 <= third.
Proof.
  unfold third. assert (S := eps12_pos). assert (Q := sqrt_lt_R0 3 ltac:(lra)). apply Rinv_le_contravar; [lra|]. assert (sqrt 3 <= 1.8) by (rewrite <- (sqrt_square 1.8) by lra; apply sqrt_le_1; lra).
  assert (/ 10 ^ 12 <= / 10 ^ 1) by (apply Rinv_le_contravar; [apply pow_lt; lra|apply Rle_pow; [lra|lia]]). lra.
Qed.
Lemma len3 (n : vecR) : vx n * vx n + vy n * vy n + vz n * vz n = 3 -> Vec.vlength n = sqrt 3.
Proof. intros E. unfold Vec.vlength. rewrite dot_eq, E. reflexivity. Qed.
Lemma sq3 (x y z : R) : x * x + y * y + z * z <= 0 -> x = 0 /\ y = 0 /\ z = 0.
Proof. intros L. assert (X := Rle_0_sqr x). assert (Y := Rle_0_sqr y). assert (Z := Rle_0_sqr z). unfold Rsqr in *. split; [|split]; apply Rsqr_0_uniq; unfold Rsqr; lra. Qed.
Section O.
Variable m : mesh NumR.
Hypothesis H : octa_at m.
Lemma octa_nc f a b c (n : vecR) : cornersG m f = [a; b; c] -> Vec.cross (Vec.vsub (octaR b) (octaR a)) (Vec.vsub (octaR c) (octaR a)) = n -> vx n * vx n + vy n * vy n + vz n * vz n = 3 ->
  face_normal m f = Vec.vscale (N := NumR) third n /\ forall p, face_sq m p f = Rsqr (third * Vec.dot n (Vec.vsub p (octaR a))).
Proof.
  intros C E L. destruct H as (_ & _ & _ & P & _). unfold cornersG in C. injection C as C1 C2 C3.
  assert (EN : qem_normal (v_pos m a) (v_pos m b) (v_pos m c) = Vec.vscale (N := NumR) third n) by (unfold qem_normal; rewrite P, E; cbv zeta; rewrite (len3 n L); reflexivity).
  unfold face_normal, face_sq, plane_sq. rewrite C1, C2, C3, EN. split; [reflexivity|]. intros p. rewrite P. f_equal. rewrite !dot_eq. unfold vscale. rn. ring.
Qed.
Definition mid : vecR := v3 (/ 2) (/ 2) 0.
Lemma octa_faces : forall p, edge_error m 7 p = third * third * (4 + 8 * ((vx p - / 2) * (vx p - / 2) + (vy p - / 2) * (vy p - / 2) + vz p * vz p)) /\ edge_spread m 7 = (8 * (third * third)) * ((8 * (third * third)) * (8 * (third * third))).
Proof.
  intros p. destruct H as (_ & _ & _ & P & _ & _ & S0 & D0 & _ & _ & _ & F0 & F1 & K6 & K10 & K18 & K22 & K26 & K34).
  destruct (octa_nc 6 2 0 1 (v3 1 1 1) K6) as [N6 E6]; [unfold octaR, v3; cbn [nth]; unfold Vec.cross, Vec.vsub, Vec.vadd, Vec.vneg, v3; rn; f_equal; rg|unfold v3; rg|].
  destruct (octa_nc 10 2 1 3 (v3 (-1) 1 1) K10) as [N10 E10]; [unfold octaR, v3; cbn [nth]; unfold Vec.cross, Vec.vsub, Vec.vadd, Vec.vneg, v3; rn; f_equal; rg|unfold v3; rg|].
  destruct (octa_nc 18 2 4 0 (v3 1 (-1) 1) K18) as [N18 E18]; [unfold octaR, v3; cbn [nth]; unfold Vec.cross, Vec.vsub, Vec.vadd, Vec.vneg, v3; rn; f_equal; rg|unfold v3; rg|].
  destruct (octa_nc 22 5 1 0 (v3 1 1 (-1)) K22) as [N22 E22]; [unfold octaR, v3; cbn [nth]; unfold Vec.cross, Vec.vsub, Vec.vadd, Vec.vneg, v3; rn; f_equal; rg|unfold v3; rg|].
  destruct (octa_nc 26 5 3 1 (v3 (-1) 1 (-1)) K26) as [N26 E26]; [unfold octaR, v3; cbn [nth]; unfold Vec.cross, Vec.vsub, Vec.vadd, Vec.vneg, v3; rn; f_equal; rg|unfold v3; rg|].
  destruct (octa_nc 34 5 0 4 (v3 1 (-1) (-1)) K34) as [N34 E34]; [unfold octaR, v3; cbn [nth]; unfold Vec.cross, Vec.vsub, Vec.vadd, Vec.vneg, v3; rn; f_equal; rg|unfold v3; rg|].
  assert (EF : QemSpec.edge_faces m 7 = [6; 18; 22; 34; 6; 10; 22; 26]%nat) by (unfold QemSpec.edge_faces, c1, c3; rewrite S0, D0; cbn [vid]; rewrite F0, F1; reflexivity).
  unfold edge_error, edge_spread. rewrite EF. cbn [map]. rewrite N6, N10, N18, N22, N26, N34, (E6 p), (E10 p), (E18 p), (E22 p), (E26 p), (E34 p). split.
  - cbn [total fold_right]. unfold Rsqr. rewrite !dot_eq. unfold octaR. cbn [nth]. unfold Vec.vsub, Vec.vadd, Vec.vneg, v3. rn. field.
  - unfold spread, gram. cbn [map total fold_right]. unfold Vec.vscale, v3. rn. ring.
Qed.
Lemma octa_entry c p : qem_entry m 7 c p -> p = mid /\ c = 4 * (third * third).
Proof.
  intros (Ec & Hs & _). destruct (octa_faces p) as [Ep Es]. assert (T := third_lo). assert (T2 : / 4 <= third * third) by nra.
  assert (Sp : / 10 ^ 8 <= edge_spread m 7). { rewrite Es. assert (/ 10 ^ 8 <= 1) by (rewrite <- Rinv_1; apply Rinv_le_contravar; [lra|apply pow_R1_Rle; lra]). assert (2 <= 8 * (third * third)) by lra. set (t := 8 * (third * third)) in *. clearbody t. assert (4 <= t * t) by nra. nra. }
  specialize (Hs Sp mid). destruct (octa_faces mid) as [Em _]. unfold mid, v3 in Em. rn.
  assert (P : (vx p - / 2) * (vx p - / 2) + (vy p - / 2) * (vy p - / 2) + vz p * vz p <= 0 \/ p <> mid).
  { destruct (Rle_dec ((vx p - / 2) * (vx p - / 2) + (vy p - / 2) * (vy p - / 2) + vz p * vz p) 0) as [L | L]; [left; exact L|right]. intros ->. apply L. unfold mid, v3. rn. nra. }
  assert (Q : (vx p - / 2) * (vx p - / 2) + (vy p - / 2) * (vy p - / 2) + vz p * vz p <= 0).
  { destruct P as [P | P]; [exact P|]. specialize (Hs (fun E => P (eq_sym E))). change (edge_error m 7 mid) with (edge_error m 7 (v3 (/ 2) (/ 2) 0)) in Hs. unfold v3 in Hs. rewrite Em, Ep in Hs. nra. }
  destruct (sq3 _ _ _ Q) as (H0 & H1 & H2). assert (H3 : vx p = / 2) by lra. assert (H4 : vy p = / 2) by lra. assert (E : p = mid) by (destruct p as [x y z]; cbn in *; unfold mid, v3; f_equal; assumption).
  split; [exact E|]. rewrite Ec, Ep. rewrite H3, H4, H2. ring.
Qed.
Lemma octa_contractible : contractible m 7 mid.
Proof.
  destruct H as (V & Cl & Vs & P & Dg & I7 & S0 & D0 & R7 & F7 & F23 & _ & _ & K6 & _ & _ & K22 & _). assert (W := valid_wf m V).
  assert (NB : forall v, ~ on_boundary m v) by (intros v (h & Ih & _ & B); rewrite (Cl h Ih) in B; discriminate).
  assert (A : c1 m 7 = 0%nat) by (unfold c1; rewrite S0; reflexivity). assert (B : c3 m 7 = 1%nat) by (unfold c3; rewrite D0; reflexivity).
  constructor; rewrite ?A, ?B.
  - split; apply NB.
  - rewrite !Dg by (rewrite Vs; cbn [In]; tauto). lia.
  - intros x (h & Ih & Sh & Dh) _. rewrite Dg; [lia|]. destruct (wf_rev m W h Ih) as (r & Er & Ir). destruct (wf_src m W r Ir) as (y & Sy & Iy). unfold dst_of in Dh. rewrite Er in Dh. replace x with y by congruence. exact Iy.
  - assert (One : / 10 ^ 12 < 1) by (rewrite <- Rinv_1; apply Rinv_lt_contravar; [rewrite Rmult_1_l; apply pow_lt; lra|apply Rlt_pow_R1; [lra|lia]]).
    assert (G : forall n n' : vecR, n = vscale 2 n' -> 0 < Vec.dot n' n' -> Vec.dot n n' / (Vec.vlength n * Vec.vlength n') = 1).
    { intros n n' -> L. rewrite vlength_scale, Rabs_right by lra. replace (2 * Vec.vlength n' * Vec.vlength n') with (2 * (Vec.vlength n' * Vec.vlength n')) by ring. rewrite vlength_sq. rewrite !dot_eq in *. unfold vscale. rn. field. lra. }
    intros f k Ik [-> | Hk] Fk; [assert (f = 6%nat) by congruence; subst f|assert (k = 23%nat) by congruence; subst k; assert (f = 22%nat) by congruence; subst f].
    + unfold cornersG in K6. injection K6 as X1 X2 X3. unfold tilt. rewrite X1, X2, X3, P. cbn [Nat.eqb orb]. rewrite G; [exact One| |]; unfold octaR, mid, v3; cbn [nth]; unfold Vec.cross, Vec.vsub, Vec.vadd, Vec.vneg, vscale, v3; [rn; f_equal; lra|rewrite dot_eq; rn; lra].
    + unfold cornersG in K22. injection K22 as X1 X2 X3. unfold tilt. rewrite X1, X2, X3, P. cbn [Nat.eqb orb]. rewrite G; [exact One| |]; unfold octaR, mid, v3; cbn [nth]; unfold Vec.cross, Vec.vsub, Vec.vadd, Vec.vneg, vscale, v3; [rn; f_equal; lra|rewrite dot_eq; rn; lra].
Qed.
End O.

(** ** A contraction that turns a triangle over *)
Section T.
Variables (acosF expF : float -> float) (atan2F : float -> float -> float).
Notation NF := (Witness.NF acosF expF atan2F).
Local Close Scope R_scope.
Local Open Scope nat_scope.
Definition mid_of (d : ptr * (mat4 NF * mat4 NF) * (vec NF * vec NF)) : node NF :=
  let '(he, (q1, q2), (p1, p2)) := d in let v := Vec.vscale nhalf (Vec.vadd p1 p2) in Node (qem_value q1 q2 (hom v none_)) he v.
Definition is_mid (d : ptr * (mat4 NF * mat4 NF) * (vec NF * vec NF)) : bool :=
  let '(_, (q1, q2), _) := d in nltb (det4 (qem_matrix q1 q2)) eps8.
Lemma is_mid_ok lu d : is_mid d = true -> is_node lu d (mid_of d).
Proof. destruct d as [[he [q1 q2]] [p1 p2]]. cbn. intros E. split; [reflexivity|]. exact (cq_mid lu q1 q2 p1 p2 E). Qed.
Lemma turn_check : Witness.with_mesh acosF expF atan2F (mesh_of (ps_dent acosF expF atan2F) ix_hex) (fun m =>
  with_res acosF expF atan2F (all_quadrics m) (fun oq m1 => match oq with None => false | Some Qs =>
  with_res acosF expF atan2F (all_edges Qs (length (m_hes m)) m1) (fun ds m2 => forallb is_mid ds &&
    existsb (fun d => with_res acosF expF atan2F (qem_edge (repeat false (length (m_verts m))) (n_he (mid_of d)) (n_v (mid_of d)) m2) (fun r m' =>
       match r with Some (_, _, true) => existsb (fun h => existsb (Nat.eqb h) (m_hes m) && negb (h_bd m h) && negb (h_bd m' h) && nltb (Vec.dot (he_normal m h) (he_normal m' h)) nzero) (m_hes m') | _ => false end)) ds) end)) = true.
Proof. vm_cast_no_check (eq_refl true). Qed.
Lemma all_mid lu ds : forallb is_mid ds = true -> Forall2 (is_node lu) ds (map mid_of ds).
Proof. induction ds as [|d ds IH]; intros E; [constructor|]. cbn [forallb] in E. apply andb_true_iff in E as [E1 E2]. cbn [map]. constructor; [apply is_mid_ok, E1|apply IH, E2]. Qed.
Theorem qem_turned : exists ps ix (m : mesh NF) Qs ds, mesh_of ps ix = Ok m /\ Valid m /\ all_quadrics m = Ok (Some Qs, m) /\ all_edges Qs (length (m_hes m)) m = Ok (ds, m) /\
  forall lu, exists que e six ck m' h f a b c f' a' b' c', Forall2 (is_node lu) ds que /\ In e que /\ qem_edge (repeat false (length (m_verts m))) (n_he e) (n_v e) m = Ok (Some (six, ck, true), m') /\
    In h (m_hes m) /\ h_face m h = Some f /\ Spec.Tri m f a b c /\ h_src m h = Some a /\ In h (m_hes m') /\ h_face m' h = Some f' /\ Spec.Tri m' f' a' b' c' /\ h_src m' h = Some a' /\
    nltb (Vec.dot (tri_normal m a b c) (tri_normal m' a' b' c')) nzero = true.
Proof.
  assert (C := turn_check). apply with_ok in C as (m & E & C). apply with_res_ok in C as (oq & m1 & EQ & C). destruct oq as [Qs|]; [|discriminate C]. apply with_res_ok in C as (ds & m2 & ED & C). apply andb_true_iff in C as [C1 C2].
  assert (V : Valid m) by (apply mesh_of_ok in E; apply (construct_valid _ _ _ _ E)).
  destruct (quads_ok m Qs m1 EQ) as [EQ' LQ]. assert (X := quad_faces_ok (fun _ => True) (fun _ _ => I) m (seq 0 (length (m_faces m))) V ltac:(intros i Hi; apply in_seq in Hi; lia)). unfold wp in X. rewrite EQ' in X. destruct X as [_ ->].
  assert (ED' := edges_sim Qs _ _ m ds m2 LQ ED). assert (X := quad_edges_ok (fun _ => True) m (seq 0 (length (m_hes m))) (valid_wf m V) ltac:(intros i Hi; apply in_seq in Hi; lia)). unfold wp in X. rewrite ED' in X. destruct X as [Hin ->].
  exists (ps_dent acosF expF atan2F), ix_hex, m, Qs, ds. split; [exact E|]. split; [exact V|]. split; [exact EQ|]. split; [exact ED|]. intros lu.
  apply existsb_exists in C2 as (d & Id & C2). apply with_res_ok in C2 as (r & m' & ER & C2). destruct r as [[[six ck] []]|]; try discriminate C2. apply existsb_exists in C2 as (h & Ih' & K).
  apply andb_true_iff in K as [K K4]. apply andb_true_iff in K as [K K3]. apply andb_true_iff in K as [K K2]. apply negb_true_iff in K2, K3. apply existsb_exists in K as (h' & Ih & K). apply Nat.eqb_eq in K. subst h'.
  destruct (Hin (fst (fst d)) (in_map (fun d => fst (fst d)) _ _ Id)) as (he & Ehe & Ihe).
  assert (NH : n_he (mid_of d) = Some he) by (rewrite <- Ehe; destruct d as [[? [? ?]] [? ?]]; reflexivity).
  assert (V' : Valid m'). { rewrite NH in ER. assert (X := qem_edge_ok (fun _ => True) (fun _ _ => I) m (repeat false (length (m_verts m))) he (n_v (mid_of d)) V Ihe (Nat.eq_le_incl _ _ (eq_sym (repeat_length _ _)))). unfold wp in X. rewrite ER in X. exact (ev_valid _ _ (proj1 X)). }
  destruct (CollapseFlipW.tri_of m h V Ih K2) as (f & a & b & c & n & k & F1 & _ & T & S1 & N1 & S2 & N2 & S3). destruct (CollapseFlipW.tri_of m' h V' Ih' K3) as (f' & a' & b' & c' & n' & k' & F1' & _ & T' & S1' & N1' & S2' & N2' & S3').
  exists (map mid_of ds), (mid_of d), six, ck, m', h, f, a, b, c, f', a', b', c'. split; [apply all_mid, C1|]. split; [apply in_map, Id|]. split; [exact ER|]. split; [exact Ih|]. split; [exact F1|]. split; [exact T|]. split; [exact S1|]. split; [exact Ih'|]. split; [exact F1'|]. split; [exact T'|]. split; [exact S1'|].
  unfold he_normal in K4. rewrite S1, N1, S2, N2, S3, S1', N1', S2', N2', S3' in K4. exact K4.
Qed.
End T.
