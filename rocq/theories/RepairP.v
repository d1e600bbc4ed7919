(** The repair of the mesh: termination and invariants. *)
From Coq Require Import Bool Reals List ZArith Arith Lia Lra.
From Verif Require Import Num NumInst Vec Heap Mesh Spec Orbit Rings Exec Diamond EditSpec Edits Seqs Queries GeomSpec VecR BoundsR MeasureM SmoothP GmmP Measure Repair RepairSpec.
Import ListNotations.
Local Open Scope R_scope.
Local Open Scope mesh_scope.
Local Notation mesh := (Heap.mesh NumR).
Local Notation M := (Heap.M NumR).

(** ** Loops *)
Lemma op_chain (m : mesh) (f : nat -> option nat) step (body : bool -> ptr -> M (bool * bool)) x0 : forall l x fuel,
  chainto f x l x0 -> ~ In x0 l -> (length (x :: l) <= fuel)%nat ->
  (forall y, In y (x :: l) -> step (Some y) m = Ok (f y, m)) ->
  (forall y, In y (x :: l) -> exists b m', body false (Some y) m = Ok ((b, b), m') /\ (b = false -> m' = m)) ->
  exists b m', circ step body fuel (Some x0) (Some x) false m = Ok (b, m') /\
    (b = true -> exists y, In y (x :: l) /\ body false (Some y) m = Ok ((true, true), m')) /\
    (b = false -> m' = m /\ forall y, In y (x :: l) -> body false (Some y) m = Ok ((false, false), m)).
Proof.
  induction l as [|z l IH]; intros x fuel Hc Hni Hf Hs Hb; destruct fuel as [|fuel]; try (cbn in Hf; lia); destruct (Hb x (or_introl eq_refl)) as (b & m' & Eb & Hfalse); cbn [circ]; rewrite (bind_ok _ _ _ _ _ Eb); cbn [fst snd]; destruct b.
  - exists true, m'. split; [reflexivity|]. split; [|discriminate]. intros _. exists x. split; [now left|exact Eb].
  - rewrite (Hfalse eq_refl) in *. cbn [chainto] in Hc. rewrite (bind_ok _ _ _ _ _ (Hs x (or_introl eq_refl))), Hc, ptr_eqb_refl. exists false, m. split; [destruct fuel; reflexivity|]. split; [discriminate|]. intros _. split; [reflexivity|]. intros y [<-|[]]. exact Eb.
  - exists true, m'. split; [reflexivity|]. split; [|discriminate]. intros _. exists x. split; [now left|exact Eb].
  - rewrite (Hfalse eq_refl) in *. destruct Hc as [H1 H2]. rewrite (bind_ok _ _ _ _ _ (Hs x (or_introl eq_refl))), H1. destruct (ptr_eqb (Some z) (Some x0)) eqn:E; [apply ptr_eqb_eq in E; injection E as ->; exfalso; apply Hni; left; reflexivity|].
    destruct (IH z fuel H2 ltac:(intros H; apply Hni; right; exact H) ltac:(cbn in *; lia) ltac:(intros y Hy; apply Hs; right; exact Hy) ltac:(intros y Hy; apply Hb; right; exact Hy)) as (b2 & m2 & E2 & T2 & F2).
    exists b2, m2. split; [exact E2|]. split; [intros H; destruct (T2 H) as (y & Hy & Ey); exists y; split; [now right|exact Ey]|]. intros H. destruct (F2 H) as [-> G]. split; [reflexivity|]. intros y [<-|Hy]; [exact Eb|now apply G].
Qed.
Definition out (m : mesh) (v y : nat) : Prop := In y (m_hes m) /\ h_src m y = Some v.
Lemma around_run (m : mesh) v test op (t : nat -> bool) : WF m -> In v (m_verts m) ->
  (forall y, out m v y -> test (Some y) m = Ok (t y, m)) ->
  (forall y, out m v y -> t y = true -> exists b m', op (Some y) m = Ok (b, m') /\ (b = false -> m' = m)) ->
  exists b m', around test op (Some v) m = Ok (b, m') /\
    (b = true -> exists y, out m v y /\ t y = true /\ op (Some y) m = Ok (true, m')) /\
    (b = false -> m' = m /\ forall y, out m v y -> t y = true -> op (Some y) m = Ok (false, m)).
Proof.
  intros W Hv Ht Ho. destruct (vring m W v Hv) as (h & l & Eh & Hr). unfold around, circ_v. rewrite (bind_ok _ _ _ _ _ (r_vhe _ _ (v_alive m W _ Hv))), bind_get, Eh.
  assert (Hlen := vring_len m W _ _ Hr). destruct Hr as (Hc & Hnd & Hin).
  set (body := fun (_ : bool) it => b <- test it ;; if b then r <- op it ;; ret (r, r) else ret (false, false)).
  assert (Bd : forall y, out m v y -> t y = true -> forall b m', op (Some y) m = Ok (b, m') -> body false (Some y) m = Ok ((b, b), m')).
  { intros y Hy Ty b m' E. unfold body. rewrite (bind_ok _ _ _ _ _ (Ht y Hy)), Ty, (bind_ok _ _ _ _ _ E). reflexivity. }
  assert (Bf : forall y, out m v y -> t y = false -> body false (Some y) m = Ok ((false, false), m)).
  { intros y Hy Ty. unfold body. rewrite (bind_ok _ _ _ _ _ (Ht y Hy)), Ty. reflexivity. }
  destruct (op_chain m (rot m) step_v body h l h (S (m_fresh m)) Hc ltac:(inversion Hnd; assumption) ltac:(cbn in *; lia)) as (b & m' & E & T & F).
  - intros y Hy. apply (step_v_ok m W), Hin, Hy.
  - intros y Hy. apply Hin in Hy. destruct (t y) eqn:Ty; [destruct (Ho y Hy Ty) as (b & m' & E & Hb); exists b, m'; split; [exact (Bd y Hy Ty b m' E)|exact Hb]|exists false, m; split; [exact (Bf y Hy Ty)|reflexivity]].
  - exists b, m'. split; [exact E|]. split.
    + intros H. destruct (T H) as (y & Hy & Ey). apply Hin in Hy. destruct (t y) eqn:Ty; [|rewrite (Bf y Hy Ty) in Ey; congruence]. exists y. split; [exact Hy|]. split; [exact Ty|].
      destruct (Ho y Hy Ty) as (b2 & m2 & E2 & _). rewrite (Bd y Hy Ty b2 m2 E2) in Ey. assert (Q : b2 = true /\ m2 = m') by (split; congruence). destruct Q as [-> ->]. exact E2.
    + intros H. destruct (F H) as [-> G]. split; [reflexivity|]. intros y Hy Ty. assert (Gy := G y (proj2 (Hin y) Hy)). destruct (Ho y Hy Ty) as (b2 & m2 & E2 & _). rewrite (Bd y Hy Ty b2 m2 E2) in Gy. assert (Q : b2 = false /\ m2 = m) by (split; congruence). destruct Q as [-> ->]. exact E2.
Qed.
Lemma vertex_at (m : mesh) i v : nth_error (m_verts m) i = Some v -> mesh_vertex (Z.of_nat i) m = Ok (Some v, m).
Proof. rewrite mesh_vertex_eq. intros ->. reflexivity. Qed.
(** One vertex. *)
Lemma rounds_run one (Inv Post : mesh -> Prop) (mu : mesh -> nat) i :
  (forall m v, Inv m -> nth_error (m_verts m) i = Some v -> exists b m', one (Some v) m = Ok (b, m') /\ (b = true -> Inv m' /\ (mu m' < mu m)%nat) /\ (b = false -> m' = m /\ Post m)) ->
  forall m rep, Inv m -> exists b m', (forall k, (mu m < k)%nat -> rounds k one i rep m = Ok (b, m')) /\ Inv m' /\ (Post m' \/ (length (m_verts m') <= i)%nat).
Proof.
  intros H. assert (G : forall n m rep, (mu m < n)%nat -> Inv m -> exists b m', (forall k, (mu m < k)%nat -> rounds k one i rep m = Ok (b, m')) /\ Inv m' /\ (Post m' \/ (length (m_verts m') <= i)%nat)).
  { induction n as [|n IH]; intros m rep Hn I; [lia|]. destruct (nth_error (m_verts m) i) as [v|] eqn:Ev.
    - assert (L : (i < length (m_verts m))%nat) by (apply nth_error_Some; congruence). destruct (H m v I Ev) as (b & m1 & E & T & F).
      assert (S1 : forall k, (0 < k)%nat -> rounds k one i rep m = if b then rounds (Nat.pred k) one i true m1 else Ok (rep, m1)).
      { intros [|k] Hk; [lia|]. cbn [rounds Nat.pred]. rewrite bind_get. destruct (Nat.leb_spec (length (m_verts m)) i); [lia|]. rewrite (bind_ok _ _ _ _ _ (vertex_at m i v Ev)), (bind_ok _ _ _ _ _ E). destruct b; reflexivity. }
      destruct b.
      + destruct (T eq_refl) as [I1 M1]. destruct (IH m1 true ltac:(lia) I1) as (b2 & m2 & R2 & I2 & P2). exists b2, m2. split; [|split; assumption]. intros k Hk. rewrite S1 by lia. apply R2. lia.
      + destruct (F eq_refl) as [-> P]. exists rep, m. split; [|split; [exact I|left; exact P]]. intros k Hk. apply S1. lia.
    - assert (L : (length (m_verts m) <= i)%nat) by (apply nth_error_None; exact Ev). exists rep, m. split; [|split; [exact I|right; exact L]].
      intros [|k] Hk; [lia|]. cbn [rounds]. rewrite bind_get. destruct (Nat.leb_spec (length (m_verts m)) i); [reflexivity|lia]. }
  intros m rep I. exact (G (S (mu m)) m rep ltac:(lia) I).
Qed.
(** All vertices. *)
Lemma sweep_run one (Inv : list nat -> mesh -> Prop) : forall ids done,
  (forall i dn m rep, In i ids -> Inv dn m -> exists K b m', (forall k, (K <= k)%nat -> rounds k one i rep m = Ok (b, m')) /\ Inv (i :: dn) m') ->
  forall m rep, Inv done m -> exists K b m', (forall k, (K <= k)%nat -> sweep k one ids rep m = Ok (b, m')) /\ Inv (rev ids ++ done) m'.
Proof.
  induction ids as [|i ids IH]; intros done H m rep I; [exists 0%nat, rep, m; split; [reflexivity|exact I]|].
  destruct (H i done m rep (or_introl eq_refl) I) as (K1 & b1 & m1 & R1 & I1).
  destruct (IH (i :: done) ltac:(intros j dn m' rep' Hj; apply H; right; exact Hj) m1 b1 I1) as (K2 & b2 & m2 & R2 & I2).
  exists (Nat.max K1 K2), b2, m2. split.
  - intros k Hk. unfold sweep. cbn [mfold]. assert (RK := R1 k ltac:(lia)). rewrite (bind_ok _ _ _ _ _ RK). apply R2. lia.
  - cbn [rev]. rewrite <- app_assoc. exact I2.
Qed.

(** ** Splitting *)
Definition adjb (m : mesh) (v w : nat) : bool := existsb (fun h => ptr_eqb (h_src m h) (Some v) && ptr_eqb (dst_of m h) (Some w)) (m_hes m).
Lemma adjb_iff m v w : adjb m v w = true <-> adj m v w.
Proof.
  unfold adjb, adj. rewrite existsb_exists. split.
  - intros (h & Ih & E). apply andb_true_iff in E. destruct E as [E1 E2]. apply ptr_eqb_eq in E1, E2. exists h. auto.
  - intros (h & Ih & E1 & E2). exists h. split; [exact Ih|]. rewrite E1, E2, !ptr_eqb_refl. reflexivity.
Qed.
Definition reach (m : mesh) (v : nat) : R := rsum (map (fun w => if adjb m v w then gap m v w else 0) (m_verts m)).
Lemma reach_nonneg m v : 0 <= reach m v.
Proof. apply rsum_nonneg. intros w _. destruct (adjb m v w); [apply edist_pos|lra]. Qed.
Lemma rsum_change (F G : nat -> R) w : forall l, NoDup l -> In w l -> (forall b, In b l -> b <> w -> F b = G b) -> rsum (map F l) = rsum (map G l) - G w + F w.
Proof.
  induction l as [|x l IH]; intros ND Hw H; [destruct Hw|]. inversion ND as [|? ? Hx Hl]; subst. cbn [map]. rewrite !rsum_cons. destruct (Nat.eq_dec x w) as [->|Ne].
  - rewrite (rsum_ext F G l); [ring|]. intros b Hb. apply H; [now right|]. intros ->. contradiction.
  - destruct Hw as [->|Hw]; [congruence|]. rewrite (H x (or_introl eq_refl) Ne), (IH Hl Hw); [ring|]. intros b Hb. apply H. now right.
Qed.
Lemma gap_sym m v w : gap m v w = gap m w v. Proof. apply edist_sym. Qed.
Lemma half_gap (a b : vecR) : edist a (vscale nhalf (vadd a b)) = edist a b / 2 /\ edist a (vscale nhalf (vadd b a)) = edist a b / 2.
Proof.
  assert (E : forall c : vecR, vsub a c = vscale (1 / 2) (vsub a b) -> edist a c = edist a b / 2).
  { intros c Ec. rewrite <- !edist_len, Ec. rewrite vlength_scale. rewrite Rabs_right by lra. field. }
  split; apply E; destruct a, b; unfold vsub, vadd, vneg, Vec.vscale; rn; f_equal; field.
Qed.
Lemma median_le (a b c : vecR) (T : R) : edist c a <= T -> edist c b <= T -> edist c (vscale nhalf (vadd a b)) <= T.
Proof.
  intros A B. rewrite <- edist_len in *. replace (vsub c (vscale nhalf (vadd a b))) with (vadd (vscale (1 / 2) (vsub c a)) (vscale (1 / 2) (vsub c b))).
  - eapply Rle_trans; [apply vlength_tri|]. rewrite !vlength_scale, Rabs_right by lra. lra.
  - destruct a, b, c. unfold vsub, vadd, vneg, Vec.vscale. rn. f_equal; field.
Qed.
Lemma edge_gap (m : mesh) y v w : h_src m y = Some v -> dst_of m y = Some w -> edge_length m y = gap m v w.
Proof. intros E1 E2. unfold edge_length. rewrite E1, E2. apply edist_len. Qed.
Lemma out_dst (m : mesh) v y : WF m -> out m v y -> exists w, dst_of m y = Some w /\ In w (m_verts m) /\ adj m v w.
Proof.
  intros W [Iy Ey]. destruct (wf_rev m W y Iy) as (r & Er & Ir). destruct (wf_src m W r Ir) as (w & Ew & Iw).
  assert (D : dst_of m y = Some w) by (unfold dst_of; rewrite Er; exact Ew). exists w. split; [exact D|]. split; [exact Iw|]. exists y. auto.
Qed.
Lemma tri_adjs (m : mesh) f a b c : WF m -> Tri m f a b c -> adj m a b /\ adj m b c /\ adj m c a /\ In c (m_verts m).
Proof.
  intros W (x & y & z & HI & Nx & Ny & Nz & Sx & Sy & Sz). assert (Ix : In x (m_hes m)) by (apply HI; auto). assert (Iy : In y (m_hes m)) by (apply HI; auto). assert (Iz : In z (m_hes m)) by (apply HI; auto).
  split; [exists x; rewrite (dst_next m x y W Ix Nx); auto|]. split; [exists y; rewrite (dst_next m y z W Iy Ny); auto|]. split; [exists z; rewrite (dst_next m z x W Iz Nz); auto|]. exact (src_in m W z c Iz Sz).
Qed.
Lemma adj_sym (m : mesh) a b : WF m -> adj m a b -> adj m b a.
Proof.
  intros W (h & Ih & E1 & E2). unfold dst_of in E2. destruct (h_rev m h) as [r|] eqn:Er; [|discriminate]. destruct (wf_rev m W h Ih) as (r' & Er' & Ir). rewrite Er in Er'. injection Er' as <-.
  exists r. split; [exact Ir|]. split; [exact E2|]. unfold dst_of. rewrite (rev_rev m W h r Ih Er). exact E1.
Qed.
(** What one split at [v] does. *)
Section Split.
Variables (m m' : mesh) (y v w u0 u1 u2 u3 f0 f1 vn g0 g1 : nat).
Hypothesis V : Valid m.
Hypothesis V' : Valid m'.
Hypothesis X : SplitEffect m m' y u0 u1 u2 u3 f0 f1 vn g0 g1.
Hypothesis Ev : h_src m y = Some v.
Hypothesis Ew : dst_of m y = Some w.
Lemma sp_pair : (v = u0 /\ w = u2) \/ (v = u2 /\ w = u0).
Proof. destruct (se_edge _ _ _ _ _ _ _ _ _ _ _ _ X) as ([[A B]|[A B]] & _); [left|right]; split; congruence. Qed.
Lemma sp_nodup : NoDup [u0; u1; u2; u3].
Proof. apply (se_edge _ _ _ _ _ _ _ _ _ _ _ _ X). Qed.
Lemma sp_fresh : ~ In vn (m_verts m).
Proof. assert (ND := wf_v_nodup m' (valid_wf m' V')). rewrite (se_verts _ _ _ _ _ _ _ _ _ _ _ _ X) in ND. apply NoDup_remove_2 in ND. rewrite app_nil_r in ND. exact ND. Qed.
Lemma sp_tris : adj m u0 u2 /\ adj m u1 u0 /\ adj m u1 u2 /\ adj m u3 u0 /\ adj m u3 u2 /\ forall x, In x [u0; u1; u2; u3] -> In x (m_verts m).
Proof.
  destruct (se_edge _ _ _ _ _ _ _ _ _ _ _ _ X) as (_ & T0 & T1 & _). assert (W := valid_wf m V).
  destruct (tri_adjs m _ _ _ _ W T0) as (A & B & C & D), (tri_adjs m _ _ _ _ W T1) as (E & F & G & H). repeat split; try assumption; try (apply adj_sym; assumption).
  assert (S : forall a b, adj m a b -> In a (m_verts m)) by (intros a b (h & Ih & Ea & _); exact (src_in m W h a Ih Ea)).
  intros x [<-|[<-|[<-|[<-|[]]]]]; [exact (S _ _ A)|exact D|exact (S _ _ B)|exact H].
Qed.
Lemma sp_pos x : In x (m_verts m) -> v_pos m' x = v_pos m x.
Proof. intros Hx. apply (se_data _ _ _ _ _ _ _ _ _ _ _ _ X x Hx). Qed.
Lemma sp_gap x b : In x (m_verts m) -> In b (m_verts m) -> gap m' x b = gap m x b.
Proof. intros Hx Hb. unfold gap. rewrite (sp_pos x Hx), (sp_pos b Hb). reflexivity. Qed.
Lemma sp_half : gap m' v vn = gap m v w / 2.
Proof.
  destruct sp_tris as (_ & _ & _ & _ & _ & I). unfold gap. rewrite (se_pos _ _ _ _ _ _ _ _ _ _ _ _ X). destruct sp_pair as [[-> ->]|[-> ->]]; rewrite sp_pos by (apply I; cbn; auto); apply half_gap.
Qed.
Lemma sp_reach : reach m' v = reach m v - gap m v w / 2.
Proof.
  destruct sp_tris as (A02 & _ & _ & _ & _ & I). assert (F := sp_fresh). assert (ND := sp_nodup). assert (W := valid_wf m V).
  assert (Iv : In v (m_verts m)) by (destruct sp_pair as [[-> _]|[-> _]]; apply I; cbn; auto). assert (Iw : In w (m_verts m)) by (destruct sp_pair as [[_ ->]|[_ ->]]; apply I; cbn; auto).
  assert (Avw : adj m v w) by (destruct sp_pair as [[-> ->]|[-> ->]]; [exact A02|apply adj_sym; assumption]).
  unfold reach. rewrite (se_verts _ _ _ _ _ _ _ _ _ _ _ _ X), map_app, rsum_app. cbn [map]. rewrite rsum_cons.
  assert (Avn : adjb m' v vn = true) by (apply adjb_iff, (se_adj _ _ _ _ _ _ _ _ _ _ _ _ X); right; right; split; [reflexivity|destruct sp_pair as [[-> _]|[-> _]]; cbn; auto]).
  rewrite Avn, sp_half.
  assert (Aw : adjb m' v w = false).
  { apply not_true_iff_false. rewrite adjb_iff, (se_adj _ _ _ _ _ _ _ _ _ _ _ _ X). intros [[_ H]|[[-> _]|[-> _]]]; [|contradiction|contradiction]. apply H. destruct sp_pair as [[-> ->]|[-> ->]]; [left|right]; auto. }
  rewrite (rsum_change (fun b => if adjb m' v b then gap m' v b else 0) (fun b => if adjb m v b then gap m v b else 0) w (m_verts m) (wf_v_nodup m W) Iw).
  - rewrite Aw. rewrite (proj2 (adjb_iff m v w) Avw). unfold rsum at 2. cbn [fold_right]. field.
  - intros b Hb Ne. assert (E : adjb m' v b = adjb m v b).
    { apply eq_true_iff_eq. rewrite !adjb_iff, (se_adj _ _ _ _ _ _ _ _ _ _ _ _ X). split.
      - intros [[H _]|[[-> _]|[-> _]]]; [exact H|contradiction|contradiction].
      - intros H. left. split; [exact H|]. intros P. apply Ne. destruct sp_pair as [[-> ->]|[-> ->]]; destruct P as [[P1 P2]|[P1 P2]]; try congruence; subst; exfalso; inversion ND as [|? ? H1 _]; apply H1; cbn; auto. }
    rewrite E. destruct (adjb m v b); [apply sp_gap; assumption|reflexivity].
Qed.
Lemma sp_short T x : 0 <= T -> In x (m_verts m) -> ShortAt T m x -> ShortAt T m' x.
Proof.
  intros T0 Hx S b Hb. destruct sp_tris as (A02 & A10 & A12 & A30 & A32 & I). assert (W := valid_wf m V). apply (se_adj _ _ _ _ _ _ _ _ _ _ _ _ X) in Hb. destruct Hb as [[H _]|[[-> _]|[-> H]]].
  - rewrite sp_gap; [exact (S b H)|exact Hx|]. apply (adj_sym m x b W) in H. destruct H as (h & Ih & E & _). exact (src_in m W h b Ih E).
  - exfalso. exact (sp_fresh Hx).
  - unfold gap. rewrite (sp_pos x Hx), (se_pos _ _ _ _ _ _ _ _ _ _ _ _ X). apply median_le.
    + destruct H as [<-|[<-|[<-|[<-|[]]]]]; [rewrite edist_self; exact T0|exact (S u0 A10)|exact (S u0 (adj_sym m _ _ W A02))|exact (S u0 A30)].
    + destruct H as [<-|[<-|[<-|[<-|[]]]]]; [exact (S u2 A02)|exact (S u2 A12)|rewrite edist_self; exact T0|exact (S u2 A32)].
Qed.
Lemma sp_ample : Ample m -> Ample m'.
Proof.
  intros A x Hx. rewrite (se_verts _ _ _ _ _ _ _ _ _ _ _ _ X) in Hx. apply in_app_iff in Hx. destruct Hx as [Hx|[<-|[]]]; [|rewrite (se_degn _ _ _ _ _ _ _ _ _ _ _ _ X); lia].
  assert (A0 := A x Hx). destruct (Nat.eq_dec x u1) as [->|N1]; [rewrite (se_deg1 _ _ _ _ _ _ _ _ _ _ _ _ X); lia|]. destruct (Nat.eq_dec x u3) as [->|N3]; [rewrite (se_deg3 _ _ _ _ _ _ _ _ _ _ _ _ X); lia|].
  rewrite (se_deg _ _ _ _ _ _ _ _ _ _ _ _ X x Hx N1 N3). exact A0.
Qed.
Lemma sp_closed : Closed m -> Closed m'.
Proof.
  intros C h Hh. destruct (se_bd _ _ _ _ _ _ _ _ _ _ _ _ X) as [B1 B2]. destruct (in_dec Nat.eq_dec h (m_hes m)) as [I|I]; [rewrite (B1 h I); exact (C h I)|exact (B2 h Hh I)].
Qed.
End Split.
Lemma up_shift a b : 0 <= a -> a <= b - 1 -> (Z.to_nat (up a) < Z.to_nat (up b))%nat.
Proof.
  intros A H. destruct (archimed a) as [A1 A2], (archimed b) as [B1 B2].
  assert (L : (up a < up b)%Z) by (apply lt_IZR; lra). assert (P : (0 < up a)%Z) by (apply lt_IZR; lra). apply Z2Nat.inj_lt; lia.
Qed.
Lemma nth_prefix {A} (l l2 : list A) i v : nth_error l i = Some v -> nth_error (l ++ l2) i = Some v.
Proof. intros E. rewrite nth_error_app1; [exact E|]. apply nth_error_Some. congruence. Qed.
Lemma intact_refl m : Valid m -> Closed m -> Intact m m.
Proof. intros V C. constructor; auto. intros v _ _. split; reflexivity. Qed.
Definition SplitInv (T : R) (m0 : mesh) (dn : list nat) (m : mesh) : Prop :=
  Intact m0 m /\ (exists l, m_verts m = m_verts m0 ++ l) /\
  (Ample m0 -> Ample m /\ forall i v, In i dn -> nth_error (m_verts m0) i = Some v -> ShortAt T m v).
Lemma split_vertex avgLen m0 dn i m rep : 0 < avgLen -> (i < length (m_verts m0))%nat -> SplitInv (3 / 2 * avgLen) m0 dn m ->
  exists K b m', (forall k, (K <= k)%nat -> rounds k (around (too_long (N := NumR) avgLen) splitHE) i rep m = Ok (b, m')) /\ SplitInv (3 / 2 * avgLen) m0 (i :: dn) m'.
Proof.
  intros L0 Li I. set (T := 3 / 2 * avgLen) in *. assert (T0 : 0 < T) by (unfold T; lra). destruct (nth_error (m_verts m0) i) as [v|] eqn:Ev; [|apply nth_error_None in Ev; lia].
  set (mu := fun m : mesh => Z.to_nat (up (reach m v / (T / 2)))).
  destruct (rounds_run (around (too_long (N := NumR) avgLen) splitHE) (SplitInv T m0 dn) (fun m => Ample m -> ShortAt T m v) mu i) with (m := m) (rep := rep) as (b & m' & R & I' & P); [|exact I|].
  - clear m I rep. intros m v' (In0 & (l & El) & Am) Ev'. rewrite El in Ev'. rewrite (nth_prefix _ l i v Ev) in Ev'. injection Ev' as <-.
    assert (V := in_valid _ _ In0). assert (C := in_closed _ _ In0). assert (W := valid_wf m V).
    assert (Iv : In v (m_verts m)) by (rewrite El; apply in_app_iff; left; exact (nth_error_In _ _ Ev)).
    destruct (around_run m v (too_long (N := NumR) avgLen) splitHE (fun y => Rltb T (edge_length m y)) W Iv) as (b & m' & E & Tr & Fl).
    + intros y [Iy _]. unfold too_long. rewrite (bind_ok _ _ _ _ _ (he_length_ok m y W Iy)). reflexivity.
    + intros y [Iy _] _. destruct (split_top m y V Iy) as (b & m' & _ & _ & _ & _ & _ & _ & E & _ & _ & Hf & _). exists b, m'. auto.
    + exists b, m'. split; [exact E|]. split.
      * intros Hb. destruct (Tr Hb) as (y & [Iy Ey] & Ty & Es). apply Rltb_lt in Ty. destruct (out_dst m v y W (conj Iy Ey)) as (w & Dw & Iw & _). rewrite (edge_gap m y v w Ey Dw) in Ty.
        destruct (split_top m y V Iy) as (b2 & m2 & _ & _ & _ & _ & _ & _ & E2 & V2 & _ & _ & Ht). rewrite Es in E2. injection E2 as <- <-. destruct (Ht eq_refl) as (u0 & u1 & u2 & u3 & f0 & f1 & vn & g0 & g1 & X).
        assert (Sub : forall x, In x (m_verts m0) -> In x (m_verts m)) by (intros x Hx; rewrite El; apply in_app_iff; now left).
        split; [split; [|split]|].
        -- constructor; [exact V2|exact (sp_closed _ _ _ _ _ _ _ _ _ _ _ _ X C)|rewrite (split_euler _ _ _ _ _ _ _ _ _ _ _ _ X); apply In0|].
           intros x Hx _. destruct (in_data _ _ In0 x Hx (Sub x Hx)) as [P1 P2]. destruct (se_data _ _ _ _ _ _ _ _ _ _ _ _ X x (Sub x Hx)) as [P3 P4]. split; congruence.
        -- exists (l ++ [vn]). rewrite (se_verts _ _ _ _ _ _ _ _ _ _ _ _ X), El, app_assoc. reflexivity.
        -- intros A. destruct (Am A) as [A1 A2]. split; [exact (sp_ample _ _ _ _ _ _ _ _ _ _ _ _ X A1)|]. intros j x Hj Ex. apply (sp_short _ _ _ _ _ _ _ _ _ _ _ _ V V2 X T x); [lra|apply Sub; exact (nth_error_In _ _ Ex)|exact (A2 j x Hj Ex)].
        -- unfold mu. rewrite (sp_reach _ _ _ _ _ _ _ _ _ _ _ _ _ _ V V2 X Ey Dw). assert (Rn := reach_nonneg m' v). rewrite (sp_reach _ _ _ _ _ _ _ _ _ _ _ _ _ _ V V2 X Ey Dw) in Rn. apply up_shift.
           ++ apply Rmult_le_pos; [exact Rn|]. left. apply Rinv_0_lt_compat. lra.
           ++ apply (Rmult_le_reg_r (T / 2)); [lra|]. unfold Rdiv at 1. rewrite Rmult_assoc, Rinv_l, Rmult_1_r by lra. rewrite Rmult_minus_distr_r. unfold Rdiv at 2. rewrite Rmult_assoc, Rinv_l, Rmult_1_r by lra. lra.
      * intros Hb. destruct (Fl Hb) as [-> G]. split; [reflexivity|]. intros A w (y & Iy & Ey & Dw). destruct (Rle_dec (gap m v w) T) as [|NL]; [assumption|exfalso].
        assert (Ty : Rltb T (edge_length m y) = true) by (apply Rltb_lt; rewrite (edge_gap m y v w Ey Dw); lra). assert (Es := G y (conj Iy Ey) Ty).
        destruct (split_top m y V Iy) as (b2 & m2 & r & s & d & Er & Es' & Ed & E2 & _ & Hb2 & _). rewrite Es in E2. assert (b2 = false) by congruence. subst b2.
        assert (false = true); [|discriminate]. apply Hb2. split; [exact (C y Iy)|]. destruct (wf_rev m W y Iy) as (r' & Er' & Ir). rewrite Er in Er'. injection Er' as <-. split; [exact (C r Ir)|].
        assert (s = v) by congruence. assert (d = w) by congruence. subst s d. split; apply A; [exact Iv|]. assert (Dw2 := Dw). unfold dst_of in Dw2. rewrite Er in Dw2. exact (src_in m W r w Ir Dw2).
  - exists (S (mu m)), b, m'. split; [intros k Hk; apply R; lia|]. destruct I' as (I1 & I2 & I3). split; [exact I1|]. split; [exact I2|]. intros A. destruct (I3 A) as [A1 A2]. split; [exact A1|].
    intros j x [<-|Hj] Ex; [|exact (A2 j x Hj Ex)]. destruct P as [P|P]; [|exfalso; destruct I2 as (l & El); rewrite El, app_length in P; lia].
    assert (x = v) by congruence. subst x. exact (P A1).
Qed.
Lemma split_phase avgLen m ids rep : 0 < avgLen -> (forall i, In i ids -> (i < length (m_verts m))%nat) -> Valid m -> Closed m ->
  exists K b m', (forall k, (K <= k)%nat -> repair_split (N := NumR) k avgLen ids rep m = Ok (b, m')) /\ SplitInv (3 / 2 * avgLen) m ids m'.
Proof.
  intros L0 Hi V C. destruct (sweep_run (around (too_long (N := NumR) avgLen) splitHE) (SplitInv (3 / 2 * avgLen) m) ids []) with (m := m) (rep := rep) as (K & b & m' & R & I).
  - intros i dn m1 rep1 Hin I1. exact (split_vertex avgLen m dn i m1 rep1 L0 (Hi i Hin) I1).
  - split; [exact (intact_refl m V C)|]. split; [exists []; rewrite app_nil_r; reflexivity|]. intros A. split; [exact A|]. intros i v [].
  - exists K, b, m'. split; [exact R|]. destruct I as (I1 & I2 & I3). split; [exact I1|]. split; [exact I2|]. intros A. destruct (I3 A) as [A1 A2]. split; [exact A1|].
    intros i v Hin. apply A2. rewrite app_nil_r. apply in_rev in Hin. exact Hin.
Qed.

(** ** Flipping and collapsing *)
Lemma opposite_run (m : mesh) y : Valid m -> Closed m -> In y (m_hes m) -> exists s d n l r rn x,
  h_src m y = Some s /\ dst_of m y = Some d /\ h_next m y = Some n /\ dst_of m n = Some l /\ h_rev m y = Some r /\ h_next m r = Some rn /\ dst_of m rn = Some x /\
  opposite (N := NumR) (Some y) m = Ok ((vangle (v_pos m s) (v_pos m l) (v_pos m d), vangle (v_pos m s) (v_pos m x) (v_pos m d)), m).
Proof.
  intros V C Iy. assert (W := valid_wf m V). destruct (wf_rev m W y Iy) as (r & Er & Ir). destruct (wf_src m W y Iy) as (s & Es & Is), (wf_src m W r Ir) as (d & Ed & Id).
  destruct (wf_next m W y Iy) as (n & En & In_), (wf_next m W r Ir) as (rn & Ern & Irn). destruct (out_dst m s y W (conj Iy Es)) as (d' & Dd & _). assert (d' = d) by (unfold dst_of in Dd; rewrite Er in Dd; congruence). subst d'.
  destruct (wf_src m W n In_) as (n0 & En0 & _). destruct (out_dst m n0 n W (conj In_ En0)) as (l & Dl & Il & _). destruct (wf_src m W rn Irn) as (r0 & Er0 & _). destruct (out_dst m r0 rn W (conj Irn Er0)) as (x & Dx & Ix & _).
  exists s, d, n, l, r, rn, x. do 7 (split; [assumption|]). unfold opposite.
  rewrite (bind_ok _ _ _ _ _ (r_src m y (h_alive m W _ Iy))), Es, (bind_ok _ _ _ _ _ (r_pos m s (v_alive m W _ Is))).
  rewrite (bind_ok _ _ _ _ _ (dst_of_ok m W y Iy)), Dd, (bind_ok _ _ _ _ _ (r_pos m d (v_alive m W _ Id))).
  rewrite (bind_ok _ _ _ _ _ (r_next m y (h_alive m W _ Iy))), En, (bind_ok _ _ _ _ _ (dst_of_ok m W n In_)), Dl, (bind_ok _ _ _ _ _ (r_pos m l (v_alive m W _ Il))).
  rewrite (bind_ok _ _ _ _ _ (r_rev m y (h_alive m W _ Iy))), Er, (bind_ok _ _ _ _ _ (r_next m r (h_alive m W _ Ir))), Ern, (bind_ok _ _ _ _ _ (dst_of_ok m W rn Irn)), Dx, (bind_ok _ _ _ _ _ (r_pos m x (v_alive m W _ Ix))).
  reflexivity.
Qed.
Definition tst (test : ptr -> M bool) (m : mesh) (y : nat) : bool := match test (Some y) m with Ok (b, _) => b | _ => false end.
Lemma tst_obtuse (m : mesh) y : Valid m -> Closed m -> In y (m_hes m) -> obtuse_pair (N := NumR) (Some y) m = Ok (tst (obtuse_pair (N := NumR)) m y, m).
Proof. intros V C Iy. destruct (opposite_run m y V C Iy) as (s & d & n & l & r & rn & x & _ & _ & _ & _ & _ & _ & _ & E). unfold tst, obtuse_pair. rewrite (bind_ok _ _ _ _ _ E). reflexivity. Qed.
Lemma tst_sharp (m : mesh) y : Valid m -> Closed m -> In y (m_hes m) -> sharp (N := NumR) (Some y) m = Ok (tst (sharp (N := NumR)) m y, m).
Proof. intros V C Iy. destruct (opposite_run m y V C Iy) as (s & d & n & l & r & rn & x & _ & _ & _ & _ & _ & _ & _ & E). unfold tst, sharp. rewrite (bind_ok _ _ _ _ _ E). reflexivity. Qed.
Lemma flip_run (m : mesh) y : Valid m -> Closed m -> In y (m_hes m) -> exists b m', flipHE (Some y) m = Ok (b, m') /\ (b = false -> m' = m) /\
  (b = true -> Valid m' /\ exists u0 u1 u2 u3 f0 f1, h_src m y = Some u0 /\ FlipEffect m m' y u0 u1 u2 u3 f0 f1).
Proof.
  intros V C Iy. destruct (wf_rev m (valid_wf m V) y Iy) as (r & Er & Ir).
  destruct (flip_top m y r V Iy Er (valid_tri m V y Iy (C y Iy)) (valid_tri m V r Ir (C r Ir))) as (b & m' & E & V' & Hf & u0 & u1 & u2 & u3 & f0 & f1 & S0 & _ & _ & _ & _ & Ht).
  exists b, m'. split; [exact E|]. split; [exact Hf|]. intros Hb. split; [exact V'|]. exists u0, u1, u2, u3, f0, f1. split; [exact S0|exact (Ht Hb)].
Qed.
Lemma intact_flip (m0 m m' : mesh) y u0 u1 u2 u3 f0 f1 : Intact m0 m -> Valid m' -> FlipEffect m m' y u0 u1 u2 u3 f0 f1 -> Intact m0 m'.
Proof.
  intros In0 V' X. destruct (fe_lists _ _ _ _ _ _ _ _ _ X) as (L1 & L2 & _). constructor; [exact V'| | |].
  - intros h Hh. rewrite (fe_bd _ _ _ _ _ _ _ _ _ X). rewrite L2 in Hh. exact (in_closed _ _ In0 h Hh).
  - rewrite (flip_euler _ _ _ _ _ _ _ _ _ X). apply In0.
  - intros v Hv Hv'. rewrite L1 in Hv'. destruct (in_data _ _ In0 v Hv Hv') as [P1 P2], (fe_data _ _ _ _ _ _ _ _ _ X v) as [P3 P4]. split; congruence.
Qed.
Lemma intact_collapse (m0 m m' : mesh) y u0 u1 u2 u3 f0 f1 : Intact m0 m -> Valid m' -> CollapseEffect m m' y u0 u1 u2 u3 f0 f1 -> Intact m0 m'.
Proof.
  intros In0 V' X. constructor; [exact V'| | |].
  - intros h Hh. rewrite (proj2 (proj2 (ce_next _ _ _ _ _ _ _ _ _ X h Hh))). apply (in_closed _ _ In0 h), (ce_hes _ _ _ _ _ _ _ _ _ X h), Hh.
  - rewrite (collapse_euler _ _ _ _ _ _ _ _ _ X). apply In0.
  - intros v Hv Hv'. apply (ce_verts _ _ _ _ _ _ _ _ _ X) in Hv'. destruct (in_data _ _ In0 v Hv (proj1 Hv')) as [P1 P2], (ce_data _ _ _ _ _ _ _ _ _ X v) as [P3 P4]. split; congruence.
Qed.
Definition FlipInv (m0 m : mesh) : Prop := Intact m0 m /\ m_verts m = m_verts m0.
Lemma flip_vertex (m0 m : mesh) i rep : FlipInv m0 m ->
  exists K b m', (forall k, (K <= k)%nat -> rounds k (around (obtuse_pair (N := NumR)) flipHE) i rep m = Ok (b, m')) /\ FlipInv m0 m' /\
    forall v y, nth_error (m_verts m') i = Some v -> out m' v y -> obtuse_pair (N := NumR) (Some y) m' = Ok (true, m') -> flipHE (Some y) m' = Ok (false, m').
Proof.
  intros I. set (mu := fun m : mesh => match nth_error (m_verts m0) i with Some v => deg_of m v | None => 0%nat end).
  destruct (rounds_run (around (obtuse_pair (N := NumR)) flipHE) (FlipInv m0) (fun m => forall v y, nth_error (m_verts m) i = Some v -> out m v y -> obtuse_pair (N := NumR) (Some y) m = Ok (true, m) -> flipHE (Some y) m = Ok (false, m)) mu i) with (m := m) (rep := rep) as (b & m' & R & I' & P); [|exact I|].
  - clear m I rep. intros m v (In0 & El) Ev. assert (V := in_valid _ _ In0). assert (C := in_closed _ _ In0). assert (W := valid_wf m V). assert (Iv := nth_error_In _ _ Ev).
    destruct (around_run m v (obtuse_pair (N := NumR)) flipHE (tst (obtuse_pair (N := NumR)) m) W Iv) as (b & m' & E & Tr & Fl).
    + intros y [Iy _]. exact (tst_obtuse m y V C Iy).
    + intros y [Iy _] _. destruct (flip_run m y V C Iy) as (b & m' & E & Hf & _). exists b, m'. auto.
    + exists b, m'. split; [exact E|]. split.
      * intros Hb. destruct (Tr Hb) as (y & [Iy Ey] & _ & Es). destruct (flip_run m y V C Iy) as (b2 & m2 & E2 & _ & Ht). rewrite Es in E2. assert (Q : true = b2 /\ m' = m2) by (split; congruence). destruct Q as [<- <-].
        destruct (Ht eq_refl) as (V' & u0 & u1 & u2 & u3 & f0 & f1 & S0 & X). assert (u0 = v) by congruence. subst u0. split; [split; [exact (intact_flip _ _ _ _ _ _ _ _ _ _ In0 V' X)|]|].
        -- rewrite (proj1 (fe_lists _ _ _ _ _ _ _ _ _ X)). exact El.
        -- unfold mu. rewrite <- El, Ev. rewrite (fe_deg0 _ _ _ _ _ _ _ _ _ X). lia.
      * intros Hb. destruct (Fl Hb) as [-> G]. split; [reflexivity|]. intros v' y Ev' Oy Ty. assert (v' = v) by congruence. subst v'. apply (G y Oy). unfold tst. rewrite Ty. reflexivity.
  - exists (S (mu m)), b, m'. split; [intros k Hk; apply R; lia|]. split; [exact I'|]. intros v y Ev. destruct P as [P|P]; [exact (P v y Ev)|]. apply nth_error_None in P. congruence.
Qed.
Lemma collapse_run (m : mesh) y : Valid m -> In y (m_hes m) -> exists b m', collapseHE (Some y) m = Ok (b, m') /\ (b = false -> m' = m) /\
  (b = true -> Valid m' /\ exists u0 u1 u2 u3 f0 f1, CollapseEffect m m' y u0 u1 u2 u3 f0 f1).
Proof.
  intros V Iy. destruct (collapse_top m y V Iy) as [[_ H]|(b & m' & E & V' & Hf & Ht)].
  - exfalso. apply H. intros v _. apply veqb_real. reflexivity.
  - exists b, m'. split; [exact E|]. split; [exact Hf|]. intros Hb. split; [exact V'|]. destruct (Ht Hb) as (u0 & u1 & u2 & u3 & f0 & f1 & X & _). exists u0, u1, u2, u3, f0, f1. exact X.
Qed.
Definition CollapseInv (m0 m : mesh) : Prop := Intact m0 m /\ forall v, In v (m_verts m) -> In v (m_verts m0).
Lemma collapse_vertex (m0 m : mesh) i rep : CollapseInv m0 m ->
  exists K b m', (forall k, (K <= k)%nat -> rounds k (around (sharp (N := NumR)) collapseHE) i rep m = Ok (b, m')) /\ CollapseInv m0 m' /\
    forall v y, nth_error (m_verts m') i = Some v -> out m' v y -> sharp (N := NumR) (Some y) m' = Ok (true, m') -> collapseHE (Some y) m' = Ok (false, m').
Proof.
  intros I. set (mu := fun m : mesh => length (m_verts m)).
  destruct (rounds_run (around (sharp (N := NumR)) collapseHE) (CollapseInv m0) (fun m => forall v y, nth_error (m_verts m) i = Some v -> out m v y -> sharp (N := NumR) (Some y) m = Ok (true, m) -> collapseHE (Some y) m = Ok (false, m)) mu i) with (m := m) (rep := rep) as (b & m' & R & I' & P); [|exact I|].
  - clear m I rep. intros m v (In0 & El) Ev. assert (V := in_valid _ _ In0). assert (C := in_closed _ _ In0). assert (W := valid_wf m V). assert (Iv := nth_error_In _ _ Ev).
    destruct (around_run m v (sharp (N := NumR)) collapseHE (tst (sharp (N := NumR)) m) W Iv) as (b & m' & E & Tr & Fl).
    + intros y [Iy _]. exact (tst_sharp m y V C Iy).
    + intros y [Iy _] _. destruct (collapse_run m y V Iy) as (b & m' & E & Hf & _). exists b, m'. auto.
    + exists b, m'. split; [exact E|]. split.
      * intros Hb. destruct (Tr Hb) as (y & [Iy Ey] & _ & Es). destruct (collapse_run m y V Iy) as (b2 & m2 & E2 & _ & Ht). rewrite Es in E2. assert (Q : true = b2 /\ m' = m2) by (split; congruence). destruct Q as [<- <-].
        destruct (Ht eq_refl) as (V' & u0 & u1 & u2 & u3 & f0 & f1 & X). split; [split; [exact (intact_collapse _ _ _ _ _ _ _ _ _ _ In0 V' X)|]|].
        -- intros x Hx. apply El, (ce_verts _ _ _ _ _ _ _ _ _ X x), Hx.
        -- unfold mu. rewrite (ce_nv _ _ _ _ _ _ _ _ _ X). lia.
      * intros Hb. destruct (Fl Hb) as [-> G]. split; [reflexivity|]. intros v' y Ev' Oy Ty. assert (v' = v) by congruence. subst v'. apply (G y Oy). unfold tst. rewrite Ty. reflexivity.
  - exists (S (mu m)), b, m'. split; [intros k Hk; apply R; lia|]. split; [exact I'|]. intros v y Ev. destruct P as [P|P]; [exact (P v y Ev)|]. apply nth_error_None in P. congruence.
Qed.
Lemma intact_trans (m m1 m2 : mesh) : Intact m m1 -> Intact m1 m2 -> (forall v, In v (m_verts m) -> In v (m_verts m2) -> In v (m_verts m1)) -> Intact m m2.
Proof.
  intros [V1 C1 E1 D1] [V2 C2 E2 D2] H. constructor; [exact V2|exact C2|congruence|]. intros v Hv Hv2. assert (Hv1 := H v Hv Hv2). destruct (D1 v Hv Hv1), (D2 v Hv1 Hv2). split; congruence.
Qed.
(** The three edge loops. *)
Theorem edges_repaired avgLen (m : mesh) ids : 0 < avgLen -> (forall i, In i ids -> (i < length (m_verts m))%nat) -> Valid m -> Closed m ->
  exists K b1 m1 b2 m2 b3 m3, (forall k, (K <= k)%nat -> repair_split (N := NumR) k avgLen ids false m = Ok (b1, m1) /\ repair_flip (N := NumR) k ids b1 m1 = Ok (b2, m2) /\ repair_collapse (N := NumR) k ids b2 m2 = Ok (b3, m3)) /\
    Intact m m1 /\ Intact m m2 /\ Intact m m3 /\
    (exists l, m_verts m1 = m_verts m ++ l) /\ m_verts m2 = m_verts m1 /\ (forall v, In v (m_verts m3) -> In v (m_verts m2)) /\
    (Ample m -> forall i v, In i ids -> nth_error (m_verts m) i = Some v -> ShortAt (3 / 2 * avgLen) m1 v).
Proof.
  intros L0 Hi V C. destruct (split_phase avgLen m ids false L0 Hi V C) as (K1 & b1 & m1 & R1 & I1 & X1 & A1).
  destruct (sweep_run (around (obtuse_pair (N := NumR)) flipHE) (fun _ => FlipInv m1) ids []) with (m := m1) (rep := b1) as (K2 & b2 & m2 & R2 & I2 & X2).
  { intros i dn m' rep _ I. destruct (flip_vertex m1 m' i rep I) as (K & b & m2 & R & I2 & _). exists K, b, m2. split; assumption. }
  { split; [apply intact_refl; apply I1|reflexivity]. }
  destruct (sweep_run (around (sharp (N := NumR)) collapseHE) (fun _ => CollapseInv m2) ids []) with (m := m2) (rep := b2) as (K3 & b3 & m3 & R3 & I3 & X3).
  { intros i dn m' rep _ I. destruct (collapse_vertex m2 m' i rep I) as (K & b & m4 & R & I4 & _). exists K, b, m4. split; assumption. }
  { split; [apply intact_refl; apply I2|auto]. }
  exists (Nat.max K1 (Nat.max K2 K3)), b1, m1, b2, m2, b3, m3. split; [intros k Hk; split; [apply R1; lia|split; [apply R2; lia|apply R3; lia]]|].
  assert (I12 : Intact m m2) by (apply (intact_trans m m1 m2 I1 I2); intros v _ Hv; rewrite <- X2; exact Hv).
  split; [exact I1|]. split; [exact I12|]. split; [apply (intact_trans m m2 m3 I12 I3); intros v _ Hv; exact (X3 v Hv)|]. split; [exact X1|]. split; [exact X2|]. split; [exact X3|]. intros A. apply A1, A.
Qed.

(** ** The signatures of new vertices *)
Lemma mesh_vertex_at {N : Num} (m : Heap.mesh N) i v : nth_error (m_verts m) i = Some v -> mesh_vertex (Z.of_nat i) m = Ok (Some v, m).
Proof. rewrite mesh_vertex_eq. intros ->. reflexivity. Qed.
Lemma new_signature_run {N : Num} (m : Heap.mesh N) dims t i v : WF m -> nth_error (m_verts m) i = Some v -> exists t', new_signature dims t i m = Ok (t', m) /\
  (forall a f, tfind t (Some a) = Some f -> tfind t' (Some a) = Some f) /\ (forall a, a <> v -> tfind t' (Some a) = tfind t (Some a)) /\
  (tfind t (Some v) = None -> exists ns, v_neighbors (Some v) m = Ok (ns, m) /\
     let fs := flat_map (fun u => match tfind t u with Some f => [f] | None => [] end) ns in
     tfind t' (Some v) = Some (map (fun x => ndiv x (nofZ (Z.of_nat (length fs)))) (lsum dims fs))).
Proof.
  intros W Ev. assert (Iv := nth_error_In _ _ Ev). unfold new_signature. rewrite (bind_ok _ _ _ _ _ (mesh_vertex_at m i v Ev)). destruct (tfind t (Some v)) as [f|] eqn:Et.
  - exists t. split; [reflexivity|]. split; [auto|]. split; [auto|]. discriminate.
  - destruct (vring m W v Iv) as (h & r & Eh & R). assert (En := v_neighbors_ok m W v h r Iv Eh R). rewrite (bind_ok _ _ _ _ _ En). eexists. split; [reflexivity|]. split; [|split].
    + intros a f Ea. cbn [tfind find fst]. destruct (Nat.eqb_spec v a) as [->|_]; [congruence|exact Ea].
    + intros a Na. cbn [tfind find fst]. destruct (Nat.eqb_spec v a) as [->|_]; [congruence|reflexivity].
    + intros _. eexists. split; [exact En|]. cbn [tfind find fst]. rewrite Nat.eqb_refl. reflexivity.
Qed.
Theorem new_signatures_ok {N : Num} (m : Heap.mesh N) dims t : WF m -> exists t', new_signatures dims t m = Ok (t', m) /\
  (forall v, In v (m_verts m) -> exists f, tfind t' (Some v) = Some f) /\ (forall a f, tfind t (Some a) = Some f -> tfind t' (Some a) = Some f) /\
  (forall a f, ~ In a (m_verts m) -> tfind t' (Some a) = Some f -> tfind t (Some a) = Some f).
Proof.
  intros W. unfold new_signatures. rewrite bind_get.
  assert (G : forall l t, (forall i, In i l -> (i < length (m_verts m))%nat) -> exists t', mfold (new_signature dims) t l m = Ok (t', m) /\ (forall i v, In i l -> nth_error (m_verts m) i = Some v -> exists f, tfind t' (Some v) = Some f) /\ (forall a f, tfind t (Some a) = Some f -> tfind t' (Some a) = Some f) /\ (forall a f, ~ In a (m_verts m) -> tfind t' (Some a) = Some f -> tfind t (Some a) = Some f)).
  { induction l as [|i l IH]; intros t0 Hl; [exists t0; split; [reflexivity|]; split; [intros i v []|auto]|].
    destruct (nth_error (m_verts m) i) as [v|] eqn:Ev; [|apply nth_error_None in Ev; assert (Q := Hl i (or_introl eq_refl)); lia].
    destruct (new_signature_run m dims t0 i v W Ev) as (t1 & E1 & P1 & Q1 & R1). destruct (IH t1 ltac:(intros j Hj; apply Hl; right; exact Hj)) as (t2 & E2 & A2 & P2 & Q2).
    exists t2. split; [cbn [mfold]; rewrite (bind_ok _ _ _ _ _ E1); exact E2|]. split; [|split].
    - intros j w [<-|Hj] Ew; [|exact (A2 j w Hj Ew)]. assert (w = v) by congruence. subst w. destruct (tfind t0 (Some v)) as [f|] eqn:Et; [exists f; apply P2, P1, Et|]. destruct (R1 eq_refl) as (ns & _ & En). eexists. apply P2. exact En.
    - intros a f Ea. apply P2, P1, Ea.
    - intros a f Na Ea. rewrite <- (Q1 a); [exact (Q2 a f Na Ea)|]. intros ->. apply Na. exact (nth_error_In _ _ Ev). }
  destruct (G (seq 0 (length (m_verts m))) t) as (t' & E & A & P & Q); [intros i Hi; apply in_seq in Hi; lia|]. exists t'. split; [exact E|]. split; [|auto].
  intros v Hv. apply In_nth_error in Hv. destruct Hv as (i & Hi). apply (A i v); [apply in_seq; split; [lia|]; apply nth_error_Some; congruence|exact Hi].
Qed.

(** One target: no flip or collapse is left to do there. *)
Theorem flips_done (m : mesh) i rep : Valid m -> Closed m ->
  exists K b m', (forall k, (K <= k)%nat -> repair_flip (N := NumR) k [i] rep m = Ok (b, m')) /\ Intact m m' /\ m_verts m' = m_verts m /\
    forall v y, nth_error (m_verts m') i = Some v -> In y (m_hes m') -> h_src m' y = Some v -> obtuse_pair (N := NumR) (Some y) m' = Ok (true, m') -> flipHE (Some y) m' = Ok (false, m').
Proof.
  intros V C. destruct (flip_vertex m m i rep (conj (intact_refl m V C) eq_refl)) as (K & b & m' & R & [I E] & P). exists K, b, m'. split; [|split; [exact I|split; [exact E|]]].
  - intros k Hk. unfold repair_flip, sweep. cbn [mfold]. assert (RK := R k Hk). rewrite (bind_ok _ _ _ _ _ RK). reflexivity.
  - intros v y Ev Iy Ey. exact (P v y Ev (conj Iy Ey)).
Qed.
Theorem collapses_done (m : mesh) i rep : Valid m -> Closed m ->
  exists K b m', (forall k, (K <= k)%nat -> repair_collapse (N := NumR) k [i] rep m = Ok (b, m')) /\ Intact m m' /\
    forall v y, nth_error (m_verts m') i = Some v -> In y (m_hes m') -> h_src m' y = Some v -> sharp (N := NumR) (Some y) m' = Ok (true, m') -> collapseHE (Some y) m' = Ok (false, m').
Proof.
  intros V C. destruct (collapse_vertex m m i rep (conj (intact_refl m V C) (fun v H => H))) as (K & b & m' & R & [I E] & P). exists K, b, m'. split; [|split; [exact I|]].
  - intros k Hk. unfold repair_collapse, sweep. cbn [mfold]. assert (RK := R k Hk). rewrite (bind_ok _ _ _ _ _ RK). reflexivity.
  - intros v y Ev Iy Ey. exact (P v y Ev (conj Iy Ey)).
Qed.
