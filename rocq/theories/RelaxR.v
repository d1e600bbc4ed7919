(** Regions whose normals agree: flat regions stay, domes are pushed through. *)
From Coq Require Import Reals Lra Lia List ZArith Bool Arith Permutation FunctionalExtensionality.
From Verif Require Import Num NumInst Vec Heap Mesh Spec Orbit Rings Exec Diamond Queries GeomSpec VecR Measure MeasureR MeasureM SmoothSpec FilterSpec SmoothD SmoothF Smooth Curv CurvN LaplSpec Lapl LaplP LaplM CotPsd LinR Tensor TensorSpec TensorR TensorM Feat FeatSpec FeatR FeatM FeatS FeatO LapGrad Relax RelaxSpec RelaxA RelaxP RelaxQ ReadOnly.
Import ListNotations.
Local Open Scope mesh_scope.
Local Open Scope R_scope.
Implicit Types m : mesh NumR.
Local Notation vsum := CurvN.vsum.

Lemma unit_dir (a b : vecR) (s k : R) : vlength a = 1 -> vlength b = 1 -> 0 < s -> 0 < k -> vscale s a = vscale k b -> a = b.
Proof.
  intros Ua Ub Ps Pk E. assert (L := f_equal vlength E). rewrite !vlength_scale, Ua, Ub, !Rabs_right in L by lra. assert (s = k) by lra. subst k.
  rewrite <- (vscale_one a), <- (vscale_one b). replace 1 with (/ s * s) by (field; lra). rewrite <- !vscale_mul, E. reflexivity.
Qed.
Lemma normalize_scaled (n : vecR) (k : R) : vlength n = 1 -> 0 < k -> normalize (vscale k n) = Some n.
Proof.
  intros U P. assert (L : vlength (vscale k n) = k) by (rewrite vlength_scale, U, Rabs_right by lra; lra).
  assert (NZ : vscale k n <> vzero) by (intros Z; assert (Q := proj2 (vlength_zero _) Z); lra).
  destruct (normalize_unit _ NZ) as (u & E & Lu & Su). rewrite L in Su. rewrite (unit_dir u n k k Lu U P P Su) in E. exact E.
Qed.
Lemma vsum_multiple {A} (F : A -> R) (n : vecR) l : vsum (map (fun y => vscale (F y) n) l) = vscale (rsum (map F l)) n.
Proof. induction l as [|x l IH]; cbn [map]; [cbn [CurvN.vsum fold_right]; symmetry; generalize n; clear; intros n; change (rsum []) with 0; vring|]. rewrite vsum_cons, rsum_cons, IH. generalize (F x) (rsum (map F l)). clear. vring. Qed.

Lemma dot_vsub (a b c : vecR) : dot (vsub a b) c = dot a c - dot b c. Proof. rewrite !dot_eq. destruct a as [a0 a1 a2], b as [b0 b1 b2], c as [c0 c1 c2]. unfold vsub, vadd, vneg. rn. cbn [vx vy vz]. rg. Qed.
Lemma vs0 (w : R) (n : vecR) : vscale w vzero = vscale 0 n. Proof. vring. Qed.
Lemma half_mix (s t h : R) (n : vecR) : vadd (vscale h n) (vscale s (vscale h (vscale t n))) = vscale (h + h * (t * s)) n. Proof. vring. Qed.
Lemma mean8 (n : vecR) : forall a b c : bool, vadd (vadd (if a then n else vzero) (if b then n else vzero)) (if c then n else vzero) = vscale ((if a then 1 else 0) + (if b then 1 else 0) + (if c then 1 else 0)) n.
Proof. intros [] [] []; vring. Qed.

Section R.
Variable m : mesh NumR.
Hypothesis V : Valid m.
Hypothesis Cl : Closed m.
Hypothesis ND : NonDegenerate m.
Variable l : list nat.
Hypothesis Rg : Region m l.
Let W := valid_wf m V.
Let Iv := rg_in m l Rg.

Lemma ring_perm v h r : Vring m v (h :: r) -> Permutation (h :: r) (at_v m v).
Proof. intros (_ & N1 & Hin). apply NoDup_Permutation; [exact N1|apply NoDup_filter, (wf_h_nodup m W)|]. intros q. rewrite Hin. symmetry. apply at_v_in. Qed.
Lemma normal_unit v n : In v (m_verts m) -> v_normal (Some v) m = Ok (n, m) -> vlength n = 1.
Proof.
  intros Hv E. destruct (normal_ok m v V (closed_inner m v Cl) (nd_at m v ND) Hv) as (L & _ & _ & _ & H0 & H1). destruct (Req_dec (vlength (vsum (map snd L))) 0) as [Z|Z].
  - apply vlength_zero in Z. rewrite (H0 Z) in E. discriminate.
  - destruct H1 as (n' & E' & U & _); [intros Q; apply Z, vlength_zero, Q|]. rewrite E' in E. injection E as ->. exact U.
Qed.
Lemma weights v : In v l -> GoodWeights m l -> (forall y, In y (at_v m v) -> 0 <= w_cot m y) /\ 0 < rsum (map (w_cot m) (at_v m v)).
Proof.
  intros Hv G. destruct (G v Hv) as [G1 (h & w & m' & Ih & Sh & Ew & Pw)].
  assert (K : forall y, In y (at_v m v) -> 0 <= w_cot m y) by (intros y Hy; apply at_v_in in Hy; apply (G1 y (w_cot m y) m (proj1 Hy) (proj2 Hy)), (cot_ok m W y (proj1 Hy))).
  split; [exact K|]. assert (Ih' : In h (at_v m v)) by (apply at_v_in; auto). rewrite (cot_ok m W h Ih) in Ew. injection Ew as <- <-.
  apply in_split in Ih'. destruct Ih' as (l1 & l2 & E). rewrite E in *. rewrite map_app, rsum_app. cbn [map]. rewrite rsum_cons.
  assert (K1 : 0 <= rsum (map (w_cot m) l1)). { apply rsum_pos. intros x Hx. apply in_map_iff in Hx. destruct Hx as (y & <- & Hy). apply K, in_or_app. left. exact Hy. }
  assert (K2 : 0 <= rsum (map (w_cot m) l2)). { apply rsum_pos. intros x Hx. apply in_map_iff in Hx. destruct Hx as (y & <- & Hy). apply K, in_or_app. right. right. exact Hy. }
  assert (K3 : 0 < w_cot m h) by exact Pw. lra.
Qed.
(** ** Normals that agree *)
Section Steady.
Variable n : vecR.
Hypothesis Hn : forall v, In v l -> v_normal (Some v) m = Ok (n, m).
Hypothesis U : vlength n = 1.
Hypothesis G : GoodWeights m l.
Definition T0 (u : nat) : vecR := if in_dec Nat.eq_dec u l then n else vzero.
Lemma first_steady : first_normals (N := NumR) l m = Ok (T0, m).
Proof.
  unfold first_normals. assert (K : forall k T, (forall v, In v k -> v_normal (Some v) m = Ok (n, m)) -> mfold (fun T v => q <- v_normal (N := NumR) (Some v) ;; ret (fset (N := NumR) T v q)) T k m = Ok (fold_left (fun T v => fset (N := NumR) T v n) k T, m)).
  { induction k as [|v k IH]; intros T Hk; cbn [mfold fold_left]; [reflexivity|]. unfold bind at 1. rewrite (bind_ok _ _ _ _ _ (Hk v (or_introl eq_refl))). unfold ret. apply IH. intros u Hu. apply Hk. right. exact Hu. }
  etransitivity; [exact (K l _ Hn)|]. f_equal. f_equal. apply functional_extensionality. intros u. rewrite (fold_set (fun _ => n)). reflexivity.
Qed.
Lemma smooth_steady v : In v l -> smooth_normal (N := NumR) T0 v m = Ok (T0, m).
Proof.
  intros Hv. destruct (vring m W v (Iv v Hv)) as (h & r & Eh & Hr). unfold smooth_normal. rewrite (bind_ok _ _ _ _ _ (smooth_reads m V T0 v h r (Iv v Hv) Eh Hr)).
  set (F := fun y => if inside l (dst_of m y) then w_cot m y else 0). assert (Hp := ring_perm v h r Hr). destruct (weights v Hv G) as [K1 K2].
  assert (E : ring_sum m T0 (h :: r) = vscale (rsum (map F (h :: r))) n).
  { unfold ring_sum. rewrite <- vsum_multiple. apply vsum_ext. intros y Hy. assert (Hy' := Permutation_in y Hp Hy). apply at_v_in in Hy'. destruct (dst_some m W y (proj1 Hy')) as (d & Ed & _). unfold F. rewrite Ed. unfold fget, T0.
    destruct (in_dec Nat.eq_dec d l) as [I|I]; [rewrite (proj2 (inside_iff l d) I); reflexivity|]. destruct (inside l (Some d)) eqn:Q; [apply inside_iff in Q; contradiction|]. apply vs0. }
  assert (S1 : 0 < rsum (map (w_cot m) (h :: r))) by (rewrite (rsum_perm _ _ (Permutation_map _ Hp)); exact K2).
  assert (S2 : 0 <= rsum (map F (h :: r))). { apply rsum_pos. intros x Hx. apply in_map_iff in Hx. destruct Hx as (y & <- & Hy). unfold F. destruct (inside l (dst_of m y)); [|lra]. apply K1, (Permutation_in y Hp Hy). }
  cbn [fst snd]. rewrite E. set (s := rsum (map (w_cot m) (h :: r))) in *. set (t := rsum (map F (h :: r))) in *.
  unfold bind at 1. unfold lift. rewrite vdiv_ok by (change (@num NumR) with R in *; lra). unfold ret at 1. unfold bind at 1.
  assert (Q : T0 v = n) by (unfold T0; destruct (in_dec Nat.eq_dec v l); [reflexivity|contradiction]). rewrite Q.
  assert (X : vadd (vscale (@nhalf NumR) n) (vscale (/ s) (vscale (@nhalf NumR) (vscale t n))) = vscale (/ 2 + / 2 * (t * / s)) n) by (change (@nhalf NumR) with (/ 2); apply half_mix).
  rewrite X. rewrite (normalize_scaled n _ U). 2:{ assert (0 <= t * / s) by (apply Rmult_le_pos; [exact S2|apply Rlt_le, Rinv_0_lt_compat, S1]). lra. }
  unfold ret. do 2 f_equal. apply functional_extensionality. intros u. rewrite fset_at. destruct (Nat.eqb_spec u v) as [->|]; [symmetry; exact Q|reflexivity].
Qed.
Lemma normals_steady : new_normals (N := NumR) l m = Ok (T0, m).
Proof.
  unfold new_normals. rewrite (bind_ok _ _ _ _ _ first_steady). generalize 1000%nat. intros k. induction k as [|k IH]; cbn [smooth_normals]; [reflexivity|].
  assert (E : forall q, (forall v, In v q -> In v l) -> mfold (smooth_normal (N := NumR)) T0 q m = Ok (T0, m)).
  { induction q as [|v q IHq]; intros Hq; cbn [mfold]; [reflexivity|]. rewrite (bind_ok _ _ _ _ _ (smooth_steady v (Hq v (or_introl eq_refl)))). apply IHq. intros u Hu. apply Hq. right. exact Hu. }
  rewrite (bind_ok _ _ _ _ _ (E l (fun v H => H))). exact IH.
Qed.
Definition ins (u : nat) : R := if in_dec Nat.eq_dec u l then 1 else 0.
Lemma mean_steady a b c : vadd (vadd (T0 a) (T0 b)) (T0 c) = vscale (ins a + ins b + ins c) n.
Proof. unfold T0, ins. destruct (in_dec Nat.eq_dec a l), (in_dec Nat.eq_dec b l), (in_dec Nat.eq_dec c l); [apply (mean8 n true true true)|apply (mean8 n true true false)|apply (mean8 n true false true)|apply (mean8 n true false false)|apply (mean8 n false true true)|apply (mean8 n false true false)|apply (mean8 n false false true)|apply (mean8 n false false false)]. Qed.
Lemma touch_corner f a b c : Touches m l f -> Spec.Tri m f a b c -> In a l \/ In b l \/ In c l.
Proof.
  intros (h & v & Ih & Fh & Sh & Hv) (x & y & z & Hin & _ & _ & _ & S1 & S2 & S3). destruct (proj1 (Hin h) (conj Ih Fh)) as [-> | [-> | ->]]; [left|right; left|right; right]; congruence.
Qed.
Lemma ins_pos a b c : In a l \/ In b l \/ In c l -> 0 < ins a + ins b + ins c.
Proof. unfold ins. intros H. destruct (in_dec Nat.eq_dec a l), (in_dec Nat.eq_dec b l), (in_dec Nat.eq_dec c l); try lra. exfalso. tauto. Qed.
Lemma means_steady : Means m l False T0.
Proof.
  right. intros f a b c Tf T. rewrite mean_steady. assert (P := ins_pos a b c (touch_corner f a b c Tf T)). intros Z. assert (Q := proj2 (vlength_zero _) Z). rewrite vlength_scale, U, Rabs_right in Q by lra. lra.
Qed.
Lemma mean_is a b c n1 : In a l -> Mean3 (T0 a) (T0 b) (T0 c) n1 -> n1 = n.
Proof. intros Ia (U1 & s & Ps & E). rewrite mean_steady in E. apply (unit_dir n1 n s (ins a + ins b + ins c)); auto. apply ins_pos. auto. Qed.
End Steady.

(** ** The pull as a sum over the half-edges *)
Lemma pull_sum T v g (E : nat -> vecR) : In v l -> Pull m T v g ->
  (forall y f b c n0 n1 e, In y (at_v m v) -> In f (m_faces m) -> Spec.Tri m f v b c -> dst_of m y = Some b -> prev_src m y = Some c ->
    Normal (v_pos m v) (v_pos m b) (v_pos m c) n0 -> Mean3 (T v) (T b) (T c) n1 -> AwayFrom (v_pos m v) (v_pos m b) (v_pos m c) e -> turned n0 n1 e = E y) ->
  vscale (INR (length (at_v m v))) g = vsum (map E (at_v m v)).
Proof.
  intros Hv (L & NL & HL & HT & HG) HE.
  destruct (faces_at (fun y => y) m v V (closed_inner m v Cl)) as (F1 & F2 & _). rewrite map_map in F1, F2. cbn [fst] in F1, F2.
  assert (Pm : Permutation (map fst L) (map (face_of m) (at_v m v))) by (apply NoDup_Permutation; [exact NL|exact F1|intros f; rewrite HL, F2; tauto]).
  set (X := fun f => match find (fun p : nat * vecR => Nat.eqb (fst p) f) L with Some p => snd p | None => vzero end).
  assert (HX : forall f x, In (f, x) L -> X f = x).
  { intros f x Hx. unfold X. destruct (find (fun p => Nat.eqb (fst p) f) L) as [[f' x']|] eqn:Q.
    - apply find_some in Q. destruct Q as [I Q]. apply Nat.eqb_eq in Q. cbn [fst] in Q. subst f'. cbn [snd]. clear - NL I Hx. induction L as [|[g z] L IH]; [destruct I|]. cbn [map fst] in NL. inversion NL as [|? ? Ng N']; subst.
      destruct I as [I|I], Hx as [Hx|Hx]; [congruence|injection I as -> ->; exfalso; apply Ng, (in_map fst L (f, x)), Hx|injection Hx as -> ->; exfalso; apply Ng, (in_map fst L (f, x')), I|exact (IH N' Hx I)].
    - exfalso. assert (Q' := find_none _ _ Q _ Hx). cbn [fst] in Q'. rewrite Nat.eqb_refl in Q'. discriminate. }
  assert (LL : length L = length (at_v m v)) by (assert (Q := Permutation_length Pm); rewrite !map_length in Q; exact Q). rewrite <- LL, HG.
  transitivity (vsum (map X (map fst L))).
  { rewrite map_map. apply vsum_ext. intros [f x] Hx. cbn [fst snd]. symmetry. apply HX, Hx. }
  rewrite (vsum_perm _ _ (Permutation_map X Pm)), map_map. apply vsum_ext. intros y Hy.
  destruct (tri_at m V Cl v y Hy) as (f & b & c & If & Fy & Tf & _ & _ & _ & Db & Pc & _). rewrite Fy.
  assert (I : In f (map fst L)) by (apply HL; split; [exact If|exists b, c; exact Tf]). apply in_map_iff in I. destruct I as ((f' & x) & Q & I). cbn [fst] in Q. subst f'. rewrite (HX f x I).
  destruct (HT f x b c I Tf) as (n0 & n1 & e & H0 & H1 & H2 & ->). apply (HE y f b c n0 n1 e); assumption.
Qed.
(** The Poisson equation at a vertex. *)
Lemma poisson_vec b x v : Poisson m l b x -> In v l -> vsum (map (fun y => vscale (w_cot m y) (vsub (x v) (match dst_of m y with Some d => x d | None => vzero end))) (at_v m v)) = b v.
Proof.
  intros (ts & E & _ & H) Hv. rewrite (lap_is m V) in E. injection E as <-. destruct (vat_of m v (Iv v Hv)) as (i & Hi & Ev). destruct (H i v) as (X & Y & Z); [rewrite Ev; apply vat_nth, Hi|exact Hv|].
  destruct linear_coord as (Lx & Ly & Lz).
  assert (K : forall c, linear c -> sum_to (length (m_verts m)) (fun j => entryR (lmat m (w_cot m)) i j * c (x (nth j (m_verts m) 0%nat))) = c (b v) ->
    c (vsum (map (fun y => vscale (w_cot m y) (vsub (x v) (match dst_of m y with Some d => x d | None => vzero end))) (at_v m v))) = c (b v)).
  { intros c Hc Q. rewrite <- Q. rewrite Ev. rewrite <- (row_apply m (w_cot m) x c i W Hc Hi). apply sum_to_ext. intros j Hj. rewrite (nth_error_nth _ _ _ (vat_nth m j Hj)). reflexivity. }
  assert (Kx := K vx Lx X). assert (Ky := K vy Ly Y). assert (Kz := K vz Lz Z). revert Kx Ky Kz. generalize (vsum (map (fun y => vscale (w_cot m y) (vsub (x v) (match dst_of m y with Some d => x d | None => vzero end))) (at_v m v))).
  clear. intros a. destruct a, (b v). cbn. intros -> -> ->. reflexivity.
Qed.
Lemma vec_poisson b x : (forall v, In v (m_verts m) -> ~ In v l -> x v = v_pos m v) ->
  (forall v, In v l -> vsum (map (fun y => vscale (w_cot m y) (vsub (x v) (match dst_of m y with Some d => x d | None => vzero end))) (at_v m v)) = b v) -> Poisson m l b x.
Proof.
  intros H0 H1. exists (lmat m (w_cot m)). split; [apply (lap_is m V)|]. split; [exact H0|]. intros i v Ei Hv. assert (Hi : (i < length (m_verts m))%nat) by (apply nth_error_Some; congruence).
  assert (Ev : v = vat m i) by (rewrite (vat_nth m i Hi) in Ei; congruence). destruct linear_coord as (Lx & Ly & Lz).
  assert (K : forall c, linear c -> sum_to (length (m_verts m)) (fun j => entryR (lmat m (w_cot m)) i j * c (x (nth j (m_verts m) 0%nat))) = c (b v)).
  { intros c Hc. rewrite <- (H1 v Hv). rewrite Ev. rewrite <- (row_apply m (w_cot m) x c i W Hc Hi). apply sum_to_ext. intros j Hj. rewrite (nth_error_nth _ _ _ (vat_nth m j Hj)). reflexivity. }
  split; [exact (K vx Lx)|]. split; [exact (K vy Ly)|exact (K vz Lz)].
Qed.
Lemma at_nonempty v : In v (m_verts m) -> exists y, In y (at_v m v).
Proof. intros Hv. destruct (vring m W v Hv) as (h & r & Eh & Hr). exists h. apply (Permutation_in h (ring_perm v h r Hr)). left. reflexivity. Qed.
Lemma at_count v : In v (m_verts m) -> 0 < INR (length (at_v m v)).
Proof. intros Hv. destruct (at_nonempty v Hv) as (y & Hy). apply lt_0_INR. destruct (at_v m v); [destruct Hy|cbn; lia]. Qed.
(** ** Without turns the pull is the Laplacian of the positions, with the opposite sign, divided by the number of neighbours *)
Lemma normal_same v y b c n0 : dst_of m y = Some b -> prev_src m y = Some c -> Normal (v_pos m v) (v_pos m b) (v_pos m c) n0 -> unit_n m v y = n0.
Proof.
  intros Db Pc (U & s & Ps & E). unfold unit_n. rewrite Db, Pc. cbn [SmoothD.pos_at]. cbv zeta. rewrite <- E, vlength_scale, U, (Rabs_right s) by lra. rewrite vscale_mul. replace (/ (s * 1) * s) with 1 by (field; lra). apply vscale_one.
Qed.
Lemma pull_same T v g : In v l -> NotTiny m l -> Pull m T v g ->
  (forall f b c n0 n1, In f (m_faces m) -> Spec.Tri m f v b c -> Normal (v_pos m v) (v_pos m b) (v_pos m c) n0 -> Mean3 (T v) (T b) (T c) n1 -> n1 = n0) ->
  vscale (INR (length (at_v m v))) g = vscale (-1) (lapp m v).
Proof.
  intros Hv Bg Hg Hs. rewrite (lapp_big m V Cl v) by (intros f b c; apply (Bg f v b c Hv)).
  rewrite (pull_sum T v g (fun y => vscale (- / 2) (cross (unit_n m v y) (vsub (SmoothD.pos_at m (prev_src m y)) (SmoothD.pos_at m (dst_of m y))))) Hv Hg).
  - rewrite (vsum_lin (vscale (-1))), map_map; [|intros a b; clear; vring|clear; vring]. apply vsum_ext. intros y Hy. rewrite vscale_mul. f_equal. lra.
  - intros y f b c n0 n1 e Hy If Tf Db Pc H0 H1 H2. rewrite (Hs f b c n0 n1 If Tf H0 H1). destruct H0 as [U0 S0]. rewrite turned_same by exact U0.
    rewrite (away_formula _ _ _ _ _ H2 (conj U0 S0)). rewrite (normal_same v y b c n0 Db Pc (conj U0 S0)), Db, Pc. reflexivity.
Qed.
(** ** Flat regions *)
Lemma flat_normal n v : Flat m l n -> In v l -> v_normal (Some v) m = Ok (n, m) /\ vlength n = 1.
Proof.
  intros F Hv. destruct (normal_ok m v V (closed_inner m v Cl) (nd_at m v ND) (Iv v Hv)) as (L & NL & HL & HT & _ & H1).
  destruct (at_nonempty v (Iv v Hv)) as (y & Hy). destruct (tri_at m V Cl v y Hy) as (f0 & b0 & c0 & If0 & _ & T0' & _). destruct (F f0 v b0 c0 Hv If0 T0') as (U & _).
  assert (K : exists k, 0 < k /\ vsum (map snd L) = vscale k n).
  { assert (NE : L <> []) by (intros Z; assert (Q : In f0 (map fst L)) by (apply HL; split; [exact If0|exists b0, c0; exact T0']); rewrite Z in Q; destruct Q).
    assert (Each : forall f w, In (f, w) L -> exists k, 0 < k /\ w = vscale k n).
    { intros f w I. assert (If : In f (map fst L)) by exact (in_map fst L (f, w) I). apply HL in If. destruct If as (If & b & c & Tf). rewrite (HT f w b c I Tf). cbv zeta. destruct (F f v b c Hv If Tf) as (_ & s & Ps & E). rewrite <- E.
      destruct (nd_lengths _ _ _ (ND f v b c If Tf)) as [P1 P2]. exists (/ (dot (vsub (v_pos m b) (v_pos m v)) (vsub (v_pos m b) (v_pos m v)) * dot (vsub (v_pos m c) (v_pos m v)) (vsub (v_pos m c) (v_pos m v))) * s).
      split; [apply Rmult_lt_0_compat; [apply Rinv_0_lt_compat, Rmult_lt_0_compat; assumption|exact Ps]|apply vscale_mul]. }
    clear - NE Each. induction L as [|[f w] L IH]; [contradiction|]. destruct (Each f w (or_introl eq_refl)) as (k & Pk & ->). destruct L as [|p L].
    - exists k. split; [exact Pk|]. cbn [map snd CurvN.vsum fold_right]. apply vadd_zero.
    - destruct IH as (k' & Pk' & E); [discriminate|intros g z I; apply (Each g z); right; exact I|]. exists (k + k'). split; [lra|]. change (vsum (map snd ((f, vscale k n) :: p :: L))) with (vadd (vscale k n) (vsum (map snd (p :: L)))). rewrite E. symmetry. apply vscale_adds. }
  destruct K as (k & Pk & Ek). assert (Lk : vlength (vsum (map snd L)) = k) by (rewrite Ek, vlength_scale, U, Rabs_right by lra; lra).
  destruct H1 as (n' & E & U' & S'); [intros Z; assert (Q := proj2 (vlength_zero _) Z); lra|]. rewrite Lk, Ek in S'. rewrite (unit_dir n' n k k U' U Pk Pk S') in E. auto.
Qed.
Lemma flat_lapp n v : Flat m l n -> NotTiny m l -> In v l -> lapp m v = vzero.
Proof.
  intros F Bg Hv. rewrite (lapp_big m V Cl v) by (intros f b c; apply (Bg f v b c Hv)).
  rewrite (vsum_ext _ (fun y => vscale (/ 2) (cross n (vsub (SmoothD.pos_at m (prev_src m y)) (SmoothD.pos_at m (dst_of m y)))))).
  2:{ intros y Hy. destruct (tri_at m V Cl v y Hy) as (f & b & c & If & _ & Tf & _ & _ & _ & Db & Pc & _). rewrite (normal_same v y b c n Db Pc (F f v b c Hv If Tf)). reflexivity. }
  rewrite <- (map_map (fun y => vsub (SmoothD.pos_at m (prev_src m y)) (SmoothD.pos_at m (dst_of m y))) (fun d => vscale (/ 2) (cross n d))).
  rewrite <- (vsum_lin (fun d => vscale (/ 2) (cross n d))); [|intros a b; clear; vring|clear; vring]. rewrite vsum_sub, (ring_shift m V Cl v), vsub_self. clear. vring.
Qed.
Variable sparse : nat -> (nat -> nat -> R) -> (nat -> R) -> nat -> R.
Hypothesis HS : ExactSolver sparse.
Theorem flat_stays n : l <> [] -> Flat m l n -> NotTiny m l -> GoodWeights m l -> exists x, relaxed (N := NumR) cos sin sparse l m = Ok (x, m) /\ forall v, In v l -> x v = v_pos m v.
Proof.
  intros NE F Bg G.
  assert (U : vlength n = 1) by (destruct l as [|v k] eqn:El; [contradiction|]; rewrite <- El in *; apply (flat_normal n v F); rewrite El; left; reflexivity).
  assert (Hn : forall v, In v l -> v_normal (Some v) m = Ok (n, m)) by (intros v Hv; apply (flat_normal n v F Hv)).
  destruct (relaxed_from m V Cl ND l Rg sparse HS _ (normals_steady n Hn U G) (means_steady n U)) as (x & E & b & Hb & Hx). exists x. split; [exact E|].
  assert (B0 : forall v, In v l -> b v = vzero).
  { intros v Hv. assert (Q : vscale (INR (length (at_v m v))) (b v) = vscale (-1) (lapp m v)).
    { apply (pull_same (T0 n) v (b v) Hv Bg (Hb v Hv)). intros f b' c n0 n1 If Tf (U0 & s0 & P0 & E0) M1. rewrite (mean_is n U v b' c n1 Hv M1). destruct (F f v b' c Hv If Tf) as (_ & s1 & P1 & E1). apply (unit_dir n n0 s1 s0); auto. congruence. }
    rewrite (flat_lapp n v F Bg Hv) in Q. assert (P := at_count v (Iv v Hv)). rewrite <- (vscale_one (b v)). replace 1 with (/ INR (length (at_v m v)) * INR (length (at_v m v))) by (field; lra). rewrite <- vscale_mul, Q. generalize (/ INR (length (at_v m v))). clear. intros k. vring. }
  assert (HP : Poisson m l b (v_pos m)). { apply vec_poisson; [reflexivity|]. intros v Hv. rewrite (B0 v Hv). etransitivity; [|exact (flat_lapp n v F Bg Hv)]. reflexivity. }
  intros v Hv. assert (Q := poisson_unique m V Cl ND l Rg b _ _ Hx HP v (Iv v Hv)). cbv beta in Q. destruct (in_dec Nat.eq_dec v l); [exact Q|contradiction].
Qed.
(** The pull when nothing is turned, for the whole relaxation. *)
Theorem rest_equation x T b : NotTiny m l -> (forall v, In v l -> Pull m T v (b v)) -> Poisson m l b x ->
  (forall f v b c n0 n1, In v l -> In f (m_faces m) -> Spec.Tri m f v b c -> Normal (v_pos m v) (v_pos m b) (v_pos m c) n0 -> Mean3 (T v) (T b) (T c) n1 -> n1 = n0) ->
  (forall v, In v l -> x v = v_pos m v) <-> (forall v, In v l -> lapp m v = vzero).
Proof.
  intros Bg Hb Hx Hs. assert (K : forall v, In v l -> vscale (INR (length (at_v m v))) (b v) = vscale (-1) (lapp m v)).
  { intros v Hv. apply (pull_same T v (b v) Hv Bg (Hb v Hv)). intros f b' c n0 n1. apply (Hs f v b' c n0 n1 Hv). }
  assert (B0 : forall v, In v l -> (b v = vzero <-> lapp m v = vzero)).
  { intros v Hv. assert (Q := K v Hv). assert (P := at_count v (Iv v Hv)). split; intros Z; rewrite Z in Q; apply vlength_zero; assert (Q' := f_equal vlength Q); rewrite !vlength_scale, (proj2 (vlength_zero vzero) eq_refl) in Q'.
    - rewrite (Rabs_left (-1)) in Q' by lra. rewrite Rmult_0_r in Q'. lra.
    - rewrite Rabs_right in Q' by lra. rewrite Rmult_0_r in Q'. apply Rmult_integral in Q'. destruct Q'; [lra|assumption]. }
  assert (X : forall v, In v (m_verts m) -> ~ In v l -> x v = v_pos m v) by (destruct Hx as (_ & _ & X & _); exact X).
  split; intros H v Hv.
  - assert (Q := poisson_vec b x v Hx Hv). assert (A : forall u, In u (m_verts m) -> x u = v_pos m u) by (intros u Hu; destruct (in_dec Nat.eq_dec u l) as [I|I]; [apply H, I|apply X; assumption]).
    assert (Q2 : lapp m v = b v).
    { rewrite <- Q. unfold lapp. apply vsum_ext. intros y Hy. apply at_v_in in Hy. destruct (dst_some m W y (proj1 Hy)) as (d & Ed & Id). rewrite Ed. cbn [SmoothD.pos_at]. rewrite (A v (Iv v Hv)), (A d Id). reflexivity. }
    assert (Q3 := K v Hv). rewrite <- Q2 in Q3. assert (P := at_count v (Iv v Hv)). apply vlength_zero. assert (Q4 : vscale (INR (length (at_v m v)) + 1) (lapp m v) = vzero).
    { rewrite vscale_adds, vscale_one, Q3. generalize (lapp m v). clear. intros a. vring. }
    apply vlength_zero in Q4. rewrite vlength_scale, Rabs_right in Q4 by lra. apply Rmult_integral in Q4. destruct Q4; [lra|assumption].
  - assert (HP : Poisson m l b (v_pos m)). { apply vec_poisson; [reflexivity|]. intros u Hu. rewrite (proj2 (B0 u Hu) (H u Hu)). etransitivity; [|exact (H u Hu)]. reflexivity. }
    exact (poisson_unique m V Cl ND l Rg b _ _ Hx HP v (Iv v Hv)).
Qed.
End R.
(** ** Domes *)
Theorem dome_through m v n k sparse : Valid m -> Closed m -> NonDegenerate m -> Region m [v] -> GoodWeights m [v] -> Dome m v n k -> ExactSolver sparse ->
  exists x, relaxed (N := NumR) cos sin sparse [v] m = Ok (x, m) /\ dot (x v) n < k.
Proof.
  intros V Cl ND Rg G (En & Hk & Hv & Hi) HS. assert (W := valid_wf m V). assert (Iv := rg_in m [v] Rg v (or_introl eq_refl)). assert (I1 : In v [v]) by (left; reflexivity).
  assert (U := normal_unit m V Cl ND v n Iv En).
  assert (Hn : forall u, In u [v] -> v_normal (Some u) m = Ok (n, m)) by (intros u [<-|[]]; exact En).
  destruct (relaxed_from m V Cl ND [v] Rg sparse HS _ (normals_steady m V [v] Rg n Hn U G) (means_steady m [v] n U)) as (x & E & b & Hb & Hx). exists x. split; [exact E|].
  assert (Gn : dot (b v) n < 0).
  { destruct (Hb v I1) as (L & NL & HL & HT & HG). assert (Each : forall f q, In (f, q) L -> dot q n < 0).
    { intros f q I. assert (If := in_map fst L (f, q) I). apply HL in If. destruct If as (If & b' & c & Tf). destruct (HT f q b' c I Tf) as (n0 & n1 & e & H0 & H1 & H2 & ->). rewrite (mean_is [v] n U v b' c n1 I1 H1).
      assert (Ee := away_formula _ _ _ _ _ H2 H0). assert (Pc := Hi f b' c n0 If Tf H0). destruct H0 as (U0 & s & Ps & Es).
      assert (Oe : dot e n0 = 0) by (rewrite Ee, dot_scale, cross_orth1; lra).
      assert (TL := turned_lean n0 n e U0 U Oe). cbv zeta in TL. rewrite TL.
      assert (Ab : adj m v b' /\ adj m v c).
      { destruct Tf as (t0 & t1 & t2 & Hin & E0 & E1 & E2 & S0 & S1 & S2). assert (J0 := proj2 (Hin t0) (or_introl eq_refl)). assert (J2 := proj2 (Hin t2) (or_intror (or_intror eq_refl))). split.
        - exists t0. split; [apply J0|]. split; [exact S0|]. rewrite (dst_next m t0 t1 W (proj1 J0) E0). exact S1.
        - destruct (revm_ok m W t2 (proj1 J2)) as (Er & Ir & _ & R1 & R2). exists (revm m t2). split; [exact Ir|]. assert (D2 := dst_next m t2 t0 W (proj1 J2) E2). split; congruence. }
      assert (Kb := Hk b' (proj1 Ab)). assert (Kc := Hk c (proj2 Ab)).
      assert (Ne : dot e n < 0).
      { destruct H2 as (t & D & Nq & Eq). cbv zeta in *. set (q := vadd (v_pos m b') (vscale t (vsub (v_pos m c) (v_pos m b')))) in *.
        assert (Kq : dot q n = k) by (unfold q; rewrite dot_add, dot_scale, dot_vsub, Kb, Kc; lra). assert (Q := f_equal (fun z => dot z n) Eq). cbv beta in Q. rewrite !dot_scale, dot_vsub, Kq in Q.
        assert (Pl : 0 < vlength (vsub (v_pos m v) q)). { destruct (vlength_pos (vsub (v_pos m v) q)) as [P|P]; [exact P|]. exfalso. apply Nq, vsub_zero_eq, vlength_zero. symmetry. exact P. }
        assert (Pd : 0 < vlength (vsub (v_pos m c) (v_pos m b'))). { destruct (vlength_pos (vsub (v_pos m c) (v_pos m b'))) as [P|P]; [exact P|]. exfalso. symmetry in P. apply vlength_zero, vsub_zero_eq in P. rewrite P in Es. assert (Z : vscale s n0 = vzero) by (rewrite Es; generalize (vsub (v_pos m b') (v_pos m v)); clear; intros z; vring). apply vlength_zero in Z. rewrite vlength_scale, U0, Rabs_right in Z; lra. }
        change (@num NumR) with R in *. set (A := vlength (vsub (v_pos m v) q)) in *. set (B := vlength (vsub (v_pos m c) (v_pos m b'))) in *. generalize dependent (dot e n). intros z. intros.
        assert (0 < B * (dot (v_pos m v) n - k)) by (apply Rmult_lt_0_compat; lra). assert (A * z < 0) by lra. destruct (Rlt_dec z 0) as [Hz|Hz]; [exact Hz|]. assert (0 <= A * z) by (apply Rmult_le_pos; lra). lra. }
      set (c0 := dot n0 n) in *. set (s0 := vlength (cross n0 n)) in *. assert (Ps0 : 0 <= s0) by apply vlength_pos.
      assert (E1 : s0 * s0 + c0 * c0 = 1). { unfold s0, c0. rewrite vlength_sq, cross_lagrange, <- !vlength_sq, U0, U. lra. }
      assert (C1 : c0 < 1).
      { assert (c0 <= 1) by nra. destruct (Req_dec c0 1) as [Z|Z]; [|lra]. exfalso. assert (s0 = 0) by nra. apply vlength_zero in H0. assert (Q := cross_zero_par n0 n U0 H0). fold c0 in Q. rewrite Z, vscale_one in Q.
        assert (X := f_equal (fun z => dot z (vsub (v_pos m b') (v_pos m v))) Es). cbv beta in X. rewrite cross_orth1, dot_scale, <- Q, dot_sym, dot_vsub, Kb in X. change (@num NumR) with R in *. assert (0 < s * (dot (v_pos m v) n - k)) by (apply Rmult_lt_0_compat; lra). lra. }
      assert (Ph : 0 < (1 - c0) * (c0 * c0) + c0 * (1 - s0)).
      { assert (0 < (1 - c0) * (c0 * c0)) by (apply Rmult_lt_0_compat; [lra|apply Rmult_lt_0_compat; lra]). assert (s0 <= 1) by nra. assert (0 <= c0 * (1 - s0)) by (apply Rmult_le_pos; lra). lra. }
      change (@num NumR) with R in *. assert (0 < ((1 - c0) * (c0 * c0) + c0 * (1 - s0)) * - dot e n) by (apply Rmult_lt_0_compat; lra). lra. }
    assert (NE : L <> []). { destruct (at_nonempty m V v Iv) as (y & Hy). destruct (tri_at m V Cl v y Hy) as (f0 & b0 & c0 & If0 & _ & T0' & _). intros Z. assert (Q : In f0 (map fst L)) by (apply HL; split; [exact If0|exists b0, c0; exact T0']). rewrite Z in Q. destruct Q. }
    assert (Sn : dot (vsum (map snd L)) n < 0).
    { clear - NE Each. induction L as [|[f q] L IH]; [contradiction|]. cbn [map snd]. rewrite vsum_cons, dot_add. assert (Q := Each f q (or_introl eq_refl)). destruct L as [|p L]; [cbn [map CurvN.vsum fold_right]; assert (Z : dot vzero n = 0) by (rewrite !dot_eq; destruct n; unfold vzero, vfill; rn; rg); change (@num NumR) with R in *; lra|].
      assert (NE' : p :: L <> []) by discriminate. assert (Q' := IH (fun g z Iz => Each g z (or_intror Iz)) NE'). change (@num NumR) with R in *. lra. }
    assert (Q := f_equal (fun z => dot z n) HG). cbv beta in Q. rewrite dot_scale in Q. assert (P := pos_INR (length L)). change (FeatSpec.vsum (map snd L)) with (vsum (map snd L)) in Q. rewrite <- Q in Sn. change (@num NumR) with R in *.
    destruct (Rlt_dec (dot (b v) n) 0) as [Hz|Hz]; [exact Hz|]. assert (0 <= INR (length L) * dot (b v) n) by (apply Rmult_le_pos; lra). lra. }
  assert (Pv := poisson_vec m V [v] Rg b _ v Hx I1). assert (Q := f_equal (fun z => dot z n) Pv). cbv beta in Q. rewrite (linear_sum _ _ (linear_dot n)), map_map in Q.
  rewrite (rsum_ext _ (fun y => (dot (x v) n - k) * w_cot m y)) in Q.
  2:{ intros y Hy. apply at_v_in in Hy. destruct (dst_some m W y (proj1 Hy)) as (d & Ed & Id). rewrite Ed. assert (Ad : adj m v d) by (exists y; split; [apply Hy|split; [apply Hy|exact Ed]]).
    destruct (in_dec Nat.eq_dec v [v]) as [_|Z]; [|contradiction]. destruct (in_dec Nat.eq_dec d [v]) as [[Z|[]]|_].
    - exfalso. subst d. assert (Z := Hk v Ad). lra.
    - rewrite dot_scale, dot_vsub, (Hk d Ad). change (@num NumR) with R in *. ring. }
  rewrite rsum_scal in Q. destruct (weights m V [v] v I1 G) as [_ P]. change (@num NumR) with R in *. destruct (Rlt_dec (dot (x v) n) k) as [Hz|Hz]; [exact Hz|]. assert (0 <= (dot (x v) n - k) * rsum (map (w_cot m) (at_v m v))) by (apply Rmult_le_pos; lra). lra.
Qed.
