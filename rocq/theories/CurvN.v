(** Vertex::normal and Vertex::H over the real numbers. *)
From Coq Require Import Reals Lra Lia List ZArith Bool Arith Permutation.
From Verif Require Import Num NumInst Vec Heap Mesh Spec Orbit Rings Exec Diamond Queries Bounds GeomSpec VecR Measure MeasureR MeasureM SmoothSpec Curv.
Import ListNotations.
Local Open Scope mesh_scope.
Local Open Scope R_scope.
Implicit Types m : mesh NumR.

(** ** Sums of vectors *)
Definition vsum (l : list vecR) : vecR := fold_right (@Vec.vadd NumR) vzero l.
Lemma vsum_cons x l : vsum (x :: l) = vadd x (vsum l). Proof. reflexivity. Qed.
Lemma vsum_perm l l' : Permutation l l' -> vsum l = vsum l'.
Proof.
  induction 1 as [|x l l' _ IH|x y l|l l' l'' _ IH1 _ IH2]; rewrite ?vsum_cons; [reflexivity|rewrite IH; reflexivity| |congruence].
  rewrite !vadd_assoc, (vadd_comm y x). reflexivity.
Qed.
Lemma vfold_sum {A} (F : A -> vecR) l : forall a : vecR, fold_left (fun s i => vadd s (F i)) l a = vadd a (vsum (map F l)).
Proof. induction l as [|x l IH]; intros a; cbn [fold_left map]; [cbn; symmetry; apply vadd_zero|]. rewrite IH, vsum_cons. apply eq_sym, vadd_assoc. Qed.
Lemma vsum_lin (T : vecR -> vecR) l : (forall a b, T (vadd a b) = vadd (T a) (T b)) -> T vzero = vzero -> T (vsum l) = vsum (map T l).
Proof. intros A Z. induction l as [|x l IH]; [exact Z|]. cbn [map]. rewrite !vsum_cons, A, IH. reflexivity. Qed.
Lemma vsum_ext {A} (F G : A -> vecR) l : (forall x, In x l -> F x = G x) -> vsum (map F l) = vsum (map G l).
Proof. induction l as [|x l IH]; intros H; [reflexivity|]. cbn [map]. rewrite !vsum_cons, (H x (or_introl eq_refl)). f_equal. apply IH. intros y Y. apply H. right. exact Y. Qed.
Lemma vsum_sub {A} (F G : A -> vecR) l : vsum (map (fun x => vsub (F x) (G x)) l) = vsub (vsum (map F l)) (vsum (map G l)).
Proof. induction l as [|x l IH]; [cbn; vring|]. cbn [map]. rewrite !vsum_cons, IH. set (a := vsum _). set (b := vsum _). vring. Qed.

(** ** Vertex::normal *)
(** The weighted normal of one corner: the cross product over the squared lengths. *)
Definition wnormal (p0 p1 p2 : vecR) : vecR := vscale (/ (dot (vsub p1 p0) (vsub p1 p0) * dot (vsub p2 p0) (vsub p2 p0))) (cross (vsub p1 p0) (vsub p2 p0)).
Definition hwn m (h : nat) : vecR := wnormal (pos_at m (h_src m h)) (pos_at m (dst_of m h)) (pos_at m (prev_src m h)).
Lemma nd_lengths (a b c : vecR) : 0 < tri_area a b c -> 0 < dot (vsub b a) (vsub b a) /\ 0 < dot (vsub c a) (vsub c a).
Proof.
  intros P. assert (S1 : 0 < vlength (cross (vsub b a) (vsub c a))) by (unfold tri_area in P; lra).
  split.
  - destruct (Rle_lt_or_eq_dec _ _ (dot_pos (vsub b a))) as [H | H]; [exact H|]. exfalso. symmetry in H. apply dot_zero in H. 
      assert (Z : cross (vsub b a) (vsub c a) = vzero) by (rewrite H; vring). rewrite Z in S1. rewrite (proj2 (vlength_zero vzero) eq_refl) in S1. lra.
  - destruct (Rle_lt_or_eq_dec _ _ (dot_pos (vsub c a))) as [H | H]; [exact H|]. exfalso. symmetry in H. apply dot_zero in H. 
      assert (Z : cross (vsub b a) (vsub c a) = vzero) by (rewrite H; vring). rewrite Z in S1. rewrite (proj2 (vlength_zero vzero) eq_refl) in S1. lra.
Qed.
Lemma wn_div (a b c : vecR) : 0 < tri_area a b c -> let l1 := vlength (vsub b a) in let l2 := vlength (vsub c a) in
  vdiv (cross (vsub b a) (vsub c a)) (@nmul NumR (@nmul NumR (@nmul NumR l1 l1) l2) l2) = Some (wnormal a b c).
Proof.
  intros P l1 l2. destruct (nd_lengths a b c P) as [Q1 Q2]. unfold wnormal. rewrite <- !vlength_sq. fold l1 l2. rewrite <- vlength_sq in Q1, Q2. fold l1 in Q1. fold l2 in Q2.
  assert (E : (@nmul NumR (@nmul NumR (@nmul NumR l1 l1) l2) l2 : R) = l1 * l1 * (l2 * l2)) by (rn; ring). assert (Z : l1 * l1 * (l2 * l2) <> 0) by (apply Rgt_not_eq, Rmult_lt_0_compat; assumption).
  transitivity (vdiv (cross (vsub b a) (vsub c a)) (l1 * l1 * (l2 * l2))); [f_equal; exact E|]. rewrite vdiv_ok by exact Z. reflexivity.
Qed.
Lemma circ_sum m v h l : Valid m -> ~ on_boundary m v -> NonDegenerateAt m v -> In v (m_verts m) -> v_he m v = Some h -> Vring m v (h :: l) ->
  v_normal (Some v) m = (lift (normalize (vsum (map (hwn m) (at_v m v))))) m.
Proof.
  intros V NB ND Hv Eh Hr. assert (W := valid_wf m V). unfold v_normal.
  rewrite (bind_ok _ _ _ (vsum (map (hwn m) (at_v m v))) m); [reflexivity|].
  rewrite (circ_v_ok m W v h l _ (fun a y => (vadd a (hwn m y), false)) _ Hv Eh Hr).
  - do 2 f_equal. assert (B : forall l0 (a : vecR), bfold (fun (a : vecR) (y : nat) => (vadd a (hwn m y), false)) a l0 = vadd a (vsum (map (hwn m) l0))).
    { induction l0 as [|x l0 IH]; intros a; cbn [bfold map fst snd]; [cbn; symmetry; apply vadd_zero|]. rewrite IH, vsum_cons. apply eq_sym, vadd_assoc. }
    rewrite B. rewrite vadd_comm, vadd_zero. apply vsum_perm, Permutation_map. destruct Hr as (_ & Hnd & Hin). apply NoDup_Permutation; [exact Hnd|apply NoDup_filter, (wf_h_nodup m W)|]. intros y. rewrite Hin, at_v_in. reflexivity.
  - intros y a Iy Sy. assert (Ay : In y (at_v m v)) by (apply at_v_in; tauto). assert (B := inner_bd m v y NB Ay).
    destruct (he_tri m y V Iy B) as (f & a0 & b & c & If & Ff & T & Nab & Nbc & Nca & Sa & Db & Pc). assert (a0 = v) by congruence. subst a0.
    destruct (inner_tri m y V Iy B) as (n & z & E1 & E2 & E3 & In_ & Iz). destruct T as (x1 & x2 & x3 & Tin & Tx & Ty & Tz & Ts1 & Ts2 & Ts3).
    assert (Ib : In b (m_verts m)) by (apply (src_in m W x2 b); [apply Tin; tauto|exact Ts2]). assert (Ic : In c (m_verts m)) by (apply (src_in m W x3 c); [apply Tin; tauto|exact Ts3]).
    assert (Dn : dst_of m n = Some c) by (rewrite (dst_next m n z W In_ E2); unfold prev_src, next_of in Pc; rewrite E1, E2 in Pc; exact Pc).
    rewrite (bind_ok _ _ _ _ _ (pos_read m v W Hv)). rewrite (bind_ok _ _ _ _ _ (dst_of_ok m W y Iy)). rewrite Db. rewrite (bind_ok _ _ _ _ _ (pos_read m b W Ib)).
    rewrite (bind_ok _ _ _ _ _ (r_next m y (h_alive m W _ Iy))). rewrite E1. rewrite (bind_ok _ _ _ _ _ (dst_of_ok m W n In_)). rewrite Dn. rewrite (bind_ok _ _ _ _ _ (pos_read m c W Ic)).
    assert (P : 0 < tri_area (v_pos m v) (v_pos m b) (v_pos m c)) by (apply (ND f b c If); exists x1, x2, x3; tauto). rewrite (wn_div _ _ _ P). cbn [lift]. rewrite bind_ret. unfold hwn. rewrite Sa, Db, Pc. reflexivity.
Qed.
Theorem normal_ok m v : Valid m -> ~ on_boundary m v -> NonDegenerateAt m v -> In v (m_verts m) -> exists L : list (nat * vecR),
  NoDup (map fst L) /\ (forall f, In f (map fst L) <-> In f (m_faces m) /\ exists b c, Spec.Tri m f v b c) /\
  (forall f w b c, In (f, w) L -> Spec.Tri m f v b c -> let e1 := vsub (v_pos m b) (v_pos m v) in let e2 := vsub (v_pos m c) (v_pos m v) in w = vscale (/ (dot e1 e1 * dot e2 e2)) (cross e1 e2)) /\
  (vsum (map snd L) = vzero -> v_normal (Some v) m = Abort AThrow) /\
  (vsum (map snd L) <> vzero -> exists n, v_normal (Some v) m = Ok (n, m) /\ vlength n = 1 /\ vscale (vlength (vsum (map snd L))) n = vsum (map snd L)).
Proof.
  intros V NB ND Hv. assert (W := valid_wf m V). exists (map (fun h => (face_of m h, hwn m h)) (at_v m v)). destruct (faces_at (hwn m) m v V NB) as (F1 & F2 & F3).
  split; [exact F1|]. split; [exact F2|]. split.
  - intros f w b c Hin T. destruct (F3 f w b c Hin T) as (h & -> & _ & Sh & Db & Pc & If). unfold hwn. rewrite Sh, Db, Pc. reflexivity.
  - rewrite map_map. cbn [snd]. destruct (vring m W v Hv) as (h & l & Eh & Hr). assert (E := circ_sum m v h l V NB ND Hv Eh Hr). rewrite E. split.
    + intros Z. assert (Z2 : normalize (vsum (map (hwn m) (at_v m v))) = None) by (etransitivity; [apply (f_equal (@normalize NumR)), Z|apply normalize_zero]). rewrite Z2. reflexivity.
    + intros NZ. destruct (normalize_unit _ NZ) as (u & Eu & Lu & Su). assert (Eu' : normalize (vsum (map (hwn m) (at_v m v))) = Some u) by exact Eu. rewrite Eu'. exists u. split; [reflexivity|]. split; [exact Lu|exact Su].
Qed.

(** If the vertex and its neighbours lie on a sphere, the normal points along the radius. *)
Lemma cross_zero_par (n u : vecR) : vlength n = 1 -> cross n u = vzero -> u = vscale (dot n u) n.
Proof.
  intros L Z. assert (S : dot n n = 1) by (rewrite <- vlength_sq, L; rg).
  assert (E : vsub (vscale (dot n n) u) (vscale (dot n u) n) = cross (cross n u) n) by (rewrite !dot_eq; vring). rewrite Z, S in E. assert (E0 : cross vzero n = vzero) by vring. rewrite E0 in E.
  assert (U : u = vadd (vsub (vscale 1 u) (vscale (dot n u) n)) (vscale (dot n u) n)) by vring. rewrite U at 1. rewrite E. vring.
Qed.
Lemma wn_sphere (p0 p1 p2 u : vecR) : 0 < dot (vsub p1 p0) (vsub p1 p0) -> 0 < dot (vsub p2 p0) (vsub p2 p0) ->
  2 * dot (vsub p1 p0) u = dot (vsub p1 p0) (vsub p1 p0) -> 2 * dot (vsub p2 p0) u = dot (vsub p2 p0) (vsub p2 p0) ->
  cross (wnormal p0 p1 p2) u = vsub (vscale (/ (2 * dot (vsub p2 p0) (vsub p2 p0))) (vsub p2 p0)) (vscale (/ (2 * dot (vsub p1 p0) (vsub p1 p0))) (vsub p1 p0)).
Proof.
  unfold wnormal. set (e1 := vsub p1 p0). set (e2 := vsub p2 p0). clearbody e1 e2. intros P1 P2 H1 H2.
  assert (E : cross (vscale (/ (dot e1 e1 * dot e2 e2)) (cross e1 e2)) u = vsub (vscale (/ (dot e1 e1 * dot e2 e2) * dot e1 u) e2) (vscale (/ (dot e1 e1 * dot e2 e2) * dot e2 u) e1)) by (set (k := / (dot e1 e1 * dot e2 e2)); rewrite !dot_eq; vring).
  rewrite E. f_equal.
  - f_equal. replace (dot e1 u) with (dot e1 e1 / 2) by lra. field. split; lra.
  - f_equal. f_equal. replace (dot e2 u) with (dot e2 e2 / 2) by lra. field. split; lra.
Qed.
Theorem normal_sphere m v (o : vecR) (r : R) n m' : Valid m -> ~ on_boundary m v -> NonDegenerateAt m v -> In v (m_verts m) -> 0 < r ->
  vlength (vsub (v_pos m v) o) = r -> (forall w, adj m v w -> vlength (vsub (v_pos m w) o) = r) ->
  v_normal (Some v) m = Ok (n, m') -> vscale r n = vsub (v_pos m v) o \/ vscale r n = vsub o (v_pos m v).
Proof.
  intros V NB ND Hv Pr Lv Lw E. assert (W := valid_wf m V). destruct (vring m W v Hv) as (h & l & Eh & Hr). rewrite (circ_sum m v h l V NB ND Hv Eh Hr) in E. clear h l Eh Hr.
  set (s := vsum (map (hwn m) (at_v m v))) in *. set (u := vsub o (v_pos m v)).
  assert (C : cross s u = vzero).
  { unfold s. rewrite (vsum_lin (fun x => cross x u)); [|intros; vring|vring]. rewrite map_map.
    set (g := fun q : ptr => vscale (/ (2 * dot (vsub (pos_at m q) (v_pos m v)) (vsub (pos_at m q) (v_pos m v)))) (vsub (pos_at m q) (v_pos m v))).
    rewrite (vsum_ext _ (fun h => vsub (g (prev_src m h)) (g (dst_of m h)))).
    - rewrite vsum_sub. rewrite <- (vsum_perm _ _ (Permutation_map (fun h => g (prev_src m h)) (rot_perm_v m v W))). rewrite map_map.
      rewrite (vsum_ext (fun h => g (prev_src m (rot_of m h))) (fun h => g (dst_of m h))) by (intros h Hh; rewrite (prev_rot m v h V NB Hh); reflexivity). apply vsub_self.
    - intros h Hh. assert (B := inner_bd m v h NB Hh). destruct (proj1 (at_v_in _ _ _) Hh) as [Ih Sh]. destruct (he_tri m h V Ih B) as (f & a & b & c & If & Ff & T & Nab & Nbc & Nca & Sa & Db & Pc). assert (a = v) by congruence. subst a.
      unfold hwn. rewrite Sa, Db, Pc. cbn [pos_at]. destruct (nd_lengths _ _ _ (ND f b c If T)) as [Q1 Q2].
      assert (Ab : adj m v b) by (exists h; tauto).
      assert (Ac : adj m v c).
      { destruct T as (x & y & z & Hin & Ex & Ey & Ez & Sx & Sy & Sz). assert (Iz : In z (m_hes m)) by (apply Hin; tauto). destruct (wf_rev m W z Iz) as (k & Ek & Ik). exists k. split; [exact Ik|]. 
        assert (Rk : h_rev m k = Some z) by exact (rev_rev m W z k Iz Ek). split; [|unfold dst_of; rewrite Rk; exact Sz].
        assert (D := dst_next m z x W Iz Ez). unfold dst_of in D. rewrite Ek in D. congruence. }
      assert (Sq : forall w, adj m v w -> 2 * dot (vsub (v_pos m w) (v_pos m v)) u = dot (vsub (v_pos m w) (v_pos m v)) (vsub (v_pos m w) (v_pos m v))).
      { intros w Aw. assert (L1 := Lw w Aw). assert (D1 : dot (vsub (v_pos m w) o) (vsub (v_pos m w) o) = r * r) by (rewrite <- vlength_sq, L1; reflexivity).
        assert (D2 : dot (vsub (v_pos m v) o) (vsub (v_pos m v) o) = r * r) by (rewrite <- vlength_sq, Lv; reflexivity).
        assert (I : dot (vsub (v_pos m w) o) (vsub (v_pos m w) o) = dot (vsub (v_pos m w) (v_pos m v)) (vsub (v_pos m w) (v_pos m v)) - 2 * dot (vsub (v_pos m w) (v_pos m v)) u + dot (vsub (v_pos m v) o) (vsub (v_pos m v) o)) by (unfold u; dring).
        lra. }
      rewrite (wn_sphere _ _ _ u Q1 Q2 (Sq b Ab) (Sq c Ac)). reflexivity. }
  assert (NZ : s <> vzero).
  { intros Z. assert (Z2 : normalize s = None) by (etransitivity; [apply (f_equal (@normalize NumR)), Z|apply normalize_zero]). rewrite Z2 in E. discriminate. }
  destruct (normalize_unit s NZ) as (n0 & En & Ln & Sn). rewrite En in E. cbn [lift ret] in E. injection E as -> <-.
  assert (Pl : 0 < vlength s) by (destruct (Rle_lt_or_eq_dec _ _ (vlength_pos s)) as [H | H]; [exact H|]; exfalso; apply NZ; apply vlength_zero; symmetry; exact H).
  assert (Cn : cross n u = vzero).
  { assert (X : vscale (vlength s) (cross n u) = vzero) by (rewrite <- cross_scale, Sn; exact C). assert (Y : cross n u = vscale (/ vlength s) (vscale (vlength s) (cross n u))) by (rewrite vscale_mul, Rinv_l by lra; symmetry; apply vscale_one). rewrite Y, X. vring. }
  assert (P := cross_zero_par n u Ln Cn).
  assert (Lu : vlength u = r) by (unfold u; rewrite vsub_sym_len; exact Lv).
  assert (A : Rabs (dot n u) = r).
  { assert (X : vlength u = Rabs (dot n u) * vlength n) by (etransitivity; [apply (f_equal (@Vec.vlength NumR)), P|apply vlength_scale]). rewrite Ln, Lu in X. lra. }
  unfold Rabs in A. destruct (Rcase_abs (dot n u)) as [Hn | Hn].
  - left. transitivity (vneg u); [|unfold u; vring]. rewrite <- A. set (d := dot n u) in *. clearbody d. rewrite P. vring.
  - right. fold u. etransitivity; [|symmetry; exact P]. rewrite A. reflexivity.
Qed.

(** ** Vertex::H *)
Definition cotg (a b c : vecR) : R := dot (vsub a b) (vsub c b) / (vlength (cross (vsub a b) (vsub c b)) + / 10 ^ 20).
Lemma cotg_cot (a b c : vecR) : @cot NumR a b c = cotg a b c.
Proof. reflexivity. Qed.
Definition hH m (h : nat) : R := cotg (pos_at m (h_src m h)) (pos_at m (prev_src m h)) (pos_at m (dst_of m h)) + cotg (pos_at m (h_src m h)) (pos_at m (dst_of m (rot_of m h))) (pos_at m (dst_of m h)).
Definition hHv m (h : nat) : vecR := vscale (hH m h) (vsub (pos_at m (dst_of m h)) (pos_at m (h_src m h))).
Lemma cget_rev (l : list vecR) i : (i < 2 * length l)%nat -> cget (rev l) i = cget l (2 * length l - 1 - i).
Proof.
  intros Hi. unfold cget. rewrite rev_length. set (n := length l) in *. assert (Hn : (0 < n)%nat) by lia.
  destruct (Nat.lt_ge_cases i n) as [H | H].
  - rewrite (Nat.mod_small i n H). rewrite rev_nth by exact H. fold n. f_equal. replace (2 * n - 1 - i)%nat with ((n - S i) + 1 * n)%nat by lia. rewrite Nat.mod_add by lia. symmetry. apply Nat.mod_small. lia.
  - replace i with ((i - n) + 1 * n)%nat at 1 by lia. rewrite Nat.mod_add by lia. rewrite (Nat.mod_small (i - n)) by lia. rewrite rev_nth by (fold n; lia). fold n. f_equal. rewrite Nat.mod_small by lia. lia.
Qed.
Lemma seq_flip n : Permutation (map (fun i => (n - 1 - i)%nat) (seq 0 n)) (seq 0 n).
Proof.
  apply NoDup_Permutation_bis.
  - apply (NoDup_nth _ 0%nat). intros i j Hi Hj E. rewrite map_length, seq_length in Hi, Hj. set (g := fun i => (n - 1 - i)%nat) in *. rewrite !(nth_indep (map g (seq 0 n)) 0%nat (g 0%nat)) in E by (rewrite map_length, seq_length; assumption). rewrite !map_nth, !seq_nth in E by assumption. unfold g in E. lia.
  - rewrite map_length. lia.
  - intros k Hk. apply in_map_iff in Hk. destruct Hk as (i & <- & Hi). apply in_seq in Hi. apply in_seq. lia.
Qed.
(** The sum of H() around the ring. *)
Lemma laplace_sum m v h l : Valid m -> ~ on_boundary m v -> Vring m v (h :: l) ->
  let qs := rev (map (fun y => pos_at m (dst_of m y)) (h :: l)) in
  fold_left (fun s i => vadd s (vscale (@nadd NumR (@cot NumR (v_pos m v) (cget qs (i + 1)) (cget qs i)) (@cot NumR (v_pos m v) (cget qs (i + length qs - 1)) (cget qs i))) (vsub (cget qs i) (v_pos m v)))) (seq 0 (length qs)) vzero
  = vsum (map (hHv m) (at_v m v)).
Proof.
  intros V NB Hr qs. assert (W := valid_wf m V). destruct Hr as (Hc & Hnd & Hin). unfold qs. clear qs. revert Hc Hnd Hin. generalize (h :: l). clear h l. intros l Hc Hnd Hin.
  set (ps := map (fun y => pos_at m (dst_of m y)) l). rewrite rev_length. assert (Ln : length ps = length l) by apply map_length. rewrite Ln. rewrite vfold_sum, vadd_comm, vadd_zero.
  set (T := fun j => vscale (cotg (v_pos m v) (cget ps (length l + j - 1)) (cget ps j) + cotg (v_pos m v) (cget ps (j + 1)) (cget ps j)) (vsub (cget ps j) (v_pos m v))).
  assert (Cm : forall k, cget ps (length l + k) = cget ps k).
  { intros k. unfold cget. rewrite Ln. destruct (Nat.eq_dec (length l) 0) as [Z | Z]; [rewrite Z; cbn; destruct ps; [destruct (k mod 0)%nat; cbn; destruct k; reflexivity|cbn in Ln; lia]|]. f_equal. replace (length l + k)%nat with (k + 1 * length l)%nat by lia. apply Nat.mod_add. exact Z. }
  rewrite (vsum_ext _ (fun i => T (length l - 1 - i)%nat)).
  2: { intros i Hi. apply in_seq in Hi. destruct Hi as [_ Hi]. cbn [Nat.add] in Hi. rewrite !cget_rev by (rewrite Ln; lia). rewrite Ln. unfold T. 
       replace (2 * length l - 1 - i)%nat with (length l + (length l - 1 - i))%nat by lia. rewrite Cm.
       replace (2 * length l - 1 - (i + 1))%nat with (length l + (length l - 1 - i) - 1)%nat by lia. replace (2 * length l - 1 - (i + length l - 1))%nat with (length l - 1 - i + 1)%nat by lia. reflexivity. }
  rewrite <- (map_map (fun i => (length l - 1 - i)%nat) T). rewrite (vsum_perm _ _ (Permutation_map T (seq_flip (length l)))).
  transitivity (vsum (map (hHv m) l)).
  - rewrite <- (map_seq_nth (hHv m) l). apply vsum_ext. intros j Hj. apply in_seq in Hj. destruct Hj as [_ Hj]. cbn [Nat.add] in Hj.
    assert (Nth : forall k, (k < length l)%nat -> nth k ps vzero = pos_at m (dst_of m (nth k l 0%nat))).
    { intros k Hk. unfold ps. set (G := fun y => pos_at m (dst_of m y)). rewrite (nth_indep (map G l) vzero (G 0%nat)) by (rewrite map_length; exact Hk). apply map_nth. }
    assert (Cg : forall k, cget ps k = pos_at m (dst_of m (nth (k mod length l) l 0%nat))) by (intros k; unfold cget; rewrite Ln; apply Nth, Nat.mod_upper_bound; lia).
    assert (Ii : In (nth j l 0%nat) l) by (apply nth_In; exact Hj). assert (Aj : In (nth j l 0%nat) (at_v m v)) by (apply at_v_in, Hin, Ii). destruct (proj1 (at_v_in _ _ _) Aj) as [Jj Sj].
    assert (Hn := cyc_nth _ l Hc j Hj).
    (* the one before *)
    set (q := ((length l + j - 1) mod length l)%nat). assert (Hq : (q < length l)%nat) by (apply Nat.mod_upper_bound; lia). assert (Hp := cyc_nth _ l Hc q Hq).
    assert (Eq : ((q + 1) mod length l = j)%nat).
    { unfold q. rewrite Nat.add_mod_idemp_l by lia. replace (length l + j - 1 + 1)%nat with (j + 1 * length l)%nat by lia. rewrite Nat.mod_add by lia. apply Nat.mod_small, Hj. }
    rewrite Eq in Hp. assert (Aq : In (nth q l 0%nat) (at_v m v)) by (apply at_v_in, Hin, nth_In, Hq).
    assert (Pq := prev_rot m v _ V NB Aq). unfold rot_of in Pq. rewrite Hp in Pq.
    unfold T, hHv, hH. rewrite !Cg. rewrite (Nat.mod_small j) by exact Hj. fold q. rewrite Sj, Pq. unfold rot_of. rewrite Hn. cbn [pos_at]. reflexivity.
  - apply vsum_perm, Permutation_map. apply NoDup_Permutation; [exact Hnd|apply NoDup_filter, (wf_h_nodup m W)|]. intros y. rewrite Hin, at_v_in. reflexivity.
Qed.
Lemma H_at m v : Valid m -> ~ on_boundary m v -> In v (m_verts m) -> forall n, v_normal (Some v) m = Ok (n, m) ->
  v_H (Some v) m = Ok (- dot (vsum (map (hHv m) (at_v m v))) n / (2 * rsum (map (hcor corner_area m) (at_v m v))), m).
Proof.
  intros V NB Hv n En. assert (W := valid_wf m V). destruct (vring m W v Hv) as (h & l & Eh & Hr). assert (Vo := volonoi_at m v W Hv). unfold v_volonoi in Vo. unfold v_H.
  rewrite (bind_ok _ _ _ _ _ (v_positions_ok m v h l W Hv Eh Hr)) in Vo. rewrite (bind_ok _ _ _ _ _ (pos_read m v W Hv)) in Vo. unfold ret in Vo.
  rewrite (bind_ok _ _ _ _ _ (v_positions_ok m v h l W Hv Eh Hr)). rewrite (bind_ok _ _ _ _ _ (pos_read m v W Hv)). rewrite (bind_ok _ _ _ _ _ En). unfold ret. apply (f_equal (fun r => match r with Ok (x, _) => x | _ => 0 end)) in Vo.
  rewrite ring_rev, Vo. assert (S := laplace_sum m v h l V NB Hr). cbn zeta in S. rewrite S. do 2 f_equal. rn. unfold Rdiv. f_equal. ring.
Qed.
Theorem H_formula m v : Valid m -> ~ on_boundary m v -> NonDegenerateAt m v -> In v (m_verts m) -> forall n, v_normal (Some v) m = Ok (n, m) ->
  exists (A : R) (L : list (nat * R)), v_volonoi (Some v) m = Ok (A, m) /\ 0 < A /\
  NoDup (map fst L) /\ (forall w, In w (map fst L) <-> adj m v w) /\
  (forall w k f a g b, In (w, k) L -> Spec.Tri m f v w a -> Spec.Tri m g w v b -> k = cotg (v_pos m v) (v_pos m a) (v_pos m w) + cotg (v_pos m v) (v_pos m b) (v_pos m w)) /\
  v_H (Some v) m = Ok (- dot (fold_right (fun x s => vadd (vscale (snd x) (vsub (v_pos m (fst x)) (v_pos m v))) s) vzero L) n / (2 * A), m).
Proof.
  intros V NB ND Hv n En. assert (W := valid_wf m V). assert (NP := valid_noparallel m V). assert (NL := valid_noloops m V). exists (rsum (map (hcor corner_area m) (at_v m v))).
  set (d := fun h => match dst_of m h with Some w => w | None => 0%nat end). exists (map (fun h => (d h, hH m h)) (at_v m v)).
  split; [exact (volonoi_at m v W Hv)|]. split; [exact (volonoi_positive m v V NB ND Hv)|]. rewrite !map_map. cbn [fst snd].
  assert (D : forall h, In h (at_v m v) -> In h (m_hes m) /\ h_src m h = Some v /\ dst_of m h = Some (d h)).
  { intros h Hh. apply at_v_in in Hh. destruct Hh as [Ih Sh]. split; [exact Ih|]. split; [exact Sh|]. unfold d. destruct (wf_rev m W h Ih) as (r & Er & Ir). destruct (wf_src m W r Ir) as (w & Sw & _). unfold dst_of. rewrite Er, Sw. reflexivity. }
  split; [|split; [|split]].
  - apply (NoDup_nth _ 0%nat). intros i j Hi Hj E. rewrite map_length in Hi, Hj. change (map (fun x => d x) (at_v m v)) with (map d (at_v m v)) in E. rewrite !(nth_indep (map d (at_v m v)) 0%nat (d 0%nat)) in E by (rewrite map_length; assumption). rewrite !map_nth in E.
    apply (proj1 (NoDup_nth (at_v m v) 0%nat) (NoDup_filter _ (wf_h_nodup m W)) i j Hi Hj). destruct (D _ (nth_In _ 0%nat Hi)) as (I1 & S1 & D1). destruct (D _ (nth_In _ 0%nat Hj)) as (I2 & S2 & D2). apply (NP _ _ I1 I2); congruence.
  - intros w. rewrite in_map_iff. split.
    + intros (h & <- & Hh). exists h. apply D, Hh.
    + intros (h & Ih & Sh & Dh). exists h. assert (Ah : In h (at_v m v)) by (apply at_v_in; tauto). split; [|exact Ah]. destruct (D h Ah) as (_ & _ & E). congruence.
  - intros w k f a g b Hin T1 T2. apply in_map_iff in Hin. destruct Hin as (h & E & Hh). injection E as <- <-. destruct (D h Hh) as (Ih & Sh & Dh).
    (* both triangles contain the edge of h *)
    assert (U : forall f' u w' a', Spec.Tri m f' u w' a' -> exists x, In x (m_hes m) /\ h_src m x = Some u /\ dst_of m x = Some w' /\ prev_src m x = Some a').
    { intros f' u w' a' (x & y & z & Hin' & Ex & Ey & Ez & Sx & Sy & Sz). assert (Ix : In x (m_hes m)) by (apply Hin'; tauto). exists x. split; [exact Ix|]. split; [exact Sx|]. split; [rewrite (dst_next m x y W Ix Ex); exact Sy|]. unfold prev_src, next_of. rewrite Ex, Ey. exact Sz. }
    destruct (U _ _ _ _ T1) as (x1 & I1 & S1 & D1 & P1). assert (x1 = h) by (apply (NP x1 h I1 Ih); congruence). subst x1.
    destruct (U _ _ _ _ T2) as (x2 & I2 & S2 & D2 & P2). destruct (wf_rev m W h Ih) as (r & Er & Ir). assert (Rr := rev_rev m W h r Ih Er).
    assert (x2 = r). { apply (NP x2 r I2 Ir); [unfold dst_of in Dh; rewrite Er in Dh; congruence|rewrite D2; unfold dst_of; rewrite Rr; congruence]. } subst x2.
    assert (Dr : dst_of m (rot_of m h) = Some b).
    { destruct (rot_at m v h W Hh) as (Ro & Ar & _). destruct (inner_tri m _ V (proj1 (proj1 (at_v_in _ _ _) Ar)) (inner_bd m v _ NB Ar)) as (y & z & E1 & E2 & E3 & Iy & Iz).
      assert (En' : h_next m r = Some (rot_of m h)) by (unfold rot in Ro; rewrite Er in Ro; exact Ro). rewrite (dst_next m _ y W (proj1 (proj1 (at_v_in _ _ _) Ar)) E1). unfold prev_src, next_of in P2. rewrite En', E1 in P2. exact P2. }
    unfold hH. rewrite Sh, P1, Dr, Dh. reflexivity.
  - rewrite (H_at m v V NB Hv n En). do 3 f_equal. f_equal. f_equal. revert D. generalize (at_v m v). intros l D. induction l as [|x l IH]; [reflexivity|]. cbn [map fold_right fst snd]. rewrite vsum_cons. f_equal.
    + destruct (D x (or_introl eq_refl)) as (_ & Sx & Dx). unfold hHv. rewrite Sx, Dx. reflexivity.
    + apply IH. intros h Hh. apply D. right. exact Hh.
Qed.
(** A vertex in the plane of its neighbours has mean curvature 0. *)
Lemma det_plane (g a b c : vecR) : g <> vzero -> dot a g = 0 -> dot b g = 0 -> dot c g = 0 -> dot (cross a b) c = 0.
Proof.
  intros NZ A B C. assert (E : vscale (dot (cross a b) c) g = vadd (vadd (vscale (dot a g) (cross b c)) (vscale (dot b g) (cross c a))) (vscale (dot c g) (cross a b))) by (rewrite !dot_eq; vring).
  rewrite A, B, C in E. assert (E0 : vscale (dot (cross a b) c) g = vzero) by (rewrite E; vring). 
  assert (L := f_equal (@Vec.vlength NumR) E0). assert (L2 : vlength (vscale (dot (cross a b) c) g) = Rabs (dot (cross a b) c) * vlength g) by apply vlength_scale. rewrite (proj2 (vlength_zero vzero) eq_refl), L2 in L.
  apply Rmult_integral in L. destruct L as [L | L]; [|apply vlength_zero in L; contradiction]. destruct (Req_dec (dot (cross a b) c) 0) as [H | H]; [exact H|]. apply Rabs_no_R0 in H. contradiction.
Qed.
Lemma dot_vsum (l : list vecR) (c : vecR) : dot (vsum l) c = rsum (map (fun x => dot x c) l).
Proof. induction l as [|x l IH]; [cbn [vsum fold_right map rsum]; rewrite dot_eq; cbn; rg|]. cbn [map]. rewrite vsum_cons, rsum_cons, dot_add, IH. reflexivity. Qed.
Theorem H_flat m v (g : vecR) x m' : Valid m -> ~ on_boundary m v -> NonDegenerateAt m v -> In v (m_verts m) -> g <> vzero -> (forall w, adj m v w -> dot (vsub (v_pos m w) (v_pos m v)) g = 0) ->
  v_H (Some v) m = Ok (x, m') -> x = 0.
Proof.
  intros V NB ND Hv Ng Fl E. assert (W := valid_wf m V). 
  assert (Nv : exists n, v_normal (Some v) m = Ok (n, m) /\ normalize (vsum (map (hwn m) (at_v m v))) = Some n).
  { destruct (vring m W v Hv) as (h & l & Eh & Hr). assert (Cs := circ_sum m v h l V NB ND Hv Eh Hr). rewrite Cs. destruct (normalize (vsum (map (hwn m) (at_v m v)))) as [n|] eqn:En; [exists n; split; reflexivity|].
    exfalso. unfold v_H in E. rewrite (bind_ok _ _ _ _ _ (v_positions_ok m v h l W Hv Eh Hr)) in E. rewrite (bind_ok _ _ _ _ _ (pos_read m v W Hv)) in E. cbn zeta in E. unfold bind at 1 in E. rewrite Cs in E. discriminate. }
  destruct Nv as (n & En & Nn). rewrite (H_at m v V NB Hv n En) in E. apply (f_equal (fun r => match r with Ok (y, _) => y | _ => 0 end)) in E. cbn beta iota in E. rewrite <- E. clear E x m' En.
  assert (Z : dot (vsum (map (hHv m) (at_v m v))) n = 0); [|rewrite Z; unfold Rdiv; rewrite Ropp_0; apply Rmult_0_l].
  assert (Ns : vsum (map (hwn m) (at_v m v)) <> vzero).
  { intros Z. assert (Z2 : normalize (vsum (map (hwn m) (at_v m v))) = None) by (etransitivity; [apply (f_equal (@normalize NumR)), Z|apply normalize_zero]). congruence. }
  destruct (normalize_unit _ Ns) as (n0 & E0 & Ln & Sn). assert (n0 = n) by congruence. subst n0.
  set (s := vsum (map (hwn m) (at_v m v))) in *. assert (Pl : 0 < vlength s) by (destruct (Rle_lt_or_eq_dec _ _ (vlength_pos s)) as [H | H]; [exact H|]; exfalso; apply Ns; apply vlength_zero; symmetry; exact H).
  assert (Q : dot (vsum (map (hHv m) (at_v m v))) s = 0).
  { rewrite dot_sym. unfold s. rewrite dot_vsum, map_map. rewrite (rsum_ext _ (fun _ => 0)); [rewrite rsum_const; apply Rmult_0_r|]. intros h Hh. rewrite dot_sym, dot_vsum, map_map. rewrite (rsum_ext _ (fun _ => 0)); [rewrite rsum_const; apply Rmult_0_r|]. intros k Hk.
    assert (B := inner_bd m v h NB Hh). destruct (proj1 (at_v_in _ _ _) Hh) as [Ih Sh]. destruct (he_tri m h V Ih B) as (f & a & b & c & If & Ff & T & Nab & Nbc & Nca & Sa & Db & Pc). assert (a = v) by congruence. subst a.
    assert (Ab : adj m v b) by (exists h; tauto).
    assert (Ac : adj m v c).
    { destruct T as (x & y & z & Hin & Ex & Ey & Ez & Sx & Sy & Sz). assert (Iz : In z (m_hes m)) by (apply Hin; tauto). destruct (wf_rev m W z Iz) as (r & Ek & Ik). exists r. split; [exact Ik|]. 
      assert (Rk : h_rev m r = Some z) by exact (rev_rev m W z r Iz Ek). split; [|unfold dst_of; rewrite Rk; exact Sz].
      assert (D := dst_next m z x W Iz Ez). unfold dst_of in D. rewrite Ek in D. congruence. }
    destruct (proj1 (at_v_in _ _ _) Hk) as [Ik Sk]. destruct (wf_rev m W k Ik) as (r & Er & Ir). destruct (wf_src m W r Ir) as (w & Sw & _). assert (Dw : dst_of m k = Some w) by (unfold dst_of; rewrite Er; exact Sw). assert (Aw : adj m v w) by (exists k; tauto).
    unfold hHv, hwn. rewrite Sk, Dw, Sa, Db, Pc. cbn [pos_at]. unfold wnormal. rewrite dot_scale. rewrite dot_sym, dot_scale.
    rewrite (det_plane g _ _ _ Ng (Fl b Ab) (Fl c Ac) (Fl w Aw)). rg. }
  rewrite <- Sn in Q. rewrite dot_sym, dot_scale in Q. apply Rmult_integral in Q. destruct Q as [Q | Q]; [lra|]. rewrite dot_sym. exact Q.
Qed.
(** If every triangle at the vertex is seen from its front in direction g, the normal exists and points to that side. *)
Theorem normal_side m v (g : vecR) : Valid m -> ~ on_boundary m v -> NonDegenerateAt m v -> In v (m_verts m) ->
  (forall f b c, In f (m_faces m) -> Spec.Tri m f v b c -> 0 < dot (cross (vsub (v_pos m b) (v_pos m v)) (vsub (v_pos m c) (v_pos m v))) g) ->
  exists n, v_normal (Some v) m = Ok (n, m) /\ vlength n = 1 /\ 0 < dot n g.
Proof.
  intros V NB ND Hv Fr. assert (W := valid_wf m V). destruct (vring m W v Hv) as (h & l & Eh & Hr). rewrite (circ_sum m v h l V NB ND Hv Eh Hr). clear h l Eh Hr.
  assert (P : 0 < dot (vsum (map (hwn m) (at_v m v))) g).
  { rewrite dot_vsum, map_map. apply rsum_pos_lt.
    - destruct (wf_vhe m W v Hv) as (h & _ & Ih & Sh). assert (X : In h (at_v m v)) by (apply at_v_in; tauto). destruct (at_v m v); [destruct X|discriminate].
    - intros x X. apply in_map_iff in X. destruct X as (h & <- & Hh). assert (B := inner_bd m v h NB Hh). destruct (proj1 (at_v_in _ _ _) Hh) as [Ih Sh]. destruct (he_tri m h V Ih B) as (f & a & b & c & If & Ff & T & _ & _ & _ & Sa & Db & Pc). assert (a = v) by congruence. subst a.
      unfold hwn. rewrite Sa, Db, Pc. cbn [pos_at]. unfold wnormal. rewrite dot_scale. destruct (nd_lengths _ _ _ (ND f b c If T)) as [Q1 Q2]. apply Rmult_lt_0_compat; [apply Rinv_0_lt_compat, Rmult_lt_0_compat; assumption|exact (Fr f b c If T)]. }
  set (s := vsum (map (hwn m) (at_v m v))) in *. assert (NZ : s <> vzero) by (intros Z; rewrite Z in P; assert (D0 : dot vzero g = 0) by dring; rewrite D0 in P; lra).
  destruct (normalize_unit s NZ) as (n & En & Ln & Sn). rewrite En. exists n. split; [reflexivity|]. split; [exact Ln|].
  assert (Pl : 0 < vlength s) by (destruct (Rle_lt_or_eq_dec _ _ (vlength_pos s)) as [H | H]; [exact H|]; exfalso; apply NZ; apply vlength_zero; symmetry; exact H).
  rewrite <- Sn, dot_scale in P. apply (Rmult_lt_reg_l (vlength s)); [exact Pl|]. rewrite Rmult_0_r. exact P.
Qed.
