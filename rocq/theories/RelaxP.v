(** The relaxation on closed surfaces of triangles. *)
From Coq Require Import Reals Lra Lia List ZArith Bool Arith Permutation.
From Verif Require Import Num NumInst Vec Heap Mesh Spec Orbit Rings Exec Diamond Queries GeomSpec VecR Measure MeasureR MeasureM SmoothSpec SmoothD SmoothF Curv CurvN LaplSpec Lapl LaplP LaplM Tensor TensorSpec TensorR TensorM Feat FeatSpec FeatR FeatM FeatS FeatO LapGrad FilterSpec Relax RelaxSpec RelaxA.
Import ListNotations.
Local Open Scope mesh_scope.
Local Open Scope R_scope.
Implicit Types m : mesh NumR.
Local Notation OK := (OT True).
Local Notation vsum := CurvN.vsum.

Lemma ot_mfold thr {A B} (f : B -> A -> M NumR B) (P : list A -> B -> Prop) m l : forall pre b, P pre b -> (forall pre x b, In x l -> P pre b -> OT thr (f b x) m (P (pre ++ [x]))) -> OT thr (mfold f b l) m (P (pre ++ l)).
Proof.
  induction l as [|x l IH]; intros pre b Hb H; cbn [mfold]; [rewrite app_nil_r; apply ot_ret, Hb|].
  eapply ot_bind; [apply (H pre x b (or_introl eq_refl) Hb)|]. intros b' Hb'. replace (pre ++ x :: l) with ((pre ++ [x]) ++ l) by (rewrite <- app_assoc; reflexivity).
  apply IH; [exact Hb'|]. intros p y c Hy. apply H. right. exact Hy.
Qed.
Lemma ot_opt {A} (o : option A) m (P : A -> Prop) : (forall x, o = Some x -> P x) -> OK (lift o) m P.
Proof. intros H. apply ot_lift; auto. Qed.
Lemma fset_at (T : nat -> vecR) v x u : fset (N := NumR) T v x u = if Nat.eqb u v then x else T u. Proof. reflexivity. Qed.
Lemma inside_iff l v : inside l (Some v) = true <-> In v l.
Proof. unfold inside. rewrite existsb_exists. split; [intros (x & I & E); apply Nat.eqb_eq in E; subst; exact I|intros I; exists v; split; [exact I|apply Nat.eqb_refl]]. Qed.

Lemma half_towards (a S : vecR) (q : R) : vadd (vscale (/ 2) a) (vscale (/ 2 / q) S) = towards (/ 2) a (vscale (/ q) S).
Proof. unfold towards, Rdiv. generalize (/ q). intros k. destruct a, S. unfold vadd, vscale. rn. f_equal; change (@num NumR) with R in *; field. Qed.
Lemma half_over (S : vecR) (q : R) : vscale (/ q) (vscale nhalf S) = vscale (/ 2 / q) S.
Proof. unfold Rdiv. generalize (/ q). intros k. rewrite vscale_mul. f_equal. rn. change (@num NumR) with R in *. lra. Qed.
Lemma vlen_pos_of (a : vecR) : a <> vzero -> 0 < vlength a.
Proof. intros H. assert (P := vlength_pos a). destruct (Rle_lt_or_eq_dec _ _ P) as [Q|Q]; [exact Q|]. exfalso. apply H, vlength_zero. symmetry. exact Q. Qed.
Section P.
Variable m : mesh NumR.
Hypothesis V : Valid m.
Hypothesis Cl : Closed m.
Hypothesis ND : NonDegenerate m.
Variable l : list nat.
Hypothesis Rg : Region m l.
Let W := valid_wf m V.
Let Iv := rg_in m l Rg.

(** ** Normals *)
Definition FieldOn (k : list nat) (T : nat -> vecR) : Prop := (forall v, In v k -> vlength (T v) = 1) /\ (forall v, ~ In v k -> T v = vzero).
Lemma fieldon_set k T v x : FieldOn k T -> vlength x = 1 -> FieldOn (k ++ [v]) (fset (N := NumR) T v x).
Proof.
  intros [H1 H2] U. split; intros u Hu; rewrite fset_at; destruct (Nat.eqb_spec u v) as [E|E].
  - exact U.
  - apply H1. apply in_app_or in Hu. destruct Hu as [Hu|[Hu|[]]]; [exact Hu|congruence].
  - exfalso. apply Hu, in_or_app. right. left. congruence.
  - apply H2. intros I. apply Hu, in_or_app. left. exact I.
Qed.
Definition First (T : nat -> vecR) : Prop := (forall v, In v l -> v_normal (Some v) m = Ok (T v, m)) /\ (forall v, ~ In v l -> T v = vzero).
Lemma first_ok : OK (first_normals l) m (fun T => NormalField l T /\ First T).
Proof.
  unfold first_normals. apply (ot_mfold _ _ (fun k T => FieldOn k T /\ (forall v, In v k -> v_normal (Some v) m = Ok (T v, m)) /\ (forall v, ~ In v k -> T v = vzero)) m l []); [repeat split; try reflexivity; intros v []|].
  intros pre v T Hv (HT & H1 & H2). eapply ot_bind; [apply (nrm_ot True m V Cl ND (or_introl Logic.I) v (Iv v Hv))|]. intros n [E U]. apply ot_ret. split; [apply fieldon_set; assumption|]. split.
  - intros u Hu. rewrite fset_at. destruct (Nat.eqb_spec u v) as [->|D]; [exact E|]. apply H1. apply in_app_or in Hu. destruct Hu as [Hu|[Hu|[]]]; [exact Hu|congruence].
  - apply (fieldon_set pre T v n HT U).
Qed.
(** The mean of the normals of the neighbours. *)
Definition ring_sum (T : nat -> vecR) (r : list nat) : vecR := vsum (map (fun y => vscale (w_cot m y) (fget (N := NumR) T (dst_of m y))) r).
Lemma smooth_reads T v h r : In v (m_verts m) -> v_he m v = Some h -> Vring m v (h :: r) ->
  circ_v (Some v) (vzero, nzero) (fun acc it => d <- he_dst it ;; weight <- he_cotWeight it ;;
    ret ((vadd (fst acc) (vscale weight (fget T d)), nadd (snd acc) weight), false)) m = Ok ((ring_sum T (h :: r), rsum (map (w_cot m) (h :: r))), m).
Proof.
  intros Hv Eh Hr. rewrite (circ_v_ok m W v h r _ (fun acc y => ((vadd (fst acc) (vscale (w_cot m y) (fget (N := NumR) T (dst_of m y))), @nadd NumR (snd acc) (w_cot m y)), false)) _ Hv Eh Hr).
  - rewrite (bfold_fold (fun acc y => (vadd (fst acc) (vscale (w_cot m y) (fget (N := NumR) T (dst_of m y))), @nadd NumR (snd acc) (w_cot m y)))). do 2 f_equal. unfold ring_sum. generalize (h :: r). intros k.
    assert (G : forall (a : vecR) (s : R), fold_left (fun acc y => (vadd (fst acc) (vscale (w_cot m y) (fget (N := NumR) T (dst_of m y))), @nadd NumR (snd acc) (w_cot m y))) k (a, s) =
      (vadd a (vsum (map (fun y => vscale (w_cot m y) (fget (N := NumR) T (dst_of m y))) k)), s + rsum (map (w_cot m) k))).
    { induction k as [|y k IH]; intros a s; cbn [fold_left map fst snd]; [f_equal; [cbn [vsum fold_right]; rewrite vadd_zero; reflexivity|cbn; lra]|].
      etransitivity; [apply IH|]. rewrite vsum_cons, rsum_cons. f_equal; [symmetry; apply vadd_assoc|cbn; lra]. }
    etransitivity; [apply G|]. f_equal; [rewrite vadd_comm; apply vadd_zero|cbn; lra].
  - intros y a Hy _. rewrite (bind_ok _ _ _ _ _ (dst_of_ok m W y Hy)), (bind_ok _ _ _ _ _ (cot_ok m W y Hy)). reflexivity.
Qed.
(** The sums over the ring of a vertex are sums over its neighbours. *)
Lemma ring_blend T v L (x : vecR) (q s : R) (S : vecR) : In v (m_verts m) -> Vring m v L -> rsum (map (w_cot m) L) = q -> q <> 0 -> ring_sum T L = S ->
  vlength x = 1 -> 0 < s -> vscale s x = vadd (vscale (/ 2) (T v)) (vscale (/ 2 / q) S) -> Blend m T v x.
Proof.
  intros Hv (_ & Hnd & Hin) Eq Nq ES U Ps Ex. assert (NP := valid_noparallel m V). assert (NB : ~ on_boundary m v) by (intros (h & Ih & _ & B); rewrite (Cl h Ih) in B; discriminate).
  set (w := w_cot m) in *. set (WW := fun u => w (hd 0%nat (between m v u))). set (dn := dst_n m).
  assert (EW : forall y, In y L -> WW (dn y) = w y). { intros y Hy. apply Hin in Hy as [Iy Sy]. unfold WW, dn. rewrite (between_one m W NP y v (dst_n m y) Iy Sy (dst_n_ok m V y Iy)). reflexivity. }
  assert (ET : total (map WW (map dn L)) = q). { rewrite <- Eq, map_map. apply rsum_ext. exact EW. }
  assert (EC : forall c, linear c -> total (map (fun u => WW u * c (T u)) (map dn L)) = c S).
  { intros c Hc. rewrite <- ES. unfold ring_sum. rewrite (linear_sum c _ Hc), !map_map. apply rsum_ext. intros y Hy. rewrite (EW y Hy). apply Hin in Hy as [Iy _]. unfold dn. rewrite (dst_n_ok m V y Iy). cbn [fget]. symmetry. apply (proj2 Hc). }
  exists (map dn L), WW, (vscale (/ q) S). split; [|split; [|split; [|split; [|split; [exact U|]]]]].
  - assert (J : forall x y, In x L -> In y L -> dn x = dn y -> x = y).
    { intros a b Ha Hb E. apply Hin in Ha as [Ia Sa]. apply Hin in Hb as [Ib Sb]. apply NP; [exact Ia|exact Ib|congruence|]. unfold dn in E. rewrite (dst_n_ok m V a Ia), (dst_n_ok m V b Ib), E. reflexivity. }
    clear - Hnd J. induction Hnd as [|a k Ha Hnd IH]; cbn [map]; constructor.
    + intros H. apply in_map_iff in H as (y & E & Hy). apply Ha. rewrite (J a y); [exact Hy|left; reflexivity|right; exact Hy|congruence].
    + apply IH. intros; apply J; try right; assumption.
  - intros u. rewrite in_map_iff. split.
    + intros (y & <- & Hy). apply Hin in Hy as [Iy Sy]. exists y. split; [exact Iy|]. split; [exact Sy|apply (dst_n_ok m V y Iy)].
    + intros (y & Iy & Sy & Dy). exists y. split; [unfold dn, dst_n; rewrite Dy; reflexivity|apply Hin; auto].
  - intros u (y & Iy & Sy & Dy). assert (E : u = dn y) by (unfold dn, dst_n; rewrite Dy; reflexivity). rewrite E, (EW y) by (apply Hin; auto). rewrite <- E. exact (cot_inner m V y v u Iy Sy Dy NB).
  - destruct linear_coord as (L1 & L2 & L3). unfold weighted_mean. rewrite ET, (EC vx L1), (EC vy L2), (EC vz L3). split; [exact Nq|]. destruct L1 as [_ S1], L2 as [_ S2], L3 as [_ S3]. rewrite S1, S2, S3. change (@num NumR) with R in *. split; [field; exact Nq|split; field; exact Nq].
  - exists s. split; [exact Ps|]. rewrite Ex. apply half_towards.
Qed.
Lemma smooth_one_ok T v : In v l -> NormalField l T -> OK (smooth_normal T v) m (fun T' => NormalField l T' /\ exists x, Blend m T v x /\ T' = fun u => if Nat.eqb u v then x else T u).
Proof.
  intros Hv [H1 H2]. destruct (vring m W v (Iv v Hv)) as (h & r & Eh & Hr). unfold smooth_normal. apply (ot_get True _ _ _ m _ (smooth_reads T v h r (Iv v Hv) Eh Hr)). cbn [fst snd].
  set (q := rsum (map (w_cot m) (h :: r))). set (S := ring_sum T (h :: r)).
  eapply ot_bind; [apply (ot_opt _ m (fun c : vecR => q <> 0 /\ c = vscale (/ 2 / q) S))|].
  { intros c E. assert (Nq : q <> 0) by exact (proj1 (vdiv_mean _ _ _ E)). split; [exact Nq|]. rewrite (vdiv_ok _ q Nq) in E. injection E as <-. apply half_over. }
  intros c [Nq Ec]. eapply ot_bind; [apply (ot_opt _ m (fun n : vecR => Blend m T v n))|].
  { intros n E. apply normalize_some in E. destruct E as (Nz & U & E). assert (Ps := vlen_pos_of _ Nz). apply (ring_blend T v (h :: r) n q _ S (Iv v Hv) Hr eq_refl Nq eq_refl U Ps). rewrite <- Ec. exact E. }
  intros n Hb. apply ot_ret. split; [|exists n; split; [exact Hb|reflexivity]]. destruct Hb as (_ & _ & _ & _ & _ & _ & _ & U & _). split; intros u Hu; rewrite fset_at; destruct (Nat.eqb_spec u v) as [E|E]; auto. subst. contradiction.
Qed.
Lemma sweep_ok k : forall T, (forall v, In v k -> In v l) -> NormalField l T -> OK (mfold smooth_normal T k) m (fun T' => NormalField l T' /\ Sweep m k T T').
Proof.
  induction k as [|v k IH]; intros T Hk HT; cbn [mfold Sweep]; [apply ot_ret; auto|]. eapply ot_bind; [apply (smooth_one_ok T v (Hk v (or_introl eq_refl)) HT)|]. intros T1 (N1 & x & Hb & ->).
  eapply ot_weaken; [apply (IH _ (fun u Hu => Hk u (or_intror Hu)) N1)|]. intros T' [N2 S2]. split; [exact N2|]. exists x. split; [exact Hb|exact S2].
Qed.
Lemma smooth_ok k : forall T, NormalField l T -> OK (smooth_normals k l T) m (fun T' => NormalField l T' /\ Sweeps m l k T T').
Proof.
  induction k as [|k IH]; intros T HT; cbn [smooth_normals Sweeps]; [apply ot_ret; auto|]. eapply ot_bind; [apply (sweep_ok l T (fun _ H => H) HT)|]. intros T1 [N1 S1].
  eapply ot_weaken; [apply (IH T1 N1)|]. intros T' [N2 S2]. split; [exact N2|]. exists T1. auto.
Qed.
Lemma normals_ok : OK (new_normals l) m (fun T => NormalField l T /\ Smoothed m l T).
Proof.
  unfold new_normals. eapply ot_bind; [exact first_ok|]. intros T0 [HT [F1 F2]]. eapply ot_weaken; [apply (smooth_ok 1000 T0 HT)|]. intros T [N1 S1]. split; [exact N1|]. exists T0. auto.
Qed.

(** ** The faces at the vertices *)
(** The triangle of a half-edge. *)
Lemma at_tri h : In h (m_hes m) -> exists f a b c, In f (m_faces m) /\ h_face m h = Some f /\ Spec.Tri m f a b c /\ a <> b /\ b <> c /\ c <> a /\ h_src m h = Some a /\ dst_of m h = Some b /\ prev_src m h = Some c.
Proof. intros Hh. apply he_tri; [exact V|exact Hh|apply Cl, Hh]. Qed.
Definition Touches (f : nat) : Prop := exists h v, In h (m_hes m) /\ h_face m h = Some f /\ h_src m h = Some v /\ In v l.
Lemma face_inside_ok f : In f (m_faces m) -> Touches f -> face_inside l (Some f) m = Ok (true, m).
Proof.
  intros Hf (h & v & Ih & Fh & Sh & Hv). destruct (fring m W f Hf) as (x & r & Ex & Hr). assert (LK := f_isLocked_ok m W f x r Hf Ex Hr).
  assert (K : (forall y s, In y (m_hes m) -> h_face m y = Some f -> h_src m y = Some s -> In s l) \/ existsb (lockb m) (x :: r) = true).
  { destruct (at_tri h Ih) as (f' & a & b & c & _ & F' & T & _ & _ & _ & Sa & Db & Pc). assert (f' = f) by congruence. assert (a = v) by congruence. subst f' a.
    assert (Lk : forall y s, In y (m_hes m) -> h_face m y = Some f -> h_src m y = Some s -> v_lock m s = true -> existsb (lockb m) (x :: r) = true).
    { intros y s Iy Fy Sy L. apply existsb_exists. exists y. split; [destruct Hr as (_ & _ & Hin); apply Hin; auto|]. unfold lockb. rewrite Sy. exact L. }
    destruct T as (t0 & t1 & t2 & Hin & E0 & E1 & E2 & S0 & S1 & S2).
    assert (I0 := proj2 (Hin t0) (or_introl eq_refl)). assert (I1 := proj2 (Hin t1) (or_intror (or_introl eq_refl))). assert (I2 := proj2 (Hin t2) (or_intror (or_intror eq_refl))).
    assert (Ab : adj m v b). { exists t0. split; [apply I0|]. split; [exact S0|]. rewrite (dst_next m t0 t1 W (proj1 I0) E0). exact S1. }
    assert (Ac : adj m v c). { destruct (revm_ok m W t2 (proj1 I2)) as (Er & Ir & _ & R1 & R2). exists (revm m t2). split; [exact Ir|]. assert (D2 := dst_next m t2 t0 W (proj1 I2) E2). split; congruence. }
    destruct (rg_rim m l Rg v b Hv Ab) as [Ib|Lb]; [|right; exact (Lk t1 b (proj1 I1) (proj2 I1) S1 Lb)].
    destruct (rg_rim m l Rg v c Hv Ac) as [Ic|Lc]; [|right; exact (Lk t2 c (proj1 I2) (proj2 I2) S2 Lc)].
    left. intros y s Iy Fy Sy. destruct (proj1 (Hin y) (conj Iy Fy)) as [-> | [-> | ->]]; congruence. }
  unfold face_inside. rewrite (circ_f_ok m W f x r _ (fun acc (y : nat) => (acc, false)) _ Hf Ex Hr).
  - do 2 f_equal. generalize (x :: r). intros k. induction k as [|y k IH]; [reflexivity|exact IH].
  - intros y a Iy Fy. destruct (wf_src m W y Iy) as (s & Sy & Is). rewrite (bind_ok _ _ _ _ _ (r_src m y (h_alive m W y Iy))), (bind_ok _ _ _ _ _ LK). rewrite Sy.
    destruct K as [K|K]; [rewrite (proj2 (inside_iff l s) (K y s Iy Fy Sy)); reflexivity|rewrite K, andb_false_r; reflexivity].
Qed.
Lemma faces_ok : exists fs, inside_faces l m = Ok (fs, m) /\ NoDup fs /\ forall f, In f fs <-> In f (m_faces m) /\ Touches f.
Proof.
  unfold inside_faces.
  set (body := fun (acc : list nat) (v : nat) => fs <- v_faces (Some v) ;; mfold (fun acc f => b <- face_inside l f ;; ret (match f with Some a => if b && negb (existsb (Nat.eqb a) acc) then acc ++ [a] else acc | None => acc end)) acc fs).
  assert (G : forall k acc, (forall v, In v k -> In v l) -> NoDup acc -> exists fs, mfold body acc k m = Ok (fs, m) /\ NoDup fs /\
    forall f, In f fs <-> In f acc \/ In f (m_faces m) /\ exists h v, In h (m_hes m) /\ h_face m h = Some f /\ h_src m h = Some v /\ In v k).
  { induction k as [|v k IH]; intros acc Hk Na; cbn [mfold].
    - exists acc. split; [reflexivity|]. split; [exact Na|]. intros f. split; [auto|]. intros [I|(_ & h & v & _ & _ & _ & [])]. exact I.
    - assert (Hv := Hk v (or_introl eq_refl)). destruct (vring m W v (Iv v Hv)) as (h & r & Eh & Hr). 
      assert (S : forall ys acc, (forall y, In y ys -> In y (m_hes m) /\ h_src m y = Some v) -> NoDup acc -> exists fs, mfold (fun acc f => b <- face_inside l f ;; ret (match f with Some a => if b && negb (existsb (Nat.eqb a) acc) then acc ++ [a] else acc | None => acc end)) acc (map (h_face m) ys) m = Ok (fs, m) /\ NoDup fs /\
        forall f, In f fs <-> In f acc \/ exists y, In y ys /\ h_face m y = Some f).
      { clear - V Cl Rg Hv. set (W := valid_wf m V). induction ys as [|y ys IH]; intros acc Hys Na; cbn [map mfold].
        - exists acc. split; [reflexivity|]. split; [exact Na|]. intros f. split; [auto|]. intros [I|(y & [] & _)]. exact I.
        - destruct (Hys y (or_introl eq_refl)) as [Iy Sy]. destruct (wf_face m W y Iy) as (f & Ef & If). rewrite Ef.
          assert (Tf : Touches f) by (exists y, v; auto). unfold bind at 1. rewrite (bind_ok _ _ _ _ _ (face_inside_ok f If Tf)). unfold ret. cbn [andb].
          destruct (existsb (Nat.eqb f) acc) eqn:X; cbn [negb].
          + destruct (IH acc (fun z Hz => Hys z (or_intror Hz)) Na) as (fs & E & Nf & Hf). exists fs. split; [exact E|]. split; [exact Nf|]. intros g. rewrite Hf. split.
            * intros [I|(z & Iz & Fz)]; [auto|]. right. exists z. split; [right; exact Iz|exact Fz].
            * intros [I|(z & [<-|Iz] & Fz)]; [auto| |right; exists z; auto]. left. assert (g = f) by congruence. subst g. apply existsb_exists in X. destruct X as (q & Iq & Eq). apply Nat.eqb_eq in Eq. subst. exact Iq.
          + assert (Nf0 : ~ In f acc). { intros I. assert (existsb (Nat.eqb f) acc = true) by (apply existsb_exists; exists f; split; [exact I|apply Nat.eqb_refl]). congruence. }
            destruct (IH (acc ++ [f]) (fun z Hz => Hys z (or_intror Hz))) as (fs & E & Nf & Hf).
            { apply NoDup_app_disj; [exact Na|constructor; [intros []|constructor]|]. intros q I1 [<-|[]]. contradiction. }
            exists fs. split; [exact E|]. split; [exact Nf|]. intros g. rewrite Hf, in_app_iff. cbn [In]. split.
            * intros [[I|[<-|[]]]|(z & Iz & Fz)]; [auto| |right; exists z; auto]. right. exists y. auto.
            * intros [I|(z & [<-|Iz] & Fz)]; [auto| |right; exists z; auto]. left. right. left. congruence. }
      destruct (S (h :: r) acc) as (a1 & E1 & N1 & H1); [intros y Hy; destruct Hr as (_ & _ & Hin); apply Hin, Hy|exact Na|].
      assert (Eb : body acc v m = Ok (a1, m)) by (unfold body; rewrite (bind_ok _ _ _ _ _ (v_faces_ok m W v h r (Iv v Hv) Eh Hr)); exact E1).
      rewrite (bind_ok _ _ _ _ _ Eb). destruct (IH a1 (fun z Hz => Hk z (or_intror Hz)) N1) as (fs & E & Nf & Hf). exists fs. split; [exact E|]. split; [exact Nf|]. intros f. rewrite Hf, H1. split.
      + intros [[I|(y & Iy & Fy)]|(If & x & u & Hx & Fx & Sx & Iu)]; [auto| |].
        * right. destruct Hr as (_ & _ & Hin). apply Hin in Iy. destruct Iy as [Iy Sy]. destruct (wf_face m W y Iy) as (f' & Ef & If). assert (f' = f) by congruence. subst f'. split; [exact If|]. exists y, v. split; [exact Iy|]. split; [exact Fy|]. split; [exact Sy|left; reflexivity].
        * right. split; [exact If|]. exists x, u. split; [exact Hx|]. split; [exact Fx|]. split; [exact Sx|right; exact Iu].
      + intros [I|(If & x & u & Hx & Fx & Sx & [<-|Iu])]; [auto| |].
        * left. right. exists x. split; [|exact Fx]. destruct Hr as (_ & _ & Hin). apply Hin. auto.
        * right. split; [exact If|]. exists x, u. auto. }
  destruct (G l [] (fun v H => H) (NoDup_nil _)) as (fs & E & N1 & H). exists fs. split; [exact E|]. split; [exact N1|]. intros f. rewrite H. unfold Touches. cbn [In]. tauto.
Qed.
(** ** Rotations *)
(** Whether the mean of the normals of a triangle may be undefined. *)
Variable thr : Prop.
Definition Means (T : nat -> vecR) : Prop := thr \/ forall f a b c, Touches f -> Spec.Tri m f a b c -> vadd (vadd (T a) (T b)) (T c) <> vzero.
Local Notation OK := (OT thr).
Definition RotOf (T : nat -> vecR) (f : nat) (r : mat3 NumR) : Prop :=
  forall a b c, Spec.Tri m f a b c -> exists n0 n1, Normal (v_pos m a) (v_pos m b) (v_pos m c) n0 /\ Mean3 (T a) (T b) (T c) n1 /\ r = turn (N := NumR) cos sin n0 n1.
Lemma tri_cases f a b c a' b' c' : Spec.Tri m f a b c -> Spec.Tri m f a' b' c' -> (a', b', c') = (a, b, c) \/ (a', b', c') = (b, c, a) \/ (a', b', c') = (c, a, b).
Proof.
  intros (x & y & z & Hin & E1 & E2 & E3 & S1 & S2 & S3) (x' & y' & z' & Hin' & E1' & E2' & E3' & S1' & S2' & S3').
  assert (X : In x' (m_hes m) /\ h_face m x' = Some f) by (apply Hin'; auto). apply Hin in X. destruct X as [-> | [-> | ->]]; [left|right; left|right; right]; congruence.
Qed.
Lemma rotation_ok T f : In f (m_faces m) -> Touches f -> Means T -> OK (rotation_of (N := NumR) cos sin T f) m (RotOf T f).
Proof.
  intros Hf Tc Mn. destruct (valid_face_tri m f V Cl Hf) as (x & y & z & a & b & c & _ & Tf & Nab & Nbc & Nca & _). assert (P := ND f a b c Hf Tf).
  destruct (f_normal_ok m f a b c W Hf Tf Nab Nbc Nca P) as (n0 & En & U0 & F0). destruct (tri_face_ring m f a b c W Hf Tf Nab Nbc Nca) as (h & r & Eh & Hr & Ia & Ib & Ic & Es).
  unfold rotation_of. apply (ot_get thr _ _ _ m _ En).
  assert (E : circ_f (Some f) vzero (fun acc it => s <- he_src it ;; ret (vadd acc (fget T s), false)) m = Ok (vadd (vadd (T a) (T b)) (T c), m)).
  { rewrite (circ_f_ok m W f h r _ (fun acc y => (vadd acc (fget (N := NumR) T (h_src m y)), false)) _ Hf Eh Hr).
    - rewrite (bfold_fold (fun acc y => vadd acc (fget (N := NumR) T (h_src m y)))). do 2 f_equal. etransitivity; [exact (vfold_sum (fun y => fget (N := NumR) T (h_src m y)) (h :: r) vzero)|]. rewrite <- (map_map (h_src m) (fget (N := NumR) T)).
      destruct Es as [-> | [-> | ->]]; cbn [map fget vsum fold_right]; generalize (T a) (T b) (T c); intros ta tb tc; vring.
    - intros q acc Iq _. rewrite (bind_ok _ _ _ _ _ (r_src m q (h_alive m W q Iq))). reflexivity. }
  apply (ot_get thr _ _ _ m _ E). eapply ot_bind; [apply (ot_lift thr _ m (fun n1 => Mean3 (T a) (T b) (T c) n1))|].
  { intros n1 En1. apply normalize_some in En1. destruct En1 as (Nz & U1 & S1). split; [exact U1|]. exists (vlength (vadd (vadd (T a) (T b)) (T c))). split; [|exact S1].
    destruct (vlength_pos (vadd (vadd (T a) (T b)) (T c))) as [H|H]; [exact H|]. exfalso. apply Nz, vlength_zero. symmetry. exact H. }
  { intros No. destruct Mn as [Mn|Mn]; [exact Mn|exfalso]. destruct (normalize_unit _ (Mn f a b c Tc Tf)) as (q & Eq & _). congruence. }
  intros n1 M1. apply ot_ret. intros a' b' c' T'. exists n0, n1.
  assert (N0 : Normal (v_pos m a) (v_pos m b) (v_pos m c) n0).
  { split; [exact U0|]. exists (2 * tri_area (v_pos m a) (v_pos m b) (v_pos m c)). split; [lra|]. rewrite F0, vscale_mul. replace (2 * tri_area (v_pos m a) (v_pos m b) (v_pos m c) * / (2 * tri_area (v_pos m a) (v_pos m b) (v_pos m c))) with 1 by (field; lra). apply vscale_one. }
  destruct N0 as [_ (s0 & P0 & E0)], M1 as [U1 (s1 & P1 & E1)].
  destruct (tri_cases f a b c a' b' c' Tf T') as [Q|[Q|Q]]; injection Q as -> -> ->; (split; [split; [exact U0|exists s0; split; [exact P0|rewrite E0; generalize (v_pos m a) (v_pos m b) (v_pos m c); intros pa pb pc; vring]]|]); (split; [|reflexivity]); (split; [exact U1|exists s1; split; [exact P1|rewrite E1; generalize (T a) (T b) (T c); intros ta tb tc; vring]]).
Qed.
Lemma rots_ok T fs : Means T -> (forall f, In f fs -> In f (m_faces m) /\ Touches f) -> OK (rotations (N := NumR) cos sin T fs) m (fun R => forall f, In f fs -> exists r, rot_at R f = Some r /\ RotOf T f r).
Proof.
  intros Mn Hf. unfold rotations. induction fs as [|f fs IH]; cbn [mmap]; [apply ot_ret; intros f []|].
  eapply ot_bind; [eapply ot_bind; [destruct (Hf f (or_introl eq_refl)) as [F1 F2]; apply (rotation_ok T f F1 F2 Mn)|]; intros r Hr; apply (ot_ret thr (f, r) m (fun fr => fst fr = f /\ RotOf T f (snd fr))); auto|].
  intros [g r] [Eg Hr]. cbn [fst snd] in Eg, Hr. subst g. eapply ot_bind; [apply IH; intros g Hg; apply Hf; right; exact Hg|]. intros R HR. apply ot_ret. intros g Hg. cbn [rot_at].
  destruct (Nat.eqb_spec f g) as [->|Nfg]; [exists r; auto|]. destruct Hg as [Hg|Hg]; [congruence|apply HR, Hg].
Qed.
(** ** Gradients *)
Definition EdgeVec (T : nat -> vecR) (y : nat) (g : vecR) : Prop :=
  forall f a b c, h_face m y = Some f -> h_src m y = Some a -> dst_of m y = Some b -> prev_src m y = Some c ->
  exists n0 n1 e, Normal (v_pos m a) (v_pos m b) (v_pos m c) n0 /\ Mean3 (T a) (T b) (T c) n1 /\ AwayFrom (v_pos m a) (v_pos m b) (v_pos m c) e /\ g = turned n0 n1 e.
Lemma turned_scale (n0 n1 x : vecR) s : turned n0 n1 (vscale s x) = vscale s (turned n0 n1 x).
Proof. unfold turned. cbv zeta. generalize (cross n0 n1) (vlength (cross n0 n1)) (1 - dot n0 n1). intros a p q. vring. Qed.
Lemma edge_grad_ok T R y : In y (m_hes m) -> (forall f, h_face m y = Some f -> exists r, rot_at R f = Some r /\ RotOf T f r) -> OK (gradient_edge R (Some y)) m (EdgeVec T y).
Proof.
  intros Hy HR. destruct (at_tri y Hy) as (f & a & b & c & If & Ff & Tf & Nab & Nbc & Nca & Sa & Db & Pc).
  destruct (closed_next3 m y V Cl Hy) as (n & k & En & Ek & Ey & In_ & Ik).
  assert (Sb : h_src m n = Some b) by (rewrite <- (dst_next m y n W Hy En); exact Db). assert (Sc : h_src m k = Some c) by (unfold prev_src, next_of in Pc; rewrite En, Ek in Pc; exact Pc).
  assert (Ia := src_in m W y a Hy Sa). assert (Ib := src_in m W n b In_ Sb). assert (Ic := src_in m W k c Ik Sc).
  unfold gradient_edge. eapply ot_get; [exact (r_next m y (h_alive m W y Hy))|]. rewrite En. eapply ot_get; [exact (r_next m n (h_alive m W n In_))|]. rewrite Ek. eapply ot_get; [exact (r_next m k (h_alive m W k Ik))|]. rewrite Ey.
  eapply ot_get; [rewrite ptr_eqb_refl; reflexivity|]. eapply ot_get; [exact (r_src m y (h_alive m W y Hy))|]. rewrite Sa. eapply ot_get; [exact (r_src m n (h_alive m W n In_))|]. rewrite Sb. eapply ot_get; [exact (r_src m k (h_alive m W k Ik))|]. rewrite Sc.
  eapply ot_get; [exact (r_pos m a (v_alive m W a Ia))|]. eapply ot_get; [exact (r_pos m b (v_alive m W b Ib))|]. eapply ot_get; [exact (r_pos m c (v_alive m W c Ic))|].
  eapply ot_bind; [apply (ot_lift thr _ m (fun e : vecR => AwayFrom (v_pos m a) (v_pos m b) (v_pos m c) (vscale (/ 2) e))); [intros e E; apply rot90_away, E|]|].
  { intros No. exfalso. destruct (rot90_some _ _ _ (ND f a b c If Tf)) as (e & E). change (@num NumR) with R in *. congruence. }
  intros e He.
  eapply ot_get; [exact (r_face m y (h_alive m W y Hy))|]. rewrite Ff. destruct (HR f Ff) as (r & Er & Hr). unfold rotation_at. rewrite Er. eapply ot_get; [reflexivity|].
  apply ot_lift; [|intros No; exfalso; rewrite vdiv_ok in No; [discriminate|change (@ntwo NumR) with 2; lra]]. intros g Eg. apply vdiv_some in Eg. destruct Eg as [_ ->]. intros f' a' b' c' F' S' D' P'. assert (a' = a) by congruence. assert (b' = b) by congruence. assert (c' = c) by congruence. subst a' b' c'.
  destruct (Hr a b c Tf) as (n0 & n1 & N0 & M1 & ->). exists n0, n1, (vscale (/ 2) e). split; [exact N0|]. split; [exact M1|]. split; [exact He|]. change (@ntwo NumR) with 2. etransitivity; [|symmetry; exact (turned_scale n0 n1 e (/ 2))]. f_equal. apply turn_app; [apply N0|apply M1].
Qed.
Lemma gradient_ok T R v : In v l -> (forall f, In f (m_faces m) -> Touches f -> exists r, rot_at R f = Some r /\ RotOf T f r) -> OK (gradient R v) m (Pull m T v).
Proof.
  intros Hv HR. destruct (vring m W v (Iv v Hv)) as (h & r & Eh & Hr). unfold gradient. eapply ot_bind.
  { apply (ot_circ thr m v h r _ (fun acc y acc' => snd acc' = (snd acc + 1)%Z /\ exists g, EdgeVec T y g /\ fst acc' = vadd (fst acc) g) _ W (Iv v Hv) Eh Hr).
    intros y acc Hy Sy. eapply ot_bind; [apply (edge_grad_ok T R y Hy)|].
    - intros f Ff. destruct (wf_face m W y Hy) as (f' & Ef & If). assert (f' = f) by congruence. subst f'. apply (HR f If). exists y, v. auto.
    - intros g Hg. apply ot_ret. cbn [fst snd]. split; [reflexivity|]. split; [reflexivity|]. exists g. auto. }
  intros [s c] St. cbn [fst snd].
  assert (K : forall ys acc acc', steps (fun (acc : vecR * Z) y acc' => snd acc' = (snd acc + 1)%Z /\ exists g, EdgeVec T y g /\ fst acc' = vadd (fst acc) g) acc ys acc' ->
    exists G : list (nat * vecR), map fst G = ys /\ (forall y g, In (y, g) G -> EdgeVec T y g) /\ snd acc' = (snd acc + Z.of_nat (length ys))%Z /\ fst acc' = vadd (fst acc) (vsum (map snd G))).
  { intros ys acc acc'. induction 1 as [a|a y b k d (E1 & g & Hg & E2) _ (G & Em & HG & E3 & E4)].
    - exists []. split; [reflexivity|]. split; [intros y g []|]. split; [cbn; lia|]. cbn [map vsum fold_right]. symmetry. apply vadd_zero.
    - exists ((y, g) :: G). split; [cbn [map fst]; congruence|]. split; [intros z q [Q|Q]; [injection Q as <- <-; exact Hg|apply HG, Q]|]. split; [rewrite E3, E1; cbn [length]; lia|].
      cbn [map snd]. rewrite vsum_cons, E4, E2. symmetry. apply vadd_assoc. }
  destruct (K (h :: r) _ _ St) as (G & Em & HG & E3 & E4). cbn [fst snd] in E3, E4.
  assert (Hp : Permutation (h :: r) (at_v m v)). { destruct Hr as (_ & N1 & Hin). apply NoDup_Permutation; [exact N1|apply NoDup_filter, (wf_h_nodup m W)|]. intros q. rewrite Hin. symmetry. apply at_v_in. }
  apply ot_lift; [|intros No; exfalso; rewrite vdiv_ok in No; [discriminate|]; rewrite E3; change (@nofZ NumR) with IZR; apply not_0_IZR; cbn [length]; lia].
  intros g Eg. apply vdiv_some in Eg. destruct Eg as [Nc ->].
  assert (Nb : ~ on_boundary m v) by (apply closed_inner, Cl).
  destruct (faces_at (fun y => y) m v V Nb) as (F1 & F2 & F3). set (L0 := map (fun h => (face_of m h, h)) (at_v m v)) in *.
  exists (map (fun yg => (face_of m (fst yg), snd yg)) G).
  assert (Ef : map fst (map (fun yg : nat * vecR => (face_of m (fst yg), snd yg)) G) = map (face_of m) (h :: r)) by (rewrite map_map, <- Em, map_map; reflexivity).
  assert (Pf : Permutation (map (face_of m) (h :: r)) (map fst L0)) by (unfold L0; rewrite map_map; cbn [fst]; apply Permutation_map, Hp).
  rewrite Ef. split; [apply (Permutation_NoDup (Permutation_sym Pf)), F1|]. split.
  { intros f. rewrite <- F2. split; intros X; [apply (Permutation_in f Pf X)|apply (Permutation_in f (Permutation_sym Pf) X)]. }
  split.
  - intros f x b c' Hx Tx. apply in_map_iff in Hx. destruct Hx as ((y & g) & Q & IG). cbn [fst snd] in Q. injection Q as Qf ->. assert (Iy : In y (h :: r)) by (rewrite <- Em; apply (in_map fst G (y, x)), IG).
    assert (IL : In (f, y) L0). { unfold L0. apply in_map_iff. exists y. split; [rewrite Qf; reflexivity|apply (Permutation_in y Hp Iy)]. }
    destruct (F3 f y b c' IL Tx) as (h' & <- & Ih' & S' & D' & P' & If). apply (HG y x IG f v b c'); auto.
    apply at_v_in in Ih'. destruct (wf_face m W y (proj1 Ih')) as (f' & Ef' & _). unfold face_of in Qf. rewrite Ef' in Qf. congruence.
  - rewrite !map_map. cbn [snd]. rewrite map_length. assert (LG : length G = length (h :: r)) by (rewrite <- Em, map_length; reflexivity).
    rewrite vscale_mul, E4. rewrite LG, INR_IZR_INZ. rewrite E3 in *. change (@nofZ NumR) with IZR in *. replace (0 + Z.of_nat (length (h :: r)))%Z with (Z.of_nat (length (h :: r))) in * by lia. rewrite Rinv_r by exact Nc. rewrite vscale_one, vadd_comm, vadd_zero. reflexivity.
Qed.
Lemma grads_ok T R : (forall f, In f (m_faces m) -> Touches f -> exists r, rot_at R f = Some r /\ RotOf T f r) -> OK (gradients R l) m (fun G => forall v, In v l -> Pull m T v (G v)).
Proof.
  intros HR. unfold gradients. apply (ot_mfold _ _ (fun pre G => forall v, In v pre -> Pull m T v (G v)) m l []); [intros v []|].
  intros pre v G Hv HG. eapply ot_bind; [apply (gradient_ok T R v Hv HR)|]. intros g Hg. apply ot_ret. intros u Hu. rewrite fset_at. destruct (Nat.eqb_spec u v) as [->|E]; [exact Hg|]. apply HG. apply in_app_or in Hu. destruct Hu as [Hu|[Hu|[]]]; [exact Hu|congruence].
Qed.
End P.
