(** The Poisson equation of the relaxation, and the whole relaxation. *)
From Coq Require Import Reals Lra Lia List ZArith Bool Arith Permutation.
From Verif Require Import Num NumInst Vec Heap Mesh Spec Orbit Rings Exec Diamond Queries GeomSpec VecR Measure MeasureR MeasureM SmoothSpec SmoothD SmoothF Curv CurvN LaplSpec Lapl LaplP LaplM CotPsd LinR Tensor TensorSpec TensorR TensorM Feat FeatSpec FeatR FeatM FeatS FeatO Relax RelaxSpec RelaxA RelaxP ReadOnly.
Import ListNotations.
Local Open Scope mesh_scope.
Local Open Scope R_scope.
Implicit Types m : mesh NumR.

Section Q.
Variable m : mesh NumR.
Hypothesis V : Valid m.
Hypothesis Cl : Closed m.
Hypothesis ND : NonDegenerate m.
Variable l : list nat.
Hypothesis Rg : Region m l.
Let W := valid_wf m V.
Let n := length (m_verts m).
Let Iv := rg_in m l Rg.
Let A := entryR (lmat m (w_cot m)).

(** ** The marks *)
Definition DD : list (vecR * R) := map (fun v => (v_pos m v, if inside l (Some v) then 0 else 1)) (m_verts m).
Lemma DD_len : length DD = n. Proof. apply map_length. Qed.
Lemma DD_at i : (i < n)%nat -> nth i DD (vzero, 0) = (v_pos m (vat m i), if inside l (Some (vat m i)) then 0 else 1).
Proof. intros Hi. apply nth_error_nth. unfold DD. apply map_nth_error with (f := fun v => (v_pos m v, if inside l (Some v) then 0 else 1)). apply vat_nth, Hi. Qed.
Lemma flb_in i : (i < n)%nat -> flb DD i = negb (inside l (Some (vat m i))).
Proof. intros Hi. unfold flb. rewrite (DD_at i Hi). cbn [snd]. destruct (inside l (Some (vat m i))); cbn; unfold Reqb; destruct (Req_EM_T _ _); try reflexivity; lra. Qed.
Lemma marks_ok : outer_marks l m = Ok (DD, m).
Proof.
  unfold outer_marks. rewrite bind_get. unfold DD. assert (H : forall v, In v (m_verts m) -> In v (m_verts m)) by auto. revert H. generalize (m_verts m) at 1 3 4. intros k. induction k as [|v k IH]; intros H; [reflexivity|]. cbn [mmap map].
  assert (E : (p <- ve_pos (Some v) ;; ret (p, if inside l (Some v) then nzero else none_)) m = Ok ((v_pos m v, if inside l (Some v) then @nzero NumR else @none_ NumR), m)) by (rewrite (bind_ok _ _ _ _ _ (r_pos m v (v_alive m W v (H v (or_introl eq_refl))))); reflexivity).
  rewrite (bind_ok _ _ _ _ _ E), (bind_ok _ _ _ _ _ (IH (fun u Hu => H u (or_intror Hu)))). reflexivity.
Qed.
Lemma reached : AllReached m DD.
Proof.
  intros v Hv. destruct (rg_stay m l Rg v Hv) as (w & Rw & Iw & Nw). destruct (vat_of m w Iw) as (i & Hi & ->). exists i, (vat m i). split; [exact Rw|]. split; [apply vat_nth, Hi|].
  apply flb_iff. rewrite (flb_in i Hi). destruct (inside l (Some (vat m i))) eqn:E; [apply inside_iff in E; contradiction|reflexivity].
Qed.
(** ** The system *)
Definition ids : list nat := map (fun v => Z.to_nat (v_idx m v)) l.
Lemma ids_at v : In v l -> exists i, (i < n)%nat /\ v = vat m i /\ v_idx m v = Z.of_nat i.
Proof. intros Hv. destruct (vat_of m v (Iv v Hv)) as (i & Hi & E). exists i. split; [exact Hi|]. split; [exact E|]. rewrite E. apply vat_idx; assumption. Qed.
Lemma ids_in i : In i ids <-> (i < n)%nat /\ In (vat m i) l.
Proof.
  unfold ids. rewrite in_map_iff. split.
  - intros (v & E & Hv). destruct (ids_at v Hv) as (j & Hj & Ev & Ej). rewrite Ej, Nat2Z.id in E. subst j. split; [exact Hj|]. rewrite <- Ev. exact Hv.
  - intros [Hi Hv]. exists (vat m i). split; [|exact Hv]. rewrite (vat_idx m W i Hi). apply Nat2Z.id.
Qed.
Lemma ids_nodup : NoDup ids.
Proof.
  unfold ids. assert (N := rg_nodup m l Rg). assert (H : forall v, In v l -> exists i, (i < n)%nat /\ v = vat m i /\ v_idx m v = Z.of_nat i) by exact ids_at. revert N H. clear. induction l as [|v k IH]; intros N H; cbn [map]; [constructor|].
  inversion N as [|? ? Nv Nk]; subst. constructor; [|apply IH; [exact Nk|intros u Hu; apply H; right; exact Hu]].
  intros I. apply in_map_iff in I. destruct I as (u & E & Iu). destruct (H v (or_introl eq_refl)) as (i & _ & Ev & Ei), (H u (or_intror Iu)) as (j & _ & Eu & Ej). rewrite Ei, Ej, !Nat2Z.id in E. subst j. apply Nv. congruence.
Qed.
Lemma rows_perm : Permutation (concat (map (rows_of m DD) ids)) (concat (map (rows_of m DD) (seq 0 n))).
Proof.
  assert (P : Permutation ids (filter (fun i => negb (flb DD i)) (seq 0 n))).
  { apply NoDup_Permutation; [exact ids_nodup|apply NoDup_filter, seq_NoDup|]. intros i. rewrite ids_in, filter_In, in_seq. split.
    - intros [Hi Hv]. split; [lia|]. rewrite (flb_in i Hi), (proj2 (inside_iff l (vat m i)) Hv). reflexivity.
    - intros [Hi F]. assert (Hi' : (i < n)%nat) by lia. split; [exact Hi'|]. rewrite (flb_in i Hi'), negb_involutive in F. apply inside_iff, F. }
  rewrite <- !flat_map_concat_map. rewrite P. generalize (seq 0 n). clear. intros k. induction k as [|i k IH]; [constructor|]. cbn [filter flat_map]. unfold rows_of at 2. destruct (flb DD i) eqn:F; cbn [negb]; [exact IH|].
  cbn [flat_map]. unfold rows_of at 1. rewrite F. apply Permutation_app_head, IH.
Qed.
Lemma poisson_sys : exists s, poisson_system DD l m = Ok (s, m) /\ Inv (flz DD) (Pz m) s (concat (map (rows_of m DD) ids)) /\ forall i, (i < n)%nat -> flb DD i = false -> In (Z.of_nat i) (s_non s).
Proof.
  destruct (rows_all m V DD DD_len ids (Sys [] [] [] []) [] (fun i Hi => proj1 (proj1 (ids_in i) Hi)) (inv_nil _ _)) as (s & E & I & _ & H). exists s. split; [|split; [exact I|]].
  - revert E. unfold poisson_system, ids. generalize (Sys (N := NumR) [] [] [] []). assert (K : forall v, In v l -> In v (m_verts m)) by exact Iv. revert K. clear - W. induction l as [|v k IH]; intros K s0; cbn [mfold map]; [auto|].
    intros E. apply bind_inv in E. destruct E as (s1 & m1 & E1 & E2). assert (R : Ro (field_row (N := NumR) DD s0 (Z.to_nat (v_idx m v)))) by ro. assert (R1 := R _ _ _ E1). subst m1. 
    assert (E3 : (i <- ve_idx (Some v) ;; field_row (N := NumR) DD s0 (Z.to_nat i)) m = Ok (s1, m)) by (rewrite (bind_ok _ _ _ _ _ (r_vidx m v (v_alive m W v (K v (or_introl eq_refl))))); exact E1).
    rewrite (bind_ok _ _ _ _ _ E3). apply IH; [intros u Hu; apply K; right; exact Hu|exact E2].
  - intros i Hi F. apply H; [|exact F]. apply ids_in. split; [exact Hi|]. rewrite (flb_in i Hi) in F. apply negb_false_iff in F. apply inside_iff, F.
Qed.
(** ** The solution *)
Variable sparse : nat -> (nat -> nat -> R) -> (nat -> R) -> nat -> R.
Hypothesis HS : ExactSolver sparse.
Section System.
Variable s : system NumR.
Hypothesis I : Inv (flz DD) (Pz m) s (concat (map (rows_of m DD) ids)).
Hypothesis Alln : forall i, (i < n)%nat -> flb DD i = false -> In (Z.of_nat i) (s_non s).
Variable G : nat -> vecR.
Let val := poisson_value (N := NumR) sparse (m_verts m) DD G s.
Definition pos_of (v : nat) : vecR := match number_of (s_non s) (v_idx m v) with Some k => val k | None => v_pos m v end.
Lemma val_coord c k : coord c -> c (val k) = sparse (length (s_non s)) (entryR (s_LL s)) (poisson_rhs (N := NumR) (m_verts m) DD G s c) k.
Proof. intros [->|[->| ->]]; reflexivity. Qed.
Lemma pos_coord c i : coord c -> (i < n)%nat -> flb DD i = false -> sum_to n (fun j => A i j * c (pos_of (vat m j))) = c (G (vat m i)).
Proof.
  intros Hc Hi Fi. set (y := sparse (length (s_non s)) (entryR (s_LL s)) (poisson_rhs (N := NumR) (m_verts m) DD G s c)).
  rewrite <- (solve_rhs m V DD DD_len s _ rows_perm I Alln (fun i => c (G (vat m i))) (fun i => c (v_pos m (vat m i))) y) with (i := i); [|clear i Hi Fi; intros k Hk|exact Hi|exact Fi].
  - apply sum_to_ext. intros j Hj. f_equal. unfold pos_of. rewrite (vat_idx m W j Hj). destruct (number_of (s_non s) (Z.of_nat j)) as [k|]; [apply val_coord, Hc|reflexivity].
  - unfold y. rewrite (HS _ _ _ (LL_sym m V DD s _ rows_perm I) (LL_posdef m V Cl ND DD DD_len s _ rows_perm I Alln reached) k Hk). unfold poisson_rhs.
    rewrite (rhs_eq DD s c k). destruct (non_ok m DD s _ I k Hk) as (B & E & F). unfold grad_row. rewrite (nth_error_nth' _ 0%Z Hk), <- E, Nat2Z.id, (vat_nth m _ B).
    change (@nadd NumR) with Rplus. unfold Rminus. f_equal. f_equal. apply sum_to_ext. intros q Hq. f_equal. destruct (rv_ok m DD s _ I q Hq) as (Bq & _ & _). rewrite (DD_at _ Bq). reflexivity.
Qed.
Lemma pos_poisson : Poisson m l G pos_of.
Proof.
  exists (lmat m (w_cot m)). split; [apply (lap_is m V)|]. split.
  - intros v Hv Nv. unfold pos_of. destruct (vat_of m v Hv) as (i & Hi & ->). rewrite (vat_idx m W i Hi), (number_flagged m DD s _ I i); [reflexivity|]. rewrite (flb_in i Hi). destruct (inside l (Some (vat m i))) eqn:E; [apply inside_iff in E; contradiction|reflexivity].
  - intros i v Ei Hv. assert (Hi : (i < n)%nat) by (apply nth_error_Some; congruence). assert (Ev : v = vat m i) by (rewrite (vat_nth m i Hi) in Ei; congruence). subst v.
    assert (F : flb DD i = false) by (rewrite (flb_in i Hi), (proj2 (inside_iff l _) Hv); reflexivity).
    assert (X : forall c, coord c -> sum_to n (fun j => entryR (lmat m (w_cot m)) i j * c (pos_of (nth j (m_verts m) 0%nat))) = c (G (vat m i))).
    { intros c Hc. rewrite <- (pos_coord c i Hc Hi F). apply sum_to_ext. intros j Hj. rewrite (nth_error_nth _ _ _ (vat_nth m j Hj)). reflexivity. }
    split; [apply X; left; reflexivity|]. split; apply X; [right; left|right; right]; reflexivity.
Qed.
Lemma result_at : mfold (fun T v => i <- ve_idx (Some v) ;; match number_of (s_non s) i with Some k => ret (fset (N := NumR) T v (val k)) | None => ret T end) (fzero (N := NumR)) l m = Ok (fold_left (fun T v => fset (N := NumR) T v (pos_of v)) l (fzero (N := NumR)), m).
Proof.
  assert (K : forall v, In v l -> In v (m_verts m) /\ exists k, number_of (s_non s) (v_idx m v) = Some k).
  { intros v Hv. split; [apply Iv, Hv|]. destruct (ids_at v Hv) as (i & Hi & Ev & Ei). rewrite Ei. destruct (number_free m DD s _ I Alln i Hi) as (k & Ek & _); [|exists k; exact Ek]. rewrite (flb_in i Hi), <- Ev, (proj2 (inside_iff l v) Hv). reflexivity. }
  generalize (fzero (N := NumR)). revert K. generalize l. intros k. induction k as [|v k IH]; intros K T; cbn [mfold fold_left]; [reflexivity|]. destruct (K v (or_introl eq_refl)) as (Hv & q & Eq).
  assert (E : (i <- ve_idx (Some v) ;; match number_of (s_non s) i with Some k => ret (fset (N := NumR) T v (val k)) | None => ret T end) m = Ok (fset (N := NumR) T v (pos_of v), m)).
  { rewrite (bind_ok _ _ _ _ _ (r_vidx m v (v_alive m W v Hv))). unfold pos_of. rewrite Eq. reflexivity. }
  rewrite (bind_ok _ _ _ _ _ E). apply IH. intros u Hu. apply K. right. exact Hu.
Qed.
End System.
Lemma fold_set (p T : nat -> vecR) k v : fold_left (fun T v => fset (N := NumR) T v (p v)) k T v = if in_dec Nat.eq_dec v k then p v else T v.
Proof.
  revert T. induction k as [|u k IH]; intros T; cbn [fold_left]; [reflexivity|]. rewrite IH. destruct (in_dec Nat.eq_dec v k) as [H|H], (in_dec Nat.eq_dec v (u :: k)) as [H'|H'].
  - reflexivity.
  - exfalso. apply H'. right. exact H.
  - rewrite fset_at. destruct (Nat.eqb_spec v u) as [->|E]; [reflexivity|]. exfalso. destruct H' as [H'|H']; [congruence|contradiction].
  - rewrite fset_at. destruct (Nat.eqb_spec v u) as [->|E]; [|reflexivity]. exfalso. apply H'. left. reflexivity.
Qed.
Lemma poisson_ext b b' x x' : (forall v, In v l -> b v = b' v) -> (forall v, In v (m_verts m) -> x v = x' v) -> Poisson m l b x -> Poisson m l b' x'.
Proof.
  intros Eb Ex (ts & E & H0 & H1). exists ts. split; [exact E|]. split; [intros v Hv Nv; rewrite <- (Ex v Hv); apply H0; assumption|]. intros i v Ei Hv. rewrite <- (Eb v Hv). destruct (H1 i v Ei Hv) as (X & Y & Z).
  assert (Q : forall j, (j < length (m_verts m))%nat -> x' (nth j (m_verts m) 0%nat) = x (nth j (m_verts m) 0%nat)) by (intros j Hj; symmetry; apply Ex, nth_In, Hj).
  split; [rewrite <- X|split; [rewrite <- Y|rewrite <- Z]]; apply sum_to_ext; intros j Hj; rewrite (Q j Hj); reflexivity.
Qed.
(** The Poisson equation is solved. *)
Theorem poisson_ok G : exists x, poisson (N := NumR) sparse G l m = Ok (x, m) /\ Poisson m l G (fun v => if in_dec Nat.eq_dec v l then x v else v_pos m v).
Proof.
  destruct poisson_sys as (s & E & I & Alln). eexists. split.
  - unfold poisson. rewrite (bind_ok _ _ _ _ _ marks_ok), (bind_ok _ _ _ _ _ E), bind_get. exact (result_at s I Alln G).
  - apply (poisson_ext G G (pos_of s G)); [reflexivity| |exact (pos_poisson s I Alln G)]. intros v Hv. rewrite fold_set. destruct (in_dec Nat.eq_dec v l) as [H|H]; [reflexivity|].
    destruct (pos_poisson s I Alln G) as (_ & _ & H0 & _). apply H0; assumption.
Qed.
(** There is one solution. *)
Theorem poisson_unique b x x' : Poisson m l b x -> Poisson m l b x' -> forall v, In v (m_verts m) -> x v = x' v.
Proof.
  intros (t1 & E1 & X0 & X1) (t2 & E2 & Y0 & Y1). rewrite (lap_is m V) in E1, E2. injection E1 as <-. injection E2 as <-.
  assert (U : forall c, coord c -> (forall i v, nth_error (m_verts m) i = Some v -> In v l -> sum_to n (fun j => A i j * c (x (nth j (m_verts m) 0%nat))) = sum_to n (fun j => A i j * c (x' (nth j (m_verts m) 0%nat)))) -> forall i, (i < n)%nat -> c (x (vat m i)) = c (x' (vat m i))).
  { intros c Hc Hs i Hi. assert (Z := unique_coord m V Cl ND DD reached (fun j => c (x (vat m j)) - c (x' (vat m j)))). cut (c (x (vat m i)) - c (x' (vat m i)) = 0); [lra|]. apply Z; [| |exact Hi].
    - intros j Hj Fj. rewrite (flb_in j Hj) in Fj. assert (Nj : ~ In (vat m j) l) by (intros Q; apply inside_iff in Q; rewrite Q in Fj; discriminate). rewrite (X0 _ (vat_in m j Hj) Nj), (Y0 _ (vat_in m j Hj) Nj). lra.
    - intros j Hj Fj. rewrite (flb_in j Hj) in Fj. apply negb_false_iff, inside_iff in Fj. assert (Q := Hs j (vat m j) (vat_nth m j Hj) Fj).
      rewrite (sum_to_ext n _ (fun q => A j q * c (x (nth q (m_verts m) 0%nat)) - A j q * c (x' (nth q (m_verts m) 0%nat)))) by (intros q Hq; rewrite (nth_error_nth _ _ _ (vat_nth m q Hq)); unfold A; ring). rewrite sum_to_minus, Q. lra. }
  intros v Hv. destruct (vat_of m v Hv) as (i & Hi & ->).
  assert (Ux := U vx (or_introl eq_refl) (fun i v Ei Hv => eq_trans (proj1 (X1 i v Ei Hv)) (eq_sym (proj1 (Y1 i v Ei Hv)))) i Hi).
  assert (Uy := U vy (or_intror (or_introl eq_refl)) (fun i v Ei Hv => eq_trans (proj1 (proj2 (X1 i v Ei Hv))) (eq_sym (proj1 (proj2 (Y1 i v Ei Hv))))) i Hi).
  assert (Uz := U vz (or_intror (or_intror eq_refl)) (fun i v Ei Hv => eq_trans (proj2 (proj2 (X1 i v Ei Hv))) (eq_sym (proj2 (proj2 (Y1 i v Ei Hv))))) i Hi).
  destruct (x (vat m i)), (x' (vat m i)). cbn in *. congruence.
Qed.
(** ** The relaxation *)
Definition After (T x : nat -> vecR) : Prop := exists b, (forall v, In v l -> Pull m T v (b v)) /\ Poisson m l b (fun v => if in_dec Nat.eq_dec v l then x v else v_pos m v).
Definition rest (T : nat -> vecR) : M NumR (nat -> vecR) := fs <- inside_faces l ;; R <- rotations (N := NumR) cos sin T fs ;; G <- gradients R l ;; poisson (N := NumR) sparse G l.
Lemma rest_ok thr T : Means m l thr T -> OT thr (rest T) m (After T).
Proof.
  intros Mn. unfold rest. destruct (faces_ok m V Cl l Rg) as (fs & Ef & _ & Hf). apply (ot_get thr _ _ _ m _ Ef).
  eapply ot_bind; [apply (rots_ok m V Cl ND l thr T fs Mn); intros f Hf'; apply Hf, Hf'|]. intros R HR. eapply ot_bind; [apply (grads_ok m V Cl ND l Rg thr T R); intros f If Tf; apply HR, Hf; auto|]. intros G HG.
  destruct (poisson_ok G) as (x & Ex & Hx). apply (ot_ok thr _ x); [exact Ex|]. exists G. auto.
Qed.
Theorem relaxed_ok : (exists x, relaxed (N := NumR) cos sin sparse l m = Ok (x, m) /\ Relaxed m l x) \/ relaxed (N := NumR) cos sin sparse l m = Abort AThrow.
Proof.
  assert (H : OT True (relaxed (N := NumR) cos sin sparse l) m (Relaxed m l)).
  { change (relaxed (N := NumR) cos sin sparse l) with (T <- new_normals (N := NumR) l ;; rest T). eapply ot_bind; [exact (normals_ok m V Cl ND l Rg)|]. intros T [HT Hsm]. eapply ot_weaken; [apply (rest_ok True T), or_introl, Logic.I|].
    intros x (b & Hb & Hx). exists T, b. auto. }
  destruct H as [H|[_ H]]; [left; exact H|right; exact H].
Qed.
(** With normals that are known. *)
Theorem relaxed_from T : new_normals (N := NumR) l m = Ok (T, m) -> Means m l False T -> exists x, relaxed (N := NumR) cos sin sparse l m = Ok (x, m) /\ After T x.
Proof.
  intros E Mn. change (relaxed (N := NumR) cos sin sparse l) with (T <- new_normals (N := NumR) l ;; rest T). rewrite (bind_ok _ _ _ _ _ E). destruct (rest_ok False T Mn) as [H|[[] _]]. exact H.
Qed.
End Q.
