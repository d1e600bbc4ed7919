(** holeFillAdvancingFront: one step of the loop keeps the invariant. *)
From Coq Require Import List ZArith Arith Lia Bool Permutation.
From Verif Require Import Num Vec Heap Mesh Spec Orbit Rings Exec Wp Queries Remove Split Measure MeasureM Fill FillO FillW Collapse Front FrontF FrontM FrontG FrontA FrontR FrontI.
Import ListNotations.
Local Open Scope mesh_scope.

(** Every angle is below the bound the search starts from. *)
Definition AnglesBelow (N : Num) : Prop := forall y x : num, nltb (wrap (natan2 y x)) nbig20 = true.

Section S.
Context {N : Num}.
Implicit Types m : mesh N.
Notation any := (fun _ : abkind => True).
Notation wp := (wp any).

(** A loop over the half-edges of a face that changes the mesh. *)
Lemma circ_run (body : unit -> ptr -> M N (unit * bool)) (nx : nat -> ptr) (I : list nat -> mesh N -> Prop) x0 : forall l x fuel done s,
  chainto nx x l x0 -> ~ In x0 l -> length (x :: l) <= fuel -> I done s ->
  (forall dn y s, In y (x :: l) -> I dn s -> exists s', body tt (Some y) s = Ok ((tt, false), s') /\ I (dn ++ [y]) s' /\ h_live s' y = true /\ h_next s' y = nx y) ->
  exists s', circ step_f body fuel (Some x0) (Some x) tt s = Ok (tt, s') /\ I (done ++ x :: l) s'.
Proof.
  induction l as [|z l IH]; intros x fuel done s C NI Lf Is B; destruct fuel as [|fuel]; try (cbn [length] in Lf; lia).
  - cbn [chainto] in C. cbn [circ]. destruct (B done x s (or_introl eq_refl) Is) as (s' & E & I' & Lv & Nx). rewrite (bind_ok _ _ _ _ _ E). cbn [fst snd]. unfold step_f at 1. rewrite (bind_ok _ _ _ _ _ (r_next s' x Lv)), Nx, C, ptr_eqb_refl.
    exists s'. split; [destruct fuel; reflexivity|exact I'].
  - destruct C as [C1 C2]. cbn [circ]. destruct (B done x s (or_introl eq_refl) Is) as (s' & E & I' & Lv & Nx). rewrite (bind_ok _ _ _ _ _ E). cbn [fst snd]. unfold step_f at 1. rewrite (bind_ok _ _ _ _ _ (r_next s' x Lv)), Nx, C1.
    destruct (ptr_eqb (Some z) (Some x0)) eqn:Q; [apply ptr_eqb_eq in Q; injection Q as ->; exfalso; apply NI; left; reflexivity|].
    destruct (IH z fuel (done ++ [x]) s' C2) as (s2 & E2 & I2); [intros K; apply NI; right; exact K|cbn [length] in *; lia|exact I'|intros dn y t Iy; apply B; right; exact Iy|].
    exists s2. split; [exact E2|]. rewrite <- app_assoc in I2. exact I2.
Qed.
Lemma circ_f_run (body : unit -> ptr -> M N (unit * bool)) (I : list nat -> mesh N -> Prop) m f h l : WF m -> In f (m_faces m) -> f_he m f = Some h -> Fring m f (h :: l) -> I [] m ->
  (forall dn y s, In y (h :: l) -> I dn s -> exists s', body tt (Some y) s = Ok ((tt, false), s') /\ I (dn ++ [y]) s' /\ h_live s' y = true /\ h_next s' y = h_next m y) ->
  exists s', circ_f (Some f) tt body m = Ok (tt, s') /\ I (h :: l) s'.
Proof.
  intros W If Eh R I0 B. unfold circ_f. rewrite (bind_ok _ _ _ _ _ (r_fhe m f (f_alive m W f If))), bind_get, Eh. assert (Ln := fring_len m W f _ R). destruct R as (C & ND & _).
  apply (circ_run body (h_next m) I h l h (S (m_fresh m)) [] m); [exact C|inversion ND; assumption|lia|exact I0|exact B].
Qed.

Definition with_lock (k : nat -> bool) m : mesh N :=
  mkMesh (m_verts m) (m_hes m) (m_faces m) (m_indices m) (m_fresh m) (v_live m) (v_pos m) (v_he m) (v_idx m) k
    (h_live m) (h_src m) (h_next m) (h_rev m) (h_face m) (h_idx m) (h_bd m) (f_live m) (f_he m) (f_idx m).
Lemma wf_lock k m : WF m -> WF (with_lock k m).
Proof. intros W. destruct W. constructor; assumption. Qed.
Lemma wf_bd b m : WF m -> WF (with_bd b m).
Proof. intros W. destruct W. constructor; assumption. Qed.

(** 235-240. *)
Lemma lock_front_ok m f h l : WF m -> In f (m_faces m) -> f_he m f = Some h -> Fring m f (h :: l) ->
  exists k, lock_front (Some f) m = Ok (tt, with_lock k m) /\ forall v, k v = true <-> v_lock m v = true \/ In (Some v) (map (h_src m) (h :: l)).
Proof.
  intros W If Eh R.
  destruct (circ_f_run (fun _ it => s <- he_src it ;; w_lock s true ;; ret (tt, false)) (fun dn s => exists k, s = with_lock k m /\ forall v, k v = true <-> v_lock m v = true \/ In (Some v) (map (h_src m) dn)) m f h l W If Eh R) as (s' & E & k & -> & K).
  - exists (v_lock m). split; [destruct m; reflexivity|]. intros v. cbn [map In]. tauto.
  - intros dn y s Iy (k & -> & K). assert (I := proj1 (proj1 (proj2 (proj2 R) y) Iy)). destruct (wf_src m W y I) as (v & Ev & Iv).
    exists (with_lock (fupd k v true) m). split; [|split; [|split; [exact (h_alive m W y I)|reflexivity]]].
    + rewrite (bind_ok _ _ _ _ _ (r_src (with_lock k m) y (h_alive m W y I))). change (h_src (with_lock k m) y) with (h_src m y). rewrite Ev. rewrite (bind_ok _ _ _ _ _ (ww_lock (with_lock k m) v true (v_alive m W v Iv))). reflexivity.
    + exists (fupd k v true). split; [reflexivity|]. intros u. rewrite map_app, in_app_iff. cbn [map In]. destruct (Nat.eq_dec u v) as [->|D]; [rewrite fupd_same; tauto|]. rewrite fupd_other by exact D. rewrite K, Ev. split; [tauto|]. intros [Q | [Q | [Q | []]]]; [tauto|tauto|congruence].
  - exists k. split; [exact E|exact K].
Qed.
(** 253-256. *)
Lemma close_front_ok m f h l : WF m -> In f (m_faces m) -> f_he m f = Some h -> Fring m f (h :: l) ->
  exists b, close_front (Some f) m = Ok (tt, with_bd b m) /\ forall z, b z = true <-> h_bd m z = true /\ ~ In z (h :: l) /\ ~ exists y, In y (h :: l) /\ h_rev m y = Some z.
Proof.
  intros W If Eh R.
  destruct (circ_f_run (fun _ it => w_bd it false ;; r <- he_rev it ;; w_bd r false ;; ret (tt, false)) (fun dn s => exists b, s = with_bd b m /\ forall z, b z = true <-> h_bd m z = true /\ ~ In z dn /\ ~ exists y, In y dn /\ h_rev m y = Some z) m f h l W If Eh R) as (s' & E & k & -> & K).
  - exists (h_bd m). split; [destruct m; reflexivity|]. intros v. split; [intros Q; split; [exact Q|split; [intros []|intros (y & [] & _)]]|intros [Q _]; exact Q].
  - intros dn y s Iy (k & -> & K). assert (I := proj1 (proj1 (proj2 (proj2 R) y) Iy)). destruct (wf_rev m W y I) as (r & Er & Ir).
    exists (with_bd (fupd (fupd k y false) r false) m). split; [|split; [|split; [exact (h_alive m W y I)|reflexivity]]].
    + rewrite (bind_ok _ _ _ _ _ (ww_bd (with_bd k m) y false (h_alive m W y I))). rewrite (bind_ok _ _ _ _ _ (r_rev (set_h_bd y false (with_bd k m)) y (h_alive m W y I))). change (h_rev (set_h_bd y false (with_bd k m)) y) with (h_rev m y). rewrite Er.
      rewrite (bind_ok _ _ _ _ _ (ww_bd (set_h_bd y false (with_bd k m)) r false (h_alive m W r Ir))). reflexivity.
    + exists (fupd (fupd k y false) r false). split; [reflexivity|]. intros z. destruct (Nat.eq_dec z r) as [->|D]; [rewrite fupd_same; split; [discriminate|]; intros (_ & _ & Q); exfalso; apply Q; exists y; split; [apply in_app_iff; right; left; reflexivity|exact Er]|].
      rewrite fupd_other by exact D. destruct (Nat.eq_dec z y) as [->|D2]; [rewrite fupd_same; split; [discriminate|]; intros (_ & Q & _); exfalso; apply Q; apply in_app_iff; right; left; reflexivity|]. rewrite fupd_other by exact D2. rewrite K.
      split; intros (Q1 & Q2 & Q3); split; [exact Q1| |exact Q1|]; split.
      * rewrite in_app_iff. cbn [In]. intros [Z | [Z | []]]; [exact (Q2 Z)|congruence].
      * intros (y' & Iy' & Ey'). apply in_app_iff in Iy' as [Z | [<- | []]]; [apply Q3; eauto|congruence].
      * intros Z. apply Q2, in_app_iff. left. exact Z.
      * intros (y' & Iy' & Ey'). apply Q3. exists y'. split; [apply in_app_iff; left; exact Iy'|exact Ey'].
  - exists k. split; [exact E|exact K].
Qed.

Lemma front_ring_ok m f h l : WF m -> In f (m_faces m) -> f_he m f = Some h -> Fring m f (h :: l) -> front_ring (Some f) m = Ok ((map (h_src m) (h :: l), map Some (h :: l)), m).
Proof.
  intros W If Eh R. unfold front_ring. rewrite (circ_f_ok m W f h l _ (fun a y => ((fst a ++ [h_src m y], snd a ++ [Some y]), false)) _ If Eh R).
  - f_equal. f_equal. assert (Q : forall l (a b : list ptr), bfold (fun a y => ((fst a ++ [h_src m y], snd a ++ [Some y]), false)) (a, b) l = (a ++ map (h_src m) l, b ++ map Some l)).
    { clear. induction l as [|y l IH]; intros a b; cbn [bfold map fst snd]; [rewrite !app_nil_r; reflexivity|]. rewrite IH, <- !app_assoc. reflexivity. }
    rewrite Q. reflexivity.
  - intros y a I _. rewrite (bind_ok _ _ _ _ _ (r_src m y (h_alive m W y I))). reflexivity.
Qed.

(** Which half-edge lies between two neighbours of the front. *)
Lemma fring_rotate m f l1 x l2 : Fring m f (l1 ++ x :: l2) -> Fring m f (x :: l2 ++ l1).
Proof.
  intros (C & ND & RI). assert (P : Permutation (l1 ++ x :: l2) (x :: l2 ++ l1)) by (rewrite Permutation_app_comm; reflexivity). split; [|split].
  - destruct l1 as [|y l1]; [cbn [app] in *; rewrite app_nil_r; exact C|]. exact (cyc_rot (h_next m) y l1 x l2 C).
  - exact (Permutation_NoDup P ND).
  - intros y. rewrite <- RI. split; intros I; [exact (Permutation_in _ (Permutation_sym P) I)|exact (Permutation_in _ P I)].
Qed.

Section Step.
Variables (m0 : mesh N) (f : nat) (bs : list nat).
Hypothesis W0 : WF m0.
Hypothesis F0 : In f (m_faces m0).
Hypothesis BS : forall v, In v bs -> In v (m_verts m0).
Hypothesis BL : forall v, In v bs -> v_lock m0 v = true.
Notation Inv := (Inv m0 f bs).

Section Reads.
Variables (m : mesh N) (hs vs : list nat).
Hypothesis W : WF m.
Hypothesis R : Fring m f hs.
Hypothesis SV : map (h_src m) hs = map Some vs.
Let n := length hs.
Lemma len_v : length vs = n. Proof. unfold n. rewrite <- (map_length (h_src m) hs), SV, map_length. reflexivity. Qed.
Lemma vs_in v : In v vs -> In v (m_verts m).
Proof.
  intros I. assert (K : In (Some v) (map (h_src m) hs)) by (rewrite SV; apply in_map, I). apply in_map_iff in K as (h & E & Ih). apply (src_in m W h v); [apply R, Ih|exact E].
Qed.
Lemma vs_at i : i < n -> exists v, nth_error vs i = Some v /\ In v (m_verts m).
Proof. intros L. destruct (nth_error vs i) as [v|] eqn:E; [exists v; split; [reflexivity|apply vs_in; exact (nth_error_In _ _ E)]|]. apply nth_error_None in E. rewrite len_v in E. lia. Qed.
Lemma wp_at i v (Q : ptr -> mesh N -> Prop) : nth_error vs i = Some v -> Q (Some v) m -> wp (at_ (map Some vs) i) m Q.
Proof. intros E H. unfold at_. rewrite nth_error_map, E. apply wp_ret, H. Qed.
Lemma wp_bpos i (Q : vec N -> mesh N -> Prop) : i < n -> (forall v, Q v m) -> wp (b_pos (map Some vs) i) m Q.
Proof. intros L H. destruct (vs_at i L) as (v & E & I). unfold b_pos. apply wp_bind. apply (wp_at i v _ E). apply wp_pos; [exact W|exact I|apply H]. Qed.
Lemma after_lt i : i < n -> after_ n i < n. Proof. intros L. unfold after_. apply Nat.mod_upper_bound. lia. Qed.
Lemma before_lt i : i < n -> before_ n i < n. Proof. intros L. unfold before_. apply Nat.mod_upper_bound. lia. Qed.
Lemma wp_too_close avg i (Q : bool -> mesh N -> Prop) : i < n -> Q false m -> (forall v, nth_error vs i = Some v -> v_lock m v = false -> Q true m) -> wp (too_close avg (map Some vs) n i) m Q.
Proof.
  intros L H0 H1. destruct (vs_at i L) as (v & E & I). destruct (vs_at _ (after_lt i L)) as (w & Ew & Iw). unfold too_close. apply wp_bind. apply (wp_at i v _ E). apply wp_bind, wp_lock; [exact W|exact I|].
  destruct (v_lock m v) eqn:K; [apply wp_ret, H0|]. apply wp_bind, wp_pos; [exact W|exact I|]. apply wp_bind. apply (wp_at _ w _ Ew). apply wp_bind, wp_pos; [exact W|exact Iw|]. apply wp_ret. destruct (nltb _ _); [exact (H1 v E K)|exact H0].
Qed.
Lemma wp_find_close avg (Q : option nat -> mesh N -> Prop) : forall l, (forall i, In i l -> i < n) -> Q None m -> (forall i v, i < n -> nth_error vs i = Some v -> v_lock m v = false -> Q (Some i) m) -> wp (find_close avg (map Some vs) n l) m Q.
Proof.
  induction l as [|i l IH]; intros L H0 H1; cbn [find_close]; [apply wp_ret, H0|]. apply wp_bind. apply wp_too_close; [apply L; left; reflexivity| |].
  - apply IH; [intros j Ij; apply L; right; exact Ij|exact H0|exact H1].
  - intros v E K. apply wp_ret. apply (H1 i v); [apply L; left; reflexivity|exact E|exact K].
Qed.
Lemma wp_outer h (Q : vec N -> mesh N -> Prop) : In h (m_hes m) -> (forall v, Q v m) -> wp (outer_normal (Some h)) m Q.
Proof.
  intros I H. unfold outer_normal. apply wp_bind, wp_rev; [exact W|exact I|]. intros r _ Ir. apply wp_bind, wp_face; [exact W|exact Ir|]. intros g _ Ig. unfold f_normal. apply wp_bind.
  destruct (fring m W g Ig) as (z & l & Ez & Rz). eapply wp_ok; [exact (f_positions_ok m g z l W Ig Ez Rz)|]. apply wp_lift; [exact Logic.I|]. intros v _. apply H.
Qed.
Lemma p_at i h : nth_error hs i = Some h -> p_he (ring_maps n 0 (map Some hs) no_maps) i (after_ n i) = Some h.
Proof.
  intros E. assert (L : i < length hs) by (apply nth_error_Some; congruence). rewrite (rmaps_he n hs 0 no_maps i (after_ n i)). cbn [Nat.leb andb Nat.add]. rewrite Nat.sub_0_r. unfold after_. rewrite Nat.eqb_refl.
  rewrite E. destruct (Nat.ltb_spec i (length hs)); [|lia]. reflexivity.
Qed.
Lemma after_before i : i < n -> after_ n (before_ n i) = i.
Proof. intros L. rewrite (before_eq n i) by lia. destruct (Nat.eqb_spec i 0) as [->|D]; rewrite after_eq by lia; [rewrite Nat.eqb_refl; reflexivity|]. destruct (Nat.eqb_spec (i - 1) (n - 1)); lia. Qed.
Lemma wp_try best i (Q : num * option nat -> mesh N -> Prop) : i < n -> (forall t, Q (t, Some i) m) -> (snd best <> None \/ ~ AnglesBelow N -> Q best m) -> (fst best = nbig20 \/ snd best <> None \/ ~ AnglesBelow N) ->
  wp (try_angle (map Some vs) (ring_maps n 0 (map Some hs) no_maps) n best i) m Q.
Proof.
  intros L H1 H2 HB. assert (HS : forall j, j < n -> exists h, nth_error hs j = Some h /\ In h (m_hes m)).
  { intros j Lj. destruct (nth_error hs j) as [h|] eqn:E; [exists h; split; [reflexivity|apply R; exact (nth_error_In _ _ E)]|]. apply nth_error_None in E. unfold n in Lj. lia. }
  destruct (HS _ (before_lt i L)) as (h & Eh & Ih). destruct (HS _ L) as (h' & Eh' & Ih'). unfold try_angle.
  assert (Q1 := p_at _ _ Eh). rewrite (after_before i L) in Q1. rewrite Q1, (p_at _ _ Eh').
  apply wp_bind, wp_outer; [exact Ih|]. intros n1. apply wp_bind, wp_outer; [exact Ih'|]. intros n2. apply wp_bind, wp_lift; [exact I|]. intros nm _.
  apply wp_bind, wp_bpos; [exact (before_lt i L)|]. intros p0. apply wp_bind, wp_bpos; [exact L|]. intros p1. apply wp_bind, wp_bpos; [exact (after_lt i L)|]. intros p2. cbv zeta. apply wp_ret.
  destruct (nltb (open_angle nm p0 p1 p2) (fst best)) eqn:K; [apply H1|]. apply H2. destruct HB as [HB | HB]; [|exact HB]. right. intros AB.
  assert (AN : nltb (open_angle nm p0 p1 p2) nbig20 = true) by (unfold open_angle; cbv zeta; apply AB). congruence.
Qed.
Lemma wp_least (Q : num * option nat -> mesh N -> Prop) : 1 <= n -> (forall t i, i < n -> Q (t, Some i) m) -> (forall t, ~ AnglesBelow N -> Q (t, None) m) -> wp (least_angle (map Some vs) (ring_maps n 0 (map Some hs) no_maps) n) m Q.
Proof.
  intros L H H'. unfold least_angle.
  assert (GO : forall l best, (forall i, In i l -> i < n) -> (forall i, snd best = Some i -> i < n) -> (snd best <> None \/ ~ AnglesBelow N) -> wp (mfold (try_angle (map Some vs) (ring_maps n 0 (map Some hs) no_maps) n) best l) m Q).
  { induction l as [|i l IH]; intros best Li L0 E0; cbn [mfold]; [apply wp_ret; destruct best as [t [b|]]; cbn [snd] in *; [apply H, L0; reflexivity|apply H'; destruct E0 as [E0 | E0]; [destruct (E0 eq_refl)|exact E0]]|].
    apply wp_bind. apply wp_try; [apply Li; left; reflexivity| | |right; exact E0].
    - intros t. apply IH; [intros j Ij; apply Li; right; exact Ij|intros j [= <-]; apply Li; left; reflexivity|left; discriminate].
    - intros E1. apply IH; [intros j Ij; apply Li; right; exact Ij|exact L0|exact E1]. }
  replace (seq 0 n) with (0 :: seq 1 (n - 1)) by (clear - L; destruct n; [lia|]; cbn [seq]; f_equal; f_equal; lia). cbn [mfold]. apply wp_bind. apply wp_try; [lia| | |left; reflexivity].
  - intros t. apply GO; [intros j Ij; apply in_seq in Ij; lia|intros j [= <-]; lia|left; discriminate].
  - intros E0. apply GO; [intros j Ij; apply in_seq in Ij; lia|discriminate|exact E0].
Qed.
Lemma wp_new_points angle i (Q : list (vec N) -> mesh N -> Prop) : i < n -> (forall l, Q l m) -> wp (new_points angle (map Some vs) n i) m Q.
Proof.
  intros L H. unfold new_points. destruct (nleb angle _); [apply wp_ret, H|].
  apply wp_bind, wp_bpos; [exact (before_lt i L)|]. intros p0. apply wp_bind, wp_bpos; [exact L|]. intros p1. apply wp_bind, wp_bpos; [exact (after_lt i L)|]. intros p2.
  destruct (nleb angle _); apply wp_bind, wp_lift; try exact Logic.I; intros q _; apply wp_ret, H.
Qed.
End Reads.

(** What closing the last triangle does. *)
Definition Closed_ m m' : Prop := exists b h1 h2 h3, m' = with_bd b m /\ Fring m f [h1; h2; h3] /\ forall z, b z = true <-> h_bd m z = true /\ ~ In z [h1; h2; h3] /\ ~ exists y, In y [h1; h2; h3] /\ h_rev m y = Some z.

Lemma cyc_succ (nx : nat -> ptr) l i x y : cyc nx l -> nth_error l i = Some x -> nth_error l (after_ (length l) i) = Some y -> nx x = Some y.
Proof. intros C E E'. rewrite (cyc_nth nx l i x C E). exact E'. Qed.
Lemma nodup_ne (l : list nat) i j x y : NoDup l -> nth_error l i = Some x -> nth_error l j = Some y -> i <> j -> x <> y.
Proof. intros ND E E' D ->. apply D. apply (proj1 (NoDup_nth_error l) ND); [apply nth_error_Some; congruence|congruence]. Qed.

(** Index -1 is used only when some angle is not below that bound. *)
Definition wpu {A} (x : M N A) m (Q : A -> mesh N -> Prop) : Prop :=
  match x m with Ok (a, m') => Q a m' | UB OutOfBounds => ~ AnglesBelow N | UB _ => False | Abort _ => True | NoFuel => False end.
Lemma wpu_of {A} (x : M N A) m (Q : A -> mesh N -> Prop) : wp x m Q -> wpu x m Q.
Proof. unfold Wp.wp, wpu. destruct (x m) as [[]|[]| |]; auto; intros []. Qed.
Lemma wpu_bind {A B} (x : M N A) (k : A -> M N B) m (Q : B -> mesh N -> Prop) : wpu x m (fun a m' => wpu (k a) m' Q) -> wpu (bind x k) m Q.
Proof. unfold wpu, bind. destruct (x m) as [[]|[]| |]; auto. Qed.
Lemma wpu_ok {A} (x : M N A) m a m' (Q : A -> mesh N -> Prop) : x m = Ok (a, m') -> Q a m' -> wpu x m Q.
Proof. unfold wpu. intros ->. auto. Qed.
Lemma wpu_ret {A} (a : A) m (Q : A -> mesh N -> Prop) : Q a m -> wpu (ret a) m Q.
Proof. auto. Qed.
Lemma step_ok avg m : Inv m -> wpu (front_step (Some f) avg) m (fun b m' => if b then Closed_ m m' else Inv m').
Proof.
  intros V. assert (W := iv_wf _ _ _ _ V). assert (NL := iv_nl _ _ _ _ V).
  assert (If : In f (m_faces m)) by (apply In_nth_error in F0 as (i & E); exact (nth_error_In _ _ (iv_face _ _ _ _ V i f E))).
  destruct (fring m W f If) as (h & l & Eh & R). destruct (iv_ring _ _ _ _ V) as (hs0 & R0 & L0 & ND0).
  assert (P0 : Permutation hs0 (h :: l)) by (apply NoDup_Permutation; [apply R0|apply R|]; intros y; rewrite (proj2 (proj2 R0) y), (proj2 (proj2 R) y); tauto).
  assert (L : 3 <= length (h :: l)) by (rewrite <- (Permutation_length P0); exact L0). assert (ND : NoDup (map (h_src m) (h :: l))) by exact (Permutation_NoDup (Permutation_map _ P0) ND0). clear P0 R0 L0 ND0 hs0.
  assert (EV : exists vs, map (h_src m) (h :: l) = map Some vs).
  { assert (K : forall l', (forall y, In y l' -> In y (m_hes m)) -> exists vs, map (h_src m) l' = map Some vs).
    { induction l' as [|y l' IH]; intros Hy; [exists []; reflexivity|]. destruct IH as (vs & E); [intros z Iz; apply Hy; right; exact Iz|]. destruct (wf_src m W y (Hy y (or_introl eq_refl))) as (v & Ev & _). exists (v :: vs). cbn [map]. rewrite Ev, E. reflexivity. }
    apply K. intros y Iy. apply R, Iy. }
  destruct EV as (vs & SV). unfold front_step. apply wpu_bind. eapply wpu_ok; [exact (front_ring_ok m f h l W If Eh R)|]. cbn [fst snd]. cbv zeta. rewrite SV.
  assert (FH := f_halfedges_ok m W f h l If Eh R).
  assert (CF := close_front_ok m f h l W If Eh R). set (hs := h :: l) in *. assert (LV := len_v m hs vs SV). rewrite map_length, LV.
  assert (HH : hs <> []) by (unfold hs; discriminate). clearbody hs. clear Eh h l HH.
  destruct (Nat.eqb_spec (length hs) 3) as [E3|D3].
  - apply wpu_bind. destruct CF as (b & E & K). eapply wpu_ok; [exact E|]. apply wpu_ret. destruct hs as [|h1 [|h2 [|h3 [|h4 l]]]]; try discriminate. exists b, h1, h2, h3. auto.
  - assert (L4 : 4 <= length hs) by lia. apply wpu_bind. apply wpu_of, (wp_find_close m hs vs W R SV).
    + intros i I. apply in_seq in I. lia.
    + apply wpu_bind. eapply wpu_ok; [exact FH|]. cbv zeta. apply wpu_bind. apply wpu_of, (wp_least m hs vs W R SV); [lia| |intros t NB; exact NB]. intros t i Li. cbn [fst snd].
      apply wpu_bind. apply wpu_of, (wp_new_points m hs vs W R SV); [exact Li|]. intros news.
      set (n := length hs) in *. assert (Lb := before_lt hs i Li). assert (La := after_lt hs i Li). assert (Lbb := before_lt hs _ Lb). fold n in Lb, La, Lbb.
      assert (HS : forall j, j < n -> exists h v, nth_error hs j = Some h /\ nth_error vs j = Some v /\ h_src m h = Some v).
      { intros j Lj. destruct (nth_error hs j) as [h|] eqn:E; [|apply nth_error_None in E; unfold n in Lj; lia]. destruct (vs_at m hs vs W R SV j Lj) as (v & Ev & _). exists h, v. split; [reflexivity|]. split; [exact Ev|].
        assert (Q : nth_error (map (h_src m) hs) j = nth_error (map Some vs) j) by (rewrite SV; reflexivity). rewrite !nth_error_map, E, Ev in Q. cbn [option_map] in Q. congruence. }
      destruct (HS _ Lb) as (a & pv & Ea & Epv & Sa). destruct (HS _ Li) as (b & mi & Eb & Emi & Sb). destruct (HS _ Lbb) as (pp & w & Epp & _ & _). destruct (HS _ La) as (nn & nv & Enn & Env & Sn).
      destruct (advance_ok m f i pv mi nv a b pp nn hs vs news W R SV L4 Li Ea Eb Epp Enn Epv Emi Env If) as (m' & s & o & x & y & g & E & FN). fold n in E.
      apply wpu_bind. eapply wpu_ok; [exact E|]. apply wpu_ret.
      assert (C := proj1 R). assert (Nd := proj1 (proj2 R)).
      assert (Q1 : h_next m a = Some b) by (apply (cyc_succ _ hs (before_ n i) a b C Ea); unfold n; rewrite (after_before hs i Li); exact Eb).
      assert (Q2 : h_next m b = Some nn) by exact (cyc_succ _ hs i b nn C Eb Enn).
      assert (Q3 : h_next m pp = Some a) by (apply (cyc_succ _ hs (before_ n (before_ n i)) pp a C Epp); rewrite <- (after_before hs _ Lb) in Ea; exact Ea).
      assert (D1 : before_ n (before_ n i) <> before_ n i /\ before_ n (before_ n i) <> i) by (rewrite !(before_eq n) by lia; destruct (Nat.eqb_spec i 0) as [->|]; [destruct (Nat.eqb_spec (n - 1) 0); lia|destruct (Nat.eqb_spec (i - 1) 0); lia]).
      apply nth_error_split in Ea as HL. destruct HL as (l1 & l2 & EL & _). assert (RA := R). rewrite EL in RA. apply fring_rotate in RA.
      assert (P : Permutation hs (a :: l2 ++ l1)) by (rewrite EL, Permutation_app_comm; reflexivity).
      assert (ER : exists rest, l2 ++ l1 = b :: rest).
      { destruct (l2 ++ l1) as [|b' rest] eqn:Z; [apply Permutation_length in P; cbn [length] in P; fold n in P; lia|]. exists rest. f_equal. destruct RA as (CA & _). cbn [cyc chainto] in CA. destruct CA as [CA _]. congruence. }
      destruct ER as (rest & ER). rewrite ER in RA, P.
      apply (inv_fan m0 f bs W0 F0 m m' mi a b pp nn (length news) (nd m pv nv news) s o x y g rest V RA).
      * exact (Permutation_NoDup (Permutation_map _ P) ND).
      * apply Permutation_length in P. cbn [length] in P. fold n in P. lia.
      * exact Q2.
      * exact Q3.
      * assert (K : In pp (a :: b :: rest)) by exact (Permutation_in _ P (nth_error_In _ _ Epp)). destruct K as [K | [K | K]]; [exfalso..|exact K].
        -- exact (nodup_ne hs _ _ _ _ Nd Epp Ea (proj1 D1) (eq_sym K)).
        -- exact (nodup_ne hs _ _ _ _ Nd Epp Eb (proj2 D1) (eq_sym K)).
      * unfold nd. cbn [Nat.eqb]. exact Sa.
      * exact Sb.
      * unfold nd. destruct (Nat.eqb_spec (S (length news)) 0); [lia|]. destruct (Nat.leb_spec (S (length news)) (length news)); [lia|]. exact Sn.
      * exact FN.
    + intros i v0 Li Ev0 U. set (n := length hs) in *. assert (Lb := before_lt hs i Li). assert (La := after_lt hs i Li). fold n in Lb, La.
      assert (HS : forall j, j < n -> exists h v, nth_error hs j = Some h /\ nth_error vs j = Some v /\ h_src m h = Some v /\ In h (m_hes m)).
      { intros j Lj. destruct (nth_error hs j) as [h|] eqn:E; [|apply nth_error_None in E; unfold n in Lj; lia]. destruct (vs_at m hs vs W R SV j Lj) as (v & Ev & _). exists h, v. split; [reflexivity|]. split; [exact Ev|]. split; [|apply R; exact (nth_error_In _ _ E)].
        assert (Q : nth_error (map (h_src m) hs) j = nth_error (map Some vs) j) by (rewrite SV; reflexivity). rewrite !nth_error_map, E, Ev in Q. cbn [option_map] in Q. congruence. }
      destruct (HS _ Lb) as (hp & pv & Ep & _ & _ & Ip). destruct (HS _ Li) as (he & v0' & Ee & Ev & Se & Ie). rewrite Ev0 in Ev. injection Ev as <-. destruct (HS _ La) as (hn & v1 & En & Ev1 & Sn & In_).
      assert (C := proj1 R). assert (Q2 : h_next m he = Some hn) by exact (cyc_succ _ hs i he hn C Ee En).
      assert (Q3 : h_next m hp = Some he) by (apply (cyc_succ _ hs (before_ n i) hp he C Ep); unfold n; rewrite (after_before hs _ Li); exact Ee).
      destruct (wf_rev m W he Ie) as (h0 & R0 & I0). assert (S1 : h_src m h0 = Some v1) by (rewrite <- (wf_dst m W he hn h0 Ie Q2 R0); exact Sn). destruct (wf_next m W h0 I0) as (h1 & N0 & I1).
      apply nth_error_split in Ee as HL. destruct HL as (l1 & l2 & EL & _). assert (RA := R). rewrite EL in RA. apply fring_rotate in RA.
      assert (P : Permutation hs (he :: l2 ++ l1)) by (rewrite EL, Permutation_app_comm; reflexivity). assert (NDA := Permutation_NoDup (Permutation_map (h_src m) P) ND). assert (LA := Permutation_length P). cbn [length] in LA. fold n in LA. set (L' := l2 ++ l1) in *.
      destruct (tri0 m0 f bs W0 F0 BS BL m he hn h0 h1 v0 v1 L' V RA NDA ltac:(lia) Q2 R0 Se S1 U N0) as (g & h2 & Fg & Gn & GF & N1 & N2).
      assert (I2 := next_in m W h1 h2 I1 N1). destruct (wf_rev m W h1 I1) as (r1 & Er1 & _). destruct (wf_rev m W h2 I2) as (r2 & Er2 & _). destruct (wf_src m W h2 I2) as (v2 & S2 & _).
      assert (NM : forall (l : list nat) j x, nth_error l j = Some x -> nth_error (map (@Some nat) l) j = Some (Some x)) by (intros ll j x E; rewrite nth_error_map, E; reflexivity).
      assert (Fhe : h_face m he = Some f) by (apply R; exact (nth_error_In _ _ Ee)).
      apply wpu_bind. destruct (merge_ok m f g he hp hn h0 h1 h2 r1 r2 v0 v1 v2 (map Some vs) (map Some hs) n i W NL Ie Ip Fhe Q2 Q3 R0 N0 N1 N2 Fg GF Er1 Er2 Se S1 S2 (NM _ _ _ Ee) (NM _ _ _ Ep) (NM _ _ _ En) (NM _ _ _ Ev0) (NM _ _ _ Ev1)) as [E | (m' & E & J)]; [unfold wpu; rewrite E; exact Logic.I|].
      eapply wpu_ok; [exact E|].
      assert (V' := inv_join m0 f bs W0 F0 BS BL m m' g he hp hn h0 h1 h2 r1 r2 v0 v1 v2 L' V RA NDA ltac:(lia) Ip Q2 Q3 R0 N0 N1 N2 Fg Gn Er1 Er2 Se S1 S2 U J).
      apply wpu_bind. eapply wpu_ok; [exact (verify_wf m' (iv_wf _ _ _ _ V'))|]. apply wpu_ret. exact V'.
Qed.

(** The whole loop. *)
Lemma loop_ok avg : forall fuel m, Inv m -> front_loop fuel (Some f) avg m = NoFuel \/ wpu (front_loop fuel (Some f) avg) m (fun _ m' => exists m1, Inv m1 /\ Closed_ m1 m').
Proof.
  induction fuel as [|fuel IH]; intros m V; [left; reflexivity|]. cbn [front_loop]. assert (K := step_ok avg m V). unfold wpu in *. unfold bind. destruct (front_step (Some f) avg m) as [[b m']|u|k|]; [|right; exact K|right; exact Logic.I|destruct K].
  destruct b; [right; cbn; exists m; auto|exact (IH m' K)].
Qed.
End Step.
End S.
