(** Signs of the faces and marks of the vertices on closed surfaces of triangles. *)
From Coq Require Import Reals Lra Lia List ZArith Bool Arith Permutation.
From Verif Require Import Num NumInst Vec Heap Mesh Spec Orbit Rings Exec Diamond Queries GeomSpec VecR Measure MeasureR MeasureM Means SmoothSpec Curv CurvN CurvW LinR Features FeaturesR Tensor TensorSpec TensorR TensorM TensorS SmoothP LaplSpec Lapl LaplP LaplM Deriv DerivSpec DerivR DerivM Feat FeatSpec FeatR.
Import ListNotations.
Local Open Scope mesh_scope.
Local Open Scope R_scope.
Implicit Types m : mesh NumR.

Lemma mmap_some {N : Num} {A B} (f : A -> M N B) (P : A -> B -> Prop) (d : B) (m : mesh N) (l : list A) : (forall x, In x l -> exists y, f x m = Ok (y, m) /\ P x y) -> exists l', mmap f l m = Ok (l', m) /\ Forall2 P l l'.
Proof.
  induction l as [|x l IH]; intros H; [exists []; split; [reflexivity|constructor]|]. destruct (H x (or_introl eq_refl)) as (y & Ey & Py). destruct IH as (l' & El & Pl); [intros z Hz; apply H; right; exact Hz|].
  exists (y :: l'). split; [|constructor; assumption]. cbn [mmap]. rewrite (bind_ok _ _ _ _ _ Ey), (bind_ok _ _ _ _ _ El). reflexivity.
Qed.
Lemma flag_cases r0 r1 r2 : In r0 [(-1)%Z; 0%Z; 1%Z] -> In r1 [(-1)%Z; 0%Z; 1%Z] -> In r2 [(-1)%Z; 0%Z; 1%Z] ->
  let A z := r0 = z \/ r1 = z \/ r2 = z in
  (rv_flag r0 r1 r2 = (-1)%Z /\ A (-1)%Z /\ ~ A 1%Z) \/ (rv_flag r0 r1 r2 = 1%Z /\ A 1%Z /\ ~ A (-1)%Z) \/ (rv_flag r0 r1 r2 = 0%Z /\ ((A 1%Z /\ A (-1)%Z) \/ (~ A 1%Z /\ ~ A (-1)%Z))).
Proof.
  cbn [In]. intros [<- | [<- | [<- | []]]] [<- | [<- | [<- | []]]] [<- | [<- | [<- | []]]]; cbn; intuition discriminate.
Qed.
Lemma NoDup_app_disj {A} (l l' : list A) : NoDup l -> NoDup l' -> (forall x, In x l -> In x l' -> False) -> NoDup (l ++ l').
Proof.
  intros N1 N2 H. induction N1 as [|x l Nx N1 IH]; [exact N2|]. cbn [app]. constructor; [rewrite in_app_iff; intros [I | I]; [contradiction|exact (H x (or_introl eq_refl) I)]|]. apply IH. intros y I I'. exact (H y (or_intror I) I').
Qed.
Section Marks.
Variable m : mesh NumR.
Hypothesis V : Valid m.
Hypothesis C : Closed m.
Hypothesis ND : NonDegenerate m.
Let W := valid_wf m V.
Notation n := (length (m_verts m)).
Variable S : nat -> sample NumR.
Notation X := (map S (m_verts m)).
Lemma samp_get v : In v (m_verts m) -> tab_at (N := NumR) X (v_idx m v) m = Ok (S v, m).
Proof. intros Hv. destruct (idx_nth m V v Hv) as (i & Ei & ->). apply tab_ok. rewrite nth_error_map, Ei. reflexivity. Qed.
Lemma check_ok a b : In a (m_verts m) -> In b (m_verts m) -> check (N := NumR) X (Some a) (Some b) m = Ok (checkRV (N := NumR) (v_pos m a) (v_pos m b) (S a) (S b), m).
Proof.
  intros Ha Hb. unfold check. rewrite (bind_ok _ _ _ _ _ (r_vidx m a (v_alive m W a Ha))), (bind_ok _ _ _ _ _ (r_vidx m b (v_alive m W b Hb))), (bind_ok _ _ _ _ _ (r_pos m a (v_alive m W a Ha))), (bind_ok _ _ _ _ _ (r_pos m b (v_alive m W b Hb))).
  rewrite (bind_ok _ _ _ _ _ (samp_get a Ha)), (bind_ok _ _ _ _ _ (samp_get b Hb)). reflexivity.
Qed.
(** A face with its half-edges, starting with the one it refers to. *)
Record F3 (f x y z a b c : nat) : Prop := {
  f3_ring : Fring m f [x; y; z]; f3_tri : Spec.Tri m f a b c; f3_ab : a <> b; f3_bc : b <> c; f3_ca : c <> a;
  f3_sx : h_src m x = Some a; f3_sy : h_src m y = Some b; f3_sz : h_src m z = Some c;
  f3_nx : h_next m x = Some y; f3_ny : h_next m y = Some z; f3_nz : h_next m z = Some x;
  f3_ix : In x (m_hes m); f3_iy : In y (m_hes m); f3_iz : In z (m_hes m) }.
Lemma f3_rot f x y z a b c : F3 f x y z a b c -> F3 f y z x b c a.
Proof.
  intros [(Hc & Hnd & Hin) T A B D sx sy sz nx ny nz ix iy iz]. constructor; auto.
  - split; [cbn [cyc chainto]; auto|]. split.
    + inversion_clear Hnd as [|? ? N1 Hn]. inversion_clear Hn as [|? ? N2 Hn']. inversion_clear Hn' as [|? ? N3 _]. cbn [In] in *. repeat constructor; cbn [In]; intuition.
    + intros k. rewrite <- Hin. cbn [In]. tauto.
  - apply tri_rot, T.
Qed.
Lemma face3 f : In f (m_faces m) -> exists x y z a b c, f_he m f = Some x /\ F3 f x y z a b c.
Proof.
  intros Hf. destruct (valid_face_tri m f V C Hf) as (x & y & z & a & b & c & R & T & A & B & D & Q). destruct Q as (sx & sy & sz & nx & ny & nz & ix & iy & iz).
  assert (P : F3 f x y z a b c) by (constructor; auto). destruct (wf_fhe m W f Hf) as (h & Eh & Ih & Fh).
  assert (D3 : In h [x; y; z]) by (apply R; auto). cbn [In] in D3. destruct D3 as [<- | [<- | [<- | []]]].
  - exists x, y, z, a, b, c. auto.
  - exists y, z, x, b, c, a. split; [exact Eh|apply f3_rot, P].
  - exists z, x, y, c, a, b. split; [exact Eh|apply f3_rot, f3_rot, P].
Qed.
Lemma f3_verts f x y z a b c : F3 f x y z a b c -> In a (m_verts m) /\ In b (m_verts m) /\ In c (m_verts m).
Proof. intros P. split; [|split]; [apply (src_in m W x a (f3_ix _ _ _ _ _ _ _ P) (f3_sx _ _ _ _ _ _ _ P))|apply (src_in m W y b (f3_iy _ _ _ _ _ _ _ P) (f3_sy _ _ _ _ _ _ _ P))|apply (src_in m W z c (f3_iz _ _ _ _ _ _ _ P) (f3_sz _ _ _ _ _ _ _ P))]. Qed.
Lemma on_face_iff E f a b c : Spec.Tri m f a b c -> on_face m S E f <-> (E (v_pos m a) (v_pos m b) (S a) (S b) \/ E (v_pos m b) (v_pos m c) (S b) (S c) \/ E (v_pos m c) (v_pos m a) (S c) (S a)).
Proof.
  intros T. split.
  - intros (u & v & w & T' & H). destruct (tri_rotation m f a b c u v w T T') as [(-> & -> & ->) | [(-> & -> & ->) | (-> & -> & ->)]]; auto.
  - intros [H | [H | H]]; [exists a, b, c|exists b, c, a|exists c, a, b]; (split; [|exact H]); [exact T|apply tri_rot, T|apply tri_rot, tri_rot, T].
Qed.
Lemma face_rv_ok f : In f (m_faces m) -> exists z, face_rv (N := NumR) X (Some f) m = Ok (z, m) /\ FaceSign m S f z.
Proof.
  intros Hf. destruct (face3 f Hf) as (x & y & z & a & b & c & Eh & P). destruct (f3_verts _ _ _ _ _ _ _ P) as (Ia & Ib & Ic). unfold face_rv.
  assert (Ev := f_vertices_ok m W f x [y; z] Hf Eh (f3_ring _ _ _ _ _ _ _ P)). cbn [map] in Ev. rewrite (f3_sx _ _ _ _ _ _ _ P), (f3_sy _ _ _ _ _ _ _ P), (f3_sz _ _ _ _ _ _ _ P) in Ev. rewrite (bind_ok _ _ _ _ _ Ev).
  rewrite (bind_ok _ _ _ _ _ (check_ok a b Ia Ib)), (bind_ok _ _ _ _ _ (check_ok b c Ib Ic)), (bind_ok _ _ _ _ _ (check_ok c a Ic Ia)). eexists. split; [reflexivity|].
  destruct (check_spec (v_pos m a) (v_pos m b) (S a) (S b)) as (R0 & V0 & I0). destruct (check_spec (v_pos m b) (v_pos m c) (S b) (S c)) as (R1 & V1 & I1). destruct (check_spec (v_pos m c) (v_pos m a) (S c) (S a)) as (R2 & V2 & I2).
  assert (OR := on_face_iff RidgeEdge f a b c (f3_tri _ _ _ _ _ _ _ P)). assert (OV := on_face_iff ValleyEdge f a b c (f3_tri _ _ _ _ _ _ _ P)).
  rewrite <- R0, <- R1, <- R2 in OR. rewrite <- V0, <- V1, <- V2 in OV. unfold FaceSign, RidgeFace, ValleyFace. rewrite OR, OV.
  destruct (flag_cases _ _ _ I0 I1 I2) as [(-> & H1 & H2) | [(-> & H1 & H2) | (-> & H)]]; [left; auto|right; left; auto|right; right; split; [reflexivity|]; tauto].
Qed.
Lemma signs_ok : exists sg, mmap (fun f => face_rv (N := NumR) X (Some f)) (m_faces m) m = Ok (map sg (m_faces m), m) /\ forall f, In f (m_faces m) -> FaceSign m S f (sg f).
Proof.
  exists (fun f => match face_rv (N := NumR) X (Some f) m with Ok (z, _) => z | _ => 0%Z end). split.
  - apply mmap_all. intros f Hf. destruct (face_rv_ok f Hf) as (z & -> & _). reflexivity.
  - intros f Hf. destruct (face_rv_ok f Hf) as (z & -> & H). exact H.
Qed.
(** ** The borders *)
Variable sg : nat -> Z.
Notation fl := (map sg (m_faces m)).
Lemma sign_get f : In f (m_faces m) -> tab_at (N := NumR) fl (f_idx m f) m = Ok (sg f, m).
Proof. intros Hf. destruct (fidx_nth m V f Hf) as (i & Ei & ->). apply tab_ok. rewrite nth_error_map, Ei. reflexivity. Qed.
Definition bh (h : nat) : nat := match h_face m (revm m h) with Some g => g | None => 0%nat end.
Lemma bh_ok h : In h (m_hes m) -> h_rev m h = Some (revm m h) /\ In (revm m h) (m_hes m) /\ h_face m (revm m h) = Some (bh h) /\ In (bh h) (m_faces m).
Proof.
  intros Hh. destruct (revm_ok m W h Hh) as (E & I & _). destruct (wf_face m W _ I) as (g & Eg & Ig). unfold bh. rewrite Eg. auto.
Qed.
Lemma behind_iff h g : In h (m_hes m) -> behind m h g <-> g = bh h.
Proof.
  intros Hh. destruct (bh_ok h Hh) as (E & _ & Eg & _). split.
  - intros (r & Er & Ef). congruence.
  - intros ->. exists (revm m h). auto.
Qed.
Lemma border_iff f x y z a b c h : In f (m_faces m) -> F3 f x y z a b c -> h_face m h = Some f -> In h (m_hes m) ->
  (exists g, Border m sg h g) <-> sg f = 0%Z /\ sg (bh h) <> 0%Z /\ forall h', In h' [x; y; z] -> h' <> h -> sg (bh h') = 0%Z.
Proof.
  intros If P Fh Ih. destruct (f3_ring _ _ _ _ _ _ _ P) as (_ & _ & Hin). split.
  - intros (g & _ & B & Sg & f' & _ & Ef' & Zf & H). assert (f' = f) by congruence. subst f'. apply (behind_iff h g Ih) in B. subst g. split; [exact Zf|]. split; [exact Sg|]. intros h' I' Ne. apply Hin in I'. destruct I' as [I' F']. apply (H h' (bh h') I' F'); [apply behind_iff; [exact I'|reflexivity]|exact Ne].
  - intros (Z0 & Sg & H). exists (bh h). split; [exact Ih|]. split; [apply behind_iff; [exact Ih|reflexivity]|]. split; [exact Sg|]. exists f. split; [exact If|]. split; [exact Fh|]. split; [exact Z0|]. intros h' g' I' F' B' Ne. apply (behind_iff h' g' I') in B'. subst g'. apply H; [apply Hin; auto|exact Ne].
Qed.
(** ** The marks *)
Definition Acc (D : marks NumR) (K : list (nat * vecR)) : Prop :=
  length D = n /\ forall v, In v (m_verts m) -> tabf m (vzero, 0) D v = (vsum (map snd (filter (fun k => ptr_eqb (h_src m (fst k)) (Some v) || ptr_eqb (dst_of m (fst k)) (Some v)) K)), INR (length (filter (fun k => ptr_eqb (h_src m (fst k)) (Some v) || ptr_eqb (dst_of m (fst k)) (Some v)) K))).
Lemma upd_some {A} (l : list A) : forall i g, (i < length l)%nat -> exists l', upd l i g = Some l' /\ length l' = length l /\ forall d j, nth j l' d = if Nat.eqb i j then g (nth j l d) else nth j l d.
Proof.
  induction l as [|x l IH]; intros i g Hi; [cbn in Hi; lia|]. destruct i as [|i]; cbn [upd].
  - eexists. split; [reflexivity|]. split; [reflexivity|]. intros d [|j]; reflexivity.
  - cbn [length] in Hi. destruct (IH i g) as (l' & -> & L & H); [lia|]. eexists. split; [reflexivity|]. split; [cbn [length]; congruence|]. intros d [|j]; cbn [nth Nat.eqb]; [reflexivity|apply H].
Qed.
Lemma add_ok D v d : length D = n -> In v (m_verts m) -> exists D', add_mark (N := NumR) D (v_idx m v) d m = Ok (D', m) /\ length D' = n /\
  forall w, In w (m_verts m) -> tabf m (vzero, 0) D' w = if Nat.eqb v w then (vadd (fst (tabf m (vzero, 0) D w)) d, snd (tabf m (vzero, 0) D w) + 1) else tabf m (vzero, 0) D w.
Proof.
  intros L Hv. destruct (idx_nth m V v Hv) as (i & Ei & Ex). unfold add_mark. rewrite Ex. destruct (Z.ltb_spec (Z.of_nat i) 0); [lia|]. rewrite Nat2Z.id.
  assert (Hi : (i < length D)%nat) by (rewrite L; apply nth_error_Some; congruence).
  destruct (upd_some D i (fun x => (vadd (fst x) d, @nadd NumR (snd x) none_)) Hi) as (D' & -> & L' & H'). exists D'. split; [reflexivity|]. split; [congruence|].
  intros w Hw. unfold tabf. destruct (idx_nth m V w Hw) as (j & Ej & Jx). rewrite Jx, Nat2Z.id, H'.
  assert (Q : Nat.eqb i j = Nat.eqb v w).
  { destruct (Nat.eqb_spec i j) as [-> | Nij]; destruct (Nat.eqb_spec v w) as [-> | Nvw]; auto; exfalso; [congruence|]. apply Nij. apply (proj1 (NoDup_nth_error (m_verts m)) (wf_v_nodup m W)); [apply nth_error_Some; congruence|congruence]. }
  rewrite Q. destruct (Nat.eqb v w); reflexivity.
Qed.
Lemma vsum_app l d : vsum (l ++ [d]) = vadd (vsum l) d.
Proof.
  unfold vsum. induction l as [|x l IH]; cbn [app fold_right]; [apply vadd_comm|]. etransitivity; [exact (f_equal (vadd x) IH)|apply vadd_assoc].
Qed.
Lemma mark_edge_ok D K f h y z a b c g : In f (m_faces m) -> F3 f h y z a b c -> Acc D K ->
  exists D' d, mark_edge (N := NumR) (sg g) D (Some h) m = Ok (D', m) /\ HalfedgeInward m h d /\ Acc D' (K ++ [(h, vscale (IZR (sg g)) d)]).
Proof.
  intros If P [L HA]. destruct (f3_verts _ _ _ _ _ _ _ P) as (Ia & Ib & Ic). destruct P as [R T Nab Nbc Nca sx sy sz nx ny nz ix iy iz]. unfold mark_edge.
  assert (Dh : dst_of m h = Some b) by (rewrite (dst_next m h y W ix nx); exact sy). assert (Dy : dst_of m y = Some c) by (rewrite (dst_next m y z W iy ny); exact sz).
  rewrite (bind_ok _ _ _ _ _ (r_src m h (h_alive m W h ix))), sx. rewrite (bind_ok _ _ _ _ _ (dst_of_ok m W h ix)), Dh. rewrite (bind_ok _ _ _ _ _ (r_next m h (h_alive m W h ix))), nx. rewrite (bind_ok _ _ _ _ _ (dst_of_ok m W y iy)), Dy.
  rewrite (bind_ok _ _ _ _ _ (r_pos m a (v_alive m W a Ia))), (bind_ok _ _ _ _ _ (r_pos m b (v_alive m W b Ib))), (bind_ok _ _ _ _ _ (r_pos m c (v_alive m W c Ic))).
  assert (A := ND f a b c If T). unfold tri_area in A. destruct (inward_ok (v_pos m a) (v_pos m b) (v_pos m c)) as (d & Ed & Id); [lra|].
  rewrite Ed. cbn [lift]. rewrite bind_ret. rewrite (bind_ok _ _ _ _ _ (r_vidx m a (v_alive m W a Ia))), (bind_ok _ _ _ _ _ (r_vidx m b (v_alive m W b Ib))).
  change (@nofZ NumR (sg g)) with (IZR (sg g)). set (q := vscale (IZR (sg g)) d).
  destruct (add_ok D a q L Ia) as (D1 & E1 & L1 & H1). destruct (add_ok D1 b q L1 Ib) as (D2 & E2 & L2 & H2). rewrite (bind_ok _ _ _ _ _ E1). exists D2, d. split; [exact E2|]. split.
  - exists f, a, b, c. split; [|auto]. destruct R as (_ & _ & Hin). apply Hin. left. reflexivity.
  - split; [exact L2|]. intros v Hv. rewrite (H2 v Hv), (H1 v Hv), (HA v Hv). rewrite !filter_app, !map_app, !app_length. cbn [filter fst]. rewrite sx, Dh. cbn [ptr_eqb].
    destruct (Nat.eqb_spec a v) as [-> | Nav]; destruct (Nat.eqb_spec b v) as [-> | Nbv]; cbn [orb map snd length app fst].
    + congruence.
    + rewrite vsum_app, plus_INR. reflexivity.
    + rewrite vsum_app, plus_INR. reflexivity.
    + rewrite app_nil_r, Nat.add_0_r. reflexivity.
Qed.
Lemma find_chain {A} (f : nat -> option nat) step (body : A -> ptr -> M NumR (A * bool)) (p : nat -> bool) acc r x0 :
  forall l x fuel, chainto f x l x0 -> ~ In x0 l -> (length (x :: l) <= fuel)%nat ->
  (forall y, In y (x :: l) -> step (Some y) m = Ok (f y, m)) ->
  (forall y, In y (x :: l) -> body acc (Some y) m = Ok ((if p y then r else acc, p y), m)) -> existsb p (x :: l) = true ->
  circ step body fuel (Some x0) (Some x) acc m = Ok (r, m).
Proof.
  induction l as [|z l IH]; intros x fuel Hc Hni Hf Hs Hb Ep; destruct fuel as [|fuel]; try (simpl in Hf; lia).
  - cbn [existsb] in Ep. rewrite orb_false_r in Ep. cbn [circ]. rewrite (bind_ok _ _ _ _ _ (Hb x (or_introl eq_refl))), Ep. reflexivity.
  - destruct Hc as [H1 H2]. cbn [circ]. rewrite (bind_ok _ _ _ _ _ (Hb x (or_introl eq_refl))). cbn [existsb] in Ep. destruct (p x); [reflexivity|]. cbn [fst snd orb] in *.
    rewrite (bind_ok _ _ _ _ _ (Hs x (or_introl eq_refl))), H1. destruct (ptr_eqb (Some z) (Some x0)) eqn:E.
    + apply ptr_eqb_eq in E; injection E as ->. exfalso; apply Hni; left; reflexivity.
    + apply IH; [exact H2|intros H; apply Hni; right; exact H|simpl in *; lia| | |exact Ep]; intros; [apply Hs|apply Hb]; right; assumption.
Qed.
Lemma circ_find {A} f x l (body : A -> ptr -> M NumR (A * bool)) (p : nat -> bool) acc r : In f (m_faces m) -> f_he m f = Some x -> Fring m f (x :: l) ->
  (forall y, In y (x :: l) -> body acc (Some y) m = Ok ((if p y then r else acc, p y), m)) -> existsb p (x :: l) = true -> circ_f (Some f) acc body m = Ok (r, m).
Proof.
  intros Hv Eh Hr Hb Ep. unfold circ_f. rewrite (bind_ok _ _ _ _ _ (r_fhe _ _ (f_alive m W _ Hv))), bind_get, Eh. pose proof (fring_len m W _ _ Hr) as Hlen. destruct Hr as (Hc & Hnd & Hin).
  eapply find_chain; [exact Hc|inversion Hnd; assumption|simpl in *; lia| |exact Hb|exact Ep].
  intros y Hy; unfold step_f; apply r_next, (h_alive m W), Hin, Hy.
Qed.
Lemma around_ok f x y z a b c : In f (m_faces m) -> f_he m f = Some x -> F3 f x y z a b c ->
  flagged_around (N := NumR) fl (Some f) m = Ok (bfold (fun acc y => (if (sg (bh y) =? 0)%Z then acc else ((fst acc + 1)%Z, f_idx m (bh y)), false)) (0%Z, (-1)%Z) [x; y; z], m).
Proof.
  intros If Eh P. apply (circ_f_ok m W f x [y; z] _ (fun acc y => (if (sg (bh y) =? 0)%Z then acc else ((fst acc + 1)%Z, f_idx m (bh y)), false)) _ If Eh (f3_ring _ _ _ _ _ _ _ P)).
  intros h acc Ih _. destruct (bh_ok h Ih) as (Er & Ir & Eg & Ig). rewrite (bind_ok _ _ _ _ _ (r_rev m h (h_alive m W h Ih))), Er, (bind_ok _ _ _ _ _ (r_face m _ (h_alive m W _ Ir))), Eg.
  rewrite (bind_ok _ _ _ _ _ (r_fidx m _ (f_alive m W _ Ig))), (bind_ok _ _ _ _ _ (sign_get _ Ig)). reflexivity.
Qed.
(** What one face adds. *)
Definition Adds (f : nat) (K : list (nat * vecR)) : Prop :=
  NoDup (map fst K) /\ (forall h, In h (map fst K) <-> In h (m_hes m) /\ h_face m h = Some f /\ exists g, Border m sg h g) /\
  forall h d, In (h, d) K -> exists g d0, Border m sg h g /\ HalfedgeInward m h d0 /\ d = vscale (IZR (sg g)) d0.
Lemma adds_none f x y z a b c : In f (m_faces m) -> F3 f x y z a b c -> (forall h, In h [x; y; z] -> ~ exists g, Border m sg h g) -> Adds f [].
Proof.
  intros If P H. split; [constructor|]. split; [|intros h d []]. intros h. split; [intros []|]. intros (Ih & Fh & B). exfalso. destruct (f3_ring _ _ _ _ _ _ _ P) as (_ & _ & Hin). apply (H h); [apply Hin; auto|exact B].
Qed.
Lemma mark_one D K f x y z a b c h y' z' a' b' c' : In f (m_faces m) -> f_he m f = Some x -> F3 f x y z a b c -> F3 f h y' z' a' b' c' -> Acc D K ->
  sg f = 0%Z -> sg (bh h) <> 0%Z -> (forall k, In k [x; y; z] -> k <> h -> sg (bh k) = 0%Z) ->
  exists D' K', bind (mesh_face (N := NumR) (f_idx m (bh h))) (fun g => bind (fa_idx g) (fun gi => bind (tab_at fl gi) (fun orient => bind (assertion (negb (orient =? 0)%Z)) (fun _ => bind (circ_f (Some f) (D, false) (fun acc it => bind (he_rev it) (fun r => bind (he_face r) (fun k =>
    if ptr_eqb k g then bind (mark_edge orient (fst acc) it) (fun D' => ret ((D', true), true)) else ret (acc, false)))))
    (fun r => bind (assertion (snd r)) (fun _ => ret (fst r))))))) m = Ok (D', m) /\ Adds f K' /\ Acc D' (K ++ K').
Proof.
  intros If Eh P P' HA Z0 Sg Hz. assert (Ih := f3_ix _ _ _ _ _ _ _ P'). destruct (bh_ok h Ih) as (Er & Ir & Eg & Ig).
  assert (Inh : In h [x; y; z]). { destruct (f3_ring _ _ _ _ _ _ _ P) as (_ & _ & Hin). destruct (f3_ring _ _ _ _ _ _ _ P') as (_ & _ & Hin'). apply Hin, Hin'. left. reflexivity. }
  assert (Fh : h_face m h = Some f) by (destruct (f3_ring _ _ _ _ _ _ _ P') as (_ & _ & Hin'); apply Hin'; left; reflexivity).
  destruct (mark_edge_ok D K f h y' z' a' b' c' (bh h) If P' HA) as (D' & d & ED & Id & HA'). exists D', [(h, vscale (IZR (sg (bh h))) d)]. split; [|split; [|exact HA']].
  - assert (EF : mesh_face (N := NumR) (f_idx m (bh h)) m = Ok (Some (bh h), m)) by (destruct (fidx_nth m V _ Ig) as (i & Ei & ->); rewrite mesh_face_eq, Ei; reflexivity).
    rewrite (bind_ok _ _ _ _ _ EF), (bind_ok _ _ _ _ _ (r_fidx m _ (f_alive m W _ Ig))), (bind_ok _ _ _ _ _ (sign_get _ Ig)).
    destruct (Z.eqb_spec (sg (bh h)) 0); [contradiction|]. cbn [negb assertion]. rewrite bind_ret.
    assert (EC : circ_f (N := NumR) (Some f) (D, false) (fun acc it => bind (he_rev it) (fun r => bind (he_face r) (fun k => if ptr_eqb k (Some (bh h)) then bind (mark_edge (sg (bh h)) (fst acc) it) (fun D' => ret ((D', true), true)) else ret (acc, false)))) m = Ok ((D', true), m)).
    { apply (circ_find f x [y; z] _ (fun k => Nat.eqb k h) _ _ If Eh (f3_ring _ _ _ _ _ _ _ P)).
      - intros k Ik. assert (Hk : In k (m_hes m)) by (destruct (f3_ring _ _ _ _ _ _ _ P) as (_ & _ & Hin); apply Hin, Ik). destruct (bh_ok k Hk) as (Er' & Ir' & Eg' & Ig').
        rewrite (bind_ok _ _ _ _ _ (r_rev m k (h_alive m W k Hk))), Er', (bind_ok _ _ _ _ _ (r_face m _ (h_alive m W _ Ir'))), Eg'. cbn [ptr_eqb]. destruct (Nat.eqb_spec k h) as [-> | Ne].
        + rewrite Nat.eqb_refl. cbn [fst]. rewrite (bind_ok _ _ _ _ _ ED). reflexivity.
        + destruct (Nat.eqb_spec (bh k) (bh h)) as [E | _]; [|reflexivity]. exfalso. apply Sg. rewrite <- E. exact (Hz k Ik Ne).
      - apply existsb_exists. exists h. split; [exact Inh|apply Nat.eqb_refl]. }
    rewrite (bind_ok _ _ _ _ _ EC). reflexivity.
  - assert (B : exists g, Border m sg h g) by (apply (border_iff f x y z a b c h If P Fh Ih); auto).
    split; [constructor; [intros []|constructor]|]. split.
    + intros k. cbn [map fst In]. split.
      * intros [<- | []]. auto.
      * intros (Ik & Fk & Bk). left. apply (border_iff f x y z a b c k If P Fk Ik) in Bk. destruct Bk as (_ & Sk & _). destruct (Nat.eq_dec k h) as [E | Ne]; [auto|]. exfalso. apply Sk. apply Hz; [|exact Ne]. destruct (f3_ring _ _ _ _ _ _ _ P) as (_ & _ & Hin). apply Hin. auto.
    + intros k e [E | []]. injection E as <- <-. destruct B as [g B]. exists g, d. split; [exact B|]. split; [exact Id|]. destruct B as (_ & B & _). apply (behind_iff h g Ih) in B. subst g. reflexivity.
Qed.
Lemma mark_face_ok D K f : In f (m_faces m) -> Acc D K -> exists D' K', mark_face (N := NumR) fl D (Some f) m = Ok (D', m) /\ Adds f K' /\ Acc D' (K ++ K').
Proof.
  intros If HA. destruct (face3 f If) as (x & y & z & a & b & c & Eh & P). destruct (f3_ring _ _ _ _ _ _ _ P) as (_ & Hnd & Hin).
  assert (BI : forall h, In h [x; y; z] -> (exists g, Border m sg h g) <-> sg f = 0%Z /\ sg (bh h) <> 0%Z /\ forall h', In h' [x; y; z] -> h' <> h -> sg (bh h') = 0%Z) by (intros h Ih; apply Hin in Ih; destruct Ih as [Ih Fh]; apply (border_iff f x y z a b c h If P Fh Ih)).
  unfold mark_face. rewrite (bind_ok _ _ _ _ _ (r_fidx m f (f_alive m W f If))), (bind_ok _ _ _ _ _ (sign_get f If)).
  assert (None_ : (forall h, In h [x; y; z] -> ~ exists g, Border m sg h g) -> exists K', Adds f K' /\ Acc D (K ++ K')) by (intros H; exists []; split; [exact (adds_none f x y z a b c If P H)|rewrite app_nil_r; exact HA]).
  destruct (Z.eqb_spec (sg f) 0) as [Z0 | Z0]; cbn [negb].
  2: { destruct None_ as (K' & A1 & A2); [intros h Ih B; apply (BI h Ih) in B; tauto|]. exists D, K'. auto. }
  rewrite (bind_ok _ _ _ _ _ (around_ok f x y z a b c If Eh P)). inversion_clear Hnd as [|? ? N1 Hn]. inversion_clear Hn as [|? ? N2 _]. cbn [In] in N1, N2.
  assert (Nxy : x <> y) by (intros ->; tauto). assert (Nxz : x <> z) by (intros ->; tauto). assert (Nyz : y <> z) by (intros ->; tauto). clear N1 N2. cbn [bfold snd fst].
  assert (ND2 : forall h k, In h [x; y; z] -> In k [x; y; z] -> h <> k -> sg (bh h) <> 0%Z -> sg (bh k) <> 0%Z -> forall j, In j [x; y; z] -> ~ exists g, Border m sg j g).
  { intros h k Ih Ik Nhk Sh Sk j Ij B. apply (BI j Ij) in B. destruct B as (_ & _ & B). destruct (Nat.eq_dec h j) as [<- | Ne]; [apply Sk, B; auto|apply Sh, B; auto]. }
  assert (I3 : In x [x; y; z] /\ In y [x; y; z] /\ In z [x; y; z]) by (cbn [In]; tauto). destruct I3 as (Hx & Hy & Hz).
  destruct (Z.eqb_spec (sg (bh x)) 0) as [Zx | Zx]; destruct (Z.eqb_spec (sg (bh y)) 0) as [Zy | Zy]; destruct (Z.eqb_spec (sg (bh z)) 0) as [Zz | Zz]; cbn [fst snd negb Z.eqb Z.add Pos.eqb Pos.add Pos.succ].
  - destruct None_ as (K' & A1 & A2); [intros h Ih B; apply (BI h Ih) in B; destruct B as (_ & B & _); cbn [In] in Ih; destruct Ih as [<- | [<- | [<- | []]]]; auto|]. exists D, K'. auto.
  - apply (mark_one D K f x y z a b c z x y c a b If Eh P (f3_rot _ _ _ _ _ _ _ (f3_rot _ _ _ _ _ _ _ P)) HA Z0 Zz). intros k Ik Ne. cbn [In] in Ik. destruct Ik as [<- | [<- | [<- | []]]]; auto; congruence.
  - apply (mark_one D K f x y z a b c y z x b c a If Eh P (f3_rot _ _ _ _ _ _ _ P) HA Z0 Zy). intros k Ik Ne. cbn [In] in Ik. destruct Ik as [<- | [<- | [<- | []]]]; auto; congruence.
  - destruct None_ as (K' & A1 & A2); [exact (ND2 y z Hy Hz Nyz Zy Zz)|]. exists D, K'. auto.
  - apply (mark_one D K f x y z a b c x y z a b c If Eh P P HA Z0 Zx). intros k Ik Ne. cbn [In] in Ik. destruct Ik as [<- | [<- | [<- | []]]]; auto; congruence.
  - destruct None_ as (K' & A1 & A2); [exact (ND2 x z Hx Hz Nxz Zx Zz)|]. exists D, K'. auto.
  - destruct None_ as (K' & A1 & A2); [exact (ND2 x y Hx Hy Nxy Zx Zy)|]. exists D, K'. auto.
  - destruct None_ as (K' & A1 & A2); [exact (ND2 x y Hx Hy Nxy Zx Zy)|]. exists D, K'. auto.
Qed.
(** All faces. *)
Lemma mark_all l : forall D K, NoDup l -> (forall f, In f l -> In f (m_faces m)) -> Acc D K -> exists D' K', mfold (fun D f => mark_face (N := NumR) fl D (Some f)) D l m = Ok (D', m) /\ Acc D' (K ++ K') /\
  NoDup (map fst K') /\ (forall h, In h (map fst K') <-> In h (m_hes m) /\ (exists f, In f l /\ h_face m h = Some f) /\ exists g, Border m sg h g) /\
  forall h d, In (h, d) K' -> exists g d0, Border m sg h g /\ HalfedgeInward m h d0 /\ d = vscale (IZR (sg g)) d0.
Proof.
  induction l as [|f l IH]; intros D K NDl Hl HA; cbn [mfold].
  - exists D, []. split; [reflexivity|]. rewrite app_nil_r. split; [exact HA|]. split; [constructor|]. split; [intros h; split; [intros []|intros (_ & (f & [] & _) & _)]|intros h d []].
  - inversion_clear NDl as [|? ? Nf NDl']. destruct (mark_face_ok D K f (Hl f (or_introl eq_refl)) HA) as (D1 & K1 & E1 & (N1 & I1 & P1) & A1). destruct (IH D1 (K ++ K1) NDl') as (D2 & K2 & E2 & A2 & N2 & I2 & P2); [intros g Hg; apply Hl; right; exact Hg|exact A1|].
    exists D2, (K1 ++ K2). split; [rewrite (bind_ok _ _ _ _ _ E1); exact E2|]. split; [rewrite app_assoc; exact A2|]. rewrite map_app. split; [|split].
    + apply NoDup_app_disj; [exact N1|exact N2|]. intros h H1 H2. apply I1 in H1. apply I2 in H2. destruct H1 as (_ & F1 & _). destruct H2 as (_ & (g & Ig & Fg) & _). assert (g = f) by congruence. subst g. contradiction.
    + intros h. rewrite in_app_iff, I1, I2. split.
      * intros [(A & B & D0) | (A & (g & Ig & Fg) & D0)]; (split; [exact A|]); (split; [|exact D0]); [exists f; split; [left; reflexivity|exact B]|exists g; split; [right; exact Ig|exact Fg]].
      * intros (A & (g & [<- | Ig] & Fg) & D0); [left; auto|right; split; [exact A|]; split; [exists g; auto|exact D0]].
    + intros h d Ih. apply in_app_iff in Ih. destruct Ih as [Ih | Ih]; [exact (P1 h d Ih)|exact (P2 h d Ih)].
Qed.
Lemma mean_ok (x : vecR * R) k (l : list vecR) : x = (vsum l, INR k) -> exists y, mean_mark (N := NumR) x = Some y /\ (k = 0%nat -> y = x) /\
  (k <> 0%nat -> snd y = 1 /\ let mean := vscale (/ INR k) (vsum l) in (vlength mean <= / 10 ^ 8 -> fst y = mean) /\ (/ 10 ^ 8 < vlength mean -> vlength (fst y) = 1 /\ vscale (vlength mean) (fst y) = mean)).
Proof.
  intros ->. unfold mean_mark. cbn [fst snd]. destruct (Nat.eq_dec k 0) as [-> | Nk].
  - exists (vsum l, INR 0). assert (E : @neqb NumR (INR 0) nzero = true) by (cbn [INR]; rn; unfold Reqb; destruct (Req_EM_T 0 0); [reflexivity|congruence]). rewrite E. split; [reflexivity|]. split; [reflexivity|congruence].
  - assert (Pk : 0 < INR k) by (apply lt_0_INR; lia). assert (E : @neqb NumR (INR k) nzero = false) by (rn; unfold Reqb; destruct (Req_EM_T (INR k) 0); [lra|reflexivity]). rewrite E. unfold Vec.vdiv. rewrite E.
    set (mean := vscale (/ INR k) (vsum l)). assert (EM : @V3 NumR (@ndiv NumR (vx (vsum l)) (INR k)) (@ndiv NumR (vy (vsum l)) (INR k)) (@ndiv NumR (vz (vsum l)) (INR k)) = mean) by (unfold mean, vscale; rn; unfold Rdiv; f_equal; rn; ring). rewrite EM. rewrite eps8.
    change (@nltb NumR (/ 10 ^ 8) (Vec.vlength mean)) with (Rltb (/ 10 ^ 8) (vlength mean)). destruct (Rltb (/ 10 ^ 8) (vlength mean)) eqn:B.
    + apply Rltb_lt in B. assert (NZ : mean <> vzero). { intros Z. rewrite Z, (proj2 (vlength_zero vzero) eq_refl) in B. assert (0 < / 10 ^ 8) by (apply Rinv_0_lt_compat, pow_lt; lra). lra. }
      destruct (normalize_unit _ NZ) as (u & -> & Uu & Su). exists (u, 1). split; [reflexivity|]. split; [congruence|]. intros _. split; [reflexivity|]. cbv zeta. fold mean. split; [intros H; lra|auto].
    + apply Rltb_false in B. exists (mean, 1). split; [reflexivity|]. split; [congruence|]. intros _. split; [reflexivity|]. cbv zeta. fold mean. split; [reflexivity|intros H; lra].
Qed.
Lemma filter_fst {A B} (p : A -> bool) (K : list (A * B)) : NoDup (map fst K) -> NoDup (map fst (filter (fun k => p (fst k)) K)).
Proof.
  induction K as [|k K IH]; intros N; [constructor|]. cbn [map filter] in *. inversion_clear N as [|? ? N1 N2]. destruct (p (fst k)); [|exact (IH N2)]. cbn [map]. constructor; [|exact (IH N2)].
  intros I. apply N1. apply in_map_iff in I. destruct I as (j & Ej & Ij). apply filter_In in Ij. apply in_map_iff. exists j. tauto.
Qed.
Theorem marks_ok : exists D, bind (mfold (fun D f => mark_face (N := NumR) fl D (Some f)) (map (fun _ => (vzero, @nzero NumR)) (m_verts m)) (m_faces m)) (fun D => mmap (fun x => lift (mean_mark x)) D) m = Ok (D, m) /\
  length D = n /\ forall v, In v (m_verts m) -> VertexMark m sg v (tabf m (vzero, 0) D v).
Proof.
  assert (A0 : Acc (map (fun _ => (vzero, @nzero NumR)) (m_verts m)) []).
  { split; [apply map_length|]. intros v Hv. destruct (idx_nth m V v Hv) as (i & Ei & Ex). apply (tabf_nth m V (vzero, 0) _ i v); [exact Ei|]. rewrite nth_error_map, Ei. reflexivity. }
  destruct (mark_all (m_faces m) _ [] (wf_f_nodup m W) (fun f H => H) A0) as (D0 & K & E0 & HA & NK & IK & PK). change (Acc D0 K) in HA. destruct HA as (L0 & HA).
  destruct (mmap_some (fun x => lift (mean_mark (N := NumR) x)) (fun x y => mean_mark (N := NumR) x = Some y) (vzero, 0) m D0) as (D & ED & FD).
  { intros x Ix. apply In_nth_error in Ix. destruct Ix as [i Ei]. destruct (nth_error (m_verts m) i) as [v|] eqn:Ev; [|apply nth_error_None in Ev; assert (i < length D0)%nat by (apply nth_error_Some; congruence); lia].
    assert (T := HA v (nth_error_In _ _ Ev)). rewrite (tabf_nth m V (vzero, 0) D0 i v x Ev Ei) in T. destruct (mean_ok x _ _ T) as (y & Ey & _). exists y. rewrite Ey. split; reflexivity. }
  destruct (forall2_nth _ _ _ FD) as [LD HD]. exists D. split; [rewrite (bind_ok _ _ _ _ _ E0); exact ED|]. split; [congruence|].
  intros v Hv. destruct (idx_nth m V v Hv) as (i & Ei & Ex). assert (Hi : (i < length D0)%nat) by (rewrite L0; apply nth_error_Some; congruence).
  destruct (nth_error D0 i) as [x|] eqn:E1; [|apply nth_error_None in E1; lia]. destruct (nth_error D i) as [y|] eqn:E2; [|apply nth_error_None in E2; lia].
  assert (T := HA v Hv). rewrite (tabf_nth m V (vzero, 0) D0 i v x Ei E1) in T. rewrite (tabf_nth m V (vzero, 0) D i v y Ei E2). assert (M := HD i x y E1 E2). destruct (mean_ok x _ _ T) as (y' & Ey & M0 & M1). assert (y' = y) by congruence. subst y'.
  set (p := fun h => ptr_eqb (h_src m h) (Some v) || ptr_eqb (dst_of m h) (Some v)). change (filter (fun k : nat * vecR => ptr_eqb (h_src m (fst k)) (Some v) || ptr_eqb (dst_of m (fst k)) (Some v)) K) with (filter (fun k => p (fst k)) K) in T, M0, M1. set (K' := filter (fun k => p (fst k)) K) in *.
  assert (Pp : forall h, p h = true <-> touches m h v) by (intros h; unfold p, touches; rewrite orb_true_iff, !ptr_eqb_eq; reflexivity).
  exists K'. split; [apply filter_fst, NK|]. split.
  { intros h. split.
    - intros I. apply in_map_iff in I. destruct I as ((h' & d) & Eh & Ik). cbn [fst] in Eh. subst h'. apply filter_In in Ik. destruct Ik as [Ik Tk]. split; [|apply Pp, Tk]. apply (in_map fst), IK in Ik. tauto.
    - intros [B Tk]. assert (Ik : In h (map fst K)). { apply IK. destruct B as (g & B). assert (B' := B). destruct B as (Ih & _ & _ & f & If & Ef & _). split; [exact Ih|]. split; [exists f; auto|exists g; exact B']. }
      apply in_map_iff in Ik. destruct Ik as (k & Ek & Ik). apply in_map_iff. exists k. split; [exact Ek|]. apply filter_In. split; [exact Ik|]. rewrite Ek. apply Pp, Tk. }
  split; [intros h d Ik; apply filter_In in Ik; exact (PK h d (proj1 Ik))|]. split.
  - intros E. rewrite E in M0, T. cbn in M0, T. rewrite M0 by reflexivity. exact T.
  - intros NE. apply M1. intros Z. apply length_zero_iff_nil in Z. contradiction.
Qed.
End Marks.
