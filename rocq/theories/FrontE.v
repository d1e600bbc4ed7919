(** holeFillAdvancingFront: from the first lock to the last position. *)
From Coq Require Import List ZArith Arith Lia Bool Permutation.
From Verif Require Import Num Vec Heap Mesh Spec FillSpec Orbit Rings Exec Wp Queries Fill FrontA FrontF Front FrontI FrontS FrontSpec.
Import ListNotations.
Local Open Scope mesh_scope.

Section E.
Context {N : Num}.
Implicit Types m : mesh N.

(** ** The start *)
Lemma inv_start m f ring bs k : WF m -> NoLoops m -> In f (m_faces m) -> Corners m f ring bs -> NoDup bs -> 3 <= length bs -> Inv (with_lock k m) f bs (with_lock k m).
Proof.
  intros W NL If (R1 & R2 & R3 & R4) ND L. assert (Lr : length ring = length bs) by (rewrite <- (map_length (h_src m) ring), R4, map_length; reflexivity).
  constructor; try reflexivity; try (intros; assumption).
  - apply wf_lock, W.
  - exists ring. split; [split; [exact R2|split; [exact R1|exact R3]]|]. split; [lia|]. change (h_src (with_lock k m)) with (h_src m). rewrite R4. apply FinFun.Injective_map_NoDup; [intros ? ? [= ->]; reflexivity|exact ND].
  - intros v I. left. exact I.
  - intros g I. left. exact I.
  - intros v I. split; [reflexivity|intros _; reflexivity].
  - intros h [I D]. split; [exact I|]. split; [split; [|split; [|split]]; reflexivity|]. intros r E _. exact E.
  - intros h I. change (h_face (with_lock k m) h) with (h_face m h). destruct (ptr_eqb (h_face m h) (Some f)) eqn:E; [right; left; apply ptr_eqb_eq, E|left]. split; [exact I|]. intros Q. change (h_face m h = Some f) in Q. rewrite Q, ptr_eqb_refl in E. discriminate.
  - intros v (h & I & E & S). left. change (h_face m h = Some f) in E. change (h_src m h = Some v) in S. assert (Q : In (h_src m h) (map (h_src m) ring)) by (apply in_map, R3; auto). rewrite R4, S in Q. apply in_map_iff in Q as (w & [= ->] & Iw). exact Iw.
  - intros h v w I S D _ _ [Q | Q]; exfalso; change (m_fresh (with_lock k m)) with (m_fresh m) in Q.
    + assert (Z := v_lt m W v (src_in m W h v I S)). lia.
    + unfold dst_of in D. change (h_rev (with_lock k m) h) with (h_rev m h) in D. destruct (wf_rev m W h I) as (r & Er & Ir). rewrite Er in D. assert (Z := v_lt m W w (src_in m W r w Ir D)). lia.
  - intros h v w I S D Q. exfalso. change (m_fresh (with_lock k m)) with (m_fresh m) in Q. assert (Z := v_lt m W v (src_in m W h v I S)). lia.
Qed.

(** ** The vertices inside *)
Section Inside.
Variables (m : mesh N) (f : nat) (New : nat -> Prop).
Hypothesis W : WF m.
Hypothesis If : In f (m_faces m).
Hypothesis NV : forall v, New v -> In v (m_verts m).
Hypothesis NF : forall h v, In h (m_hes m) -> h_face m h = Some f -> h_src m h = Some v -> v_lock m v = false -> New v.
Hypothesis NN : forall h v w, In h (m_hes m) -> h_src m h = Some v -> dst_of m h = Some w -> New v -> v_lock m w = false -> New w.
Definition allnew (l : list ptr) : Prop := forall p, In p l -> exists v, p = Some v /\ New v.

Definition lk (p : ptr) : bool := match p with Some v => v_lock m v | None => true end.
Lemma first_free_ok : exists l, first_free (Some f) m = Ok (l, m) /\ allnew l /\ length l <= 1.
Proof.
  destruct (fring m W f If) as (h & l & Eh & R). unfold first_free.
  rewrite (circ_f_ok m W f h l _ (fun _ y => if lk (h_src m y) then ([], false) else ([h_src m y], true)) _ If Eh R).
  - eexists. split; [reflexivity|].
    assert (K : forall l' a, (forall y, In y l' -> In y (m_hes m) /\ h_face m y = Some f) -> allnew a -> length a <= 1 -> allnew (bfold (fun _ y => if lk (h_src m y) then ([], false) else ([h_src m y], true)) a l') /\ length (bfold (fun (_ : list ptr) y => if lk (h_src m y) then ([], false) else ([h_src m y], true)) a l') <= 1).
    { induction l' as [|y l' IH]; intros a Hy Ha La; cbn [bfold]; [auto|]. destruct (Hy y (or_introl eq_refl)) as [Iy Fy]. destruct (wf_src m W y Iy) as (v & Ev & _). rewrite Ev. cbn [lk]. destruct (v_lock m v) eqn:Q; cbn [fst snd].
      - apply IH; [intros z Iz; apply Hy; right; exact Iz|intros p []|cbn [length]; lia].
      - split; [|cbn [length]; lia]. intros p [<- | []]. exists v. split; [reflexivity|]. exact (NF y v Iy Fy Ev Q). }
    apply K; [intros y Iy; apply R, Iy|intros p []|cbn [length]; lia].
  - intros y a Iy _. destruct (wf_src m W y Iy) as (v & Ev & Iv). rewrite (bind_ok _ _ _ _ _ (r_src m y (h_alive m W y Iy))), Ev, (bind_ok _ _ _ _ _ (r_lock m v (v_alive m W v Iv))). cbn [lk]. destruct (v_lock m v); reflexivity.
Qed.
Definition at_src (v : nat) : list nat := filter (fun h => ptr_eqb (h_src m h) (Some v)) (m_hes m).
Lemma free_ok v ins : New v -> exists l, free_neighbors (Some v) ins m = Ok (l, m) /\ allnew l /\ length l <= length (at_src v).
Proof.
  intros Nv. destruct (vring m W v (NV v Nv)) as (h & l & Eh & R). unfold free_neighbors.
  set (g := fun (acc : list ptr) y => (if negb (lk (dst_of m y)) && negb (pmem (dst_of m y) ins) then acc ++ [dst_of m y] else acc, false)).
  rewrite (circ_v_ok m W v h l _ g _ (NV v Nv) Eh R).
  - eexists. split; [reflexivity|].
    assert (K : forall l' a, (forall y, In y l' -> In y (m_hes m) /\ h_src m y = Some v) -> allnew a -> allnew (bfold g a l') /\ length (bfold g a l') <= length a + length l').
    { induction l' as [|y l' IH]; intros a Hy Ha; cbn [bfold]; [split; [exact Ha|cbn [length]; lia]|]. destruct (Hy y (or_introl eq_refl)) as [Iy Sy].
      destruct (wf_rev m W y Iy) as (r & Er & Ir). destruct (wf_src m W r Ir) as (w & Ew & _). assert (D : dst_of m y = Some w) by (unfold dst_of; rewrite Er; exact Ew).
      assert (Gy : g a y = (if (negb (v_lock m w) && negb (pmem (Some w) ins))%bool then a ++ [Some w] else a, false)) by (unfold g; rewrite D; reflexivity). rewrite Gy. cbn [fst snd].
      destruct (negb (v_lock m w) && negb (pmem (Some w) ins))%bool eqn:Q.
      - apply andb_true_iff in Q as [Q _]. apply negb_true_iff in Q. destruct (IH (a ++ [Some w])) as [A B]; [intros z Iz; apply Hy; right; exact Iz| |].
        + intros p Ip. apply in_app_iff in Ip as [Ip | [<- | []]]; [exact (Ha p Ip)|]. exists w. split; [reflexivity|exact (NN y v w Iy Sy D Nv Q)].
        + split; [exact A|]. rewrite app_length in B. cbn [length] in *. lia.
      - destruct (IH a) as [A B]; [intros z Iz; apply Hy; right; exact Iz|exact Ha|]. split; [exact A|cbn [length]; lia]. }
    destruct (K (h :: l) []) as [A B]; [intros y Iy; apply R, Iy|intros p []|]. split; [exact A|]. change (length ([] : list ptr) + length (h :: l)) with (length (h :: l)) in B. etransitivity; [exact B|].
    apply NoDup_incl_length; [apply R|]. intros y Iy. apply R in Iy as [Iy Sy]. apply filter_In. split; [exact Iy|]. rewrite Sy. apply ptr_eqb_refl.
  - intros y a Iy _. destruct (wf_rev m W y Iy) as (r & Er & Ir). destruct (wf_src m W r Ir) as (w & Ew & Iw). rewrite (bind_ok _ _ _ _ _ (dst_ok m W y r Iy Er)), Ew, (bind_ok _ _ _ _ _ (r_lock m w (v_alive m W w Iw))). unfold g, dst_of. rewrite Er, Ew. reflexivity.
Qed.
Definition outside (ins : list ptr) : list nat := filter (fun h => negb (pmem (h_src m h) ins)) (m_hes m).
Lemma outside_add v ins : pmem (Some v) ins = false -> length (outside ins) = length (outside (Some v :: ins)) + length (at_src v).
Proof.
  intros Q. unfold outside, at_src. clear - Q. induction (m_hes m) as [|h l IH]; [reflexivity|]. cbn [filter]. change (pmem (h_src m h) (Some v :: ins)) with (ptr_eqb (h_src m h) (Some v) || pmem (h_src m h) ins)%bool.
  destruct (ptr_eqb (h_src m h) (Some v)) eqn:E; cbn [orb negb].
  - apply ptr_eqb_eq in E. rewrite E, Q. cbn [negb length]. rewrite IH. lia.
  - destruct (pmem (h_src m h) ins); cbn [negb length]; rewrite IH; lia.
Qed.
Lemma inside_loop_ok : forall fuel que ins, allnew que -> allnew ins -> length que + length (outside ins) <= fuel -> exists l, inside_loop fuel que ins m = Ok (l, m) /\ allnew l.
Proof.
  induction fuel as [|fuel IH]; intros que ins Hq Hi L; destruct que as [|p que]; cbn [inside_loop length] in *; [exists ins; auto|lia|exists ins; auto|].
  destruct (Hq p (or_introl eq_refl)) as (v & -> & Nv). destruct (pmem (Some v) ins) eqn:Q; [apply IH; [intros p Ip; apply Hq; right; exact Ip|exact Hi|lia]|].
  destruct (free_ok v (Some v :: ins) Nv) as (l & E & Hl & Ll). rewrite (bind_ok _ _ _ _ _ E). assert (O := outside_add v ins Q). apply IH.
  - intros p Ip. apply in_app_iff in Ip as [Ip | Ip]; [apply Hq; right; exact Ip|exact (Hl p Ip)].
  - intros p [<- | Ip]; [exists v; auto|exact (Hi p Ip)].
  - rewrite app_length. clear - L Ll O. unfold ptr in *. lia.
Qed.
Lemma inside_ok : exists l, inside_verts (Some f) m = Ok (l, m) /\ allnew l.
Proof.
  unfold inside_verts. destruct first_free_ok as (que & E & Hq & Lq). rewrite (bind_ok _ _ _ _ _ E), bind_get. apply inside_loop_ok; [exact Hq|intros p []|].
  assert (K : length (outside []) <= length (m_hes m)) by (unfold outside; clear; induction (m_hes m) as [|h l IH]; cbn [filter]; [lia|]; destruct (negb _); cbn [length]; lia). lia.
Qed.
Lemma addresses_new l : allnew l -> forall v, In v (addresses l) -> New v.
Proof.
  induction l as [|p l IH]; intros H v I; [destruct I|]. destruct (H p (or_introl eq_refl)) as (w & -> & Nw). cbn [addresses] in I. destruct I as [<- | I]; [exact Nw|]. apply IH; [intros q Iq; apply H; right; exact Iq|exact I].
Qed.
End Inside.

Definition with_pos (p : nat -> vec N) m : mesh N :=
  mkMesh (m_verts m) (m_hes m) (m_faces m) (m_indices m) (m_fresh m) (v_live m) p (v_he m) (v_idx m) (v_lock m)
    (h_live m) (h_src m) (h_next m) (h_rev m) (h_face m) (h_idx m) (h_bd m) (f_live m) (f_he m) (f_idx m).
Lemma wf_pos p m : WF m -> WF (with_pos p m).
Proof. intros W. destruct W. constructor; assumption. Qed.
Lemma mfor_wpos (q : nat -> vec N) : forall l m, (forall v, In v l -> v_live m v = true) -> exists p, mfor l (fun v => w_pos (Some v) (q v)) m = Ok (tt, with_pos p m) /\ forall v, ~ In v l -> p v = v_pos m v.
Proof.
  induction l as [|v l IH]; intros m L; cbn [mfor]; [exists (v_pos m); split; [destruct m; reflexivity|reflexivity]|]. rewrite (bind_ok _ _ _ _ _ (ww_pos m v (q v) (L v (or_introl eq_refl)))).
  destruct (IH (set_v_pos v (q v) m)) as (p & E & P); [intros w Iw; apply L; right; exact Iw|]. exists p. split; [exact E|]. intros w Q. rewrite P by (intros K; apply Q; right; exact K). flds. apply fupd_other. intros ->. apply Q. left. reflexivity.
Qed.

(** ** The end *)
Lemma tri_of m g x y z : WF m -> NoLoops m -> In x (m_hes m) -> h_face m x = Some g -> h_next m x = Some y -> h_next m y = Some z -> h_next m z = Some x ->
  exists a b c, Tri m g a b c /\ a <> b /\ b <> c /\ c <> a.
Proof.
  intros W NL Ix Fx Nx Ny Nz. assert (Iy := next_in m W x y Ix Nx). assert (Iz := next_in m W y z Iy Ny).
  destruct (wf_src m W x Ix) as (a & Sa & _). destruct (wf_src m W y Iy) as (b & Sb & _). destruct (wf_src m W z Iz) as (c & Sc & _). exists a, b, c.
  assert (D : forall h h' u w, In h (m_hes m) -> h_next m h = Some h' -> h_src m h = Some u -> h_src m h' = Some w -> u <> w).
  { intros h h' u w I E S S' ->. destruct (wf_rev m W h I) as (r & Er & _). apply (NL h I). unfold dst_of. rewrite Er. rewrite <- (wf_dst m W h h' r I E Er). congruence. }
  split; [|split; [exact (D x y a b Ix Nx Sa Sb)|split; [exact (D y z b c Iy Ny Sb Sc)|exact (D z x c a Iz Nz Sc Sa)]]].
  exists x, y, z. split; [|auto 10]. intros h. split.
  - intros [I F]. destruct (fring_at m W x g Ix Fx) as (l & R). assert (Rh : In h (x :: l)) by (apply R; auto). assert (K := cyc_reaches (h_next m) (x :: l) x h (proj1 R) (or_introl eq_refl) Rh).
    assert (C : cyc (h_next m) [x; y; z]) by (cbn [cyc chainto]; auto). assert (Q := cyc_reaches_in (h_next m) [x; y; z] x h C (or_introl eq_refl) K). cbn [In] in Q. intuition.
  - intros [-> | [-> | ->]]; (split; [assumption|]); [exact Fx|rewrite (wf_face_next m W x y Ix Nx); exact Fx|rewrite (wf_face_next m W y z Iy Ny), (wf_face_next m W x y Ix Nx); exact Fx].
Qed.

Lemma filled m f ring bs k m1 m2 p : WF m -> In f (m_faces m) -> Corners m f ring bs -> (forall v, k v = true <-> v_lock m v = true \/ In v bs) -> Inv (with_lock k m) f bs m1 -> Closed_ f m1 m2 ->
  (forall v, In v (m_verts m) -> p v = v_pos m2 v) -> FrontFilled m f bs (with_pos p m2).
Proof.
  intros W If CO HK V (b & h1 & h2 & h3 & -> & R & HB) HP. assert (W1 := iv_wf _ _ _ _ V). assert (NL1 := iv_nl _ _ _ _ V).
  assert (W2 : WF (with_pos p (with_bd b m1))) by (apply wf_pos, wf_bd, W1).
  assert (OUT : forall h, In h (m_hes m) -> h_face m h <> Some f -> In h (m_hes m1) /\ (h_src m1 h = h_src m h /\ h_next m1 h = h_next m h /\ h_face m1 h = h_face m h /\ h_bd m1 h = h_bd m h) /\
    (forall r, h_rev m h = Some r -> h_face m r <> Some f -> h_rev m1 h = Some r)) by (intros h I D; exact (iv_out _ _ _ _ V h (conj I D))).
  assert (RF : forall h, In h [h1; h2; h3] <-> In h (m_hes m1) /\ h_face m1 h = Some f) by apply R.
  assert (NEW : forall g, In g (m_faces m1) -> ~ In g (m_faces m) \/ g = f -> (exists x y z, In x (m_hes m1) /\ h_face m1 x = Some g /\ h_next m1 x = Some y /\ h_next m1 y = Some z /\ h_next m1 z = Some x /\ (b x = false \/ b y = false \/ b z = false))).
  { intros g Ig Hg. destruct (Nat.eq_dec g f) as [->|D].
    - assert (I1 : In h1 [h1; h2; h3]) by (left; reflexivity). exists h1, h2, h3. destruct R as (C & _ & RI). cbn [cyc chainto] in C. destruct C as (C1 & C2 & C3). apply RI in I1 as [J1 J2]. split; [exact J1|]. split; [exact J2|]. split; [exact C1|]. split; [exact C2|]. split; [exact C3|].
      left. destruct (b h1) eqn:Q; [|reflexivity]. apply HB in Q as (_ & Q & _). exfalso. apply Q. left. reflexivity.
    - destruct Hg as [Hg | Hg]; [|contradiction]. destruct (fring m1 W1 g Ig) as (h & l & Eh & Rg). destruct (proj1 (proj2 (proj2 Rg) h) (or_introl eq_refl)) as [Ih Fh].
      destruct (iv_kind _ _ _ _ V h Ih) as [[O1 O2] | [O | (g' & z1 & z2 & K1 & K2 & K3 & K4 & K5 & K6)]].
      + exfalso. apply Hg. destruct (OUT h O1 O2) as (_ & (_ & _ & Q & _) & _). rewrite Fh in Q. exact (face_in m W h g O1 (eq_sym Q)).
      + exfalso. congruence.
      + exists h, z1, z2. split; [exact Ih|]. split; [exact Fh|]. split; [exact K3|]. split; [exact K4|]. split; [exact K5|].
        assert (BB : forall z, h_bd m1 z = false -> b z = false) by (intros z Q; destruct (b z) eqn:Q'; [apply HB in Q' as [Q' _]; congruence|reflexivity]). destruct K6 as [K6 | [K6 | K6]]; [left|right; left|right; right]; apply BB, K6. }
  assert (NH : forall g, In g (m_faces m1) -> ~ In g (m_faces m) \/ g = f -> ~ Hole (with_pos p (with_bd b m1)) g).
  { intros g Ig Hg [_ H]. destruct (NEW g Ig Hg) as (x & y & z & Ix & Fx & Nx & Ny & Nz & Q). assert (Iy := next_in m1 W1 x y Ix Nx). assert (Iz := next_in m1 W1 y z Iy Ny).
    assert (Fy : h_face m1 y = Some g) by (rewrite (wf_face_next m1 W1 x y Ix Nx); exact Fx). assert (Fz : h_face m1 z = Some g) by (rewrite (wf_face_next m1 W1 y z Iy Ny); exact Fy).
    assert (Hx := H x Ix Fx). assert (Hy := H y Iy Fy). assert (Hz := H z Iz Fz). change (b x = true) in Hx. change (b y = true) in Hy. change (b z = true) in Hz. destruct Q as [Q | [Q | Q]]; congruence. }
  constructor.
  - exact W2.
  - exact NL1.
  - assert (Q := iv_euler _ _ _ _ V). change (m_verts (with_lock k m)) with (m_verts m) in Q. change (m_hes (with_lock k m)) with (m_hes m) in Q. change (m_faces (with_lock k m)) with (m_faces m) in Q.
    unfold euler. change (m_verts (with_pos p (with_bd b m1))) with (m_verts m1). change (m_hes (with_pos p (with_bd b m1))) with (m_hes m1). change (m_faces (with_pos p (with_bd b m1))) with (m_faces m1). clear - Q. 
    assert (E : Z.of_nat (length (m_hes m1)) = (Z.of_nat (length (m_hes m)) + (Z.of_nat (length (m_verts m1)) + Z.of_nat (length (m_faces m1)) - Z.of_nat (length (m_verts m)) - Z.of_nat (length (m_faces m))) * 2)%Z) by lia. rewrite E, Z.div_add by lia. lia.
  - exact (iv_vert _ _ _ _ V).
  - exact (iv_face _ _ _ _ V).
  - intros h I D. destruct (OUT h I D) as (A & (B1 & B2 & B3 & _) & _). auto.
  - intros h g I F G D. change (h_face m1 h = Some g) in F. destruct (iv_kind _ _ _ _ V h I) as [[O1 O2] | [O | (g' & _ & _ & K1 & K2 & _)]].
    + destruct (OUT h O1 O2) as (_ & (_ & _ & Q & _) & _). split; [exact O1|congruence].
    + congruence.
    + rewrite F in K1. injection K1 as <-. assert (Q := f_lt m W g G). change (m_fresh (with_lock k m)) with (m_fresh m) in K2. lia.
  - intros h r I Er D Dr. destruct (OUT h I D) as (A & (B1 & B2 & B3 & B4) & B5). split; [exact B1|]. split; [exact B2|]. split; [rewrite Er; exact (B5 r Er Dr)|]. split; [exact B3|].
    change (b h = h_bd m h). rewrite <- B4. destruct (b h) eqn:Q; [apply HB in Q as [Q _]; auto|]. destruct (h_bd m1 h) eqn:Q'; [|reflexivity]. exfalso. assert (Z : b h = true); [|congruence]. apply HB. split; [exact Q'|]. split; [intros K; apply RF in K as [_ K]; congruence|].
    intros (y & Iy & Ey). apply RF in Iy as [Iy Fy]. assert (Z := rev_rev m1 W1 y h Iy Ey). rewrite (B5 r Er Dr) in Z. injection Z as ->. assert (Ir := rev_in m W h y I Er). destruct (OUT y Ir Dr) as (_ & (_ & _ & C3 & _) & _). congruence.
  - intros h I D Q. change (b h = true) in Q. apply HB in Q as [Q _]. destruct (OUT h I D) as (_ & (_ & _ & _ & B4) & _). congruence.
  - intros g Ig Hg. change (In g (m_faces m1)) in Ig. split; [|exact (NH g Ig Hg)]. destruct (NEW g Ig Hg) as (x & y & z & Ix & Fx & Nx & Ny & Nz & _). exact (tri_of m1 g x y z W1 NL1 Ix Fx Nx Ny Nz).
  - intros g H. assert (Ig := proj1 H). change (In g (m_faces m1)) in Ig. destruct (Nat.eq_dec g f) as [->|D]; [destruct (NH f Ig (or_intror eq_refl) H)|]. split; [|exact D].
    destruct (in_dec Nat.eq_dec g (m_faces m)) as [G|G]; [|destruct (NH g Ig (or_introl G) H)]. split; [exact G|]. intros h I F. assert (F' : h_face m h <> Some f) by congruence. destruct (OUT h I F') as (A & (_ & _ & B3 & B4) & _).
    assert (Q := proj2 H h A ltac:(change (h_face m1 h = Some g); congruence)). change (b h = true) in Q. apply HB in Q as [Q _]. congruence.
  - intros v I Q. destruct (iv_pos _ _ _ _ V v I) as [A B]. split; [change (p v = v_pos m v); rewrite HP by exact I; change (v_pos m1 v = v_pos m v); exact (B Q)|]. change (v_lock m1 v = v_lock m v). rewrite A. change (k v = v_lock m v). destruct (k v) eqn:Z; [apply HK in Z as [Z | Z]; [auto|contradiction]|]. destruct (v_lock m v) eqn:Z'; [|reflexivity]. assert (Z2 : k v = true) by (apply HK; auto). congruence.
  - intros v I. assert (Iv : In v (m_verts m)). { destruct CO as (_ & _ & C3 & C4). assert (Z : In (Some v) (map (h_src m) ring)) by (rewrite C4; apply in_map, I). apply in_map_iff in Z as (h & E & Ih). apply (src_in m W h v); [apply C3, Ih|exact E]. }
    change (v_lock m1 v = true). destruct (iv_pos _ _ _ _ V v Iv) as [A _]. rewrite A. change (k v = true). apply HK. auto.
  - intros v I D. change (In v (m_verts m1)) in I. destruct (iv_vnew _ _ _ _ V v I) as [Q | [_ Q]]; [contradiction|exact Q].
Qed.

(** The whole function. *)
Theorem advancing_front relax fuel m f ring bs : WF m -> NoLoops m -> In f (m_faces m) -> Corners m f ring bs -> NoDup bs -> 3 <= length bs ->
  match holeFillAdvancingFront relax fuel (Some f) m with Ok (_, m') => FrontFilled m f bs m' | UB k => k = OutOfBounds /\ ~ AnglesBelow N | Abort _ | NoFuel => True end.
Proof.
  intros W NL If CO ND L. unfold holeFillAdvancingFront.
  destruct (meanEdgeLength_ok m W) as (reps & _ & E). rewrite (bind_ok _ _ _ _ _ E). clear E. match goal with |- context [front_loop _ _ ?x] => generalize x end. intros avg. clear reps.
  destruct (fring m W f If) as (h & l & Eh & R). destruct (lock_front_ok m f h l W If Eh R) as (k & E & HK). rewrite (bind_ok _ _ _ _ _ E). clear E.
  assert (HK' : forall v, k v = true <-> v_lock m v = true \/ In v bs).
  { intros v. rewrite HK. destruct CO as (_ & _ & C3 & C4). assert (Q : In (Some v) (map (h_src m) (h :: l)) <-> In (Some v) (map (h_src m) ring)).
    { rewrite !in_map_iff. split; intros (y & Ey & Iy); exists y; (split; [exact Ey|]); [apply C3; apply R in Iy; exact Iy|apply R; apply C3 in Iy; exact Iy]. }
    rewrite Q, C4, in_map_iff. split; intros [Z | Z]; try (left; exact Z); right; [destruct Z as (w & [= ->] & Z); exact Z|exists v; auto]. }
  assert (BS : forall v, In v bs -> In v (m_verts m)). { intros v I. destruct CO as (_ & _ & C3 & C4). assert (Z : In (Some v) (map (h_src m) ring)) by (rewrite C4; apply in_map, I). apply in_map_iff in Z as (z & E & Iz). apply (src_in m W z v); [apply C3, Iz|exact E]. }
  clear HK R Eh h l. assert (V := inv_start m f ring bs k W NL If CO ND L).
  assert (BL : forall v, In v bs -> v_lock (with_lock k m) v = true) by (intros v I; change (k v = true); apply HK'; auto).
  assert (K := loop_ok (with_lock k m) f bs (wf_lock k m W) If BS BL avg fuel (with_lock k m) V).
  unfold bind at 1. unfold wpu in K. destruct (front_loop fuel (Some f) avg (with_lock k m)) as [[[] m2]|u|a|]; [|destruct K as [K | K]; [discriminate|destruct u; [destruct K|destruct K|split; [reflexivity|exact K]]]|exact I|exact I].
  destruct K as [K | (m1 & V1 & C)]; [discriminate|]. assert (W1 := iv_wf _ _ _ _ V1).
  assert (C' := C). destruct C' as (b & h1 & h2 & h3 & E2 & R & HB).
  set (New := fun v => In v (m_verts m1) /\ m_fresh m <= v).
  assert (If2 : In f (m_faces m2)) by (rewrite E2; change (In f (m_faces m1)); apply In_nth_error in If as (i & E); exact (nth_error_In _ _ (iv_face _ _ _ _ V1 i f E))).
  assert (LOCK : forall v, In v bs -> v_lock m1 v = true) by (intros v I; destruct (iv_pos _ _ _ _ V1 v (BS v I)) as [Q _]; rewrite Q; exact (BL v I)).
  assert (W2 : WF m2) by (rewrite E2; apply wf_bd, W1).
  destruct (inside_ok m2 f New W2 If2) as (ls & E & HN).
  - intros v [I _]. rewrite E2. exact I.
  - rewrite E2. intros h v I F S U. split; [exact (src_in m1 W1 h v I S)|]. destruct (iv_front _ _ _ _ V1 v) as [Q | Q]; [exists h; auto| |exact Q]. exfalso. assert (Z := LOCK v Q). change (v_lock m1 v = false) in U. congruence.
  - rewrite E2. intros h v w I S D [_ Nv] U. assert (D' : dst_of m1 h = Some w) by exact D. split.
    + destruct (wf_rev m1 W1 h I) as (r & Er & Ir). unfold dst_of in D'. rewrite Er in D'. exact (src_in m1 W1 r w Ir D').
    + destruct (iv_near _ _ _ _ V1 h v w I S D' Nv) as [Q | Q]; [exact Q|]. exfalso. assert (Z := LOCK w Q). change (v_lock m1 w = false) in U. congruence.
  - rewrite (bind_ok _ _ _ _ _ E), bind_get. unfold bind at 1. unfold lift. destruct (relax m2 (addresses ls)) as [q|]; [|exact I]. cbn [ret].
    assert (AN := addresses_new New ls HN). destruct (mfor_wpos q (addresses ls) m2) as (p & E3 & P).
    + intros v Iv. apply (v_alive m2 W2). rewrite E2. exact (proj1 (AN v Iv)).
    + unfold ret. rewrite E3. apply (filled m f ring bs k m1 m2 p W If CO HK' V1 C). intros v Iv. apply P. intros Q. destruct (AN v Q) as [_ Z]. assert (Z' := v_lt m W v Iv). lia.
Qed.
End E.
