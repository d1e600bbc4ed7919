(** The whole of hole filling with an advancing front has no undefined behaviour in its relaxation. *)
From Coq Require Import List ZArith Arith Bool Lia Permutation.
From Verif Require Import Num Vec Heap Mesh Spec FillSpec Orbit Rings Exec Wp Safe Queries Fill FrontA FrontF Front FrontI FrontS FrontSpec FrontE Relax RelaxS Whole WholeSpec ReadOnly.
Import ListNotations.
Local Open Scope mesh_scope.

Section P.
Context {N : Num}.
Implicit Types m : mesh N.

(** ** The search ends with all free vertices that can be reached *)
Section Inside.
Variable m : mesh N.
Hypothesis W : WF m.
Definition near (v w : nat) : Prop := exists h, In h (m_hes m) /\ h_src m h = Some v /\ dst_of m h = Some w.
Lemma pmem_iff p (l : list ptr) : pmem p l = true <-> In p l.
Proof.
  induction l as [|q l IH]; [split; [discriminate|intros []]|]. change (pmem p (q :: l)) with (ptr_eqb p q || pmem p l)%bool. rewrite orb_true_iff, IH. cbn [In]. split; intros [A | A]; auto; left; [symmetry; apply ptr_eqb_eq, A|subst; apply ptr_eqb_refl].
Qed.
Lemma free_all v ins : In v (m_verts m) -> exists l, free_neighbors (Some v) ins m = Ok (l, m) /\ (forall p, In p l -> InV m p) /\ forall w, near v w -> v_lock m w = false -> In (Some w) ins \/ In (Some w) l.
Proof.
  intros Iv. destruct (vring m W v Iv) as (h & l & Eh & R). unfold free_neighbors.
  set (g := fun (acc : list ptr) y => (if negb (lk m (dst_of m y)) && negb (pmem (dst_of m y) ins) then acc ++ [dst_of m y] else acc, false)).
  rewrite (circ_v_ok m W v h l _ g _ Iv Eh R).
  - eexists. split; [reflexivity|].
    assert (K : forall l' a, (forall y, In y l' -> In y (m_hes m)) -> (forall p, In p a -> InV m p) -> (forall p, In p (bfold g a l') -> InV m p) /\ (forall p, In p a -> In p (bfold g a l')) /\
      forall y w, In y l' -> dst_of m y = Some w -> v_lock m w = false -> In (Some w) ins \/ In (Some w) (bfold g a l')).
    { induction l' as [|y l' IH]; intros a Hy Ha; cbn [bfold]; [split; [exact Ha|split; [auto|intros ? ? []]]|]. assert (Iy := Hy y (or_introl eq_refl)).
      destruct (wf_rev m W y Iy) as (r & Er & Ir). destruct (wf_src m W r Ir) as (w & Ew & Iw). assert (D : dst_of m y = Some w) by (unfold dst_of; rewrite Er; exact Ew).
      assert (Gy : g a y = (if (negb (v_lock m w) && negb (pmem (Some w) ins))%bool then a ++ [Some w] else a, false)) by (unfold g; rewrite D; reflexivity). rewrite Gy. cbn [fst snd].
      destruct (IH (if (negb (v_lock m w) && negb (pmem (Some w) ins))%bool then a ++ [Some w] else a)) as (A & B & C).
      - intros z Iz; apply Hy; right; exact Iz.
      - intros p Ip. destruct (_ && _)%bool; [|exact (Ha p Ip)]. apply in_app_iff in Ip as [Ip | [<- | []]]; [exact (Ha p Ip)|exists w; auto].
      - split; [exact A|]. split.
        + intros p Ip. apply B. destruct (_ && _)%bool; [apply in_app_iff; auto|exact Ip].
        + intros y' w' [<- | Iy'] D' L'; [|exact (C y' w' Iy' D' L')]. assert (w' = w) by congruence. subst w'. destruct (pmem (Some w) ins) eqn:Q; [left; apply pmem_iff, Q|]. right. apply B. rewrite L'. cbn [negb andb]. apply in_app_iff. right. left. reflexivity. }
    destruct (K (h :: l) []) as (A & _ & C); [intros y Iy; apply R, Iy|intros p []|]. split; [exact A|]. intros w (y & Iy & Sy & Dy) L. apply (C y w); [apply R; auto|exact Dy|exact L].
  - intros y a Iy _. destruct (wf_rev m W y Iy) as (r & Er & Ir). destruct (wf_src m W r Ir) as (w & Ew & Iw). rewrite (bind_ok _ _ _ _ _ (dst_ok m W y r Iy Er)), Ew, (bind_ok _ _ _ _ _ (r_lock m w (v_alive m W w Iw))). unfold g, dst_of. rewrite Er, Ew. reflexivity.
Qed.
Lemma loop_closed : forall fuel que ins l m', inside_loop fuel que ins m = Ok (l, m') -> (forall p, In p que -> InV m p) -> (forall p, In p ins -> InV m p) -> NoDup ins ->
  (forall v w, In (Some v) ins -> near v w -> v_lock m w = false -> In (Some w) ins \/ In (Some w) que) ->
  NoDup l /\ (forall p, In p que \/ In p ins -> In p l) /\ forall v w, In (Some v) l -> near v w -> v_lock m w = false -> In (Some w) l.
Proof.
  assert (Z : forall ins : list ptr, (forall v w, In (Some v) ins -> near v w -> v_lock m w = false -> In (Some w) ins \/ In (Some w) []) -> NoDup ins -> NoDup ins /\ (forall p, In p [] \/ In p ins -> In p ins) /\ forall v w, In (Some v) ins -> near v w -> v_lock m w = false -> In (Some w) ins).
  { intros ins Cl ND. split; [exact ND|]. split; [intros p [[] | H]; exact H|]. intros v w Iv Nw L. destruct (Cl v w Iv Nw L) as [Q | []]. exact Q. }
  induction fuel as [|fuel IH]; intros que ins l m' E Hq Hi ND Cl; destruct que as [|p que]; cbn [inside_loop] in E; [injection E as <- <-; apply Z; assumption|discriminate|injection E as <- <-; apply Z; assumption|].
  destruct (Hq p (or_introl eq_refl)) as (u & -> & Iu). destruct (pmem (Some u) ins) eqn:Q.
  - destruct (IH que ins l m' E) as (A & B & C); [intros q Iq; apply Hq; right; exact Iq|exact Hi|exact ND| |].
    + intros v w Iv Nw L. destruct (Cl v w Iv Nw L) as [A | [A | A]]; auto. injection A as <-. left. apply pmem_iff, Q.
    + split; [exact A|]. split; [|exact C]. intros q [[<- | Iq] | Iq]; apply B; auto. right. apply pmem_iff, Q.
  - destruct (free_all u (Some u :: ins) Iu) as (k & Ek & K1 & K2). rewrite (bind_ok _ _ _ _ _ Ek) in E. destruct (IH (que ++ k) (Some u :: ins) l m' E) as (A & B & C).
    + intros q Iq. apply in_app_iff in Iq as [Iq | Iq]; [apply Hq; right; exact Iq|exact (K1 q Iq)].
    + intros q [<- | Iq]; [exists u; auto|exact (Hi q Iq)].
    + constructor; [|exact ND]. intros Z'. apply pmem_iff in Z'. congruence.
    + intros v w [[= <-] | Iv] Nw L; [destruct (K2 w Nw L) as [A | A]; [left; exact A|right; apply in_app_iff; right; exact A]|].
      destruct (Cl v w Iv Nw L) as [A | [A | A]]; [left; right; exact A|left; left; exact A|right; apply in_app_iff; left; exact A].
    + split; [exact A|]. split; [|exact C]. intros q [[<- | Iq] | Iq]; apply B; [right; left; reflexivity|left; apply in_app_iff; auto|right; right; exact Iq].
Qed.
(** The search starts at a corner if there is a free one. *)
Lemma first_some f h v : In f (m_faces m) -> In h (m_hes m) -> h_face m h = Some f -> h_src m h = Some v -> v_lock m v = false -> exists h' u, first_free (Some f) m = Ok ([Some u], m) /\ In h' (m_hes m) /\ h_face m h' = Some f /\ h_src m h' = Some u /\ v_lock m u = false.
Proof.
  intros If Ih Fh Sv Lv. destruct (fring m W f If) as (x & l & Ex & R). unfold first_free.
  rewrite (circ_f_ok m W f x l _ (fun _ y => if lk m (h_src m y) then ([], false) else ([h_src m y], true)) _ If Ex R).
  - assert (K : forall l' a, (forall y, In y l' -> In y (m_hes m) /\ h_face m y = Some f) -> (exists y w, In y l' /\ h_src m y = Some w /\ v_lock m w = false) ->
      exists h' u, bfold (fun (_ : list ptr) y => if lk m (h_src m y) then ([], false) else ([h_src m y], true)) a l' = [Some u] /\ In h' (m_hes m) /\ h_face m h' = Some f /\ h_src m h' = Some u /\ v_lock m u = false).
    { induction l' as [|y l' IH]; intros a Hy (z & w & Iz & Sz & Lz); [destruct Iz|]. cbn [bfold]. destruct (Hy y (or_introl eq_refl)) as [Iy Fy]. destruct (wf_src m W y Iy) as (u & Eu & _). rewrite Eu. cbn [lk]. destruct (v_lock m u) eqn:Q; cbn [fst snd].
      - apply IH; [intros t It; apply Hy; right; exact It|]. exists z, w. destruct Iz as [<- | Iz]; [exfalso; congruence|auto].
      - exists y, u. auto. }
    destruct (K (x :: l) []) as (h' & u & E & H); [intros y Iy; apply R, Iy|exists h, v; split; [apply R; auto|auto]|]. exists h', u. split; [rewrite E; reflexivity|exact H].
  - intros y a Iy _. destruct (wf_src m W y Iy) as (u & Eu & Iu). rewrite (bind_ok _ _ _ _ _ (r_src m y (h_alive m W y Iy))), Eu, (bind_ok _ _ _ _ _ (r_lock m u (v_alive m W u Iu))). cbn [lk]. destruct (v_lock m u); reflexivity.
Qed.
(** In a triangle one free corner is reached from another. *)
Lemma tri_near f x y z h h' u v : In x (m_hes m) -> h_face m x = Some f -> h_next m x = Some y -> h_next m y = Some z -> h_next m z = Some x ->
  In h (m_hes m) -> h_face m h = Some f -> h_src m h = Some u -> In h' (m_hes m) -> h_face m h' = Some f -> h_src m h' = Some v -> u = v \/ near u v.
Proof.
  intros Ix Fx Nx Ny Nz Ih Fh Su Ih' Fh' Sv. assert (Iy := next_in m W x y Ix Nx). assert (Iz := next_in m W y z Iy Ny).
  assert (Q : forall q, In q (m_hes m) -> h_face m q = Some f -> q = x \/ q = y \/ q = z).
  { intros q Iq Fq. destruct (fring_at m W x f Ix Fx) as (k & R). assert (Rh : In q (x :: k)) by (apply R; auto). assert (K := cyc_reaches (h_next m) (x :: k) x q (proj1 R) (or_introl eq_refl) Rh).
    assert (C : cyc (h_next m) [x; y; z]) by (cbn [cyc chainto]; auto). assert (Q := cyc_reaches_in (h_next m) [x; y; z] x q C (or_introl eq_refl) K). cbn [In] in Q. intuition. }
  assert (F : forall a b u v, In a (m_hes m) -> h_next m a = Some b -> h_src m a = Some u -> h_src m b = Some v -> near u v /\ near v u).
  { intros a b u' v' Ia Na Sa Sb. destruct (wf_rev m W a Ia) as (r & Er & Ir). assert (Sr : h_src m r = Some v') by (rewrite <- (wf_dst m W a b r Ia Na Er); exact Sb).
    split; [exists a; split; [exact Ia|]; split; [exact Sa|]; unfold dst_of; rewrite Er; exact Sr|]. exists r. split; [exact Ir|]. split; [exact Sr|]. unfold dst_of. rewrite (rev_rev m W a r Ia Er). exact Sa. }
  destruct (Q h Ih Fh) as [-> | [-> | ->]], (Q h' Ih' Fh') as [-> | [-> | ->]]; try (left; congruence); right.
  - apply (F x y u v); assumption.
  - apply (F z x v u); assumption.
  - apply (F x y v u); assumption.
  - apply (F y z u v); assumption.
  - apply (F z x u v); assumption.
  - apply (F y z v u); assumption.
Qed.
(** The vertices that are found. *)
Lemma inside_free f x y z : In f (m_faces m) -> In x (m_hes m) -> h_face m x = Some f -> h_next m x = Some y -> h_next m y = Some z -> h_next m z = Some x ->
  exists l, inside_verts (Some f) m = Ok (l, m) /\ NoDup l /\ forall p, In p l <-> exists v, p = Some v /\ FreeFrom m f v.
Proof.
  intros If Ix Fx Nx Ny Nz.
  assert (FV : forall v, FreeFrom m f v -> In v (m_verts m)). { induction 1 as [h v Ih Fh Sv Lv|v w Fv IH (h & Ih & Sh & Dh) Lw]; [exact (src_in m W h v Ih Sv)|]. destruct (wf_rev m W h Ih) as (r & Er & Ir). unfold dst_of in Dh. rewrite Er in Dh. exact (src_in m W r w Ir Dh). }
  destruct (inside_ok m f (FreeFrom m f) W If FV) as (l & E & HN); [intros h v Ih Fh Sv Lv; exact (ff_corner m f h v Ih Fh Sv Lv)|intros h v w Ih Sh Dh Fv Lw; apply (ff_edge m f v w Fv); [exists h; auto|exact Lw]|].
  exists l. split; [exact E|].
  unfold inside_verts in E. destruct (first_free_ok m f (FreeFrom m f) W If) as (que & Eq & Hq & _); [intros h v Ih Fh Sv Lv; exact (ff_corner m f h v Ih Fh Sv Lv)|].
  rewrite (bind_ok _ _ _ _ _ Eq), bind_get in E. destruct (loop_closed _ _ _ _ _ E) as (A & B & C); [intros p Ip; destruct (Hq p Ip) as (v & -> & Fv); exists v; auto|intros p []|constructor|intros v w []|].
  split; [exact A|]. intros p. split; [exact (HN p)|]. intros (v & -> & Fv). induction Fv as [h v Ih Fh Sv Lv|v w Fv IH Aw Lw]; [|exact (C v w IH Aw Lw)].
  destruct (first_some f h v If Ih Fh Sv Lv) as (h' & u & Eu & Ih' & Fh' & Su & Lu). assert (que = [Some u]) by congruence. subst que. assert (Iu : In (Some u) l) by (apply B; left; left; reflexivity).
  destruct (tri_near f x y z h' h u v Ix Fx Nx Ny Nz Ih' Fh' Su Ih Fh Sv) as [-> | Nr]; [exact Iu|exact (C u v Iu Nr Lv)].
Qed.
Lemma in_addresses v l : In v (addresses l) <-> In (Some v) l.
Proof.
  induction l as [|[a|] l IH]; cbn [addresses In]; [reflexivity| |].
  - rewrite IH. split; (intros [A | A]; [left; congruence|right; exact A]).
  - rewrite IH. split; [auto|]. intros [A | A]; [discriminate|exact A].
Qed.
End Inside.

(** ** The whole function *)
Variables (ncos nsin : num -> num) (sparse : nat -> (nat -> nat -> num) -> (nat -> num) -> nat -> num).
(** Up to the relaxation. *)
Definition prefix (fuel : nat) (face : ptr) : M N (list ptr) :=
  avg <- getMeanEdgeLength ;; lock_front face ;; front_loop fuel face avg ;; inside_verts face.
Lemma prefix_eq fuel f m : fillAdvancingFront ncos nsin sparse fuel f m = (l <- prefix fuel f ;; q <- relaxed ncos nsin sparse (addresses l) ;; mfor (addresses l) (fun v => w_pos (Some v) (q v))) m.
Proof.
  unfold fillAdvancingFront, prefix, bind. destruct (getMeanEdgeLength m) as [[avg m0]|u|a|]; try reflexivity. destruct (lock_front f m0) as [[x0 m1]|u|a|]; try reflexivity.
  destruct (front_loop fuel f avg m1) as [[x1 m2]|u|a|]; reflexivity.
Qed.
Lemma prefix_ok fuel m f ring bs : WF m -> NoLoops m -> In f (m_faces m) -> Corners m f ring bs -> NoDup bs -> 3 <= length bs ->
  match prefix fuel (Some f) m with
  | Ok (ls, m2) => WF m2 /\ NoDup ls /\ (forall p, In p ls <-> exists v, p = Some v /\ FreeFrom m2 f v) /\
      (forall v, FreeFrom m2 f v -> In v (m_verts m2) /\ ~ In v (m_verts m)) /\
      (forall p, (forall v, In v (m_verts m) -> p v = v_pos m2 v) -> FrontFilled m f bs (with_pos p m2))
  | UB k => k = OutOfBounds /\ ~ AnglesBelow N | Abort _ | NoFuel => True end.
Proof.
  intros W NL If CO ND L. unfold prefix.
  destruct (meanEdgeLength_ok m W) as (reps & _ & E). rewrite (bind_ok _ _ _ _ _ E). clear E. match goal with |- context [front_loop _ _ ?x] => generalize x end. intros avg. clear reps.
  destruct (fring m W f If) as (h & l & Eh & R). destruct (lock_front_ok m f h l W If Eh R) as (k & E & HK). rewrite (bind_ok _ _ _ _ _ E). clear E.
  assert (HK' : forall v, k v = true <-> v_lock m v = true \/ In v bs).
  { intros v. rewrite HK. destruct CO as (_ & _ & C3 & C4). assert (Q : In (Some v) (map (h_src m) (h :: l)) <-> In (Some v) (map (h_src m) ring)).
    { rewrite !in_map_iff. split; intros (y & Ey & Iy); exists y; (split; [exact Ey|]); [apply C3; apply R in Iy; exact Iy|apply R; apply C3 in Iy; exact Iy]. }
    rewrite Q, C4, in_map_iff. split; intros [Z | Z]; try (left; exact Z); right; [destruct Z as (w & [= ->] & Z); exact Z|exists v; auto]. }
  assert (BS : forall v, In v bs -> In v (m_verts m)). { intros v I. destruct CO as (_ & _ & C3 & C4). assert (Z : In (Some v) (map (h_src m) ring)) by (rewrite C4; apply in_map, I). apply in_map_iff in Z as (z & E & Iz). apply (src_in m W z v); [apply C3, Iz|exact E]. }
  clear HK R Eh h l. assert (V := inv_start m f ring bs k W NL If CO ND L).
  assert (BL : forall v, In v bs -> v_lock (with_lock k m) v = true) by (intros v I; change (k v = true); apply HK'; auto).
  assert (K := loop_ok (with_lock k m) f bs (wf_lock k m W) If BS BL avg fuel (with_lock k m) V).
  unfold bind at 1. unfold wpu in K. destruct (front_loop fuel (Some f) avg (with_lock k m)) as [[[] m2]|u|a|]; [|destruct K as [K | K]; [discriminate|destruct u; [destruct K|destruct K|split; [reflexivity|exact K]]]|exact I|exact I].
  destruct K as [K | (m1 & V1 & C)]; [discriminate|]. assert (W1 := iv_wf _ _ _ _ V1).
  assert (C' := C). destruct C' as (b & h1 & h2 & h3 & E2 & R & HB).
  set (New := fun v => In v (m_verts m1) /\ m_fresh m <= v).
  assert (If2 : In f (m_faces m2)) by (rewrite E2; change (In f (m_faces m1)); apply In_nth_error in If as (i & E); exact (nth_error_In _ _ (iv_face _ _ _ _ V1 i f E))).
  assert (LOCK : forall v, In v bs -> v_lock m1 v = true) by (intros v I; destruct (iv_pos _ _ _ _ V1 v (BS v I)) as [Q _]; rewrite Q; exact (BL v I)).
  assert (W2 : WF m2) by (rewrite E2; apply wf_bd, W1).
  assert (H1 : In h1 [h1; h2; h3]) by (left; reflexivity). apply R in H1 as [I1 F1]. destruct R as (CY & _ & _). cbn [cyc chainto] in CY. destruct CY as (N1 & N2 & N3).
  destruct (inside_free m2 W2 f h1 h2 h3) as (ls & E & NDl & HN); [exact If2|rewrite E2; exact I1|rewrite E2; exact F1|rewrite E2; exact N1|rewrite E2; exact N2|rewrite E2; exact N3|].
  assert (NW : forall v, FreeFrom m2 f v -> New v).
  { rewrite E2. induction 1 as [h v Ih Fh Sv Lv|v w Fv IHv (h & Ih & Sh & Dh) Lw].
    - split; [exact (src_in m1 W1 h v Ih Sv)|]. destruct (iv_front _ _ _ _ V1 v) as [Q | Q]; [exists h; auto| |exact Q]. exfalso. assert (Z := LOCK v Q). change (v_lock m1 v = false) in Lv. congruence.
    - destruct IHv as [_ Nv]. assert (D' : dst_of m1 h = Some w) by exact Dh. split.
      + destruct (wf_rev m1 W1 h Ih) as (r & Er & Ir). unfold dst_of in D'. rewrite Er in D'. exact (src_in m1 W1 r w Ir D').
      + destruct (iv_near _ _ _ _ V1 h v w Ih Sh D' Nv) as [Q | Q]; [exact Q|]. exfalso. assert (Z := LOCK w Q). change (v_lock m1 w = false) in Lw. congruence. }
  rewrite E. split; [exact W2|]. split; [exact NDl|]. split; [exact HN|]. split.
  - intros v Fv. destruct (NW v Fv) as [A B]. split; [rewrite E2; exact A|]. intros Z. assert (Z' := v_lt m W v Z). lia.
  - intros p Hp. exact (filled m f ring bs k m1 m2 p W If CO HK' V1 C Hp).
Qed.
Lemma mfor_wpos' (q : nat -> vec N) : forall l m, (forall v, In v l -> v_live m v = true) -> exists p, mfor l (fun v => w_pos (Some v) (q v)) m = Ok (tt, with_pos p m) /\ forall v, p v = if in_dec Nat.eq_dec v l then q v else v_pos m v.
Proof.
  induction l as [|v l IH]; intros m L; cbn [mfor]; [exists (v_pos m); split; [destruct m; reflexivity|intros v; destruct (in_dec Nat.eq_dec v []) as [[]|_]; reflexivity]|]. rewrite (bind_ok _ _ _ _ _ (ww_pos m v (q v) (L v (or_introl eq_refl)))).
  destruct (IH (set_v_pos v (q v) m)) as (p & E & P); [intros w Iw; apply L; right; exact Iw|]. exists p. split; [exact E|]. intros w. rewrite P. destruct (in_dec Nat.eq_dec w l) as [K|K], (in_dec Nat.eq_dec w (v :: l)) as [K'|K']; [reflexivity|exfalso; apply K'; right; exact K| |].
  - destruct K' as [<- | K']; [|contradiction]. flds. apply fupd_same.
  - flds. apply fupd_other. intros ->. apply K'. left. reflexivity.
Qed.
Lemma prefix_safe ls f m2 : WF m2 -> (forall p, In p ls <-> exists v, p = Some v /\ FreeFrom m2 f v) -> (forall v, FreeFrom m2 f v -> In v (m_verts m2)) ->
  (forall v, In v (addresses ls) <-> FreeFrom m2 f v) /\ sf (relaxed ncos nsin sparse (addresses ls)) m2 (fun _ => True).
Proof.
  intros W2 HN HV. assert (HA : forall v, In v (addresses ls) <-> FreeFrom m2 f v). { intros v. rewrite in_addresses, HN. split; [intros (w & [= <-] & H); exact H|intros H; exists v; auto]. }
  split; [exact HA|]. apply relaxed_safe; [exact W2|intros v Iv; apply HV, HA, Iv|]. intros h v w Ih Sh Dh Iv. destruct (v_lock m2 w) eqn:Lw; [auto|left]. apply HA. apply (ff_edge m2 f v w); [apply HA, Iv|exists h; auto|exact Lw].
Qed.
Theorem whole_front fuel m f ring bs : WF m -> NoLoops m -> In f (m_faces m) -> Corners m f ring bs -> NoDup bs -> 3 <= length bs ->
  match fillAdvancingFront ncos nsin sparse fuel (Some f) m with Ok (_, m') => FrontFilled m f bs m' | UB k => k = OutOfBounds /\ ~ AnglesBelow N | Abort _ | NoFuel => True end.
Proof.
  intros W NL If CO ND L. rewrite prefix_eq. assert (K := prefix_ok fuel m f ring bs W NL If CO ND L). unfold bind at 1. destruct (prefix fuel (Some f) m) as [[ls m2]|u|a|]; [|exact K|exact I|exact I].
  destruct K as (W2 & NDl & HN & HV & HF). destruct (prefix_safe ls f m2 W2 HN (fun v H => proj1 (HV v H))) as [HA RS].
  unfold bind at 1. unfold sf in RS. destruct (relaxed ncos nsin sparse (addresses ls) m2) as [[q m3]|u|a|]; [destruct RS as [-> _]|destruct RS|exact I|destruct RS].
  destruct (mfor_wpos' q (addresses ls) m2) as (p & E3 & P); [intros v Iv; apply (v_alive m2 W2), HV, HA, Iv|]. rewrite E3. apply HF. intros v Iv. rewrite P. destruct (in_dec Nat.eq_dec v (addresses ls)) as [Q|Q]; [|reflexivity]. destruct (proj2 (HV v (proj1 (HA v) Q)) Iv).
Qed.
(** The vertices that are moved and where they get. *)
Lemma at_back p m : with_pos (v_pos m) (with_pos p m) = m.
Proof. destruct m. reflexivity. Qed.
Lemma free_same p m f v : FreeFrom m f v <-> FreeFrom (with_pos p m) f v.
Proof. split; induction 1 as [h v Ih Fh Sv Lv|v w Fv IHv Aw Lw]; [exact (ff_corner (with_pos p m) f h v Ih Fh Sv Lv)|exact (ff_edge (with_pos p m) f v w IHv Aw Lw)|exact (ff_corner m f h v Ih Fh Sv Lv)|exact (ff_edge m f v w IHv Aw Lw)]. Qed.
Theorem whole_moved fuel m m' f ring bs : WF m -> NoLoops m -> In f (m_faces m) -> Corners m f ring bs -> NoDup bs -> 3 <= length bs ->
  fillAdvancingFront ncos nsin sparse fuel (Some f) m = Ok (tt, m') -> exists l p x, NoDup l /\ (forall v, In v l <-> FreeFrom m' f v) /\ (forall v, In v l -> In v (m_verts m') /\ ~ In v (m_verts m)) /\
    relaxed ncos nsin sparse l (at_positions m' p) = Ok (x, at_positions m' p) /\ forall v, v_pos m' v = if in_dec Nat.eq_dec v l then x v else p v.
Proof.
  intros W NL If CO ND L E. rewrite prefix_eq in E. assert (K := prefix_ok fuel m f ring bs W NL If CO ND L). unfold bind at 1 in E. destruct (prefix fuel (Some f) m) as [[ls m2]|u|a|]; try discriminate.
  destruct K as (W2 & NDl & HN & HV & HF). destruct (prefix_safe ls f m2 W2 HN (fun v H => proj1 (HV v H))) as [HA RS].
  unfold bind at 1 in E. unfold sf in RS. destruct (relaxed ncos nsin sparse (addresses ls) m2) as [[q m3]|u|a|] eqn:Er; try discriminate. destruct RS as [-> _].
  destruct (mfor_wpos' q (addresses ls) m2) as (p & E3 & P); [intros v Iv; apply (v_alive m2 W2), HV, HA, Iv|]. rewrite E3 in E. injection E as <-.
  exists (addresses ls), (v_pos m2), q. assert (B : at_positions (with_pos p m2) (v_pos m2) = m2) by exact (at_back p m2). rewrite B.
  split; [|split; [|split; [|split; [exact Er|exact P]]]].
  - clear - NDl. induction NDl as [|[a|] l N1 N2 IH]; cbn [addresses]; [constructor| |exact IH]. constructor; [|exact IH]. rewrite in_addresses. exact N1.
  - intros v. rewrite HA. apply free_same.
  - intros v Iv. apply HV, HA, Iv.
Qed.
(** What it does, the function of Front.v does with this relaxation. *)
Lemma ro_smooth k l : forall T, Ro (smooth_normals (N := N) k l T).
Proof. induction k as [|k IH]; intros T; cbn [smooth_normals]; [apply ro_ret|]. apply ro_bind; [ro|exact IH]. Qed.
Lemma ro_relaxed l : Ro (relaxed ncos nsin sparse l).
Proof. unfold relaxed. apply ro_bind; [unfold new_normals; apply ro_bind; [ro|apply ro_smooth]|]. intros T. ro. Qed.
Theorem whole_same fuel f m m' : fillAdvancingFront ncos nsin sparse fuel f m = Ok (tt, m') <-> holeFillAdvancingFront (relaxation ncos nsin sparse) fuel f m = Ok (tt, m').
Proof.
  unfold fillAdvancingFront, holeFillAdvancingFront, bind, get, lift, relaxation. destruct (getMeanEdgeLength m) as [[avg m0]|u|a|]; try (split; discriminate). destruct (lock_front f m0) as [[x0 m1]|u|a|]; try (split; discriminate).
  destruct (front_loop fuel f avg m1) as [[x1 m2]|u|a|]; try (split; discriminate). destruct (inside_verts f m2) as [[l m3]|u|a|]; try (split; discriminate).
  destruct (relaxed ncos nsin sparse (addresses l) m3) as [[q m4]|u|a|] eqn:E; try (split; discriminate). apply ro_relaxed in E. subst m4. unfold ret. reflexivity.
Qed.

(** ** A hole with three corners *)
Lemma smooth_nil k : forall T m, smooth_normals k [] T m = Ok (T, m).
Proof. induction k as [|k IH]; intros T m; [reflexivity|]. cbn [smooth_normals mfold]. unfold bind, ret. apply IH. Qed.
Lemma relaxed_nil m : WF m -> exists q, relaxed ncos nsin sparse [] m = Ok (q, m).
Proof.
  intros W.
  assert (O : exists D, outer_marks [] m = Ok (D, m)).
  { unfold outer_marks. rewrite bind_get. assert (K : forall l, (forall v, In v l -> In v (m_verts m)) -> exists D, mmap (fun v => p <- ve_pos (Some v) ;; ret (p, if inside [] (Some v) then nzero else none_)) l m = Ok (D, m)); [|apply K; auto].
    induction l as [|v l IH]; intros H; cbn [mmap]; [eexists; reflexivity|]. destruct IH as (D & E); [intros w Iw; apply H; right; exact Iw|]. unfold bind at 1. rewrite (bind_ok _ _ _ _ _ (r_pos m v (v_alive m W v (H v (or_introl eq_refl))))). unfold ret at 1. rewrite (bind_ok _ _ _ _ _ E). eexists. reflexivity. }
  destruct O as (D & E). unfold relaxed, new_normals, first_normals, inside_faces, rotations, gradients, poisson, poisson_system. cbn [mfold mmap]. unfold bind, ret, get. rewrite smooth_nil. cbn [mmap]. unfold ret. rewrite E. eexists. reflexivity.
Qed.
Theorem three_corners fuel m f ring bs : WF m -> In f (m_faces m) -> Corners m f ring bs -> length bs = 3 ->
  exists k b p, fillAdvancingFront ncos nsin sparse (S fuel) (Some f) m = Ok (tt, with_pos p (with_bd b (with_lock k m))) /\ (forall v, p v = v_pos m v) /\ forall v, k v = true <-> v_lock m v = true \/ In v bs.
Proof.
  intros W If CO L. rewrite prefix_eq. unfold prefix.
  destruct (meanEdgeLength_ok m W) as (reps & _ & E). match type of E with _ = Ok (?x, _) => set (avg := x) in * end. clearbody avg. 
  destruct (fring m W f If) as (h & l & Eh & R). destruct (lock_front_ok m f h l W If Eh R) as (k & Ek & HK).
  assert (HK' : forall v, k v = true <-> v_lock m v = true \/ In v bs).
  { intros v. rewrite HK. destruct CO as (_ & _ & C3 & C4). assert (Q : In (Some v) (map (h_src m) (h :: l)) <-> In (Some v) (map (h_src m) ring)).
    { rewrite !in_map_iff. split; intros (y & Ey & Iy); exists y; (split; [exact Ey|]); [apply C3; apply R in Iy; exact Iy|apply R; apply C3 in Iy; exact Iy]. }
    rewrite Q, C4, in_map_iff. split; intros [Z | Z]; try (left; exact Z); right; [destruct Z as (w & [= ->] & Z); exact Z|exists v; auto]. }
  set (m1 := with_lock k m). assert (W1 : WF m1) by apply wf_lock, W.
  assert (Ll : length (h :: l) = 3).
  { rewrite <- L. destruct CO as (C2 & _ & C3 & C4). rewrite <- (map_length Some bs), <- C4, map_length. apply Permutation_length, NoDup_Permutation; [apply R|exact C2|]. intros y. rewrite (C3 y). apply R. }
  destruct (close_front_ok m1 f h l W1 If Eh R) as (b & Ec & _).
  assert (FS : front_step (Some f) avg m1 = Ok (true, with_bd b m1)).
  { unfold front_step. rewrite (bind_ok _ _ _ _ _ (front_ring_ok m1 f h l W1 If Eh R)). cbn [fst snd]. rewrite map_length, Ll. cbn [Nat.eqb]. rewrite (bind_ok _ _ _ _ _ Ec). reflexivity. }
  set (m2 := with_bd b m1) in *. assert (W2 : WF m2) by apply wf_bd, W1.
  destruct l as [|h2 [|h3 [|? ?]]]; try discriminate Ll. destruct R as (CY & _ & RI). cbn [cyc chainto] in CY. destruct CY as (N1 & N2 & N3). destruct (proj1 (RI h) (or_introl eq_refl)) as [Ih Fh].
  destruct (inside_free m2 W2 f h h2 h3 If Ih Fh N1 N2 N3) as (ls & El & _ & HN).
  assert (NF : forall v, ~ FreeFrom m2 f v).
  { intros v H. induction H as [y v Iy Fy Sy Ly|v w _ [] _ _]. change (k v = false) in Ly. assert (Q : k v = true); [|congruence]. apply HK. right. rewrite <- Sy. change (h_src m2 y) with (h_src m y). apply in_map, RI. auto. }
  assert (ls = []). { destruct ls as [|q ls]; [reflexivity|]. destruct (proj1 (HN q) (or_introl eq_refl)) as (v & _ & Fv). destruct (NF v Fv). } subst ls.
  destruct (relaxed_nil m2 W2) as (q & Eq). exists k, b, (v_pos m). split; [|split; [reflexivity|exact HK']].
  unfold bind at 1. rewrite (bind_ok _ _ _ _ _ E), (bind_ok _ _ _ _ _ Ek). fold m1. cbn [front_loop]. unfold bind at 1. rewrite (bind_ok _ _ _ _ _ FS). unfold ret at 1. rewrite El. cbn [addresses]. rewrite (bind_ok _ _ _ _ _ Eq). cbn [mfor]. unfold ret, m2, m1. destruct m; reflexivity.
Qed.
End P.
