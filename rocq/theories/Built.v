(** What Mesh::construct(vertices, indices) does, for every input. *)
From Coq Require Import List ZArith Arith Lia Bool Permutation Relations.
From Verif Require Import Num Vec Heap Mesh Construct Spec BuildSpec Orbit Rings Exec Split Queries BuildTri BuildTop Weld.
Import ListNotations.
Local Open Scope mesh_scope.

Lemma nodup_app {X} (l r : list X) : NoDup (l ++ r) <-> NoDup l /\ NoDup r /\ forall x, In x l -> ~ In x r.
Proof.
  induction l as [|y l IH]; cbn [app].
  - split; [intros H; split; [constructor|]; split; [exact H|intros x []]|tauto].
  - rewrite !NoDup_cons_iff, IH, in_app_iff. cbn [In]. split.
    + intros (H1 & H2 & H3 & H4). split; [tauto|]. split; [exact H3|]. intros x [<-|Hx]; [tauto|auto].
    + intros ((H1 & H2) & H3 & H4). split; [|split; [exact H2|]; split; [exact H3|intros x Hx; apply H4; right; exact Hx]].
      intros [H|H]; [contradiction|]. exact (H4 y (or_introl eq_refl) H).
Qed.

Section Built.
Context {N : Num}.
Implicit Types m : mesh N.

Lemma cleared m : Fresh (clear_elems m) [].
Proof. split; [split|reflexivity|intros v []]; try reflexivity; [constructor|intros v []]. Qed.

(** The outcome in terms of the welded index list. *)
Theorem construct_outcome ps ix m :
  (weld ps ix [] [] = None /\ construct ps ix m = UB OutOfBounds) \/
  exists us l, weld ps ix [] [] = Some (us, l) /\
   let l0 := m_indices m ++ l in
   (~ Nat.divide 3 (length l0) /\ (construct ps ix m = UB OutOfBounds \/ construct ps ix m = Abort AError)) \/
   (Nat.divide 3 (length l0) /\ exists out rem, drop_degenerate (length l0) 0 l0 = Ok (flat out) /\ Permutation (triples l0) (out ++ rem) /\ Forall degenerate rem /\
    ((forall t, In t (triples l0) -> ~ degenerate t) -> out = triples l0) /\
    (length (filter degb (triples l0)) <= 1 -> forall t, In t out -> ~ degenerate t) /\
    ((exists t, In t out /\ degenerate t) /\ construct ps ix m = Abort AError \/
     (exists t, In t out /\ ~ in_range (length us) t) /\ construct ps ix m = UB OutOfBounds \/
     (forall t, In t out -> ~ degenerate t) /\ exists A, Accepted out A /\ (forall t, In t A -> in_range (length us) t) /\
       ((exists a, a < length us /\ ~ used A a) /\ construct ps ix m = UB NullDeref \/
        (forall a, a < length us -> used A a) /\
          ((exists a, a < length us /\ ~ Fan A a) /\ construct ps ix m = Abort AError \/
           (forall a, a < length us -> Fan A a) /\ exists m', construct ps ix m = Ok (tt, m') /\ SurfaceOf m' A /\
              positions m' = us /\ (forall v, In v (m_verts m') -> v_lock m' v = false) /\ m_indices m' = flat out)))).
Proof.
  assert (DW := dedup_weld ps ix [] [] (clear_elems m) (cleared m)).
  unfold construct. rewrite bind_modify. destruct (weld ps ix [] []) as [[us l]|].
  - right. exists us, l. split; [reflexivity|]. cbv zeta. destruct DW as (m1 & E & F & I). rewrite (bind_ok _ _ _ _ _ E).
    change (m_indices (clear_elems m)) with (m_indices m) in I. rewrite <- I.
    assert (Hl : length (m_verts m1) = length us) by (rewrite <- (fr_pos _ _ F); unfold positions; rewrite map_length; reflexivity).
    destruct (Znumtheory.Zdivide_dec 3 (Z.of_nat (length (m_indices m1)))) as [D|D].
    + right. assert (D' : Nat.divide 3 (length (m_indices m1))).
      { destruct D as [k Hk]. exists (Z.to_nat k). lia. }
      split; [exact D'|]. destruct (construct0_outcome m1 (fr_bare _ _ F) D') as (out & rem & P0 & P1 & P2 & P3 & P4 & P5).
      exists out, rem. split; [exact P0|]. split; [exact P1|]. split; [exact P2|]. split; [exact P3|]. split; [exact P4|]. rewrite Hl in P5.
      destruct P5 as [P5|[P5|(P5 & A & P6 & P7 & P8)]]; [left; exact P5|right; left; exact P5|].
      right. right. split; [exact P5|]. exists A. split; [exact P6|]. split; [exact P7|].
      destruct P8 as [P8|(P8 & [P9|(P9 & m' & P10 & P11 & P12 & P13)])]; [left; exact P8|right; split; [exact P8|left; exact P9]|].
      right. split; [exact P8|]. right. split; [exact P9|]. exists m'. split; [exact P10|]. split; [exact P11|].
      split; [|split; [|exact P13]].
      * unfold positions. rewrite (kp_verts _ _ P12), (kp_pos _ _ P12). exact (fr_pos _ _ F).
      * intros v. rewrite (kp_verts _ _ P12), (kp_lock _ _ P12). apply (fr_lock _ _ F).
    + left. assert (D' : ~ Nat.divide 3 (length (m_indices m1))).
      { intros [k Hk]. apply D. exists (Z.of_nat k). lia. }
      split; [exact D'|]. exact (construct0_odd m1 (fr_bare _ _ F) D').
  - left. split; [reflexivity|]. apply bind_ub. exact DW.
Qed.

(** A constructed mesh: the surface of a non-repeating list of triangles with
    one fan around each vertex. *)
Record Built m (A : list tri) : Prop := {
  bu_surf : SurfaceOf m A;
  bu_ok : forall t, In t A -> ~ degenerate t /\ in_range (length (m_verts m)) t;
  bu_nodup : NoDup (edges A);
  bu_used : forall a, a < length (m_verts m) -> used A a;
  bu_fan : forall a, a < length (m_verts m) -> Fan A a
}.

Lemma tedges_nodup t : ~ degenerate t -> NoDup (tedges t).
Proof.
  destruct t as [[a b] c]. cbn [degenerate tedges]. intros H. repeat constructor; cbn [In]; intros X; try tauto.
  - destruct X as [[= <- <-]|[[= <- <-]|[]]]; tauto.
  - destruct X as [[= <- <-]|[]]; tauto.
Qed.
Lemma Accepted_nodup T A : Accepted T A -> (forall t, In t T -> ~ degenerate t) -> NoDup (edges A).
Proof.
  induction 1 as [|T A t HA IH Hn|T A t e HA IH H1 H2]; intros D.
  - constructor.
  - rewrite edges_app. assert (D' : forall u, In u T -> ~ degenerate u) by (intros u Hu; apply D, in_or_app; left; exact Hu).
    assert (Dt : ~ degenerate t) by (apply D, in_or_app; right; left; reflexivity).
    apply nodup_app. split; [exact (IH D')|]. split; [exact (tedges_nodup t Dt)|]. intros e He Ht. exact (Hn e Ht He).
  - apply IH. intros u Hu. apply D, in_or_app. left; exact Hu.
Qed.

Lemma positions_length m : length (positions m) = length (m_verts m).
Proof. unfold positions. apply map_length. Qed.

(** Everything known when construction returns, whatever the object held before. *)
Theorem construct_built ps ix m m' : construct ps ix m = Ok (tt, m') ->
  exists us l out rem A, weld ps ix [] [] = Some (us, l) /\ Nat.divide 3 (length (m_indices m ++ l)) /\
    Permutation (triples (m_indices m ++ l)) (out ++ rem) /\ Forall degenerate rem /\
    ((forall t, In t (triples (m_indices m ++ l)) -> ~ degenerate t) -> out = triples (m_indices m ++ l)) /\
    (forall t, In t out -> ~ degenerate t) /\ Accepted out A /\ Built m' A /\ positions m' = us /\
    (forall v, In v (m_verts m') -> v_lock m' v = false).
Proof.
  intros E. destruct (construct_outcome ps ix m) as [(_ & X)|(us & l & W & [(_ & [X|X])|(D & out & rem & _ & P1 & P2 & P3 & _ & P5)])]; try congruence.
  destruct P5 as [(_ & X)|[(_ & X)|(P5 & A & P6 & P7 & P8)]]; try congruence.
  destruct P8 as [(_ & X)|(P8 & [(_ & X)|(P9 & m2 & P10 & P11 & P12 & P13 & _)])]; try congruence.
  assert (m2 = m') by congruence. subst m2. exists us, l, out, rem, A.
  assert (Hl : length (m_verts m') = length us) by (rewrite <- P12, positions_length; reflexivity).
  repeat (split; [assumption|]). split; [|split; assumption]. split; [exact P11| | | |].
  - intros t Ht. split; [apply P5, (Accepted_incl _ _ P6 t Ht)|]. rewrite Hl. exact (P7 t Ht).
  - exact (Accepted_nodup _ _ P6 P5).
  - rewrite Hl. exact P8.
  - rewrite Hl. exact P9.
Qed.

(** Construction succeeds on welded manifold input. *)
Lemma Accepted_all T : (forall t, In t T -> ~ degenerate t) -> NoDup (edges T) -> Accepted T T.
Proof.
  induction T as [|t T IH] using rev_ind; intros D ND; [constructor|]. rewrite edges_app in ND. apply acc_take.
  - apply IH; [intros u Hu; apply D, in_or_app; left; exact Hu|]. apply nodup_app in ND. apply ND.
  - intros e He Hl. apply nodup_app in ND. apply (proj2 (proj2 ND) e Hl He).
Qed.
Lemma Accepted_det T A B : Accepted T A -> Accepted T B -> A = B.
Proof.
  revert A B. induction T as [|t T IH] using rev_ind; intros A B HA HB.
  - inversion HA as [E1 E2| |]; [|exfalso; eapply app_cons_not_nil; symmetry; eassumption|exfalso; eapply app_cons_not_nil; symmetry; eassumption].
    inversion HB; [reflexivity|exfalso; eapply app_cons_not_nil; symmetry; eassumption|exfalso; eapply app_cons_not_nil; symmetry; eassumption].
  - assert (INV : forall C, Accepted (T ++ [t]) C -> (exists C', C = C' ++ [t] /\ Accepted T C' /\ forall e, In e (tedges t) -> ~ In e (edges C')) \/ (Accepted T C /\ exists e, In e (tedges t) /\ In e (edges C))).
    { intros C HC. inversion HC as [E|T' A' t' H1 H2 E|T' A' t' e H1 H2 H3 E]; subst.
      - exfalso. eapply app_cons_not_nil. exact E.
      - apply app_inj_tail in E as [-> ->]. left. exists A'. auto.
      - apply app_inj_tail in E as [-> ->]. right. split; [exact H1|]. exists e. auto. }
    destruct (INV A HA) as [(A' & -> & HA' & NA)|(HA' & e & NA)]; destruct (INV B HB) as [(B' & -> & HB' & NB)|(HB' & e' & NB)].
    + rewrite (IH _ _ HA' HB'). reflexivity.
    + rewrite (IH _ _ HA' HB') in NA. destruct NB as [X Y]. destruct (NA e' X Y).
    + rewrite (IH _ _ HA' HB') in NA. destruct NA as [X Y]. destruct (NB e X Y).
    + exact (IH _ _ HA' HB').
Qed.

Lemma triples_in l t a : In t (triples l) -> (let '(x, y, z) := t in a = x \/ a = y \/ a = z) -> In a l.
Proof.
  remember (length l) as n eqn:Hn. revert l Hn. induction n as [n IH] using lt_wf_ind. intros l -> H.
  destruct l as [|x [|y [|z l]]]; cbn [triples] in H; [destruct H|destruct H|destruct H|].
  destruct H as [<-|H].
  - intros [->|[->| ->]]; cbn [In]; auto.
  - intros X. right; right; right. apply (IH (length l)); [cbn [length]; lia|reflexivity|exact H|exact X].
Qed.
Lemma triples_range n l : (forall j, In j l -> j < n) -> forall t, In t (triples l) -> in_range n t.
Proof.
  intros H [[a b] c] Ht. repeat split; apply H; eapply triples_in; try exact Ht; cbn; auto.
Qed.

Theorem construct_manifold ps ix m us l : m_indices m = [] -> weld ps ix [] [] = Some (us, l) -> Nat.divide 3 (length l) ->
  (forall t, In t (triples l) -> ~ degenerate t) -> NoDup (edges (triples l)) ->
  (forall a, a < length us -> used (triples l) a) ->
  (forall a, a < length us -> Fan (triples l) a) ->
  exists m', construct ps ix m = Ok (tt, m') /\ Built m' (triples l) /\ positions m' = us.
Proof.
  intros I W D Dg ND U F. destruct (weld_range ps ix [] [] us l (fun q k (X : In (q, k) []) => match X with end) W) as (_ & _ & R).
  assert (AC := Accepted_all _ Dg ND).
  destruct (construct_outcome ps ix m) as [(X & _)|(us' & l' & W' & P)]; [congruence|].
  rewrite W in W'. injection W' as <- <-. rewrite I in P. cbn [app] in P. cbv zeta in P.
  destruct P as [(X & _)|(_ & out & rem & _ & _ & _ & P3 & _ & P5)]; [contradiction|]. specialize (P3 Dg). subst out.
  destruct P5 as [((t & Ht & Dt) & _)|[((t & Ht & Rt) & _)|(_ & A & P6 & P7 & P8)]]; [destruct (Dg t Ht Dt)|destruct (Rt (triples_range _ _ R t Ht))|].
  rewrite (Accepted_det _ _ _ P6 AC) in *.
  destruct P8 as [((a & La & Ua) & _)|(_ & [((a & La & Fa) & _)|(_ & m' & P10 & P11 & P12 & _)])]; [destruct (Ua (U a La))|destruct (Fa (F a La))|].
  exists m'. split; [exact P10|]. split; [|exact P12]. 
  assert (Hl : length (m_verts m') = length us) by (rewrite <- P12, positions_length; reflexivity).
  split; [exact P11| |exact ND|rewrite Hl; exact U|rewrite Hl; exact F].
  intros t Ht. split; [exact (Dg t Ht)|rewrite Hl; exact (P7 t Ht)].
Qed.

(** Every welded number occurs, hence every vertex is used once no triangle was removed or skipped. *)
Lemma used_in T a b c x : In (a, b, c) T -> x = a \/ x = b \/ x = c -> used T x.
Proof.
  intros H [->|[->| ->]]; [exists b|exists c|exists a]; unfold edges; apply in_flat_map; exists (a, b, c); (split; [exact H|]); cbn [tedges In]; auto.
Qed.
Lemma in_triples l a : Nat.divide 3 (length l) -> In a l -> used (triples l) a.
Proof.
  remember (length l) as n eqn:Hn. revert l Hn. induction n as [n IH] using lt_wf_ind. intros l -> D H.
  destruct l as [|x [|y [|z l]]]; [destruct H|exfalso; destruct D as [k Hk]; cbn [length] in Hk; lia|exfalso; destruct D as [k Hk]; cbn [length] in Hk; lia|].
  cbn [triples]. destruct H as [<-|[<-|[<-|H]]]; [eapply used_in; [left; reflexivity|auto]|eapply used_in; [left; reflexivity|auto]|eapply used_in; [left; reflexivity|auto]|].
  assert (D' : Nat.divide 3 (length l)) by (destruct D as [k Hk]; exists (k - 1); cbn [length] in Hk; lia).
  destruct (IH (length l) ltac:(cbn [length]; lia) l eq_refl D' H) as (b & Hb). exists b. unfold edges. cbn [flat_map]. apply in_or_app. right. exact Hb.
Qed.

(** ** Reading a built mesh *)
Section Read.
Variables (m : mesh N) (A : list tri).
Hypothesis B : Built m A.
Notation W := (valid_wf m (so_valid m A (bu_surf m A B))).

Lemma num_inj a b v : nth_error (m_verts m) a = Some v -> nth_error (m_verts m) b = Some v -> a = b.
Proof. intros Ha Hb. eapply NoDup_nth_error; [exact (wf_v_nodup m W)|apply nth_error_Some; congruence|congruence]. Qed.

Lemma key_uni h a b a' b' : he_is m h a b -> he_is m h a' b' -> a = a' /\ b = b'.
Proof.
  intros (_ & u & v & Ha & Hb & Su & Dv) (_ & u' & v' & Ha' & Hb' & Su' & Dv').
  split; eapply num_inj; try eassumption; congruence.
Qed.
Lemma he_unique h h' a b : he_is m h a b -> he_is m h' a b -> h = h'.
Proof.
  intros (I & u & v & Ha & Hb & Su & Dv) (I' & u' & v' & Ha' & Hb' & Su' & Dv').
  apply (valid_noparallel m (so_valid m A (bu_surf m A B)) h h' I I'); congruence.
Qed.
Lemma he_key_ex h : In h (m_hes m) -> exists a b, he_is m h a b.
Proof.
  intros I. destruct (wf_src m W h I) as (u & Su & Iu). destruct (wf_rev m W h I) as (r & Er & Ir). destruct (wf_src m W r Ir) as (v & Sv & Iv).
  apply In_nth_error in Iu as (a & Ha). apply In_nth_error in Iv as (b & Hb). exists a, b. split; [exact I|]. exists u, v.
  repeat (split; [assumption|]). unfold dst_of. rewrite Er. exact Sv.
Qed.
Lemma he_rev_key h r a b : he_is m h a b -> h_rev m h = Some r -> he_is m r b a.
Proof.
  intros (I & u & v & Ha & Hb & Su & Dv) Er. destruct (wf_rev_invol m W h r I Er) as [Rr _]. destruct (wf_rev m W h I) as (r' & Er' & Ir).
  assert (r' = r) by congruence. subst r'. split; [exact Ir|]. exists v, u. repeat (split; [assumption|]).
  unfold dst_of in *. rewrite Er in Dv. rewrite Rr. auto.
Qed.

Lemma built_flagsym : FlagsSym m.
Proof.
  intros h r I Er. destruct (he_key_ex h I) as (a & b & K). assert (K' := he_rev_key _ _ _ _ K Er).
  assert (X := so_flags m A (bu_surf m A B) h a b K). assert (Y := so_flags m A (bu_surf m A B) r b a K').
  destruct (h_bd m h), (h_bd m r); try reflexivity; exfalso.
  - assert (false = true) by (apply Y; destruct (proj1 X eq_refl); auto). discriminate.
  - assert (false = true) by (apply X; destruct (proj1 Y eq_refl); auto). discriminate.
Qed.

(** Triangle faces. *)
Lemma tri_face f t : face_is m f t -> forall h, In h (m_hes m) -> h_face m h = Some f <-> exists a b, In (a, b) (tedges t) /\ he_is m h a b.
Proof.
  destruct t as [[a b] c]. intros (u & v & w & Ha & Hb & Hc & x & y & z & Hx & Nx & Ny & Nz & Sx & Sy & Sz) h I.
  destruct (proj2 (Hx x) (or_introl eq_refl)) as [Ix Fx]. destruct (proj2 (Hx y) (or_intror (or_introl eq_refl))) as [Iy Fy]. destruct (proj2 (Hx z) (or_intror (or_intror eq_refl))) as [Iz Fz].
  assert (D : forall p q, In p (m_hes m) -> h_next m p = Some q -> dst_of m p = h_src m q).
  { intros p q Ip Nq. destruct (wf_rev m W p Ip) as (r & Er & _). unfold dst_of. rewrite Er. symmetry. exact (wf_dst m W p q r Ip Nq Er). }
  assert (Kx : he_is m x a b) by (split; [exact Ix|]; exists u, v; repeat (split; [assumption|]); rewrite (D x y Ix Nx); exact Sy).
  assert (Ky : he_is m y b c) by (split; [exact Iy|]; exists v, w; repeat (split; [assumption|]); rewrite (D y z Iy Ny); exact Sz).
  assert (Kz : he_is m z c a) by (split; [exact Iz|]; exists w, u; repeat (split; [assumption|]); rewrite (D z x Iz Nz); exact Sx).
  split.
  - intros Fh. destruct (proj1 (Hx h) (conj I Fh)) as [->|[->| ->]]; [exists a, b|exists b, c|exists c, a]; cbn [tedges In]; auto.
  - intros (p & q & [[= <- <-]|[[= <- <-]|[[= <- <-]|[]]]] & K).
    + rewrite (he_unique _ _ _ _ K Kx). exact Fx.
    + rewrite (he_unique _ _ _ _ K Ky). exact Fy.
    + rewrite (he_unique _ _ _ _ K Kz). exact Fz.
Qed.

Lemma forall2_nth {X Y} (R : X -> Y -> Prop) l l' : Forall2 R l l' -> forall y, In y l' -> exists x, In x l /\ R x y.
Proof. induction 1; intros q []; [subst; exists x; split; [left; reflexivity|assumption]|]. destruct (IHForall2 q H1) as (p & Ip & Rp). exists p. split; [right; exact Ip|exact Rp]. Qed.
Lemma forall2_nth' {X Y} (R : X -> Y -> Prop) l l' : Forall2 R l l' -> forall x, In x l -> exists y, In y l' /\ R x y.
Proof. induction 1; intros q []; [subst; exists y; split; [left; reflexivity|assumption]|]. destruct (IHForall2 q H1) as (p & Ip & Rp). exists p. split; [right; exact Ip|exact Rp]. Qed.

(** ** The hole faces: each open edge once, reversed *)
Lemma tri_of_edge a b : In (a, b) (edges A) -> exists t, In t A /\ In (a, b) (tedges t).
Proof. unfold edges. intros H. apply in_flat_map in H. exact H. Qed.

(** The half-edge of a directed edge of the input belongs to the face of its triangle. *)
Lemma holes_split : exists holes, m_faces m = firstn (length A) (m_faces m) ++ holes /\
   Forall2 (face_is m) (firstn (length A) (m_faces m)) A /\
   (forall f h, In f holes -> In h (m_hes m) -> h_face m h = Some f ->
       h_bd m h = true /\ exists a b, open_edge A a b /\ he_is m h b a) /\
   (forall h a b, open_edge A a b -> he_is m h b a -> exists f, In f holes /\ h_face m h = Some f).
Proof.
  destruct (so_tris m A (bu_surf m A B)) as (holes & Ef & F2 & Hh). exists holes. split; [exact Ef|]. split; [exact F2|]. split; [exact Hh|].
  intros h a b (O1 & O2) K. destruct K as (I & K). destruct (wf_face m W h I) as (f & Fh & If). exists f. split; [|exact Fh].
  rewrite Ef in If. apply in_app_iff in If as [If|If]; [|exact If]. exfalso.
  destruct (forall2_nth' _ _ _ F2 f If) as (t & It & Kt). destruct (proj1 (tri_face f t Kt h I) Fh) as (p & q & Hpq & K').
  destruct (key_uni _ _ _ _ _ K' (conj I K)) as [-> ->]. apply O2. unfold edges. apply in_flat_map. exists t. auto.
Qed.

(** A hole half-edge has its opposite in a triangle. *)
Lemma nodup_edge_tri t t' e : In t A -> In t' A -> In e (tedges t) -> In e (tedges t') -> t = t'.
Proof.
  assert (ND := bu_nodup m A B). clear - ND. unfold edges in ND. induction A as [|x l IH]; [intros []|]. cbn [flat_map] in ND.
  apply nodup_app in ND as (_ & ND' & D0). assert (D : forall e, In e (tedges x) -> ~ In e (flat_map tedges l)) by exact D0.
  intros [<-|H1] [<-|H2] E1 E2; [reflexivity| | |exact (IH ND' H1 H2 E1 E2)].
  - exfalso. apply (D e E1). apply in_flat_map. eauto.
  - exfalso. apply (D e E2). apply in_flat_map. eauto.
Qed.

Lemma tedges_pred t x x' a : ~ degenerate t -> In (x, a) (tedges t) -> In (x', a) (tedges t) -> x = x'.
Proof.
  destruct t as [[p q] r]. cbn [tedges In degenerate]. intros D [E|[E|[E|[]]]] [F|[F|[F|[]]]]; injection E; injection F; intros; subst; try reflexivity; exfalso; tauto.
Qed.
Lemma tedges_succ t x x' a : ~ degenerate t -> In (a, x) (tedges t) -> In (a, x') (tedges t) -> x = x'.
Proof.
  destruct t as [[p q] r]. cbn [tedges In degenerate]. intros D [E|[E|[E|[]]]] [F|[F|[F|[]]]]; injection E; injection F; intros; subst; try reflexivity; exfalso; tauto.
Qed.
Lemma link_fun a b c c' : link A a b c -> link A a b c' -> c = c'.
Proof.
  intros (t & It & H1 & H2 & H3) (t' & It' & H1' & H2' & H3'). assert (t' = t) by exact (nodup_edge_tri t' t _ It' It H1' H1). subst t'.
  destruct (bu_ok m A B t It) as [Dg _]. exact (tedges_pred t _ _ _ Dg H3 H3').
Qed.
Lemma link_inj a b b' c : link A a b c -> link A a b' c -> b = b'.
Proof.
  intros (t & It & H1 & H2 & H3) (t' & It' & H1' & H2' & H3'). assert (t' = t) by exact (nodup_edge_tri t' t _ It' It H3' H3). subst t'.
  destruct (bu_ok m A B t It) as [Dg _]. exact (tedges_succ t _ _ _ Dg H1 H1').
Qed.
Lemma link_of_in a c : In (c, a) (edges A) -> exists b, link A a b c.
Proof.
  intros H. destruct (tri_of_edge _ _ H) as (t & It & E). destruct t as [[x y] z]. cbn [tedges In] in E.
  destruct E as [[= <- <-]|[[= <- <-]|[[= <- <-]|[]]]].
  - exists z. exists (x, y, z). cbn [tedges In]. auto 10.
  - exists x. exists (x, y, z). cbn [tedges In]. auto 10.
  - exists y. exists (x, y, z). cbn [tedges In]. auto 10.
Qed.
Lemma link_edge a b c : link A a b c -> In (a, b) (edges A).
Proof. intros (t & It & H & _). unfold edges. apply in_flat_map. eauto. Qed.


(** Connected elements of the link lie on one chain; so there is only one end. *)
Lemma link_chain a p q : clos_refl_sym_trans nat (link A a) p q ->
  clos_refl_trans nat (link A a) p q \/ clos_refl_trans nat (link A a) q p.
Proof.
  intros R. apply clos_rst_rst1n in R. induction R as [p|p y q Hxy R IH]; [left; apply rt_refl|].
  destruct Hxy as [L|L], IH as [H|H].
  - left. eapply rt_trans; [apply rt_step; exact L|exact H].
  - apply clos_rt_rtn1 in H. destruct H as [|w z Lw H].
    + left. apply rt_step. exact L.
    + right. rewrite (link_inj a p w z L Lw). apply clos_rtn1_rt. exact H.
  - apply clos_rt_rt1n in H. destruct H as [|w z Lw H].
    + right. apply rt_step. exact L.
    + left. rewrite (link_fun a _ _ _ L Lw). apply clos_rt1n_rt. exact H.
  - right. eapply rt_trans; [exact H|apply rt_step; exact L].
Qed.
Lemma sink_reach a c p p' : (forall q, ~ link A a c q) -> link A a p c -> clos_refl_trans nat (link A a) p p' -> (exists q, link A a p' q) -> p = p'.
Proof.
  intros S L R (q & Lq). apply clos_rt_rt1n in R. destruct R as [|w z Lw R]; [reflexivity|].
  rewrite <- (link_fun a _ _ _ L Lw) in R. destruct R as [|u z Lu R]; exfalso; eapply S; eassumption.
Qed.
Lemma one_sink a c c' p p' : (forall q, ~ link A a c q) -> (forall q, ~ link A a c' q) -> link A a p c -> link A a p' c' ->
  clos_refl_sym_trans nat (link A a) p p' -> c = c'.
Proof.
  intros S S' L L' R. assert (p = p').
  { destruct (link_chain a p p' R) as [H|H]; [exact (sink_reach a c p p' S L H (ex_intro _ c' L'))|symmetry; exact (sink_reach a c' p' p S' L' H (ex_intro _ c L))]. }
  subst p'. exact (link_fun a p c c' L L').
Qed.

(** Only one open edge enters a vertex. *)
Lemma one_open a c c' : open_edge A c a -> open_edge A c' a -> c = c'.
Proof.
  intros [O1 O2] [O1' O2']. destruct (link_of_in a c O1) as (p & L). destruct (link_of_in a c' O1') as (p' & L').
  apply (one_sink a c c' p p'); try assumption.
  - intros q X. apply O2. exact (link_edge _ _ _ X).
  - intros q X. apply O2'. exact (link_edge _ _ _ X).
  - apply (bu_fan m A B); [|exact (link_edge _ _ _ L)|exact (link_edge _ _ _ L')].
    destruct L as (t & It & H & _). destruct (bu_ok m A B t It) as [_ R]. destruct t as [[x y] z]. cbn [tedges In in_range] in *.
    destruct H as [[= <- _]|[[= <- _]|[[= <- _]|[]]]]; tauto.
Qed.

(** Hole faces: distinct corners, at least three. *)
Lemma hole_face f l : (forall h, In h (m_hes m) -> h_face m h = Some f -> exists a b, open_edge A a b /\ he_is m h b a) ->
  NoDup l -> l <> [] -> (forall h, In h l <-> In h (m_hes m) /\ h_face m h = Some f) -> NoDup (map (h_src m) l) /\ 3 <= length l.
Proof.
  intros Ho Nd Ne Hl. split.
  - clear Ne. assert (Inj : forall x y, In x l -> In y l -> h_src m x = h_src m y -> x = y).
    { intros x y Hx Hy E. apply Hl in Hx as [Ix Fx]. apply Hl in Hy as [Iy Fy]. destruct (Ho x Ix Fx) as (a & b & O & K). destruct (Ho y Iy Fy) as (a' & b' & O' & K').
      assert (b' = b). { destruct K as (_ & u & v & Hu & _ & Su & _). destruct K' as (_ & u' & v' & Hu' & _ & Su' & _). eapply num_inj; [exact Hu'|]. congruence. }
      subst b'. assert (a' = a) by exact (one_open b a' a O' O). subst a'. exact (he_unique _ _ _ _ K K'). }
    clear Hl. induction l as [|x l IH]; [constructor|]. inversion Nd; subst. cbn [map]. constructor.
    + intros H. apply in_map_iff in H as (y & E & Hy). assert (y = x) by (apply Inj; [right; exact Hy|left; reflexivity|exact E]). subst. contradiction.
    + apply IH; [assumption|]. intros p q Hp Hq. apply Inj; right; assumption.
  - destruct l as [|h l]; [congruence|]. destruct (proj1 (Hl h) (or_introl eq_refl)) as [Ih Fh].
    destruct (wf_next m W h Ih) as (n & En & In_). assert (Fn : h_face m n = Some f) by (rewrite (wf_face_next m W h n Ih En); exact Fh).
    destruct (wf_next m W n In_) as (p & Ep & Ip). assert (Fp : h_face m p = Some f) by (rewrite (wf_face_next m W n p In_ Ep); exact Fn).
    assert (Dn : dst_of m h = h_src m n). { destruct (wf_rev m W h Ih) as (r & Er & _). unfold dst_of. rewrite Er. symmetry. exact (wf_dst m W h n r Ih En Er). }
    assert (Dp : dst_of m n = h_src m p). { destruct (wf_rev m W n In_) as (r & Er & _). unfold dst_of. rewrite Er. symmetry. exact (wf_dst m W n p r In_ Ep Er). }
    assert (NL := valid_noloops m (so_valid m A (bu_surf m A B))).
    assert (n <> h) by (intros ->; apply (NL h Ih); exact Dn).
    assert (p <> n) by (intros ->; apply (NL n In_); exact Dp).
    assert (p <> h).
    { intros ->. destruct (Ho h Ih Fh) as (a & b & O & K). destruct (Ho n In_ Fn) as (a' & b' & O' & K').
      assert (a = b' /\ b = a') as [-> ->].
      { destruct K as (_ & u & v & Hu & Hv & Su & Sv). destruct K' as (_ & u' & v' & Hu' & Hv' & Su' & Sv'). split; eapply num_inj; try eassumption; congruence. }
      destruct O as [O1 O2]. destruct O' as [O1' O2']. contradiction. }
    assert (Hn : In n l) by (destruct (proj2 (Hl n) (conj In_ Fn)); [congruence|assumption]).
    assert (Hp : In p l) by (destruct (proj2 (Hl p) (conj Ip Fp)); [congruence|assumption]).
    destruct l as [|x [|y l]]; [destruct Hn| |cbn [length]; lia]. destruct Hn as [->|[]]. destruct Hp as [->|[]]. congruence.
Qed.

(** ** Counting *)
Definition num_of (v : ptr) : nat := match v with Some a => Z.to_nat (v_idx m a) | None => 0 end.
Definition key_of (h : nat) : nat * nat := (num_of (h_src m h), num_of (dst_of m h)).
Lemma key_of_is h a b : he_is m h a b -> key_of h = (a, b).
Proof.
  intros (_ & u & v & Hu & Hv & Su & Sv). unfold key_of, num_of. rewrite Su, Sv.
  destruct (wf_v_elem m W a u Hu) as (_ & -> & _). destruct (wf_v_elem m W b v Hv) as (_ & -> & _). rewrite !Nat2Z.id. reflexivity.
Qed.
Lemma keys_nodup : NoDup (map key_of (m_hes m)).
Proof.
  assert (Nd := wf_h_nodup m W). assert (Inj : forall x y, In x (m_hes m) -> In y (m_hes m) -> key_of x = key_of y -> x = y).
  { intros x y Hx Hy E. destruct (he_key_ex x Hx) as (a & b & K). destruct (he_key_ex y Hy) as (a' & b' & K').
    rewrite (key_of_is _ _ _ K), (key_of_is _ _ _ K') in E. injection E as <- <-. exact (he_unique _ _ _ _ K K'). }
  induction (m_hes m) as [|x l IH]; [constructor|]. inversion Nd; subst. cbn [map]. constructor.
  - intros H. apply in_map_iff in H as (y & E & Hy). assert (y = x) by (apply Inj; [right; exact Hy|left; reflexivity|exact E]). subst. contradiction.
  - apply IH; [assumption|]. intros p q Hp Hq. apply Inj; right; assumption.
Qed.
Lemma keys_in a b : In (a, b) (map key_of (m_hes m)) <-> In (a, b) (edges A) \/ In (b, a) (edges A).
Proof.
  rewrite (so_edges m A (bu_surf m A B)). split.
  - intros H. apply in_map_iff in H as (h & E & I). destruct (he_key_ex h I) as (a' & b' & K). rewrite (key_of_is _ _ _ K) in E. injection E as -> ->. exists h. exact K.
  - intros (h & K). apply in_map_iff. exists h. split; [exact (key_of_is _ _ _ K)|apply K].
Qed.

(** The number of half-edges: three per triangle and one per open edge. *)
Definition memb (e : nat * nat) (l : list (nat * nat)) : bool := existsb (fun x => (fst x =? fst e) && (snd x =? snd e)) l.
Lemma memb_in e l : memb e l = true <-> In e l.
Proof.
  unfold memb. rewrite existsb_exists. split.
  - intros (x & Hx & E). apply andb_true_iff in E as [E1 E2]. apply Nat.eqb_eq in E1, E2. destruct x, e; cbn in *; subst; exact Hx.
  - intros H. exists e. split; [exact H|]. rewrite !Nat.eqb_refl. reflexivity.
Qed.
Definition opens : list (nat * nat) := filter (fun e => negb (memb (snd e, fst e) (edges A))) (edges A).
Lemma opens_in a b : In (a, b) opens <-> open_edge A a b.
Proof.
  unfold opens, open_edge. rewrite filter_In. cbn [fst snd]. rewrite negb_true_iff. split; intros [H1 H2]; (split; [exact H1|]).
  - intros X. apply memb_in in X. congruence.
  - destruct (memb (b, a) (edges A)) eqn:X; [|reflexivity]. apply memb_in in X. contradiction.
Qed.
Lemma edges_length (T : list tri) : length (edges T) = 3 * length T.
Proof. induction T as [|[[a b] c] T IH]; [reflexivity|]. unfold edges in *. cbn [flat_map tedges app length]. lia. Qed.
Lemma halfedge_count : length (m_hes m) = 3 * length A + length opens.
Proof.
  assert (P : Permutation (map key_of (m_hes m)) (edges A ++ map (fun e => (snd e, fst e)) opens)).
  { apply NoDup_Permutation; [exact keys_nodup| |].
    - apply nodup_app. split; [exact (bu_nodup m A B)|]. split.
      + assert (Nd : NoDup opens) by (apply NoDup_filter; exact (bu_nodup m A B)). clear - Nd. induction opens as [|[x y] l IH]; [constructor|].
        inversion Nd; subst. cbn [map fst snd]. constructor; [|auto]. intros H. apply in_map_iff in H as ([p q] & E & Hp). cbn in E. injection E as -> ->. contradiction.
      + intros [x y] He H. apply in_map_iff in H as ([p q] & E & Hp). cbn in E. injection E as -> ->. apply opens_in in Hp as [_ Hp]. contradiction.
    - intros [a b]. rewrite keys_in, in_app_iff. split.
      + intros [H|H]; [left; exact H|]. destruct (memb (a, b) (edges A)) eqn:X; [left; apply memb_in; exact X|right].
        apply in_map_iff. exists (b, a). split; [reflexivity|]. apply opens_in. split; [exact H|]. intros Y. apply memb_in in Y. congruence.
      + intros [H|H]; [left; exact H|]. apply in_map_iff in H as ([p q] & E & Hp). cbn in E. injection E as -> ->. right. apply opens_in in Hp. apply Hp. }
  apply Permutation_length in P. rewrite map_length, app_length, map_length, edges_length in P. exact P.
Qed.

(** ** The queries on a built mesh *)
Lemma built_v_boundary a v : nth_error (m_verts m) a = Some v ->
  exists b, v_isBoundary (Some v) m = Ok (b, m) /\ (b = true <-> exists c, open_edge A a c \/ open_edge A c a).
Proof.
  intros Ha. destruct (circulate_vertex m v W (nth_error_In _ _ Ha)) as (l & _ & Hl & _ & _ & _ & _ & _ & _ & E & _).
  eexists. split; [exact E|]. rewrite existsb_exists. split.
  - intros (h & Ih & Hb). apply Hl in Ih as [Ih Sh]. destruct (he_key_ex h Ih) as (a' & b & K).
    assert (a' = a). { destruct K as (_ & u & w & Hu & _ & Su & _). eapply num_inj; [exact Hu|congruence]. } subst a'.
    exists b. apply (so_flags m A (bu_surf m A B) h a b K). exact Hb.
  - intros (c & O). assert (X : exists h, he_is m h a c).
    { apply (so_edges m A (bu_surf m A B)). destruct O as [[O _]|[O _]]; auto. }
    destruct X as (h & K). exists h. split.
    + apply Hl. destruct K as (I & u & w & Hu & _ & Su & _). split; [exact I|congruence].
    + apply (so_flags m A (bu_surf m A B) h a c K). destruct O; auto.
Qed.

End Read.
End Built.
