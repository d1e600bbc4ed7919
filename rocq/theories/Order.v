(** Construction does not depend on the order of triangles, their first corners and the numbering of points. *)
From Coq Require Import List ZArith Arith Lia Bool Permutation Relations.
From Verif Require Import Num Vec Heap Mesh Construct Spec BuildSpec BuildTri BuildTop Weld Built Clone BuildProps OrderSpec.
Import ListNotations.

Section Order.
Context {N : Num}.
Context {NE : NumEq N}.
Implicit Types ps qs us : list (vec N).

Lemma vsym (p q : vec N) : veqb p q = true -> veqb q p = true.
Proof. intros H. rewrite veqb_sym. exact H. Qed.
Lemma as_sym ps qs i j : at_same ps qs i j -> at_same qs ps j i.
Proof. intros (p & q & H1 & H2 & H3). exists q, p. split; [exact H2|]. split; [exact H1|]. apply vsym, H3. Qed.
Lemma as_trans ps qs us i j k : at_same ps qs i j -> at_same qs us j k -> at_same ps us i k.
Proof. intros (p & q & H1 & H2 & H3) (q' & u & H4 & H5 & H6). assert (q' = q) by congruence. subst. exists p, u. split; [exact H1|]. split; [exact H5|]. exact (veqb_trans _ _ _ H3 H6). Qed.
Lemma st_sym ps qs t u : same_tri ps qs t u -> same_tri qs ps u t.
Proof.
  intros (a & b & c & a' & b' & c' & C & -> & A & B & D). apply as_sym in A, B, D. destruct t as [[x y] z]. destruct C as [E|[E|E]]; injection E as -> -> ->.
  - exists a', b', c', x, y, z. cbn. auto 10.
  - exists c', a', b', x, y, z. cbn. auto 10.
  - exists b', c', a', x, y, z. cbn. auto 10.
Qed.
Lemma st_trans ps qs us t u v : same_tri ps qs t u -> same_tri qs us u v -> same_tri ps us t v.
Proof.
  intros (a & b & c & a' & b' & c' & C & -> & A & B & D) (x & y & z & x' & y' & z' & C2 & -> & X & Y & Z).
  destruct C2 as [E|[E|E]]; injection E as -> -> ->.
  - exists a, b, c, x', y', z'. split; [exact C|]. split; [reflexivity|]. repeat split; eapply as_trans; eassumption.
  - exists b, c, a, x', y', z'. split; [destruct t as [[p q] r]; destruct C as [E|[E|E]]; injection E as -> -> ->; cbn; auto|]. split; [reflexivity|]. repeat split; eapply as_trans; eassumption.
  - exists c, a, b, x', y', z'. split; [destruct t as [[p q] r]; destruct C as [E|[E|E]]; injection E as -> -> ->; cbn; auto|]. split; [reflexivity|]. repeat split; eapply as_trans; eassumption.
Qed.
Lemma f2_flip {A B} (P : A -> B -> Prop) (Q : B -> A -> Prop) : (forall a b, P a b -> Q b a) -> forall l l', Forall2 P l l' -> Forall2 Q l' l.
Proof. intros H. induction 1; constructor; auto. Qed.
Lemma f2_trans {A B C} (P : A -> B -> Prop) (Q : B -> C -> Prop) (S : A -> C -> Prop) : (forall a b c, P a b -> Q b c -> S a c) -> forall l l', Forall2 P l l' -> forall l'', Forall2 Q l' l'' -> Forall2 S l l''.
Proof. intros H. induction 1; intros l'' K; inversion K; subst; constructor; eauto. Qed.
Lemma same_sym ps T qs U : SameTriangles ps T qs U -> SameTriangles qs U ps T.
Proof.
  intros (L & P & F). destruct (Permutation_Forall2 (Permutation_sym P) F) as (U' & PU & FU). exists U'. split; [exact PU|]. exact (f2_flip _ _ (st_sym ps qs) _ _ FU).
Qed.
Lemma same_trans ps T qs U us V : SameTriangles ps T qs U -> SameTriangles qs U us V -> SameTriangles ps T us V.
Proof.
  intros (L & P & F) (M & Q & G). assert (F' := f2_flip _ _ (st_sym ps qs) _ _ F). destruct (Permutation_Forall2 Q F') as (L' & PL & FL).
  exists L'. split; [exact (Permutation_trans P PL)|]. exact (f2_trans _ _ _ (st_trans ps qs us) _ _ (f2_flip _ _ (st_sym qs ps) _ _ FL) _ G).
Qed.

(** Welding keeps the triangles. *)
Lemma we_at ps ix us l : Welded ps ix us l -> Forall2 (at_same us ps) l ix.
Proof.
  intros W. assert (H : forall k i j, nth_error ix k = Some i -> nth_error l k = Some j -> at_same us ps j i).
  { intros k i j H1 H2. destruct (we_same _ _ _ _ W k i j H1 H2) as (p & u & A & B & C). exists u, p. auto. }
  assert (E := we_len _ _ _ _ W). clear W. revert ix E H. induction l as [|j l IH]; intros [|i ix] E H; cbn [length] in E; try discriminate; constructor.
  - apply (H 0); reflexivity.
  - apply IH; [lia|]. intros k. apply (H (S k)).
Qed.
Lemma triples_f2 (P : nat -> nat -> Prop) (Q : tri -> tri -> Prop) : (forall a b c a' b' c', P a a' -> P b b' -> P c c' -> Q (a, b, c) (a', b', c')) -> forall n l l', length l <= n -> Forall2 P l l' -> Forall2 Q (triples l) (triples l').
Proof.
  intros H. induction n as [|n IH]; intros l l' Hn F; inversion F as [|a a' l1 l1' A F1]; subst; [constructor|cbn [length] in Hn; lia|constructor|].
  inversion F1 as [|b b' l2 l2' B F2]; subst; [constructor|]. inversion F2 as [|c c' l3 l3' C F3]; subst; [constructor|]. cbn [triples]. constructor; [auto|]. apply IH; [cbn [length] in Hn; lia|exact F3].
Qed.
Lemma weld_same ps ix us l : Welded ps ix us l -> SameTriangles us (triples l) ps (triples ix).
Proof.
  intros W. exists (triples l). split; [reflexivity|]. apply (triples_f2 (at_same us ps) (same_tri us ps)) with (n := length l); [|lia|exact (we_at _ _ _ _ W)].
  intros a b c a' b' c' A B C. exists a, b, c, a', b', c'. split; [left; reflexivity|]. auto.
Qed.

(** ** From one list to the other *)
Section Two.
Variables (us vs : list (vec N)) (T U : list tri).
Hypothesis Du : PosDistinct us.
Hypothesis Dv : PosDistinct vs.
Hypothesis S : SameTriangles us T vs U.
Fixpoint find_pos (l : list (vec N)) (p : vec N) : nat := match l with [] => 0 | u :: l => if veqb u p then 0 else Datatypes.S (find_pos l p) end.
Lemma find_pos_ok p : forall l j u, nth_error l j = Some u -> veqb u p = true -> exists v, nth_error l (find_pos l p) = Some v /\ veqb v p = true.
Proof.
  induction l as [|x l IH]; intros [|j] u H E; cbn in *; try discriminate.
  - injection H as ->. rewrite E. exists u. auto.
  - destruct (veqb x p) eqn:X; [exists x; auto|]. exact (IH j u H E).
Qed.
Definition r (a : nat) : nat := find_pos vs (nth a us vzero).
Lemma r_at a b : at_same us vs a b -> r a = b.
Proof.
  intros (p & q & H1 & H2 & H3). unfold r. rewrite (nth_error_nth _ _ _ H1). destruct (find_pos_ok p vs b q H2 (vsym _ _ H3)) as (v & E & X).
  apply (Dv _ _ _ _ E H2). exact (veqb_trans _ _ _ X H3).
Qed.
Lemma at_inj a b c : at_same us vs a c -> at_same us vs b c -> a = b.
Proof. intros (p & q & H1 & H2 & H3) (p' & q' & H4 & H5 & H6). assert (q' = q) by congruence. subst. apply (Du _ _ _ _ H1 H4). exact (veqb_trans _ _ _ H3 (vsym _ _ H6)). Qed.
Lemma f2_in {A B} (P : A -> B -> Prop) l l' x : Forall2 P l l' -> In x l -> exists y, In y l' /\ P x y.
Proof. induction 1 as [|a b l l' H F IH]; intros [].
  - subst. exists b. split; [left; reflexivity|exact H].
  - destruct (IH H0) as (y & Iy & Py). exists y. split; [right; exact Iy|exact Py].
Qed.
Lemma tri_img t : In t T -> exists u, In u U /\ same_tri us vs t u.
Proof. destruct S as (L & P & F). intros H. exact (f2_in _ _ _ _ F (Permutation_in _ P H)). Qed.
Lemma same_edges t u : same_tri us vs t u -> Permutation (map (fun e => (r (fst e), r (snd e))) (tedges t)) (tedges u) /\ forall a b, In (a, b) (tedges t) -> at_same us vs a (r a).
Proof.
  intros (a & b & c & a' & b' & c' & C & -> & A & B & D). assert (EA := r_at _ _ A). assert (EB := r_at _ _ B). assert (ED := r_at _ _ D). subst a' b' c'. assert (Q := cyc_perm _ _ C). split.
  - rewrite Q. reflexivity.
  - intros x y H. apply (Permutation_in _ Q) in H. cbn [tedges In] in H. destruct H as [[=]|[[=]|[[=]|[]]]]; subst; assumption.
Qed.
Lemma same_edge t u a b : same_tri us vs t u -> In (a, b) (tedges t) -> In (r a, r b) (tedges u).
Proof. intros H I. apply (Permutation_in _ (proj1 (same_edges _ _ H))). exact (in_map (fun e => (r (fst e), r (snd e))) _ _ I). Qed.
Lemma edge_img a b : In (a, b) (edges T) -> In (r a, r b) (edges U) /\ at_same us vs a (r a).
Proof.
  intros H. apply in_flat_map in H. destruct H as (t & It & Et). destruct (tri_img t It) as (u & Iu & Su). split.
  - apply in_flat_map. exists u. split; [exact Iu|]. exact (same_edge _ _ _ _ Su Et).
  - exact (proj2 (same_edges _ _ Su) a b Et).
Qed.
Lemma link_img a b c : link T a b c -> link U (r a) (r b) (r c).
Proof.
  intros (t & It & H1 & H2 & H3). destruct (tri_img t It) as (u & Iu & Su). exists u. split; [exact Iu|]. repeat split; eapply same_edge; eassumption.
Qed.
Lemma clos_img a b c : clos_refl_sym_trans nat (link T a) b c -> clos_refl_sym_trans nat (link U (r a)) (r b) (r c).
Proof. induction 1; [apply rst_step, link_img; assumption|apply rst_refl|apply rst_sym; assumption|eapply rst_trans; eassumption]. Qed.
Lemma edges_img : Permutation (map (fun e => (r (fst e), r (snd e))) (edges T)) (edges U).
Proof.
  destruct S as (L & P & F). transitivity (map (fun e => (r (fst e), r (snd e))) (edges L)).
  - apply Permutation_map. unfold edges. apply Permutation_flat_map, P.
  - clear P S. induction F as [|x y L U' H F IH]; [reflexivity|]. unfold edges in *. cbn [flat_map]. rewrite map_app. apply Permutation_app; [exact (proj1 (same_edges _ _ H))|exact IH].
Qed.
Lemma edge_back a' b' : In (a', b') (edges U) -> exists a b, In (a, b) (edges T) /\ a' = r a /\ b' = r b.
Proof. intros H. apply (Permutation_in _ (Permutation_sym edges_img)) in H. apply in_map_iff in H. destruct H as ((a & b) & [= <- <-] & I). exists a, b. auto. Qed.
Lemma edge_end a b : In (a, b) (edges T) -> exists c, In (b, c) (edges T).
Proof.
  intros H. apply in_flat_map in H. destruct H as ([[x y] z] & It & Et). cbn [tedges In] in Et.
  destruct Et as [E|[E|[E|[]]]]; injection E as <- <-; [exists z|exists x|exists y]; apply in_flat_map; exists (x, y, z); (split; [exact It|cbn; auto]).
Qed.
Lemma r_inj a b a' b' : In (a, a') (edges T) -> In (b, b') (edges T) -> r a = r b -> a = b.
Proof. intros A B E. apply edge_img in A, B. destruct A as [_ A], B as [_ B]. rewrite E in A. exact (at_inj _ _ _ A B). Qed.
Lemma fan_img a : used T a -> Fan T a -> Fan U (r a).
Proof.
  intros (x & X) F b' c' B C. destruct (edge_back _ _ B) as (a1 & b & I1 & E1 & ->). destruct (edge_back _ _ C) as (a2 & c & I2 & E2 & ->).
  assert (a1 = a) by (symmetry; exact (r_inj _ _ _ _ X I1 E1)). assert (a2 = a) by (symmetry; exact (r_inj _ _ _ _ X I2 E2)). subst. apply clos_img, F; assumption.
Qed.
Lemma used_back a' : used U a' -> exists a, used T a /\ a' = r a.
Proof. intros (b' & H). destruct (edge_back _ _ H) as (a & b & I & E & _). exists a. split; [exists b; exact I|exact E]. Qed.
Lemma nodup_img : NoDup (edges T) -> NoDup (edges U).
Proof.
  intros H. apply (Permutation_NoDup edges_img), nodup_map_inj; [|exact H]. intros [a b] [c d] I J [= E1 E2]. f_equal; [exact (r_inj _ _ _ _ I J E1)|].
  destruct (edge_end _ _ I) as (x & X). destruct (edge_end _ _ J) as (y & Y). exact (r_inj _ _ _ _ X Y E2).
Qed.
Lemma nondeg_edges V : (forall t, In t V -> ~ degenerate t) <-> forall a b, In (a, b) (edges V) -> a <> b.
Proof.
  split.
  - intros H a b I. apply in_flat_map in I. destruct I as ([[x y] z] & It & Et). assert (D := H _ It). cbn in D. cbn [tedges In] in Et. intros E. apply D. destruct Et as [[=]|[[=]|[[=]|[]]]]; subst; auto.
  - intros H [[x y] z] It D. assert (K : forall a b, In (a, b) (tedges (x, y, z)) -> a <> b) by (intros a b I; apply H, in_flat_map; exists (x, y, z); auto). cbn in D. destruct D as [D|[D|D]]; revert D; apply K; cbn; auto.
Qed.
Lemma nondeg_img : (forall t, In t T -> ~ degenerate t) -> forall t, In t U -> ~ degenerate t.
Proof.
  rewrite !nondeg_edges. intros H a' b' I E. destruct (edge_back _ _ I) as (a & b & J & -> & ->). apply (H a b J). destruct (edge_end _ _ J) as (c & K). exact (r_inj _ _ _ _ J K E).
Qed.
Lemma count_img : (forall a, a < length us -> used T a) -> length us <= length vs.
Proof.
  intros H. rewrite <- (seq_length (length us) 0), <- (seq_length (length vs) 0), <- (map_length r (seq 0 (length us))). apply NoDup_incl_length.
  - apply nodup_map_inj; [|apply seq_NoDup]. intros a b A B. apply in_seq in A, B. destruct (H a ltac:(lia)) as (x & X). destruct (H b ltac:(lia)) as (y & Y). exact (r_inj _ _ _ _ X Y).
  - intros x I. apply in_map_iff in I. destruct I as (a & <- & A). apply in_seq in A. destruct (H a ltac:(lia)) as (y & Y). destruct (proj2 (edge_img _ _ Y)) as (p & q & _ & Q & _). apply in_seq. split; [lia|]. cbn. apply nth_error_Some. congruence.
Qed.
End Two.

Lemma we_distinct ps ix us l : Welded ps ix us l -> PosDistinct us.
Proof. intros W i j p q. apply (we_diff _ _ _ _ W). Qed.
Lemma we_used ps ix us l : Welded ps ix us l -> Nat.divide 3 (length ix) -> forall a, a < length us -> used (triples l) a.
Proof. intros W D a H. apply in_triples; [rewrite (we_len _ _ _ _ W); exact D|]. exact (Welded_onto _ _ _ _ W a H). Qed.
Lemma used_range us l a : (forall j, In j l -> j < length us) -> used (triples l) a -> a < length us.
Proof. intros H (b & I). apply in_flat_map in I. destruct I as (t & It & Et). assert (R := triples_range (length us) l H t It). destruct t as [[x y] z]. cbn in R. cbn [tedges In] in Et. destruct Et as [[=]|[[=]|[[=]|[]]]]; subst; tauto. Qed.

Section Main.
Variables (ps qs : list (vec N)) (ix jx : list nat) (us vs : list (vec N)) (l k : list nat).
Hypothesis W1 : Welded ps ix us l.
Hypothesis W2 : Welded qs jx vs k.
Hypothesis D1 : Nat.divide 3 (length ix).
Hypothesis D2 : Nat.divide 3 (length jx).
Hypothesis S : SameTriangles ps (triples ix) qs (triples jx).
Hypothesis ND : forall t, In t (triples l) -> ~ degenerate t.
Hypothesis NR : NoDup (edges (triples l)).
Lemma same_welded : SameTriangles us (triples l) vs (triples k).
Proof. exact (same_trans _ _ _ _ _ _ (weld_same _ _ _ _ W1) (same_trans _ _ _ _ _ _ S (same_sym _ _ _ _ (weld_same _ _ _ _ W2)))). Qed.
Lemma fans_along : (forall a, a < length us -> Fan (triples l) a) -> forall a, a < length vs -> Fan (triples k) a.
Proof.
  intros F a La. destruct (used_back us vs _ _ (we_distinct _ _ _ _ W2) same_welded a (we_used _ _ _ _ W2 D2 a La)) as (b & Ub & ->).
  apply (fan_img us vs (triples l) (triples k) (we_distinct _ _ _ _ W1) (we_distinct _ _ _ _ W2) same_welded b Ub). apply F. exact (used_range us l b (Welded_range _ _ _ _ W1) Ub).
Qed.
End Main.
Lemma order_free ps qs ix jx us vs l k : Welded ps ix us l -> Welded qs jx vs k -> Nat.divide 3 (length ix) -> Nat.divide 3 (length jx) ->
  SameTriangles ps (triples ix) qs (triples jx) -> (forall t, In t (triples l) -> ~ degenerate t) -> NoDup (edges (triples l)) ->
  (exists m m', mesh_of ps ix = Ok m /\ mesh_of qs jx = Ok m' /\ SameSurface m m') \/ (mesh_of ps ix = Abort AError /\ mesh_of qs jx = Abort AError).
Proof.
  intros W1 W2 D1 D2 S ND NR. assert (SW := same_welded ps qs ix jx us vs l k W1 W2 S). assert (P1 := we_distinct _ _ _ _ W1). assert (P2 := we_distinct _ _ _ _ W2).
  assert (ND2 := nondeg_img us vs _ _ P1 P2 SW ND). assert (NR2 := nodup_img us vs _ _ P1 P2 SW NR).
  destruct (build_outcome ps ix us l W1 D1) as (T & rem & _ & _ & ET & _ & O). rewrite (ET ND) in O. clear T ET.
  destruct O as [[(t & It & Dt) _]|(_ & A & Ac & O)]; [exfalso; exact (ND t It Dt)|]. assert (A = triples l) by exact (Accepted_det _ _ _ Ac (Accepted_all _ ND NR)). subst A.
  destruct O as [[(a & La & X) _]|[(_ & (a & La & X) & E)|(_ & F & m & E & Sf & Po)]].
  - exfalso. exact (X (we_used _ _ _ _ W1 D1 a La)).
  - right. split; [exact E|]. destruct (used_back vs us _ _ P1 (same_sym _ _ _ _ SW) a (we_used _ _ _ _ W1 D1 a La)) as (b & Ub & Eb).
    apply (rejects_nonmanifold qs jx vs k W2 D2 ND2 NR2). exists b. split; [exact (used_range vs k b (Welded_range _ _ _ _ W2) Ub)|]. intros Fb. apply X. rewrite Eb.
    exact (fan_img vs us _ _ P2 P1 (same_sym _ _ _ _ SW) b Ub Fb).
  - left. destruct (accepts_manifold qs jx vs k W2 D2 ND2 NR2 (fans_along ps qs ix jx us vs l k W1 W2 D2 S F)) as (m' & E' & Sf' & Po').
    exists m, m'. split; [exact E|]. split; [exact E'|]. exists (triples l), (triples k). split; [exact Sf|]. split; [exact Sf'|].
    rewrite <- (positions_length m), <- (positions_length m'), Po, Po'. split; [|auto]. apply Nat.le_antisymm.
    + exact (count_img us vs _ _ P1 P2 SW (we_used _ _ _ _ W1 D1)).
    + exact (count_img vs us _ _ P2 P1 (same_sym _ _ _ _ SW) (we_used _ _ _ _ W2 D2)).
Qed.
End Order.
