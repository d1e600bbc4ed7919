(** getVertices, getVertexIndices and clone on constructed meshes. *)
From Coq Require Import List ZArith Arith Lia Bool Permutation Relations.
From Verif Require Import Num Vec Heap Mesh Construct Spec BuildSpec Orbit Rings Exec Split Queries BuildTri BuildTop Weld Built.
Import ListNotations.
Local Open Scope mesh_scope.

Lemma cyc_tedges t t' e : cyc_eq t t' -> In e (tedges t') <-> In e (tedges t).
Proof. destruct t as [[a b] c]. intros [->|[->| ->]]; cbn [tedges In]; tauto. Qed.
Lemma cyc_perm t t' : cyc_eq t t' -> Permutation (tedges t) (tedges t').
Proof.
  destruct t as [[a b] c]. intros [->|[->| ->]]; cbn [tedges]; [reflexivity| |].
  - change [(a, b); (b, c); (c, a)] with ([(a, b)] ++ [(b, c); (c, a)]). apply Permutation_app_comm.
  - change [(c, a); (a, b); (b, c)] with ([(c, a)] ++ [(a, b); (b, c)]). rewrite (Permutation_app_comm [(c, a)]). reflexivity.
Qed.
Lemma cyc_edges T T' : Forall2 cyc_eq T T' -> Permutation (edges T) (edges T').
Proof. induction 1; [reflexivity|]. unfold edges in *. cbn [flat_map]. apply Permutation_app; [apply cyc_perm; assumption|assumption]. Qed.
Lemma cyc_link T T' a b c : Forall2 cyc_eq T T' -> link T a b c -> link T' a b c.
Proof.
  intros F (t & It & H1 & H2 & H3). revert It. induction F as [|x y T T' Hxy F IH]; [intros []|]. intros [->|It].
  - exists y. split; [left; reflexivity|]. rewrite !(cyc_tedges t y _ Hxy). auto.
  - destruct (IH It) as (u & Iu & K). exists u. split; [right; exact Iu|exact K].
Qed.
Lemma cyc_fan T T' a : Forall2 cyc_eq T T' -> Fan T a -> Fan T' a.
Proof.
  intros F Fa b c Hb Hc. assert (P := cyc_edges _ _ F).
  assert (R := Fa b c (Permutation_in _ (Permutation_sym P) Hb) (Permutation_in _ (Permutation_sym P) Hc)).
  clear - R F. induction R; [apply rst_step; exact (cyc_link _ _ _ _ _ F H)|apply rst_refl|apply rst_sym; assumption|eapply rst_trans; eassumption].
Qed.

Section Clone.
Context {N : Num}.
Implicit Types m : mesh N.

Lemma getVertices_ok m : WF m -> getVertices m = Ok (positions m, m).
Proof.
  intros W. unfold getVertices, positions. rewrite bind_get.
  assert (L : forall v, In v (m_verts m) -> v_live m v = true) by (intros v; apply (v_alive m W)).
  induction (m_verts m) as [|v l IH]; [reflexivity|]. cbn [mmap map].
  rewrite (bind_ok _ _ _ _ _ (r_pos m v (L v (or_introl eq_refl)))). rewrite (bind_ok _ _ _ _ _ (IH (fun u Hu => L u (or_intror Hu)))). reflexivity.
Qed.

Definition isolatedb (T : list tri) (t : tri) : bool := forallb (fun e => negb (memb (snd e, fst e) (edges T))) (tedges t).
Lemma isolatedb_spec T t : isolatedb T t = true <-> isolated T t.
Proof.
  unfold isolatedb, isolated. rewrite forallb_forall. split.
  - intros H a b I X. specialize (H (a, b) I). cbn [fst snd] in H. apply negb_true_iff in H. apply memb_in in X. congruence.
  - intros H [a b] I. cbn [fst snd]. apply negb_true_iff. destruct (memb (b, a) (edges T)) eqn:X; [|reflexivity]. apply memb_in in X. destruct (H a b I X).
Qed.

Section Read.
Variables (m : mesh N) (A : list tri).
Hypothesis B : Built m A.
Notation W := (valid_wf m (so_valid m A (bu_surf m A B))).

Lemma hole_flag f t : In t A -> face_is m f t -> In f (m_faces m) -> f_isHole (Some f) m = Ok (isolatedb A t, m).
Proof.
  intros It K If. destruct (circulate_face m f W If) as (l & _ & Hl & _ & _ & _ & _ & _ & E & _).
  rewrite E. f_equal. f_equal.
  assert (X : forallb (h_bd m) l = true <-> isolatedb A t = true).
  { rewrite forallb_forall, isolatedb_spec. split.
    - intros H a b Hab Hba. assert (Iab : In (a, b) (edges A)) by (unfold edges; apply in_flat_map; eauto).
      destruct (proj1 (so_edges m A (bu_surf m A B) a b) (or_introl Iab)) as (h & Kh). assert (Ih := proj1 Kh).
      assert (Fh : h_face m h = Some f) by (apply (tri_face m A B f t K h Ih); exists a, b; auto).
      assert (Bh : h_bd m h = true) by (apply H, Hl; auto).
      apply (so_flags m A (bu_surf m A B) h a b Kh) in Bh as [[_ O]|[_ O]]; contradiction.
    - intros H h Hh. apply Hl in Hh as [Ih Fh]. apply (tri_face m A B f t K h Ih) in Fh as (a & b & Hab & Kh).
      apply (so_flags m A (bu_surf m A B) h a b Kh). left. split; [unfold edges; apply in_flat_map; eauto|exact (H a b Hab)]. }
  destruct (forallb (h_bd m) l), (isolatedb A t); try reflexivity; destruct X as [X Y]; [symmetry; apply X; reflexivity|apply Y; reflexivity].
Qed.

Lemma read_face f t : face_is m f t -> In f (m_faces m) -> exists t', cyc_eq t t' /\ let '(i, j, k) := t' in
  forall X (K : Z -> Z -> Z -> M N X),
  (h <- fa_he (Some f) ;; s0 <- he_src h ;; i0 <- ve_idx s0 ;;
   h <- fa_he (Some f) ;; n <- he_next h ;; s1 <- he_src n ;; i1 <- ve_idx s1 ;;
   h <- fa_he (Some f) ;; p <- he_prev h ;; s2 <- he_src p ;; i2 <- ve_idx s2 ;; K i0 i1 i2) m = K (Z.of_nat i) (Z.of_nat j) (Z.of_nat k) m.
Proof.
  destruct t as [[a b] c]. intros (u & v & w & Ha & Hb & Hc & x & y & z & Hx & Nx & Ny & Nz & Sx & Sy & Sz) If.
  destruct (proj2 (Hx x) (or_introl eq_refl)) as [Ix Fx]. destruct (proj2 (Hx y) (or_intror (or_introl eq_refl))) as [Iy Fy]. destruct (proj2 (Hx z) (or_intror (or_intror eq_refl))) as [Iz Fz].
  destruct (wf_v_elem m W a u Ha) as (Lu & Eu & _). destruct (wf_v_elem m W b v Hb) as (Lv & Ev & _). destruct (wf_v_elem m W c w Hc) as (Lw & Ew & _).
  assert (R : forall h n p u0 u1 u2 i j k, In h (m_hes m) -> In n (m_hes m) -> In p (m_hes m) -> f_he m f = Some h -> h_next m h = Some n -> h_next m n = Some p -> h_next m p = Some h ->
     h_src m h = Some u0 -> h_src m n = Some u1 -> h_src m p = Some u2 -> v_live m u0 = true -> v_live m u1 = true -> v_live m u2 = true ->
     v_idx m u0 = Z.of_nat i -> v_idx m u1 = Z.of_nat j -> v_idx m u2 = Z.of_nat k ->
     forall X (K : Z -> Z -> Z -> M N X),
      (h <- fa_he (Some f) ;; s0 <- he_src h ;; i0 <- ve_idx s0 ;;
       h <- fa_he (Some f) ;; n <- he_next h ;; s1 <- he_src n ;; i1 <- ve_idx s1 ;;
       h <- fa_he (Some f) ;; p <- he_prev h ;; s2 <- he_src p ;; i2 <- ve_idx s2 ;; K i0 i1 i2) m = K (Z.of_nat i) (Z.of_nat j) (Z.of_nat k) m).
  { intros h n p u0 u1 u2 i j k Ih In_ Ip Eh Eh1 Eh2 Eh3 S0 S1 S2 L0 L1 L2 X0 X1 X2 X K.
    assert (Lf := f_alive m W f If).
    destruct (prev_inverse m p W Ip) as (_ & (n' & En' & Ep)). assert (n' = h) by congruence. subst n'.
    rewrite (bind_ok _ _ _ _ _ (r_fhe m f Lf)), Eh, (bind_ok _ _ _ _ _ (r_src m h (h_alive m W _ Ih))), S0, (bind_ok _ _ _ _ _ (r_vidx m u0 L0)).
    rewrite (bind_ok _ _ _ _ _ (r_fhe m f Lf)), Eh, (bind_ok _ _ _ _ _ (r_next m h (h_alive m W _ Ih))), Eh1, (bind_ok _ _ _ _ _ (r_src m n (h_alive m W _ In_))), S1, (bind_ok _ _ _ _ _ (r_vidx m u1 L1)).
    rewrite (bind_ok _ _ _ _ _ (r_fhe m f Lf)), Eh, (bind_ok _ _ _ _ _ Ep), (bind_ok _ _ _ _ _ (r_src m p (h_alive m W _ Ip))), S2, (bind_ok _ _ _ _ _ (r_vidx m u2 L2)).
    rewrite X0, X1, X2. reflexivity. }
  destruct (wf_fhe m W f If) as (h & Eh & Ih & Fh). destruct (proj1 (Hx h) (conj Ih Fh)) as [->|[->| ->]].
  - exists (a, b, c). split; [left; reflexivity|]. apply (R x y z u v w); assumption.
  - exists (b, c, a). split; [right; left; reflexivity|]. apply (R y z x v w u); assumption.
  - exists (c, a, b). split; [right; right; reflexivity|]. apply (R z x y w u v); assumption.
Qed.

Lemma indices_tris fs : forall T rest k, Forall2 (face_is m) fs T -> (forall f, In f fs -> In f (m_faces m)) -> (forall t, In t T -> In t A) ->
  vertex_indices rest m = Ok (k, m) ->
  exists l, vertex_indices (fs ++ rest) m = Ok (map Z.of_nat l ++ k, m) /\ Nat.divide 3 (length l) /\
    Forall2 cyc_eq (filter (fun t => negb (isolatedb A t)) T) (triples l).
Proof.
  induction fs as [|f fs IH]; intros T rest k F Hf Ht E; inversion F as [|? t ? T' Kf F' E1 E2]; subst.
  - exists []. split; [exact E|]. split; [exists 0; reflexivity|constructor].
  - destruct (IH T' rest k F' (fun g Hg => Hf g (or_intror Hg)) (fun u Hu => Ht u (or_intror Hu)) E) as (l & El & Dl & Fl).
    cbn [app vertex_indices filter]. rewrite (bind_ok _ _ _ _ _ (hole_flag f t (Ht t (or_introl eq_refl)) Kf (Hf f (or_introl eq_refl)))).
    destruct (isolatedb A t); cbn [negb].
    + exists l. auto.
    + destruct (read_face f t Kf (Hf f (or_introl eq_refl))) as ([[i j] q] & Cy & R). exists (i :: j :: q :: l).
      rewrite R, (bind_ok _ _ _ _ _ El). split; [reflexivity|]. split; [destruct Dl as [d Hd]; exists (S d); cbn [length]; lia|]. cbn [triples]. constructor; assumption.
Qed.
Lemma indices_holes fs : (forall f, In f fs -> In f (m_faces m)) -> (forall f h, In f fs -> In h (m_hes m) -> h_face m h = Some f -> h_bd m h = true) ->
  vertex_indices fs m = Ok ([], m).
Proof.
  induction fs as [|f fs IH]; intros Hf Hb; [reflexivity|]. cbn [vertex_indices].
  destruct (circulate_face m f W (Hf f (or_introl eq_refl))) as (l & _ & Hl & _ & _ & _ & _ & _ & E & _).
  assert (X : forallb (h_bd m) l = true). { apply forallb_forall. intros h Hh. apply Hl in Hh as [Ih Fh]. exact (Hb f h (or_introl eq_refl) Ih Fh). }
  rewrite X in E. rewrite (bind_ok _ _ _ _ _ E). apply IH; [intros g Hg; apply Hf; right; exact Hg|intros g h Hg; apply Hb; right; exact Hg].
Qed.
Theorem built_indices : exists l, getVertexIndices m = Ok (map Z.of_nat l, m) /\ Nat.divide 3 (length l) /\
  Forall2 cyc_eq (filter (fun t => negb (isolatedb A t)) A) (triples l).
Proof.
  destruct (so_tris m A (bu_surf m A B)) as (holes & Ef & F2 & Hh). unfold getVertexIndices. rewrite bind_get.
  assert (E : vertex_indices holes m = Ok ([], m)).
  { apply indices_holes; [intros f Hf; rewrite Ef; apply in_or_app; right; exact Hf|]. intros f h If Ih Fh. apply (Hh f h If Ih Fh). }
  destruct (indices_tris (firstn (length A) (m_faces m)) A holes [] F2) as (l & El & Dl & Fl); [|auto|exact E|].
  { intros f Hf. rewrite Ef. apply in_or_app. left; exact Hf. }
  exists l. rewrite <- Ef, app_nil_r in El. auto.
Qed.
End Read.

(** ** Renumbering *)
Definition tmap (g : nat -> nat) (t : tri) : tri := let '(a, b, c) := t in (g a, g b, g c).
Definition emap (g : nat -> nat) (e : nat * nat) : nat * nat := (g (fst e), g (snd e)).
Lemma triples_map g l : triples (map g l) = map (tmap g) (triples l).
Proof.
  remember (length l) as n eqn:Hn. revert l Hn. induction n as [n IH] using lt_wf_ind. intros l ->.
  destruct l as [|x [|y [|z l]]]; try reflexivity. cbn [map triples tmap]. f_equal. apply (IH (length l)); [cbn [length]; lia|reflexivity].
Qed.
Lemma tedges_map g t : tedges (tmap g t) = map (emap g) (tedges t).
Proof. destruct t as [[a b] c]. reflexivity. Qed.
Lemma edges_map g T : edges (map (tmap g) T) = map (emap g) (edges T).
Proof. induction T as [|t T IH]; [reflexivity|]. unfold edges in *. cbn [map flat_map]. rewrite tedges_map, IH, map_app. reflexivity. Qed.
Lemma link_map g T a b c : link T a b c -> link (map (tmap g) T) (g a) (g b) (g c).
Proof.
  intros (t & It & H1 & H2 & H3). exists (tmap g t). split; [apply in_map; exact It|]. rewrite tedges_map.
  split; [exact (in_map (emap g) _ _ H1)|split; [exact (in_map (emap g) _ _ H2)|exact (in_map (emap g) _ _ H3)]].
Qed.
Lemma fan_map g T a : (forall b c, In (b, c) (edges T) -> g b = g a -> b = a) -> Fan T a -> Fan (map (tmap g) T) (g a).
Proof.
  intros Inj F b' c' Hb Hc. rewrite edges_map in Hb, Hc. apply in_map_iff in Hb as ([x b] & E1 & Hb). apply in_map_iff in Hc as ([y c] & E2 & Hc).
  unfold emap in E1, E2. cbn [fst snd] in E1, E2. injection E1 as E1 <-. injection E2 as E2 <-.
  rewrite (Inj x b Hb E1) in Hb. rewrite (Inj y c Hc E2) in Hc. specialize (F b c Hb Hc).
  clear - F. induction F; [apply rst_step, link_map; assumption|apply rst_refl|apply rst_sym; assumption|eapply rst_trans; eassumption].
Qed.
Lemma nodup_map_inj {X Y} (f : X -> Y) l : (forall x y, In x l -> In y l -> f x = f y -> x = y) -> NoDup l -> NoDup (map f l).
Proof.
  intros Inj Nd. induction l as [|x l IH]; [constructor|]. inversion Nd; subst. cbn [map]. constructor.
  - intros H. apply in_map_iff in H as (y & E & Hy). assert (y = x) by (apply Inj; [right; exact Hy|left; reflexivity|exact E]). subst. contradiction.
  - apply IH; [|assumption]. intros p q Hp Hq. apply Inj; right; assumption.
Qed.

Lemma edges_range T n : (forall t, In t T -> in_range n t) -> forall a b, In (a, b) (edges T) -> a < n /\ b < n.
Proof.
  intros H a b I. unfold edges in I. apply in_flat_map in I as (t & It & E). specialize (H t It). destruct t as [[x y] z]. cbn [tedges In in_range] in *.
  destruct E as [[= <- <-]|[[= <- <-]|[[= <- <-]|[]]]]; tauto.
Qed.

Context {NE : NumEq N}.

(** Welding positions that are all different only renumbers. *)
Lemma weld_rename ps ix us l : Welded ps ix us l ->
  (forall i j p q, nth_error ps i = Some p -> nth_error ps j = Some q -> veqb p q = true -> i = j) ->
  exists g, l = map g ix /\ (forall i, In i ix -> nth_error us (g i) = nth_error ps i /\ nth_error ps i <> None) /\
    (forall i j, In i ix -> In j ix -> g i = g j -> i = j) /\ (forall j, j < length us -> exists i, In i ix /\ j = g i).
Proof.
  intros Wd Inj.
  assert (Ex : forall k i j, nth_error ix k = Some i -> nth_error l k = Some j -> nth_error us j = nth_error ps i /\ nth_error ps i <> None).
  { intros k i j Hi Hj. destruct (we_same _ _ _ _ Wd k i j Hi Hj) as (p & u & Hp & Hu & V). destruct (we_first _ _ _ _ Wd j u Hu) as (k' & i' & Hi' & Hp' & Hj' & _).
    assert (i' = i) by exact (Inj i' i u p Hp' Hp V). subst i'. split; congruence. }
  assert (Fn : forall k k' i j j', nth_error ix k = Some i -> nth_error l k = Some j -> nth_error ix k' = Some i -> nth_error l k' = Some j' -> j = j').
  { intros k k' i j j' Hi Hj Hi' Hj'. destruct (we_same _ _ _ _ Wd k i j Hi Hj) as (p & u & Hp & Hu & V). destruct (we_same _ _ _ _ Wd k' i j' Hi' Hj') as (p' & u' & Hp' & Hu' & V').
    apply (we_diff _ _ _ _ Wd j j' u u' Hu Hu'). assert (p' = p) by congruence. subst p'. eapply veqb_trans; [exact V|rewrite veqb_sym; exact V']. }
  assert (In_k : forall i, In i ix -> exists k j, nth_error ix k = Some i /\ nth_error l k = Some j).
  { intros i H. apply In_nth_error in H as (k & Hk). assert (k < length l) by (rewrite (we_len _ _ _ _ Wd); apply nth_error_Some; congruence).
    destruct (nth_error l k) as [j|] eqn:E; [eauto|apply nth_error_None in E; lia]. }
  set (g := fun i => match find (fun k => match nth_error ix k with Some i' => Nat.eqb i' i | None => false end) (seq 0 (length ix)) with
                     | Some k => match nth_error l k with Some j => j | None => 0 end | None => 0 end).
  assert (G : forall k i j, nth_error ix k = Some i -> nth_error l k = Some j -> g i = j).
  { intros k i j Hi Hj. unfold g. destruct (find _ _) as [k'|] eqn:F.
    - apply find_some in F as [_ F]. destruct (nth_error ix k') as [i'|] eqn:Hi'; [|discriminate]. apply Nat.eqb_eq in F. subst i'.
      assert (k' < length l) by (rewrite (we_len _ _ _ _ Wd); apply nth_error_Some; congruence).
      destruct (nth_error l k') as [j'|] eqn:Hj'; [|apply nth_error_None in Hj'; lia]. exact (Fn k' k i j' j Hi' Hj' Hi Hj).
    - exfalso. assert (Lk : k < length ix) by (apply nth_error_Some; congruence).
      assert (X : In k (seq 0 (length ix))) by (apply in_seq; split; [lia|exact Lk]). apply (find_none _ _ F) in X. cbn beta in X. rewrite Hi, Nat.eqb_refl in X. discriminate X. }
  exists g. split; [|split; [|split]].
  - clear In_k Ex Fn. assert (L := we_len _ _ _ _ Wd). clearbody g. clear - L G. revert l L G. induction ix as [|i ix IH]; intros [|j l] L G; try discriminate; [reflexivity|].
    cbn [map]. f_equal; [symmetry; apply (G 0 i j); reflexivity|]. apply IH; [cbn [length] in L; lia|]. intros k. apply (G (S k)).
  - intros i Hi. destruct (In_k i Hi) as (k & j & H1 & H2). rewrite (G k i j H1 H2). exact (Ex k i j H1 H2).
  - intros i i' Hi Hi' E. destruct (In_k i Hi) as (k & j & H1 & H2). destruct (In_k i' Hi') as (k' & j' & H1' & H2').
    rewrite (G k i j H1 H2), (G k' i' j' H1' H2') in E. subst j'. destruct (Ex k i j H1 H2) as [X Y]. destruct (Ex k' i' j H1' H2') as [X' Y'].
    destruct (we_same _ _ _ _ Wd k i j H1 H2) as (p & u & Hp & Hu & V). apply (Inj i i' p u Hp); [congruence|]. rewrite veqb_sym. exact V.
  - intros j Lj. destruct (nth_error us j) as [u|] eqn:Hu; [|apply nth_error_None in Hu; lia]. destruct (we_first _ _ _ _ Wd j u Hu) as (k & i & Hi & _ & Hj & _).
    exists i. split; [exact (nth_error_In _ _ Hi)|]. symmetry. exact (G k i j Hi Hj).
Qed.

(** Constructing from the index array a mesh gives back, with the positions changed
    by [rnd], into an object that holds no indices. *)
Theorem rebuild_ok m A (rnd : vec N -> vec N) m0 : Built m A -> m_indices m0 = [] ->
  (forall i j p q, nth_error (map rnd (positions m)) i = Some p -> nth_error (map rnd (positions m)) j = Some q -> veqb p q = true -> i = j) ->
  (forall p, In p (map rnd (positions m)) -> veqb p p = true) -> (forall t, In t A -> ~ isolated A t) ->
  exists ix m' A', getVertexIndices m = Ok (map Z.of_nat ix, m) /\ Nat.divide 3 (length ix) /\ (forall i, In i ix -> i < length (m_verts m)) /\
    construct (map rnd (positions m)) ix m0 = Ok (tt, m') /\ Built m' A' /\
    Forall2 (fun t t' => exists t1, cyc_eq t t1 /\ corners m' t' = corners_of (map rnd (positions m)) t1) A A' /\
    Permutation (positions m') (map rnd (positions m)).
Proof.
  intros B M0 Inj PO NI. assert (W := valid_wf m (so_valid m A (bu_surf m A B))).
  destruct (built_indices m A B) as (ix & Ei & Di & Fi).
  assert (Ff : filter (fun t => negb (isolatedb A t)) A = A).
  { clear - NI. assert (H : forall t, In t A -> isolatedb A t = false). { intros t It. destruct (isolatedb A t) eqn:X; [|reflexivity]. apply isolatedb_spec in X. destruct (NI t It X). }
    clear NI. revert H. generalize (isolatedb A). intros P H. induction A as [|t l IH]; [reflexivity|]. cbn [filter]. rewrite (H t (or_introl eq_refl)). cbn [negb]. f_equal. apply IH. intros u Hu. apply H. right; exact Hu. }
  rewrite Ff in Fi. clear Ff. set (T := triples ix) in *. set (ps := map rnd (positions m)) in *.
  assert (Lp : length ps = length (m_verts m)) by (unfold ps; rewrite map_length; apply positions_length).
  (* the rotated triangles *)
  assert (PE := cyc_edges _ _ Fi).
  assert (Rg : forall t, In t T -> ~ degenerate t /\ in_range (length ps) t).
  { intros t It. destruct (forall2_nth _ _ _ Fi t It) as (t0 & It0 & Cy). destruct (bu_ok m A B t0 It0) as [D R]. rewrite Lp.
    destruct t0 as [[a b] c]. cbn [degenerate in_range] in D, R. destruct Cy as [->|[->| ->]]; cbn [degenerate in_range]; tauto. }
  assert (Ru : forall i, In i ix -> used T i) by (intros i; apply in_triples; exact Di).
  assert (Rx : forall i, In i ix -> i < length ps).
  { intros i Hi. destruct (Ru i Hi) as (b & Hb). apply (edges_range T (length ps) (fun t It => proj2 (Rg t It)) i b Hb). }
  assert (NN : NoNaN ps ix) by (intros i p _ Hp; apply PO, (nth_error_In _ _ Hp)).
  destruct (Welded_exists ps ix NN Rx) as (us & l & Wd).
  destruct (weld_rename ps ix us l Wd Inj) as (g & El & Gu & Ginj & Gon).
  (* every corner number occurs in ix *)
  assert (Ix : forall a b, In (a, b) (edges T) -> In a ix /\ In b ix).
  { intros a b H. unfold edges in H. apply in_flat_map in H as (t & It & E). split; apply (triples_in ix t); try exact It; destruct t as [[x y] z]; cbn [tedges In] in E;
      destruct E as [[= <- <-]|[[= <- <-]|[[= <- <-]|[]]]]; auto. }
  assert (Tl : triples l = map (tmap g) T) by (rewrite El; apply triples_map).
  assert (Dl : Nat.divide 3 (length l)) by (rewrite El, map_length; exact Di).
  assert (All : forall a, a < length ps -> In a ix).
  { intros a La. rewrite Lp in La. destruct (bu_used m A B a La) as (b & Hb). apply (Ix a b). exact (Permutation_in _ PE Hb). }
  assert (Tin : forall x y z, In (x, y, z) T -> In x ix /\ In y ix /\ In z ix).
  { intros x y z It. split; [|split]; apply (triples_in ix (x, y, z)); auto. }
  destruct (construct_manifold ps ix m0 us l M0 (Welded_weld _ _ _ _ Wd) Dl) as (m' & Em & B' & P').
  - rewrite Tl. intros t Ht. apply in_map_iff in Ht as ([[x y] z] & <- & It). destruct (Rg _ It) as [D _]. destruct (Tin x y z It) as (X & Y & Z).
    cbn [tmap degenerate] in *. intros [H|[H|H]]; apply D; [left|right; left|right; right]; apply Ginj; assumption.
  - rewrite Tl, edges_map. apply nodup_map_inj; [|exact (Permutation_NoDup PE (bu_nodup m A B))].
    intros [a b] [c d] H1 H2 E. unfold emap in E. cbn [fst snd] in E. injection E as E1 E2. destruct (Ix a b H1), (Ix c d H2). f_equal; apply Ginj; assumption.
  - intros j Lj. destruct (Gon j Lj) as (i & Hi & ->). apply in_triples; [exact Dl|]. rewrite El. apply in_map. exact Hi.
  - intros j Lj. destruct (Gon j Lj) as (i & Hi & ->). rewrite Tl. apply fan_map.
    + intros b c Hb E. apply Ginj; [apply (Ix b c Hb)|exact Hi|exact E].
    + apply (cyc_fan A T i Fi). apply (bu_fan m A B). rewrite <- Lp. exact (Rx i Hi).
  - exists ix, m', (triples l). split; [exact Ei|]. split; [exact Di|]. split; [rewrite <- Lp; exact Rx|]. split; [exact Em|]. split; [exact B'|split].
    + rewrite Tl. assert (Tc : forall t, In t T -> corners m' (tmap g t) = corners_of ps t).
      { intros [[x y] z] It. destruct (Tin x y z It) as (X & Y & Z). cbn [tmap corners corners_of]. rewrite P'. rewrite (proj1 (Gu x X)), (proj1 (Gu y Y)), (proj1 (Gu z Z)). reflexivity. }
      clear - Fi Tc. induction Fi as [|t t1 A T Cy F IH]; [constructor|]. cbn [map]. constructor.
      * exists t1. split; [exact Cy|]. apply Tc. left; reflexivity.
      * apply IH. intros u Hu. apply Tc. right; exact Hu.
    + rewrite P'. assert (Nu : NoDup us).
      { apply NoDup_nth_error. intros i j Li E. destruct (nth_error us i) as [u|] eqn:Hi; [|apply nth_error_None in Hi; lia].
        apply (we_diff _ _ _ _ Wd i j u u Hi (eq_sym E)). destruct (we_first _ _ _ _ Wd i u Hi) as (k & i' & Hk & Hp & _). apply (NN i' u (nth_error_In _ _ Hk) Hp). }
      assert (Np : NoDup ps).
      { apply NoDup_nth_error. intros i j Li E. destruct (nth_error ps i) as [u|] eqn:Hi; [|apply nth_error_None in Hi; lia].
        apply (Inj i j u u Hi (eq_sym E)). apply (NN i u (All i Li) Hi). }
      apply NoDup_Permutation; [exact Nu|exact Np|]. intros p. split; intros H; apply In_nth_error in H as (i & Hi).
      * destruct (we_first _ _ _ _ Wd i p Hi) as (k & i' & _ & Hp & _). exact (nth_error_In _ _ Hp).
      * assert (Li : i < length ps) by (apply nth_error_Some; congruence). destruct (Gu i (All i Li)) as [X _]. rewrite Hi in X. exact (nth_error_In _ _ X).
Qed.

Theorem clone_ok m A : Built m A ->
  (forall i j p q, nth_error (positions m) i = Some p -> nth_error (positions m) j = Some q -> veqb p q = true -> i = j) ->
  PosOk m -> (forall t, In t A -> ~ isolated A t) ->
  exists m' A', clone m = Ok m' /\ Built m' A' /\
    Forall2 (fun t t' => exists t1, cyc_eq t t1 /\ corners m' t' = corners m t1) A A' /\
    Permutation (positions m') (positions m).
Proof.
  intros B Inj PO NI. assert (W := valid_wf m (so_valid m A (bu_surf m A B))).
  assert (X := rebuild_ok m A (fun p => p) empty_mesh B eq_refl). rewrite map_id in X.
  destruct (X Inj) as (ix & m' & A' & Ei & _ & _ & Ec & B' & F & P); [|exact NI|].
  { intros p Hp. unfold positions in Hp. apply in_map_iff in Hp as (v & <- & Iv). exact (PO v Iv). }
  exists m', A'. split; [|auto]. unfold clone. rewrite (getVertices_ok m W), Ei. rewrite map_map. rewrite (map_ext _ (fun x => x) Nat2Z.id), map_id. unfold mesh_of. rewrite Ec. reflexivity.
Qed.

End Clone.
