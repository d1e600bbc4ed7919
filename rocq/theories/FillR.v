(** Meshes after fillHoles: faces, flags, duplicate edges. *)
From Coq Require Import List ZArith Floats Arith Lia Bool Permutation.
From Verif Require Import Num Vec Heap Mesh Construct Spec BuildSpec BuildTri BuildProps Built EditSpec EditRun Orbit Rings Exec Diamond Split Fill FillT FillD FillO FillQ FillW FillSpec FillP FillE Witness.
Import ListNotations.
Local Open Scope mesh_scope.

Section R.
Context {N : Num}.
Implicit Types m : mesh N.

Lemma tri_piter m f a b c h : Tri m f a b c -> In h (m_hes m) -> h_face m h = Some f -> piter (h_next m) 3 h = Some h.
Proof. intros (x & y & z & FX & N1 & N2 & N3 & _) I E. destruct (proj1 (FX h) (conj I E)) as [-> | [-> | ->]]; cbn [piter]; rewrite ?N1, ?N2, ?N3, ?N1, ?N2, ?N3; reflexivity. Qed.
(** A face with a triangle's half-edge is a triangle. *)
Lemma face_tri m h0 h : WF m -> In h0 (m_hes m) -> In h (m_hes m) -> h_face m h = h_face m h0 -> piter (h_next m) 3 h0 = Some h0 -> piter (h_next m) 3 h = Some h.
Proof.
  intros W I0 I E T. destruct (wf_face_orbit m W h0 h I0 I (eq_sym E)) as [k K]. revert h0 I0 E T K. induction k as [|k IH]; intros h0 I0 E T K; cbn [piter] in K; [injection K as <-; exact T|].
  destruct (h_next m h0) as [n|] eqn:En; [|discriminate]. apply (IH n (next_in m W h0 n I0 En)); [rewrite (wf_face_next m W h0 n I0 En); exact E| |exact K].
  cbn [piter] in T |- *. rewrite En in T. destruct (h_next m n) as [p|]; [|discriminate]. destruct (h_next m p) as [q|]; [|discriminate]. injection T as ->. rewrite En. reflexivity.
Qed.

Section One.
Variables (m m' : mesh N) (hs : list nat) (gs : list (list nat)).
Hypothesis V : Valid m.
Hypothesis HS : forall f, In f hs <-> Hole m f.
Hypothesis FW : FilledWith m hs gs m'.
Let W := valid_wf m V.

Lemma new_tri h : In h (m_hes m') -> (exists f, In h (m_hes m) /\ h_face m h = Some f /\ ~ In f hs /\ SameHE m m' h) \/ (exists g f0 fs, h_face m' h = Some g /\ In g fs /\ In f0 hs /\ Patch m m' f0 fs).
Proof.
  intros I. destruct (wf_face m' (fw_wf _ _ _ _ FW) h I) as (g & Eg & Ig). apply (fw_faces _ _ _ _ FW) in Ig as [[Ig NI] | Ig].
  - left. assert (Ir := Ig). apply In_nth_error in Ir as (i & X). destruct (fw_kept _ _ _ _ FW i g X NI) as [_ FH]. destruct (wf_fhe m W g Ig) as (h0 & E0 & I0 & F0).
    assert (S0 := fw_same _ _ _ _ FW h0 g I0 F0 NI). assert (I0' := proj1 (fw_hes _ _ _ _ FW h0 I0)).
    assert (E : h_face m' h0 = h_face m' h) by (destruct S0 as (_ & _ & _ & Q & _); congruence).
    destruct (wf_face_orbit m' (fw_wf _ _ _ _ FW) h0 h I0' I E) as [k K]. clear E E0 X FH S0 I0'.
    revert h0 I0 F0 K. induction k as [|k IH]; intros h0 I0 F0 K; cbn [piter] in K.
    + injection K as <-. exists g. split; [exact I0|]. split; [exact F0|]. split; [exact NI|]. exact (fw_same _ _ _ _ FW h0 g I0 F0 NI).
    + destruct (wf_next m W h0 I0) as (n & En & In_). destruct (fw_same _ _ _ _ FW h0 g I0 F0 NI) as (_ & Q & _). rewrite Q, En in K. apply (IH n In_); [rewrite (wf_face_next m W h0 n I0 En); exact F0|exact K].
  - right. apply in_concat in Ig as (fs & Ifs & Ig). destruct (forall2_in_r _ _ _ _ (fw_patch _ _ _ _ FW) Ifs) as (f0 & If0 & P). exists g, f0, fs. auto.
Qed.
Lemma fill_tris h : In h (m_hes m') -> piter (h_next m') 3 h = Some h.
Proof.
  intros I. destruct (new_tri h I) as [(f & I0 & F0 & NI & S) | (g & f0 & fs & Eg & Ig & _ & P)].
  - (* some half-edge of the face is not flagged *)
    assert (If : In f (m_faces m)) by (destruct (wf_face m W h I0) as (f' & A & B); congruence).
    assert (X : existsb (fun k => ptr_eqb (h_face m k) (Some f) && negb (h_bd m k)) (m_hes m) = true).
    { destruct (existsb _ (m_hes m)) eqn:X; [reflexivity|]. exfalso. apply NI, HS. split; [exact If|]. intros k Ik Ek. destruct (h_bd m k) eqn:B; [reflexivity|]. exfalso. rewrite <- not_true_iff_false in X. apply X, existsb_exists. exists k. split; [exact Ik|]. rewrite Ek, B. cbn. rewrite Nat.eqb_refl. reflexivity. }
    apply existsb_exists in X as (k & Ik & X). apply andb_true_iff in X as [X1 X2]. apply ptr_eqb_eq in X1. apply negb_true_iff in X2.
    assert (T := valid_tri m V k Ik X2). assert (Th := face_tri m k h W Ik I0 (eq_trans F0 (eq_sym X1)) T).
    assert (K : forall j y, In y (m_hes m) -> h_face m y = Some f -> piter (h_next m') j y = piter (h_next m) j y).
    { induction j as [|j IH]; intros y Iy Fy; [reflexivity|]. cbn [piter]. destruct (fw_same _ _ _ _ FW y f Iy Fy NI) as (_ & Q & _). rewrite Q. destruct (wf_next m W y Iy) as (n & En & In_). rewrite En. apply IH; [exact In_|]. rewrite (wf_face_next m W y n Iy En). exact Fy. }
    rewrite (K 3 h I0 F0). exact Th.
  - destruct P as (ring & bs & _ & _ & _ & T & _). destruct (T g Ig) as (_ & (i & j & k & a & b & c & _ & _ & _ & _ & _ & TR) & _). exact (tri_piter m' g a b c h TR I Eg).
Qed.
(** The flags that remain. *)
Lemma fill_flags h : In h (m_hes m') -> h_bd m' h = true <-> In h (m_hes m) /\ h_bd m h = true /\ forall f, h_face m h = Some f -> ~ Hole m f.
Proof.
  intros I. destruct (new_tri h I) as [(f & I0 & F0 & NI & S) | (g & f0 & fs & Eg & Ig & If0 & P)].
  - destruct S as (_ & _ & _ & _ & Q). rewrite Q. split; [|tauto]. intros B. split; [exact I0|]. split; [exact B|]. intros f' E'. assert (f' = f) by congruence. subst f'. rewrite <- HS. exact NI.
  - assert (P' := P). destruct P' as (ring & bs & C & _ & _ & T & _ & OT). destruct (T g Ig) as (_ & _ & B). rewrite (B h I Eg). split; [discriminate|]. intros (I0 & _ & NH). exfalso.
    destruct (OT h g I Eg Ig) as [O | [O _]]; [|contradiction]. apply C in O as [_ O]. apply (NH f0 O), HS, If0.
Qed.
Lemma fill_noloops : (forall f ring bs, Hole m f -> Corners m f ring bs -> NoDup bs) -> NoLoops m'.
Proof.
  intros D h I. assert (W' := fw_wf _ _ _ _ FW). destruct (new_tri h I) as [(f & I0 & F0 & NI & S) | (g & f0 & fs & Eg & Ig & If0 & P)].
  - destruct (fw_hes _ _ _ _ FW h I0) as (_ & Q1 & Q2). rewrite Q1. unfold dst_of. rewrite Q2. destruct (wf_rev m W h I0) as (r & Er & Ir). rewrite Er. destruct (fw_hes _ _ _ _ FW r Ir) as (_ & Q3 & _). rewrite Q3.
    assert (NL := valid_noloops m V h I0). unfold dst_of in NL. rewrite Er in NL. exact NL.
  - destruct P as (ring & bs & C & _ & _ & T & _). assert (ND := D f0 ring bs (proj1 (HS f0) If0) C). destruct (T g Ig) as (_ & (i & j & k & a & b & c & L1 & L2 & Ea & Eb & Ec & TR) & _).
    destruct TR as (x & y & z & FX & N1 & N2 & N3 & S1 & S2 & S3). rewrite NoDup_nth_error in ND.
    assert (K : forall p q u, p < q -> nth_error bs p = Some u -> nth_error bs q = Some u -> False) by (clear - ND; intros p q u L Ep Eq; assert (p = q) by (apply ND; [apply nth_error_Some; congruence|congruence]); lia).
    destruct (proj1 (FX h) (conj I Eg)) as [-> | [-> | ->]].
    + rewrite (dst_next m' x y W' I N1), S1, S2. intros Q. injection Q as ->. exact (K i j a L1 Ea Eb).
    + rewrite (dst_next m' y z W' I N2), S2, S3. intros Q. injection Q as ->. exact (K j k b L2 Eb Ec).
    + rewrite (dst_next m' z x W' I N3), S3, S1. intros Q. injection Q as ->. exact (K i k c ltac:(lia) Ea Ec).
Qed.
(** A hole with more than three corners gets a new half-edge. *)
Lemma fill_new f ring bs : Hole m f -> AtLeast3 m -> Corners m f ring bs -> 4 <= length ring -> exists h, In h (m_hes m') /\ ~ In h (m_hes m).
Proof.
  intros H A3 C L. assert (CNT : length hs < length (concat gs)).
  { assert (G : forall hs gs, Forall2 (Patch m m') hs gs -> length hs <= length (concat gs) /\ (In f hs -> length hs < length (concat gs))).
    { clear - A3 C L. intros hs gs Q. induction Q as [|x l hs gs P Q [IH1 IH2]]; [split; [cbn; lia|intros []]|]. destruct P as (r & b & Cx & _ & Lx & _). assert (L3 := ring_ge3 m x r A3 (proj1 (proj1 (corners_ring m x r b) Cx))).
      cbn [concat length]. rewrite app_length. split; [lia|]. intros [-> | I]; [|specialize (IH2 I); lia].
      assert (length r = length ring); [|lia]. apply Permutation_length, NoDup_Permutation; [apply Cx|apply C|]. intros y. destruct Cx as (_ & _ & Q1 & _), C as (_ & _ & Q2 & _). rewrite Q1, Q2. tauto. }
    apply (G hs gs (fw_patch _ _ _ _ FW)), HS, H. }
  assert (K := fw_count_h _ _ _ _ FW). destruct (existsb (fun h => if in_dec Nat.eq_dec h (m_hes m) then false else true) (m_hes m')) eqn:X.
  - apply existsb_exists in X as (h & I & X). exists h. split; [exact I|]. destruct (in_dec Nat.eq_dec h (m_hes m)); [discriminate|assumption].
  - exfalso. assert (IN : incl (m_hes m') (m_hes m)). { intros h I. destruct (in_dec Nat.eq_dec h (m_hes m)) as [J | J]; [exact J|]. exfalso. rewrite <- not_true_iff_false in X. apply X, existsb_exists. exists h. split; [exact I|]. destruct (in_dec Nat.eq_dec h (m_hes m)); [contradiction|reflexivity]. }
    assert (Z := NoDup_incl_length (wf_h_nodup m' (fw_wf _ _ _ _ FW)) IN). lia.
Qed.
(** If all vertices were neighbours, a new half-edge is a duplicate. *)
Lemma fill_parallel h : NoLoops m' -> In h (m_hes m') -> ~ In h (m_hes m) -> (forall a b, In a (m_verts m) -> In b (m_verts m) -> a <> b -> adj m a b) -> ~ NoParallel m'.
Proof.
  intros NL I NI AD NP. assert (W' := fw_wf _ _ _ _ FW). destruct (wf_src m' W' h I) as (a & Sa & Ia). destruct (wf_rev m' W' h I) as (r & Er & Ir). destruct (wf_src m' W' r Ir) as (b & Sb & Ib).
  assert (Db : dst_of m' h = Some b) by (unfold dst_of; rewrite Er; exact Sb). assert (D : a <> b) by (intros ->; apply (NL h I); congruence). destruct (fw_verts _ _ _ _ FW) as (EV & _). rewrite EV in Ia, Ib.
  destruct (AD a b Ia Ib D) as (h' & I' & S' & D'). destruct (fw_hes _ _ _ _ FW h' I') as (J & Q1 & Q2). assert (h = h'); [|subst; contradiction]. apply NP; [exact I|exact J|congruence|].
  unfold dst_of in D' |- *. rewrite Er, Q2. destruct (h_rev m h') as [r'|] eqn:Er'; [|discriminate]. destruct (fw_hes _ _ _ _ FW r' (rev_in m W h' r' I' Er')) as (_ & Q3 & _). congruence.
Qed.
(** Old half-edges are not duplicates of each other. *)
Lemma fill_old h h' : In h (m_hes m) -> In h' (m_hes m) -> h_src m' h = h_src m' h' -> dst_of m' h = dst_of m' h' -> h = h'.
Proof.
  intros I I'. assert (K : forall x, In x (m_hes m) -> h_src m' x = h_src m x /\ dst_of m' x = dst_of m x).
  { intros x Ix. destruct (fw_hes _ _ _ _ FW x Ix) as (_ & Q1 & Q2). split; [exact Q1|]. unfold dst_of. rewrite Q2. destruct (h_rev m x) as [r|] eqn:Er; [|reflexivity]. apply (fw_hes _ _ _ _ FW r (rev_in m W x r Ix Er)). }
  destruct (K h I) as [A1 A2], (K h' I') as [B1 B2]. rewrite A1, A2, B1, B2. apply (valid_noparallel m V); assumption.
Qed.
Lemma fill_small : (forall f ring bs, Hole m f -> Corners m f ring bs -> length ring = 3) -> NoParallel m'.
Proof.
  intros L3. assert (CNT : length hs = length (concat gs)).
  { assert (G : forall hs1 gs1, Forall2 (Patch m m') hs1 gs1 -> (forall f, In f hs1 -> Hole m f) -> length hs1 = length (concat gs1)).
    { clear - L3. intros hs1 gs1 Q. induction Q as [|x l hs1 gs1 P Q IH]; intros K; [reflexivity|]. destruct P as (r & b & Cx & _ & Lx & _). assert (Z := L3 x r b (K x (or_introl eq_refl)) Cx). cbn [concat length]. rewrite app_length, IH by (intros f I; apply K; right; exact I). lia. }
    apply G; [exact (fw_patch _ _ _ _ FW)|]. intros f. apply HS. }
  assert (K := fw_count_h _ _ _ _ FW). assert (IN : incl (m_hes m') (m_hes m)).
  { apply NoDup_length_incl; [exact (wf_h_nodup m W)|lia|]. intros h I. apply (fw_hes _ _ _ _ FW h I). }
  intros h h' I I'. apply fill_old; apply IN; assumption.
Qed.
End One.

Context {NA : NumAngle N}.
Variable cabs : num -> num.

(** ** C25 and C26 *)
Theorem fill_top m : Valid m -> AtLeast3 m -> exists m' hs gs, fillHoles cabs m = Ok (tt, m') /\
  NoDup hs /\ (forall f, In f hs <-> Hole m f) /\ FilledWith m hs gs m' /\
  (forall h, In h (m_hes m') -> piter (h_next m') 3 h = Some h) /\
  ((forall f ring bs, Hole m f -> Corners m f ring bs -> NoDup bs) -> NoLoops m').
Proof.
  intros V A. destruct (fill_holes cabs m (valid_wf m V) A) as (m' & hs & gs & RUN & ND & HS & FW & _ & _). exists m', hs, gs. split; [exact RUN|]. split; [exact ND|]. split; [exact HS|]. split; [exact FW|].
  split; [exact (fill_tris m m' hs gs V HS FW)|exact (fill_noloops m m' hs gs V HS FW)].
Qed.
Theorem fill_constructed ps ix m : mesh_of ps ix = Ok m -> exists m' hs gs, fillHoles cabs m = Ok (tt, m') /\
  NoDup hs /\ (forall f, In f hs <-> Hole m f) /\ FilledWith m hs gs m' /\
  (forall h, In h (m_hes m') -> piter (h_next m') 3 h = Some h) /\ NoLoops m'.
Proof.
  intros E. apply mesh_of_ok in E. destruct (construct_valid ps ix _ m E) as [V _]. destruct (construct_faces ps ix _ m E) as [A D].
  destruct (fill_top m V A) as (m' & hs & gs & RUN & ND & HS & FW & T & NL). exists m', hs, gs. split; [exact RUN|]. split; [exact ND|]. split; [exact HS|]. split; [exact FW|]. split; [exact T|]. apply NL. intros f ring bs H C. exact (D f ring bs (proj1 H) C).
Qed.
Theorem fill_edited ps ix m0 es m : mesh_of ps ix = Ok m0 -> edit_args m0 es -> run_edits es m0 = Ok (tt, m) -> Valid m /\ AtLeast3 m.
Proof.
  intros E EA R. apply mesh_of_ok in E. destruct (construct_valid ps ix _ m0 E) as [V _]. destruct (construct_faces ps ix _ m0 E) as [A _]. exact (edits_at3 es m0 m V A EA R).
Qed.
Theorem fill_bd m m' : Valid m -> AtLeast3 m -> fillHoles cabs m = Ok (tt, m') ->
  (forall f, In f (m_faces m') -> f_isHole (Some f) m' = Ok (false, m')) /\
  (forall h, In h (m_hes m') -> h_bd m' h = true <-> In h (m_hes m) /\ h_bd m h = true /\ forall f, h_face m h = Some f -> ~ Hole m f).
Proof.
  intros V A E. destruct (fill_holes cabs m (valid_wf m V) A) as (m1 & hs & gs & RUN & ND & HS & FW & _ & NH). assert (m1 = m') by congruence. subst m1. split; [exact NH|exact (fill_flags m m' hs gs V HS FW)].
Qed.
Theorem fill_euler m m' : Valid m -> AtLeast3 m -> fillHoles cabs m = Ok (tt, m') -> euler m' = euler m.
Proof.
  intros V A E. destruct (fill_holes cabs m (valid_wf m V) A) as (m1 & hs & gs & RUN & ND & HS & FW & _ & NH). assert (m1 = m') by congruence. subst m1. exact (filled_euler m hs gs m' FW).
Qed.
Theorem fill_dup m m' : Valid m -> AtLeast3 m -> fillHoles cabs m = Ok (tt, m') ->
  (forall h h', In h (m_hes m') -> In h' (m_hes m') -> h_src m' h = h_src m' h' -> dst_of m' h = dst_of m' h' -> h = h' \/ ~ In h (m_hes m) \/ ~ In h' (m_hes m)) /\
  ((forall f ring bs, Hole m f -> Corners m f ring bs -> length ring = 3) -> Valid m').
Proof.
  intros V A E. destruct (fill_holes cabs m (valid_wf m V) A) as (m1 & hs & gs & RUN & ND & HS & FW & _ & _). assert (m1 = m') by congruence. subst m1. split.
  - intros h h' _ _ Q1 Q2. destruct (in_dec Nat.eq_dec h (m_hes m)) as [I | I]; [|auto]. destruct (in_dec Nat.eq_dec h' (m_hes m)) as [I' | I']; [|auto]. left. exact (fill_old m m' hs gs V FW h h' I I' Q1 Q2).
  - intros L3. assert (NP := fill_small m m' hs gs V HS FW L3). assert (W := valid_wf m V). constructor; [apply FW| |exact NP|intros h I _; exact (fill_tris m m' hs gs V HS FW h I)].
    apply (fill_noloops m m' hs gs V HS FW). intros f ring bs H C. assert (L := L3 f ring bs H C). destruct C as (_ & CY & C & SR). destruct ring as [|x [|y [|z [|]]]]; try discriminate L. destruct bs as [|a [|b [|c [|]]]]; try discriminate SR. injection SR as Sa Sb Sc.
    destruct CY as (N1 & N2 & N3). assert (Ix : In x (m_hes m)) by (apply C; cbn; auto). assert (Iy : In y (m_hes m)) by (apply C; cbn; auto). assert (Iz : In z (m_hes m)) by (apply C; cbn; auto).
    assert (L1 := valid_noloops m V x Ix). assert (L2 := valid_noloops m V y Iy). assert (L4 := valid_noloops m V z Iz). rewrite (dst_next m x y W Ix N1) in L1. rewrite (dst_next m y z W Iy N2) in L2. rewrite (dst_next m z x W Iz N3) in L4.
    constructor; [intros [K | [K | []]]; congruence|]. constructor; [intros [K | []]; congruence|]. constructor; [intros []|constructor].
Qed.
(** Nothing is left to fill. *)
Theorem fill_again m m' : Valid m -> AtLeast3 m -> fillHoles cabs m = Ok (tt, m') -> fillHoles cabs m' = Ok (tt, m').
Proof.
  intros V A E. destruct (fill_holes cabs m (valid_wf m V) A) as (m1 & hs & gs & RUN & ND & HS & FW & NH & _). assert (m1 = m') by congruence. subst m1. assert (W' := fw_wf _ _ _ _ FW).
  destruct (hole_indices_ok m' W' (m_faces m') [] eq_refl) as (is & R1 & R2). assert (EF : filter (holeb m') (m_faces m') = []).
  { destruct (filter (holeb m') (m_faces m')) as [|f l] eqn:X; [reflexivity|]. exfalso. assert (I : In f (filter (holeb m') (m_faces m'))) by (rewrite X; left; reflexivity). apply filter_In in I as [I H]. apply (NH f), holeb_iff; assumption. }
  rewrite EF in R2. inversion R2; subst. unfold fillHoles. rewrite (bind_ok _ _ m' (length (m_faces m')) m' eq_refl), (bind_ok _ _ m' [] m' R1). reflexivity.
Qed.
End R.

(** ** Witness: the torus with seven vertices, all of them neighbours, without the
    six triangles at one of them. *)
Section X.
Variables (acosF expF : float -> float) (atan2F : float -> float -> float).
Notation NF := (Witness.NF acosF expF atan2F).
Notation pt := (Witness.pt acosF expF atan2F).
Definition ps_torus : list (vec NF) := [pt 0 0 0; pt 1 0 0; pt 2 0 1; pt 0 1 2; pt 1 2 0; pt 3 1 1]%float.
Definition ix_torus : list nat := [0;1;3; 1;2;4; 2;3;5; 0;3;2; 1;4;3; 2;5;4; 4;5;0; 5;1;0].
Definition all_adj (m : mesh NF) : bool := forallb (fun a => forallb (fun b => Nat.eqb a b || existsb (fun h => ptr_eqb (h_src m h) (Some a) && ptr_eqb (dst_of m h) (Some b)) (m_hes m)) (m_verts m)) (m_verts m).
Definition chk_torus (m : mesh NF) : bool :=
  Nat.eqb (length (m_hes m)) 30 && Nat.eqb (length (m_faces m)) 9 && all_adj m &&
  existsb (fun f => holeb m f && Nat.eqb (length (filter (fun h => ptr_eqb (h_face m h) (Some f)) (m_hes m))) 6) (m_faces m) &&
  existsb (fun h => h_bd m h && negb (on_hole m h)) (m_hes m).
Lemma torus_check : with_mesh acosF expF atan2F (mesh_of ps_torus ix_torus) chk_torus = true.
Proof. vm_cast_no_check (eq_refl true). Qed.
Lemma torus_facts : exists m : mesh NF, mesh_of ps_torus ix_torus = Ok m /\ Valid m /\ AtLeast3 m /\ Distinct m /\ length (m_hes m) = 30 /\
  (forall a b, In a (m_verts m) -> In b (m_verts m) -> a <> b -> adj m a b) /\
  (exists f ring bs, Hole m f /\ Corners m f ring bs /\ length ring = 6) /\
  (exists h f, In h (m_hes m) /\ h_bd m h = true /\ h_face m h = Some f /\ ~ Hole m f).
Proof.
  destruct (with_ok _ _ _ _ _ torus_check) as (m & E & C). exists m. split; [exact E|]. apply mesh_of_ok in E. destruct (construct_valid _ _ _ m E) as [V _]. destruct (construct_faces _ _ _ m E) as [A D].
  assert (W := valid_wf m V). split; [exact V|]. split; [exact A|]. split; [exact D|]. unfold chk_torus in C. apply andb_true_iff in C as [C C5]. apply andb_true_iff in C as [C C4]. apply andb_true_iff in C as [C C3]. apply andb_true_iff in C as [C1 _].
  split; [apply Nat.eqb_eq, C1|]. split; [|split].
  - intros a b Ia Ib Dab. unfold all_adj in C3. rewrite forallb_forall in C3. assert (Q := C3 a Ia). rewrite forallb_forall in Q. assert (Q' := Q b Ib). apply orb_true_iff in Q' as [Q' | Q']; [apply Nat.eqb_eq in Q'; contradiction|].
    apply existsb_exists in Q' as (h & Ih & Q'). apply andb_true_iff in Q' as [Q1 Q2]. apply ptr_eqb_eq in Q1. apply ptr_eqb_eq in Q2. exists h. auto.
  - apply existsb_exists in C4 as (f & If & C4). apply andb_true_iff in C4 as [C4 C6]. apply Nat.eqb_eq in C6. destruct (fring m W f If) as (h & l & _ & R).
    assert (SB : exists bs, map (h_src m) (h :: l) = map Some bs).
    { assert (K : forall y, In y (h :: l) -> exists v, h_src m y = Some v) by (intros y Iy; apply R in Iy as [Iy _]; destruct (wf_src m W y Iy) as (v & Ev & _); eauto). clear - K. induction (h :: l) as [|x k IH]; [exists []; reflexivity|].
      destruct (K x (or_introl eq_refl)) as (v & Ev). destruct IH as (bs & Eb); [intros y Iy; apply K; right; exact Iy|]. exists (v :: bs). cbn [map]. rewrite Ev, Eb. reflexivity. }
    destruct SB as (bs & SB). exists f, (h :: l), bs. split; [apply holeb_iff; assumption|]. split; [apply corners_ring; auto|]. rewrite <- C6. apply Permutation_length, NoDup_Permutation; [apply R|apply NoDup_filter, W|].
    intros y. rewrite filter_In, ptr_eqb_eq. apply R.
  - apply existsb_exists in C5 as (h & Ih & C5). apply andb_true_iff in C5 as [B O]. apply negb_true_iff in O. destruct (wf_face m W h Ih) as (f & Ef & If). exists h, f. split; [exact Ih|]. split; [exact B|]. split; [exact Ef|]. intros H.
    rewrite <- not_true_iff_false in O. apply O. unfold on_hole. apply forallb_forall. intros k Ik. rewrite Ef. destruct (ptr_eqb (h_face m k) (Some f)) eqn:Q; [|reflexivity]. apply ptr_eqb_eq in Q. cbn [negb orb]. exact (proj2 H k Ik Q).
Qed.

Context {NA : NumAngle NF}.
Variable cabs : float -> float.
Lemma fill_flags_refuted : exists ps ix (m m' : mesh NF), mesh_of ps ix = Ok m /\ fillHoles (N := NF) cabs m = Ok (tt, m') /\
  (exists h, In h (m_hes m') /\ h_bd m' h = true) /\ (exists v, In v (m_verts m') /\ v_isBoundary (Some v) m' = Ok (true, m')) /\
  (exists f, In f (m_faces m') /\ f_isBoundary (Some f) m' = Ok (true, m')).
Proof.
  destruct torus_facts as (m & E & V & A & D & _ & _ & _ & (h & f & Ih & B & Ef & NH)). destruct (fill_top (N := NF) cabs m V A) as (m' & hs & gs & RUN & _ & HS & FW & _). assert (W' := fw_wf _ _ _ _ FW).
  assert (Ih' := proj1 (fw_hes _ _ _ _ FW h Ih)). assert (B' : h_bd m' h = true) by (apply (proj2 (fill_bd (N := NF) cabs m m' V A RUN) h Ih'); split; [exact Ih|]; split; [exact B|]; intros f' E'; assert (f' = f) by congruence; subst f'; exact NH).
  exists ps_torus, ix_torus, m, m'. split; [exact E|]. split; [exact RUN|]. split; [exists h; auto|]. split.
  - destruct (wf_src m' W' h Ih') as (v & Sv & Iv). exists v. split; [exact Iv|]. destruct (vring m' W' v Iv) as (h0 & l & Eh & R). rewrite (v_isBoundary_ok m' W' v h0 l Iv Eh R). do 2 f_equal. apply existsb_exists. exists h. split; [apply R; auto|exact B'].
  - destruct (wf_face m' W' h Ih') as (g & Sg & Ig). exists g. split; [exact Ig|]. destruct (fring m' W' g Ig) as (h0 & l & Eh & R). rewrite (f_isBoundary_ok m' W' g h0 l Ig Eh R). do 2 f_equal. apply existsb_exists. exists h. split; [apply R; auto|exact B'].
Qed.
Lemma fill_parallel_refuted : exists ps ix (m m' : mesh NF), mesh_of ps ix = Ok m /\ Valid m /\ fillHoles (N := NF) cabs m = Ok (tt, m') /\ ~ NoParallel m'.
Proof.
  destruct torus_facts as (m & E & V & A & D & _ & AD & (f & ring & bs & H & C & L) & _). destruct (fill_top (N := NF) cabs m V A) as (m' & hs & gs & RUN & _ & HS & FW & _ & NL).
  assert (NL' : NoLoops m') by (apply NL; intros f' r b H' C'; exact (D f' r b (proj1 H') C')).
  destruct (fill_new m m' hs gs HS FW f ring bs H A C ltac:(lia)) as (h & Ih & NI). exists ps_torus, ix_torus, m, m'. split; [exact E|]. split; [exact V|]. split; [exact RUN|]. exact (fill_parallel m m' hs gs V FW h NL' Ih NI AD).
Qed.
End X.

(** The assumption about acos holds, for instance, of a constant function. *)
Lemma angle_float (e : float -> float) (t : float -> float -> float) : NumAngle (NumF (fun _ => 1.5)%float e t).
Proof. constructor; [vm_cast_no_check (eq_refl true)|vm_cast_no_check (eq_refl true)|]. intros c. exact (@eq_refl bool true). Qed.
