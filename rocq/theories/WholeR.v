(** Hole filling with an advancing front over the reals, and examples. *)
From Coq Require Import List ZArith Floats Arith Bool Lia Permutation Reals Lra.
From Verif Require Import Num NumInst Vec Heap Mesh Construct Spec Built BuildSpec BuildProps Orbit Rings Diamond Exec Queries Fill FillO FillSpec FillP FillE Witness GeomSpec VecR Measure MeasureR MeasureM Curv CurvW RegTet Examples LaplSpec LaplP TensorSpec FeatSpec FeatW Front FrontA FrontS FrontSpec FrontE FrontW Relax RelaxSpec RelaxP RelaxR RelaxB Whole WholeSpec WholeP.
Import ListNotations.
Local Open Scope mesh_scope.

Theorem whole_real ncos nsin sparse fuel (m : mesh NumR) f ring bs : WF m -> NoLoops m -> In f (m_faces m) -> Corners m f ring bs -> NoDup bs -> 3 <= length bs ->
  match fillAdvancingFront ncos nsin sparse fuel (Some f) m with Ok (_, m') => FrontFilled m f bs m' | UB _ => False | Abort _ | NoFuel => True end.
Proof.
  intros W NL I C ND L. assert (K := whole_front ncos nsin sparse fuel m f ring bs W NL I C ND L). destruct (fillAdvancingFront ncos nsin sparse fuel (Some f) m) as [[]| | |]; auto. apply K, angles_real.
Qed.
Theorem whole_constructed (N : Num) ncos nsin sparse fuel (ps : list (vec N)) ix m f : mesh_of ps ix = Ok m -> In f (m_faces m) -> exists ring bs, Corners m f ring bs /\
  match fillAdvancingFront ncos nsin sparse fuel (Some f) m with Ok (_, m') => FrontFilled m f bs m' | UB k => k = OutOfBounds /\ ~ AnglesBelow N | Abort _ | NoFuel => True end.
Proof.
  intros E If. apply mesh_of_ok in E. destruct (construct_valid _ _ _ m E) as [V _]. destruct (construct_faces _ _ _ m E) as [A D]. assert (W := valid_wf m V). destruct (corners_of m f W If) as (ring & bs & CO).
  exists ring, bs. split; [exact CO|]. apply (whole_front _ _ _ _ _ _ ring bs W (valid_noloops m V) If CO (D f ring bs If CO)). rewrite <- (corners_len m f ring bs CO). exact (ring_ge3 m f ring A (proj1 (proj1 (corners_ring m f ring bs) CO))).
Qed.

(** ** The new positions *)
Lemma poisson_ext (m : mesh NumR) l b x y : (forall v, x v = y v) -> Poisson m l b x -> Poisson m l b y.
Proof.
  intros H (ts & E & A & B). exists ts. split; [exact E|]. split; [intros v Iv Nv; rewrite <- H; exact (A v Iv Nv)|]. intros i v Ei Iv. destruct (B i v Ei Iv) as (B1 & B2 & B3).
  split; [rewrite <- B1|split; [rewrite <- B2|rewrite <- B3]]; apply sum_to_ext; intros j _; rewrite H; reflexivity.
Qed.
Lemma relaxed_ext (m : mesh NumR) l x y : (forall v, In v l -> x v = y v) -> Relaxed m l x -> Relaxed m l y.
Proof.
  intros H (T & b & A & B & C & D). exists T, b. split; [exact A|]. split; [exact B|]. split; [exact C|]. eapply poisson_ext; [|exact D]. intros v. cbv beta. destruct (in_dec Nat.eq_dec v l) as [Iv|_]; [exact (H v Iv)|reflexivity].
Qed.
Lemma reach_same (m : mesh NumR) p v w : reach m v w -> reach (at_positions m p) v w.
Proof. induction 1 as [|w w' _ IH A]; [constructor|]. econstructor; [exact IH|exact A]. Qed.
Theorem whole_relaxed sparse fuel (m m' : mesh NumR) f ring bs : WF m -> NoLoops m -> In f (m_faces m) -> Corners m f ring bs -> NoDup bs -> 3 <= length bs ->
  fillAdvancingFront (N := NumR) cos sin sparse fuel (Some f) m = Ok (tt, m') -> ExactSolver sparse -> Triangulated m' -> Connected m' ->
  exists l p, NoDup l /\ (forall v, In v l <-> FreeFrom m' f v) /\ (forall v, ~ In v l -> p v = v_pos m' v) /\
    (NonDegenerate (at_positions m' p) -> Relaxed (at_positions m' p) l (v_pos m')).
Proof.
  intros W NL If CO ND L E Ex Tg Cn. assert (FF := whole_front (N := NumR) cos sin sparse fuel m f ring bs W NL If CO ND L). rewrite E in FF.
  destruct (whole_moved (N := NumR) cos sin sparse fuel m m' f ring bs W NL If CO ND L E) as (l & p & x & NDl & HF & HV & Er & HP). exists l, p. split; [exact NDl|]. split; [exact HF|].
  split; [intros v Nv; rewrite HP; destruct (in_dec Nat.eq_dec v l); [contradiction|reflexivity]|]. intros Nd.
  assert (Tg' : Triangulated (at_positions m' p)). { destruct Tg as [A B C D]. constructor; [exact (wf_pos p m' A)|exact B|exact C|exact D]. }
  assert (IB : exists w, In w (m_verts m) /\ In w (m_verts m')).
  { destruct bs as [|w bs]; [cbn in L; lia|]. assert (Iw : In w (m_verts m)). { destruct CO as (_ & _ & C3 & C4). assert (Z : In (Some w) (map (h_src m) ring)) by (rewrite C4; left; reflexivity). apply in_map_iff in Z as (h & Eh & Ih). apply (src_in m W h w); [apply C3, Ih|exact Eh]. }
    exists w. split; [exact Iw|]. apply In_nth_error in Iw as (i & Ei). exact (nth_error_In _ _ (ff_vert _ _ _ _ FF i w Ei)). }
  assert (Rg : Region (at_positions m' p) l).
  { constructor; [exact NDl|intros v Iv; exact (proj1 (HV v Iv))| |].
    - intros v u Iv Au. destruct (v_lock m' u) eqn:Lu; [right; exact Lu|left]. apply HF. apply (ff_edge m' f v u); [apply HF, Iv|exact Au|exact Lu].
    - intros v Iv. destruct IB as (w & Iw & Iw'). exists w. split; [apply reach_same, Cn; assumption|]. split; [exact Iw'|]. intros Q. exact (proj2 (HV w Q) Iw). }
  destruct (relaxation_tri (at_positions m' p) Tg' Nd l Rg sparse Ex) as [(x' & E' & H) | E']; [|congruence]. assert (x' = x) by congruence. subst x'.
  apply (relaxed_ext _ _ x); [|exact H]. intros v Iv. rewrite HP. destruct (in_dec Nat.eq_dec v l); [reflexivity|contradiction].
Qed.

(** If all other faces are triangles, so are all faces afterwards. *)
Theorem filled_triangulated (N : Num) (m m' : mesh N) f bs : WF m -> FrontFilled m f bs m' -> (forall h, In h (m_hes m) -> h_face m h <> Some f -> piter (h_next m) 3 h = Some h) -> NoParallel m' -> Triangulated m'.
Proof.
  intros W FF T NP. constructor; [apply FF|apply FF|exact NP|]. assert (W' := ff_wf _ _ _ _ FF). intros h Ih. destruct (wf_face m' W' h Ih) as (g & Fg & Ig).
  assert (DEC : (In g (m_faces m) /\ g <> f) \/ (~ In g (m_faces m) \/ g = f)). { destruct (Nat.eq_dec g f) as [->|Dg]; [right; right; reflexivity|]. destruct (in_dec Nat.eq_dec g (m_faces m)); [left; auto|right; left; assumption]. }
  destruct DEC as [[Og Dg]|New].
  - destruct (ff_outer _ _ _ _ FF h g Ih Fg Og Dg) as [Jh Fh]. assert (K := T h Jh ltac:(congruence)).
    destruct (piter3 _ _ K) as (y & z & E1 & E2 & E3). assert (F1 : forall q q', In q (m_hes m) -> h_face m q = Some g -> h_next m q = Some q' -> In q' (m_hes m) /\ h_face m q' = Some g).
    { intros q q' Iq Fq Eq. split; [exact (next_in m W q q' Iq Eq)|]. rewrite (wf_face_next m W q q' Iq Eq). exact Fq. }
    destruct (F1 h y Jh Fh E1) as [Jy Fy]. destruct (F1 y z Jy Fy E2) as [Jz Fz].
    assert (X : forall q, In q (m_hes m) -> h_face m q = Some g -> h_next m' q = h_next m q) by (intros q Iq Fq; apply (ff_he _ _ _ _ FF q Iq); congruence).
    cbn [piter]. rewrite (X h Jh Fh), E1. cbn [piter]. rewrite (X y Jy Fy), E2. cbn [piter]. rewrite (X z Jz Fz), E3. reflexivity.
  - destruct (proj1 (ff_new _ _ _ _ FF g Ig New)) as (a & b & c & TR & _). destruct TR as (x & y & z & HM & E1 & E2 & E3 & _). destruct (proj1 (HM h) (conj Ih Fg)) as [->|[->| ->]]; cbn [piter]; [rewrite E1; cbn [piter]; rewrite E2; cbn [piter]; rewrite E3; reflexivity|rewrite E2; cbn [piter]; rewrite E3; cbn [piter]; rewrite E1; reflexivity|rewrite E3; cbn [piter]; rewrite E1; cbn [piter]; rewrite E2; reflexivity].
Qed.

(** ** Examples *)
(** A face of a regular tetrahedron. *)
Lemma three_case sparse : exists (m m' : mesh NumR) f ring bs, WF m /\ NoLoops m /\ In f (m_faces m) /\ Corners m f ring bs /\ NoDup bs /\ length bs = 3 /\
  fillAdvancingFront (N := NumR) cos sin sparse 1 (Some f) m = Ok (tt, m') /\ Triangulated m' /\ Connected m' /\ NonDegenerate m' /\ positions m' = regR.
Proof.
  destruct regR_all as (m & Em & V & C & P & _ & S). assert (W := valid_wf m V). assert (NDg := reg_nondeg m S P). assert (Lv : length (m_verts m) = 4%nat) by (rewrite <- (map_length (v_pos m)); change (length (positions m) = 4%nat); rewrite P; reflexivity).
  assert (If : exists f, In f (m_faces m)). { destruct (m_verts m) as [|v vs] eqn:Ev; [discriminate Lv|]. destruct (vring m W v ltac:(rewrite Ev; left; reflexivity)) as (h & l & _ & R). destruct (proj1 (proj2 (proj2 R) h) (or_introl eq_refl)) as [Ih _]. destruct (wf_face m W h Ih) as (f & _ & If). exists f. exact If. }
  destruct If as (f & If). destruct (corners_of m f W If) as (ring & bs & CO). apply mesh_of_ok in Em. destruct (construct_faces _ _ _ m Em) as [A D].
  assert (Lb : length bs = 3).
  { destruct (fring m W f If) as (h & l & _ & R). destruct (proj1 (proj2 (proj2 R) h) (or_introl eq_refl)) as [Ih Fh]. destruct (closed_next3 m h V C Ih) as (y & z & N1 & N2 & N3 & _).
    assert (Cy : cyc (h_next m) [h; y; z]) by (cbn [cyc chainto]; auto). destruct CO as (C1 & C2 & C3 & C4). rewrite <- (map_length Some bs), <- C4, map_length.
    assert (Lr : length ring <= 3). { apply (NoDup_incl_length C1 (l' := [h; y; z])). intros q Iq. apply C3 in Iq as [Iq Fq]. assert (Rh : In q (h :: l)) by (apply R; auto). exact (cyc_reaches_in (h_next m) [h; y; z] h q Cy (or_introl eq_refl) (cyc_reaches (h_next m) (h :: l) h q (proj1 R) (or_introl eq_refl) Rh)). }
    assert (Q := ring_ge3 m f ring A (proj1 (proj1 (corners_ring m f ring bs) (conj C1 (conj C2 (conj C3 C4)))))). lia. }
  destruct (three_corners (N := NumR) cos sin sparse 0 m f ring bs W If CO Lb) as (k & b & p & E & HP & _).
  exists m, (with_pos p (with_bd b (with_lock k m))), f, ring, bs. split; [exact W|]. split; [exact (valid_noloops m V)|]. split; [exact If|]. split; [exact CO|]. split; [exact (D f ring bs If CO)|]. split; [exact Lb|]. split; [exact E|].
  split; [|split; [|split]].
  - destruct (closed_triangulated m V C) as [T1 T2 T3 T4]. constructor; [apply wf_pos, wf_bd, wf_lock, W|exact T2|exact T3|exact T4].
  - intros v w Iv Iw. change (In v (m_verts m)) in Iv. change (In w (m_verts m)) in Iw. apply In_nth_error in Iv as (i & Ei). apply In_nth_error in Iw as (j & Ej).
    assert (Li : i < 4) by (rewrite <- Lv; apply nth_error_Some; congruence). assert (Lj : j < 4) by (rewrite <- Lv; apply nth_error_Some; congruence).
    destruct (Nat.eq_dec i j) as [->|Dij]; [assert (v = w) by congruence; subst w; constructor|]. eapply reach_edge; [constructor|]. exact (tet_adj m S i j v w Ei Ej Li Lj Dij).
  - intros g x y z Ig T. change (0 < tri_area (p x) (p y) (p z))%R. rewrite !HP. exact (NDg g x y z Ig T).
  - unfold positions. rewrite <- P. unfold positions. apply map_ext. exact HP.
Qed.

(** A hole with six corners, in the middle of which a vertex is put.  Any atan2 whose values are near to the
    right ones will do. *)
Definition atan_about (z : float) : float := (0x1.921fb54442d18p-1 * z + 0x1.178p-2 * z * (1 - abs z))%float.
Definition atan2_about (y x : float) : float :=
  (if PrimFloat.ltb (abs y) (abs x) then if PrimFloat.ltb 0 x then atan_about (y / x) else if PrimFloat.ltb y 0 then atan_about (y / x) - 0x1.921fb54442d18p+1 else atan_about (y / x) + 0x1.921fb54442d18p+1
   else if PrimFloat.ltb 0 y then 0x1.921fb54442d18p+0 - atan_about (x / y) else if PrimFloat.ltb y 0 then - 0x1.921fb54442d18p+0 - atan_about (x / y) else 0)%float.
Section X.
Variables acosF expF : float -> float.
Notation NF := (Witness.NF acosF expF atan2_about).
Notation pt := (Witness.pt acosF expF atan2_about).
Definition ps_hexagon : list (vec NF) := [pt 8 0 0; pt 4 7 0; pt (-4) 7 0; pt (-8) 0 0; pt (-4) (-7) 0; pt 4 (-7) 0; pt 16 0 (-2); pt 8 14 (-2); pt (-8) 14 (-2); pt (-16) 0 (-2); pt (-8) (-14) (-2); pt 8 (-14) (-2)]%float.
Definition ix_hexagon : list nat := flat_map (fun i => let j := Nat.modulo (i + 1) 6 in [i; 6 + i; 6 + j; i; 6 + j; j]) (seq 0 6).
Definition cosF (x : float) : float := (1 - x * x / 2)%float.
Definition sinF (x : float) : float := x.
Definition solve1 (n : nat) (A : nat -> nat -> float) (b : nat -> float) (k : nat) : float := (b k / A k k)%float.
Definition hole6 (m : mesh NF) (f : nat) : bool :=
  holeb m f && existsb (fun h => ptr_eqb (h_face m h) (Some f) && ptr_eqb (h_src m h) (Some (nth 0 (m_verts m) 0))) (m_hes m) &&
  Nat.eqb (length (filter (fun h => ptr_eqb (h_face m h) (Some f)) (m_hes m))) 6.
Definition chk_hexagon (m : mesh NF) : bool :=
  existsb (fun f => if hole6 m f then
      match fillAdvancingFront (N := NF) cosF sinF solve1 8 (Some f) m with
      | Ok (_, m') => existsb (fun h => ptr_eqb (h_face m' h) (Some f) && match h_src m' h with Some v => negb (v_lock m' v) | None => false end) (m_hes m')
      | _ => false
      end else false) (m_faces m).
Lemma hexagon_check : with_mesh acosF expF atan2_about (mesh_of ps_hexagon ix_hexagon) chk_hexagon = true.
Proof. vm_cast_no_check (eq_refl true). Qed.
Lemma hexagon_facts : exists (m m' : mesh NF) f ring bs v, mesh_of ps_hexagon ix_hexagon = Ok m /\ Hole m f /\ Corners m f ring bs /\ NoDup bs /\ length bs = 6 /\
  fillAdvancingFront (N := NF) cosF sinF solve1 8 (Some f) m = Ok (tt, m') /\ FreeFrom m' f v.
Proof.
  destruct (with_ok _ _ _ _ _ hexagon_check) as (m & E & C). unfold chk_hexagon in C. apply existsb_exists in C as (f & If & C3). destruct (hole6 m f) eqn:C; [|discriminate]. unfold hole6 in C. apply andb_true_iff in C as [C C2]. apply andb_true_iff in C as [C C1].
  destruct (fillAdvancingFront (N := NF) cosF sinF solve1 8 (Some f) m) as [[[] m']| | |] eqn:X; try discriminate C3.
  apply existsb_exists in C3 as (h & Ih & C3). apply andb_true_iff in C3 as [C3 C4]. apply ptr_eqb_eq in C3. destruct (h_src m' h) as [v|] eqn:Sv; [|discriminate]. apply negb_true_iff in C4.
  assert (E' := E). apply mesh_of_ok in E'. destruct (construct_valid _ _ _ m E') as [V _]. destruct (construct_faces _ _ _ m E') as [A D]. assert (W := valid_wf m V).
  destruct (corners_of m f W If) as (ring & bs & CO). assert (L : length bs = 6).
  { rewrite <- (corners_len m f ring bs CO). apply Nat.eqb_eq in C2. rewrite <- C2. apply Permutation_length, NoDup_Permutation; [apply CO|apply NoDup_filter, W|]. intros y. rewrite filter_In, ptr_eqb_eq. apply CO. }
  exists m, m', f, ring, bs, v. split; [exact E|]. split; [apply holeb_iff; assumption|]. split; [exact CO|]. split; [exact (D f ring bs If CO)|]. split; [exact L|]. split; [exact X|]. exact (ff_corner m' f h v Ih C3 Sv C4).
Qed.
End X.
