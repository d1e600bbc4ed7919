(** The statements of PropRemesh.v. *)
From Coq Require Import Reals List ZArith Floats Bool Arith Lia Lra.
From Verif Require Import Num NumInst Vec Heap Mesh Construct Spec BuildSpec BuildProps Witness GeomSpec VecR Measure MeasureR MeasureM SmoothSpec SmoothW ExamplesR GeomW RemeshSpec Simplify Remesh RemeshR.
Import ListNotations.

Section X.
Context {N : Num}.
Lemma simplify_ends (nt mt : Z) fuel (m : mesh N) : Valid m -> (length (m_faces m) + 1) * Z.to_nat mt <= fuel ->
  (exists o, simplifyQEM nt mt fuel m o) /\
  forall o, simplifyQEM nt mt fuel m o -> o <> NoFuel /\
    forall m', o = Ok m' -> exists k, length (m_faces m) = 2 * k + length (m_faces m') /\ (k = 0 \/ (nt - 1 <= Z.of_nat (length (m_faces m')))%Z).
Proof.
  intros V L. split; [exists (run_simplify (fun _ _ => vzero) nt mt fuel m); apply run_simplify_ok|]. intros o H.
  destruct (simplify_any nt mt fuel m o V L H) as [[-> | ->] | (m' & k & -> & _ & F & K)]; (split; [discriminate|]); intros m2 E; try discriminate. injection E as <-. exists k. split; [exact F|exact K].
Qed.
Lemma simplify_valid (nt mt : Z) fuel (m : mesh N) o : Valid m -> (length (m_faces m) + 1) * Z.to_nat mt <= fuel -> simplifyQEM nt mt fuel m o ->
  (exists m', o = Ok m' /\ Valid m') \/ o = Abort AThrow \/ o = Abort AAssert.
Proof. intros V L H. destruct (simplify_any nt mt fuel m o V L H) as [O | (m' & k & -> & E & _)]; [right; exact O|left; exists m'; split; [reflexivity|exact (ev_valid _ _ E)]]. Qed.
Lemma simplify_boundary (nt mt : Z) fuel (m m' : mesh N) : Valid m -> FlagsSym m -> (length (m_faces m) + 1) * Z.to_nat mt <= fuel -> simplifyQEM nt mt fuel m (Ok m') ->
  FlagsSym m' /\ forall v, In v (m_verts m) -> on_boundary m v -> In v (m_verts m') /\ on_boundary m' v /\ v_pos m' v = v_pos m v.
Proof. intros V FS L H. destruct (simplify_any nt mt fuel m _ V L H) as [[O | O] | (m2 & k & [= <-] & E & _)]; try discriminate. exact (ev_bd _ _ E FS). Qed.
Lemma remesh_valid (short long keep : num) n (m : mesh N) : Valid m ->
  (exists o, remeshTriangular short long keep n m o) /\
  forall o, remeshTriangular short long keep n m o ->
    (exists m', o = Ok m' /\ Valid m' /\ forall v, In v (m_verts m) -> v_lock m v = true -> In v (m_verts m') /\ v_lock m' v = true /\ v_pos m' v = v_pos m v) \/
    o = Abort AThrow \/ o = Abort AAssert.
Proof.
  intros V. split; [eexists; apply run_remesh_ok|]. intros o H. destruct (remesh_any short long keep n m o V H) as [O | (m' & -> & E)]; [right; exact O|left].
  exists m'. split; [reflexivity|]. split; [exact (rm_valid _ _ E)|exact (rm_locked _ _ E)].
Qed.
Lemma remesh_euler (m m' : mesh N) : Valid m ->
  (exists nt mt fuel, (length (m_faces m) + 1) * Z.to_nat mt <= fuel /\ simplifyQEM nt mt fuel m (Ok m')) \/ (exists short long keep n, remeshTriangular short long keep n m (Ok m')) ->
  euler m' = euler m.
Proof.
  intros V [(nt & mt & fuel & L & H) | (s & l & k & n & H)].
  - destruct (simplify_any nt mt fuel m _ V L H) as [[O | O] | (m2 & k & [= <-] & E & _)]; try discriminate. exact (ev_euler _ _ E).
  - destruct (remesh_any s l k n m _ V H) as [[O | O] | (m2 & [= <-] & E)]; try discriminate. exact (rm_euler _ _ E).
Qed.
End X.
Lemma simplify_valid_R (nt mt : Z) fuel (m : mesh NumR) o : Valid m -> (length (m_faces m) + 1) * Z.to_nat mt <= fuel -> nt <> 0%Z -> simplifyQEM nt mt fuel m o ->
  exists m', o = Ok m' /\ Valid m'.
Proof. intros V L Z H. destruct (simplify_R nt mt fuel m o V L Z H) as (m' & k & -> & E & _). exists m'. split; [reflexivity|exact (ev_valid _ _ E)]. Qed.
Lemma remesh_valid_R (short long keep : R) n (m : mesh NumR) o : Valid m -> remeshTriangular (N := NumR) short long keep n m o ->
  exists m', o = Ok m' /\ Valid m' /\
    forall v w a b f g, Spec.Tri m f v w a -> Spec.Tri m g w v b -> (dihedral (v_pos m b) (v_pos m v) (v_pos m w) (v_pos m a) < keep)%R ->
      In v (m_verts m') /\ v_lock m' v = true /\ v_pos m' v = v_pos m v.
Proof. intros V H. destruct (remesh_R short long keep n m o V H) as (m' & -> & E & F). exists m'. split; [reflexivity|]. split; [exact (rm_valid _ _ E)|exact F]. Qed.

(** The edge from (0,0,0) to (0,1,0) of the tetrahedron. *)
Local Open Scope R_scope.
Lemma Tri_rot {N : Num} (m : mesh N) f a b c : Spec.Tri m f a b c -> Spec.Tri m f b c a.
Proof. intros (x & y & z & F & N1 & N2 & N3 & S1 & S2 & S3). exists y, z, x. split; [intros h; rewrite F; tauto|]. repeat (split; [assumption|]). assumption. Qed.
Lemma feature_case : exists (m : mesh NumR) v w a b f g, Valid m /\ Spec.Tri m f v w a /\ Spec.Tri m g w v b /\ (dihedral (v_pos m b) (v_pos m v) (v_pos m w) (v_pos m a) < 3)%R.
Proof.
  destruct tetraR_mesh as (m & E & S & P). assert (V := so_valid _ _ S). destruct (so_tris _ _ S) as (holes & Ef & F & _).
  assert (Q : forall i v, nth_error (m_verts m) i = Some v -> nth_error tetraR i = Some (v_pos m v)) by (intros i v Hv; rewrite <- P; unfold positions; rewrite nth_error_map, Hv; reflexivity).
  cbn [triples ix_tetra length] in F. destruct (m_faces m) as [|f [|g fs]]; cbn [firstn] in F; [inversion F|inversion F; subst; match goal with H : Forall2 _ [] (_ :: _) |- _ => inversion H end|].
  inversion F as [|? ? ? ? K F1]; subst. inversion F1 as [|? ? ? ? K1 _]; subst. destruct K as (v & w & a & Ha & Hb & Hc & T). destruct K1 as (v' & b & w' & Ha1 & Hb1 & Hc1 & T1).
  assert (v' = v) by congruence. assert (w' = w) by congruence. subst v' w'. exists m, v, w, a, b, f, g. split; [exact V|]. split; [exact T|]. split; [apply Tri_rot, Tri_rot, T1|].
  assert (Pa := Q _ _ Ha). assert (Pb := Q _ _ Hb). assert (Pc := Q _ _ Hc). assert (Pd := Q _ _ Hb1). cbn [tetraR nth_error] in Pa, Pb, Pc, Pd. injection Pa as <-. injection Pb as <-. injection Pc as <-. injection Pd as <-.
  destruct (dihedral_all (v3 0 0 1) (v3 0 0 0) (v3 1 0 0) (v3 0 1 0)) as (D & _). destruct D as (-> & _).
  - assert (E1 : nrm (v3 0 0 1) (v3 0 0 0) (v3 1 0 0) = v3 0 (-1) 0) by (unfold nrm, v3; vring). rewrite E1. unfold v3. intros H. injection H. lra.
  - assert (E1 : nrm (v3 0 1 0) (v3 0 0 0) (v3 1 0 0) = v3 0 0 1) by (unfold nrm, v3; vring). rewrite E1. unfold v3. intros H. injection H. lra.
  - match goal with |- acos (?d / ?l) < 3 => replace d with 0 by (unfold nrm, v3; dring) end.
    unfold Rdiv. rewrite Rmult_0_l, acos_0. assert (X := PI_4). lra.
Qed.
