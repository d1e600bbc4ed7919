(** Meshes for the examples beside C70 to C73. *)
From Coq Require Import List ZArith Floats Arith Lia Bool.
From Verif Require Import Num Vec Heap Mesh Construct Spec Built BuildProps EditSpec EditRun Orbit Rings Fill FillO FillSpec FillP FillE Witness Front FrontS FrontSpec FrontE FrontW FrontC FrontD.
Import ListNotations.
Local Open Scope mesh_scope.

Section A.
Context {N : Num}.
Definition face_hole (m : mesh N) (p : ptr) : bool := match p with Some f => holeb m f | None => false end.
Definition apartb (m : mesh N) : bool := forallb (fun h => match h_rev m h with Some r => negb (face_hole m (h_face m h) && face_hole m (h_face m r)) | None => true end) (m_hes m).
Lemma apart_ok (m : mesh N) : WF m -> apartb m = true -> HolesApart m.
Proof.
  intros W C h r f g I R F G Hf Hg. unfold apartb in C. rewrite forallb_forall in C. assert (K := C h I). cbv beta in K. rewrite R, F, G in K. cbn [face_hole] in K.
  rewrite (proj2 (holeb_iff m f (proj1 Hf)) Hf), (proj2 (holeb_iff m g (proj1 Hg)) Hg) in K. discriminate.
Qed.
End A.

Section X.
Variables (acosF expF : float -> float) (atan2F : float -> float -> float).
Notation NF := (Witness.NF acosF expF atan2F).
(** A tetrahedron without one of its triangles. *)
Definition ix_open : list nat := [0;1;2; 0;3;1; 0;2;3].
Notation ps_tetra := (ps_tetra acosF expF atan2F).
Definition chk_open (m : mesh NF) : bool :=
  apartb m && Nat.eqb (length (filter (holeb m) (m_faces m))) 1 &&
  match fill_fronts (fun m _ => Some (v_pos m)) 5 1 m with Ok (_, m') => Nat.eqb (length (filter (holeb m') (m_faces m'))) 0 | _ => false end.
Lemma open_check : with_mesh acosF expF atan2F (mesh_of ps_tetra ix_open) chk_open = true.
Proof. vm_cast_no_check (eq_refl true). Qed.
Lemma open_facts : exists m m' : mesh NF, mesh_of ps_tetra ix_open = Ok m /\ HolesApart m /\ (exists f, Hole m f) /\ fill_fronts (fun m _ => Some (v_pos m)) 5 1 m = Ok (tt, m').
Proof.
  destruct (with_ok _ _ _ _ _ open_check) as (m & E & C). unfold chk_open in C. apply andb_true_iff in C as [C C3]. apply andb_true_iff in C as [C1 C2].
  destruct (fill_fronts (fun m _ => Some (v_pos m)) 5 1 m) as [[[] m']| | |] eqn:X; try discriminate C3. exists m, m'. split; [exact E|]. apply mesh_of_ok in E. destruct (construct_valid _ _ _ m E) as [V _]. split; [exact (apart_ok m (valid_wf m V) C1)|]. split; [|exact X].
  apply Nat.eqb_eq in C2. destruct (filter (holeb m) (m_faces m)) as [|f l] eqn:F; [discriminate|]. exists f. assert (I : In f (filter (holeb m) (m_faces m))) by (rewrite F; left; reflexivity). apply filter_In in I as [I H]. apply holeb_iff; assumption.
Qed.
End X.

(** ** C71, C72 *)
Lemma rim_refuted a e t (relax : mesh (Witness.NF a e (right_angle t)) -> list nat -> option (nat -> vec (Witness.NF a e (right_angle t)))) : (forall m, relax m [] <> None) -> exists ps ix m m' f ring bs fuel,
  mesh_of ps ix = Ok m /\ Hole m f /\ Corners m f ring bs /\ holeFillAdvancingFront relax fuel (Some f) m = Ok (tt, m') /\
  exists v, In v bs /\ v_pos m' v <> v_pos m v.
Proof. intros R. destruct (square_facts a e t relax R) as (m & m' & f & ring & bs & A & B & C & _ & _ & D & E & _). exists (ps_square a e t), ix_square, m, m', f, ring, bs, 3. auto. Qed.
Lemma front_flags_refuted a e t (relax : mesh (Witness.NF a e (right_angle t)) -> list nat -> option (nat -> vec (Witness.NF a e (right_angle t)))) : (forall m, relax m [] <> None) -> exists ps ix m m' f fuel,
  mesh_of ps ix = Ok m /\ Hole m f /\ holeFillAdvancingFront relax fuel (Some f) m = Ok (tt, m') /\
  exists v, In v (m_verts m') /\ v_isBoundary (Some v) m' = Ok (true, m') /\ forall h g, In h (m_hes m') -> h_src m' h = Some v -> h_face m' h = Some g -> ~ Hole m' g.
Proof. intros R. destruct (square_facts a e t relax R) as (m & m' & f & ring & bs & A & B & C & _ & _ & D & _ & E). exists (ps_square a e t), ix_square, m, m', f, 3. auto. Qed.
Section P.
Context {N : Num}.
Variables (relax : mesh N -> list nat -> option (nat -> vec N)) (fuel : nat) (m m' : mesh N) (f : nat) (ring bs : list nat).
Lemma front_others : WF m -> NoLoops m -> In f (m_faces m) -> Corners m f ring bs -> NoDup bs -> 3 <= length bs ->
  holeFillAdvancingFront relax fuel (Some f) m = Ok (tt, m') -> forall v, In v (m_verts m) -> ~ In v bs -> v_pos m' v = v_pos m v /\ v_lock m' v = v_lock m v.
Proof. intros W NL I C ND L E. assert (K := advancing_front relax fuel m f ring bs W NL I C ND L). rewrite E in K. exact (ff_pos _ _ _ _ K). Qed.
Lemma front_flags : WF m -> NoLoops m -> In f (m_faces m) -> Corners m f ring bs -> NoDup bs -> 3 <= length bs ->
  holeFillAdvancingFront relax fuel (Some f) m = Ok (tt, m') ->
  (forall g, Hole m' g -> Hole m g /\ g <> f) /\ (forall h, In h (m_hes m) -> h_face m h <> Some f -> h_bd m' h = true -> h_bd m h = true).
Proof. intros W NL I C ND L E. assert (K := advancing_front relax fuel m f ring bs W NL I C ND L). rewrite E in K. split; [exact (ff_hole _ _ _ _ K)|exact (ff_flag _ _ _ _ K)]. Qed.
End P.
