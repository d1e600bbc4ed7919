(** holeFillAdvancingFront: meshes made from arrays, the reals, and a mesh whose hole loses a corner's position. *)
From Coq Require Import List ZArith Floats Arith Lia Bool Permutation Reals Lra.
From Verif Require Import Num NumInst Vec Heap Mesh Construct Spec Built BuildProps EditSpec EditRun Orbit Rings Queries Fill FillO FillSpec FillP FillE Witness Front FrontS FrontSpec FrontE.
Import ListNotations.
Local Open Scope mesh_scope.

Section G.
Context {N : Num}.
Implicit Types m : mesh N.

Lemma corners_of m f : WF m -> In f (m_faces m) -> exists ring bs, Corners m f ring bs.
Proof.
  intros W I. destruct (fring m W f I) as (h & l & _ & R).
  assert (K : forall y, In y (h :: l) -> exists v, h_src m y = Some v) by (intros y Iy; apply R in Iy as [Iy _]; destruct (wf_src m W y Iy) as (v & Ev & _); eauto).
  assert (SB : exists bs, map (h_src m) (h :: l) = map Some bs).
  { clear - K. induction (h :: l) as [|x k IH]; [exists []; reflexivity|].
    destruct (K x (or_introl eq_refl)) as (v & Ev). destruct IH as (bs & Eb); [intros y Iy; apply K; right; exact Iy|]. exists (v :: bs). cbn [map]. rewrite Ev, Eb. reflexivity. }
  destruct SB as (bs & SB). exists (h :: l), bs. apply corners_ring. auto.
Qed.
Lemma corners_len m f ring bs : Corners m f ring bs -> length ring = length bs.
Proof. intros (_ & _ & _ & E). rewrite <- (map_length (h_src m) ring), E, map_length. reflexivity. Qed.

(** Every face of a mesh made from arrays. *)
Theorem front_constructed relax fuel ps ix m f : mesh_of ps ix = Ok m -> In f (m_faces m) -> exists ring bs, Corners m f ring bs /\
  match holeFillAdvancingFront relax fuel (Some f) m with Ok (_, m') => FrontFilled m f bs m' | UB k => k = OutOfBounds /\ ~ AnglesBelow N | Abort _ | NoFuel => True end.
Proof.
  intros E I. apply mesh_of_ok in E. destruct (construct_valid ps ix _ m E) as [V _]. destruct (construct_faces ps ix _ m E) as [A D]. assert (W := valid_wf m V).
  destruct (corners_of m f W I) as (ring & bs & C). exists ring, bs. split; [exact C|]. apply (advancing_front relax fuel m f ring bs W (valid_noloops m V) I C (D f ring bs I C)).
  rewrite <- (corners_len m f ring bs C). exact (ring_ge3 m f ring A (proj1 (proj1 (corners_ring m f ring bs) C))).
Qed.

(** If no vertex is inside, the second part does nothing. *)
Lemma front_no_inside (relax0 relax : mesh N -> list nat -> option (nat -> vec N)) fuel f m m' :
  (forall m l, l <> [] -> relax0 m l = None) -> (forall m, relax m [] <> None) ->
  holeFillAdvancingFront relax0 fuel f m = Ok (tt, m') -> holeFillAdvancingFront relax fuel f m = Ok (tt, m').
Proof.
  intros H0 H. unfold holeFillAdvancingFront, bind. destruct (getMeanEdgeLength m) as [[a m1]| | |]; [|discriminate..]. destruct (lock_front f m1) as [[a' m2]| | |]; [|discriminate..].
  destruct (front_loop fuel f a m2) as [[a'' m3]| | |]; [|discriminate..]. destruct (inside_verts f m3) as [[l m4]| | |]; [|discriminate..]. cbn [get]. unfold get. unfold lift.
  destruct (addresses l) as [|x l']; [|rewrite (H0 m4 (x :: l')) by discriminate; discriminate]. assert (K := H m4). destruct (relax m4 []); [|congruence]. destruct (relax0 m4 []); [|discriminate]. auto.
Qed.
End G.

(** Over the reals every angle is below the bound. *)
Lemma angles_real : AnglesBelow NumR.
Proof.
  intros y x. unfold wrap. cbn. assert (P := PI_4). assert (P' := PI_RGT_0). assert (A := atan_bound (y / x)). set (z := atan (y / x)) in *. clearbody z.
  assert (B : (16 < 10 ^ 20)%R) by (rewrite (pow_IZR 10 20); apply IZR_lt; reflexivity).
  match goal with |- context [if Rltb ?t _ then _ else _] => assert (K : (t < 8)%R) by (repeat match goal with |- context [if ?d then _ else _] => destruct d end; lra); generalize dependent t end.
  intros t K. apply Rltb_lt. destruct (Rltb t 0); lra.
Qed.
Theorem front_real relax fuel (m : mesh NumR) f ring bs : WF m -> NoLoops m -> In f (m_faces m) -> Corners m f ring bs -> NoDup bs -> 3 <= length bs ->
  match holeFillAdvancingFront relax fuel (Some f) m with Ok (_, m') => FrontFilled m f bs m' | UB _ => False | Abort _ | NoFuel => True end.
Proof.
  intros W NL I C ND L. assert (K := advancing_front relax fuel m f ring bs W NL I C ND L). destruct (holeFillAdvancingFront relax fuel (Some f) m) as [[]| | |]; auto. apply K, angles_real.
Qed.

(** ** A square hole in a large square. *)
Section X.
Variables (acosF expF : float -> float) (atan2F : float -> float -> float).
(** atan2 with the value it has in C for the arguments 1 and 0. *)
Definition right_angle (y x : float) : float := if (PrimFloat.eqb y 1 && PrimFloat.eqb x 0)%bool then 0x1.921fb54442d18p+0%float else atan2F y x.
Notation NF := (Witness.NF acosF expF right_angle).
Notation pt := (Witness.pt acosF expF right_angle).
Definition ps_square : list (vec NF) := [pt 0 0 0; pt 1 0 0; pt 1 1 0; pt 0 1 0; pt (-7) (-7) 0; pt 8 (-7) 0; pt 8 8 0; pt (-7) 8 0]%float.
Definition ix_square : list nat := [0;4;5; 0;5;1; 1;5;6; 1;6;2; 2;6;7; 2;7;3; 3;7;4; 3;4;0].
(** [h] belongs to a hole or is opposite to one. *)
Definition by_hole (m : mesh NF) (h : nat) : bool := match h_face m h with Some g => holeb m g | None => false end.
Definition relax0 (m : mesh NF) (l : list nat) : option (nat -> vec NF) := match l with [] => Some (v_pos m) | _ => None end.
Definition hole_at0 (m : mesh NF) (f : nat) : bool :=
  holeb m f && existsb (fun h => ptr_eqb (h_face m h) (Some f) && ptr_eqb (h_src m h) (Some (nth 0 (m_verts m) 0))) (m_hes m) &&
  Nat.eqb (length (filter (fun h => ptr_eqb (h_face m h) (Some f)) (m_hes m))) 4.
Definition moved (m m' : mesh NF) (f : nat) : bool :=
  existsb (fun h => ptr_eqb (h_face m h) (Some f) && match h_src m h with Some v => neqb (vx (v_pos m v)) (vx (v_pos m v)) && negb (neqb (vx (v_pos m' v)) (vx (v_pos m v))) | None => false end) (m_hes m).
Definition flagged (m' : mesh NF) : bool :=
  existsb (fun v => negb (existsb (fun h => ptr_eqb (h_src m' h) (Some v) && by_hole m' h) (m_hes m')) && existsb (fun h => ptr_eqb (h_src m' h) (Some v) && h_bd m' h) (m_hes m')) (m_verts m').
Lemma moved_ok m m' f : moved m m' f = true -> exists h v, In h (m_hes m) /\ h_face m h = Some f /\ h_src m h = Some v /\ v_pos m' v <> v_pos m v.
Proof.
  unfold moved. intros C. apply existsb_exists in C as (h & Ih & C). apply andb_true_iff in C as [F C]. apply ptr_eqb_eq in F. destruct (h_src m h) as [v|] eqn:Sv; [|discriminate]. apply andb_true_iff in C as [P1 P2].
  exists h, v. repeat split; try assumption. intros Q. rewrite Q, P1 in P2. discriminate.
Qed.
Lemma flagged_ok m' : WF m' -> flagged m' = true -> exists v, In v (m_verts m') /\ v_isBoundary (Some v) m' = Ok (true, m') /\ forall h g, In h (m_hes m') -> h_src m' h = Some v -> h_face m' h = Some g -> ~ Hole m' g.
Proof.
  intros W' C. unfold flagged in C. apply existsb_exists in C as (v & Iv & C4). apply andb_true_iff in C4 as [C4 C5]. apply negb_true_iff in C4. exists v. split; [exact Iv|]. split.
  - destruct (vring m' W' v Iv) as (h0 & l & Eh & R). rewrite (v_isBoundary_ok m' W' v h0 l Iv Eh R). do 2 f_equal. apply existsb_exists in C5 as (h & Ih & C5). apply andb_true_iff in C5 as [S B]. apply ptr_eqb_eq in S. apply existsb_exists. exists h. split; [apply R; auto|exact B].
  - intros h g Ih S F H. rewrite <- not_true_iff_false in C4. apply C4, existsb_exists. exists h. split; [exact Ih|]. unfold by_hole. rewrite S, F, (proj2 (holeb_iff m' g (proj1 H)) H). cbn. rewrite Nat.eqb_refl. reflexivity.
Qed.
Definition chk_square (m : mesh NF) : bool :=
  existsb (fun f => if hole_at0 m f then
      match holeFillAdvancingFront relax0 3 (Some f) m with
      | Ok (_, m') =>
          moved m m' f
          && flagged m'
      | _ => false
      end else false) (m_faces m).
Lemma square_check : with_mesh acosF expF right_angle (mesh_of ps_square ix_square) chk_square = true.
Proof. vm_cast_no_check (eq_refl true). Qed.

Variable relax : mesh NF -> list nat -> option (nat -> vec NF).
Hypothesis RX : forall m, relax m [] <> None.
Lemma square_facts : exists (m m' : mesh NF) f ring bs, mesh_of ps_square ix_square = Ok m /\ Hole m f /\ Corners m f ring bs /\ length bs = 4 /\ NoDup bs /\
  holeFillAdvancingFront relax 3 (Some f) m = Ok (tt, m') /\ (exists v, In v bs /\ v_pos m' v <> v_pos m v) /\
  (exists v, In v (m_verts m') /\ v_isBoundary (Some v) m' = Ok (true, m') /\ forall h g, In h (m_hes m') -> h_src m' h = Some v -> h_face m' h = Some g -> ~ Hole m' g).
Proof.
  destruct (with_ok _ _ _ _ _ square_check) as (m & E & C). unfold chk_square in C. apply existsb_exists in C as (f & If & C3). destruct (hole_at0 m f) eqn:C; [|discriminate]. unfold hole_at0 in C. apply andb_true_iff in C as [C C2]. apply andb_true_iff in C as [C1 _].
  destruct (holeFillAdvancingFront relax0 3 (Some f) m) as [[[] m']| | |] eqn:X; try discriminate C3. apply andb_true_iff in C3 as [C3 C4].
  assert (RUN : holeFillAdvancingFront relax 3 (Some f) m = Ok (tt, m')) by (apply (front_no_inside relax0 relax); [intros m1 [|] K; [congruence|reflexivity]|exact RX|exact X]). clear X.
  assert (E' := E). apply mesh_of_ok in E'. destruct (construct_valid _ _ _ m E') as [V _]. destruct (construct_faces _ _ _ m E') as [A D]. assert (W := valid_wf m V).
  destruct (corners_of m f W If) as (ring & bs & CO). assert (L : length bs = 4).
  { rewrite <- (corners_len m f ring bs CO). apply Nat.eqb_eq in C2. rewrite <- C2. apply Permutation_length, NoDup_Permutation; [apply CO|apply NoDup_filter, W|]. intros y. rewrite filter_In, ptr_eqb_eq. apply CO. }
  assert (ND := D f ring bs If CO). exists m, m', f, ring, bs. split; [exact E|]. split; [apply holeb_iff; assumption|]. split; [exact CO|]. split; [exact L|]. split; [exact ND|]. split; [exact RUN|].
  assert (FF := advancing_front relax 3 m f ring bs W (valid_noloops m V) If CO ND ltac:(lia)). rewrite RUN in FF. assert (W' := ff_wf _ _ _ _ FF). split.
  - apply moved_ok in C3 as (h & v & Ih & F & Sv & P). exists v. split; [|exact P].
    assert (K : In (Some v) (map Some bs)) by (rewrite <- (proj2 (proj2 (proj2 CO))), <- Sv; apply in_map, CO; auto). apply in_map_iff in K as (w & K1 & K). injection K1 as ->. exact K.
  - exact (flagged_ok m' W' C4).
Qed.
End X.
