(** Statements about holes in flat regions for valid meshes, and a hole that is not convex. *)
From Coq Require Import Reals Lra Lia List ZArith Floats Arith Bool.
From Verif Require Import Num NumInst Vec VecR Heap Mesh Spec GeomSpec EditSpec Orbit Rings Construct BuildProps Witness Refute Fill FillD FillSpec FillP FillE CollapseFlip CollapseFlipW FlatSpec FlatF FlatP.
Import ListNotations.
Local Open Scope R_scope.

Section Top.
Variable cabs : R -> R.
Theorem flat_one (m : mesh NumR) nrm f (bound : R) : Valid m -> AtLeast3 m -> In f (m_faces m) -> FlatHole nrm m f ->
  exists gs m', holeFillMinDihedral (N := NumR) cabs (Some f) bound m = Ok (tt, m') /\ FilledWith m [f] [gs] m' /\
    forall g, In g gs -> exists a b c, Tri m' g a b c /\ faces_up nrm (v_pos m' a) (v_pos m' b) (v_pos m' c).
Proof.
  intros V A3 If FH. destruct (hole_flat cabs m nrm f bound (valid_wf m V)) as (gs & m' & RUN & F & U); [intros ring; apply ring_ge3, A3|exact If|exact FH|]. exists gs, m'. split; [exact RUN|]. split; [apply F|exact U].
Qed.
Theorem flat_all (m : mesh NumR) : Valid m -> AtLeast3 m -> exists m' hs gs, fillHoles (N := NumR) cabs m = Ok (tt, m') /\ NoDup hs /\ (forall f, In f hs <-> Hole m f) /\ FilledWith m hs gs m' /\
  forall f fs, In (f, fs) (combine hs gs) -> forall nrm, FlatHole nrm m f -> forall g, In g fs -> exists a b c, Tri m' g a b c /\ faces_up nrm (v_pos m' a) (v_pos m' b) (v_pos m' c).
Proof.
  intros V A3. assert (W := valid_wf m V). destruct (fillHoles_flat cabs m W A3) as (gs & m' & RUN & F & U). set (hs := filter (holeb m) (m_faces m)) in *. exists m', hs, gs. split; [exact RUN|]. split; [apply NoDup_filter, W|].
  split; [|split; [apply F|]].
  - intros f. unfold hs. rewrite filter_In. split; [intros [I H]; apply holeb_iff; assumption|]. intros H. split; [apply H|]. apply holeb_iff; [apply H|exact H].
  - clear RUN F. induction U as [|f fs hs' gs' K U IH]; intros g gs0 I; [destruct I|]. destruct I as [E | I]; [injection E as <- <-; exact K|exact (IH g gs0 I)].
Qed.
End Top.
(** Rims that turn the same way everywhere are cut by a fan. *)
Theorem convex_unfolded nrm (p : nat -> vecR) n : (1 <= n)%nat -> (forall i j k, (i < j < k)%nat -> (k <= n)%nat -> faces_up nrm (p i) (p j) (p k)) -> Unfolded nrm p 0 n.
Proof.
  intros L. induction n as [|n IH]; [lia|]. intros H. destruct n as [|n]; [constructor|]. apply (uf_cut nrm p 0 (S n) (S (S n))); [lia|apply H; lia| |constructor]. apply IH; [lia|]. intros i j k B Lk. apply H; lia.
Qed.

(** ** A hole shaped like an arrowhead, with the corners 1 0 3 5; it can be cut along 1 3 and not along 0 5. *)
Definition zx : list Z := [-3; 0; -6; 0; -2; 3; 2; 6]%Z.
Definition zy : list Z := [-3; 3; 6; -1; -9; -3; -9; 6]%Z.
Definition ix_arrow : list nat := [0;1;2; 3;0;4; 5;3;6; 1;5;7; 1;7;2; 0;2;4; 3;4;6; 5;6;7]%nat.
Definition upz (a b c : nat) : bool := let x v := nth v zx 0%Z in let y v := nth v zy 0%Z in (0 <? (x b - x a) * (y c - y a) - (y b - y a) * (x c - x a))%Z.
Definition posz (v : nat) : vecR := v3 (IZR (nth v zx 0%Z)) (IZR (nth v zy 0%Z)) 0.
Lemma upz_up a b c : upz a b c = true <-> faces_up (v3 0 0 1) (posz a) (posz b) (posz c).
Proof.
  unfold upz. set (xa := nth a zx 0%Z). set (xb := nth b zx 0%Z). set (xc := nth c zx 0%Z). set (ya := nth a zy 0%Z). set (yb := nth b zy 0%Z). set (yc := nth c zy 0%Z). rewrite Z.ltb_lt. unfold faces_up, posz. fold xa xb xc ya yb yc.
  assert (E : cross (vsub (v3 (IZR xb) (IZR yb) 0) (v3 (IZR xa) (IZR ya) 0)) (vsub (v3 (IZR xc) (IZR yc) 0) (v3 (IZR xa) (IZR ya) 0)) = @Vec.vscale NumR (IZR ((xb - xa) * (yc - ya) - (yb - ya) * (xc - xa))%Z) (v3 0 0 1)).
  { rewrite minus_IZR, !mult_IZR, !minus_IZR. unfold cross, vsub, vadd, vneg, Vec.vscale, v3; rn; f_equal; rg. }
  rewrite E. split.
  - intros P. exists (IZR ((xb - xa) * (yc - ya) - (yb - ya) * (xc - xa))%Z). split; [apply IZR_lt, P|reflexivity].
  - intros (s & P & Q). apply lt_IZR. injection Q. unfold Vec.vscale, v3; rn. intros. lra.
Qed.
Notation idf := (fun x : float => x). Notation id2 := (fun x _ : float => x).
Definition arrowF : list (vec (Witness.NF idf idf id2)) := map (fun x => Witness.pt idf idf id2 x 0 0) [0;1;2;3;4;5;6;7]%float.
Definition rimb (m : mesh (Witness.NF idf idf id2)) (f h : nat) : bool :=
  negb (ptr_eqb (h_face m h) (Some f)) || h_bd m h &&
  match h_rev m h with
  | Some r => match h_next m r with
    | Some n => match h_next m n with
      | Some k => match h_src m r, h_src m n, h_src m k with Some a, Some b, Some c => negb (h_bd m n) && existsb (Nat.eqb n) (m_hes m) && upz a b c | _, _, _ => false end
      | None => false end
    | None => false end
  | None => false end.
Definition arrow_check (m : mesh (Witness.NF idf idf id2)) : bool :=
  forallb (rimb m 40) (m_hes m) && existsb (Nat.eqb 40) (m_faces m) &&
  forallb (fun h => Bool.eqb (existsb (Nat.eqb h) [41; 44; 43; 42]%nat) (ptr_eqb (h_face m h) (Some 40%nat))) (m_hes m) && forallb (fun h => existsb (Nat.eqb h) (m_hes m)) [41; 44; 43; 42]%nat &&
  ptr_eqb (h_next m 41) (Some 44%nat) && ptr_eqb (h_next m 44) (Some 43%nat) && ptr_eqb (h_next m 43) (Some 42%nat) && ptr_eqb (h_next m 42) (Some 41%nat) &&
  ptr_eqb (h_src m 41) (Some 1%nat) && ptr_eqb (h_src m 44) (Some 0%nat) && ptr_eqb (h_src m 43) (Some 3%nat) && ptr_eqb (h_src m 42) (Some 5%nat).
Lemma arrow_run : Witness.with_mesh idf idf id2 (mesh_of arrowF ix_arrow) arrow_check = true.
Proof. vm_cast_no_check (eq_refl true). Qed.
Local Ltac split_and H := repeat (apply andb_true_iff in H; let K := fresh "K" in destruct H as [H K]).
Lemma ptr_eqb_ok p q : ptr_eqb p q = true -> p = q.
Proof. unfold ptr_eqb. destruct p as [x|], q as [y|]; try discriminate; [|reflexivity]. intros E. apply Nat.eqb_eq in E. congruence. Qed.
Lemma existsb_in n l : existsb (Nat.eqb n) l = true <-> In n l.
Proof. rewrite existsb_exists. split; [intros (x & I & E); apply Nat.eqb_eq in E; congruence|intros I; exists n; split; [exact I|apply Nat.eqb_refl]]. Qed.
Lemma tri_rot (m : mesh NumR) g a b c : Tri m g a b c -> Tri m g c a b.
Proof. intros (x & y & z & M & N1 & N2 & N3 & S1 & S2 & S3). exists z, x, y. split; [intros h; rewrite M; tauto|auto 8]. Qed.
Theorem arrow_case : exists (m : mesh NumR) f a b c d, Valid m /\ AtLeast3 m /\ Hole m f /\ FlatHole (v3 0 0 1) m f /\ (exists ring, Corners m f ring [a; b; c; d]) /\
  map (v_pos m) [a; b; c; d] = [v3 0 3 0; v3 (-3) (-3) 0; v3 0 (-1) 0; v3 3 (-3) 0] /\ ~ faces_up (v3 0 0 1) (v_pos m b) (v_pos m c) (v_pos m d).
Proof.
  destruct (with_ok _ _ _ _ _ arrow_run) as (mF & E & CK). apply mesh_of_ok in E. assert (VF := construct_valid _ _ _ mF E). destruct (construct_faces _ _ _ mF E) as [A3 _]. set (m := retype mF posz).
  assert (V : Valid m) by (apply retype_valid, VF). assert (W := valid_wf m V). clear E. unfold arrow_check in CK. split_and CK. rewrite forallb_forall in CK. apply existsb_in in K9. rewrite forallb_forall in K8, K7.
  repeat match goal with H : ptr_eqb _ _ = true |- _ => apply ptr_eqb_ok in H end.
  assert (CO : Corners m 40 [41; 44; 43; 42]%nat [1; 0; 3; 5]%nat).
  { split; [repeat constructor; cbn [In]; intuition discriminate|]. split; [cbn [cyc chainto]; repeat split; assumption|]. split; [|cbn [map]; change (h_src m) with (h_src mF); repeat f_equal; assumption].
    intros h. split.
    - intros I. assert (Ih := K7 h I). apply existsb_in in Ih. split; [exact Ih|]. assert (Q := K8 h Ih). apply existsb_in in I. rewrite I in Q. apply eqb_prop in Q. symmetry in Q. exact (ptr_eqb_ok _ _ Q).
    - intros [Ih Fh]. assert (Q := K8 h Ih). change (h_face m h) with (h_face mF h) in Fh. rewrite Fh in Q. apply eqb_prop in Q. apply existsb_in. rewrite Q. apply Nat.eqb_refl. }
  assert (RIM : forall h, In h (m_hes m) -> h_face m h = Some 40%nat -> h_bd m h = true /\ exists r n k a b c, h_rev m h = Some r /\ h_next m r = Some n /\ h_next m n = Some k /\ h_src m r = Some a /\ h_src m n = Some b /\ h_src m k = Some c /\ h_bd m n = false /\ In n (m_hes m) /\ upz a b c = true).
  { intros h Ih Fh. assert (Q := CK h Ih). unfold rimb in Q. change (h_face m h) with (h_face mF h) in Fh. rewrite Fh in Q. cbn [ptr_eqb] in Q. rewrite Nat.eqb_refl in Q. cbn [negb orb] in Q. apply andb_true_iff in Q as [B Q]. split; [exact B|].
    change (h_rev m) with (h_rev mF). change (h_next m) with (h_next mF). change (h_src m) with (h_src mF). change (h_bd m) with (h_bd mF).
    destruct (h_rev mF h) as [r|]; [|discriminate]. destruct (h_next mF r) as [n|] eqn:E1; [|discriminate]. destruct (h_next mF n) as [k|] eqn:E2; [|discriminate]. destruct (h_src mF r) as [a|] eqn:E3; [|discriminate]. destruct (h_src mF n) as [b|] eqn:E4; [|discriminate]. destruct (h_src mF k) as [c|] eqn:E5; [|discriminate].
    apply andb_true_iff in Q as [Q U]. apply andb_true_iff in Q as [Q I]. apply existsb_in in I. apply negb_true_iff in Q. exists r, n, k, a, b, c. auto 12. }
  exists m, 40%nat, 1%nat, 0%nat, 3%nat, 5%nat. split; [exact V|]. split; [exact A3|]. split; [split; [exact K9|intros h Ih Fh; apply (RIM h Ih Fh)]|]. split; [|split; [exists [41; 44; 43; 42]%nat; exact CO|split; [reflexivity|]]].
  - split; [unfold v3; rewrite dot_eq; rn; cbn; lra|]. split.
    + intros h r u w Ih Fh Er Sw Su. destruct (RIM h Ih Fh) as (_ & r' & n & k & a & b & c & Er' & E1 & E2 & E3 & E4 & E5 & B & In' & U). assert (r' = r) as -> by congruence. assert (a = w) as -> by congruence.
      destruct (tri_of m n V In' B) as (g & a1 & b1 & c1 & n1 & k1 & Fg & Ig & T & S1 & N1 & S2 & N2 & S3). assert (n1 = k) as -> by congruence.
      destruct (wf_rev m W h Ih) as (r0 & Er0 & Ir0). assert (r0 = r) as -> by congruence.
      assert (N3 := valid_tri m V n In' B). cbn [piter] in N3. rewrite E2 in N3. cbn [piter] in N3. rewrite N2 in N3. cbn [piter] in N3. assert (Ik := next_in m W n k In' E2). assert (k1 = r) as -> by (apply (next_inj m W k1 r n (next_in m W k k1 Ik N2) Ir0); [destruct (h_next m k1); exact N3|exact E1]).
      assert (b = u) as ->. { assert (X := wf_dst m W r n h Ir0 E1 (proj1 (wf_rev_invol m W h r Ih Er))). congruence. }
      exists g, c. split; [rewrite <- (wf_face_next m W r n Ir0 E1); exact Fg|]. split; [intros [_ X]; rewrite (X n In' Fg) in B; discriminate|]. split; [|apply upz_up, U].
      assert (a1 = u) as -> by congruence. assert (b1 = c) as -> by congruence. assert (c1 = w) as -> by congruence. apply tri_rot, T.
    + exists [41; 44; 43; 42]%nat, [1; 0; 3; 5]%nat. split; [exact CO|]. cbn [length Nat.sub]. apply (uf_cut _ _ 0 2 3); [lia|apply upz_up; reflexivity| |constructor]. apply (uf_cut _ _ 0 1 2); [lia|apply upz_up; reflexivity|constructor|constructor].
  - intros U. apply upz_up in U. discriminate U.
Qed.
