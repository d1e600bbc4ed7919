(** Concrete collapses for C55: one that turns a triangle over, and one that C55_turned_partial applies to. *)
From Coq Require Import Reals Lra List ZArith Floats Bool Arith Lia.
From Verif Require Import Num NumInst Vec Heap Mesh Construct Spec EditSpec CollapseSpec Orbit Rings Exec BuildProps Witness Refute GeomSpec VecR Diamond Edits CollapseIff CollapseFlip.
Import ListNotations.

Local Ltac split_and H := repeat (apply andb_true_iff in H; let K := fresh "K" in destruct H as [H K]).

(** The same connectivity with other positions. *)
Definition retype {N N' : Num} (m : mesh N) (pos : nat -> vec N') : mesh N' :=
  mkMesh (m_verts m) (m_hes m) (m_faces m) (m_indices m) (m_fresh m) (v_live m) pos (v_he m) (v_idx m) (v_lock m)
    (h_live m) (h_src m) (h_next m) (h_rev m) (h_face m) (h_idx m) (h_bd m) (f_live m) (f_he m) (f_idx m).
Lemma retype_valid {N N' : Num} (m : mesh N) (pos : nat -> vec N') : Valid m -> Valid (retype m pos).
Proof. intros [W L P T]. constructor; [|exact L|exact P|exact T]. destruct W. constructor; assumption. Qed.

(** The triangle that a half-edge not on the boundary belongs to. *)
Lemma tri_of {N : Num} (m : mesh N) h : Valid m -> In h (m_hes m) -> h_bd m h = false ->
  exists f a b c n k, h_face m h = Some f /\ In f (m_faces m) /\ Spec.Tri m f a b c /\ h_src m h = Some a /\ h_next m h = Some n /\ h_src m n = Some b /\ h_next m n = Some k /\ h_src m k = Some c.
Proof.
  intros V I B. assert (W := valid_wf m V). destruct (piter3 _ _ (valid_tri m V h I B)) as (n & k & N1 & N2 & N3). destruct (wf_face m W h I) as (f & Ef & If).
  assert (In' := next_in m W h n I N1). assert (Ik := next_in m W n k In' N2). destruct (wf_src m W h I) as (a & Sa & _). destruct (wf_src m W n In') as (b & Sb & _). destruct (wf_src m W k Ik) as (c & Sc & _).
  assert (Fn : h_face m n = Some f) by (rewrite (wf_face_next m W h n I N1); exact Ef). assert (Fk : h_face m k = Some f) by (rewrite (wf_face_next m W n k In' N2); exact Fn).
  exists f, a, b, c, n, k. split; [exact Ef|]. split; [exact If|]. split; [|auto 8]. exists h, n, k. split; [|auto 8]. intros y. split.
  - intros [Iy Fy]. assert (R := wf_face_orbit m W h y I Iy ltac:(congruence)). assert (C : cyc (h_next m) [h; n; k]) by (cbn [cyc chainto]; auto).
    assert (Q := cyc_reaches_in _ _ _ _ C (or_introl eq_refl) R). cbn [In] in Q. intuition auto.
  - intros [-> | [-> | ->]]; auto.
Qed.

Definition tri_normal {N : Num} (m : mesh N) (a b c : nat) : vec N := Vec.cross (Vec.vsub (v_pos m b) (v_pos m a)) (Vec.vsub (v_pos m c) (v_pos m a)).
Definition he_normal {N : Num} (m : mesh N) (h : nat) : vec N :=
  match h_src m h, h_next m h with
  | Some a, Some n => match h_src m n, h_next m n with Some b, Some k => match h_src m k with Some c => tri_normal m a b c | None => Vec.vzero end | _, _ => Vec.vzero end
  | _, _ => Vec.vzero
  end.

Definition ix_hex : list nat := [0;1;2; 0;2;3; 0;3;4; 0;4;5; 0;5;6; 0;6;1; 1;7;2; 2;7;8; 2;8;3; 3;8;9; 3;9;4; 4;9;10; 4;10;5; 5;10;11; 5;11;6; 6;11;12; 6;12;1; 1;12;7].

Section F.
Variables (acosF expF : float -> float) (atan2F : float -> float -> float).
Notation NF := (Witness.NF acosF expF atan2F).
Notation pt := (Witness.pt acosF expF atan2F).

(** Six triangles around the origin in a plane, and a strip around them.  The ring is not convex. *)
Definition ps_dent : list (vec NF) :=
  [pt 0 0 0; pt 4 0 0; pt 4 4 0; pt 0 4 0; pt (-4) 0 0; pt (-4) (-4) 0; pt 0 (-1) 0;
   pt 8 4 0; pt 4 8 0; pt (-8) 8 0; pt (-8) (-4) 0; pt (-4) (-8) 0; pt 8 (-4) 0]%float.
Definition ps_hex : list (vec NF) :=
  [pt 0 0 0; pt 2 0 0; pt 1 2 0; pt (-1) 2 0; pt (-2) 0 0; pt (-1) (-2) 0; pt 1 (-2) 0;
   pt 8 4 0; pt 4 8 0; pt (-8) 8 0; pt (-8) (-4) 0; pt (-4) (-8) 0; pt 8 (-4) 0]%float.

Lemma dent_check : with_mesh acosF expF atan2F (mesh_of ps_dent ix_hex) (fun m =>
  Nat.eqb (length (m_hes m)) 60 &&
  with_res acosF expF atan2F (collapseHE (Some (first_he acosF expF atan2F m)) m) (fun b m' => b &&
    existsb (fun h => existsb (Nat.eqb h) (m_hes m) && negb (h_bd m h) && negb (h_bd m' h) && nltb (Vec.dot (he_normal m h) (he_normal m' h)) nzero) (m_hes m'))) = true.
Proof. vm_cast_no_check (eq_refl true). Qed.
Lemma turned_refuted : exists ps ix (m : mesh NF) he m' f a b c a' b' c', mesh_of ps ix = Ok m /\ Valid m /\ In he (m_hes m) /\ collapseHE (Some he) m = Ok (true, m') /\
  Spec.Tri m f a b c /\ Spec.Tri m' f a' b' c' /\ nltb (Vec.dot (tri_normal m a b c) (tri_normal m' a' b' c')) nzero = true.
Proof.
  assert (C := dent_check). apply with_ok in C as (m & E & C). split_and C. apply Nat.eqb_eq in C. apply with_res_ok in K as (b & m' & Ef & K). apply andb_true_iff in K as [-> K].
  apply existsb_exists in K as (h & Ih & K). apply andb_true_iff in K as [K K4]. apply andb_true_iff in K as [K K3]. apply andb_true_iff in K as [K K2]. apply negb_true_iff in K2, K3. apply existsb_exists in K as (h' & I & K). apply Nat.eqb_eq in K. subst h'.
  assert (V : Valid m) by (apply mesh_of_ok in E; apply (construct_valid _ _ _ _ E)). assert (IH : In (first_he acosF expF atan2F m) (m_hes m)) by (apply (length_in _ _ 59); exact C).
  assert (V' : Valid m'). { destruct (collapse_iff m V _ IH) as [[X _] | (u0 & u1 & u2 & u3 & f0 & f1 & _ & [[X _] | (m1 & X & V1 & _)])]; try congruence. }
  destruct (tri_of m h V I K2) as (f & a & b & c & n & k & F1 & _ & T & S1 & N1 & S2 & N2 & S3). destruct (tri_of m' h V' Ih K3) as (f' & a' & b' & c' & n' & k' & F1' & _ & T' & S1' & N1' & S2' & N2' & S3').
  assert (f' = f). { destruct (collapse_iff m V _ IH) as [[X _] | (u0 & u1 & u2 & u3 & f0 & f1 & _ & [[X _] | (m1 & X & V1 & CE)])]; try congruence. assert (m1 = m') by congruence. subst m1. destruct (ce_next _ _ _ _ _ _ _ _ _ CE h Ih) as (_ & Q & _). congruence. }
  subst f'. exists ps_dent, ix_hex, m, (first_he acosF expF atan2F m), m', f, a, b, c, a', b', c'. split; [exact E|]. split; [exact V|]. split; [exact IH|]. split; [exact Ef|]. split; [exact T|]. split; [exact T'|].
  unfold he_normal in K4. rewrite S1, N1, S2, N2, S3, S1', N1', S2', N2', S3' in K4. exact K4.
Qed.

Lemma hex_check : with_mesh acosF expF atan2F (mesh_of ps_hex ix_hex) (fun m =>
  Nat.eqb (length (m_hes m)) 60 && existsb (Nat.eqb 30) (m_hes m) && existsb (Nat.eqb 0) (m_verts m) && ptr_eqb (h_src m 30) (Some 0) && ptr_eqb (dst_of m 30) (Some 5) && Nat.eqb (deg_of m 0) 6 && Nat.eqb (deg_of m 5) 5 && ptr_eqb (v_he m 0) (Some 30) &&
  with_res acosF expF atan2F (v_neighbors (Some 0) m) (fun l _ => forallb (fun pq => ptr_eqb (fst pq) (snd pq)) (combine l (map Some [5;4;3;2;1;6])) && Nat.eqb (length l) 6) &&
  existsb (fun h => negb (h_bd m h) && ptr_eqb (h_src m h) (Some 0) && match h_next m h with Some n => negb (ptr_eqb (h_src m n) (Some 5)) && match h_next m n with Some k => negb (ptr_eqb (h_src m k) (Some 5)) | None => false end | None => false end) (m_hes m) &&
  is_true acosF expF atan2F (collapseHE (Some 30) m)) = true.
Proof. vm_cast_no_check (eq_refl true). Qed.
Lemma hex_facts : exists (m : mesh NF) u1 u3 f0 f1, Valid m /\ In 30 (m_hes m) /\ v_he m 0 = Some 30 /\ dst_of m 30 = Some 5 /\ Around m 0 [5;4;3;2;1;6] /\ CollapsibleAt m 30 5 u1 0 u3 f0 f1 /\
  exists f a b, Spec.Tri m f 0 b a /\ b <> 5 /\ a <> 5.
Proof.
  assert (C := hex_check). apply with_ok in C as (m & E & C). split_and C. apply ptr_eqb_eq in K2, K5, K6. apply Nat.eqb_eq in K3, K4, C. apply is_true_ok in K as (m' & EC). apply with_res_ok in K1 as (l & m1 & EN & K1). apply andb_true_iff in K1 as [KL KN]. apply Nat.eqb_eq in KN.
  assert (V : Valid m) by (apply mesh_of_ok in E; apply (construct_valid _ _ _ _ E)). assert (W := valid_wf m V). apply existsb_exists in K8 as (x & I & K8). apply Nat.eqb_eq in K8. subst x. apply existsb_exists in K7 as (x & I0 & K7). apply Nat.eqb_eq in K7. subst x.
  destruct (vring m W 0 I0) as (h & r & Eh & R). rewrite (v_neighbors_ok m W 0 h r I0 Eh R) in EN. injection EN as EN _.
  assert (AR : Around m 0 [5;4;3;2;1;6]).
  { exists h, r. destruct R as (R1 & R2 & R3). split; [exact Eh|]. split; [exact R2|]. split; [exact R1|]. split; [exact R3|]. cbn [map]; rewrite EN.
    clear - KL KN. destruct l as [|a [|b [|c [|d [|e [|f [|]]]]]]]; try discriminate KN. cbn [map combine forallb fst snd] in KL. repeat (apply andb_true_iff in KL as [? KL]). repeat match goal with H : ptr_eqb _ _ = true |- _ => apply ptr_eqb_eq in H; rewrite H; clear H end. reflexivity. }
  destruct (collapse_iff m V 30 I) as [[X _] | (u0 & u1 & u2 & u3 & f0 & f1 & CA & _)]; [congruence|].
  assert (u0 = 5 /\ u2 = 0) as [-> ->].
  { destruct CA as ((EE & _) & DD & _). destruct EE as [[X1 X2] | [X1 X2]].
    - assert (u0 = 0) by congruence. assert (u2 = 5) by congruence. subst. rewrite K3, K4 in DD. lia.
    - split; congruence. }
  exists m, u1, u3, f0, f1. do 6 (split; [assumption|]).
  apply existsb_exists in K0 as (x & Ix & K0). apply andb_true_iff in K0 as [K0 Kn]. apply andb_true_iff in K0 as [Kb Ks]. apply negb_true_iff in Kb. apply ptr_eqb_eq in Ks.
  destruct (tri_of m x V Ix Kb) as (f & a & b & c & n & k & _ & _ & T & S1 & N1 & S2 & N2 & S3). rewrite N1, S2, N2, S3 in Kn. apply andb_true_iff in Kn as [Kn Kk]. apply negb_true_iff in Kn, Kk. assert (a = 0) by congruence. subst a.
  exists f, c, b. split; [exact T|]. split; intros ->; discriminate.
Qed.
End F.

Section R.
Local Open Scope R_scope.
Definition hexR : list vecR :=
  [v3 0 0 0; v3 2 0 0; v3 1 2 0; v3 (-1) 2 0; v3 (-2) 0 0; v3 (-1) (-2) 0; v3 1 (-2) 0].
Definition posR (v : nat) : vecR := nth v hexR vzero.
Lemma hex_normal : normalize (fold_left vadd (wedges (posR 0) (map posR [5;4;3;2;1;6]%nat)) vzero) = Some (v3 0 0 (-1)).
Proof.
  assert (S : fold_left vadd (wedges (posR 0) (map posR [5;4;3;2;1;6]%nat)) vzero = v3 0 0 (-24)) by (cbv [wedges map combine tl firstn app fold_left fst snd posR nth hexR]; unfold v3; vring).
  rewrite S. assert (L : vlength (v3 0 0 (-24)) = 24). { unfold Vec.vlength. rewrite dot_eq. cbn [NumR nsqrt v3 vx vy vz]. replace (0 * 0 + 0 * 0 + -24 * -24) with (24 * 24) by ring. apply sqrt_square. lra. }
  unfold normalize. rewrite L, vdiv_ok by lra. f_equal. unfold Vec.vscale, v3. rn. f_equal; rn; field.
Qed.
Lemma hex_turns : exists (m m' : mesh NumR) he u0 u1 u2 u3 f0 f1 ws d, Valid m /\ In he (m_hes m) /\ collapseHE (Some he) m = Ok (true, m') /\ CollapseEffect m m' he u0 u1 u2 u3 f0 f1 /\
  Around m u2 ws /\ normalize (fold_left vadd (wedges (v_pos m u2) (map (v_pos m) ws)) vzero) = Some d /\
  (exists h, v_he m u2 = Some h /\ dst_of m h = Some u0) /\
  (forall h k a b, In h (m_hes m) -> h_src m h = Some u2 -> rot m h = Some k -> dst_of m h = Some a -> dst_of m k = Some b -> a <> u0 -> b <> u0 ->
     dot d (cross (vsub (v_pos m a) (v_pos m u0)) (vsub (v_pos m b) (v_pos m u0))) <> 0) /\
  exists f a b, Spec.Tri m f u2 b a /\ f <> f0 /\ f <> f1.
Proof.
  destruct (hex_facts (fun x => x) (fun x => x) (fun x _ => x)) as (m0 & u1 & u3 & f0 & f1 & V0 & I & Ev & Ed & AR & (EO & DD & BD & D0 & D1 & D3 & CO & _) & f & x0 & y0 & TF & NB & NA).
  set (m := retype m0 posR). assert (V : Valid m) by (apply retype_valid, V0).
  assert (AR' : Around m 0%nat [5;4;3;2;1;6]%nat) by exact AR.
  assert (PAIR : forall a b, In (a, b) (combine [4;3;2;1;6]%nat [3;2;1;6]%nat) -> 0 < dot (v3 0 0 (-1)) (cross (vsub (posR a) (posR 5)) (vsub (posR b) (posR 5)))).
  { intros a b Q. cbn [combine In] in Q. destruct Q as [Q | [Q | [Q | [Q | []]]]]; injection Q as <- <-; rewrite dot_eq; cbv [posR nth hexR]; unfold cross, vsub, vadd, vneg, vscale, v3; rn; lra. }
  assert (CA : CollapsibleAt m 30 5 u1 0 u3 f0 f1).
  { split; [exact EO|]. split; [exact DD|]. split; [exact BD|]. split; [exact D0|]. split; [exact D1|]. split; [exact D3|]. split; [exact CO|]. exists [5;4;3;2;1;6]%nat. split; [exact AR'|].
    cbv zeta. exists (v3 0 0 (-1)). split; [exact hex_normal|]. change (v_pos m) with posR.
    assert (POS : Forall (fun x : R => 0 <= x) (@nzero NumR :: map (dot (v3 0 0 (-1))) (wedges (posR 5) (map posR [5;4;3;2;1;6]%nat)))).
    { cbn [wedges map combine tl firstn app fst snd]. repeat (apply Forall_cons; [rewrite ?dot_eq; cbv [posR nth hexR]; unfold cross, vsub, vadd, vneg, vscale, v3; rn; lra|]). apply Forall_nil. }
    intros l1 a b l2 Q. rewrite Q in POS. apply Forall_app in POS as [_ POS]. inversion POS as [|? ? Pa POS']; subst. inversion POS' as [|? ? Pb _]; subst. cbn [NumR nltb nmul nzero]. apply Rltb_false. apply Rmult_le_pos; assumption. }
  destruct (collapse_iff m V 30%nat I) as [[_ X] | (v0 & v1 & v2 & v4 & g0 & g1 & CA' & [[_ X] | (m' & X & V' & CE)])].
  - exfalso. exact (X _ _ _ _ _ _ CA).
  - exfalso. apply X. intros v _. apply veqb_real. reflexivity.
  - assert (v0 = 5%nat /\ v2 = 0%nat) as [-> ->].
    { destruct CA as ((EA & _) & DA & _), CA' as ((EB & _) & DB & _). destruct EA as [[X1 X2] | [X1 X2]], EB as [[Y1 Y2] | [Y1 Y2]].
      - split; congruence.
      - assert (v0 = 0%nat) by congruence. assert (v2 = 5%nat) by congruence. subst. exfalso. destruct DA as [DA | [DA Z1]], DB as [DB | [DB Z2]]; try lia. congruence.
      - assert (v0 = 0%nat) by congruence. assert (v2 = 5%nat) by congruence. subst. exfalso. destruct DA as [DA | [DA Z1]], DB as [DB | [DB Z2]]; try lia. congruence.
      - split; congruence. }
    exists m, m', 30%nat, 5%nat, v1, 0%nat, v4, g0, g1, [5;4;3;2;1;6]%nat, (v3 0 0 (-1)). split; [exact V|]. split; [exact I|]. split; [exact X|]. split; [exact CE|]. split; [exact AR'|]. split; [exact hex_normal|].
    split; [exists 30%nat; split; [exact Ev|exact Ed]|]. split.
    + intros h k a b Ih Sh R Da Db Na Nb. destruct AR' as (h0 & l & E0 & ND & C & IN & M).
      assert (Q := ring_pairs m h0 l 0%nat [4;3;2;1;6]%nat 5%nat h k a b ND C IN M Ih Sh R Da Db Na Nb). apply PAIR in Q. change (v_pos m) with posR. lra.
    + exists f, x0, y0. split; [exact TF|]. destruct CE as [(_ & T0 & T1 & _) _ _ _ _ _ _ _ _ _ _ _ _ _ _].
      assert (NO : forall g x y z, Spec.Tri m g x y z -> x = 5%nat \/ y = 5%nat -> f <> g).
      { intros g x y z (p & q & r & P1 & P2 & P3 & P4 & P5 & P6 & P7) XY ->. destruct TF as (p' & q' & r' & Q1 & Q2 & Q3 & Q4 & Q5 & Q6 & Q7).
        assert (HP := proj1 (Q1 p) (proj2 (P1 p) (or_introl eq_refl))). assert (HQ := proj1 (Q1 q) (proj2 (P1 q) (or_intror (or_introl eq_refl)))).
        change (h_src m0) with (h_src m) in *. destruct XY as [-> | ->]; [destruct HP as [-> | [-> | ->]] | destruct HQ as [-> | [-> | ->]]]; congruence. }
      split; [apply (NO _ _ _ _ T0); auto | apply (NO _ _ _ _ T1); auto].
Qed.
End R.
