(** simplifyQEM and remeshTriangular: particular runs, and exact arithmetic. *)
From Coq Require Import Reals Lra List ZArith Arith Bool Lia Permutation.
From Verif Require Import Num NumInst Vec VecR Heap Mesh Spec EditSpec Orbit Rings Exec Queries Prog SmoothSpec Smooth SmoothP SmoothD SmoothR SmoothW SmoothEx RemeshSpec Simplify Remesh Wp SimplifyP SimplifyT RemeshP.
Import ListNotations.

(** ** One run: the entries of the queue in their order, no shuffle *)
Section Run.
Context {N : Num}.
Implicit Types m : mesh N.

Definition fail_as {A B} (r : res A) : res B := match r with Ok _ => NoFuel | UB u => UB u | Abort k => Abort k | NoFuel => NoFuel end.
Lemma fail_as_ok {A B} (r : res A) : (forall a, r <> Ok a) -> failed r (fail_as r : res B).
Proof. destruct r as [a| | |]; cbn; auto. intros H. exfalso. exact (H a eq_refl). Qed.

Fixpoint run_queue (target : Z) (que : list (ptr * vec N)) rm ck nr m : res (Z * mesh N) :=
  match que with
  | [] => Ok (nr, m)
  | (he, v) :: que' =>
      if (target <=? nr)%Z then Ok (nr, m) else
      if pmem he rm then run_queue target que' rm ck nr m else
      match qem_edge ck he v m with
      | Ok (None, m1) => run_queue target que' rm ck nr m1
      | Ok (Some (six, ck', ok), m1) => run_queue target que' (six ++ rm) ck' (if ok : bool then nr + 2 else nr)%Z m1
      | r => fail_as r
      end
  end.
Lemma run_queue_ok target : forall que rm ck nr m, qem_loop target que rm ck nr m (run_queue target que rm ck nr m).
Proof.
  induction que as [|[he v] que IH]; intros rm ck nr m; cbn [run_queue]; [apply ql_empty|].
  destruct (Z.leb_spec target nr); [apply ql_done; assumption|]. destruct (pmem he rm) eqn:P; [exact (ql_skip target [] he v que rm ck nr m _ H P (IH _ _ _ _))|].
  destruct (qem_edge ck he v m) as [[[[[six ck'] ok]|] m1]| | |] eqn:E.
  - exact (ql_edge target [] he v que rm ck nr m six ck' ok m1 _ H P E (IH _ _ _ _)).
  - exact (ql_next target [] he v que rm ck nr m m1 _ H P E (IH _ _ _ _)).
  - apply (ql_fail target [] he v que rm ck nr m _ H P). rewrite E. reflexivity.
  - apply (ql_fail target [] he v que rm ck nr m _ H P). rewrite E. reflexivity.
  - apply (ql_fail target [] he v que rm ck nr m _ H P). rewrite E. reflexivity.
Qed.

Definition run_taubin m : res (mesh N) := seq_repeats (seq_taubin_step nhalf (ndiv (nofZ 53) (nofZ 100))) 0 (3 * 2) m.
Lemma run_taubin_ok m : taubin_default m (run_taubin m).
Proof. exact (seq_taubin nhalf (ndiv (nofZ 53) (nofZ 100)) 3 m). Qed.
Definition run_trial (bar : mesh N -> ptr -> vec N) (target nr : Z) m : res (option Z * mesh N) :=
  match quad_faces (length (m_verts m)) (seq 0 (length (m_faces m))) m with
  | Ok (true, m1) =>
      match mmap (quad_edge (length (m_verts m))) (seq 0 (length (m_hes m))) m1 with
      | Ok (hs, m2) =>
          match run_queue target (map (fun h => (h, bar m2 h)) hs) [] (repeat false (length (m_verts m))) nr m2 with
          | Ok (nr', m3) =>
              match he_loop even_flip (length (m_hes m3)) 0 m3 with
              | Ok (_, m4) => match run_taubin m4 with Ok m5 => Ok (Some nr', m5) | r => fail_as r end
              | r => fail_as r
              end
          | r => fail_as r
          end
      | r => fail_as r
      end
  | Ok (false, m1) => Ok (None, m1)
  | r => fail_as r
  end.
Lemma run_trial_ok bar target nr m : qem_trial target nr m (run_trial bar target nr m).
Proof.
  unfold run_trial. destruct (quad_faces _ _ m) as [[[|] m1]| | |] eqn:E1; [|apply qt_return; exact E1|apply qt_fail0; rewrite E1; reflexivity..].
  destruct (mmap _ _ m1) as [[hs m2]| | |] eqn:E2; [|apply (qt_fail1 _ _ _ m1); [exact E1|rewrite E2; reflexivity]..].
  set (que := map (fun h => (h, bar m2 h)) hs). assert (Q : map fst que = hs) by (unfold que; rewrite map_map; cbn; apply map_id).
  assert (L := run_queue_ok target que [] (repeat false (length (m_verts m))) nr m2). clearbody que.
  destruct (run_queue target que _ _ nr m2) as [[nr' m3]| | |]; [|exact (qt_fail2 _ _ _ m1 hs m2 que _ _ E1 E2 Q L eq_refl)..].
  destruct (he_loop even_flip _ 0 m3) as [[[] m4]| | |] eqn:E3; [|apply (qt_fail3 _ _ _ m1 hs m2 que nr' m3 _ E1 E2 Q L); rewrite E3; reflexivity..].
  assert (T := run_taubin_ok m4). destruct (run_taubin m4) as [m5| | |]; [exact (qt_ok _ _ _ m1 hs m2 que nr' m3 m4 m5 E1 E2 Q L E3 T)|exact (qt_fail4 _ _ _ m1 hs m2 que nr' m3 m4 _ _ E1 E2 Q L E3 T eq_refl)..].
Qed.
Fixpoint run_trials bar (target maxTrials : Z) (fuel : nat) trial nr m : res (mesh N) :=
  if (maxTrials <=? trial)%Z then Ok m else
  match fuel with
  | O => NoFuel
  | S fuel' =>
      match run_trial bar target nr m with
      | Ok (None, m') => Ok m'
      | Ok (Some nr', m') =>
          if (target <=? nr')%Z then Ok m' else
          run_trials bar target maxTrials fuel' ((if (length (m_faces m') <? length (m_faces m))%nat then 0 else trial) + 1)%Z nr' m'
      | r => fail_as r
      end
  end.
Lemma run_trials_ok bar target mt : forall fuel trial nr m, qem_trials target mt fuel trial nr m (run_trials bar target mt fuel trial nr m).
Proof.
  induction fuel as [|fuel IH]; intros trial nr m; cbn [run_trials]; (destruct (Z.leb_spec mt trial); [apply qo_end; assumption|]); [apply qo_fuel; assumption|].
  assert (T := run_trial_ok bar target nr m). destruct (run_trial bar target nr m) as [[[nr'|] m']| | |].
  - destruct (Z.leb_spec target nr'); [exact (qo_break _ _ _ _ _ _ _ _ H T H0)|exact (qo_go _ _ _ _ _ _ _ _ _ H T H0 (IH _ _ _))].
  - exact (qo_return _ _ _ _ _ _ _ H T).
  - exact (qo_fail _ _ _ _ _ _ _ _ H T eq_refl).
  - exact (qo_fail _ _ _ _ _ _ _ _ H T eq_refl).
  - exact (qo_fail _ _ _ _ _ _ _ _ H T eq_refl).
Qed.
Definition run_simplify bar (nt mt : Z) fuel m : res (mesh N) :=
  if (nt =? 0)%Z then Abort AAssert else
  if (Z.of_nat (length (m_faces m)) <=? nt)%Z then Ok m else
  match seq_repeats (seq_lap_step none_ false) 0 3 m with
  | Ok m1 => run_trials bar (Z.of_nat (length (m_faces m)) - nt)%Z mt fuel 0 0 m1
  | r => fail_as r
  end.
Lemma run_simplify_ok bar nt mt fuel m : simplifyQEM nt mt fuel m (run_simplify bar nt mt fuel m).
Proof.
  unfold run_simplify. destruct (Z.eqb_spec nt 0); [apply sq_zero; assumption|]. destruct (Z.leb_spec (Z.of_nat (length (m_faces m))) nt); [apply sq_few; assumption|].
  assert (L := seq_lap (N := N) none_ false 3 m). fold (laplacian_default (N := N)) in L.
  destruct (seq_repeats (seq_lap_step none_ false) 0 3 m) as [m1| | |]; [exact (sq_run _ _ _ _ _ _ n H L (run_trials_ok _ _ _ _ _ _ _))|exact (sq_fail _ _ _ _ _ _ n H L eq_refl)..].
Qed.

Definition run_remesh_step (short long : num) m : res (mesh N) :=
  match split_pass long (seq 0 (length (m_hes m))) m with
  | Ok (_, m1) =>
      match collapse_pass short long (seq 0 (length (m_hes m1))) m1 with
      | Ok (_, m2) =>
          match he_loop remesh_flip (length (m_hes m2)) 0 m2 with
          | Ok (_, m3) => run_taubin m3
          | r => fail_as r
          end
      | r => fail_as r
      end
  | r => fail_as r
  end.
Lemma run_remesh_step_ok short long m : remesh_step short long m (run_remesh_step short long m).
Proof.
  unfold run_remesh_step. assert (P := Permutation_refl (seq 0 (length (m_hes m)))).
  destruct (split_pass long (seq 0 (length (m_hes m))) m) as [[[] m1]| | |] eqn:E1; [|apply (rs_split _ _ _ _ _ P); rewrite E1; reflexivity..]. assert (Q := Permutation_refl (seq 0 (length (m_hes m1)))).
  destruct (collapse_pass short long (seq 0 (length (m_hes m1))) m1) as [[[] m2]| | |] eqn:E2; [|apply (rs_collapse _ _ _ _ _ _ _ P E1 Q); rewrite E2; reflexivity..].
  destruct (he_loop remesh_flip (length (m_hes m2)) 0 m2) as [[[] m3]| | |] eqn:E3; [|apply (rs_flip _ _ _ _ _ _ _ _ P E1 Q E2); rewrite E3; reflexivity..].
  exact (rs_smooth _ _ _ _ _ _ _ _ _ P E1 Q E2 E3 (run_taubin_ok m3)).
Qed.
Definition run_remesh (short long keep : num) n m : res (mesh N) :=
  match remesh_prepare keep m with
  | Ok (l, m1) => seq_repeats (fun _ => run_remesh_step (nmul l short) (nmul l long)) 0 n m1
  | r => fail_as r
  end.
Lemma run_remesh_ok short long keep n m : remeshTriangular short long keep n m (run_remesh short long keep n m).
Proof.
  unfold run_remesh. destruct (remesh_prepare keep m) as [[l m1]| | |] eqn:E; [|apply rt_fail; rewrite E; reflexivity..].
  apply (rt_run _ _ _ _ _ l m1 _ E). apply (seq_repeats_ok _ (fun _ => remesh_step (nmul l short) (nmul l long))). intros it m'. apply run_remesh_step_ok.
Qed.
End Run.

(** ** Any arithmetic *)
Section Any.
Context {N : Num}.
Implicit Types m : mesh N.
Definition loud (k : abkind) : Prop := k = AThrow \/ k = AAssert.
Theorem simplify_any nt mt fuel m o : Valid m -> (length (m_faces m) + 1) * Z.to_nat mt <= fuel -> simplifyQEM nt mt fuel m o ->
  (o = Abort AThrow \/ o = Abort AAssert) \/
  exists m' k, o = Ok m' /\ Evolves m m' /\ length (m_faces m) = 2 * k + length (m_faces m') /\ (k = 0 \/ (nt - 1 <= Z.of_nat (length (m_faces m')))%Z).
Proof.
  intros V L H. destruct (simplify_ok loud ltac:(right; reflexivity) ltac:(left; reflexivity) ltac:(left; reflexivity) ltac:(left; reflexivity) nt mt fuel m o H V L) as [[_ E] | [(k & -> & [-> | ->]) | R]]; auto.
Qed.
Theorem remesh_any short long keep n m o : Valid m -> remeshTriangular short long keep n m o ->
  (o = Abort AThrow \/ o = Abort AAssert) \/ exists m', o = Ok m' /\ Remeshed m m'.
Proof.
  intros V H. destruct (remesh_ok loud ltac:(right; reflexivity) ltac:(left; reflexivity) ltac:(right; reflexivity) short long keep n m o H V) as [(k & -> & [-> | ->]) | (m' & E & R & _)]; eauto.
Qed.
End Any.

(** ** Exact arithmetic *)
Local Open Scope R_scope.
Lemma posok_R (m : mesh NumR) : PosOk m.
Proof. intros v _. unfold veqb. rn. rewrite !(proj2 (Reqb_eq _ _) eq_refl). reflexivity. Qed.
Lemma div_R (x : vec NumR) : @Vec.vdiv NumR x (@nadd NumR (@Vec.vlength NumR x) (@neps12 NumR)) <> None.
Proof.
  unfold Vec.vdiv. assert (P := vlength_pos x). rn. rewrite (proj2 (Reqb_false _ _)); [discriminate|].
  assert (0 < @neps12 NumR) by (cbn; lra). cbn in *. lra.
Qed.
Lemma bounds_R (l : list (vec NumR)) : exists lo hi, forall p, In p l -> inside lo hi p.
Proof.
  induction l as [|p l (lo & hi & H)]; [exists (V3 (N := NumR) 0 0 0), (V3 (N := NumR) 0 0 0); intros p []|].
  exists (V3 (N := NumR) (Rmin (vx p) (vx lo)) (Rmin (vy p) (vy lo)) (Rmin (vz p) (vz lo))), (V3 (N := NumR) (Rmax (vx p) (vx hi)) (Rmax (vy p) (vy hi)) (Rmax (vz p) (vz hi))).
  intros q Hq. unfold inside. cbn [vx vy vz]. destruct Hq as [<- | Hq].
  - split; [|split]; (split; [apply Rmin_l|apply Rmax_l]).
  - destruct (H q Hq) as (A & B & C). split; [|split]; (split; [eapply Rle_trans; [apply Rmin_r|apply A || apply B || apply C]|eapply Rle_trans; [|apply Rmax_r]; apply A || apply B || apply C]).
Qed.
Lemma lap_R (m : mesh NumR) : WF m -> ~ laplacian_default m (Abort AThrow).
Proof.
  intros W H. destruct (bounds_R (map (v_pos m) (m_verts m))) as (lo & hi & B).
  destruct (laplacian_box lo hi 1 3 ltac:(lra) m W) as (m' & _ & U & _); [intros v Iv; apply B, in_map, Iv|]. specialize (U _ H). discriminate.
Qed.
Lemma tau_R (m : mesh NumR) : WF m -> ~ taubin_default m (Abort AThrow).
Proof. intros W H. destruct (taubin_total (@nhalf NumR) (@ndiv NumR (nofZ 53) (nofZ 100)) 3 m W) as (m' & _ & U & _). specialize (U _ H). discriminate. Qed.

Theorem simplify_R nt mt fuel (m : mesh NumR) o : Valid m -> ((length (m_faces m) + 1) * Z.to_nat mt <= fuel)%nat -> nt <> 0%Z -> simplifyQEM nt mt fuel m o ->
  exists m' k, o = Ok m' /\ Evolves m m' /\ length (m_faces m) = (2 * k + length (m_faces m'))%nat /\ (k = 0%nat \/ (nt - 1 <= Z.of_nat (length (m_faces m')))%Z).
Proof.
  intros V L NZ H. destruct (simplify_ok (N := NumR) (fun _ => False) (fun m N => N (posok_R m)) (fun x E => div_R x E) (fun m W T => tau_R m W T) (fun m W T => lap_R m W T) nt mt fuel m o H V L) as [[E _] | [(k & _ & []) | R]]; [contradiction|exact R].
Qed.

(** The smallest angle. *)
Lemma min_fold (f : nat -> R) l : forall a, (fold_left (fun a j => @nmin NumR (f j) a) l a <= a) /\ forall j, In j l -> fold_left (fun a j => @nmin NumR (f j) a) l a <= f j.
Proof.
  assert (MIN : forall x y : R, @nmin NumR x y <= x /\ @nmin NumR x y <= y).
  { intros x y. unfold nmin. rn. unfold Rltb. destruct (Rlt_dec y x); lra. }
  induction l as [|i l IH]; intros a; cbn [fold_left]; [split; [lra|intros j []]|]. destruct (IH (@nmin NumR (f i) a)) as [A B]. destruct (MIN (f i) a). split; [lra|].
  intros j [<- | Hj]; [lra|apply B, Hj].
Qed.
Lemma cyc_nth f l d : cyc f l -> forall j, (j < length l)%nat -> f (nth j l d) = Some (nth ((j + 1) mod length l) l d).
Proof.
  destruct l as [|x l]; [intros []|]. cbn [cyc]. intros C j Hj.
  assert (X : forall l y k, chainto f y l x -> (k <= length l)%nat -> f (nth k (y :: l) d) = Some (nth (k + 1) (y :: l ++ [x]) d)).
  { clear. induction l as [|z l IH]; intros y k C Hk; cbn [chainto] in C.
    - replace k with 0%nat by (cbn in Hk; lia). exact C.
    - destruct C as [C1 C2]. destruct k as [|k]; [exact C1|]. cbn [length] in Hk. specialize (IH z k C2 ltac:(lia)). exact IH. }
  cbn [length] in *. rewrite (X l x j C) by lia. f_equal. destruct (Nat.eq_dec j (length l)) as [->|N].
  - replace ((length l + 1) mod S (length l))%nat with 0%nat by (replace (length l + 1)%nat with (S (length l)) by lia; rewrite Nat.mod_same; lia).
    rewrite Nat.add_1_r. cbn [nth]. rewrite app_nth2 by lia. rewrite Nat.sub_diag. reflexivity.
  - rewrite Nat.mod_small by lia. rewrite Nat.add_1_r. cbn [nth]. rewrite app_nth1 by lia. reflexivity.
Qed.
Section F.
Variable m : mesh NumR.
Hypothesis V : Valid m.
(** The angle at the edge v-w between the triangles f and g is among those considered. *)
Lemma angle_in v w a b f g l : Vring m v l -> Spec.Tri m f v w a -> Spec.Tri m g w v b ->
  @min_dihedral NumR (v_pos m v) (ring_pos m l) <= dihedral (v_pos m b) (v_pos m v) (v_pos m w) (v_pos m a).
Proof.
  intros (C & ND & Hm) (x & y & z & Fm & N1 & N2 & N3 & S1 & S2 & S3) (x' & y' & z' & Gm & M1 & M2 & M3 & T1 & T2 & T3). assert (W := valid_wf m V).
  assert (IF : forall h, h = x \/ h = y \/ h = z -> In h (m_hes m)) by (intros h Hh; apply Fm, Hh). assert (IG : forall h, h = x' \/ h = y' \/ h = z' -> In h (m_hes m)) by (intros h Hh; apply Gm, Hh).
  assert (Ix := IF x ltac:(auto)). assert (Iz := IF z ltac:(auto)). assert (Ix' := IG x' ltac:(auto)). assert (Iy' := IG y' ltac:(auto)).
  assert (DST : forall h n v0, In h (m_hes m) -> h_next m h = Some n -> h_src m n = Some v0 -> dst_of m h = Some v0).
  { intros h n v0 Ih En Sn. unfold dst_of. destruct (wf_rev m W h Ih) as (r & Er & _). rewrite Er. rewrite <- (wf_dst m W h n r Ih En Er). exact Sn. }
  assert (Dx := DST x y w Ix N1 S2). assert (Dz := DST z x v Iz N3 S1). assert (Dx' := DST x' y' v Ix' M1 T2). assert (Dy' := DST y' z' b Iy' M2 T3).
  (* rev x = x' *)
  destruct (wf_rev m W x Ix) as (r & R & Ir). assert (r = x').
  { apply (valid_noparallel m V); [exact Ir|exact Ix'| |]; [unfold dst_of in Dx; rewrite R in Dx; congruence|]. unfold dst_of at 1. rewrite (proj1 (wf_rev_invol m W x r Ix R)). congruence. }
  subst r. destruct (wf_rev m W z Iz) as (q & Q & Iq). assert (Qz := proj1 (wf_rev_invol m W z q Iz Q)).
  assert (Sq : h_src m q = Some v) by (unfold dst_of in Dz; rewrite Q in Dz; exact Dz). assert (Dq : dst_of m q = Some a) by (unfold dst_of; rewrite Qz; exact S3).
  assert (Rx : rot m x = Some y') by (unfold rot; rewrite R; exact M1). assert (Rq : rot m q = Some x) by (unfold rot; rewrite Qz; exact N3).
  assert (Hq : In q l) by (apply Hm; auto). apply (In_nth l q 0%nat) in Hq as (i & Hi & Ei).
  set (n := length l) in *. assert (Hn : (n <> 0)%nat) by lia. set (j := ((i + 1) mod n)%nat). assert (Hj : (j < n)%nat) by (apply Nat.mod_upper_bound, Hn).
  assert (Ej : nth j l 0%nat = x). { assert (X := cyc_nth _ _ 0%nat C i Hi). rewrite Ei, Rq in X. injection X as X. symmetry. exact X. }
  assert (Ek : nth ((j + 1) mod n) l 0%nat = y'). { assert (X := cyc_nth _ _ 0%nat C j Hj). rewrite Ej, Rx in X. injection X as X. symmetry. exact X. }
  assert (El : ((j + n - 1) mod n = i)%nat).
  { unfold j. destruct (Nat.eq_dec (i + 1) n) as [E|E].
    - rewrite E, Nat.mod_same by lia. rewrite Nat.mod_small by lia. lia.
    - rewrite (Nat.mod_small (i + 1)) by lia. replace (i + 1 + n - 1)%nat with (i + 1 * n)%nat by lia. rewrite Nat.mod_add by lia. apply Nat.mod_small. lia. }
  unfold min_dihedral. assert (LP : length (ring_pos m l) = n) by (unfold ring_pos; apply map_length). rewrite LP.
  destruct (min_fold (fun j => dihedral (nth ((j + 1) mod n) (ring_pos m l) vzero) (v_pos m v) (nth j (ring_pos m l) vzero) (nth ((j + n - 1) mod n) (ring_pos m l) vzero)) (seq 0 n) PI) as [_ B].
  assert (P : forall k u h, (k < n)%nat -> nth k l 0%nat = h -> dst_of m h = Some u -> nth k (ring_pos m l) vzero = v_pos m u).
  { intros k u h Hk Hh Hu. unfold ring_pos. set (F := fun h => _). rewrite (nth_indep _ vzero (F 0%nat)) by (rewrite map_length; exact Hk). rewrite (map_nth F). unfold F. rewrite Hh, Hu. reflexivity. }
  eapply Rle_trans; [apply (B j); apply in_seq; lia|]. rewrite El. rewrite (P j w x Hj Ej Dx), (P i a q Hi Ei Dq), (P _ b y' (Nat.mod_upper_bound _ _ Hn) Ek Dy'). apply Rle_refl.
Qed.
End F.

Theorem remesh_R short long keep n (m : mesh NumR) o : Valid m -> remeshTriangular (N := NumR) short long keep n m o ->
  exists m', o = Ok m' /\ Remeshed m m' /\
    forall v w a b f g, Spec.Tri m f v w a -> Spec.Tri m g w v b -> dihedral (v_pos m b) (v_pos m v) (v_pos m w) (v_pos m a) < keep ->
      In v (m_verts m') /\ v_lock m' v = true /\ v_pos m' v = v_pos m v.
Proof.
  intros V H. destruct (remesh_ok (N := NumR) (fun _ => False) (fun m N => N (posok_R m)) (fun m W T => tau_R m W T)) with (short := short) (long := long) (keep := keep) (n := n) (m := m) (o := o) as [(k & _ & []) | (m' & E & R & F)]; [|exact H|exact V|].
  - intros m1 W1 C. apply not_true_iff_false in C. apply C, forallb_forall. intros v _. reflexivity.
  - exists m'. split; [exact E|]. split; [exact R|]. intros v w a b f g T1 T2 D. assert (Iv : In v (m_verts m)).
    { destruct T1 as (x & y & z & Fm & _ & _ & _ & S1 & _). assert (Ix : In x (m_hes m)) by (apply Fm; auto). destruct (wf_src m (valid_wf m V) x Ix) as (v' & Ev & Iv'). congruence. }
    destruct (F v Iv) as (l & Hl & K). apply K. rn. unfold Rltb. destruct (Rlt_dec _ _) as [_|NL]; [reflexivity|]. exfalso. apply NL. eapply Rle_lt_trans; [exact (angle_in m V v w a b f g l Hl T1 T2)|exact D].
Qed.
