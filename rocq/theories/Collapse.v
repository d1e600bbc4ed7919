(** Running collapseHE: when it gives up, and the state it leaves. *)
From Coq Require Import List ZArith Arith Lia Bool.
From Verif Require Import Num Vec Heap Mesh Spec Orbit Rings Exec Diamond Remove.
Import ListNotations.
Local Open Scope mesh_scope.

Section CollapseDefs.
Context {N : Num}.
Notation M := (M N).

(** Text of collapseHE from the update of the origins on (mesh.cpp 788-843). *)
Definition collapse_remove (he rev f0 f1 v_remove : ptr) : M bool :=
  x <- he_next he ;; y <- he_next x ;; removeHalfedge y ;;
  x <- he_next he ;; removeHalfedge x ;;
  removeHalfedge he ;;
  x <- he_next rev ;; y <- he_next x ;; removeHalfedge y ;;
  x <- he_next rev ;; removeHalfedge x ;;
  removeHalfedge rev ;;
  removeFace f0 ;; removeFace f1 ;;
  removeVertex v_remove ;;
  ret true.

Definition collapse_wire (he rev v0 v1 v2 v3 : ptr) : M bool :=
  hn <- he_next he ;; hnn <- he_next hn ;; he0 <- he_rev hnn ;;
  hn' <- he_next he ;; he1 <- he_rev hn' ;;
  w_rev he0 he1 ;; w_rev he1 he0 ;;
  rn <- he_next rev ;; rnn <- he_next rn ;; he2 <- he_rev rnn ;;
  rn' <- he_next rev ;; he3 <- he_rev rn' ;;
  w_rev he2 he3 ;; w_rev he3 he2 ;;
  w_vhe v0 he0 ;;
  w_vhe v0 he0 ;; w_vhe v1 he1 ;; w_vhe v2 he2 ;; w_vhe v3 he3 ;;
  f0 <- he_face he ;;
  f1 <- he_face rev ;;
  b0 <- f_isBoundary f0 ;; assertion (negb b0) ;;
  b1 <- f_isBoundary f1 ;; assertion (negb b1) ;;
  collapse_remove he rev f0 f1 v2.

Definition collapse_tail (nv : Z) (he rev v0 v1 v2 v3 : ptr) : M bool :=
  ia <- ve_idx v0 ;; assertion (ia <? nv)%Z ;;
  ib <- ve_idx v2 ;; assertion (ib <? nv)%Z ;;
  assertion (negb (ptr_eqb v2 v0)) ;;
  circ_v v2 tt (fun _ it => s <- he_src it ;; assertion (ptr_eqb s v2) ;; w_src it v0 ;; ret (tt, false)) ;;
  circ_v v0 tt (fun _ it => s <- he_src it ;; assertion (ptr_eqb s v0) ;; ret (tt, false)) ;;
  collapse_wire he rev v0 v1 v2 v3.

Definition collapse_geo (nv : Z) (he rev v0 v1 v2 v3 : ptr) (neighbors : list ptr) : M bool :=
  p2 <- ve_pos v2 ;;
  nps <- mmap ve_pos neighbors ;;
  let norm0 := ring_norm p2 nps in
  if neqb (vlength norm0) nzero then ret false else
  norm <- lift (normalize norm0) ;;
  p0 <- ve_pos v0 ;;
  if ring_flips norm p0 nps (length nps) (seq 0 (length nps)) nzero then ret false else
  collapse_tail nv he rev v0 v1 v2 v3.

Definition collapse_deg (nv : Z) (he rev v0 v1 v2 v3 : ptr) : M bool :=
  e0 <- degree v0 ;; e1 <- degree v1 ;; e2 <- degree v2 ;; e3 <- degree v3 ;;
  if ((e0 <=? 3) || (e1 <=? 4) || (e2 <=? 3) || (e3 <=? 4))%Z then ret false else
  neighbors <- circ_v v2 [] (fun acc it => d <- he_dst it ;; assertion (negb (ptr_eqb d None)) ;; ret (acc ++ [d], false)) ;;
  assertion (negb (Nat.eqb (length neighbors) 0)) ;;
  numUnion <- circ_v v0 0%Z (fun acc it => d <- he_dst it ;; assertion (negb (ptr_eqb d None)) ;;
                             ret (if pmem d neighbors then acc + 1 else acc, false)%Z) ;;
  if negb (numUnion =? 2)%Z then ret false else
  collapse_geo nv he rev v0 v1 v2 v3 neighbors.

Definition collapse_mid (he rev : ptr) : M bool :=
  f0 <- he_face he ;; b0 <- f_isBoundary f0 ;;
  b1 <- (if b0 then ret true else hr <- he_rev he ;; f1 <- he_face hr ;; f_isBoundary f1) ;;
  if b0 || b1 then ret false else
  v0 <- he_src he ;;
  hp <- he_prev he ;; v1 <- he_src hp ;;
  v2 <- he_src rev ;;
  rp <- he_prev rev ;; v3 <- he_src rp ;;
  nv <- get (fun m => Z.of_nat (length (m_verts m))) ;;
  i0 <- ve_idx v0 ;; assertion (i0 <? nv)%Z ;;
  i1 <- ve_idx v1 ;; assertion (i1 <? nv)%Z ;;
  i2 <- ve_idx v2 ;; assertion (i2 <? nv)%Z ;;
  i3 <- ve_idx v3 ;; assertion (i3 <? nv)%Z ;;
  collapse_deg nv he rev v0 v1 v2 v3.

Lemma collapse_text (he : ptr) (m : mesh N) : collapseHE he m =
  (rev <- he_rev he ;;
   nh <- get (fun m => Z.of_nat (length (m_hes m))) ;;
   ih <- he_idx he ;; assertion (ih <? nh)%Z ;;
   ir <- he_idx rev ;; assertion (ir <? nh)%Z ;;
   s0 <- he_src he ;; d0 <- degree s0 ;;
   s1 <- he_src rev ;; d1 <- degree s1 ;;
   collapse_mid (if (d0 >? d1)%Z then rev else he) (if (d0 >? d1)%Z then he else rev)) m.
Proof. reflexivity. Qed.

Definition with_src (s : nat -> ptr) (m : mesh N) : mesh N :=
  mkMesh (m_verts m) (m_hes m) (m_faces m) (m_indices m) (m_fresh m) (v_live m) (v_pos m) (v_he m) (v_idx m) (v_lock m)
    (h_live m) s (h_next m) (h_rev m) (h_face m) (h_idx m) (h_bd m) (f_live m) (f_he m) (f_idx m).

Definition wr_src (l : list nat) (v : ptr) (s : nat -> ptr) : nat -> ptr := fold_left (fun s y => fupd s y v) l s.

Lemma wr_src_spec l v s y : wr_src l v s y = if in_dec Nat.eq_dec y l then v else s y.
Proof.
  unfold wr_src. revert s. induction l as [|a l IH]; intros s; cbn [fold_left]; [reflexivity|].
  rewrite IH. destruct (in_dec Nat.eq_dec y l) as [H|H].
  - destruct (in_dec Nat.eq_dec y (a :: l)) as [H'|H']; [reflexivity|]. exfalso; apply H'; right; exact H.
  - destruct (in_dec Nat.eq_dec y (a :: l)) as [H'|H'].
    + destruct H' as [->|H']; [apply fupd_same|contradiction].
    + apply fupd_other. intros ->; apply H'; left; reflexivity.
Qed.

End CollapseDefs.

Section Loops.
Context {N : Num}.
Variable m : mesh N.
Hypothesis W : WF m.

Lemma step_v_src s y : In y (m_hes m) -> step_v (Some y) (with_src s m) = Ok (rot m y, with_src s m).
Proof.
  intros Hi. destruct (rot_some m W _ Hi) as (r & n & Er & En & E & Ir & _).
  unfold step_v. rewrite (bind_ok _ _ _ _ _ (r_rev (with_src s m) y (h_alive m W _ Hi))). cbn [h_rev with_src]. rewrite Er, E.
  rewrite r_next by (apply (h_alive m W); exact Ir). cbn [h_next with_src]. rewrite En; reflexivity.
Qed.

(** mesh.cpp 794-797 *)
Lemma src_loop_ok a b x0 : forall l x s fuel,
  chainto (rot m) x l x0 -> ~ In x0 l -> NoDup (x :: l) -> length (x :: l) <= fuel ->
  (forall y, In y (x :: l) -> In y (m_hes m) /\ s y = Some a) ->
  circ step_v (fun _ it => t <- he_src it ;; assertion (ptr_eqb t (Some a)) ;; w_src it (Some b) ;; ret (tt, false))
       fuel (Some x0) (Some x) tt (with_src s m) = Ok (tt, with_src (wr_src (x :: l) (Some b) s) m).
Proof.
  induction l as [|z l IH]; intros x s fuel Hc Hni Hnd Hf Hs; destruct fuel as [|fuel]; try (simpl in Hf; lia);
    destruct (Hs x (or_introl eq_refl)) as [Ix Sx]; pose proof (h_alive m W _ Ix) as Lx; cbn [circ].
  - simpl in Hc. rewrite !bind_assoc. rewrite (bind_ok _ _ _ _ _ (r_src (with_src s m) x Lx)). cbn [h_src with_src].
    rewrite Sx, bind_assoc, bind_assert by apply ptr_eqb_refl.
    rewrite bind_assoc, (bind_ok _ _ _ _ _ (ww_src (with_src s m) x (Some b) Lx)), bind_ret. cbn [fst snd].
    change (set_h_src x (Some b) (with_src s m)) with (with_src (fupd s x (Some b)) m).
    rewrite (bind_ok _ _ _ _ _ (step_v_src _ _ Ix)), Hc, ptr_eqb_refl. destruct fuel; reflexivity.
  - destruct Hc as [H1 H2]. rewrite !bind_assoc. rewrite (bind_ok _ _ _ _ _ (r_src (with_src s m) x Lx)). cbn [h_src with_src].
    rewrite Sx, bind_assoc, bind_assert by apply ptr_eqb_refl.
    rewrite bind_assoc, (bind_ok _ _ _ _ _ (ww_src (with_src s m) x (Some b) Lx)), bind_ret. cbn [fst snd].
    change (set_h_src x (Some b) (with_src s m)) with (with_src (fupd s x (Some b)) m).
    rewrite (bind_ok _ _ _ _ _ (step_v_src _ _ Ix)), H1.
    destruct (ptr_eqb (Some z) (Some x0)) eqn:E.
    + apply ptr_eqb_eq in E; injection E as ->. exfalso; apply Hni; left; reflexivity.
    + inversion Hnd as [|? ? Hx Hnd']; subst. rewrite IH; [reflexivity|exact H2| |exact Hnd'|simpl in *; lia|].
      * intros H; apply Hni; right; exact H.
      * intros y Hy. destruct (Hs y (or_intror Hy)) as [Iy Sy]. split; [exact Iy|].
        rewrite fupd_other; [exact Sy|]. intros ->; contradiction.
Qed.

End Loops.

(** What collapseHE leaves behind. *)
Record CollT {N : Num} (m m' : mesh N) (he rev hn hp rn rp o0 o1 o2 o3 u0 u1 u2 u3 f0 f1 : nat) : Prop := {
  c_hes : forall y, In y (m_hes m') <-> In y (m_hes m) /\ ~ In y [he; hn; hp; rev; rn; rp];
  c_verts : forall v, In v (m_verts m') <-> In v (m_verts m) /\ v <> u2;
  c_faces : forall f, In f (m_faces m') <-> In f (m_faces m) /\ f <> f0 /\ f <> f1;
  c_hlen : length (m_hes m) = 6 + length (m_hes m');
  c_vlen : length (m_verts m) = 1 + length (m_verts m');
  c_flen : length (m_faces m) = 2 + length (m_faces m');
  c_h_ok : ListOk (m_hes m') (h_live m') (h_idx m');
  c_v_ok : ListOk (m_verts m') (v_live m') (v_idx m');
  c_f_ok : ListOk (m_faces m') (f_live m') (f_idx m');
  c_fresh : m_fresh m' = m_fresh m;
  c_next : h_next m' = h_next m;
  c_face : h_face m' = h_face m;
  c_bd : h_bd m' = h_bd m;
  c_src : forall y, In y (m_hes m) -> h_src m' y = if ptr_eqb (h_src m y) (Some u2) then Some u0 else h_src m y;
  c_rev_o : h_rev m' o0 = Some o1 /\ h_rev m' o1 = Some o0 /\ h_rev m' o2 = Some o3 /\ h_rev m' o3 = Some o2;
  c_rev : forall y, y <> o0 -> y <> o1 -> y <> o2 -> y <> o3 -> h_rev m' y = h_rev m y;
  c_vhe : v_he m' u0 = Some o0 /\ v_he m' u1 = Some o1 /\ v_he m' u3 = Some o3;
  c_vhe_oth : forall v, v <> u0 -> v <> u1 -> v <> u2 -> v <> u3 -> v_he m' v = v_he m v;
  c_fhe : f_he m' = f_he m;
  c_pos : v_pos m' = v_pos m;
  c_lock : v_lock m' = v_lock m;
  c_indices : m_indices m' = m_indices m
}.

Section CollapseExec.
Context {N : Num}.
Variables (m : mesh N) (he rev hn hp rn rp u0 u1 u2 u3 f0 f1 o0 o1 o2 o3 : nat).
Hypothesis W : WF m.
Hypothesis D : Diamond m he rev hn hp rn rp u0 u1 u2 u3 f0 f1.
Hypothesis U13 : u1 <> u3.
Hypothesis R0 : h_rev m hp = Some o0.
Hypothesis R1 : h_rev m hn = Some o1.
Hypothesis R2 : h_rev m rp = Some o2.
Hypothesis R3 : h_rev m rn = Some o3.

Lemma o_facts : In o0 (m_hes m) /\ In o1 (m_hes m) /\ In o2 (m_hes m) /\ In o3 (m_hes m) /\
  h_rev m o0 = Some hp /\ h_rev m o1 = Some hn /\ h_rev m o2 = Some rp /\ h_rev m o3 = Some rn /\
  h_src m o0 = Some u0 /\ h_src m o1 = Some u1 /\ h_src m o2 = Some u2 /\ h_src m o3 = Some u3.
Proof.
  destruct D as [I Ir I0 I1 I2 I3 V0 V1 V2 V3 G0 G1 R Rr Nh N0 N1 Nr N2 N3 S S0 S1 Sr S2 S3 F F0 F1 Fr F2 F3 ND UN FN].
  split; [exact (rev_in m W _ _ I1 R0)|]. split; [exact (rev_in m W _ _ I0 R1)|].
  split; [exact (rev_in m W _ _ I3 R2)|]. split; [exact (rev_in m W _ _ I2 R3)|].
  repeat split; try (eapply (rev_rev m W); eassumption).
  - rewrite <- (wf_dst m W _ _ _ I1 N1 R0); exact S.
  - rewrite <- (wf_dst m W _ _ _ I0 N0 R1); exact S1.
  - rewrite <- (wf_dst m W _ _ _ I3 N3 R2); exact Sr.
  - rewrite <- (wf_dst m W _ _ _ I2 N2 R3); exact S3.
Qed.

Lemma o_neq : NoDup [o0; o1; o2; o3] /\ forall y, In y [o0; o1; o2; o3] -> ~ In y [he; hn; hp; rev; rn; rp].
Proof.
  destruct o_facts as (J0 & J1 & J2 & J3 & Q0 & Q1 & Q2 & Q3 & T0 & T1 & T2 & T3).
  destruct D as [I Ir I0 I1 I2 I3 V0 V1 V2 V3 G0 G1 R Rr Nh N0 N1 Nr N2 N3 S S0 S1 Sr S2 S3 F F0 F1 Fr F2 F3 ND UN FN].
  apply nodup6 in ND. destruct ND as (? & ? & ? & ? & ? & ? & ? & ? & ? & ? & ? & ? & ? & ? & ?). destruct UN as (? & ? & ? & ? & ?).
  assert (NR : forall a b va vb, h_src m a = Some va -> h_src m b = Some vb -> va <> vb -> a <> b) by (intros; congruence).
  split.
  - repeat (apply NoDup_cons; [simpl; intros C; repeat destruct C as [C|C]; try contradiction; subst; congruence|]). apply NoDup_nil.
  - assert (K : forall y a, In a [he; hn; hp; rev; rn; rp] -> y = a -> In y [o0; o1; o2; o3] -> False); [|intros y Hy Hc; eapply (K y y); eauto].
    intros y a Ha -> Hy.
    pose proof (rev_neq m W _ _ I1 R0). pose proof (rev_neq m W _ _ I0 R1). pose proof (rev_neq m W _ _ I3 R2). pose proof (rev_neq m W _ _ I2 R3).
    simpl in Ha, Hy. clear NR.
    destruct Hy as [<-|[<-|[<-|[<-|[]]]]]; destruct Ha as [E|[E|[E|[E|[E|[E|[]]]]]]]; rewrite <- E in *; congruence.
Qed.

Hypothesis B0 : h_bd m he = false.
Hypothesis B1 : h_bd m hn = false.
Hypothesis B2 : h_bd m hp = false.
Hypothesis B3 : h_bd m rev = false.
Hypothesis B4 : h_bd m rn = false.
Hypothesis B5 : h_bd m rp = false.

Lemma wf_hlist : ListOk (m_hes m) (h_live m) (h_idx m).
Proof. split; [apply W|]. intros i y H; destruct (wf_h_elem m W _ _ H) as (? & ? & ?); auto. Qed.
Lemma wf_vlist : ListOk (m_verts m) (v_live m) (v_idx m).
Proof. split; [apply W|]. intros i y H; destruct (wf_v_elem m W _ _ H) as (? & ? & ?); auto. Qed.
Lemma wf_flist : ListOk (m_faces m) (f_live m) (f_idx m).
Proof. split; [apply W|]. intros i y H; destruct (wf_f_elem m W _ _ H) as (? & ? & ?); auto. Qed.

Lemma listok_live l lv ix y : ListOk l lv ix -> In y l -> lv y = true.
Proof. intros [_ H] Hy. apply In_nth_error in Hy as (i & Hi). apply (H i y Hi). Qed.

(** Removing six half-edges, two faces and a vertex. *)
Lemma remove_exec (s : mesh N) :
  m_hes s = m_hes m -> h_live s = h_live m -> h_idx s = h_idx m -> h_next s = h_next m ->
  m_faces s = m_faces m -> f_live s = f_live m -> f_idx s = f_idx m ->
  m_verts s = m_verts m -> v_live s = v_live m -> v_idx s = v_idx m -> v_pos s = v_pos m ->
  (veqb (v_pos m u2) (v_pos m u2) = true ->
  exists lh ixh lvh lf ixf lvf lv ixv lvv,
   collapse_remove (Some he) (Some rev) (Some f0) (Some f1) (Some u2) s =
     Ok (true, upd_v lv ixv lvv (upd_f lf ixf lvf (upd_h lh ixh lvh s))) /\
   ListOk lh lvh ixh /\ (forall y, In y lh <-> In y (m_hes m) /\ ~ In y [he; hn; hp; rev; rn; rp]) /\ length (m_hes m) = 6 + length lh /\
   ListOk lf lvf ixf /\ (forall y, In y lf <-> In y (m_faces m) /\ y <> f0 /\ y <> f1) /\ length (m_faces m) = 2 + length lf /\
   ListOk lv lvv ixv /\ (forall y, In y lv <-> In y (m_verts m) /\ y <> u2) /\ length (m_verts m) = 1 + length lv) /\
  (veqb (v_pos m u2) (v_pos m u2) = false ->
   collapse_remove (Some he) (Some rev) (Some f0) (Some f1) (Some u2) s = Abort AAssert).
Proof.
  intros Ehs Elv Eix Enx Efs Efl Efx Evs Evl Evx Evp.
  pose proof wf_hlist as HL. pose proof wf_vlist as VL. pose proof wf_flist as FL.
  rewrite <- Ehs, <- Elv, <- Eix in HL. rewrite <- Efs, <- Efl, <- Efx in FL. rewrite <- Evs, <- Evl, <- Evx in VL.
  destruct D as [I Ir I0 I1 I2 I3 V0 V1 V2 V3 G0 G1 R Rr Nh N0 N1 Nr N2 N3 S S0 S1 Sr S2 S3 F F0 F1 Fr F2 F3 ND UN FN].
  clear S S0 S1 Sr S2 S3 F F0 F1 Fr F2 F3 UN R Rr V0 V1 V3.
  apply nodup6 in ND. destruct ND as (? & ? & ? & ? & ? & ? & ? & ? & ? & ? & ? & ? & ? & ? & ?).
  rewrite <- Ehs in I, Ir, I0, I1, I2, I3. rewrite <- Enx in Nh, N0, N1, Nr, N2, N3.
  assert (EXE : exists lh ixh lvh lf ixf lvf,
    collapse_remove (Some he) (Some rev) (Some f0) (Some f1) (Some u2) s =
      (removeVertex (Some u2) ;; ret true) (upd_f lf ixf lvf (upd_h lh ixh lvh s)) /\
    ListOk lh lvh ixh /\ (forall y, In y lh <-> In y (m_hes m) /\ ~ In y [he; hn; hp; rev; rn; rp]) /\ length (m_hes m) = 6 + length lh /\
    ListOk lf lvf ixf /\ (forall y, In y lf <-> In y (m_faces m) /\ y <> f0 /\ y <> f1) /\ length (m_faces m) = 2 + length lf).
  { unfold collapse_remove.
    rewrite (bind_ok _ _ _ _ _ (r_next s he (listok_live _ _ _ _ HL I))), Nh.
    rewrite (bind_ok _ _ _ _ _ (r_next s hn (listok_live _ _ _ _ HL I0))), N0.
    destruct (removeHalfedge_ok s hp HL I1) as (l1 & x1 & E1 & L1 & M1 & C1). rewrite (bind_ok _ _ _ _ _ E1). clear E1.
    set (lv1 := fupd (h_live s) hp false) in *. set (s1 := upd_h l1 x1 lv1 s).
    assert (A : In he l1) by (apply M1; auto). assert (A1 : In hn l1) by (apply M1; auto).
    assert (A2 : In rev l1) by (apply M1; auto). assert (A3 : In rn l1) by (apply M1; auto). assert (A4 : In rp l1) by (apply M1; auto).
    rewrite (bind_ok _ _ _ _ _ (r_next s1 he (listok_live _ _ _ _ L1 A))). change (h_next s1) with (h_next s). rewrite Nh.
    destruct (removeHalfedge_ok s1 hn L1 A1) as (l2 & x2 & E2 & L2 & M2 & C2). rewrite (bind_ok _ _ _ _ _ E2). clear E2.
    set (lv2 := fupd (h_live s1) hn false) in *. change (m_hes s1) with l1 in M2, C2.
    change (upd_h l2 x2 lv2 s1) with (upd_h l2 x2 lv2 s). clearbody lv2. set (s2 := upd_h l2 x2 lv2 s).
    clear A1 s1. assert (A1 : In he l2) by (apply M2; auto). clear A.
    assert (A5 : In rev l2) by (apply M2; auto). assert (A6 : In rn l2) by (apply M2; auto). assert (A7 : In rp l2) by (apply M2; auto).
    clear A2 A3 A4.
    destruct (removeHalfedge_ok s2 he L2 A1) as (l3 & x3 & E3 & L3 & M3 & C3). rewrite (bind_ok _ _ _ _ _ E3). clear E3.
    set (lv3 := fupd (h_live s2) he false) in *. change (m_hes s2) with l2 in M3, C3.
    change (upd_h l3 x3 lv3 s2) with (upd_h l3 x3 lv3 s). clearbody lv3. set (s3 := upd_h l3 x3 lv3 s). clear A1 s2.
    assert (A : In rev l3) by (apply M3; auto). assert (A1 : In rn l3) by (apply M3; auto). assert (A2 : In rp l3) by (apply M3; auto).
    clear A5 A6 A7.
    rewrite (bind_ok _ _ _ _ _ (r_next s3 rev (listok_live _ _ _ _ L3 A))). change (h_next s3) with (h_next s). rewrite Nr.
    rewrite (bind_ok _ _ _ _ _ (r_next s3 rn (listok_live _ _ _ _ L3 A1))). change (h_next s3) with (h_next s). rewrite N2.
    destruct (removeHalfedge_ok s3 rp L3 A2) as (l4 & x4 & E4 & L4 & M4 & C4). rewrite (bind_ok _ _ _ _ _ E4). clear E4.
    set (lv4 := fupd (h_live s3) rp false) in *. change (m_hes s3) with l3 in M4, C4.
    change (upd_h l4 x4 lv4 s3) with (upd_h l4 x4 lv4 s). clearbody lv4. set (s4 := upd_h l4 x4 lv4 s). clear s3.
    assert (A3 : In rev l4) by (apply M4; auto). assert (A4 : In rn l4) by (apply M4; auto). clear A A1 A2.
    rewrite (bind_ok _ _ _ _ _ (r_next s4 rev (listok_live _ _ _ _ L4 A3))). change (h_next s4) with (h_next s). rewrite Nr.
    destruct (removeHalfedge_ok s4 rn L4 A4) as (l5 & x5 & E5 & L5 & M5 & C5). rewrite (bind_ok _ _ _ _ _ E5). clear E5.
    set (lv5 := fupd (h_live s4) rn false) in *. change (m_hes s4) with l4 in M5, C5.
    change (upd_h l5 x5 lv5 s4) with (upd_h l5 x5 lv5 s). clearbody lv5. set (s5 := upd_h l5 x5 lv5 s). clear s4.
    assert (A : In rev l5) by (apply M5; auto). clear A3 A4.
    destruct (removeHalfedge_ok s5 rev L5 A) as (l6 & x6 & E6 & L6 & M6 & C6). rewrite (bind_ok _ _ _ _ _ E6). clear E6.
    set (lv6 := fupd (h_live s5) rev false) in *. change (m_hes s5) with l5 in M6, C6.
    change (upd_h l6 x6 lv6 s5) with (upd_h l6 x6 lv6 s). clearbody lv6. set (s6 := upd_h l6 x6 lv6 s). clear s5.
    rewrite <- Efs in G0, G1.
    destruct (removeFace_ok s6 f0 FL G0) as (q1 & y1 & E7 & L7 & M7 & C7). rewrite (bind_ok _ _ _ _ _ E7). clear E7.
    set (fv1 := fupd (f_live s6) f0 false) in *. set (s7 := upd_f q1 y1 fv1 s6). change (m_faces s6) with (m_faces s) in M7, C7.
    assert (A3 : In f1 q1) by (apply M7; auto).
    destruct (removeFace_ok s7 f1 L7 A3) as (q2 & y2 & E8 & L8 & M8 & C8). rewrite (bind_ok _ _ _ _ _ E8). clear E8.
    set (fv2 := fupd (f_live s7) f1 false) in *. change (m_faces s7) with q1 in M8, C8.
    change (upd_f q2 y2 fv2 s7) with (upd_f q2 y2 fv2 s6).
    exists l6, x6, lv6, q2, y2, fv2. split; [reflexivity|]. rewrite <- Ehs, <- Efs.
    split; [exact L6|]. split; [|split; [|split; [exact L8|split]]].
    - intros y. rewrite M6, M5, M4, M3, M2, M1. simpl. clear; intuition congruence.
    - clear - C1 C2 C3 C4 C5 C6. lia.
    - intros y. rewrite M8, M7. tauto.
    - clear - C7 C8. lia. }
  destruct EXE as (lh & ixh & lvh & lf & ixf & lvf & E & EXE). rewrite E.
  set (t := upd_f lf ixf lvf (upd_h lh ixh lvh s)). split.
  - intros Hp. destruct (removeVertex_ok t u2) as (l9 & x9 & E9 & L9 & M9 & C9).
    + exact VL.
    + change (m_verts t) with (m_verts s). rewrite Evs; exact V2.
    + change (v_pos t) with (v_pos s). rewrite Evp; exact Hp.
    + rewrite (bind_ok _ _ _ _ _ E9). exists lh, ixh, lvh, lf, ixf, lvf, l9, x9, (fupd (v_live t) u2 false).
      change (m_verts t) with (m_verts s) in M9, C9. rewrite <- Evs.
      split; [reflexivity|]. destruct EXE as (? & ? & ? & ? & ? & ?). repeat (split; [assumption|]). clear - C9; lia.
  - intros Hp. unfold bind. rewrite removeVertex_nan; [reflexivity|exact VL| |].
    + change (m_verts t) with (m_verts s). rewrite Evs; exact V2.
    + change (v_pos t) with (v_pos s). rewrite Evp; exact Hp.
Qed.

Lemma fb_ok (s : mesh N) f :
  h_next s = h_next m -> h_live s = h_live m -> h_bd s = h_bd m -> f_live s = f_live m -> f_he s = f_he m -> m_fresh s = m_fresh m ->
  In f (m_faces m) -> (forall y, In y (m_hes m) -> h_face m y = Some f -> h_bd m y = false) ->
  f_isBoundary (Some f) s = Ok (false, s).
Proof.
  intros En El Eb Ef Eh Er Hf Hb. destruct (fring m W f Hf) as (h & l & Ehe & Hr).
  pose proof (fring_len m W _ _ Hr) as Hlen. destruct Hr as (Hc & Hnd & Hin).
  unfold f_isBoundary, circ_f. rewrite (bind_ok _ _ _ _ _ (r_fhe s f ltac:(rewrite Ef; apply (f_alive m W); exact Hf))), bind_get, Eh, Ehe, Er.
  rewrite (circ_chain s (h_next m) step_f _ (fun _ y => if h_bd m y then (true, true) else (false, false)) h l h (S (m_fresh m)) false).
  - rewrite bfold_exists. replace (existsb (h_bd m) (h :: l)) with false; [reflexivity|].
    symmetry. apply not_true_iff_false. intros C. apply existsb_exists in C as (y & Hy & Ey). apply Hin in Hy as [Iy Fy].
    rewrite (Hb y Iy Fy) in Ey. discriminate.
  - exact Hc.
  - inversion Hnd; assumption.
  - simpl in *; lia.
  - intros y Hy. unfold step_f. rewrite r_next; [rewrite En; reflexivity|]. rewrite El. apply (h_alive m W), Hin, Hy.
  - intros y a Hy. rewrite (bind_ok _ _ _ _ _ (r_bd s y ltac:(rewrite El; apply (h_alive m W), Hin, Hy))), Eb.
    destruct (h_bd m y); reflexivity.
Qed.

(** The state before the removals. *)
Definition wired (s : nat -> ptr) : mesh N :=
  set_v_he u3 (Some o3) (set_v_he u2 (Some o2) (set_v_he u1 (Some o1) (set_v_he u0 (Some o0) (set_v_he u0 (Some o0)
  (set_h_rev o3 (Some o2) (set_h_rev o2 (Some o3) (set_h_rev o1 (Some o0) (set_h_rev o0 (Some o1) (with_src s m))))))))).

Lemma wire_exec (s : nat -> ptr) :
  collapse_wire (Some he) (Some rev) (Some u0) (Some u1) (Some u2) (Some u3) (with_src s m) =
  collapse_remove (Some he) (Some rev) (Some f0) (Some f1) (Some u2) (wired s).
Proof.
  destruct o_facts as (J0 & J1 & J2 & J3 & Q0 & Q1 & Q2 & Q3 & _). destruct o_neq as [OD ON].
  assert (Hf0 : forall y, In y (m_hes m) -> h_face m y = Some f0 -> h_bd m y = false).
  { intros y Hy Fy. destruct (diamond_f0 _ _ _ _ _ _ _ _ _ _ _ _ _ y W D Hy Fy) as [->|[->| ->]]; assumption. }
  assert (Hf1 : forall y, In y (m_hes m) -> h_face m y = Some f1 -> h_bd m y = false).
  { intros y Hy Fy. destruct (diamond_f1 _ _ _ _ _ _ _ _ _ _ _ _ _ y W D Hy Fy) as [->|[->| ->]]; assumption. }
  destruct D as [I Ir I0 I1 I2 I3 V0 V1 V2 V3 G0 G1 R Rr Nh N0 N1 Nr N2 N3 S S0 S1 Sr S2 S3 F F0 F1 Fr F2 F3 ND UN FN].
  assert (X0 : rp <> o0 /\ rp <> o1 /\ rn <> o0 /\ rn <> o1).
  { pose proof (ON o0 ltac:(simpl; tauto)) as Y0. pose proof (ON o1 ltac:(simpl; tauto)) as Y1. simpl in Y0, Y1. intuition congruence. }
  destruct X0 as (X1 & X2 & X3 & X4).
  pose proof (h_alive m W _ I) as L. pose proof (h_alive m W _ Ir) as Lr. pose proof (h_alive m W _ I0) as L0.
  pose proof (h_alive m W _ I1) as L1. pose proof (h_alive m W _ I2) as L2. pose proof (h_alive m W _ I3) as L3.
  pose proof (h_alive m W _ J0) as K0. pose proof (h_alive m W _ J1) as K1. pose proof (h_alive m W _ J2) as K2. pose proof (h_alive m W _ J3) as K3.
  pose proof (v_alive m W _ V0) as A0. pose proof (v_alive m W _ V1) as A1. pose proof (v_alive m W _ V2) as A2. pose proof (v_alive m W _ V3) as A3.
  unfold collapse_wire.
  rewrite (bind_ok _ _ _ _ _ (r_next (with_src s m) he L)). cbn [h_next with_src]. rewrite Nh.
  rewrite (bind_ok _ _ _ _ _ (r_next (with_src s m) hn L0)). cbn [h_next with_src]. rewrite N0.
  rewrite (bind_ok _ _ _ _ _ (r_rev (with_src s m) hp L1)). cbn [h_rev with_src]. rewrite R0.
  rewrite (bind_ok _ _ _ _ _ (r_next (with_src s m) he L)). cbn [h_next with_src]. rewrite Nh.
  rewrite (bind_ok _ _ _ _ _ (r_rev (with_src s m) hn L0)). cbn [h_rev with_src]. rewrite R1.
  rewrite (bind_ok _ _ _ _ _ (ww_rev (with_src s m) o0 (Some o1) K0)).
  set (a1 := set_h_rev o0 (Some o1) (with_src s m)).
  rewrite (bind_ok _ _ _ _ _ (ww_rev a1 o1 (Some o0) K1)).
  set (a2 := set_h_rev o1 (Some o0) a1).
  rewrite (bind_ok _ _ _ _ _ (r_next a2 rev Lr)). change (h_next a2) with (h_next m). rewrite Nr.
  rewrite (bind_ok _ _ _ _ _ (r_next a2 rn L2)). change (h_next a2) with (h_next m). rewrite N2.
  rewrite (bind_ok _ _ _ _ _ (r_rev a2 rp L3)).
  replace (h_rev a2 rp) with (Some o2) by (unfold a2, a1; cbn [h_rev set_h_rev with_src]; rewrite !fupd_other by assumption; symmetry; exact R2).
  rewrite (bind_ok _ _ _ _ _ (r_next a2 rev Lr)). change (h_next a2) with (h_next m). rewrite Nr.
  rewrite (bind_ok _ _ _ _ _ (r_rev a2 rn L2)).
  replace (h_rev a2 rn) with (Some o3) by (unfold a2, a1; cbn [h_rev set_h_rev with_src]; rewrite !fupd_other by assumption; symmetry; exact R3).
  rewrite (bind_ok _ _ _ _ _ (ww_rev a2 o2 (Some o3) K2)). set (a3 := set_h_rev o2 (Some o3) a2).
  rewrite (bind_ok _ _ _ _ _ (ww_rev a3 o3 (Some o2) K3)). set (a4 := set_h_rev o3 (Some o2) a3).
  rewrite (bind_ok _ _ _ _ _ (ww_vhe a4 u0 (Some o0) A0)). set (a5 := set_v_he u0 (Some o0) a4).
  rewrite (bind_ok _ _ _ _ _ (ww_vhe a5 u0 (Some o0) A0)). set (a6 := set_v_he u0 (Some o0) a5).
  rewrite (bind_ok _ _ _ _ _ (ww_vhe a6 u1 (Some o1) A1)). set (a7 := set_v_he u1 (Some o1) a6).
  rewrite (bind_ok _ _ _ _ _ (ww_vhe a7 u2 (Some o2) A2)). set (a8 := set_v_he u2 (Some o2) a7).
  rewrite (bind_ok _ _ _ _ _ (ww_vhe a8 u3 (Some o3) A3)). change (set_v_he u3 (Some o3) a8) with (wired s).
  rewrite (bind_ok _ _ _ _ _ (r_face (wired s) he L)). change (h_face (wired s)) with (h_face m). rewrite F.
  rewrite (bind_ok _ _ _ _ _ (r_face (wired s) rev Lr)). change (h_face (wired s)) with (h_face m). rewrite Fr.
  rewrite (bind_ok _ _ _ _ _ (fb_ok (wired s) f0 eq_refl eq_refl eq_refl eq_refl eq_refl eq_refl G0 Hf0)), bind_assert by reflexivity.
  rewrite (bind_ok _ _ _ _ _ (fb_ok (wired s) f1 eq_refl eq_refl eq_refl eq_refl eq_refl eq_refl G1 Hf1)), bind_assert by reflexivity.
  reflexivity.
Qed.

Lemma with_src_id (x : mesh N) : with_src (h_src x) x = x.
Proof. destruct x; reflexivity. Qed.

Lemma idx_lt v : In v (m_verts m) -> (v_idx m v <? Z.of_nat (length (m_verts m)))%Z = true.
Proof.
  intros Hv. apply In_nth_error in Hv as (i & Hi). destruct (wf_v_elem m W _ _ Hi) as (_ & E & _).
  apply Z.ltb_lt. rewrite E. assert (i < length (m_verts m)) by (apply nth_error_Some; rewrite Hi; discriminate). clear - H. lia.
Qed.

Lemma tail_exec : exists s,
  (forall y, In y (m_hes m) -> s y = if ptr_eqb (h_src m y) (Some u2) then Some u0 else h_src m y) /\
  collapse_tail (Z.of_nat (length (m_verts m))) (Some he) (Some rev) (Some u0) (Some u1) (Some u2) (Some u3) m =
  collapse_remove (Some he) (Some rev) (Some f0) (Some f1) (Some u2) (wired s).
Proof.
  assert (V0 := d_u0 _ _ _ _ _ _ _ _ _ _ _ _ _ D). assert (V2 := d_u2 _ _ _ _ _ _ _ _ _ _ _ _ _ D).
  assert (U02 : u0 <> u2) by (destruct (d_uneq _ _ _ _ _ _ _ _ _ _ _ _ _ D); assumption).
  destruct (vring m W u2 V2) as (h2 & l2 & Eh2 & Hr2). destruct (vring m W u0 V0) as (h0 & l0 & Eh0 & Hr0).
  pose proof (vring_len m W _ _ Hr2) as Hl2. pose proof (vring_len m W _ _ Hr0) as Hl0.
  destruct Hr2 as (Hc2 & Hnd2 & Hin2). destruct Hr0 as (Hc0 & Hnd0 & Hin0).
  set (s := wr_src (h2 :: l2) (Some u0) (h_src m)).
  assert (Hs : forall y, In y (m_hes m) -> s y = if ptr_eqb (h_src m y) (Some u2) then Some u0 else h_src m y).
  { intros y Hy. unfold s. rewrite wr_src_spec. destruct (in_dec Nat.eq_dec y (h2 :: l2)) as [C|C].
    - apply Hin2 in C as [_ C]. rewrite C, ptr_eqb_refl. reflexivity.
    - destruct (ptr_eqb (h_src m y) (Some u2)) eqn:E; [|reflexivity]. exfalso; apply C, Hin2. split; [exact Hy|apply ptr_eqb_eq; exact E]. }
  exists s. split; [exact Hs|].
  unfold collapse_tail.
  rewrite (bind_ok _ _ _ _ _ (r_vidx m u0 (v_alive m W _ V0))), bind_assert by (apply idx_lt; exact V0).
  rewrite (bind_ok _ _ _ _ _ (r_vidx m u2 (v_alive m W _ V2))), bind_assert by (apply idx_lt; exact V2).
  rewrite bind_assert by (apply negb_true_iff, ptr_eqb_neq; congruence).
  unfold circ_v at 1. rewrite bind_assoc, (bind_ok _ _ _ _ _ (r_vhe m u2 (v_alive m W _ V2))), bind_assoc, bind_get, Eh2.
  pose proof (src_loop_ok m W u2 u0 h2 l2 h2 (h_src m) (Datatypes.S (m_fresh m)) Hc2) as E.
  rewrite with_src_id in E. rewrite (bind_ok _ _ _ _ _ (E ltac:(inversion Hnd2; assumption) Hnd2 ltac:(lia) (fun y Hy => proj1 (Hin2 y) Hy))). clear E.
  fold s. unfold circ_v. rewrite bind_assoc, (bind_ok _ _ _ _ _ (r_vhe (with_src s m) u0 (v_alive m W _ V0))), bind_assoc, bind_get.
  cbn [v_he m_fresh with_src]. rewrite Eh0.
  assert (Hb : forall y (a : unit), In y (h0 :: l0) ->
    (t <- he_src (Some y) ;; assertion (ptr_eqb t (Some u0)) ;; ret (tt, false)) (with_src s m) = Ok ((tt, false), with_src s m)).
  { intros y _ Hy. apply Hin0 in Hy as [Iy Sy].
    rewrite (bind_ok _ _ _ _ _ (r_src (with_src s m) y (h_alive m W _ Iy))). cbn [h_src with_src].
    rewrite (Hs y Iy), Sy. rewrite (proj2 (ptr_eqb_neq (Some u0) (Some u2))) by congruence.
    rewrite bind_assert by apply ptr_eqb_refl. reflexivity. }
  pose proof (circ_chain (with_src s m) (rot m) step_v
    (fun _ it => t <- he_src it ;; assertion (ptr_eqb t (Some u0)) ;; ret (tt, false)) (fun _ _ => (tt, false)) h0 l0 h0 (Datatypes.S (m_fresh m)) tt
    Hc0 ltac:(inversion Hnd0; assumption) ltac:(lia)
    (fun y Hy => step_v_src m W s y (proj1 (proj1 (Hin0 y) Hy))) Hb) as E.
  rewrite (bind_ok _ _ _ _ _ E).
  apply wire_exec.
Qed.

Lemma tail_ok :
  (veqb (v_pos m u2) (v_pos m u2) = true -> exists m',
   collapse_tail (Z.of_nat (length (m_verts m))) (Some he) (Some rev) (Some u0) (Some u1) (Some u2) (Some u3) m = Ok (true, m') /\
   CollT m m' he rev hn hp rn rp o0 o1 o2 o3 u0 u1 u2 u3 f0 f1) /\
  (veqb (v_pos m u2) (v_pos m u2) = false ->
   collapse_tail (Z.of_nat (length (m_verts m))) (Some he) (Some rev) (Some u0) (Some u1) (Some u2) (Some u3) m = Abort AAssert).
Proof.
  destruct tail_exec as (s & Hs & E). rewrite E.
  destruct (remove_exec (wired s) eq_refl eq_refl eq_refl eq_refl eq_refl eq_refl eq_refl eq_refl eq_refl eq_refl eq_refl) as [A B].
  split; [|exact B]. intros Hp. destruct (A Hp) as (lh & ixh & lvh & lf & ixf & lvf & lv & ixv & lvv & E' & L1 & M1 & C1 & L2 & M2 & C2 & L3 & M3 & C3).
  eexists; split; [exact E'|]. destruct o_neq as [OD ON].
  assert (OD' : o0 <> o1 /\ o0 <> o2 /\ o0 <> o3 /\ o1 <> o2 /\ o1 <> o3 /\ o2 <> o3).
  { repeat match goal with H : NoDup (_ :: _) |- _ => inversion H; clear H; subst end. simpl in *; intuition congruence. }
  destruct OD' as (? & ? & ? & ? & ? & ?).
  destruct (d_uneq _ _ _ _ _ _ _ _ _ _ _ _ _ D) as (? & ? & ? & ? & ?).
  constructor; try reflexivity; try assumption.
  - repeat split; unfold wired; cbn [h_rev upd_v upd_f upd_h set_v_he set_h_rev]; fu; reflexivity.
  - intros y ? ? ? ?; unfold wired; cbn [h_rev upd_v upd_f upd_h set_v_he set_h_rev with_src]; fu; reflexivity.
  - repeat split; unfold wired; cbn [v_he upd_v upd_f upd_h set_v_he set_h_rev]; fu; reflexivity.
  - intros v ? ? ? ?; unfold wired; cbn [v_he upd_v upd_f upd_h set_v_he set_h_rev with_src]; fu; reflexivity.
Qed.

End CollapseExec.

Section CollapseChecks.
Context {N : Num}.
Variable m : mesh N.
Hypothesis V : Valid m.
Let W : WF m := valid_wf m V.

Lemma bfold_filter (p : nat -> bool) l acc :
  bfold (fun a y => (if p y then (a + 1)%Z else a, false)) acc l = (acc + Z.of_nat (length (filter p l)))%Z.
Proof.
  revert acc; induction l as [|y l IH]; intros acc; cbn [bfold filter fst snd]; [cbn; lia|].
  rewrite IH. destruct (p y); cbn [length]; lia.
Qed.

Lemma mmap_pos (ys : list nat) : (forall y, In y ys -> In y (m_hes m)) -> exists ps, mmap ve_pos (map (dst_of m) ys) m = Ok (ps, m).
Proof.
  induction ys as [|y ys IH]; intros H; [exists []; reflexivity|].
  destruct IH as (ps & E); [intros z Hz; apply H; right; exact Hz|].
  destruct (wf_rev m W y (H y (or_introl eq_refl))) as (r & Er & Jr). destruct (wf_src m W r Jr) as (v & Ev & Jv).
  exists (v_pos m v :: ps). cbn [map mmap].
  replace (dst_of m y) with (Some v) by (unfold dst_of; rewrite Er; symmetry; exact Ev).
  rewrite (bind_ok _ _ _ _ _ (r_pos m v (v_alive m W _ Jv))), (bind_ok _ _ _ _ _ E). reflexivity.
Qed.

Lemma nodup_incl2 (l : list nat) a b : NoDup l -> length l = 2 -> In a l -> In b l -> a <> b -> forall c, In c l -> c = a \/ c = b.
Proof.
  intros Hnd Hl Ha Hb Hab c Hc. destruct l as [|x [|y [|z l]]]; simpl in *; try lia.
  all: try (intuition congruence).
Qed.

Definition Common (u0 u1 u2 u3 : nat) : Prop :=
  forall y z w, In y (m_hes m) -> In z (m_hes m) -> h_src m y = Some u0 -> dst_of m y = Some w ->
    h_src m z = Some u2 -> dst_of m z = Some w -> w = u1 \/ w = u3.

Record CollapseCond (he rev hn hp rn rp u0 u1 u2 u3 f0 f1 : nat) : Prop := {
  cc_diamond : Diamond m he rev hn hp rn rp u0 u1 u2 u3 f0 f1;
  cc_bd : forall y, In y [he; hn; hp; rev; rn; rp] -> h_bd m y = false;
  cc_deg : 3 < deg_of m u0 /\ 4 < deg_of m u1 /\ 3 < deg_of m u2 /\ 4 < deg_of m u3;
  cc_common : Common u0 u1 u2 u3
}.

Lemma mid_cases he rev : In he (m_hes m) -> h_rev m he = Some rev ->
  collapse_mid (Some he) (Some rev) m = Ok (false, m) \/
  exists hn hp rn rp u0 u1 u2 u3 f0 f1, CollapseCond he rev hn hp rn rp u0 u1 u2 u3 f0 f1 /\
    collapse_mid (Some he) (Some rev) m =
    collapse_tail (Z.of_nat (length (m_verts m))) (Some he) (Some rev) (Some u0) (Some u1) (Some u2) (Some u3) m.
Proof.
  intros I R. pose proof (rev_in m W _ _ I R) as Ir. pose proof (h_alive m W _ I) as L. pose proof (h_alive m W _ Ir) as Lr.
  destruct (wf_face m W _ I) as (f0 & F0 & G0). destruct (wf_face m W _ Ir) as (f1 & F1 & G1).
  destruct (fring m W f0 G0) as (x0 & l0 & E0 & Hr0). destruct (fring m W f1 G1) as (x1 & l1 & E1 & Hr1).
  unfold collapse_mid.
  rewrite (bind_ok _ _ _ _ _ (r_face m he L)), F0.
  rewrite (bind_ok _ _ _ _ _ (f_isBoundary_ok m W f0 x0 l0 G0 E0 Hr0)).
  destruct (existsb (h_bd m) (x0 :: l0)) eqn:B0; [left; reflexivity|].
  rewrite bind_assoc, (bind_ok _ _ _ _ _ (r_rev m he L)), R, bind_assoc, (bind_ok _ _ _ _ _ (r_face m rev Lr)), F1.
  rewrite (bind_ok _ _ _ _ _ (f_isBoundary_ok m W f1 x1 l1 G1 E1 Hr1)).
  destruct (existsb (h_bd m) (x1 :: l1)) eqn:B1; [left; reflexivity|]. cbn [orb].
  assert (Q0 : forall y, In y (m_hes m) -> h_face m y = Some f0 -> h_bd m y = false).
  { intros y Hy Fy. destruct (h_bd m y) eqn:E; [|reflexivity]. rewrite <- B0. symmetry. apply existsb_exists. exists y. split; [apply Hr0; auto|exact E]. }
  assert (Q1 : forall y, In y (m_hes m) -> h_face m y = Some f1 -> h_bd m y = false).
  { intros y Hy Fy. destruct (h_bd m y) eqn:E; [|reflexivity]. rewrite <- B1. symmetry. apply existsb_exists. exists y. split; [apply Hr1; auto|exact E]. }
  destruct (diamond_exists m he rev W (valid_noloops m V) I R (valid_tri m V _ I (Q0 _ I F0)) (valid_tri m V _ Ir (Q1 _ Ir F1)))
    as (hn & hp & rn & rp & u0 & u1 & u2 & u3 & f0' & f1' & D).
  assert (D' := D). destruct D' as [_ _ I0 I1 I2 I3 V0 V1 V2 V3 _ _ _ Rr Nh N0 N1 Nr N2 N3 S S0 S1 Sr S2 S3 F F0' F1' Fr F2 F3 ND UN FN].
  assert (f0' = f0) by congruence. assert (f1' = f1) by congruence. subst f0' f1'.
  destruct (he_prev_ok m W he I) as (p & Ep & Ip & Np). assert (p = hp) by (eapply (next_inj m W); eassumption). subst p.
  destruct (he_prev_ok m W rev Ir) as (p & Ep' & Ip' & Np'). assert (p = rp) by (eapply (next_inj m W); eassumption). subst p.
  rewrite (bind_ok _ _ _ _ _ (r_src m he L)), S.
  rewrite (bind_ok _ _ _ _ _ Ep), (bind_ok _ _ _ _ _ (r_src m hp (h_alive m W _ I1))), S1.
  rewrite (bind_ok _ _ _ _ _ (r_src m rev Lr)), Sr.
  rewrite (bind_ok _ _ _ _ _ Ep'), (bind_ok _ _ _ _ _ (r_src m rp (h_alive m W _ I3))), S3.
  rewrite bind_get.
  rewrite (bind_ok _ _ _ _ _ (r_vidx m u0 (v_alive m W _ V0))), bind_assert by (apply (idx_lt m W); assumption).
  rewrite (bind_ok _ _ _ _ _ (r_vidx m u1 (v_alive m W _ V1))), bind_assert by (apply (idx_lt m W); assumption).
  rewrite (bind_ok _ _ _ _ _ (r_vidx m u2 (v_alive m W _ V2))), bind_assert by (apply (idx_lt m W); assumption).
  rewrite (bind_ok _ _ _ _ _ (r_vidx m u3 (v_alive m W _ V3))), bind_assert by (apply (idx_lt m W); assumption).
  unfold collapse_deg.
  rewrite (bind_ok _ _ _ _ _ (deg_ok m u0 W V0)), (bind_ok _ _ _ _ _ (deg_ok m u1 W V1)), (bind_ok _ _ _ _ _ (deg_ok m u2 W V2)), (bind_ok _ _ _ _ _ (deg_ok m u3 W V3)).
  destruct ((Z.of_nat (deg_of m u0) <=? 3) || (Z.of_nat (deg_of m u1) <=? 4) || (Z.of_nat (deg_of m u2) <=? 3) || (Z.of_nat (deg_of m u3) <=? 4))%Z eqn:EC;
    [left; reflexivity|].
  apply orb_false_iff in EC as [EC C3]. apply orb_false_iff in EC as [EC C2]. apply orb_false_iff in EC as [C0 C1].
  apply Z.leb_gt in C0, C1, C2, C3.
  destruct (vring m W u2 V2) as (h2 & l2 & Eh2 & Hr2). destruct (vring m W u0 V0) as (h0 & lz & Eh0 & Hr0').
  assert (DS : forall y, In y (m_hes m) -> exists v, dst_of m y = Some v).
  { intros y Hy. destruct (wf_rev m W y Hy) as (r & Er & Jr). destruct (wf_src m W r Jr) as (v & Ev & Jv).
    exists v. unfold dst_of; rewrite Er; exact Ev. }
  rewrite (bind_ok _ _ _ _ _ (circ_v_ok m W u2 h2 l2
     (fun acc it => d <- he_dst it ;; assertion (negb (ptr_eqb d None)) ;; ret (acc ++ [d], false))
     (fun a y => (a ++ [dst_of m y], false)) [] V2 Eh2 Hr2
     ltac:(intros y a Hy _; cbv beta; rewrite (bind_ok _ _ _ _ _ (dst_of_ok m W y Hy)); destruct (DS y Hy) as (v & ->); reflexivity))).
  rewrite bfold_collect, bind_assert by reflexivity. cbn [app].
  set (nb := map (dst_of m) (h2 :: l2)).
  rewrite (bind_ok _ _ _ _ _ (circ_v_ok m W u0 h0 lz
     (fun acc it => d <- he_dst it ;; assertion (negb (ptr_eqb d None)) ;; ret (if pmem d nb then acc + 1 else acc, false)%Z)
     (fun a y => (if pmem (dst_of m y) nb then (a + 1)%Z else a, false)) 0%Z V0 Eh0 Hr0'
     ltac:(intros y a Hy _; cbv beta; rewrite (bind_ok _ _ _ _ _ (dst_of_ok m W y Hy)); destruct (DS y Hy) as (v & ->); reflexivity))).
  rewrite (bfold_filter (fun y => pmem (dst_of m y) nb)).
  destruct (Z.eqb_spec (0 + Z.of_nat (length (filter (fun y => pmem (dst_of m y) nb) (h0 :: lz)))) 2)%Z as [EU|EU]; [|left; reflexivity].
  cbn [negb].
  assert (NB : forall w, pmem (Some w) nb = true <-> exists z, In z (m_hes m) /\ h_src m z = Some u2 /\ dst_of m z = Some w).
  { intros w. unfold pmem. rewrite existsb_exists. split.
    - intros (d & Hd & Ed). apply ptr_eqb_eq in Ed; subst d. unfold nb in Hd. apply in_map_iff in Hd as (z & Ez & Hz).
      apply Hr2 in Hz as [Iz Sz]. exists z; auto.
    - intros (z & Iz & Sz & Dz). exists (Some w). split; [|apply ptr_eqb_refl]. unfold nb. rewrite <- Dz. apply in_map. apply Hr2; auto. }
  unfold collapse_geo.
  rewrite (bind_ok _ _ _ _ _ (r_pos m u2 (v_alive m W _ V2))).
  destruct (mmap_pos (h2 :: l2)) as (nps & Eps); [intros y Hy; apply Hr2, Hy|]. fold nb in Eps.
  rewrite (bind_ok _ _ _ _ _ Eps). cbv zeta.
  destruct (neqb (vlength (ring_norm (v_pos m u2) nps)) nzero) eqn:EL; [left; reflexivity|].
  unfold normalize, vdiv. rewrite EL. cbn [lift]. rewrite bind_ret.
  rewrite (bind_ok _ _ _ _ _ (r_pos m u0 (v_alive m W _ V0))).
  match goal with |- context [if ring_flips ?a ?b ?c ?d ?e ?f then _ else _] => destruct (ring_flips a b c d e f) end; [left; reflexivity|].
  right. exists hn, hp, rn, rp, u0, u1, u2, u3, f0, f1. split; [|reflexivity].
  assert (U13 : u1 <> u3) by (apply (diamond_u13 m he rev hn hp rn rp u0 u1 u2 u3 f0 f1 W (valid_noparallel m V) D); lia).
  destruct (wf_rev m W _ I1) as (o0 & R0 & _). destruct (wf_rev m W _ I0) as (o1 & R1 & _).
  destruct (wf_rev m W _ I3) as (o2 & R2 & _). destruct (wf_rev m W _ I2) as (o3 & R3 & _).
  destruct (o_facts m he rev hn hp rn rp u0 u1 u2 u3 f0 f1 o0 o1 o2 o3 W D R0 R1 R2 R3) as (J0 & J1 & J2 & J3 & P0 & P1 & P2 & P3 & T0 & T1 & T2 & T3).
  constructor; [exact D| |lia|].
  - intros y Hy. simpl in Hy. destruct Hy as [<-|[<-|[<-|[<-|[<-|[<-|[]]]]]]]; first [apply Q0; assumption|apply Q1; assumption].
  - intros y z w Hy Hz Sy Dy Sz Dz.
    set (fl := filter (fun y => pmem (dst_of m y) nb) (h0 :: lz)) in EU.
    assert (Hnd : NoDup fl) by (apply NoDup_filter, Hr0').
    assert (Ho0 : In o0 fl).
    { apply filter_In. split; [apply Hr0'; auto|]. replace (dst_of m o0) with (Some u1) by (unfold dst_of; rewrite P0; symmetry; exact S1).
      apply NB. exists hn. split; [exact I0|split; [exact S0|]]. unfold dst_of; rewrite R1; exact T1. }
    assert (Hrn : In rn fl).
    { apply filter_In. split; [apply Hr0'; auto|]. replace (dst_of m rn) with (Some u3) by (unfold dst_of; rewrite R3; symmetry; exact T3).
      apply NB. exists o2. split; [exact J2|split; [exact T2|]]. unfold dst_of; rewrite P2; exact S3. }
    assert (Hyf : In y fl).
    { apply filter_In. split; [apply Hr0'; auto|]. rewrite Dy. apply NB. exists z; auto. }
    assert (Hor : o0 <> rn).
    { intros ->. assert (hp = o3) by congruence. subst o3. congruence. }
    destruct (nodup_incl2 fl o0 rn Hnd ltac:(lia) Ho0 Hrn Hor y Hyf) as [->| ->].
    + left. unfold dst_of in Dy. rewrite P0 in Dy. congruence.
    + right. unfold dst_of in Dy. rewrite R3 in Dy. congruence.
Qed.

Lemma CollapseCond_u13 he rev hn hp rn rp u0 u1 u2 u3 f0 f1 : CollapseCond he rev hn hp rn rp u0 u1 u2 u3 f0 f1 -> u1 <> u3.
Proof.
  intros [D _ (C & _) _]. apply (diamond_u13 m he rev hn hp rn rp u0 u1 u2 u3 f0 f1 W (valid_noparallel m V) D). lia.
Qed.

(** collapseHE on a half-edge of a valid mesh. *)
Lemma collapse_exec he : In he (m_hes m) ->
  collapseHE (Some he) m = Ok (false, m) \/
  exists a b hn hp rn rp u0 u1 u2 u3 f0 f1 o0 o1 o2 o3,
    h_rev m a = Some b /\ (a = he \/ b = he) /\
    CollapseCond a b hn hp rn rp u0 u1 u2 u3 f0 f1 /\
    h_rev m hp = Some o0 /\ h_rev m hn = Some o1 /\ h_rev m rp = Some o2 /\ h_rev m rn = Some o3 /\
    deg_of m u0 <= deg_of m u2 /\
    (veqb (v_pos m u2) (v_pos m u2) = true -> exists m', collapseHE (Some he) m = Ok (true, m') /\
       CollT m m' a b hn hp rn rp o0 o1 o2 o3 u0 u1 u2 u3 f0 f1) /\
    (veqb (v_pos m u2) (v_pos m u2) = false -> collapseHE (Some he) m = Abort AAssert).
Proof.
  intros I. destruct (wf_rev m W _ I) as (rev & R & Ir). pose proof (rev_rev m W _ _ I R) as Rr.
  pose proof (h_alive m W _ I) as L. pose proof (h_alive m W _ Ir) as Lr.
  destruct (wf_src m W _ I) as (a0 & S0 & V0). destruct (wf_src m W _ Ir) as (a2 & S2 & V2).
  assert (HI : forall y, In y (m_hes m) -> (h_idx m y <? Z.of_nat (length (m_hes m)))%Z = true).
  { intros y Hv. apply In_nth_error in Hv as (i & Hi). destruct (wf_h_elem m W _ _ Hi) as (_ & E & _).
    apply Z.ltb_lt. rewrite E. assert (i < length (m_hes m)) by (apply nth_error_Some; congruence). lia. }
  assert (E : collapseHE (Some he) m = collapse_mid (if (Z.of_nat (deg_of m a0) >? Z.of_nat (deg_of m a2))%Z then Some rev else Some he)
        (if (Z.of_nat (deg_of m a0) >? Z.of_nat (deg_of m a2))%Z then Some he else Some rev) m).
  { rewrite collapse_text. rewrite (bind_ok _ _ _ _ _ (r_rev m he L)), R, bind_get.
    rewrite (bind_ok _ _ _ _ _ (r_hidx m he L)), bind_assert by (apply HI; assumption).
    rewrite (bind_ok _ _ _ _ _ (r_hidx m rev Lr)), bind_assert by (apply HI; assumption).
    rewrite (bind_ok _ _ _ _ _ (r_src m he L)), S0, (bind_ok _ _ _ _ _ (deg_ok m a0 W V0)).
    rewrite (bind_ok _ _ _ _ _ (r_src m rev Lr)), S2, (bind_ok _ _ _ _ _ (deg_ok m a2 W V2)). reflexivity. }
  rewrite E. clear E.
  assert (K : forall a b u w, In a (m_hes m) -> h_rev m a = Some b -> (a = he \/ b = he) ->
     h_src m a = Some u -> h_src m b = Some w -> deg_of m u <= deg_of m w ->
     collapse_mid (Some a) (Some b) m = Ok (false, m) \/
     exists a' b' hn hp rn rp u0 u1 u2 u3 f0 f1 o0 o1 o2 o3,
      h_rev m a' = Some b' /\ (a' = he \/ b' = he) /\
      CollapseCond a' b' hn hp rn rp u0 u1 u2 u3 f0 f1 /\
      h_rev m hp = Some o0 /\ h_rev m hn = Some o1 /\ h_rev m rp = Some o2 /\ h_rev m rn = Some o3 /\
      deg_of m u0 <= deg_of m u2 /\
      (veqb (v_pos m u2) (v_pos m u2) = true -> exists m', collapse_mid (Some a) (Some b) m = Ok (true, m') /\
         CollT m m' a' b' hn hp rn rp o0 o1 o2 o3 u0 u1 u2 u3 f0 f1) /\
      (veqb (v_pos m u2) (v_pos m u2) = false -> collapse_mid (Some a) (Some b) m = Abort AAssert)).
  { intros a b u w Ia Rab Hab Su Sw Hd. destruct (mid_cases a b Ia Rab) as [E|(hn & hp & rn & rp & u0 & u1 & u2 & u3 & f0 & f1 & C & E)]; [left; exact E|].
    right. assert (D := cc_diamond _ _ _ _ _ _ _ _ _ _ _ _ C).
    destruct (wf_rev m W _ (d_he1 _ _ _ _ _ _ _ _ _ _ _ _ _ D)) as (o0 & R0 & _). destruct (wf_rev m W _ (d_he0 _ _ _ _ _ _ _ _ _ _ _ _ _ D)) as (o1 & R1 & _).
    destruct (wf_rev m W _ (d_he3 _ _ _ _ _ _ _ _ _ _ _ _ _ D)) as (o2 & R2 & _). destruct (wf_rev m W _ (d_he2 _ _ _ _ _ _ _ _ _ _ _ _ _ D)) as (o3 & R3 & _).
    assert (u0 = u) by (pose proof (d_s_he _ _ _ _ _ _ _ _ _ _ _ _ _ D); congruence).
    assert (u2 = w) by (pose proof (d_s_rev _ _ _ _ _ _ _ _ _ _ _ _ _ D); congruence). subst u w.
    exists a, b, hn, hp, rn, rp, u0, u1, u2, u3, f0, f1, o0, o1, o2, o3.
    repeat (split; [assumption|]). rewrite E.
    apply (tail_ok m a b hn hp rn rp u0 u1 u2 u3 f0 f1 o0 o1 o2 o3 W D (CollapseCond_u13 _ _ _ _ _ _ _ _ _ _ _ _ C) R0 R1 R2 R3);
      apply (cc_bd _ _ _ _ _ _ _ _ _ _ _ _ C); simpl; tauto. }
  destruct (Z.gtb_spec (Z.of_nat (deg_of m a0)) (Z.of_nat (deg_of m a2))) as [C|C].
  - apply (K rev he a2 a0); auto; lia.
  - apply (K he rev a0 a2); auto; lia.
Qed.

End CollapseChecks.
