(** Proofs about splitHE. *)
From Coq Require Import List ZArith Arith Lia Bool.
From Verif Require Import Num Vec Heap Mesh Spec Orbit Rings Exec Diamond.
Import ListNotations.
Local Open Scope mesh_scope.

(** Everything the validity proof needs to know about the final state [m']. *)
Record SplitT {N : Num} (m m' : mesh N) (he rev he0 he1 he2 he3 u0 u1 u2 u3 f0 f1 nh h01 h02 rn h11 h12 g0 g1 vn : nat) : Prop := {
  t_hes : m_hes m' = m_hes m ++ [nh; rn; h01; h02; h11; h12];
  t_verts : m_verts m' = m_verts m ++ [vn];
  t_faces : m_faces m' = m_faces m ++ [g0; g1];
  t_hnd : NoDup (m_hes m'); t_vnd : NoDup (m_verts m'); t_fnd : NoDup (m_faces m');
  t_h_elem : forall i y, nth_error (m_hes m') i = Some y -> h_live m' y = true /\ h_idx m' y = Z.of_nat i /\ y < m_fresh m';
  t_v_elem : forall i y, nth_error (m_verts m') i = Some y -> v_live m' y = true /\ v_idx m' y = Z.of_nat i /\ y < m_fresh m';
  t_f_elem : forall i y, nth_error (m_faces m') i = Some y -> f_live m' y = true /\ f_idx m' y = Z.of_nat i /\ y < m_fresh m';
  t_n : h_next m' he = Some he0 /\ h_next m' he0 = Some h01 /\ h_next m' h01 = Some he /\
        h_next m' nh = Some h02 /\ h_next m' h02 = Some he1 /\ h_next m' he1 = Some nh /\
        h_next m' rev = Some h11 /\ h_next m' h11 = Some he3 /\ h_next m' he3 = Some rev /\
        h_next m' rn = Some he2 /\ h_next m' he2 = Some h12 /\ h_next m' h12 = Some rn;
  t_r : h_rev m' nh = Some rn /\ h_rev m' rn = Some nh /\ h_rev m' h01 = Some h02 /\ h_rev m' h02 = Some h01 /\
        h_rev m' h11 = Some h12 /\ h_rev m' h12 = Some h11;
  t_f : h_face m' he = Some f0 /\ h_face m' he0 = Some f0 /\ h_face m' h01 = Some f0 /\
        h_face m' nh = Some g0 /\ h_face m' h02 = Some g0 /\ h_face m' he1 = Some g0 /\
        h_face m' rev = Some f1 /\ h_face m' h11 = Some f1 /\ h_face m' he3 = Some f1 /\
        h_face m' rn = Some g1 /\ h_face m' he2 = Some g1 /\ h_face m' h12 = Some g1;
  t_s : h_src m' he = Some vn /\ h_src m' h01 = Some u1 /\ h_src m' nh = Some u0 /\ h_src m' h02 = Some vn /\
        h_src m' h11 = Some vn /\ h_src m' rn = Some vn /\ h_src m' h12 = Some u3;
  t_n_oth : forall y, In y (m_hes m) -> y <> he -> y <> he0 -> y <> he1 -> y <> rev -> y <> he2 -> y <> he3 -> h_next m' y = h_next m y;
  t_r_old : forall y, In y (m_hes m) -> h_rev m' y = h_rev m y;
  t_f_oth : forall y, In y (m_hes m) -> y <> he -> y <> he0 -> y <> he1 -> y <> rev -> y <> he2 -> y <> he3 -> h_face m' y = h_face m y;
  t_s_old : forall y, In y (m_hes m) -> y <> he -> h_src m' y = h_src m y;
  t_bd_old : forall y, In y (m_hes m) -> h_bd m' y = h_bd m y;
  t_bd_new : forall y, In y [nh; rn; h01; h02; h11; h12] -> h_bd m' y = false;
  t_vhe : v_he m' u0 = Some he2 /\ v_he m' u2 = Some he0 /\ v_he m' vn = Some he;
  t_vhe_oth : forall v, In v (m_verts m) -> v <> u0 -> v <> u2 -> v_he m' v = v_he m v;
  t_fhe : f_he m' f0 = Some he /\ f_he m' f1 = Some rev /\ f_he m' g0 = Some nh /\ f_he m' g1 = Some rn;
  t_fhe_oth : forall f, In f (m_faces m) -> f <> f0 -> f <> f1 -> f_he m' f = f_he m f;
  t_pos : forall v, In v (m_verts m) -> v_pos m' v = v_pos m v /\ v_lock m' v = v_lock m v;
  t_pos_new : v_pos m' vn = vscale nhalf (vadd (v_pos m u0) (v_pos m u2)) /\ v_lock m' vn = false;
  t_indices : m_indices m' = m_indices m;
  t_fresh : m_fresh m <= nh
}.

Section Split.
Context {N : Num}.

(** States after new Halfedge() / new Face() / new Vertex(). *)
Definition st_new_he (m : mesh N) : mesh N :=
  let a := m_fresh m in
  set_h_live a true (set_h_src a None (set_h_next a None (set_h_rev a None (set_h_face a None
    (set_h_idx a (-1)%Z (set_h_bd a false (set_m_fresh (S a) m))))))).
Definition st_new_face (m : mesh N) : mesh N :=
  let a := m_fresh m in
  set_f_live a true (set_f_he a None (set_f_idx a (-1)%Z (set_m_fresh (S a) m))).
Definition st_new_vertex (pos : vec N) (m : mesh N) : mesh N :=
  let a := m_fresh m in
  set_v_live a true (set_v_pos a pos (set_v_he a None (set_v_idx a (-1)%Z (set_v_lock a false (set_m_fresh (S a) m))))).

Lemma x_new_he m : new_he m = Ok (Some (m_fresh m), st_new_he m). Proof. reflexivity. Qed.
Lemma x_new_face m : new_face m = Ok (Some (m_fresh m), st_new_face m). Proof. reflexivity. Qed.
Lemma x_new_vertex p m : new_vertex p m = Ok (Some (m_fresh m), st_new_vertex p m). Proof. reflexivity. Qed.

Lemma new_he_old m y : y <> m_fresh m ->
  h_next (st_new_he m) y = h_next m y /\ h_src (st_new_he m) y = h_src m y /\ h_rev (st_new_he m) y = h_rev m y /\
  h_face (st_new_he m) y = h_face m y /\ h_live (st_new_he m) y = h_live m y /\ h_idx (st_new_he m) y = h_idx m y /\
  h_bd (st_new_he m) y = h_bd m y.
Proof. intros H. unfold st_new_he. cbv zeta. flds. rewrite !fupd_other by exact H. repeat split; reflexivity. Qed.
Lemma new_he_new m : h_live (st_new_he m) (m_fresh m) = true /\ h_bd (st_new_he m) (m_fresh m) = false.
Proof. unfold st_new_he. cbv zeta. flds. rewrite !fupd_same. auto. Qed.
Lemma new_he_fresh m : m_fresh (st_new_he m) = S (m_fresh m). Proof. reflexivity. Qed.
Lemma new_face_fresh m : m_fresh (st_new_face m) = S (m_fresh m). Proof. reflexivity. Qed.
Lemma new_face_old m y : y <> m_fresh m ->
  f_live (st_new_face m) y = f_live m y /\ f_he (st_new_face m) y = f_he m y /\ f_idx (st_new_face m) y = f_idx m y.
Proof. intros H. unfold st_new_face. cbv zeta. flds. rewrite !fupd_other by exact H. repeat split; reflexivity. Qed.
Lemma new_face_new m : f_live (st_new_face m) (m_fresh m) = true.
Proof. unfold st_new_face. cbv zeta. flds. apply fupd_same. Qed.
Lemma new_vertex_old p m y : y <> m_fresh m ->
  v_live (st_new_vertex p m) y = v_live m y /\ v_he (st_new_vertex p m) y = v_he m y /\ v_idx (st_new_vertex p m) y = v_idx m y /\
  v_pos (st_new_vertex p m) y = v_pos m y /\ v_lock (st_new_vertex p m) y = v_lock m y.
Proof. intros H. unfold st_new_vertex. cbv zeta. flds. rewrite !fupd_other by exact H. repeat split; reflexivity. Qed.
Lemma new_vertex_new p m : v_live (st_new_vertex p m) (m_fresh m) = true /\ v_pos (st_new_vertex p m) (m_fresh m) = p /\
  v_lock (st_new_vertex p m) (m_fresh m) = false.
Proof. unfold st_new_vertex. cbv zeta. flds. rewrite !fupd_same. auto. Qed.

Lemma new_vertex_frame p m :
  m_hes (st_new_vertex p m) = m_hes m /\ m_faces (st_new_vertex p m) = m_faces m /\ m_verts (st_new_vertex p m) = m_verts m /\
  h_live (st_new_vertex p m) = h_live m /\ f_live (st_new_vertex p m) = f_live m.
Proof. repeat split; reflexivity. Qed.
Lemma new_face_frame m :
  m_hes (st_new_face m) = m_hes m /\ m_faces (st_new_face m) = m_faces m /\ m_verts (st_new_face m) = m_verts m /\
  h_live (st_new_face m) = h_live m /\ v_live (st_new_face m) = v_live m /\ v_pos (st_new_face m) = v_pos m /\
  h_src (st_new_face m) = h_src m /\ h_next (st_new_face m) = h_next m.
Proof. repeat split; reflexivity. Qed.

Lemma x_addVertex m a l : v_live m a = true -> m_verts m = l ->
  addVertex (Some a) m = Ok (tt, set_m_verts (l ++ [a]) (set_v_idx a (Z.of_nat (length l)) m)).
Proof. intros H <-. unfold addVertex. rewrite bind_get, (bind_ok _ _ _ _ _ (ww_vidx _ _ _ H)). reflexivity. Qed.
Lemma x_addHalfedge m a l : h_live m a = true -> m_hes m = l ->
  addHalfedge (Some a) m = Ok (tt, set_m_hes (l ++ [a]) (set_h_idx a (Z.of_nat (length l)) m)).
Proof. intros H <-. unfold addHalfedge. rewrite bind_get, (bind_ok _ _ _ _ _ (ww_hidx _ _ _ H)). reflexivity. Qed.
Lemma x_addFace m a l : f_live m a = true -> m_faces m = l ->
  addFace (Some a) m = Ok (tt, set_m_faces (l ++ [a]) (set_f_idx a (Z.of_nat (length l)) m)).
Proof. intros H <-. unfold addFace. rewrite bind_get, (bind_ok _ _ _ _ _ (ww_fidx _ _ _ H)). reflexivity. Qed.

Ltac fnorm t := eval cbn [m_verts m_hes m_faces
  set_m_verts set_m_hes set_m_faces set_m_indices set_m_fresh set_v_live set_v_pos set_v_he set_v_idx set_v_lock
  set_h_live set_h_src set_h_next set_h_rev set_h_face set_h_idx set_h_bd set_f_live set_f_he set_f_idx] in t.
Ltac astep := lazymatch goal with
  | |- bind (addFace (Some ?a)) ?k ?x = _ =>
      let l := fnorm (m_faces x) in rewrite (bind_ok _ k x _ _ (x_addFace x a l ltac:(live) eq_refl))
  | |- bind (addVertex (Some ?a)) ?k ?x = _ =>
      let l := fnorm (m_verts x) in rewrite (bind_ok _ k x _ _ (x_addVertex x a l ltac:(live) eq_refl))
  | |- bind (addHalfedge (Some ?a)) ?k ?x = _ =>
      let l := fnorm (m_hes x) in rewrite (bind_ok _ k x _ _ (x_addHalfedge x a l ltac:(live) eq_refl))
  end.

(** The tail of splitHE (mesh.cpp 606-691), and the state it computes. *)
Section Writes.
Variables (he rev he0 he1 he2 he3 u0 u1 u2 u3 f0 f1 nh h01 h02 rn h11 h12 g0 g1 vn : nat).

Definition split_body (he rev he0 he1 he2 he3 v0 v2 v1 v3 f0 f1 he_new he01 he02 rev_new he11 he12 f0_new f1_new v_new : ptr) : M N bool :=
  (* Update next half-edges: 606-621 *)
  w_next he he0 ;; w_next he0 he01 ;; w_next he01 he ;;
  w_next he_new he02 ;; w_next he02 he1 ;; w_next he1 he_new ;;
  w_next rev he11 ;; w_next he11 he3 ;; w_next he3 rev ;;
  w_next rev_new he2 ;; w_next he2 he12 ;; w_next he12 rev_new ;;
  (* Update rev half-edges: 623-634 *)
  w_rev he rev ;; w_rev rev he ;;
  w_rev he_new rev_new ;; w_rev rev_new he_new ;;
  w_rev he01 he02 ;; w_rev he02 he01 ;;
  w_rev he11 he12 ;; w_rev he12 he11 ;;
  (* Update faces: 636-651 *)
  w_face he f0 ;; w_face he0 f0 ;; w_face he01 f0 ;;
  w_face he_new f0_new ;; w_face he02 f0_new ;; w_face he1 f0_new ;;
  w_face rev f1 ;; w_face he3 f1 ;; w_face he11 f1 ;;
  w_face rev_new f1_new ;; w_face he12 f1_new ;; w_face he2 f1_new ;;
  (* Update halfedge origins: 653-668 *)
  w_src he v_new ;; w_src he0 v1 ;; w_src he01 v2 ;;
  w_src he_new v0 ;; w_src he02 v_new ;; w_src he1 v2 ;;
  w_src rev v1 ;; w_src he11 v_new ;; w_src he3 v3 ;;
  w_src rev_new v_new ;; w_src he2 v0 ;; w_src he12 v3 ;;
  (* Update vertex halfedges: 670-673 *)
  w_vhe v0 he2 ;; w_vhe v1 he0 ;; w_vhe v_new he ;;
  (* Update face halfedges: 675-679 *)
  w_fhe f0 he ;; w_fhe f0_new he_new ;; w_fhe f1 rev ;; w_fhe f1_new rev_new ;;
  (* Add new components to the list: 681-690 *)
  addFace f0_new ;; addFace f1_new ;;
  addVertex v_new ;;
  addHalfedge he_new ;; addHalfedge rev_new ;;
  addHalfedge he01 ;; addHalfedge he02 ;; addHalfedge he11 ;; addHalfedge he12 ;;
  ret true.

Definition split_ptrs_g (a : mesh N) : mesh N :=
  let a := set_h_next he (Some he0) a in let a := set_h_next he0 (Some h01) a in let a := set_h_next h01 (Some he) a in
  let a := set_h_next nh (Some h02) a in let a := set_h_next h02 (Some he1) a in let a := set_h_next he1 (Some nh) a in
  let a := set_h_next rev (Some h11) a in let a := set_h_next h11 (Some he3) a in let a := set_h_next he3 (Some rev) a in
  let a := set_h_next rn (Some he2) a in let a := set_h_next he2 (Some h12) a in let a := set_h_next h12 (Some rn) a in
  let a := set_h_rev he (Some rev) a in let a := set_h_rev rev (Some he) a in
  let a := set_h_rev nh (Some rn) a in let a := set_h_rev rn (Some nh) a in
  let a := set_h_rev h01 (Some h02) a in let a := set_h_rev h02 (Some h01) a in
  let a := set_h_rev h11 (Some h12) a in let a := set_h_rev h12 (Some h11) a in
  let a := set_h_face he (Some f0) a in let a := set_h_face he0 (Some f0) a in let a := set_h_face h01 (Some f0) a in
  let a := set_h_face nh (Some g0) a in let a := set_h_face h02 (Some g0) a in let a := set_h_face he1 (Some g0) a in
  let a := set_h_face rev (Some f1) a in let a := set_h_face he3 (Some f1) a in let a := set_h_face h11 (Some f1) a in
  let a := set_h_face rn (Some g1) a in let a := set_h_face h12 (Some g1) a in let a := set_h_face he2 (Some g1) a in
  let a := set_h_src he (Some vn) a in let a := set_h_src he0 (Some u2) a in let a := set_h_src h01 (Some u1) a in
  let a := set_h_src nh (Some u0) a in let a := set_h_src h02 (Some vn) a in let a := set_h_src he1 (Some u1) a in
  let a := set_h_src rev (Some u2) a in let a := set_h_src h11 (Some vn) a in let a := set_h_src he3 (Some u3) a in
  let a := set_h_src rn (Some vn) a in let a := set_h_src he2 (Some u0) a in let a := set_h_src h12 (Some u3) a in
  let a := set_v_he u0 (Some he2) a in let a := set_v_he u2 (Some he0) a in let a := set_v_he vn (Some he) a in
  let a := set_f_he f0 (Some he) a in let a := set_f_he g0 (Some nh) a in
  let a := set_f_he f1 (Some rev) a in let a := set_f_he g1 (Some rn) a in
  a.

Definition split_lists_g (a : mesh N) : mesh N :=
  let lf := m_faces a in let lv := m_verts a in let lh := m_hes a in
  let nf := length lf in let nvv := length lv in let nhh := length lh in
  let a := set_m_faces (lf ++ [g0]) (set_f_idx g0 (Z.of_nat nf) a) in
  let a := set_m_faces (lf ++ [g0; g1]) (set_f_idx g1 (Z.of_nat (nf + 1)) a) in
  let a := set_m_verts (lv ++ [vn]) (set_v_idx vn (Z.of_nat nvv) a) in
  let a := set_m_hes (lh ++ [nh]) (set_h_idx nh (Z.of_nat nhh) a) in
  let a := set_m_hes (lh ++ [nh; rn]) (set_h_idx rn (Z.of_nat (nhh + 1)) a) in
  let a := set_m_hes (lh ++ [nh; rn; h01]) (set_h_idx h01 (Z.of_nat (nhh + 2)) a) in
  let a := set_m_hes (lh ++ [nh; rn; h01; h02]) (set_h_idx h02 (Z.of_nat (nhh + 3)) a) in
  let a := set_m_hes (lh ++ [nh; rn; h01; h02; h11]) (set_h_idx h11 (Z.of_nat (nhh + 4)) a) in
  let a := set_m_hes (lh ++ [nh; rn; h01; h02; h11; h12]) (set_h_idx h12 (Z.of_nat (nhh + 5)) a) in
  a.

Lemma split_writes mc :
  h_live mc he = true -> h_live mc rev = true -> h_live mc he0 = true -> h_live mc he1 = true ->
  h_live mc he2 = true -> h_live mc he3 = true -> h_live mc nh = true -> h_live mc h01 = true -> h_live mc h02 = true ->
  h_live mc rn = true -> h_live mc h11 = true -> h_live mc h12 = true ->
  v_live mc u0 = true -> v_live mc u2 = true -> v_live mc vn = true ->
  f_live mc f0 = true -> f_live mc f1 = true -> f_live mc g0 = true -> f_live mc g1 = true ->
  split_body (Some he) (Some rev) (Some he0) (Some he1) (Some he2) (Some he3) (Some u0) (Some u1) (Some u2) (Some u3) (Some f0) (Some f1)
    (Some nh) (Some h01) (Some h02) (Some rn) (Some h11) (Some h12) (Some g0) (Some g1) (Some vn) mc
  = Ok (true, split_lists_g (split_ptrs_g mc)).
Proof.
  intros. unfold split_body.
  repeat mstep. repeat astep.
  unfold split_lists_g, split_ptrs_g. cbv zeta. unfold ret. flds. rewrite <- !app_assoc. cbn [app].
  rewrite !app_length. cbn [length]. reflexivity.
Qed.
End Writes.

(** mesh.cpp 585-604, then the writes. *)
Definition split_rest1 (he rev v0 v1 he_new he01 he02 rev_new he11 he12 : ptr) : M N bool :=
  he0 <- he_next he ;;
  he1 <- he_next he0 ;;
  he2 <- he_next rev ;;
  he3 <- he_next he2 ;;
  f0 <- he_face he ;;
  f1 <- he_face rev ;;
  f0_new <- new_face ;;
  f1_new <- new_face ;;
  v2 <- he_src he1 ;;
  v3 <- he_src he3 ;;
  sv <- he_src he ;;
  dv <- he_dst he ;;
  ps <- ve_pos sv ;;
  pd <- ve_pos dv ;;
  v_new <- new_vertex (vscale nhalf (vadd ps pd)) ;;
  split_body he rev he0 he1 he2 he3 v0 v2 v1 v3 f0 f1 he_new he01 he02 rev_new he11 he12 f0_new f1_new v_new.

Definition split_rest0 (he rev v0 v1 : ptr) : M N bool :=
  he_new <- new_he ;;
  he01 <- new_he ;;
  he02 <- new_he ;;
  rev_new <- new_he ;;
  he11 <- new_he ;;
  he12 <- new_he ;;
  split_rest1 he rev v0 v1 he_new he01 he02 rev_new he11 he12.

Variables (m : mesh N) (he rev he0 he1 he2 he3 u0 u1 u2 u3 f0 f1 : nat).
Hypothesis W : WF m.
Hypothesis D : Diamond m he rev he0 he1 he2 he3 u0 u1 u2 u3 f0 f1.

Notation fr := (m_fresh m).
(** Addresses of the new objects. *)
Definition nh := fr.            Definition h01 := S fr.
Definition h02 := S (S fr).     Definition rn := S (S (S fr)).
Definition h11 := 4 + fr.       Definition h12 := 5 + fr.
Definition g0 := 6 + fr.        Definition g1 := 7 + fr.
Definition vn := 8 + fr.

Definition newpos : vec N := vscale nhalf (vadd (v_pos m u0) (v_pos m u2)).

Definition alloc_he : mesh N := st_new_he (st_new_he (st_new_he (st_new_he (st_new_he (st_new_he m))))).
Definition split_alloc : mesh N := st_new_vertex newpos (st_new_face (st_new_face alloc_he)).

Notation split_ptrs := (split_ptrs_g he rev he0 he1 he2 he3 u0 u1 u2 u3 f0 f1 nh h01 h02 rn h11 h12 g0 g1 vn).
Notation split_lists := (split_lists_g nh h01 h02 rn h11 h12 g0 g1 vn).

Ltac start := destruct D as [I Ir I0 I1 I2 I3 V0 V1 V2 V3 G0 G1 R Rr Nh N0 N1 Nr N2 N3 S S0 S1 Sr S2 S3 F F0 F1 Fr F2 F3 ND UN FN];
  apply nodup6 in ND; destruct ND as (? & ? & ? & ? & ? & ? & ? & ? & ? & ? & ? & ? & ? & ? & ?);
  destruct UN as (? & ? & ? & ? & ?);
  pose proof (h_lt m W _ I) as T; pose proof (h_lt m W _ Ir) as Tr; pose proof (h_lt m W _ I0) as T0;
  pose proof (h_lt m W _ I1) as T1; pose proof (h_lt m W _ I2) as T2; pose proof (h_lt m W _ I3) as T3;
  pose proof (v_lt m W _ V0) as Q0; pose proof (v_lt m W _ V1) as Q1; pose proof (v_lt m W _ V2) as Q2; pose proof (v_lt m W _ V3) as Q3;
  pose proof (f_lt m W _ G0) as X0; pose proof (f_lt m W _ G1) as X1.

Ltac names := unfold nh, h01, h02, rn, h11, h12, g0, g1, vn in *.

Lemma alloc_he_old y : y < m_fresh m ->
  h_next alloc_he y = h_next m y /\ h_src alloc_he y = h_src m y /\ h_rev alloc_he y = h_rev m y /\
  h_face alloc_he y = h_face m y /\ h_live alloc_he y = h_live m y /\ h_idx alloc_he y = h_idx m y /\
  h_bd alloc_he y = h_bd m y.
Proof.
  intros Hy. unfold alloc_he.
  repeat match goal with |- context [h_next (st_new_he ?x)] =>
    let H := fresh in assert (H : y <> m_fresh x) by (rewrite ?new_he_fresh; lia);
    destruct (new_he_old x y H) as (-> & -> & -> & -> & -> & -> & ->); clear H end.
  repeat split; reflexivity.
Qed.
Lemma alloc_he_new k : k < 6 -> h_live alloc_he (k + m_fresh m) = true.
Proof.
  intros Hk. unfold alloc_he.
  repeat match goal with |- h_live (st_new_he ?x) ?y = true =>
    let E := fresh "E" in destruct (Nat.eq_dec y (m_fresh x)) as [E|E];
    [rewrite E; apply (new_he_new x)
    |destruct (new_he_old x y E) as (_ & _ & _ & _ & -> & _); rewrite ?new_he_fresh in E] end. lia.
Qed.
Lemma alloc_he_bd k : k < 6 -> h_bd alloc_he (k + m_fresh m) = false.
Proof.
  intros Hk. unfold alloc_he.
  repeat match goal with |- h_bd (st_new_he ?x) ?y = false =>
    let E := fresh "E" in destruct (Nat.eq_dec y (m_fresh x)) as [E|E];
    [rewrite E; apply (new_he_new x)
    |destruct (new_he_old x y E) as (_ & _ & _ & _ & _ & _ & ->); rewrite ?new_he_fresh in E] end. lia.
Qed.

Lemma new_he_frame (x : mesh N) : m_hes (st_new_he x) = m_hes x /\ m_faces (st_new_he x) = m_faces x /\
  m_verts (st_new_he x) = m_verts x /\ v_live (st_new_he x) = v_live x /\ v_pos (st_new_he x) = v_pos x /\ f_live (st_new_he x) = f_live x /\
  v_he (st_new_he x) = v_he x /\ v_idx (st_new_he x) = v_idx x /\ v_lock (st_new_he x) = v_lock x /\ f_he (st_new_he x) = f_he x /\ f_idx (st_new_he x) = f_idx x /\
  m_indices (st_new_he x) = m_indices x.
Proof. repeat split; reflexivity. Qed.
Lemma alloc_frame : m_fresh alloc_he = 6 + m_fresh m /\ m_hes alloc_he = m_hes m /\ m_faces alloc_he = m_faces m /\
  m_verts alloc_he = m_verts m /\ v_live alloc_he = v_live m /\ v_pos alloc_he = v_pos m /\ f_live alloc_he = f_live m /\
  v_he alloc_he = v_he m /\ v_idx alloc_he = v_idx m /\ v_lock alloc_he = v_lock m /\ f_he alloc_he = f_he m /\ f_idx alloc_he = f_idx m /\
  m_indices alloc_he = m_indices m.
Proof.
  unfold alloc_he. split; [rewrite !new_he_fresh; reflexivity|].
  repeat match goal with |- context [m_hes (st_new_he ?x)] =>
    destruct (new_he_frame x) as (-> & -> & -> & -> & -> & -> & -> & -> & -> & -> & -> & ->) end.
  repeat split; reflexivity.
Qed.

Lemma split_rest0_ok p q v w : split_rest0 p q v w m
  = split_rest1 p q v w (Some nh) (Some h01) (Some h02) (Some rn) (Some h11) (Some h12) alloc_he.
Proof. unfold split_rest0, alloc_he. do 6 (rewrite (bind_ok _ _ _ _ _ (x_new_he _))). rewrite !new_he_fresh. reflexivity. Qed.

(** What the allocations guarantee. *)
Record Alloc (ma : mesh N) : Prop := {
  al_old : forall y, y < m_fresh m ->
     h_next ma y = h_next m y /\ h_src ma y = h_src m y /\ h_rev ma y = h_rev m y /\
     h_face ma y = h_face m y /\ h_live ma y = h_live m y /\ h_idx ma y = h_idx m y /\ h_bd ma y = h_bd m y;
  al_new : forall k, k < 6 -> h_live ma (k + m_fresh m) = true /\ h_bd ma (k + m_fresh m) = false;
  al_v_old : forall y, y < m_fresh m ->
     v_live ma y = v_live m y /\ v_he ma y = v_he m y /\ v_idx ma y = v_idx m y /\ v_pos ma y = v_pos m y /\ v_lock ma y = v_lock m y;
  al_v_new : v_live ma vn = true /\ v_pos ma vn = newpos /\ v_lock ma vn = false;
  al_f_old : forall y, y < m_fresh m -> f_live ma y = f_live m y /\ f_he ma y = f_he m y /\ f_idx ma y = f_idx m y;
  al_f_new : f_live ma g0 = true /\ f_live ma g1 = true;
  al_fresh : m_fresh ma = 9 + m_fresh m;
  al_hes : m_hes ma = m_hes m; al_faces : m_faces ma = m_faces m; al_verts : m_verts ma = m_verts m;
  al_indices : m_indices ma = m_indices m
}.

Lemma split_rest1_ok ma :
  (forall y, y < m_fresh m ->
     h_next ma y = h_next m y /\ h_src ma y = h_src m y /\ h_rev ma y = h_rev m y /\
     h_face ma y = h_face m y /\ h_live ma y = h_live m y /\ h_idx ma y = h_idx m y /\ h_bd ma y = h_bd m y) ->
  (forall k, k < 6 -> h_live ma (k + m_fresh m) = true) ->
  m_fresh ma = 6 + m_fresh m -> m_hes ma = m_hes m -> m_faces ma = m_faces m ->
  m_verts ma = m_verts m -> v_live ma = v_live m -> v_pos ma = v_pos m -> f_live ma = f_live m ->
  split_rest1 (Some he) (Some rev) (Some u0) (Some u2) (Some nh) (Some h01) (Some h02) (Some rn) (Some h11) (Some h12) ma
  = Ok (true, split_lists (split_ptrs (st_new_vertex newpos (st_new_face (st_new_face ma))))).
Proof.
  intros EQ LA Efr Mh Mf Mv Ev Ep Ef.
  start.
  pose proof (h_alive m W _ I) as L. pose proof (h_alive m W _ Ir) as Lr. pose proof (h_alive m W _ I0) as L0.
  pose proof (h_alive m W _ I1) as L1. pose proof (h_alive m W _ I2) as L2. pose proof (h_alive m W _ I3) as L3.
  pose proof (v_alive m W _ V0) as A0. pose proof (v_alive m W _ V1) as A1. pose proof (v_alive m W _ V2) as A2.
  pose proof (v_alive m W _ V3) as A3. pose proof (f_alive m W _ G0) as B0. pose proof (f_alive m W _ G1) as B1.
  destruct (EQ _ T) as (E1 & E2 & _ & E3 & E4 & _). destruct (EQ _ Tr) as (Er1 & Er2 & _ & Er3 & Er4 & _).
  destruct (EQ _ T0) as (Ea1 & Ea2 & _ & Ea3 & Ea4 & _). destruct (EQ _ T1) as (Eb1 & Eb2 & _ & Eb3 & Eb4 & _).
  destruct (EQ _ T2) as (Ec1 & Ec2 & _ & Ec3 & Ec4 & _). destruct (EQ _ T3) as (Ed1 & Ed2 & _ & Ed3 & Ed4 & _).
  pose proof (LA 0 ltac:(clear; lia)) as LL0. pose proof (LA 1 ltac:(clear; lia)) as LL1. pose proof (LA 2 ltac:(clear; lia)) as LL2.
  pose proof (LA 3 ltac:(clear; lia)) as LL3. pose proof (LA 4 ltac:(clear; lia)) as LL4. pose proof (LA 5 ltac:(clear; lia)) as LL5.
  cbn [Nat.add] in LL0, LL1, LL2, LL3, LL4, LL5.
  rewrite L in E4; rewrite Lr in Er4; rewrite L0 in Ea4; rewrite L1 in Eb4; rewrite L2 in Ec4; rewrite L3 in Ed4.
  rewrite Nh in E1; rewrite N0 in Ea1; rewrite Nr in Er1; rewrite N2 in Ec1; rewrite F in E3; rewrite Fr in Er3.
  rewrite S1 in Eb2; rewrite S3 in Ed2; rewrite S in E2; rewrite S0 in Ea2.
  clear EQ LA. unfold split_rest1.
  mstep. rewrite E1. mstep. rewrite Ea1. mstep. rewrite Er1. mstep. rewrite Ec1. mstep. rewrite E3. mstep. rewrite Er3.
  do 2 (rewrite (bind_ok _ _ _ _ _ (x_new_face _))).
  mstep. change (h_src (st_new_face (st_new_face ma)) he1) with (h_src ma he1). rewrite Eb2.
  mstep. change (h_src (st_new_face (st_new_face ma)) he3) with (h_src ma he3). rewrite Ed2.
  mstep. change (h_src (st_new_face (st_new_face ma)) he) with (h_src ma he). rewrite E2.
  unfold he_dst. mstep. mstep. change (h_next (st_new_face (st_new_face ma)) he) with (h_next ma he). rewrite E1.
  mstep. change (h_src (st_new_face (st_new_face ma)) he0) with (h_src ma he0). rewrite Ea2.
  assert (Y0 : v_live (st_new_face (st_new_face ma)) u0 = true) by (change (v_live ma u0 = true); rewrite Ev; exact A0).
  assert (Y2 : v_live (st_new_face (st_new_face ma)) u2 = true) by (change (v_live ma u2 = true); rewrite Ev; exact A2).
  mstep. mstep.
  rewrite (bind_ok _ _ _ _ _ (x_new_vertex _ _)).
  replace (vscale nhalf (vadd (v_pos (st_new_face (st_new_face ma)) u0) (v_pos (st_new_face (st_new_face ma)) u2)))
    with newpos by (unfold newpos; rewrite <- Ep; reflexivity).
  rewrite !new_face_fresh, Efr.
  assert (Efc : m_fresh (st_new_face ma) = 7 + m_fresh m) by (rewrite new_face_fresh, Efr; reflexivity).
  assert (Efb : m_fresh (st_new_face (st_new_face ma)) = 8 + m_fresh m) by (rewrite new_face_fresh, Efc; reflexivity).
  destruct (new_face_frame ma) as (P1 & P2 & P3 & P4 & _).
  destruct (new_face_frame (st_new_face ma)) as (O1 & O2 & O3 & O4 & _).
  destruct (new_vertex_frame newpos (st_new_face (st_new_face ma))) as (R1 & R2 & R3 & R4 & R5).
  rewrite O1, P1, Mh in R1. rewrite O2, P2, Mf in R2. rewrite O3, P3, Mv in R3. rewrite O4, P4 in R4.
  remember (st_new_vertex newpos (st_new_face (st_new_face ma))) as mc eqn:Emc.
  assert (Lc : forall y, h_live mc y = h_live ma y) by (intros; rewrite R4; reflexivity).
  assert (Vc0 : v_live mc u0 = true).
  { rewrite Emc. destruct (new_vertex_old newpos (st_new_face (st_new_face ma)) u0) as (-> & _); [rewrite Efb; neq_tac|exact Y0]. }
  assert (Vc2 : v_live mc u2 = true).
  { rewrite Emc. destruct (new_vertex_old newpos (st_new_face (st_new_face ma)) u2) as (-> & _); [rewrite Efb; neq_tac|exact Y2]. }
  assert (Vcn : v_live mc (8 + m_fresh m) = true) by (rewrite Emc, <- Efb; exact (proj1 (new_vertex_new newpos (st_new_face (st_new_face ma))))).
  assert (Fl : forall y, f_live mc y = f_live (st_new_face (st_new_face ma)) y) by (intros; rewrite R5; reflexivity).
  assert (Fc : forall y, y < m_fresh m -> f_live mc y = f_live m y).
  { intros y Hy. rewrite Fl. destruct (new_face_old (st_new_face ma) y) as (-> & _); [rewrite Efc; neq_tac|].
    destruct (new_face_old ma y) as (-> & _); [rewrite Efr; neq_tac|]. rewrite Ef; reflexivity. }
  assert (Fg0 : f_live mc (6 + m_fresh m) = true).
  { rewrite Fl. destruct (new_face_old (st_new_face ma) (6 + m_fresh m)) as (-> & _); [rewrite Efc; neq_tac|].
    replace (6 + m_fresh m) with (m_fresh ma) by (rewrite Efr; reflexivity). exact (new_face_new ma). }
  assert (Fg1 : f_live mc (7 + m_fresh m) = true).
  { rewrite Fl. rewrite <- Efc; exact (new_face_new (st_new_face ma)). }
  assert (Fc0 : f_live mc f0 = true) by (rewrite Fc by assumption; exact B0).
  assert (Fc1 : f_live mc f1 = true) by (rewrite Fc by assumption; exact B1).
  assert (Mc1 : m_hes mc = m_hes m) by exact R1.
  assert (Mc2 : m_faces mc = m_faces m) by exact R2.
  assert (Mc3 : m_verts mc = m_verts m) by exact R3.
  rewrite <- (Lc he) in E4. rewrite <- (Lc rev) in Er4. rewrite <- (Lc he0) in Ea4. rewrite <- (Lc he1) in Eb4.
  rewrite <- (Lc he2) in Ec4. rewrite <- (Lc he3) in Ed4. rewrite <- Lc in LL0, LL1, LL2, LL3, LL4, LL5.
  apply (split_writes he rev he0 he1 he2 he3 u0 u1 u2 u3 f0 f1 nh h01 h02 rn h11 h12 g0 g1 vn); assumption.
Qed.

Lemma split_exec :
  3 <= deg_of m u0 -> 3 <= deg_of m u2 -> deg_of m u2 <= deg_of m u0 ->
  h_bd m he = false -> h_bd m rev = false ->
  splitHE (Some he) m = Ok (true, split_lists (split_ptrs split_alloc)).
Proof.
  intros C0 C2 C02 B Br.
  assert (Z1 : (Z.of_nat (deg_of m u0) <? Z.of_nat (deg_of m u2))%Z = false) by (apply Z.ltb_ge; lia).
  assert (Z2 : (Z.of_nat (deg_of m u0) <? 3)%Z = false) by (apply Z.ltb_ge; lia).
  assert (Z3 : (Z.of_nat (deg_of m u2) <? 3)%Z = false) by (apply Z.ltb_ge; lia).
  start.
  pose proof (h_alive m W _ I) as L. pose proof (h_alive m W _ Ir) as Lr. pose proof (h_alive m W _ I0) as L0.
  pose proof (h_alive m W _ I1) as L1. pose proof (h_alive m W _ I2) as L2. pose proof (h_alive m W _ I3) as L3.
  pose proof (v_alive m W _ V0) as A0. pose proof (v_alive m W _ V1) as A1. pose proof (v_alive m W _ V2) as A2.
  pose proof (v_alive m W _ V3) as A3. pose proof (f_alive m W _ G0) as B0. pose proof (f_alive m W _ G1) as B1.
  unfold splitHE. mstep. rewrite R. mstep. rewrite S. mstep. rewrite Sr.
  rewrite (bind_ok _ _ _ _ _ (deg_ok m u0 W V0)). rewrite (bind_ok _ _ _ _ _ (deg_ok m u2 W V2)).
  rewrite Z1.
  cbn zeta iota.
  rewrite (bind_ok _ _ _ _ _ (deg_ok m u0 W V0)). rewrite (bind_ok _ _ _ _ _ (deg_ok m u2 W V2)).
  rewrite Z2, Z3.
  cbn [orb]. mstep. rewrite B. mstep. rewrite R. mstep. rewrite Br. cbn [orb].
  transitivity (split_rest0 (Some he) (Some rev) (Some u0) (Some u2) m).
  { clear. unfold split_rest0, split_rest1, split_body. reflexivity. }
  rewrite split_rest0_ok. unfold split_alloc. destruct alloc_frame as (E6 & E7 & E8 & E9 & E10 & E11 & E12 & _).
  apply (split_rest1_ok alloc_he alloc_he_old alloc_he_new E6 E7 E8 E9 E10 E11 E12).
Qed.

Lemma new_vertex_frame_f p (x : mesh N) : f_live (st_new_vertex p x) = f_live x /\ f_he (st_new_vertex p x) = f_he x /\ f_idx (st_new_vertex p x) = f_idx x.
Proof. repeat split; reflexivity. Qed.
Lemma alloc_Alloc : Alloc split_alloc.
Proof.
  destruct alloc_frame as (Efr & Mh & Mf & Mv & Ev & Ep & Ef & Evh & Evi & Evl & Efh & Efi & Ei).
  assert (EQ := alloc_he_old). assert (LA := alloc_he_new). assert (LB := alloc_he_bd).
  unfold split_alloc. generalize dependent alloc_he. intros ma Efr Mh Mf Mv Ev Ep Ef Evh Evi Evl Efh Efi Ei EQ LA LB.
  assert (Efc : m_fresh (st_new_face ma) = 7 + m_fresh m) by (rewrite new_face_fresh, Efr; reflexivity).
  assert (Efb : m_fresh (st_new_face (st_new_face ma)) = 8 + m_fresh m) by (rewrite new_face_fresh, Efc; reflexivity).
  constructor.
  - exact EQ.
  - intros k Hk; split; [exact (LA k Hk)|exact (LB k Hk)].
  - intros y Hy. destruct (new_vertex_old newpos (st_new_face (st_new_face ma)) y) as (-> & -> & -> & -> & ->); [rewrite Efb; lia|].
    change (v_live (st_new_face (st_new_face ma))) with (v_live ma). change (v_he (st_new_face (st_new_face ma))) with (v_he ma).
    change (v_idx (st_new_face (st_new_face ma))) with (v_idx ma). change (v_pos (st_new_face (st_new_face ma))) with (v_pos ma).
    change (v_lock (st_new_face (st_new_face ma))) with (v_lock ma).
    rewrite Ev, Ep, Evh, Evi, Evl. repeat split; reflexivity.
  - unfold vn. rewrite <- Efb. exact (new_vertex_new newpos (st_new_face (st_new_face ma))).
  - intros y Hy.
    destruct (new_vertex_frame_f newpos (st_new_face (st_new_face ma))) as (-> & -> & ->).
    destruct (new_face_old (st_new_face ma) y) as (-> & -> & ->); [rewrite Efc; lia|].
    destruct (new_face_old ma y) as (-> & -> & ->); [rewrite Efr; lia|]. rewrite Ef, Efh, Efi. repeat split; reflexivity.
  - destruct (new_vertex_frame_f newpos (st_new_face (st_new_face ma))) as (-> & _ & _).
    unfold g0, g1. split.
    + destruct (new_face_old (st_new_face ma) (6 + m_fresh m)) as (-> & _); [rewrite Efc; lia|].
      rewrite <- Efr. exact (new_face_new ma).
    + rewrite <- Efc. exact (new_face_new (st_new_face ma)).
  - change (S (m_fresh (st_new_face (st_new_face ma))) = 9 + m_fresh m). rewrite Efb; reflexivity.
  - rewrite <- Mh; reflexivity.
  - rewrite <- Mf; reflexivity.
  - rewrite <- Mv; reflexivity.
  - rewrite <- Ei; reflexivity.
Qed.

Lemma split_exec_ma :
  3 <= deg_of m u0 -> 3 <= deg_of m u2 -> deg_of m u2 <= deg_of m u0 ->
  h_bd m he = false -> h_bd m rev = false ->
  exists ma, Alloc ma /\ splitHE (Some he) m = Ok (true, split_lists (split_ptrs ma)).
Proof.
  intros H1 H2 H3 H4 H5. exists split_alloc. split; [exact alloc_Alloc|apply split_exec; assumption].
Qed.

(** *** Fields of the final state *)
Section Fields.
Variable ma : mesh N.
Hypothesis HA : Alloc ma.
Notation m' := (split_lists (split_ptrs ma)).

(** Frame facts of the two write phases, for any starting state. *)
Lemma sl_frame a : h_next (split_lists a) = h_next a /\ h_src (split_lists a) = h_src a /\ h_rev (split_lists a) = h_rev a /\
  h_face (split_lists a) = h_face a /\ h_live (split_lists a) = h_live a /\ h_bd (split_lists a) = h_bd a /\
  v_live (split_lists a) = v_live a /\ v_pos (split_lists a) = v_pos a /\ v_he (split_lists a) = v_he a /\ v_lock (split_lists a) = v_lock a /\
  f_live (split_lists a) = f_live a /\ f_he (split_lists a) = f_he a /\ m_fresh (split_lists a) = m_fresh a.
Proof. repeat split; reflexivity. Qed.
Lemma sp_frame a : h_live (split_ptrs a) = h_live a /\ h_bd (split_ptrs a) = h_bd a /\ h_idx (split_ptrs a) = h_idx a /\
  v_live (split_ptrs a) = v_live a /\ v_pos (split_ptrs a) = v_pos a /\ v_lock (split_ptrs a) = v_lock a /\ v_idx (split_ptrs a) = v_idx a /\
  f_live (split_ptrs a) = f_live a /\ f_idx (split_ptrs a) = f_idx a /\ m_fresh (split_ptrs a) = m_fresh a.
Proof. repeat split; reflexivity. Qed.

Ltac go := start; names; intros; unfold split_lists_g, split_ptrs_g; cbv zeta; names; flds; fu; reflexivity.

Lemma n_he : h_next m' he = Some he0. Proof. go. Qed.
Lemma n_he0 : h_next m' he0 = Some h01. Proof. go. Qed.
Lemma n_h01 : h_next m' h01 = Some he. Proof. go. Qed.
Lemma n_nh : h_next m' nh = Some h02. Proof. go. Qed.
Lemma n_h02 : h_next m' h02 = Some he1. Proof. go. Qed.
Lemma n_he1 : h_next m' he1 = Some nh. Proof. go. Qed.
Lemma n_rev : h_next m' rev = Some h11. Proof. go. Qed.
Lemma n_h11 : h_next m' h11 = Some he3. Proof. go. Qed.
Lemma n_he3 : h_next m' he3 = Some rev. Proof. go. Qed.
Lemma n_rn : h_next m' rn = Some he2. Proof. go. Qed.
Lemma n_he2 : h_next m' he2 = Some h12. Proof. go. Qed.
Lemma n_h12 : h_next m' h12 = Some rn. Proof. go. Qed.
Lemma rv_he : h_rev m' he = Some rev. Proof. go. Qed.
Lemma rv_rev : h_rev m' rev = Some he. Proof. go. Qed.
Lemma rv_nh : h_rev m' nh = Some rn. Proof. go. Qed.
Lemma rv_rn : h_rev m' rn = Some nh. Proof. go. Qed.
Lemma rv_h01 : h_rev m' h01 = Some h02. Proof. go. Qed.
Lemma rv_h02 : h_rev m' h02 = Some h01. Proof. go. Qed.
Lemma rv_h11 : h_rev m' h11 = Some h12. Proof. go. Qed.
Lemma rv_h12 : h_rev m' h12 = Some h11. Proof. go. Qed.
Lemma fc_he : h_face m' he = Some f0. Proof. go. Qed.
Lemma fc_he0 : h_face m' he0 = Some f0. Proof. go. Qed.
Lemma fc_h01 : h_face m' h01 = Some f0. Proof. go. Qed.
Lemma fc_nh : h_face m' nh = Some g0. Proof. go. Qed.
Lemma fc_h02 : h_face m' h02 = Some g0. Proof. go. Qed.
Lemma fc_he1 : h_face m' he1 = Some g0. Proof. go. Qed.
Lemma fc_rev : h_face m' rev = Some f1. Proof. go. Qed.
Lemma fc_h11 : h_face m' h11 = Some f1. Proof. go. Qed.
Lemma fc_he3 : h_face m' he3 = Some f1. Proof. go. Qed.
Lemma fc_rn : h_face m' rn = Some g1. Proof. go. Qed.
Lemma fc_he2 : h_face m' he2 = Some g1. Proof. go. Qed.
Lemma fc_h12 : h_face m' h12 = Some g1. Proof. go. Qed.
Lemma s_he : h_src m' he = Some vn. Proof. go. Qed.
Lemma s_he0 : h_src m' he0 = Some u2. Proof. go. Qed.
Lemma s_h01 : h_src m' h01 = Some u1. Proof. go. Qed.
Lemma s_nh : h_src m' nh = Some u0. Proof. go. Qed.
Lemma s_h02 : h_src m' h02 = Some vn. Proof. go. Qed.
Lemma s_he1 : h_src m' he1 = Some u1. Proof. go. Qed.
Lemma s_rev : h_src m' rev = Some u2. Proof. go. Qed.
Lemma s_h11 : h_src m' h11 = Some vn. Proof. go. Qed.
Lemma s_he3 : h_src m' he3 = Some u3. Proof. go. Qed.
Lemma s_rn : h_src m' rn = Some vn. Proof. go. Qed.
Lemma s_he2 : h_src m' he2 = Some u0. Proof. go. Qed.
Lemma s_h12 : h_src m' h12 = Some u3. Proof. go. Qed.

Definition other (y : nat) : Prop := y <> he /\ y <> he0 /\ y <> he1 /\ y <> rev /\ y <> he2 /\ y <> he3.

Lemma n_oth y : In y (m_hes m) -> other y -> h_next m' y = h_next m y.
Proof.
  intros Hy (? & ? & ? & ? & ? & ?). pose proof (h_lt m W _ Hy) as T. destruct (al_old ma HA y T) as (<- & _).
  unfold split_lists_g, split_ptrs_g; cbv zeta; names; flds; fu; reflexivity.
Qed.
Lemma rv_old y : In y (m_hes m) -> h_rev m' y = h_rev m y.
Proof.
  intros Hy. destruct (Nat.eq_dec y he) as [->|?]; [rewrite rv_he; symmetry; apply D|].
  destruct (Nat.eq_dec y rev) as [->|?]; [rewrite rv_rev; symmetry; apply D|].
  pose proof (h_lt m W _ Hy) as T. destruct (al_old ma HA y T) as (_ & _ & <- & _).
  unfold split_lists_g, split_ptrs_g; cbv zeta; names; flds; fu; reflexivity.
Qed.
Lemma fc_oth y : In y (m_hes m) -> other y -> h_face m' y = h_face m y.
Proof.
  intros Hy (? & ? & ? & ? & ? & ?). pose proof (h_lt m W _ Hy) as T. destruct (al_old ma HA y T) as (_ & _ & _ & <- & _).
  unfold split_lists_g, split_ptrs_g; cbv zeta; names; flds; fu; reflexivity.
Qed.
Lemma classify y : y = he \/ y = he0 \/ y = he1 \/ y = rev \/ y = he2 \/ y = he3 \/ other y.
Proof. unfold other; lia. Qed.
Lemma s_old y : In y (m_hes m) -> y <> he -> h_src m' y = h_src m y.
Proof.
  intros Hy A.
  destruct (classify y) as [X|[X|[X|[X|[X|[X|X]]]]]]; try contradiction; try subst y.
  - rewrite s_he0; symmetry; apply D.
  - rewrite s_he1; symmetry; apply D.
  - rewrite s_rev; symmetry; apply D.
  - rewrite s_he2; symmetry; apply D.
  - rewrite s_he3; symmetry; apply D.
  - destruct X as (? & ? & ? & ? & ? & ?). pose proof (h_lt m W _ Hy) as T. destruct (al_old ma HA y T) as (_ & <- & _).
    unfold split_lists_g, split_ptrs_g; cbv zeta; names; flds; fu; reflexivity.
Qed.
Lemma bd_old y : In y (m_hes m) -> h_bd m' y = h_bd m y.
Proof.
  intros Hy. pose proof (h_lt m W _ Hy) as T. destruct (al_old ma HA y T) as (_ & _ & _ & _ & _ & _ & <-). reflexivity.
Qed.
Lemma bd_new k : k < 6 -> h_bd m' (k + m_fresh m) = false.
Proof. intros Hk. exact (proj2 (al_new ma HA k Hk)). Qed.

Lemma hes' : m_hes m' = m_hes m ++ [nh; rn; h01; h02; h11; h12]. Proof. rewrite <- (al_hes ma HA). reflexivity. Qed.
Lemma verts' : m_verts m' = m_verts m ++ [vn]. Proof. rewrite <- (al_verts ma HA). reflexivity. Qed.
Lemma faces' : m_faces m' = m_faces m ++ [g0; g1]. Proof. rewrite <- (al_faces ma HA). reflexivity. Qed.
Lemma fresh' : m_fresh m' = 9 + m_fresh m. Proof. rewrite <- (al_fresh ma HA). reflexivity. Qed.

Lemma in_hes' y : In y (m_hes m') <-> In y (m_hes m) \/ y = nh \/ y = rn \/ y = h01 \/ y = h02 \/ y = h11 \/ y = h12.
Proof. rewrite hes', in_app_iff. simpl. intuition congruence. Qed.

Lemma old_not_new y : In y (m_hes m) -> y <> nh /\ y <> rn /\ y <> h01 /\ y <> h02 /\ y <> h11 /\ y <> h12.
Proof. intros Hy; pose proof (h_lt m W _ Hy) as T. names. repeat split; neq_tac. Qed.
Lemma new_neq : nh <> rn /\ nh <> h01 /\ nh <> h02 /\ nh <> h11 /\ nh <> h12 /\ rn <> h01 /\ rn <> h02 /\ rn <> h11 /\ rn <> h12 /\
  h01 <> h02 /\ h01 <> h11 /\ h01 <> h12 /\ h02 <> h11 /\ h02 <> h12 /\ h11 <> h12.
Proof. names. repeat split; neq_tac. Qed.
Lemma vn_new v : In v (m_verts m) -> v <> vn.
Proof. intros Hv; pose proof (v_lt m W _ Hv) as T. names. neq_tac. Qed.
Lemma g_new f : In f (m_faces m) -> f <> g0 /\ f <> g1.
Proof. intros Hv; pose proof (f_lt m W _ Hv) as T. names. split; neq_tac. Qed.

Lemma next_other y n : In y (m_hes m) -> other y -> h_next m y = Some n -> other n.
Proof.
  destruct D as [I Ir I0 I1 I2 I3 V0 V1 V2 V3 G0 G1 R Rr Nh N0 N1 Nr N2 N3 S S0 S1 Sr S2 S3 F F0 F1 Fr F2 F3 ND UN FN].
  intros Hi (? & ? & ? & ? & ? & ?) Hn.
  assert (X : forall a b, In a (m_hes m) -> h_next m a = Some b -> y <> a -> n <> b).
  { intros a b Ha Hb Hne ->. apply Hne. eapply (next_inj m W); eassumption. }
  unfold other. repeat split; [apply (X he1)|apply (X he)|apply (X he0)|apply (X he3)|apply (X rev)|apply (X he2)]; auto.
Qed.


(** Element lists and indices of the final state. *)
Lemma live_old y : In y (m_hes m) -> h_live m' y = true.
Proof. intros Hy. pose proof (h_lt m W _ Hy) as T. destruct (al_old ma HA y T) as (_ & _ & _ & _ & E & _). rewrite <- (h_alive m W _ Hy), <- E. reflexivity. Qed.
Lemma live_new k : k < 6 -> h_live m' (k + m_fresh m) = true.
Proof. intros Hk. exact (proj1 (al_new ma HA k Hk)). Qed.
Lemma idx_old y : y < m_fresh m -> h_idx m' y = h_idx m y.
Proof.
  intros T. destruct (al_old ma HA y T) as (_ & _ & _ & _ & _ & <- & _).
  unfold split_lists_g, split_ptrs_g; cbv zeta; names; flds; fu; reflexivity.
Qed.

Lemma NoDup_app_intro {X} (l l' : list X) : NoDup l -> NoDup l' -> (forall x, In x l -> ~ In x l') -> NoDup (l ++ l').
Proof.
  induction l as [|a l IH]; simpl; intros H1 H2 H3; [exact H2|].
  inversion H1; subst. constructor.
  - rewrite in_app_iff. intros [A|A]; [contradiction|]. apply (H3 a); auto.
  - apply IH; auto.
Qed.
Lemma nth_app_cases {X} (l l' : list X) i x : nth_error (l ++ l') i = Some x ->
  nth_error l i = Some x \/ exists k, i = length l + k /\ nth_error l' k = Some x.
Proof.
  intros H. destruct (Nat.lt_ge_cases i (length l)) as [C|C].
  - left. rewrite nth_error_app1 in H by exact C. exact H.
  - right. exists (i - length l). rewrite nth_error_app2 in H by exact C. split; [lia|exact H].
Qed.

Lemma h_elem' i y : nth_error (m_hes m') i = Some y -> h_live m' y = true /\ h_idx m' y = Z.of_nat i /\ y < m_fresh m'.
Proof.
  rewrite hes', fresh'. intros H. apply nth_app_cases in H as [H|(k & -> & H)].
  - destruct (wf_h_elem m W _ _ H) as (L & E & T). split; [apply live_old; eapply nth_error_In; exact H|].
    split; [rewrite idx_old by exact T; exact E|lia].
  - assert (LH : length (m_hes ma) = length (m_hes m)) by (rewrite (al_hes ma HA); reflexivity).
    assert (K : forall j, j < 6 -> h_live m' (j + m_fresh m) = true) by exact live_new.
    destruct k as [|[|[|[|[|[|k]]]]]]; simpl in H; [| | | | | |destruct k; discriminate]; injection H as <-;
      rewrite <- LH; (split; [|split; [|names; clear; lia]]).
    + apply (K 0); lia.
    + unfold split_lists_g, split_ptrs_g; cbv zeta; names; flds; fu. f_equal; lia.
    + apply (K 3); lia.
    + unfold split_lists_g, split_ptrs_g; cbv zeta; names; flds; fu. f_equal; lia.
    + apply (K 1); lia.
    + unfold split_lists_g, split_ptrs_g; cbv zeta; names; flds; fu. f_equal; lia.
    + apply (K 2); lia.
    + unfold split_lists_g, split_ptrs_g; cbv zeta; names; flds; fu. f_equal; lia.
    + apply (K 4); lia.
    + unfold split_lists_g, split_ptrs_g; cbv zeta; names; flds; fu. f_equal; lia.
    + apply (K 5); lia.
    + unfold split_lists_g, split_ptrs_g; cbv zeta; names; flds; fu. f_equal; lia.
Qed.

Lemma v_elem' i y : nth_error (m_verts m') i = Some y -> v_live m' y = true /\ v_idx m' y = Z.of_nat i /\ y < m_fresh m'.
Proof.
  rewrite verts', fresh'. intros H. apply nth_app_cases in H as [H|(k & -> & H)].
  - destruct (wf_v_elem m W _ _ H) as (L & E & T). destruct (al_v_old ma HA y T) as (A & _ & B & _).
    split; [rewrite <- L, <- A; reflexivity|]. split; [|lia]. rewrite <- E, <- B.
    unfold split_lists_g, split_ptrs_g; cbv zeta; names; flds; fu; reflexivity.
  - assert (LH : length (m_verts ma) = length (m_verts m)) by (rewrite (al_verts ma HA); reflexivity).
    destruct k as [|k]; [|destruct k; discriminate]. injection H as <-. rewrite <- LH.
    split; [exact (proj1 (al_v_new ma HA))|split; [|names; clear; lia]].
    unfold split_lists_g, split_ptrs_g; cbv zeta; names; flds; fu. f_equal; lia.
Qed.

Lemma f_elem' i y : nth_error (m_faces m') i = Some y -> f_live m' y = true /\ f_idx m' y = Z.of_nat i /\ y < m_fresh m'.
Proof.
  rewrite faces', fresh'. intros H. apply nth_app_cases in H as [H|(k & -> & H)].
  - destruct (wf_f_elem m W _ _ H) as (L & E & T). destruct (al_f_old ma HA y T) as (A & _ & B).
    split; [rewrite <- L, <- A; reflexivity|]. split; [|lia]. rewrite <- E, <- B.
    unfold split_lists_g, split_ptrs_g; cbv zeta; names; flds; fu; reflexivity.
  - assert (LH : length (m_faces ma) = length (m_faces m)) by (rewrite (al_faces ma HA); reflexivity).
    destruct k as [|[|k]]; [| |destruct k; discriminate]; injection H as <-; rewrite <- LH;
      (split; [|split; [|names; clear; lia]]).
    + exact (proj1 (al_f_new ma HA)).
    + unfold split_lists_g, split_ptrs_g; cbv zeta; names; flds; fu. f_equal; lia.
    + exact (proj2 (al_f_new ma HA)).
    + unfold split_lists_g, split_ptrs_g; cbv zeta; names; flds; fu. f_equal; lia.
Qed.

Lemma vhe_u0 : v_he m' u0 = Some he2. Proof. go. Qed.
Lemma vhe_u2 : v_he m' u2 = Some he0. Proof. go. Qed.
Lemma vhe_vn : v_he m' vn = Some he. Proof. go. Qed.
Lemma vhe_oth v : In v (m_verts m) -> v <> u0 -> v <> u2 -> v_he m' v = v_he m v.
Proof.
  intros Hv A B. pose proof (v_lt m W _ Hv) as T. destruct (al_v_old ma HA v T) as (_ & <- & _).
  unfold split_lists_g, split_ptrs_g; cbv zeta; names; flds; fu; reflexivity.
Qed.
Lemma fhe_f0 : f_he m' f0 = Some he. Proof. assert (FNx := d_fneq _ _ _ _ _ _ _ _ _ _ _ _ _ D). go. Qed.
Lemma fhe_f1 : f_he m' f1 = Some rev. Proof. go. Qed.
Lemma fhe_g0 : f_he m' g0 = Some nh. Proof. go. Qed.
Lemma fhe_g1 : f_he m' g1 = Some rn. Proof. go. Qed.
Lemma fhe_oth f : In f (m_faces m) -> f <> f0 -> f <> f1 -> f_he m' f = f_he m f.
Proof.
  intros Hv A B. pose proof (f_lt m W _ Hv) as T. destruct (al_f_old ma HA f T) as (_ & <- & _).
  unfold split_lists_g, split_ptrs_g; cbv zeta; names; flds; fu; reflexivity.
Qed.
Lemma pos_old v : In v (m_verts m) -> v_pos m' v = v_pos m v /\ v_lock m' v = v_lock m v.
Proof. intros Hv. pose proof (v_lt m W _ Hv) as T. destruct (al_v_old ma HA v T) as (_ & _ & _ & <- & <-). split; reflexivity. Qed.
Lemma pos_new : v_pos m' vn = newpos /\ v_lock m' vn = false.
Proof. exact (proj2 (al_v_new ma HA)). Qed.
Lemma indices' : m_indices m' = m_indices m. Proof. rewrite <- (al_indices ma HA). reflexivity. Qed.

Lemma split_T : SplitT m m' he rev he0 he1 he2 he3 u0 u1 u2 u3 f0 f1 nh h01 h02 rn h11 h12 g0 g1 vn.
Proof.
  destruct new_neq as (? & ? & ? & ? & ? & ? & ? & ? & ? & ? & ? & ? & ? & ? & ?).
  constructor.
  - exact hes'.
  - exact verts'.
  - exact faces'.
  - rewrite hes'. apply NoDup_app_intro; [apply (wf_h_nodup m W)| |].
    + repeat (apply NoDup_cons; [simpl; intuition congruence|]). apply NoDup_nil.
    + intros y Hy Hi. destruct (old_not_new y Hy) as (? & ? & ? & ? & ? & ?). simpl in Hi. intuition congruence.
  - rewrite verts'. apply NoDup_app_intro; [apply (wf_v_nodup m W)|repeat constructor; simpl; tauto|].
    intros y Hy Hi. apply vn_new in Hy. simpl in Hi; intuition congruence.
  - rewrite faces'. apply NoDup_app_intro; [apply (wf_f_nodup m W)| |].
    + apply NoDup_cons; [simpl; intros [E|[]]; revert E; names; lia|]. apply NoDup_cons; [simpl; tauto|apply NoDup_nil].
    + intros y Hy Hi. apply g_new in Hy. simpl in Hi; intuition congruence.
  - exact h_elem'.
  - exact v_elem'.
  - exact f_elem'.
  - repeat split; [exact n_he|exact n_he0|exact n_h01|exact n_nh|exact n_h02|exact n_he1|exact n_rev|exact n_h11|exact n_he3|exact n_rn|exact n_he2|exact n_h12].
  - repeat split; [exact rv_nh|exact rv_rn|exact rv_h01|exact rv_h02|exact rv_h11|exact rv_h12].
  - repeat split; [exact fc_he|exact fc_he0|exact fc_h01|exact fc_nh|exact fc_h02|exact fc_he1|exact fc_rev|exact fc_h11|exact fc_he3|exact fc_rn|exact fc_he2|exact fc_h12].
  - repeat split; [exact s_he|exact s_h01|exact s_nh|exact s_h02|exact s_h11|exact s_rn|exact s_h12].
  - intros y Hy ? ? ? ? ? ?. apply n_oth; [exact Hy|repeat split; assumption].
  - exact rv_old.
  - intros y Hy ? ? ? ? ? ?. apply fc_oth; [exact Hy|repeat split; assumption].
  - exact s_old.
  - exact bd_old.
  - intros y Hy. assert (exists k, k < 6 /\ y = k + m_fresh m) as (k & Hk & ->).
    { simpl in Hy. destruct Hy as [<-|[<-|[<-|[<-|[<-|[<-|[]]]]]]]; names;
        [exists 0|exists 3|exists 1|exists 2|exists 4|exists 5]; split; lia. }
    apply bd_new; exact Hk.
  - repeat split; [exact vhe_u0|exact vhe_u2|exact vhe_vn].
  - exact vhe_oth.
  - repeat split; [exact fhe_f0|exact fhe_f1|exact fhe_g0|exact fhe_g1].
  - exact fhe_oth.
  - exact pos_old.
  - exact pos_new.
  - exact indices'.
  - names; lia.
Qed.

End Fields.

Lemma split_T_exec :
  3 <= deg_of m u0 -> 3 <= deg_of m u2 -> deg_of m u2 <= deg_of m u0 ->
  h_bd m he = false -> h_bd m rev = false ->
  exists m' nh h01 h02 rn h11 h12 g0 g1 vn, splitHE (Some he) m = Ok (true, m') /\
    SplitT m m' he rev he0 he1 he2 he3 u0 u1 u2 u3 f0 f1 nh h01 h02 rn h11 h12 g0 g1 vn.
Proof.
  intros H1 H2 H3 H4 H5. destruct (split_exec_ma H1 H2 H3 H4 H5) as (ma & HA & E).
  exists (split_lists (split_ptrs ma)), nh, h01, h02, rn, h11, h12, g0, g1, vn.
  split; [exact E|apply split_T; exact HA].
Qed.

End Split.
