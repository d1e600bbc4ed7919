(** implicitFairing moves locked vertices: a regular tetrahedron shrinks. *)
From Coq Require Import Reals Lra Bool List ZArith Arith Lia Permutation.
From Verif Require Import Num NumInst Vec VecR Heap Mesh Construct Spec BuildSpec GeomSpec Orbit Rings Queries MeasureM SmoothSpec Smooth SmoothP SmoothD SmoothR Lapl LaplSpec LaplP LaplM FilterSpec SmoothF Witness ExamplesR RegTet Fair CollapseFlipW.
Import ListNotations.
Local Open Scope R_scope.

(** The mesh with all vertices locked. *)
Definition locked {N : Num} (m : mesh N) : mesh N :=
  mkMesh (m_verts m) (m_hes m) (m_faces m) (m_indices m) (m_fresh m) (v_live m) (v_pos m) (v_he m) (v_idx m) (fun _ => true)
    (h_live m) (h_src m) (h_next m) (h_rev m) (h_face m) (h_idx m) (h_bd m) (f_live m) (f_he m) (f_idx m).
Lemma locked_valid {N : Num} (m : mesh N) : Valid m -> Valid (locked m).
Proof. intros [W L P T]. constructor; [|exact L|exact P|exact T]. destruct W. constructor; assumption. Qed.

Lemma fair_write_total (m : mesh NumR) (W : WF m) (X : list (vec NumR)) : length X = length (m_verts m) -> exists m', fair_write X m = Ok (tt, m').
Proof.
  intros LX. unfold fair_write. rewrite bind_get.
  assert (G : forall k m1, (k <= length (m_verts m))%nat -> posonly m m1 -> exists m',
     mfold (fun _ i => bind (mesh_vertex (Z.of_nat i)) (fun v => match nth_error X i with Some x => w_pos v x | None => ub OutOfBounds end)) tt (seq (length (m_verts m) - k) k) m1 = Ok (tt, m')).
  { induction k as [|k IH]; intros m1 Hk P.
    - exists m1. reflexivity.
    - cbn [seq mfold]. assert (Hi : (length (m_verts m) - S k < length (m_verts m))%nat) by lia. set (i := (length (m_verts m) - S k)%nat) in *.
      assert (Ev : mesh_vertex (Z.of_nat i) m1 = Ok (Some (vat m i), m1)) by (rewrite mesh_vertex_eq, (posonly_verts m m1 P), (vat_nth m i Hi); reflexivity).
      assert (Lv : v_live m1 (vat m i) = true) by (rewrite (po_eq m m1 P); apply (v_alive m W), vat_in, Hi).
      destruct (nth_error X i) as [x|] eqn:Ex; [|apply nth_error_None in Ex; lia].
      destruct (IH (set_v_pos (vat m i) x m1)) as (m' & Hm'); [lia|apply posonly_set; [exact P|apply vat_in, Hi]|]. exists m'. unfold bind at 1. unfold bind at 1. rewrite Ev, (ww_pos m1 _ x Lv).
      replace (S i) with (length (m_verts m) - k)%nat by lia. exact Hm'. }
  destruct (G (length (m_verts m)) m (le_n _) (posonly_refl m)) as (m' & Hm'). rewrite Nat.sub_diag in Hm'. exists m'. exact Hm'.
Qed.

Section M.
Variable m : mesh NumR.
Hypothesis Vm : Valid m.
Hypothesis Cm : Closed m.
Hypothesis Pm : positions m = regR.
Hypothesis Ed : forall a b, (a < 4)%nat -> (b < 4)%nat -> a <> b -> adj m (vat m a) (vat m b).
Let Wm := valid_wf m Vm.
Lemma reg_between i j : (i < 4)%nat -> (j < 4)%nat -> exists y, In y (m_hes m) /\ between m (vat m i) (vat m j) = if Nat.eqb i j then [] else [y].
Proof.
  intros Hi Hj. destruct (Nat.eqb_spec i j) as [-> | Ne].
  - assert (Hj' : (j < length (m_verts m))%nat) by (rewrite (reg_len m Pm); exact Hj). destruct (wf_vhe m Wm _ (vat_in m j Hj')) as (h & _ & Ih & _). exists h. split; [exact Ih|].
    destruct (between m (vat m j) (vat m j)) as [|y l] eqn:E; [reflexivity|]. exfalso. assert (Q : In y (between m (vat m j) (vat m j))) by (rewrite E; left; reflexivity). apply between_in in Q as (Iy & Sy & Dy). apply (valid_noloops m Vm y Iy). congruence.
  - destruct (Ed i j Hi Hj Ne) as (y & Iy & Sy & Dy). exists y. split; [exact Iy|]. apply (between_one m Wm (valid_noparallel m Vm) y _ _ Iy Sy Dy).
Qed.
Lemma reg_total i : (i < 4)%nat -> rsum (map (w_cot m) (vert_ring m i)) = 3 * kappa.
Proof.
  intros Hi. assert (Hi' : (i < length (m_verts m))%nat) by (rewrite (reg_len m Pm); exact Hi). rewrite (rsum_perm _ _ (Permutation_map (w_cot m) (ring_out m Wm i Hi'))).
  rewrite <- (rsum_key (w_cot m) (dst_of m) (m_verts m) (wf_v_nodup m Wm) (out m (vat m i))) by (intros h Hh; apply out_in in Hh as [Hh _]; apply (dst_some m Wm), Hh).
  rewrite <- (sum_to_list 0%nat), (reg_len m Pm). change (fun j => _) with (fun j => rsum (map (w_cot m) (between m (vat m i) (vat m j)))).
  rewrite (sum_to_ext 4 _ (fun j => if Nat.eqb i j then 0 else kappa)).
  - cbn [sum_to]. destruct i as [|[|[|[|i]]]]; cbn [Nat.eqb]; lra || lia.
  - intros j Hj. destruct (reg_between i j Hi Hj) as (y & Iy & ->). destruct (Nat.eqb i j); [reflexivity|]. cbn [map]. rewrite rsum_cons. unfold w_cot. rewrite (reg_weight m Vm Cm Pm y Iy). cbn. lra.
Qed.
Lemma reg_matrix eps i j : (i < 4)%nat -> (j < 4)%nat -> famat m eps i j = if Nat.eqb i j then 1 + eps else - eps / 3.
Proof.
  intros Hi Hj. unfold famat. rewrite (fmat_entry m Wm) by (rewrite (reg_len m Pm); assumption). change (@nsub NumR) with Rminus. change (@nmul NumR) with Rmult. change (@none_ NumR) with 1. change (@nzero NumR) with 0.
  destruct (reg_between i j Hi Hj) as (y & Iy & ->). assert (K := kappa_pos). destruct (Nat.eqb i j); cbn [map]; [cbn; lra|]. rewrite rsum_cons. unfold fw. rewrite (reg_total i Hi). unfold w_cot. rewrite (reg_weight m Vm Cm Pm y Iy). cbn [rsum fold_right]. field. lra.
Qed.
(** The exact solution: the tetrahedron shrinks by the factor 1 / (1 + 4/3 eps). *)
Definition shrunk (eps : R) : list vecR := map (vscale (/ (1 + 4 / 3 * eps))) regR.
Lemma reg_solution eps : 0 < eps -> solution (length (m_verts m)) (famat m eps) (positions m) (shrunk eps).
Proof.
  intros He. rewrite (reg_len m Pm), Pm. split; [reflexivity|]. split; [reflexivity|]. assert (P : 0 < 3 + 4 * eps) by lra. intros i Hi.
  assert (E : forall g : vecR -> R, sum_to 4 (fun j => famat m eps i j * g (nth j (shrunk eps) vzero)) = sum_to 4 (fun j => (if Nat.eqb i j then 1 + eps else - eps / 3) * g (nth j (shrunk eps) vzero))) by (intros g; apply sum_to_ext; intros j Hj; rewrite reg_matrix by assumption; reflexivity).
  rewrite (E (@vx NumR)), (E (@vy NumR)), (E (@vz NumR)). destruct i as [|[|[|[|i]]]]; try lia; cbn [sum_to Nat.eqb shrunk regR map nth]; unfold vscale, v3; rn; (split; [|split]); field; lra.
Qed.
Lemma reg_fair eps : 0 < eps -> exists m', implicitFairing (N := NumR) solution eps 1 m (Ok m') /\ forall i, (i < 4)%nat -> v_pos m' (vat m i) <> v_pos m (vat m i).
Proof.
  intros He. destruct (fair_write_total m Wm (shrunk eps)) as (m' & H'); [rewrite (reg_len m Pm); reflexivity|]. exists m'. split.
  - apply (if_S _ _ 0%nat m m'); [|apply if_0]. apply (fair_ok _ _ m (famat m eps) m (positions m) (shrunk eps) m m'); [apply fair_matrix_ok, Wm|apply read_pos, Wm|apply reg_solution, He|exact H'].
  - intros i Hi. destruct (fair_write_ok m Wm _ m' H') as [_ Q]. assert (Hi' : (i < length (m_verts m))%nat) by (rewrite (reg_len m Pm); exact Hi). specialize (Q i Hi'). rewrite (reg_pos m Pm i Hi).
    assert (P : 0 < 3 + 4 * eps) by lra. assert (N1 : / (1 + 4 / 3 * eps) <> 1). { intros E. assert (E1 : / (1 + 4 / 3 * eps) * (1 + 4 / 3 * eps) = 1) by (apply Rinv_l; lra). rewrite E in E1. lra. }
    intros E. rewrite E in Q. destruct i as [|[|[|[|i]]]]; try lia; cbn [shrunk regR map nth nth_error] in Q; injection Q; unfold v3; rn; intros; lra.
Qed.
End M.

Lemma fairing_refuted : forall eps : R, 0 < eps -> exists m m' : mesh NumR, Valid m /\ Closed m /\ positions m = regR /\ (forall v, In v (m_verts m) -> v_lock m v = true) /\
  implicitFairing (N := NumR) solution eps 1 m (Ok m') /\ forall v, In v (m_verts m) -> v_pos m' v <> v_pos m v.
Proof.
  intros eps He. destruct regR_all as (m0 & _ & V & C & P & _ & S). set (m := locked m0). assert (Vl : Valid m) by apply locked_valid, V. 
  assert (L4 : length (m_verts m0) = 4%nat) by (apply (reg_len m0 P)).
  assert (A : forall a b, (a < 4)%nat -> (b < 4)%nat -> a <> b -> adj m (vat m a) (vat m b)).
  { intros a b Ha Hb Ne. assert (Q : In (a, b) (edges (triples ix_tetra)) \/ In (b, a) (edges (triples ix_tetra))).
    { left. apply Built.memb_in. destruct a as [|[|[|[|a]]]]; try lia; destruct b as [|[|[|[|b]]]]; try lia; reflexivity. }
    apply (so_edges _ _ S) in Q as (h & Ih & u & v & Eu & Ev & Sh & Dh). exists h. split; [exact Ih|]. rewrite (vat_nth m0 a) in Eu by (rewrite L4; exact Ha). rewrite (vat_nth m0 b) in Ev by (rewrite L4; exact Hb). injection Eu as <-. injection Ev as <-. split; assumption. }
  destruct (reg_fair m Vl C P A eps He) as (m' & H & Q). exists m, m'. split; [exact Vl|]. split; [exact C|]. split; [exact P|]. split; [reflexivity|]. split; [exact H|].
  intros v Iv. destruct (vat_of m v Iv) as (i & Hi & ->). apply Q. assert (length (m_verts m) = 4%nat) by exact L4. lia.
Qed.
