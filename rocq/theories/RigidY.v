(** Meshes that meet the hypotheses of C104 and C105. *)
From Coq Require Import Reals List ZArith Arith Bool Lia Lra Permutation.
From Verif Require Import Num NumInst Vec Heap Mesh Construct Spec BuildSpec GeomSpec Rings MeasureM Smooth SmoothSpec SmoothP SmoothD Lapl LaplSpec LaplP LaplM SmoothF Fair FairW RegTet Witness Simplify Qem QemSpec QemT QemW QemX ExamplesR WholeSpec RigidSpec RigidM RigidG.
Import ListNotations.
Local Open Scope R_scope.

Section M.
Variable m : mesh NumR.
Hypothesis Vm : Valid m.
Hypothesis Cm : Closed m.
Hypothesis Pm : positions m = regR.
Hypothesis Ed : forall a b, (a < 4)%nat -> (b < 4)%nat -> a <> b -> adj m (vat m a) (vat m b).
Lemma reg_weights_add : weights_add m.
Proof.
  assert (W := valid_wf m Vm). intros v hs ws Iv E1 E2. destruct (vat_of m v Iv) as (i & Hi & ->). rewrite (v_halfedges_ring m i W Hi) in E1. injection E1 as <-.
  assert (T := reg_total m Vm Cm Pm Ed i). rewrite (reg_len m Pm) in Hi. specialize (T Hi). assert (K := kappa_pos). 
  assert (X : mmap he_cotWeight (map Some (vert_ring m i)) m = Ok (map (w_cot m) (vert_ring m i), m)).
  { assert (Y : mmap he_cotWeight (map Some (vert_ring m i)) m = Ok (map (fun p => match p with Some y => w_cot m y | None => 0%R end) (map Some (vert_ring m i)), m)); [|rewrite map_map in Y; exact Y]. apply mmap_all. intros p Ip. apply in_map_iff in Ip. destruct Ip as (y & <- & Iy). apply (cot_ok m W). apply (Permutation_in _ (ring_out m W i ltac:(rewrite (reg_len m Pm); exact Hi))) in Iy. apply out_in in Iy. apply Iy. }
  rewrite X in E2. injection E2 as <-. unfold rsum in T. rewrite T. lra.
Qed.
End M.
(** A regular tetrahedron: one step of fairing; the weights do not add up to 0 before it. *)
Lemma fairing_ex : forall eps : R, 0 < eps -> exists m m' : mesh NumR, Valid m /\ Closed m /\ positions m = regR /\ implicitFairing (N := NumR) solution eps 1 m (Ok m') /\
  (forall k mk, (k < 1)%nat -> implicitFairing (N := NumR) solution eps k m (Ok mk) -> weights_add mk) /\ forall v, In v (m_verts m) -> v_pos m' v <> v_pos m v.
Proof.
  intros eps He. destruct regR_all as (m & _ & V & C & P & _ & S). assert (L4 : length (m_verts m) = 4%nat) by (apply (reg_len m P)).
  assert (A : forall a b, (a < 4)%nat -> (b < 4)%nat -> a <> b -> adj m (vat m a) (vat m b)).
  { intros a b Ha Hb Ne. assert (Q : In (a, b) (edges (triples ix_tetra)) \/ In (b, a) (edges (triples ix_tetra))).
    { left. apply Built.memb_in. destruct a as [|[|[|[|a]]]]; try lia; destruct b as [|[|[|[|b]]]]; try lia; reflexivity. }
    apply (so_edges _ _ S) in Q as (h & Ih & u & v & Eu & Ev & Sh & Dh). exists h. split; [exact Ih|]. rewrite (vat_nth m a) in Eu by (rewrite L4; exact Ha). rewrite (vat_nth m b) in Ev by (rewrite L4; exact Hb). injection Eu as <-. injection Ev as <-. split; assumption. }
  destruct (reg_fair m V C P A eps He) as (m' & H & Q). exists m, m'. split; [exact V|]. split; [exact C|]. split; [exact P|]. split; [exact H|]. split.
  - intros k mk Hk R1. assert (k = 0%nat) as -> by lia. inversion R1. subst mk. apply (reg_weights_add m V C P A).
  - intros v Iv. destruct (vat_of m v Iv) as (i & Hi & ->). apply Q. lia.
Qed.
(** An octahedron: simplification runs. *)
Lemma simplify_ex : exists m m' : mesh NumR, Valid m /\ map (v_pos m) (m_verts m) = [v3 1 0 0; v3 0 1 0; v3 0 0 1; v3 (-1) 0 0; v3 0 (-1) 0; v3 0 0 (-1)] /\
  simplifyQueue (N := NumR) solution4 4 2 ((length (m_faces m) + 1) * 2) m (Ok m').
Proof.
  destruct octa_mesh as (m & V & _ & Vs & P & _). destruct (simplify_queue_valid 4 2 ((length (m_faces m) + 1) * 2) m V ltac:(lia) (le_n _)) as [(m' & H) _]. exists m, m'. split; [exact V|]. split; [|exact H].
  rewrite Vs, P. reflexivity.
Qed.
