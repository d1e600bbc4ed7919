(** getMeanFaceArea and getMeanDihedralAngle. *)
From Coq Require Import Lia List ZArith Bool Arith.
From Verif Require Import Num Vec Heap Mesh Spec Orbit Rings Exec Queries Bounds Measure MeasureM.
Import ListNotations.
Local Open Scope mesh_scope.
Section Means.
Context {N : Num}.
Implicit Types m : mesh N.

Lemma face_positions m f : WF m -> In f (m_faces m) -> exists h l, f_he m f = Some h /\ Fring m f (h :: l) /\ f_area (Some f) m = Ok (poly_area (map (fun y => pos_at m (h_src m y)) (h :: l)), m).
Proof.
  intros W Hf. destruct (fring m W f Hf) as (h & l & Eh & Hr). exists h, l. split; [exact Eh|]. split; [exact Hr|]. unfold f_area. rewrite (bind_ok _ _ _ _ _ (f_positions_ok m f h l W Hf Eh Hr)). reflexivity.
Qed.
(** The mean of the areas of all faces of the list. *)
Theorem meanFaceArea_ok m : WF m -> exists A : nat -> num, (forall f, In f (m_faces m) -> f_area (Some f) m = Ok (A f, m)) /\
  getMeanFaceArea m = Ok (ndiv (fold_left nadd (map A (m_faces m)) nzero) (nofZ (Z.of_nat (length (m_faces m)))), m).
Proof.
  intros W. set (A := fun f => match f_area (Some f) m with Ok (x, _) => x | _ => nzero end). exists A.
  assert (H : forall f, In f (m_faces m) -> f_area (Some f) m = Ok (A f, m)).
  { intros f Hf. destruct (face_positions m f W Hf) as (h & l & _ & _ & E). unfold A. rewrite E. reflexivity. }
  split; [exact H|]. unfold getMeanFaceArea. rewrite bind_get.
  assert (X : forall fs acc, incl fs (m_faces m) -> mfold (fun acc f => a <- f_area (Some f) ;; ret (nadd acc a)) acc fs m = Ok (fold_left nadd (map A fs) acc, m)).
  { induction fs as [|f fs IH]; intros acc Hi; [reflexivity|]. cbn [map mfold fold_left]. rewrite bind_assoc. rewrite (bind_ok _ _ _ _ _ (H f (Hi f (or_introl eq_refl)))), bind_ret. apply IH. intros x Hx. apply Hi. right. exact Hx. }
  rewrite (bind_ok _ _ _ _ _ (X (m_faces m) nzero (incl_refl _))). reflexivity.
Qed.

(** The angle of the edge of [h]. *)
Definition edge_dihedral m (h : nat) : num :=
  let nx k := match h_next m k with Some n => n | None => 0 end in let rv := match h_rev m h with Some r => r | None => 0 end in
  dihedral (pos_at m (dst_of m (nx h))) (pos_at m (h_src m h)) (pos_at m (h_src m rv)) (pos_at m (dst_of m (nx rv))).
Lemma dst_ptr m h : WF m -> In h (m_hes m) -> exists w, dst_of m h = Some w /\ In w (m_verts m).
Proof. intros W Hh. destruct (wf_rev m W h Hh) as (r & Er & Ir). destruct (wf_src m W r Ir) as (w & Sw & Iw). exists w. unfold dst_of. rewrite Er. auto. Qed.
Lemma he_dihedral_ok m h : WF m -> In h (m_hes m) -> he_dihedral (Some h) m = Ok (edge_dihedral m h, m).
Proof.
  intros W Hh. unfold he_dihedral, edge_dihedral. destruct (wf_rev m W h Hh) as (r & Er & Ir). destruct (wf_next m W h Hh) as (n & En & In_). destruct (wf_next m W r Ir) as (k & Ek & Ik). 
  destruct (wf_src m W h Hh) as (u & Su & Iu). destruct (wf_src m W r Ir) as (w & Sw & Iw). destruct (dst_ptr m n W In_) as (a & Da & Ia). destruct (dst_ptr m k W Ik) as (b & Db & Ib).
  rewrite (bind_ok _ _ _ _ _ (r_rev m h (h_alive m W _ Hh))), Er. rewrite (bind_ok _ _ _ _ _ (r_src m h (h_alive m W _ Hh))). rewrite (bind_ok _ _ _ _ _ (r_next m h (h_alive m W _ Hh))), En. rewrite (bind_ok _ _ _ _ _ (dst_of_ok m W n In_)).
  rewrite (bind_ok _ _ _ _ _ (r_src m r (h_alive m W _ Ir))). rewrite (bind_ok _ _ _ _ _ (r_next m r (h_alive m W _ Ir))), Ek. rewrite (bind_ok _ _ _ _ _ (dst_of_ok m W k Ik)).
  rewrite Su, Sw, Da, Db. rewrite (bind_ok _ _ _ _ _ (pos_read m u W Iu)), (bind_ok _ _ _ _ _ (pos_read m a W Ia)), (bind_ok _ _ _ _ _ (pos_read m w W Iw)), (bind_ok _ _ _ _ _ (pos_read m b W Ib)). reflexivity.
Qed.
Lemma tri_he m f u w a h : WF m -> NoParallel m -> Spec.Tri m f u w a -> In h (m_hes m) -> h_src m h = Some u -> dst_of m h = Some w -> exists y, h_next m h = Some y /\ dst_of m y = Some a.
Proof.
  intros W NP (x & y & z & Hin & Ex & Ey & Ez & Sx & Sy & Sz) Ih Sh Dh. assert (Ix : In x (m_hes m)) by (apply Hin; tauto). assert (Iy : In y (m_hes m)) by (apply Hin; tauto). 
  assert (D : forall p q, In p (m_hes m) -> h_next m p = Some q -> dst_of m p = h_src m q).
  { intros p q Ip Ep. destruct (wf_rev m W p Ip) as (r & Er & Ir). unfold dst_of. rewrite Er. symmetry. exact (wf_dst m W p q r Ip Ep Er). }
  assert (h = x) by (apply (NP h x Ih Ix); [congruence|rewrite (D x y Ix Ex); congruence]). subst h. exists y. split; [exact Ex|]. rewrite (D y z Iy Ey). exact Sz.
Qed.
Theorem meanDihedral_ok m : Valid m -> exists reps (T : nat -> num), EdgeReps m reps /\
  getMeanDihedralAngle m = Ok (ndiv (fold_left nadd (map T reps) nzero) (nofZ (Z.of_nat (length reps))), m) /\
  (forall h u w f a g b, In h reps -> h_src m h = Some u -> dst_of m h = Some w -> Spec.Tri m f u w a -> Spec.Tri m g w u b -> T h = dihedral (v_pos m a) (v_pos m u) (v_pos m w) (v_pos m b)).
Proof.
  intros V. assert (W := valid_wf m V). assert (NP := valid_noparallel m V). destruct (reps_of m W) as (reps & E & R). exists reps, (edge_dihedral m). split; [exact R|]. assert (Hin := proj1 (proj2 R)). split.
  - unfold getMeanDihedralAngle. rewrite bind_get, (bind_ok _ _ _ _ _ E), map_length, rev_length, <- map_rev, rev_involutive.
    assert (X : forall acc, mfold (fun acc h => x <- he_dihedral h ;; ret (nadd acc x)) acc (map Some reps) m = Ok (fold_left nadd (map (edge_dihedral m) reps) acc, m)).
    { clear E R. induction reps as [|h reps IH]; intros acc; [reflexivity|]. cbn [map mfold fold_left]. rewrite bind_assoc.
      rewrite (bind_ok _ _ _ _ _ (he_dihedral_ok m h W (Hin h (or_introl eq_refl)))), bind_ret. apply IH. intros x Hx; apply Hin; right; exact Hx. }
    rewrite (bind_ok _ _ _ _ _ (X nzero)). reflexivity.
  - intros h u w f a g b Ih Su Dw T1 T2. assert (Jh := Hin h Ih). destruct (wf_rev m W h Jh) as (r & Er & Ir). assert (Sr : h_src m r = Some w) by (unfold dst_of in Dw; rewrite Er in Dw; exact Dw). 
    assert (Dr : dst_of m r = Some u) by (unfold dst_of; rewrite (rev_rev m W h r Jh Er); exact Su).
    destruct (tri_he m f u w a h W NP T1 Jh Su Dw) as (y & Ey & Dy). destruct (tri_he m g w u b r W NP T2 Ir Sr Dr) as (z & Ez & Dz).
    unfold edge_dihedral. rewrite Er, Ey, Ez, Dy, Dz, Su, Sr. reflexivity.
Qed.
End Means.
