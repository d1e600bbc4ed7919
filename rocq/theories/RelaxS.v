(** The relaxation has no undefined behaviour, for any arithmetic, if every neighbour of a vertex inside is
    inside or locked. *)
From Coq Require Import List ZArith Arith Bool Lia.
From Verif Require Import Num Vec Heap Mesh Spec Orbit Rings Exec Wp SmoothP Diamond Measure Lapl LaplP Tensor Feat Safe Relax.
Import ListNotations.
Local Open Scope mesh_scope.

Lemma forall2_len {A B} (P : A -> B -> Prop) l k : Forall2 P l k -> length k = length l.
Proof. induction 1; cbn [length]; congruence. Qed.

Section S.
Context {N : Num}.
Variables (ncos nsin : num -> num) (sparse : nat -> (nat -> nat -> num) -> (nat -> num) -> nat -> num).
Variables (m : mesh N) (l : list nat).
Hypothesis W : WF m.
Hypothesis Iv : forall v, In v l -> In v (m_verts m).
Hypothesis Rim : forall h v w, In h (m_hes m) -> h_src m h = Some v -> dst_of m h = Some w -> In v l -> In w l \/ v_lock m w = true.

Lemma s_inside_iff v : inside l (Some v) = true <-> In v l.
Proof.
  cbn [inside]. rewrite existsb_exists. split; [intros (x & I & E); apply Nat.eqb_eq in E; subst; exact I|intros I; exists v; split; [exact I|apply Nat.eqb_refl]].
Qed.
Lemma s_smooth_one T v : In v l -> sf (smooth_normal T v) m (fun _ => True).
Proof.
  intros Hv. unfold smooth_normal. eapply sf_bind; [apply (sf_circ_v m W v _ (fun _ => True) _ (Iv v Hv) I)|].
  - intros y a Iy _ _. eapply sf_bind; [apply (sf_dst m W); exists y; auto|]. intros d _. eapply sf_bind; [apply (sf_cot m W); exists y; auto|]. intros w _. apply sf_ret. exact I.
  - intros r _. eapply sf_bind; [apply (sf_lift _ m (fun _ => True)); auto|]. intros q _. eapply sf_bind; [apply (sf_lift _ m (fun _ => True)); auto|]. intros n _. apply sf_ret. exact I.
Qed.
Lemma s_normals : sf (new_normals l) m (fun _ => True).
Proof.
  unfold new_normals. eapply sf_bind; [apply (sf_mfold _ m (fun _ => True)); [exact I|]|].
  - intros v T Hv _. eapply sf_bind; [apply (sf_v_normal m W); exists v; auto|]. intros n _. apply sf_ret. exact I.
  - intros T _. generalize 1000 T. clear T. induction n as [|n IH]; intros T; cbn [smooth_normals]; [apply sf_ret; exact I|].
    eapply sf_bind; [apply (sf_mfold _ m (fun _ => True)); [exact I|]|intros T' _; apply IH]. intros v T' Hv _. apply s_smooth_one, Hv.
Qed.
(** The faces that the relaxation turns: all triangles at the vertices. *)
Definition Turned (f : nat) : Prop := exists x y z v, In x (m_hes m) /\ h_face m x = Some f /\ h_next m x = Some y /\ h_next m y = Some z /\ h_next m z = Some x /\ h_src m x = Some v /\ In v l.
Lemma s_face_inside f : In f (m_faces m) -> sf (face_inside l (Some f)) m (fun b => Turned f -> b = true).
Proof.
  intros Hf. destruct (fring m W f Hf) as (x0 & r & Ex & Hr). assert (LK := f_isLocked_ok m W f x0 r Hf Ex Hr). unfold face_inside.
  apply (sf_circ_f m W f _ (fun b => Turned f -> b = true) _ Hf); [auto|]. intros q a Iq Fq Ha.
  eapply sf_bind; [apply (sf_src m W); exists q; auto|]. intros s [_ Es]. specialize (Es q eq_refl). subst s. eapply sf_bind; [eapply (sf_ok _ _ _ (fun b => b = existsb (lockb m) (x0 :: r)) LK); reflexivity|]. intros lk ->.
  destruct (negb (inside l (h_src m q)) && negb (existsb (lockb m) (x0 :: r))) eqn:E; apply sf_ret; cbn [fst]; [|exact Ha].
  intros (x & y & z & v & Ix & Fx & Nx & Ny & Nz & Sx & Hv). exfalso. apply andb_true_iff in E as [E1 E2]. apply negb_true_iff in E1, E2.
  assert (Iy := next_in m W x y Ix Nx). assert (Iz := next_in m W y z Iy Ny). assert (Fy : h_face m y = Some f) by (rewrite (wf_face_next m W x y Ix Nx); exact Fx). assert (Fz : h_face m z = Some f) by (rewrite (wf_face_next m W y z Iy Ny); exact Fy).
  assert (Lk : forall y s, In y (m_hes m) -> h_face m y = Some f -> h_src m y = Some s -> v_lock m s = true -> False).
  { intros t s It Ft St L. assert (Q : existsb (lockb m) (x0 :: r) = true); [|congruence]. apply existsb_exists. exists t. split; [destruct Hr as (_ & _ & Hin); apply Hin; auto|]. unfold lockb. rewrite St. exact L. }
  assert (Q : q = x \/ q = y \/ q = z).
  { destruct (fring_at m W x f Ix Fx) as (k & R). assert (Rh : In q (x :: k)) by (apply R; auto). assert (K := cyc_reaches (h_next m) (x :: k) x q (proj1 R) (or_introl eq_refl) Rh).
    assert (C : cyc (h_next m) [x; y; z]) by (cbn [cyc chainto]; auto). assert (Q := cyc_reaches_in (h_next m) [x; y; z] x q C (or_introl eq_refl) K). cbn [In] in Q. intuition. }
  destruct (wf_src m W y Iy) as (b & Sy & _). destruct (wf_src m W z Iz) as (c & Sz & _).
  assert (Db : dst_of m x = Some b) by (rewrite (dst_next m x y W Ix Nx); exact Sy).
  assert (Nb : In b l). { destruct (Rim x v b Ix Sx Db Hv) as [K | K]; [exact K|destruct (Lk y b Iy Fy Sy K)]. }
  destruct (wf_rev m W z Iz) as (r' & Er & Ir). assert (Sr : h_src m r' = Some v) by (rewrite <- (wf_dst m W z x r' Iz Nz Er); exact Sx). assert (Dr : dst_of m r' = Some c) by (unfold dst_of; rewrite (rev_rev m W z r' Iz Er); exact Sz).
  assert (Nc : In c l). { destruct (Rim r' v c Ir Sr Dr Hv) as [K | K]; [exact K|destruct (Lk z c Iz Fz Sz K)]. }
  assert (Z : forall s, In s l -> inside l (Some s) = true) by (intros s; apply s_inside_iff).
  destruct Q as [-> | [-> | ->]]; [rewrite Sx in E1; rewrite (Z v Hv) in E1|rewrite Sy in E1; rewrite (Z b Nb) in E1|rewrite Sz in E1; rewrite (Z c Nc) in E1]; discriminate.
Qed.
Lemma s_faces : sf (inside_faces l) m (fun fs => (forall f, In f fs -> In f (m_faces m)) /\ forall f, Turned f -> In f fs).
Proof.
  unfold inside_faces. set (body := fun (acc : list nat) (v : nat) => fs <- v_faces (Some v) ;; mfold (fun acc f => b <- face_inside l f ;; ret (match f with Some a => if b && negb (existsb (Nat.eqb a) acc) then acc ++ [a] else acc | None => acc end)) acc fs).
  assert (G : forall k acc, (forall v, In v k -> In v l) -> (forall f, In f acc -> In f (m_faces m)) -> sf (mfold body acc k) m (fun fs => (forall f, In f fs -> In f (m_faces m)) /\ (forall f, In f acc -> In f fs) /\
    forall f h v, Turned f -> In h (m_hes m) -> h_face m h = Some f -> h_src m h = Some v -> In v k -> In f fs)).
  { induction k as [|v k IH]; intros acc Hk Ha; cbn [mfold]; [apply sf_ret; split; [exact Ha|split; [auto|intros f h v _ _ _ _ []]]|].
    assert (Hv := Hk v (or_introl eq_refl)). destruct (vring m W v (Iv v Hv)) as (h & r & Eh & Hr). 
    assert (S : forall ys acc, (forall y, In y ys -> In y (m_hes m)) -> (forall f, In f acc -> In f (m_faces m)) -> sf (mfold (fun acc f => b <- face_inside l f ;; ret (match f with Some a => if b && negb (existsb (Nat.eqb a) acc) then acc ++ [a] else acc | None => acc end)) acc (map (h_face m) ys)) m
      (fun fs => (forall f, In f fs -> In f (m_faces m)) /\ (forall f, In f acc -> In f fs) /\ forall f y, Turned f -> In y ys -> h_face m y = Some f -> In f fs)).
    { clear IH. induction ys as [|y ys IH]; intros ac Hys Hac; cbn [map mfold]; [apply sf_ret; split; [exact Hac|split; [auto|intros f y _ []]]|].
      destruct (wf_face m W y (Hys y (or_introl eq_refl))) as (f & Ef & If). rewrite Ef.
      eapply sf_bind; [eapply sf_bind; [exact (s_face_inside f If)|]; intros b Hb; apply (sf_ret _ m (fun a => (forall g, In g a -> In g (m_faces m)) /\ (forall g, In g ac -> In g a) /\ (Turned f -> In f a)))|].
      - destruct b; cbn [andb].
        + destruct (existsb (Nat.eqb f) ac) eqn:X; cbn [negb].
          * split; [exact Hac|]. split; [auto|]. intros _. apply existsb_exists in X. destruct X as (q & Iq & Eq). apply Nat.eqb_eq in Eq. subst. exact Iq.
          * split; [|split]; [intros g Ig; apply in_app_iff in Ig as [Ig | [<- | []]]; auto|intros g Ig; apply in_app_iff; auto|intros _; apply in_app_iff; right; left; reflexivity].
        + split; [exact Hac|]. split; [auto|]. intros T. discriminate (Hb T).
      - intros a (A1 & A2 & A3). eapply sf_weaken; [apply (IH a); [intros z Iz; apply Hys; right; exact Iz|exact A1]|]. intros fs (B1 & B2 & B3). split; [exact B1|]. split; [auto|]. intros g z T [<- | Iz] Fz; [assert (g = f) by congruence; subst g; auto|exact (B3 g z T Iz Fz)]. }
    eapply sf_bind.
    - unfold body. eapply sf_bind; [eapply (sf_ok _ _ _ (fun fs => fs = map (h_face m) (h :: r))); [exact (v_faces_ok m W v h r (Iv v Hv) Eh Hr)|reflexivity]|]. intros fs ->. apply S; [intros y Iy; destruct Hr as (_ & _ & Hin); apply Hin, Iy|exact Ha].
    - intros a (A1 & A2 & A3). eapply sf_weaken; [apply (IH a); [intros z Iz; apply Hk; right; exact Iz|exact A1]|]. intros fs (B1 & B2 & B3). split; [exact B1|]. split; [auto|].
      intros f x u T Ix Fx Sx [<- | Iu]; [apply B2, (A3 f x T); [destruct Hr as (_ & _ & Hin); apply Hin; auto|exact Fx]|exact (B3 f x u T Ix Fx Sx Iu)]. }
  eapply sf_weaken; [apply (G l []); [auto|intros f []]|]. intros fs (A & _ & B). split; [exact A|]. intros f T. assert (T' := T). destruct T' as (x & y & z & v & Ix & Fx & _ & _ & _ & Sx & Hv). exact (B f x v T Ix Fx Sx Hv).
Qed.
Lemma s_rotations T fs : (forall f, In f fs -> In f (m_faces m)) -> sf (rotations ncos nsin T fs) m (fun R => forall f, In f fs -> rot_at R f <> None).
Proof.
  intros Hf. unfold rotations. eapply sf_weaken; [apply (sf_mmap _ m (fun f x => fst x = f))|].
  - intros f If. eapply sf_bind; [|intros r _; apply sf_ret; reflexivity]. unfold rotation_of. apply (sf_true _ _ (fun _ => True)).
    eapply sf_bind; [apply (sf_f_normal m W); exists f; auto|]. intros n0 _. eapply sf_bind; [apply (sf_circ_f m W f _ (fun _ => True) _ (Hf f If) I)|].
    + intros y a Iy _ _. eapply sf_bind; [apply (sf_src m W); exists y; auto|]. intros s _. apply sf_ret. exact I.
    + intros n1 _. eapply sf_bind; [apply (sf_lift _ m (fun _ => True)); auto|]. intros n2 _. apply sf_ret. exact I.
  - intros R H f If. induction H as [|g x fs R Hx H IH]; [destruct If|]. destruct x as [g' r]. cbn [fst] in Hx. subst g'. cbn [rot_at]. destruct (Nat.eqb_spec g f) as [E|E]; [discriminate|]. apply IH; [intros q Iq; apply Hf; right; exact Iq|]. destruct If as [<- | If]; [contradiction|exact If].
Qed.
Lemma s_gradients R : (forall f, Turned f -> rot_at R f <> None) -> sf (gradients R l) m (fun _ => True).
Proof.
  intros HR. unfold gradients. apply (sf_mfold _ m (fun _ => True)); [exact I|]. intros v T Hv _. eapply sf_bind; [|intros g _; apply sf_ret; exact I]. unfold gradient. apply (sf_true _ _ (fun _ => True)).
  eapply sf_bind; [apply (sf_circ_v m W v _ (fun _ => True) _ (Iv v Hv) I)|intros r _; apply sf_lift; auto].
  intros y a Iy Sy _. eapply sf_bind; [|intros g _; apply sf_ret; exact I]. unfold gradient_edge. apply (sf_true _ _ (fun _ => True)).
  eapply sf_bind; [apply (sf_next m W); exists y; auto|]. intros n [Hn En]. specialize (En y eq_refl). eapply sf_bind; [exact (sf_next m W n Hn)|]. intros nn [Hnn Enn]. eapply sf_bind; [exact (sf_next m W nn Hnn)|]. intros nnn [Hn3 En3].
  eapply sf_bind; [apply (sf_assertion _ m (fun _ => nnn = Some y)); intros E; apply ptr_eqb_eq, E|]. intros u E. cbv beta in E. clear u.
  eapply sf_bind; [apply (sf_src m W); exists y; auto|]. intros v0 [H0 _]. eapply sf_bind; [exact (sf_src m W n Hn)|]. intros v1 [H1 _]. eapply sf_bind; [exact (sf_src m W nn Hnn)|]. intros v2 [H2 _].
  eapply sf_bind; [exact (sf_pos m W v0 H0)|]. intros p0 _. eapply sf_bind; [exact (sf_pos m W v1 H1)|]. intros p1 _. eapply sf_bind; [exact (sf_pos m W v2 H2)|]. intros p2 _.
  eapply sf_bind; [apply (sf_lift _ m (fun _ => True)); auto|]. intros e _. eapply sf_bind; [apply (sf_face m W); exists y; auto|]. intros f [(g & -> & Ig) Eg]. specialize (Eg y eq_refl).
  destruct Hn as (y1 & X1 & Iy1). destruct Hnn as (y2 & X2 & Iy2). specialize (Enn y1 X1). specialize (En3 y2 X2).
  assert (K : Turned g) by (exists y, y1, y2, v; repeat split; congruence || assumption). unfold rotation_at. destruct (rot_at R g) eqn:Er; [|destruct (HR g K Er)].
  eapply sf_bind; [apply (sf_ret _ m (fun _ => True)); exact I|]. intros r _. apply sf_lift. auto.
Qed.
Lemma s_poisson G : sf (poisson sparse G l) m (fun _ => True).
Proof.
  unfold poisson. eapply (sf_bind _ _ m (fun D => length D = length (m_verts m))).
  - unfold outer_marks. eapply sf_bind; [apply (sf_get m_verts m (fun vs => vs = m_verts m)); reflexivity|]. intros vs ->. eapply sf_weaken; [apply (sf_mmap _ m (fun _ _ => True))|intros D H; exact (forall2_len _ _ _ H)].
    intros v Hv. eapply sf_bind; [apply (sf_pos m W); exists v; auto|]. intros p _. apply sf_ret. exact I.
  - intros D HD. eapply (sf_bind _ _ m (fun _ => True)).
    + unfold poisson_system. apply (sf_mfold _ m (fun _ => True)); [exact I|]. intros v s Hv _. eapply sf_bind; [apply (sf_vidx m W); exists v; auto|]. intros i (k & v' & Xi & _ & Ek). rewrite Xi, Nat2Z.id. unfold field_row.
      assert (Lk : k < length (m_verts m)) by (apply nth_error_Some; congruence).
      eapply sf_bind; [eapply (sf_ok _ m (Some v') (fun p => p = Some v')); [rewrite mesh_vertex_eq, Ek; reflexivity|reflexivity]|]. intros p ->.
      eapply sf_bind; [apply (sf_tab m D); lia|]. intros x _. destruct (negb _); [apply sf_ret; exact I|]. cbn zeta.
      eapply sf_bind; [apply (sf_circ_v m W v' _ (fun _ => True) _ (nth_error_In _ _ Ek) I)|intros r _; apply sf_ret; exact I].
      intros y a Iy _ _. eapply sf_bind; [|intros r _; apply sf_ret; exact I]. unfold field_edge. apply (sf_true _ _ (fun _ => True)).
      eapply sf_bind; [apply (sf_dst m W); exists y; auto|]. intros u [Hu _]. eapply sf_bind; [apply (sf_cot m W); exists y; auto|]. intros w _. eapply sf_bind; [exact (sf_vidx m W u Hu)|]. intros j (k' & u' & -> & _ & Ek').
      assert (Lk' : k' < length (m_verts m)) by (apply nth_error_Some; congruence). eapply sf_bind; [apply (sf_tab m D); lia|]. intros x' _. apply sf_ret. exact I.
    + intros s _. eapply sf_bind; [apply (sf_get m_verts m (fun _ => True)); exact I|]. intros vs _. apply (sf_mfold _ m (fun _ => True)); [exact I|]. intros v T Hv _. eapply sf_bind; [apply (sf_vidx m W); exists v; auto|]. intros i _. destruct (number_of (s_non s) i); apply sf_ret; exact I.
Qed.
Theorem relaxed_safe : sf (relaxed ncos nsin sparse l) m (fun _ => True).
Proof.
  unfold relaxed. eapply sf_bind; [exact s_normals|]. intros T _. eapply sf_bind; [exact s_faces|]. intros fs [F1 F2]. eapply sf_bind; [exact (s_rotations T fs F1)|]. intros R HR.
  eapply sf_bind; [apply s_gradients; intros f Tf; apply HR, F2, Tf|]. intros G _. apply s_poisson.
Qed.
End S.
