(** Patches: breadth first search finds the faces within the radius. *)
From Coq Require Import Bool List ZArith Arith Lia Permutation.
From Verif Require Import Num Vec Heap Mesh Spec Orbit Rings Exec SmoothP LaplM Repair Coherent PatchSpec.
Import ListNotations.

Lemma nodup_snoc {A} (l : list A) x : NoDup l -> ~ In x l -> NoDup (l ++ [x]).
Proof. intros H1 H2. apply NoDup_Add with (a := x) (l := l); [|split; assumption]. assert (Q := Add_app x l []). rewrite app_nil_r in Q. exact Q. Qed.
Section Patch.
Context {N : Num}.
Variables (m : mesh N) (v : nat) (rad : Z).
Hypothesis W : WF m.
Hypothesis Iv : In v (m_verts m).
Definition inface (f h : nat) : bool := ptr_eqb (h_face m h) (Some f).
Definition nbs (f : nat) : list ptr := match f_neighbors (Some f) m with Ok (l, _) => l | _ => [] end.
Lemma filter_ring f l : Fring m f l -> length (filter (inface f) (m_hes m)) = length l.
Proof.
  intros (_ & ND & HI). apply Nat.le_antisymm; apply NoDup_incl_length.
  - apply NoDup_filter, (wf_h_nodup m W).
  - intros h Hh. apply filter_In in Hh. destruct Hh as [Ih Fh]. apply HI. split; [exact Ih|]. apply ptr_eqb_eq, Fh.
  - exact ND.
  - intros h Hh. apply HI in Hh. apply filter_In. split; [apply Hh|]. unfold inface. rewrite (proj2 Hh). apply ptr_eqb_refl.
Qed.
Lemma nbs_run f : In f (m_faces m) -> exists gs, f_neighbors (Some f) m = Ok (map Some gs, m) /\ length gs = length (filter (inface f) (m_hes m)) /\ (forall g, In g gs <-> Across m f g) /\ forall g, In g gs -> In g (m_faces m).
Proof.
  intros If. destruct (fring m W f If) as (h & l & Eh & Hr). set (c := fun y => match h_rev m y with Some r => match h_face m r with Some g => g | None => O end | None => O end).
  assert (Q : forall y, In y (m_hes m) -> exists r g, h_rev m y = Some r /\ In r (m_hes m) /\ h_face m r = Some g /\ In g (m_faces m) /\ c y = g).
  { intros y Iy. destruct (wf_rev m W y Iy) as (r & Er & Ir). destruct (wf_face m W r Ir) as (g & Eg & Ig). exists r, g. unfold c. rewrite Er, Eg. auto. }
  exists (map c (h :: l)). split; [|split; [|split]].
  - unfold f_neighbors. rewrite (circ_f_ok m W f h l _ (fun a y => (a ++ [Some (c y)], false)) _ If Eh Hr).
    + rewrite bfold_collect. cbn [app]. rewrite map_map. reflexivity.
    + intros y a Iy _. destruct (Q y Iy) as (r & g & Er & Ir & Eg & _ & Ec). rewrite (bind_ok _ _ _ _ _ (r_rev m y (h_alive m W _ Iy))), Er, (bind_ok _ _ _ _ _ (r_face m r (h_alive m W _ Ir))), Eg, Ec. reflexivity.
  - rewrite map_length. symmetry. apply filter_ring, Hr.
  - intros g. rewrite in_map_iff. destruct Hr as (_ & _ & HI). split.
    + intros (y & Ey & Iy). apply HI in Iy. destruct (Q y (proj1 Iy)) as (r & g' & Er & _ & Eg & _ & Ec). exists y, r. rewrite Eg, <- Ec, Ey. split; [apply Iy|]. split; [apply Iy|]. auto.
    + intros (y & r & Iy & Fy & Er & Eg). exists y. split; [unfold c; rewrite Er, Eg; reflexivity|]. apply HI. auto.
  - intros g Hg. apply in_map_iff in Hg. destruct Hg as (y & Ey & Iy). apply (proj2 (proj2 Hr)) in Iy. destruct (Q y (proj1 Iy)) as (r & g' & _ & _ & _ & Ig & Ec). congruence.
Qed.
Definition cost (vis : list nat) : nat := length (filter (fun h => negb (seen vis (h_face m h))) (m_hes m)).
Lemma seen_in vis a : seen vis (Some a) = true <-> In a vis.
Proof. cbn [seen]. rewrite existsb_exists. split; [intros (x & Hx & E); apply Nat.eqb_eq in E; subst; exact Hx|]. intros H. exists a. split; [exact H|apply Nat.eqb_refl]. Qed.
Lemma filter_two {A} (p q : A -> bool) l : (forall x, q x = true -> p x = true) -> length (filter p l) = (length (filter (fun x => p x && negb (q x)) l) + length (filter q l))%nat.
Proof. intros H. induction l as [|x l IH]; [reflexivity|]. cbn [filter]. destruct (q x) eqn:Q; [rewrite (H x Q); cbn [andb negb length]; lia|]. rewrite andb_true_r. destruct (p x); cbn [length]; lia. Qed.
Lemma cost_add vis a : ~ In a vis -> cost vis = (cost (vis ++ [a]) + length (filter (inface a) (m_hes m)))%nat.
Proof.
  intros Na. unfold cost. rewrite (filter_two (fun h => negb (seen vis (h_face m h))) (inface a)).
  - f_equal. f_equal. apply filter_ext. intros h. unfold inface. destruct (h_face m h) as [f|]; [|reflexivity]. cbn [seen ptr_eqb]. rewrite existsb_app, negb_orb. cbn [existsb]. rewrite orb_false_r. reflexivity.
  - intros h E. unfold inface in E. apply ptr_eqb_eq in E. rewrite E. destruct (seen vis (Some a)) eqn:Sf; [|reflexivity]. apply seen_in in Sf. contradiction.
Qed.
Definition Inv (vs que : list (nat * Z)) : Prop :=
  NoDup (map fst vs) /\
  (forall f d, In (f, d) vs \/ In (f, d) que -> exists n, d = Z.of_nat n /\ Ring m v n f /\ (1 <= d <= Z.max 1 rad)%Z /\ In f (m_faces m)) /\
  (forall f, Ring m v 1 f -> exists d, (d <= 1)%Z /\ In (f, d) (vs ++ que)) /\
  (forall f d g, In (f, d) vs -> (d + 1 <= rad)%Z -> Across m f g -> exists d', (d' <= d + 1)%Z /\ In (g, d') (vs ++ que)) /\
  exists c A B, que = A ++ B /\ (forall f d, In (f, d) vs -> (d <= c)%Z) /\ (forall f d, In (f, d) A -> d = c) /\ (forall f d, In (f, d) B -> d = (c + 1)%Z).
Definition enc (que : list (nat * Z)) : list (ptr * Z) := map (fun p => (Some (fst p), snd p)) que.
Lemma in_vis (vs : list (nat * Z)) f : In f (map fst vs) -> exists d, In (f, d) vs.
Proof. intros H. apply in_map_iff in H. destruct H as ([a d] & E & I). cbn [fst] in E. subst a. exists d. exact I. Qed.
(** The queue begins with the current distance. *)
Lemma inv_head vs f d q : Inv vs ((f, d) :: q) -> exists A B, q = A ++ B /\ (forall g e, In (g, e) vs -> (e <= d)%Z) /\ (forall g e, In (g, e) A -> e = d) /\ (forall g e, In (g, e) B -> e = (d + 1)%Z).
Proof.
  intros (_ & _ & _ & _ & c & A & B & E & H1 & H2 & H3). destruct A as [|[f' d'] A].
  - cbn [app] in E. subst B. assert (d = (c + 1)%Z) by (apply (H3 f); left; reflexivity). exists q, []. split; [symmetry; apply app_nil_r|]. split; [intros g e I; apply H1 in I; lia|]. split; [intros g e I; assert (Q := H3 g e (or_intror I)); lia|intros g e []].
  - cbn [app] in E. injection E as <- <- ->. assert (d = c) by (apply (H2 f); left; reflexivity). subst c. exists A, B. split; [reflexivity|]. split; [exact H1|]. split; [intros g e I; apply (H2 g e); right; exact I|exact H3].
Qed.
Lemma inv_drop vs f d q : Inv vs ((f, d) :: q) -> In f (map fst vs) -> Inv vs q.
Proof.
  intros I NS. destruct (inv_head vs f d q I) as (A & B & Eq & H1 & H2 & H3). destruct (in_vis vs f NS) as (e & Ie). assert (Le := H1 f e Ie). destruct I as (I1 & I2 & I3 & I4 & _).
  assert (T : forall g x b, (b <= x)%Z -> In (g, b) (vs ++ (f, d) :: q) -> exists b', (b' <= x)%Z /\ In (g, b') (vs ++ q)).
  { intros g x b Hb H. apply in_app_iff in H. destruct H as [H|[H|H]]; [exists b; split; [exact Hb|apply in_app_iff; now left]| |exists b; split; [exact Hb|apply in_app_iff; now right]].
    injection H as <- <-. exists e. split; [lia|apply in_app_iff; now left]. }
  split; [exact I1|]. split; [intros g b [H|H]; apply I2; [now left|right; right; exact H]|]. split; [intros g Hg; destruct (I3 g Hg) as (b & Hb & H); exact (T g 1%Z b Hb H)|].
  split; [intros g b k H Hb Hk; destruct (I4 g b k H Hb Hk) as (b' & Hb' & H'); exact (T k _ b' Hb' H')|]. exists d, A, B. auto.
Qed.
Lemma inv_visit vs f d q gs : Inv vs ((f, d) :: q) -> ~ In f (map fst vs) -> (forall g, In g gs <-> Across m f g) -> (forall g, In g gs -> In g (m_faces m)) ->
  Inv (vs ++ [(f, d)]) (q ++ map (fun g => (g, d + 1)%Z) (filter (fun g => negb (seen (map fst vs ++ [f]) (Some g)) && (d + 1 <=? rad)%Z) gs)).
Proof.
  intros I NS HG HF. destruct (inv_head vs f d q I) as (A & B & Eq & H1 & H2 & H3). destruct I as (I1 & I2 & I3 & I4 & _).
  set (new := map (fun g => (g, d + 1)%Z) (filter (fun g => negb (seen (map fst vs ++ [f]) (Some g)) && (d + 1 <=? rad)%Z) gs)).
  assert (Hnew : forall g e, In (g, e) new -> e = (d + 1)%Z /\ In g gs /\ (d + 1 <= rad)%Z).
  { intros g e H. apply in_map_iff in H. destruct H as (g' & E & H). injection E as <- <-. apply filter_In in H. destruct H as [H K]. apply andb_true_iff in K. destruct K as [_ K]. apply Z.leb_le in K. auto. }
  assert (T : forall g b, In (g, b) (vs ++ (f, d) :: q) -> In (g, b) ((vs ++ [(f, d)]) ++ q ++ new)).
  { intros g b H. rewrite !in_app_iff in *. cbn [In] in *. tauto. }
  destruct (I2 f d (or_intror (or_introl eq_refl))) as (n & En & Rn & Bn & Fn).
  split; [rewrite map_app; cbn [map fst]; apply nodup_snoc; assumption|]. split; [|split; [|split]].
  - intros g b [H|H].
    + apply in_app_iff in H. destruct H as [H|[H|[]]]; [apply I2; now left|]. injection H as <- <-. apply I2. right; left; reflexivity.
    + apply in_app_iff in H. destruct H as [H|H]; [apply I2; right; right; exact H|]. apply Hnew in H. destruct H as (-> & Hg & Hr). exists (S n). split; [lia|]. split; [apply (ring_next m v n f g Rn), HG, Hg|]. split; [lia|exact (HF g Hg)].
  - intros g Hg. destruct (I3 g Hg) as (b & Hb & H). exists b. split; [exact Hb|apply T, H].
  - intros g b k H Hb Hk. apply in_app_iff in H. destruct H as [H|[H|[]]].
    + destruct (I4 g b k H Hb Hk) as (b' & Hb' & H'). exists b'. split; [exact Hb'|apply T, H'].
    + injection H as <- <-. apply HG in Hk. destruct (seen (map fst vs ++ [f]) (Some k)) eqn:Sk.
      * apply seen_in in Sk. apply in_app_iff in Sk. destruct Sk as [Sk|[<-|[]]].
        -- destruct (in_vis vs k Sk) as (e & Ie). exists e. split; [apply H1 in Ie; lia|]. rewrite !in_app_iff. tauto.
        -- exists d. split; [lia|]. rewrite !in_app_iff. cbn [In]. tauto.
      * exists (d + 1)%Z. split; [lia|]. rewrite !in_app_iff. right; right. apply in_map_iff. exists k. split; [reflexivity|]. apply filter_In. split; [exact Hk|]. rewrite Sk. apply Z.leb_le in Hb. rewrite Hb. reflexivity.
  - exists d, A, (B ++ new). split; [rewrite Eq, app_assoc; reflexivity|]. split; [|split; [exact H2|]].
    + intros g e H. apply in_app_iff in H. destruct H as [H|[H|[]]]; [exact (H1 g e H)|]. injection H as <- <-. lia.
    + intros g e H. apply in_app_iff in H. destruct H as [H|H]; [exact (H3 g e H)|]. apply Hnew in H. apply H.
Qed.
Lemma spread_run k : forall vs que, Inv vs que -> (cost (map fst vs) + length que < k)%nat -> exists vs', spread k rad (map fst vs) (enc que) m = Ok (map fst vs', m) /\ Inv vs' [].
Proof.
  induction k as [|k IH]; intros vs que I Hk; [lia|]. destruct que as [|[f d] q]; [exists vs; split; [reflexivity|exact I]|]. cbn [enc map spread fst snd].
  destruct (seen (map fst vs) (Some f)) eqn:Sf.
  - apply seen_in in Sf. apply (IH vs q (inv_drop vs f d q I Sf)). cbn [length] in Hk. lia.
  - assert (NS : ~ In f (map fst vs)) by (intros H; apply seen_in in H; congruence). destruct (proj1 (proj2 I) f d (or_intror (or_introl eq_refl))) as (n & _ & _ & _ & Ff).
    destruct (nbs_run f Ff) as (gs & Eg & Lg & HG & HF). rewrite (bind_ok _ _ _ _ _ Eg). assert (I' := inv_visit vs f d q gs I NS HG HF).
    set (new := map (fun g => (g, d + 1)%Z) (filter (fun g => negb (seen (map fst vs ++ [f]) (Some g)) && (d + 1 <=? rad)%Z) gs)) in *.
    assert (E : map (fun g => (g, (d + 1)%Z)) (filter (fun g => negb (seen (map fst vs ++ [f]) g) && (d + 1 <=? rad)%Z) (map Some gs)) = enc new).
    { unfold enc, new. clear. induction gs as [|g gs IHg]; [reflexivity|]. cbn [map filter]. destruct (negb (seen (map fst vs ++ [f]) (Some g)) && (d + 1 <=? rad)%Z); [cbn [map fst snd]; f_equal; exact IHg|exact IHg]. }
    rewrite E. destruct (IH (vs ++ [(f, d)]) (q ++ new) I') as (vs' & Er & If).
    + rewrite map_app, app_length. cbn [map fst]. assert (Cc := cost_add (map fst vs) f NS). assert (Ln : (length new <= length gs)%nat) by (unfold new; rewrite map_length; clear; induction gs as [|g gs IHg]; [cbn; lia|]; cbn [filter]; destruct (negb _ && _); cbn [length]; lia). cbn [length] in Hk. lia.
    + exists vs'. split; [|exact If]. rewrite map_app in Er. unfold enc in Er. rewrite map_app in Er. exact Er.
Qed.
Lemma inv_final vs : Inv vs [] -> forall f, In f (map fst vs) <-> InPatch m v rad f.
Proof.
  intros (I1 & I2 & I3 & I4 & _) f. split.
  - intros H. destruct (in_vis vs f H) as (d & Id). destruct (I2 f d (or_introl Id)) as (n & En & Rn & Bn & _). exists n. split; [exact Rn|lia].
  - intros (n & Rn & Bn). assert (G : forall n f, Ring m v n f -> (Z.of_nat n <= Z.max 1 rad)%Z -> exists d, (d <= Z.of_nat n)%Z /\ In (f, d) vs).
    { clear n f Rn Bn. intros n f R. assert (N1 : forall n f, Ring m v n f -> (1 <= n)%nat) by (intros n' f' []; lia). induction R as [h f Ih Sh Fh|n f g R IHR X]; intros B.
      - destruct (I3 f (ring_first m v h f Ih Sh Fh)) as (d & Hd & H). rewrite app_nil_r in H. exists d. split; [lia|exact H].
      - assert (Q := N1 n f R). destruct IHR as (d & Hd & Id); [lia|]. destruct (I4 f d g Id ltac:(lia) X) as (d' & Hd' & H). rewrite app_nil_r in H. exists d'. split; [lia|exact H]. }
    destruct (G n f Rn Bn) as (d & _ & Id). apply in_map_iff. exists (f, d). auto.
Qed.
Lemma first_inv fs : (forall f, In f fs <-> Ring m v 1 f) -> (forall f, In f fs -> In f (m_faces m)) -> Inv [] (map (fun f => (f, 1%Z)) fs).
Proof.
  intros H HF. split; [constructor|]. split; [|split; [|split]].
  - intros f d [[]|I]. apply in_map_iff in I. destruct I as (g & E & I). injection E as <- <-. exists 1%nat. split; [reflexivity|]. split; [apply H, I|]. split; [lia|exact (HF g I)].
  - intros f R. exists 1%Z. split; [lia|]. cbn [app]. apply in_map_iff. exists f. split; [reflexivity|apply H, R].
  - intros f d g [].
  - exists 1%Z, (map (fun f => (f, 1%Z)) fs), []. split; [symmetry; apply app_nil_r|]. split; [intros f d []|]. split; [|intros f d []]. intros f d I. apply in_map_iff in I. destruct I as (g & E & I). congruence.
Qed.
Variable horder : forall A : Type, list A -> list A.
Hypothesis Ho : Orders horder.
Lemma patch_faces_run i : nth_error (m_verts m) i = Some v -> exists l, patch_faces horder rad i m = Ok (l, m) /\ NoDup l /\ (forall f, In f l <-> InPatch m v rad f) /\ forall f, In f l -> In f (m_faces m).
Proof.
  intros Ei. destruct (vring m W v Iv) as (h & l & Eh & Hr). unfold patch_faces. assert (RV := mesh_vertex_eq m i). rewrite Ei in RV. rewrite (bind_ok _ _ _ _ _ RV), (bind_ok _ _ _ _ _ (v_faces_ok m W v h l Iv Eh Hr)), bind_get.
  destruct Hr as (_ & ND & HI). set (ls := h :: l) in *. set (c := fun y => match h_face m y with Some f => f | None => O end).
  assert (Q : forall y, In y ls -> h_face m y = Some (c y) /\ In (c y) (m_faces m)).
  { intros y Iy. apply HI in Iy. destruct (wf_face m W y (proj1 Iy)) as (f & Ef & If). unfold c. rewrite Ef. auto. }
  set (fs := map c ls). assert (E : map (fun f => (f, 1%Z)) (map (h_face m) ls) = enc (map (fun f => (f, 1%Z)) fs)).
  { unfold enc, fs. rewrite !map_map. apply map_ext_in. intros y Iy. cbn [fst snd]. rewrite (proj1 (Q y Iy)). reflexivity. }
  assert (HF : forall f, In f fs <-> Ring m v 1 f).
  { intros f. unfold fs. rewrite in_map_iff. split.
    - intros (y & Ey & Iy). destruct (Q y Iy) as [Ef _]. apply HI in Iy. apply (ring_first m v y f); [apply Iy|apply Iy|congruence].
    - intros R. inversion R as [y f' Iy Sy Fy|n g f' R' X]; subst.
      + exists y. split; [unfold c; rewrite Fy; reflexivity|]. apply HI. auto.
      + inversion R'. }
  assert (HG : forall f, In f fs -> In f (m_faces m)) by (intros f Hf; apply in_map_iff in Hf; destruct Hf as (y & Ey & Iy); subst f; exact (proj2 (Q y Iy))).
  assert (I := first_inv fs HF HG). destruct (spread_run (S (2 * length (m_hes m))) [] _ I) as (vs & Er & If).
  { assert (length ls <= length (m_hes m))%nat by (apply NoDup_incl_length; [exact ND|intros y Iy; apply HI in Iy; apply Iy]). assert (cost (map fst (@nil (nat * Z))) <= length (m_hes m))%nat.
    { unfold cost. clear. induction (m_hes m) as [|x t IH]; [cbn; lia|]. cbn [filter]. destruct (negb _); cbn [length]; lia. }
    unfold fs. rewrite !map_length. lia. }
  cbn [map] in Er. rewrite E, (bind_ok _ _ _ _ _ Er). exists (horder nat (map fst vs)). split; [reflexivity|]. assert (P := Ho nat (map fst vs)).
  split; [apply (Permutation_NoDup P), (proj1 If)|]. split.
  - intros f. rewrite <- (inv_final vs If f). split; intros H; [apply (Permutation_in _ (Permutation_sym P) H)|apply (Permutation_in _ P H)].
  - intros f H. apply (Permutation_in _ (Permutation_sym P)) in H. destruct (in_vis vs f H) as (d & Id). destruct (proj1 (proj2 If) f d (or_introl Id)) as (n & _ & _ & _ & Ff). exact Ff.
Qed.
End Patch.

Section Verts.
Context {N : Num}.
Variable (m : mesh N).
Hypothesis W : WF m.
Variable horder : forall A : Type, list A -> list A.
Hypothesis Ho : Orders horder.
Lemma zadd_in l i z : In z (zadd l i) <-> In z l \/ z = i.
Proof.
  unfold zadd. destruct (existsb (Z.eqb i) l) eqn:E; [|rewrite in_app_iff; cbn [In]; intuition congruence]. apply existsb_exists in E. destruct E as (x & Ix & Ex). apply Z.eqb_eq in Ex. subst x. intuition (subst; auto).
Qed.
Lemma zadd_nodup l i : NoDup l -> NoDup (zadd l i).
Proof. intros H. unfold zadd. destruct (existsb (Z.eqb i) l) eqn:E; [exact H|]. apply nodup_snoc; [exact H|]. intros I. assert (Q : existsb (Z.eqb i) l = true) by (apply existsb_exists; exists i; split; [exact I|apply Z.eqb_refl]). congruence. Qed.
Lemma zadds ids : forall l, NoDup l -> NoDup (fold_left zadd ids l) /\ forall z, In z (fold_left zadd ids l) <-> In z l \/ In z ids.
Proof.
  induction ids as [|i ids IH]; intros l H; cbn [fold_left In]; [split; [exact H|tauto]|]. destruct (IH (zadd l i) (zadd_nodup l i H)) as [H1 H2]. split; [exact H1|]. intros z. rewrite H2, zadd_in. intuition congruence.
Qed.
(** The index of a corner of some face of the list. *)
Local Notation Listed := (PatchSpec.Listed m).
Lemma corners_run f : In f (m_faces m) -> exists ids, (vs <- f_vertices (Some f) ;; mmap (fun v => ve_idx v) vs)%mesh m = Ok (ids, m) /\ forall z, In z ids <-> Listed [f] z.
Proof.
  intros If. destruct (fring m W f If) as (h & l & Eh & Hr). rewrite (bind_ok _ _ _ _ _ (f_vertices_ok m W f h l If Eh Hr)). destruct Hr as (_ & _ & HI). set (ls := h :: l) in *.
  set (c := fun p => match p with Some v => v_idx m v | None => 0%Z end).
  assert (Q : forall y, In y ls -> exists v i, h_src m y = Some v /\ In v (m_verts m) /\ nth_error (m_verts m) i = Some v /\ v_idx m v = Z.of_nat i).
  { intros y Iy. apply HI in Iy. destruct (wf_src m W y (proj1 Iy)) as (v & Ev & Iv). destruct (In_nth_error _ _ Iv) as (i & Ei). exists v, i. destruct (wf_v_elem m W i v Ei) as (_ & Ex & _). auto. }
  exists (map c (map (h_src m) ls)). split.
  - apply (mmap_all (fun v => ve_idx v) c). intros p Hp. apply in_map_iff in Hp. destruct Hp as (y & <- & Iy). destruct (Q y Iy) as (v & i & Ev & Iv & _). rewrite Ev. apply r_vidx, (v_alive m W v Iv).
  - intros z. rewrite map_map, in_map_iff. split.
    + intros (y & Ey & Iy). destruct (Q y Iy) as (v & i & Ev & Iv & Ei & Ex). exists f, v, i. split; [left; reflexivity|]. apply HI in Iy. split; [exists y; tauto|]. split; [exact Ei|]. rewrite <- Ey, Ev. exact Ex.
    + intros (g & v & i & [<-|[]] & (y & Iy & Fy & Sy) & Ei & ->). exists y. split; [rewrite Sy; cbn [c]; exact (proj1 (proj2 (wf_v_elem m W i v Ei)))|]. apply HI. auto.
Qed.
Lemma patch_verts_run fs : (forall f, In f fs -> In f (m_faces m)) -> exists l, patch_verts horder fs m = Ok (l, m) /\ NoDup l /\ forall z, In z l <-> Listed fs z.
Proof.
  intros HF. unfold patch_verts. set (step := fun (l : list Z) (f : nat) => (vs <- f_vertices (Some f) ;; ids <- mmap (fun v => ve_idx v) vs ;; ret (fold_left zadd ids l))%mesh).
  assert (G : forall l, NoDup l -> exists l', mfold step l fs m = Ok (l', m) /\ NoDup l' /\ forall z, In z l' <-> In z l \/ Listed fs z).
  { induction fs as [|f fs IH]; intros l Hl.
    - exists l. split; [reflexivity|]. split; [exact Hl|]. intros z. split; [auto|]. intros [H|(f & v & i & [] & _)]. exact H.
    - destruct (corners_run f (HF f (or_introl eq_refl))) as (ids & Er & Hi). destruct (zadds ids l Hl) as [N1 H1]. destruct (IH (fun g H => HF g (or_intror H)) _ N1) as (l' & El & N2 & H2). exists l'. split.
      + cbn [mfold]. assert (Es : step l f m = Ok (fold_left zadd ids l, m)).
        { unfold step, bind in *. destruct (f_vertices (Some f) m) as [[vs m1]| | |]; try discriminate. rewrite Er. reflexivity. }
        rewrite (bind_ok _ _ _ _ _ Es). exact El.
      + split; [exact N2|]. intros z. rewrite H2, H1, Hi. split.
        * intros [[H|(g & v & i & [<-|[]] & H)]|(g & v & i & H & H')]; [now left|right; exists f, v, i; split; [left; reflexivity|exact H]|right; exists g, v, i; split; [right; exact H|exact H']].
        * intros [H|(g & v & i & [<-|H] & H')]; [tauto|left; right; exists f, v, i; split; [left; reflexivity|exact H']|right; exists g, v, i; auto]. }
  destruct (G [] (NoDup_nil Z)) as (l & El & Nl & Hl). rewrite (bind_ok _ _ _ _ _ El). exists (horder Z l). split; [reflexivity|]. assert (P := Ho Z l). split; [exact (Permutation_NoDup P Nl)|].
  intros z. split; intros H.
  - apply (Permutation_in _ (Permutation_sym P)) in H. apply Hl in H. destruct H as [[]|H]. exact H.
  - apply (Permutation_in _ P), Hl. now right.
Qed.
Lemma patches_run rad : exists P, patches horder rad m = Ok (P, m) /\ length P = length (m_verts m) /\
  forall i v p, nth_error (m_verts m) i = Some v -> nth_error P i = Some p -> NoDup (p_faces p) /\ NoDup (p_verts p) /\ (forall f, In f (p_faces p) <-> InPatch m v rad f) /\
    forall z, In z (p_verts p) <-> Listed (p_faces p) z.
Proof.
  unfold patches. rewrite bind_get. set (body := fun i : nat => (fs <- patch_faces horder rad i ;; vs <- patch_verts horder fs ;; ret (Pt fs vs))%mesh).
  assert (B : forall i v, nth_error (m_verts m) i = Some v -> exists p, body i m = Ok (p, m) /\ NoDup (p_faces p) /\ NoDup (p_verts p) /\ (forall f, In f (p_faces p) <-> InPatch m v rad f) /\ forall z, In z (p_verts p) <-> Listed (p_faces p) z).
  { intros i v Ei. destruct (patch_faces_run m v rad W (nth_error_In _ _ Ei) horder Ho i Ei) as (fs & Ef & Nf & Hf & HF). destruct (patch_verts_run fs HF) as (vs & Ev & Nv & Hv). exists (Pt fs vs). split; [|auto].
    unfold body. rewrite (bind_ok _ _ _ _ _ Ef), (bind_ok _ _ _ _ _ Ev). reflexivity. }
  assert (G : forall k n, (n + k = length (m_verts m))%nat -> exists P, mmap body (seq n k) m = Ok (P, m) /\ length P = k /\ forall j v p, nth_error (m_verts m) (n + j) = Some v -> nth_error P j = Some p -> NoDup (p_faces p) /\ NoDup (p_verts p) /\ (forall f, In f (p_faces p) <-> InPatch m v rad f) /\ forall z, In z (p_verts p) <-> Listed (p_faces p) z).
  { induction k as [|k IH]; intros n Hn; cbn [seq mmap].
    - exists []. split; [reflexivity|]. split; [reflexivity|]. intros [|j] v p _ H; discriminate H.
    - destruct (nth_error (m_verts m) n) as [u|] eqn:Eu; [|apply nth_error_None in Eu; lia]. destruct (B n u Eu) as (q & Eq & Hq). destruct (IH (S n)) as (P & EP & LP & HP); [lia|]. exists (q :: P). split; [rewrite (bind_ok _ _ _ _ _ Eq), (bind_ok _ _ _ _ _ EP); reflexivity|]. split; [cbn [length]; lia|].
      intros [|j] v p Ev Ep; cbn [nth_error] in Ep.
      + rewrite Nat.add_0_r in Ev. injection Ep as <-. rewrite Eu in Ev. injection Ev as <-. exact Hq.
      + apply (HP j v p); [replace (S n + j)%nat with (n + S j)%nat by lia; exact Ev|exact Ep]. }
  destruct (G (length (m_verts m)) O eq_refl) as (P & EP & LP & HP). exists P. split; [exact EP|]. split; [exact LP|]. exact HP.
Qed.
End Verts.
