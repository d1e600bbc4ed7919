(** Rules for programs that read a valid mesh: they do not write, and have no undefined behaviour. *)
From Coq Require Import List ZArith Arith Bool Lia.
From Verif Require Import Num Vec Heap Mesh Spec Orbit Rings Exec Wp Measure Tensor.
Import ListNotations.
Local Open Scope mesh_scope.

Section Safe.
Context {N : Num}.
Implicit Types m : mesh N.
(** [x] started in [m] returns a value satisfying [P] and leaves the mesh as it is, or fails in a controlled way. *)
Definition sf {A} (x : M N A) m (P : A -> Prop) : Prop :=
  match x m with Ok (a, m') => m' = m /\ P a | Abort _ => True | UB _ | NoFuel => False end.
Lemma sf_ret {A} (a : A) m (P : A -> Prop) : P a -> sf (ret a) m P.
Proof. split; auto. Qed.
Lemma sf_ok {A} (x : M N A) m a (P : A -> Prop) : x m = Ok (a, m) -> P a -> sf x m P.
Proof. intros E H. unfold sf. rewrite E. auto. Qed.
Lemma sf_bind {A B} (x : M N A) (k : A -> M N B) m P Q : sf x m P -> (forall a, P a -> sf (k a) m Q) -> sf (bind x k) m Q.
Proof. unfold sf, bind. destruct (x m) as [[a m']| | |]; auto. intros [-> H] K. apply K, H. Qed.
Lemma sf_weaken {A} (x : M N A) m (P Q : A -> Prop) : sf x m P -> (forall a, P a -> Q a) -> sf x m Q.
Proof. unfold sf. destruct (x m) as [[a m']| | |]; auto. intros [-> H] K. auto. Qed.
Lemma sf_true {A} (x : M N A) m (P : A -> Prop) : sf x m P -> sf x m (fun _ => True).
Proof. intros H. eapply sf_weaken; [exact H|auto]. Qed.
Lemma sf_lift {A} (o : option A) m (P : A -> Prop) : (forall a, o = Some a -> P a) -> sf (lift o) m P.
Proof. intros H. destruct o as [a|]; [split; auto|exact I]. Qed.
Lemma sf_get {A} (f : mesh N -> A) m (P : A -> Prop) : P (f m) -> sf (get f) m P.
Proof. split; auto. Qed.
Lemma sf_assertion b m (P : unit -> Prop) : (b = true -> P tt) -> sf (assertion b) m P.
Proof. intros H. unfold assertion. destruct b; [split; auto|exact I]. Qed.
Lemma sf_mfold {A B} (f : B -> A -> M N B) m (P : B -> Prop) : forall l a, P a -> (forall x a, In x l -> P a -> sf (f a x) m P) -> sf (mfold f a l) m P.
Proof.
  induction l as [|x l IH]; intros a H K; cbn [mfold]; [apply sf_ret, H|]. eapply sf_bind; [apply K; [left; reflexivity|exact H]|]. intros b Hb. apply IH; [exact Hb|]. intros y c Iy. apply K. right. exact Iy.
Qed.
Lemma sf_mmap {A B} (f : A -> M N B) m (P : A -> B -> Prop) : forall l, (forall x, In x l -> sf (f x) m (P x)) -> sf (mmap f l) m (Forall2 P l).
Proof.
  induction l as [|x l IH]; intros K; cbn [mmap]; [apply sf_ret; constructor|]. eapply sf_bind; [apply K; left; reflexivity|]. intros b Hb. eapply sf_bind; [apply IH; intros y Iy; apply K; right; exact Iy|]. intros bs Hbs. apply sf_ret. constructor; assumption.
Qed.
Lemma sf_chain {A} m (f : nat -> option nat) step (body : A -> ptr -> M N (A * bool)) (P : A -> Prop) x0 : forall l x fuel acc,
  chainto f x l x0 -> ~ In x0 l -> length (x :: l) <= fuel ->
  (forall y, In y (x :: l) -> step (Some y) m = Ok (f y, m)) -> P acc ->
  (forall y a, In y (x :: l) -> P a -> sf (body a (Some y)) m (fun r => P (fst r))) ->
  sf (circ step body fuel (Some x0) (Some x) acc) m P.
Proof.
  induction l as [|z l IH]; intros x fuel acc Hc Hni Hf Hs Ha Hb; destruct fuel as [|fuel]; try (simpl in Hf; lia).
  - simpl in Hc. cbn [circ]. eapply sf_bind; [apply Hb; [left; reflexivity|exact Ha]|]. intros [a b] Pa. cbn [fst snd] in *. destruct b; [apply sf_ret, Pa|].
    eapply sf_bind; [eapply (sf_ok _ _ _ (fun n => n = f x)); [apply Hs; left; reflexivity|reflexivity]|]. intros n ->. rewrite Hc, ptr_eqb_refl. destruct fuel; apply sf_ret, Pa.
  - destruct Hc as [H1 H2]. cbn [circ]. eapply sf_bind; [apply Hb; [left; reflexivity|exact Ha]|]. intros [a b] Pa. cbn [fst snd] in *. destruct b; [apply sf_ret, Pa|].
    eapply sf_bind; [eapply (sf_ok _ _ _ (fun n => n = f x)); [apply Hs; left; reflexivity|reflexivity]|]. intros n ->. rewrite H1.
    destruct (ptr_eqb (Some z) (Some x0)) eqn:E.
    + apply ptr_eqb_eq in E; injection E as ->. exfalso; apply Hni; left; reflexivity.
    + apply IH; [exact H2|intros H; apply Hni; right; exact H|simpl in *; lia| |exact Pa|]; intros; [apply Hs|apply Hb; [|assumption]]; right; assumption.
Qed.

Variable m : mesh N.
Hypothesis W : WF m.
Lemma sf_circ_v {A} v (body : A -> ptr -> M N (A * bool)) (P : A -> Prop) acc : In v (m_verts m) -> P acc ->
  (forall y a, In y (m_hes m) -> h_src m y = Some v -> P a -> sf (body a (Some y)) m (fun r => P (fst r))) -> sf (circ_v (Some v) acc body) m P.
Proof.
  intros Hv Ha Hb. destruct (vring m W v Hv) as (h & l & Eh & Hr). unfold circ_v.
  eapply sf_bind; [eapply (sf_ok _ _ _ (fun n => n = v_he m v)); [exact (r_vhe _ _ (v_alive m W _ Hv))|reflexivity]|]. intros ? ->. eapply sf_bind; [apply (sf_get m_fresh _ (fun n => n = m_fresh m)); reflexivity|]. intros ? ->. rewrite Eh.
  pose proof (vring_len m W _ _ Hr) as Hlen. destruct Hr as (Hc & Hnd & Hin).
  eapply sf_chain; [exact Hc|inversion Hnd; assumption|simpl in *; lia| |exact Ha|].
  - intros y Hy; apply step_v_ok; [exact W|apply Hin, Hy].
  - intros y a Hy; apply Hb; apply Hin, Hy.
Qed.
Lemma sf_circ_f {A} f (body : A -> ptr -> M N (A * bool)) (P : A -> Prop) acc : In f (m_faces m) -> P acc ->
  (forall y a, In y (m_hes m) -> h_face m y = Some f -> P a -> sf (body a (Some y)) m (fun r => P (fst r))) -> sf (circ_f (Some f) acc body) m P.
Proof.
  intros Hv Ha Hb. destruct (fring m W f Hv) as (h & l & Eh & Hr). unfold circ_f.
  eapply sf_bind; [eapply (sf_ok _ _ _ (fun n => n = f_he m f)); [exact (r_fhe _ _ (f_alive m W _ Hv))|reflexivity]|]. intros ? ->. eapply sf_bind; [apply (sf_get m_fresh _ (fun n => n = m_fresh m)); reflexivity|]. intros ? ->. rewrite Eh.
  pose proof (fring_len m W _ _ Hr) as Hlen. destruct Hr as (Hc & Hnd & Hin).
  eapply sf_chain; [exact Hc|inversion Hnd; assumption|simpl in *; lia| |exact Ha|].
  - intros y Hy; unfold step_f; apply r_next, (h_alive m W), Hin, Hy.
  - intros y a Hy; apply Hb; apply Hin, Hy.
Qed.

(** Reads of pointers that are in the mesh. *)
Definition InV (p : ptr) : Prop := exists v, p = Some v /\ In v (m_verts m).
Definition InH (p : ptr) : Prop := exists h, p = Some h /\ In h (m_hes m).
Definition InF (p : ptr) : Prop := exists f, p = Some f /\ In f (m_faces m).
Lemma sf_src p : InH p -> sf (he_src p) m (fun q => InV q /\ forall h, p = Some h -> q = h_src m h).
Proof. intros (h & -> & I). destruct (wf_src m W h I) as (v & E & Iv). eapply sf_ok; [exact (r_src m h (h_alive m W h I))|]. split; [exists v; auto|]. intros ? [= <-]. reflexivity. Qed.
Lemma sf_next p : InH p -> sf (he_next p) m (fun q => InH q /\ forall h, p = Some h -> q = h_next m h).
Proof. intros (h & -> & I). destruct (wf_next m W h I) as (v & E & Iv). eapply sf_ok; [exact (r_next m h (h_alive m W h I))|]. split; [exists v; auto|]. intros ? [= <-]. reflexivity. Qed.
Lemma sf_rev p : InH p -> sf (he_rev p) m (fun q => InH q /\ forall h, p = Some h -> q = h_rev m h).
Proof. intros (h & -> & I). destruct (wf_rev m W h I) as (v & E & Iv). eapply sf_ok; [exact (r_rev m h (h_alive m W h I))|]. split; [exists v; auto|]. intros ? [= <-]. reflexivity. Qed.
Lemma sf_face p : InH p -> sf (he_face p) m (fun q => InF q /\ forall h, p = Some h -> q = h_face m h).
Proof. intros (h & -> & I). destruct (wf_face m W h I) as (v & E & Iv). eapply sf_ok; [exact (r_face m h (h_alive m W h I))|]. split; [exists v; auto|]. intros ? [= <-]. reflexivity. Qed.
Lemma sf_dst p : InH p -> sf (he_dst p) m (fun q => InV q /\ forall h, p = Some h -> q = dst_of m h).
Proof. intros (h & -> & I). destruct (wf_rev m W h I) as (r & R & Ir). destruct (wf_src m W r Ir) as (v & E & Iv). eapply sf_ok; [exact (dst_ok m W h r I R)|]. split; [exists v; auto|]. intros ? [= <-]. unfold dst_of. rewrite R. reflexivity. Qed.
Lemma sf_pos p : InV p -> sf (ve_pos p) m (fun _ => True).
Proof. intros (v & -> & I). eapply sf_ok; [exact (r_pos m v (v_alive m W v I))|auto]. Qed.
Lemma sf_vidx p : InV p -> sf (ve_idx p) m (fun i => exists k v, i = Z.of_nat k /\ p = Some v /\ nth_error (m_verts m) k = Some v).
Proof. intros (v & -> & I). apply In_nth_error in I as [i E]. destruct (wf_v_elem m W i v E) as (L & X & _). eapply sf_ok; [exact (r_vidx m v L)|]. exists i, v. auto. Qed.
Lemma sf_tab {X} (D : list X) i : (0 <= i < Z.of_nat (length D))%Z -> sf (tab_at D i) m (fun _ => True).
Proof.
  intros H. unfold tab_at. destruct (Z.ltb_spec i 0); [lia|]. destruct (nth_error D (Z.to_nat i)) eqn:E; [apply sf_ret; auto|]. apply nth_error_None in E. lia.
Qed.
Lemma sf_cot p : InH p -> sf (he_cotWeight p) m (fun _ => True).
Proof.
  intros H. unfold he_cotWeight. eapply sf_bind; [exact (sf_src p H)|]. intros v0 [H0 _]. eapply sf_bind; [exact (sf_dst p H)|]. intros v1 [H1 _]. eapply sf_bind; [exact (sf_next p H)|]. intros n [Hn _].
  eapply sf_bind; [exact (sf_dst n Hn)|]. intros v2 [H2 _]. eapply sf_bind; [exact (sf_rev p H)|]. intros r [Hr _]. eapply sf_bind; [exact (sf_next r Hr)|]. intros rn [Hrn _]. eapply sf_bind; [exact (sf_dst rn Hrn)|]. intros v3 [H3 _].
  eapply sf_bind; [exact (sf_pos v0 H0)|]. intros p0 _. eapply sf_bind; [exact (sf_pos v1 H1)|]. intros p1 _. eapply sf_bind; [exact (sf_pos v2 H2)|]. intros p2 _. eapply sf_bind; [exact (sf_pos v3 H3)|]. intros p3 _. apply sf_ret. exact I.
Qed.
Lemma sf_f_normal p : InF p -> sf (f_normal p) m (fun _ => True).
Proof.
  intros (f & -> & If). unfold f_normal, f_positions. eapply sf_bind; [apply (sf_circ_f f _ (fun _ => True) _ If I)|intros vs _; apply sf_lift; auto].
  intros y a Iy _ _. eapply sf_bind; [apply sf_src; exists y; auto|]. intros s [Hs _]. eapply sf_bind; [exact (sf_pos s Hs)|]. intros p _. apply sf_ret. exact I.
Qed.
Lemma sf_v_normal p : InV p -> sf (v_normal p) m (fun _ => True).
Proof.
  intros (v & -> & Iv). unfold v_normal. eapply sf_bind; [apply (sf_circ_v v _ (fun _ => True) _ Iv I)|intros vs _; apply sf_lift; auto].
  intros y a Iy _ _. eapply sf_bind; [apply sf_pos; exists v; auto|]. intros p0 _. eapply sf_bind; [apply sf_dst; exists y; auto|]. intros d [Hd _]. eapply sf_bind; [exact (sf_pos d Hd)|]. intros p1 _.
  eapply sf_bind; [apply sf_next; exists y; auto|]. intros n [Hn _]. eapply sf_bind; [exact (sf_dst n Hn)|]. intros d2 [Hd2 _]. eapply sf_bind; [exact (sf_pos d2 Hd2)|]. intros p2 _.
  eapply sf_bind; [apply (sf_lift _ m (fun _ => True)); auto|]. intros q _. apply sf_ret. exact I.
Qed.
End Safe.
