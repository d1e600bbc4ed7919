(** Every run of simplifyQEM with its quadrics (Qem.v) is a run of Simplify.v. *)
From Coq Require Import Bool List ZArith Arith Lia.
From Verif Require Import Num Vec Heap Mesh Construct Prog ProgP Smooth Simplify Qem.
Import ListNotations.
Local Open Scope mesh_scope.

Section P.
Context {N : Num}.
Notation M := (M N).
Implicit Types m : mesh N.

(** [y] ends as [x] does; results are related by [R]. *)
Definition sim {A B} (R : A -> B -> Prop) (x : res (A * mesh N)) (y : res (B * mesh N)) : Prop :=
  match x with Ok (a, m) => exists b, y = Ok (b, m) /\ R a b | UB u => y = UB u | Abort k => y = Abort k | NoFuel => y = NoFuel end.
Lemma sim_bind {A A' B B'} (R : A -> A' -> Prop) (S' : B -> B' -> Prop) (x : M A) (x' : M A') (k : A -> M B) (k' : A' -> M B') m :
  sim R (x m) (x' m) -> (forall a a' m', R a a' -> sim S' (k a m') (k' a' m')) -> sim S' (bind x k m) (bind x' k' m).
Proof. intros H1 H2. unfold bind. unfold sim in H1. destruct (x m) as [[a m1]|u|u|]; [destruct H1 as (a' & -> & Ra); apply H2, Ra|rewrite H1; reflexivity|rewrite H1; reflexivity|rewrite H1; reflexivity]. Qed.
Lemma sim_refl {A} (x : res (A * mesh N)) : sim eq x x.
Proof. destruct x as [[a m]|u|u|]; cbn; eauto. Qed.
Lemma sim_ret {A B} (R : A -> B -> Prop) a b m : R a b -> sim R (ret a m) (ret b m).
Proof. intros H. exists b. auto. Qed.
Lemma sim_same {A B B'} (S' : B -> B' -> Prop) (x : M A) (k : A -> M B) (k' : A -> M B') m : (forall a m', sim S' (k a m') (k' a m')) -> sim S' (bind x k m) (bind x k' m).
Proof. intros H. apply (sim_bind eq); [apply sim_refl|]. intros a a' m' <-. apply H. Qed.
Lemma sim_failed {A B C} (R : A -> B -> Prop) (x : res (A * mesh N)) y (o : res C) : sim R x y -> failed x o -> failed y o.
Proof. intros H F. destruct x as [[a m]|u|u|]; cbn in *; [contradiction| | |]; subst; reflexivity. Qed.

Lemma sim_at (Qs : list (mat4 N)) n i m : length Qs = n -> sim (fun _ _ => True) (mat_at Qs i m) (touch n i m).
Proof.
  intros <-. unfold mat_at, touch. destruct (Z.ltb_spec i 0) as [L|L]; [destruct (Z.leb_spec 0 i); [lia|reflexivity]|]. destruct (Z.leb_spec 0 i) as [L'|]; [|lia]. cbn [andb].
  destruct (nth_error Qs (Z.to_nat i)) as [q|] eqn:E.
  - assert (H : Z.to_nat i < length Qs) by (apply nth_error_Some; congruence). destruct (Z.ltb_spec i (Z.of_nat (length Qs))); [|lia]. exists tt. auto.
  - apply nth_error_None in E. destruct (Z.ltb_spec i (Z.of_nat (length Qs))); [lia|reflexivity].
Qed.
Lemma sim_inc (Qs : list (mat4 N)) n i K m : length Qs = n -> sim (fun Q' _ => length Q' = n) (mat_inc Qs i K m) (touch n i m).
Proof.
  intros L. unfold mat_inc. assert (H := sim_at Qs n i m L). unfold bind, sim in *. destruct (mat_at Qs i m) as [[q m1]|u|u|]; [|exact H|exact H|exact H].
  destruct H as (b & E & _). cbn. exists b. split; [exact E|]. rewrite setnth_length. exact L.
Qed.
Definition same_quads (n : nat) (o : option (list (mat4 N))) (b : bool) : Prop := match o with Some Q => b = true /\ length Q = n | None => b = false end.
Lemma sim_face Qs n i m : length Qs = n -> sim (same_quads n) (face_quadric Qs i m) (quad_face n i m).
Proof.
  intros L. unfold face_quadric, quad_face. apply sim_same. intros f m1. apply sim_same. intros b m2. destruct b; [apply sim_ret; cbn; auto|]. apply sim_same. intros vs m3.
  destruct vs as [|v0 [|v1 [|v2 [|? ?]]]]; try (apply sim_ret; reflexivity).
  apply sim_same; intros p1 m4. apply sim_same; intros p0 m5. apply sim_same; intros p2 m6. cbv zeta. apply sim_same; intros q m7.
  apply sim_same; intros i0 m8. apply (sim_bind (fun Q' _ => length Q' = n)); [apply sim_inc, L|]. intros Q1 [] m9 L1.
  apply sim_same; intros i1 m10. apply (sim_bind (fun Q' _ => length Q' = n)); [apply sim_inc, L1|]. intros Q2 [] m11 L2.
  apply sim_same; intros i2 m12. apply (sim_bind (fun Q' _ => length Q' = n)); [apply sim_inc, L2|]. intros Q3 [] m13 L3. apply sim_ret. cbn. auto.
Qed.
Lemma sim_faces n l : forall Qs m, length Qs = n -> sim (same_quads n) (face_quadrics Qs l m) (quad_faces n l m).
Proof.
  induction l as [|i l IH]; intros Qs m L; cbn [face_quadrics quad_faces]; [apply sim_ret; cbn; auto|].
  apply (sim_bind (same_quads n)); [apply sim_face, L|]. intros [Q|] b m1 H; [destruct H as [-> L1]; apply IH, L1|cbn in H; subst b; apply sim_ret; reflexivity].
Qed.
Lemma sim_quadrics m : sim (same_quads (length (m_verts m))) (all_quadrics m) (quad_faces (length (m_verts m)) (seq 0 (length (m_faces m))) m).
Proof. apply sim_faces, repeat_length. Qed.
Lemma sim_edge Qs n i m : length Qs = n -> sim (fun d h => fst (fst d) = h) (edge_data Qs i m) (quad_edge n i m).
Proof.
  intros L. unfold edge_data, quad_edge. apply sim_same; intros he m1. apply sim_same; intros v1 m2. apply sim_same; intros v2 m3. apply sim_same; intros i1 m4. apply sim_same; intros i2 m5.
  apply (sim_bind (fun _ _ => True)); [apply sim_at, L|]. intros q1 [] m6 _. apply (sim_bind (fun _ _ => True)); [apply sim_at, L|]. intros q2 [] m7 _.
  apply sim_same; intros p1 m8. apply sim_same; intros p2 m9. apply sim_ret. reflexivity.
Qed.
Lemma sim_edges Qs n l : length Qs = n -> forall m, sim (fun ds hs => map (fun d => fst (fst d)) ds = hs) (mmap (edge_data Qs) l m) (mmap (quad_edge n) l m).
Proof.
  intros L. induction l as [|i l IH]; intros m; cbn [mmap]; [apply sim_ret; reflexivity|].
  eapply sim_bind; [apply (sim_edge Qs n i m L)|]. intros d h m1 Hd. eapply sim_bind; [apply IH|]. intros ds hs m2 H. apply sim_ret. cbn [map]. f_equal; assumption.
Qed.

Definition strip (e : node N) : ptr * vec N := (n_he e, n_v e).
Lemma nodes_strip lu ds que : Forall2 (is_node lu) ds que -> map fst (map strip que) = map (fun d => fst (fst d)) ds.
Proof. induction 1 as [|[[he [q1 q2]] [p1 p2]] e ds que H _ IH]; [reflexivity|]. cbn [map strip fst]. destruct H as [-> _]. f_equal. exact IH. Qed.
Lemma loop_sim target que rm ck nr m o : queue_loop target que rm ck nr m o -> qem_loop target (map strip que) rm ck nr m o.
Proof.
  induction 1; [apply ql_empty|apply ql_done; assumption| | | |]; rewrite map_app in *; cbn [map] in *; unfold strip at 2.
  - apply ql_skip; assumption.
  - eapply ql_next; eassumption.
  - eapply ql_edge; eassumption.
  - apply ql_fail; assumption.
Qed.
Lemma quads_ok m Qs m1 : all_quadrics m = Ok (Some Qs, m1) -> quad_faces (length (m_verts m)) (seq 0 (length (m_faces m))) m = Ok (true, m1) /\ length Qs = length (m_verts m).
Proof. intros E. assert (SQ := sim_quadrics m). rewrite E in SQ. destruct SQ as (b & E' & [-> L]). auto. Qed.
Lemma edges_sim Qs n k m ds m2 : length Qs = n -> all_edges Qs k m = Ok (ds, m2) -> mmap (quad_edge n) (seq 0 k) m = Ok (map (fun d => fst (fst d)) ds, m2).
Proof. intros L E. assert (SE := sim_edges Qs n (seq 0 k) L m). unfold all_edges in E. rewrite E in SE. destruct SE as (hs & E' & <-). exact E'. Qed.
Lemma trial_sim lu target nr m o : queue_trial lu target nr m o -> qem_trial target nr m o.
Proof.
  intros H. destruct H as [o H|m1 H|Qs m1 o H H1|Qs m1 ds m2 que r o H H1 F H2 H3|Qs m1 ds m2 que nr' m3 o H H1 F H2 H3|Qs m1 ds m2 que nr' m3 m4 r o H H1 F H2 H3 H4 H5|Qs m1 ds m2 que nr' m3 m4 m5 H H1 F H2 H3 H4].
  - apply qt_fail0. exact (sim_failed _ _ _ _ (sim_quadrics m) H).
  - apply qt_return. assert (SQ := sim_quadrics m). rewrite H in SQ. destruct SQ as (b & E & Hb). cbn in Hb. subst b. exact E.
  - destruct (quads_ok m Qs m1 H) as [E L]. apply (qt_fail1 _ _ _ m1 o E). exact (sim_failed _ _ _ _ (sim_edges Qs _ _ L m1) H1).
  - destruct (quads_ok m Qs m1 H) as [E L]. exact (qt_fail2 _ _ _ m1 _ m2 (map strip que) r o E (edges_sim _ _ _ _ _ _ L H1) (nodes_strip lu ds que F) (loop_sim _ _ _ _ _ _ _ H2) H3).
  - destruct (quads_ok m Qs m1 H) as [E L]. exact (qt_fail3 _ _ _ m1 _ m2 (map strip que) nr' m3 o E (edges_sim _ _ _ _ _ _ L H1) (nodes_strip lu ds que F) (loop_sim _ _ _ _ _ _ _ H2) H3).
  - destruct (quads_ok m Qs m1 H) as [E L]. exact (qt_fail4 _ _ _ m1 _ m2 (map strip que) nr' m3 m4 r o E (edges_sim _ _ _ _ _ _ L H1) (nodes_strip lu ds que F) (loop_sim _ _ _ _ _ _ _ H2) H3 H4 H5).
  - destruct (quads_ok m Qs m1 H) as [E L]. exact (qt_ok _ _ _ m1 _ m2 (map strip que) nr' m3 m4 m5 E (edges_sim _ _ _ _ _ _ L H1) (nodes_strip lu ds que F) (loop_sim _ _ _ _ _ _ _ H2) H3 H4).
Qed.
Lemma trials_sim lu target mt fuel trial nr m o : queue_trials lu target mt fuel trial nr m o -> qem_trials target mt fuel trial nr m o.
Proof.
  induction 1 as [fuel trial nr m H|trial nr m H|fuel trial nr m r o H H1 H2|fuel trial nr m m' H H1|fuel trial nr m nr' m' H H1 H2|fuel trial nr m nr' m' o H H1 H2 H3 IH].
  - apply qo_end, H.
  - apply qo_fuel, H.
  - exact (qo_fail _ _ fuel trial nr m r o H (trial_sim _ _ _ _ _ H1) H2).
  - exact (qo_return _ _ fuel trial nr m m' H (trial_sim _ _ _ _ _ H1)).
  - exact (qo_break _ _ fuel trial nr m nr' m' H (trial_sim _ _ _ _ _ H1) H2).
  - exact (qo_go _ _ fuel trial nr m nr' m' o H (trial_sim _ _ _ _ _ H1) H2 IH).
Qed.
Theorem simplify_sim lu nt mt fuel m o : simplifyQueue lu nt mt fuel m o -> simplifyQEM nt mt fuel m o.
Proof.
  intros H. destruct H as [H|H H1|r o H H1 H2 H3|m1 o H H1 H2 H3].
  - apply sq_zero, H.
  - apply sq_few; assumption.
  - exact (sq_fail _ _ _ _ r o H H1 H2 H3).
  - exact (sq_run _ _ _ _ m1 o H H1 H2 (trials_sim _ _ _ _ _ _ _ _ H3)).
Qed.

(** ** Some node is on top of every queue that is not empty *)
Fixpoint best (e : node N) (q : list (node N)) : node N := match q with [] => e | a :: q' => best (if nltb (n_value a) (n_value e) then a else e) q' end.
Lemma best_in q : forall e, In (best e q) (e :: q).
Proof. induction q as [|a q IH]; intros e; cbn [best]; [left; reflexivity|]. destruct (IH (if nltb (n_value a) (n_value e) then a else e)) as [<- | H]; [destruct nltb; [right; left|left]; reflexivity|right; right; exact H]. Qed.
Lemma best_least Q q : weak_order Q -> forall e, incl (e :: q) Q -> (forall x, In x Q -> nltb (n_value x) (n_value x) = false) -> forall x, In x (e :: q) -> nltb (n_value x) (n_value (best e q)) = false.
Proof.
  intros [A T]. induction q as [|a q IH]; intros e I Ir x Hx; cbn [best]; [destruct Hx as [<- | []]; apply Ir, I; left; reflexivity|].
  set (e' := if nltb (n_value a) (n_value e) then a else e). assert (Ie : In e Q) by (apply I; left; reflexivity). assert (Ia : In a Q) by (apply I; right; left; reflexivity). assert (Ie' : In e' Q) by (unfold e'; destruct nltb; assumption).
  assert (I' : incl (e' :: q) Q) by (intros y [<- | Hy]; [exact Ie'|apply I; right; right; exact Hy]).
  assert (Ib : In (best e' q) Q) by (apply I', best_in). assert (L := IH e' I' Ir).
  assert (E1 : nltb (n_value e) (n_value e') = false) by (unfold e'; destruct (nltb (n_value a) (n_value e)) eqn:E; [apply A; assumption|apply Ir, Ie]).
  assert (E2 : nltb (n_value a) (n_value e') = false) by (unfold e'; destruct (nltb (n_value a) (n_value e)) eqn:E; [apply Ir, Ia|exact E]).
  destruct Hx as [<- | [<- | Hx]]; [|apply (T a e' _ Ia Ie' Ib E2), L; left; reflexivity|apply L; right; exact Hx]. apply (T e e' _ Ie Ie' Ib E1), L. left; reflexivity.
Qed.
Lemma top_exists q : q <> [] -> exists q1 e q2, q = q1 ++ e :: q2 /\ is_top q e.
Proof.
  destruct q as [|e q]; [congruence|]. intros _. destruct (in_split _ _ (best_in q e)) as (q1 & q2 & E). exists q1, (best e q), q2. split; [exact E|]. intros Wq x Hx.
  apply (best_least (e :: q) q Wq e); [apply incl_refl| |exact Hx]. intros y Hy. destruct (nltb (n_value y) (n_value y)) eqn:F; [|reflexivity]. assert (X := proj1 Wq y y Hy Hy F). congruence.
Qed.
End P.
