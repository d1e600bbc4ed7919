(** simplifyQEM with its queue: it has a run, and its first contraction is the cheapest. *)
From Coq Require Import Reals Lra Bool List ZArith Arith Lia.
From Verif Require Import Num NumInst Vec VecR Heap Mesh Construct Spec BuildSpec GeomSpec Orbit Rings Queries Indices Means MeasureM FilterSpec LaplP LaplM LinR Prog ProgP SmoothSpec Smooth SmoothP Wp RemeshSpec Simplify SimplifyP SimplifyT RemeshR Qem QemP L0Spec QemSpec QemR QemM ExamplesR RegTet.
Import ListNotations.

Lemma weak_order_R (q : list (node NumR)) : weak_order (N := NumR) q.
Proof.
  split.
  - intros a b _ _. change (@nltb NumR) with Rltb. unfold Rltb. destruct (Rlt_dec (n_value a) (n_value b)); [|discriminate]. intros _. destruct (Rlt_dec (n_value b) (n_value a)); [lra|reflexivity].
  - intros a b c _ _ _. change (@nltb NumR) with Rltb. unfold Rltb. destruct (Rlt_dec (n_value a) (n_value b)) as [|Ha]; [discriminate|]. destruct (Rlt_dec (n_value b) (n_value c)) as [|Hb]; [discriminate|]. intros _ _. destruct (Rlt_dec (n_value a) (n_value c)) as [Hc|]; [|reflexivity]. exfalso. apply (Rlt_not_le _ _ Hc). apply Rle_trans with (n_value b); apply Rnot_lt_le; assumption.
Qed.
Lemma top_R (q : list (node NumR)) e : is_top (N := NumR) q e -> forall e', In e' q -> (n_value e <= n_value e')%R.
Proof.
  intros H e' He'. specialize (H (weak_order_R q) e' He'). change (@nltb NumR) with Rltb in H. unfold Rltb in H. destruct (Rlt_dec (n_value e') (n_value e)); [discriminate|]. apply Rnot_lt_le. assumption.
Qed.
(** The loop contracts the edge of node [e]. *)
Definition accepts (ck : list bool) (m : mesh NumR) (e : node NumR) (six : list ptr) (ck' : list bool) (ok : bool) (m1 : mesh NumR) : Prop :=
  qem_edge (N := NumR) ck (n_he e) (n_v e) m = Ok (Some (six, ck', ok), m1).
Lemma rejects_same ck m e h m1 : Valid m -> length (m_verts m) <= length ck -> n_he e = Some h -> In h (m_hes m) -> qem_edge (N := NumR) ck (n_he e) (n_v e) m = Ok (None, m1) -> m1 = m.
Proof.
  intros V L -> Ih E. assert (Q := qem_edge_ok (fun _ => True) (fun _ _ => I) m ck h (n_v e) V Ih L). unfold wp in Q. rewrite E in Q. exact Q.
Qed.
Lemma pmem_nil p : pmem p [] = false.
Proof. reflexivity. Qed.
Theorem first_least target ck nr (m : mesh NumR) que nr' m' : Valid m -> length (m_verts m) <= length ck -> (nr < target)%Z ->
  (forall e, In e que -> exists h, n_he e = Some h /\ In h (m_hes m)) -> queue_loop (N := NumR) target que [] ck nr m (Ok (nr', m')) ->
  (nr' = nr /\ m' = m /\ forall e, In e que -> qem_edge (N := NumR) ck (n_he e) (n_v e) m = Ok (None, m)) \/
  exists e six ck' ok m1 rest, In e que /\ accepts ck m e six ck' ok m1 /\ queue_loop (N := NumR) target rest six ck' (if ok then nr + 2 else nr)%Z m1 (Ok (nr', m')) /\
    forall e', In e' que -> (n_value e' < n_value e)%R -> qem_edge (N := NumR) ck (n_he e') (n_v e') m = Ok (None, m).
Proof.
  intros V L Ht Hq H. remember [] as rm eqn:Erm. remember (Ok (nr', m')) as o eqn:Eo. revert Hq. induction H as [rm ck nr m|que rm ck nr m G|q1 e q2 rm ck nr m o G T P H IH|q1 e q2 rm ck nr m m1 o G T P E H IH|q1 e q2 rm ck nr m six ck' ok m1 o G T P E H IH|q1 e q2 rm ck nr m o G T P E]; intros Hq; subst.
  - injection Eo as -> ->. left. split; [reflexivity|]. split; [reflexivity|]. intros e [].
  - lia.
  - discriminate P.
  - destruct (Hq e) as (h & Eh & Ih); [apply in_elt|]. assert (m1 = m) by exact (rejects_same ck m e h m1 V L Eh Ih E). subst m1.
    assert (Sub : forall x, In x (q1 ++ e :: q2) <-> x = e \/ In x (q1 ++ q2)) by (intros x; rewrite !in_app_iff; cbn [In]; intuition).
    destruct (IH V L Ht eq_refl eq_refl) as [(A & B & C) | (e0 & six & ck' & ok & m1 & rest & I0 & A & B & C)]; [intros x Hx; apply Hq, Sub; right; exact Hx|left|right].
    + split; [exact A|]. split; [exact B|]. intros x Hx. apply Sub in Hx as [-> | Hx]; [exact E|apply C, Hx].
    + exists e0, six, ck', ok, m1, rest. split; [apply Sub; right; exact I0|]. split; [exact A|]. split; [exact B|]. intros x Hx Lx. apply Sub in Hx as [-> | Hx]; [exact E|apply C; assumption].
  - right. exists e, six, ck', ok, m1, (q1 ++ q2). split; [apply in_elt|]. split; [exact E|]. split; [rewrite app_nil_r in H; exact H|]. intros x Hx Lx. exfalso. apply (Rlt_not_le _ _ Lx). exact (top_R _ _ T x Hx).
  - unfold failed in E. destruct (qem_edge ck (n_he e) (n_v e) m) as [?| | |]; [contradiction|discriminate..].
Qed.

(** ** There is a run *)
Lemma loop_exists {N : Num} target : forall n que, length que <= n -> forall rm ck nr (m : mesh N), exists o, queue_loop (N := N) target que rm ck nr m o.
Proof.
  induction n as [|n IH]; intros que Hn rm ck nr m; (destruct (Z.leb_spec target nr) as [G|G]; [eexists; apply kl_done, G|]); (destruct que as [|e0 que]; [eexists; apply kl_empty|]); [cbn in Hn; lia|].
  destruct (top_exists (e0 :: que)) as (q1 & e & q2 & E & T); [congruence|]. rewrite E in *. rewrite app_length in Hn. cbn [length] in Hn. assert (Hr : length (q1 ++ q2) <= n) by (rewrite app_length; lia).
  destruct (pmem (n_he e) rm) eqn:P; [destruct (IH _ Hr rm ck nr m) as (o & Ho); exists o; apply kl_skip; assumption|].
  destruct (qem_edge ck (n_he e) (n_v e) m) as [[[[[six ck'] ok]|] m1]| | |] eqn:Q.
  - destruct (IH _ Hr (six ++ rm) ck' (if ok then nr + 2 else nr)%Z m1) as (o & Ho). exists o. eapply kl_edge; eassumption.
  - destruct (IH _ Hr rm ck nr m1) as (o & Ho). exists o. eapply kl_next; eassumption.
  - eexists. apply kl_fail; try assumption. rewrite Q. reflexivity.
  - eexists. apply kl_fail; try assumption. rewrite Q. reflexivity.
  - eexists. apply kl_fail; try assumption. rewrite Q. reflexivity.
Qed.
Lemma trial_exists target nr (m : mesh NumR) : Valid m -> exists o, queue_trial (N := NumR) solution4 target nr m o.
Proof.
  intros V. destruct (queue_ok m V) as (Qs & ds & EQ & ED & _ & que & HQ).
  destruct (loop_exists target (length que) que (le_n _) [] (repeat false (length (m_verts m))) nr m) as (r & Hr).
  destruct r as [[nr' m3]|u|k|]; [|exists (UB u)|exists (Abort k)|exists NoFuel]; try exact (kt_fail2 _ _ _ _ Qs m ds m que _ _ EQ ED HQ Hr eq_refl).
  destruct (he_loop even_flip (length (m_hes m3)) 0 m3) as [[[] m4]|u|k|] eqn:E3; [|exists (UB u)|exists (Abort k)|exists NoFuel]; try (apply (kt_fail3 _ _ _ _ Qs m ds m que nr' m3 _ EQ ED HQ Hr); rewrite E3; reflexivity).
  assert (T := run_taubin_ok m4). destruct (run_taubin m4) as [m5|u|k|]; [eexists; exact (kt_ok _ _ _ _ Qs m ds m que nr' m3 m4 m5 EQ ED HQ Hr E3 T)|exists (UB u)|exists (Abort k)|exists NoFuel]; exact (kt_fail4 _ _ _ _ Qs m ds m que nr' m3 m4 _ _ EQ ED HQ Hr E3 T eq_refl).
Qed.
Lemma trials_exists target mt fuel : forall trial nr (m : mesh NumR), Valid m -> exists o, queue_trials (N := NumR) solution4 target mt fuel trial nr m o.
Proof.
  induction fuel as [|fuel IH]; intros trial nr m V; (destruct (Z.leb_spec mt trial); [eexists; apply ko_end; assumption|]); [eexists; apply ko_fuel; assumption|].
  destruct (trial_exists target nr m V) as (r & Hr). destruct r as [[[nr'|] m']|u|k|]; [|eexists; apply ko_return; eassumption|exists (UB u)|exists (Abort k)|exists NoFuel]; try (eapply ko_fail; [assumption|exact Hr|reflexivity]).
  destruct (Z.leb_spec target nr') as [G|G]; [eexists; eapply ko_break; eassumption|].
  assert (V' : Valid m'). { destruct (qem_trial_ok (fun _ => True) (fun _ _ => I) (fun _ _ => I) (fun _ _ _ => I) target nr m _ (trial_sim _ _ _ _ _ Hr) V) as [(k & E & _) | (nr2 & m2 & k & E & EV & _)]; [discriminate|]. injection E as <- <-. exact (ev_valid _ _ EV). }
  destruct (IH ((if (length (m_faces m') <? length (m_faces m))%nat then 0 else trial) + 1)%Z nr' m' V') as (o & Ho). exists o. eapply ko_go; eassumption.
Qed.
Theorem simplify_exists nt mt fuel (m : mesh NumR) : Valid m -> exists o, simplifyQueue (N := NumR) solution4 nt mt fuel m o.
Proof.
  intros V. destruct (Z.eqb_spec nt 0) as [Z|Z]; [eexists; apply kq_zero, Z|]. destruct (Z.leb_spec (Z.of_nat (length (m_faces m))) nt) as [G|G]; [eexists; apply kq_few; assumption|].
  assert (Lp : exists r, laplacian_default (N := NumR) m r). { destruct (run_simplify_ok (N := NumR) (fun _ _ => vzero) nt mt fuel m); [contradiction|lia|eexists; eassumption|eexists; eassumption]. }
  destruct Lp as (r & Hr). destruct (lap_ok (fun _ => True) (fun _ _ _ => I) m r V Hr) as [(k & -> & _) | (m1 & -> & EV & _)]; [eexists; exact (kq_fail _ _ _ _ _ _ (Abort k) Z G Hr eq_refl)|].
  destruct (trials_exists (Z.of_nat (length (m_faces m)) - nt)%Z mt fuel 0%Z 0%Z m1 (ev_valid _ _ EV)) as (o & Ho). exists o. exact (kq_run _ _ _ _ _ m1 o Z G Hr Ho).
Qed.
(** Together with what Simplify.v guarantees: simplifyQEM returns a valid mesh. *)
Theorem simplify_queue_valid nt mt fuel (m : mesh NumR) : Valid m -> nt <> 0%Z -> (length (m_faces m) + 1) * Z.to_nat mt <= fuel ->
  (exists m', simplifyQueue (N := NumR) solution4 nt mt fuel m (Ok m')) /\
  forall lu o, simplifyQueue (N := NumR) lu nt mt fuel m o -> exists m' k, o = Ok m' /\ Evolves m m' /\ length (m_faces m) = 2 * k + length (m_faces m') /\ (k = 0 \/ (nt - 1 <= Z.of_nat (length (m_faces m')))%Z).
Proof.
  intros V Z L. assert (G : forall lu o, simplifyQueue (N := NumR) lu nt mt fuel m o -> exists m' k, o = Ok m' /\ Evolves m m' /\ length (m_faces m) = 2 * k + length (m_faces m') /\ (k = 0 \/ (nt - 1 <= Z.of_nat (length (m_faces m')))%Z)).
  { intros lu o H. exact (simplify_R nt mt fuel m o V L Z (simplify_sim _ _ _ _ _ _ H)). }
  split; [|exact G]. destruct (simplify_exists nt mt fuel m V) as (o & Ho). destruct (G _ _ Ho) as (m' & _ & -> & _). exists m'. exact Ho.
Qed.
(** One trial: the queue, and its first contraction. *)
Definition rejected (m : mesh NumR) (e : node NumR) : Prop := qem_edge (N := NumR) (repeat false (length (m_verts m))) (n_he e) (n_v e) m = Ok (None, m).
Theorem trial_first target nr (m : mesh NumR) r m' : Valid m -> (nr < target)%Z -> queue_trial (N := NumR) solution4 target nr m (Ok (r, m')) ->
  exists que, Forall2 (entry_of m) (m_hes m) que /\
   ((forall e, In e que -> rejected m e) \/
    exists e six ck ok m1, In e que /\ qem_edge (N := NumR) (repeat false (length (m_verts m))) (n_he e) (n_v e) m = Ok (Some (six, ck, ok), m1) /\
      forall e', In e' que -> (n_value e' < n_value e)%R -> rejected m e').
Proof.
  intros V Ht H. destruct (queue_ok m V) as (Qs & ds & EQ & ED & HE & _).
  assert (G : forall que nr2 m2, Forall2 (is_node (N := NumR) solution4) ds que -> queue_loop (N := NumR) target que [] (repeat false (length (m_verts m))) nr m (Ok (nr2, m2)) ->
    exists que, Forall2 (entry_of m) (m_hes m) que /\
   ((forall e, In e que -> rejected m e) \/
    exists e six ck ok m1, In e que /\ qem_edge (N := NumR) (repeat false (length (m_verts m))) (n_he e) (n_v e) m = Ok (Some (six, ck, ok), m1) /\
      forall e', In e' que -> (n_value e' < n_value e)%R -> rejected m e')).
  { intros que nr2 m2 F Q. exists que. assert (Fe := HE que F). split; [exact Fe|].
    assert (Hq : forall e, In e que -> exists h, n_he e = Some h /\ In h (m_hes m)). { clear - Fe. induction Fe as [|h e hs que [A _] _ IH]; intros x Hx; [destruct Hx|]. destruct Hx as [<- | Hx]; [exists h; split; [exact A|left; reflexivity]|]. destruct (IH x Hx) as (k & B & C). exists k. split; [exact B|right; exact C]. }
    destruct (first_least target (repeat false (length (m_verts m))) nr m que nr2 m2 V (Nat.eq_le_incl _ _ (eq_sym (repeat_length _ _))) Ht Hq Q) as [(_ & _ & C) | (e & six & ck' & ok & m1 & rest & A & B & _ & D)]; [left; exact C|right].
    exists e, six, ck', ok, m1. split; [exact A|]. split; [exact B|exact D]. }
  inversion H as [o F|m1 F|Qs1 m1 o F F1|Qs1 m1 ds1 m2 que r0 o F F1 F2 F3 F4|Qs1 m1 ds1 m2 que nr2 m3 o F F1 F2 F3 F4|Qs1 m1 ds1 m2 que nr2 m3 m4 r0 o F F1 F2 F3 F4 F5 F6|Qs1 m1 ds1 m2 que nr2 m3 m4 m5 F F1 F2 F3 F4 F5]; subst.
  - rewrite EQ in F. destruct F.
  - congruence.
  - rewrite EQ in F. injection F as <- <-. rewrite ED in F1. destruct F1.
  - rewrite EQ in F. injection F as <- <-. rewrite ED in F1. injection F1 as <- <-. destruct r0; [destruct F4|discriminate F4..].
  - destruct (he_loop even_flip (length (m_hes m3)) 0 m3); [destruct F4|discriminate F4..].
  - destruct r0; [destruct F6|discriminate F6..].
  - rewrite EQ in F. injection F as <- <-. rewrite ED in F1. injection F1 as <- <-. exact (G que _ _ F2 F3).
Qed.
Theorem queue_case : exists m : mesh NumR, Valid m /\ Closed m /\ positions m = regR /\ (0 < 1)%Z /\ exists r m', queue_trial (N := NumR) solution4 1 0 m (Ok (r, m')).
Proof.
  destruct regR_all as (m & _ & V & C & P & _ & _). exists m. split; [exact V|]. split; [exact C|]. split; [exact P|]. split; [lia|]. destruct (trial_exists 1 0 m V) as (o & Ho).
  destruct (qem_trial_ok (fun _ => False) (fun m N => N (posok_R m)) (fun x E => div_R x E) (fun m W T => tau_R m W T) 1 0 m o (trial_sim _ _ _ _ _ Ho) V) as [(k & _ & []) | (nr & m' & k & -> & _)]. eexists; eexists; exact Ho.
Qed.
