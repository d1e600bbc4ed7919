(** The octahedron run. *)
From Coq Require Import Reals Lra Bool List ZArith Arith Lia.
From Verif Require Import Num NumInst Vec VecR Heap Mesh Spec BuildSpec GeomSpec MeasureM FilterSpec SmoothSpec RemeshSpec Simplify SimplifyT RemeshR Qem QemP L0Spec QemSpec QemR QemM QemT QemC QemW.
Import ListNotations.

Lemma f2_in {A B} (R : A -> B -> Prop) l l' : Forall2 R l l' -> forall a, In a l -> exists b, In b l' /\ R a b.
Proof. induction 1 as [|a b l l' Hr _ IH]; intros x Hx; [destruct Hx|]. destruct Hx as [<- | Hx]; [exists b; split; [left; reflexivity|exact Hr]|]. destruct (IH x Hx) as (y & Iy & Ry). exists y. split; [right; exact Iy|exact Ry]. Qed.
Theorem octa_case : exists (m : mesh NumR) Qs ds que nr' m', Valid m /\ Closed m /\ map (v_pos m) (m_verts m) = [v3 1 0 0; v3 0 1 0; v3 0 0 1; v3 (-1) 0 0; v3 0 (-1) 0; v3 0 0 (-1)]%R /\
  all_quadrics m = Ok (Some Qs, m) /\ all_edges Qs (length (m_hes m)) m = Ok (ds, m) /\ Forall2 (is_node (N := NumR) solution4) ds que /\
  queue_loop (N := NumR) 1 que [] (repeat false (length (m_verts m))) 0 m (Ok (nr', m')) /\ exists e h, In e que /\ n_he e = Some h /\ contractible m h (n_v e) /\ (0 < n_value e)%R.
Proof.
  destruct octa_mesh as (m & O). assert (O' := O). destruct O' as (V & C & Vs & P & _ & I7 & _). destruct (queue_ok m V) as (Qs & ds & EQ & ED & HE & que & HQ). assert (Fe := HE que HQ).
  destruct (loop_exists 1 (length que) que (le_n _) [] (repeat false (length (m_verts m))) 0%Z m) as (o & Ho).
  assert (Hin : forall e, In e que -> exists h, n_he e = Some h /\ In h (m_hes m)). { clear - Fe. induction Fe as [|h e hs que [A _] _ IH]; intros x Hx; [destruct Hx|]. destruct Hx as [<- | Hx]; [exists h; split; [exact A|left; reflexivity]|]. destruct (IH x Hx) as (k & B & D). exists k. split; [exact B|right; exact D]. }
  assert (R : exists nr' m', o = Ok (nr', m')).
  { assert (T : forall r o2, o = r -> failed r o2 -> queue_trial (N := NumR) solution4 1 0 m o2) by (intros r o2 -> F; exact (kt_fail2 _ _ _ _ Qs m ds m que r o2 EQ ED HQ Ho F)).
    assert (G : forall o2, queue_trial (N := NumR) solution4 1 0 m o2 -> exists a, o2 = Ok a).
    { intros o2 H2. destruct (qem_trial_ok (fun _ => False) (fun m N => N (posok_R m)) (fun x E => div_R x E) (fun m W T => tau_R m W T) 1 0 m o2 (trial_sim _ _ _ _ _ H2) V) as [(k & _ & []) | (nr & m' & k & -> & _)]. eauto. }
    destruct o as [[nr' m']|u|k|]; [eauto| | |]; exfalso.
    - destruct (G (UB u) (T _ _ eq_refl eq_refl)) as (a & E). discriminate.
    - destruct (G (Abort k) (T _ _ eq_refl eq_refl)) as (a & E). discriminate.
    - destruct (G NoFuel (T _ _ eq_refl eq_refl)) as (a & E). discriminate. }
  destruct R as (nr' & m' & ->). exists m, Qs, ds, que, nr', m'. split; [exact V|]. split; [exact C|]. split; [rewrite Vs, P; reflexivity|]. split; [exact EQ|]. split; [exact ED|]. split; [exact HQ|]. split; [exact Ho|].
  destruct (f2_in _ _ _ Fe 7 I7) as (e & Ie & Ne & Qe). exists e, 7. split; [exact Ie|]. split; [exact Ne|]. destruct (octa_entry m O _ _ Qe) as [-> ->]. split; [apply octa_contractible, O|]. assert (T := third_lo). nra.
Qed.
