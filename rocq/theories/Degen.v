(** Which arrays with degenerate triangles are accepted. *)
From Coq Require Import List ZArith Arith Lia Bool Permutation Floats.
From Verif Require Import Num NumInst Vec Heap Mesh Construct Spec BuildSpec BuildTri BuildTop Weld Built BuildProps Witness Refute Examples.
Import ListNotations.

Definition count (p : list tri) : nat := length (filter degb p).
(** What was looked at already stays. *)
Lemma drop_keeps n : forall rest pre fuel, length rest = n -> n <= fuel -> exists out, drop_degenerate fuel (3 * length pre) (flat (pre ++ rest)) = Ok (flat (pre ++ out)).
Proof.
  induction n as [n IH] using lt_wf_ind. intros rest pre fuel Hn Hf. destruct rest as [|t rest].
  - exists []. rewrite !app_nil_r. apply drop_done.
  - destruct fuel as [|fuel]; [cbn [length] in Hn; lia|]. cbn [length] in Hn. rewrite drop_step. destruct (degb t) eqn:D.
    + destruct (rev rest) as [|z r] eqn:R.
      * exists []. rewrite app_nil_r. apply drop_done'. rewrite app_length; lia.
      * assert (Lr : length rest = S (length (rev r))) by (rewrite <- (rev_involutive rest), R; cbn [rev]; rewrite app_length; cbn [length]; lia).
        destruct (IH (length (rev r)) ltac:(lia) (rev r) (pre ++ [z]) fuel eq_refl ltac:(lia)) as (out & E). exists (z :: out). rewrite E, <- app_assoc. reflexivity.
    + destruct (IH (length rest) ltac:(lia) rest (pre ++ [t]) fuel eq_refl ltac:(lia)) as (out & E). exists (t :: out). rewrite E, <- app_assoc. reflexivity.
Qed.
Lemma drop_clean n : forall rest pre fuel, length rest = n -> n <= fuel -> (forall u, In u rest -> ~ degenerate u) -> drop_degenerate fuel (3 * length pre) (flat (pre ++ rest)) = Ok (flat (pre ++ rest)).
Proof.
  induction n as [|n IH]; intros rest pre fuel Hn Hf Nd; (destruct rest as [|t rest]; [|]); cbn [length] in Hn; try lia.
  - rewrite !app_nil_r. apply drop_done.
  - destruct fuel as [|fuel]; [lia|]. rewrite drop_step. destruct (degb t) eqn:D; [exfalso; apply (Nd t (or_introl eq_refl)), degb_spec, D|].
    rewrite (IH rest (pre ++ [t]) fuel) by (lia || (intros u Hu; apply Nd; right; exact Hu)). rewrite <- app_assoc. reflexivity.
Qed.
Lemma rev_last {A} (l : list A) z r : rev l = z :: r -> l = rev r ++ [z].
Proof. intros E. rewrite <- (rev_involutive l), E. reflexivity. Qed.
Section Last.
Variable t : tri.
Hypothesis Dt : degenerate t.
Lemma rev_split p post z r : rev (p ++ t :: post) = z :: r -> (post = [] /\ z = t /\ rev r = p) \/ exists post', post = post' ++ [z] /\ rev r = p ++ t :: post'.
Proof.
  intros E. apply rev_last in E. destruct post as [|x post _] using rev_ind.
  - left. apply app_inj_tail in E. destruct E as [<- <-]. auto.
  - right. change (t :: post ++ [x]) with ((t :: post) ++ [x]) in E. rewrite app_assoc in E. apply app_inj_tail in E. destruct E as [<- <-]. exists post. auto.
Qed.
(** As many triangles after the last degenerate one as there are others: all are dropped. *)
Lemma drop_all n : forall p post pre fuel, length (p ++ t :: post) = n -> n <= fuel -> (forall u, In u post -> ~ degenerate u) -> count p <= length post ->
  exists out, drop_degenerate fuel (3 * length pre) (flat (pre ++ p ++ t :: post)) = Ok (flat out) /\ forall u, In u out -> In u pre \/ ~ degenerate u.
Proof.
  induction n as [n IH] using lt_wf_ind. intros p post pre fuel Hn Hf Nd Hc. destruct fuel as [|fuel]; [rewrite app_length in Hn; cbn [length] in Hn; lia|]. destruct p as [|x p].
  - cbn [app]. rewrite drop_step. rewrite (proj2 (degb_spec t) Dt). destruct (rev post) as [|z r] eqn:R.
    + exists pre. split; [apply drop_done'; rewrite app_length; lia|auto].
    + assert (E := rev_last _ _ _ R). assert (length post = S (length (rev r))) by (rewrite E, app_length; cbn [length]; lia). cbn [app length] in Hn.
      exists ((pre ++ [z]) ++ rev r). split.
      * apply (drop_clean (length (rev r))); [reflexivity|lia|]. intros u Hu. apply Nd. rewrite E. apply in_or_app. auto.
      * intros u Hu. rewrite <- app_assoc in Hu. apply in_app_iff in Hu. destruct Hu as [Hu | [<- | Hu]]; [auto| |]; right; apply Nd; rewrite E; apply in_or_app; [right; left; reflexivity|left; exact Hu].
  - cbn [app] in *. rewrite drop_step. unfold count in Hc. cbn [filter] in Hc. cbn [length] in Hn. destruct (degb x) eqn:D.
    + cbn [length] in Hc. destruct (rev (p ++ t :: post)) as [|z r] eqn:R; [apply (f_equal (@rev _)) in R; rewrite rev_involutive in R; destruct p; discriminate|].
      destruct (rev_split _ _ _ _ R) as [(-> & _) | (post' & -> & ->)]; [cbn [length] in Hc; lia|]. rewrite app_length in Hn; cbn [length] in Hn; rewrite app_length in Hn; rewrite app_length in Hc; cbn [length] in Hn, Hc.
      destruct (IH (length (p ++ t :: post')) ltac:(rewrite app_length; cbn [length]; lia) p post' (pre ++ [z]) fuel eq_refl ltac:(rewrite app_length; cbn [length]; lia)) as (out & E & Ho).
      * intros u Hu. apply Nd, in_or_app. auto.
      * unfold count. lia.
      * exists out. split; [exact E|]. intros u Hu. destruct (Ho u Hu) as [Hp | Hp]; [|auto]. apply in_app_iff in Hp. destruct Hp as [Hp | [<- | []]]; [auto|]. right. apply Nd, in_or_app. right; left; reflexivity.
    + destruct (IH (length (p ++ t :: post)) ltac:(lia) p post (pre ++ [x]) fuel eq_refl ltac:(lia) Nd Hc) as (out & E & Ho). exists out. split; [exact E|].
      intros u Hu. destruct (Ho u Hu) as [Hp | Hp]; [|auto]. apply in_app_iff in Hp. destruct Hp as [Hp | [<- | []]]; [auto|]. right. apply degb_false, D.
Qed.
(** Fewer: one is left. *)
Lemma drop_some n : forall p post pre fuel, length (p ++ t :: post) = n -> n <= fuel -> length post < count p ->
  exists out u, drop_degenerate fuel (3 * length pre) (flat (pre ++ p ++ t :: post)) = Ok (flat out) /\ In u out /\ degenerate u.
Proof.
  induction n as [n IH] using lt_wf_ind. intros p post pre fuel Hn Hf Hc. destruct fuel as [|fuel]; [rewrite app_length in Hn; cbn [length] in Hn; lia|]. destruct p as [|x p]; [cbn in Hc; lia|].
  cbn [app] in *. rewrite drop_step. unfold count in Hc. cbn [filter] in Hc. cbn [length] in Hn. destruct (degb x) eqn:D.
  - cbn [length] in Hc. destruct (rev (p ++ t :: post)) as [|z r] eqn:R; [apply (f_equal (@rev _)) in R; rewrite rev_involutive in R; destruct p; discriminate|].
    destruct (rev_split _ _ _ _ R) as [(-> & -> & ->) | (post' & -> & ->)].
    + rewrite app_length in Hn. cbn [length] in Hn. destruct (drop_keeps (length p) p (pre ++ [t]) fuel eq_refl ltac:(lia)) as (out & E). exists ((pre ++ [t]) ++ out), t. split; [exact E|]. split; [|exact Dt]. apply in_or_app. left. apply in_or_app. right; left; reflexivity.
    + rewrite app_length in Hn; cbn [length] in Hn; rewrite app_length in Hn; rewrite app_length in Hc; cbn [length] in Hn, Hc.
      apply (IH (length (p ++ t :: post')) ltac:(rewrite app_length; cbn [length]; lia) p post' (pre ++ [z]) fuel eq_refl ltac:(rewrite app_length; cbn [length]; lia)). unfold count. lia.
  - apply (IH (length (p ++ t :: post)) ltac:(lia) p post (pre ++ [x]) fuel eq_refl ltac:(lia) Hc).
Qed.
End Last.

Section Top.
Context {N : Num}.
Context {NE : NumEq N}.
Lemma welded_outcome (ps : list (vec N)) ix us l : Welded ps ix us l -> Nat.divide 3 (length ix) ->
  exists T rem, drop_degenerate (length l) 0 l = Ok (flat T) /\ Permutation (triples l) (T ++ rem) /\ (forall t, In t rem -> degenerate t) /\
   ((exists t, In t T /\ degenerate t) /\ mesh_of ps ix = Abort AError \/
    (forall t, In t T -> ~ degenerate t) /\ exists A, Accepted T A /\
      ((forall a, a < length us -> used A a) -> (forall a, a < length us -> Fan A a) ->
         exists m, mesh_of ps ix = Ok m /\ SurfaceOf m A /\ positions m = us)).
Proof.
  intros Wd D. unfold mesh_of.
  destruct (construct_outcome ps ix (empty_mesh (N:=N))) as [[W _]|(us' & l' & W & [[Nd _]|(_ & out & rem & Dr & P & R & _ & _ & Ot)])].
  - rewrite (Welded_weld _ _ _ _ Wd) in W. discriminate.
  - rewrite (Welded_weld _ _ _ _ Wd) in W. injection W as <- <-. rewrite empty_indices in Nd. cbn [app] in Nd. rewrite (we_len _ _ _ _ Wd) in Nd. contradiction.
  - rewrite (Welded_weld _ _ _ _ Wd) in W. injection W as <- <-. rewrite empty_indices in *. cbn [app] in *.
    exists out, rem. split; [exact Dr|]. split; [exact P|]. split; [rewrite Forall_forall in R; exact R|].
    destruct Ot as [[X E]|[[(t & It & X) E]|(X & A & Ac & _ & Ot)]].
    + left. split; [exact X|]. rewrite E. reflexivity.
    + exfalso. apply X. apply (triples_range (length us) l (Welded_range _ _ _ _ Wd)).
      apply (Permutation_in _ (Permutation_sym P)). apply in_or_app. left; exact It.
    + right. split; [exact X|]. exists A. split; [exact Ac|]. intros U F. destruct Ot as [[(a & La & Y) E]|(Y & [[(a & La & Z) E]|(Z & m' & E & Sf & Po & _)])].
      * exfalso. apply Y, U, La.
      * exfalso. apply Z, F, La.
      * rewrite E. eauto.
Qed.
Section At.
Variables (ps : list (vec N)) (ix : list nat) (us : list (vec N)) (l : list nat) (p : list tri) (t : tri) (post : list tri).
Hypothesis Wd : Welded ps ix us l.
Hypothesis D3 : Nat.divide 3 (length ix).
Hypothesis Sp : triples l = p ++ t :: post.
Hypothesis Dt : degenerate t.
Lemma flat_split : l = flat ([] ++ p ++ t :: post).
Proof. cbn [app]. rewrite <- Sp. symmetry. apply flat_triples. rewrite (we_len _ _ _ _ Wd). exact D3. Qed.
Lemma flat_fuel : length (p ++ t :: post) <= length l.
Proof. assert (F := f_equal (@length nat) flat_split). rewrite F. clear F. cbn [app]. generalize (p ++ t :: post). intros T. induction T as [|[[a b] c] T IH]; cbn [flat length]; lia. Qed.
Lemma all_dropped : (forall u, In u post -> ~ degenerate u) -> length (filter degb p) <= length post ->
  exists T rem A, Permutation (triples l) (T ++ rem) /\ (forall u, In u rem -> degenerate u) /\ (forall u, In u T -> ~ degenerate u) /\
    Accepted T A /\ ((forall a, a < length us -> used A a) -> (forall a, a < length us -> Fan A a) ->
      exists m, mesh_of ps ix = Ok m /\ SurfaceOf m A /\ positions m = us).
Proof.
  intros Np Hc. destruct (welded_outcome ps ix us l Wd D3) as (T & rem & E & P & R & O). exists T, rem.
  destruct (drop_all t Dt (length (p ++ t :: post)) p post [] (length l) eq_refl flat_fuel Np Hc) as (out & E2 & Ho). rewrite <- flat_split in E2. cbn [length] in E2. change (3 * 0) with 0 in E2.
  rewrite E in E2. injection E2 as E2. apply flat_inj in E2. subst out.
  destruct O as [[(u & Iu & Du) _]|(X & A & Ac & O)]; [exfalso; destruct (Ho u Iu) as [[]|Q]; exact (Q Du)|]. exists A. auto.
Qed.
Lemma some_left : length post < length (filter degb p) -> mesh_of ps ix = Abort AError.
Proof.
  intros Hc. destruct (welded_outcome ps ix us l Wd D3) as (T & rem & E & P & R & O).
  destruct (drop_some t Dt (length (p ++ t :: post)) p post [] (length l) eq_refl flat_fuel Hc) as (out & u & E2 & Iu & Du). rewrite <- flat_split in E2. cbn [length] in E2. change (3 * 0) with 0 in E2.
  rewrite E in E2. injection E2 as E2. apply flat_inj in E2. subst out.
  destruct O as [[_ O]|(X & _)]; [exact O|]. exfalso. exact (X u Iu Du).
Qed.
End At.
End Top.

(** Concrete cases: three degenerate triangles of which the last is followed by two others, and two of which the last is at the end. *)
Section Ex.
Variables (acosF expF : float -> float) (atan2F : float -> float -> float).
Notation NF := (NumF acosF expF atan2F).
Lemma ex_all_dropped : exists (ps : list (vec NF)) ix us l p t post, Welded ps ix us l /\ Nat.divide 3 (length ix) /\ triples l = p ++ t :: post /\ degenerate t /\
  (forall u, In u post -> ~ degenerate u) /\ length (filter degb p) = 2 /\ length post = 2.
Proof.
  set (ix := [0;1;1; 0;0;1; 0;1;2; 2;2;1; 0;1;2; 0;1;2]). exists (ps3 acosF expF atan2F), ix, (ps3 acosF expF atan2F), ix, [(0,1,1); (0,0,1); (0,1,2)], (2,2,1), [(0,1,2); (0,1,2)].
  split; [apply weld_Welded; [apply nonanb_ok; vm_cast_no_check (eq_refl true)|vm_cast_no_check (eq_refl (Some (ps3 acosF expF atan2F, ix)))]|].
  split; [apply divide_mod; reflexivity|]. split; [reflexivity|]. split; [apply degb_spec; reflexivity|]. split; [|split; reflexivity].
  intros u [<-|[<-|[]]]; apply degb_false; reflexivity.
Qed.
Lemma ex_some_left : exists (ps : list (vec NF)) ix us l p t post, Welded ps ix us l /\ Nat.divide 3 (length ix) /\ triples l = p ++ t :: post /\ degenerate t /\
  length (filter degb p) = 2 /\ length post = 1.
Proof.
  set (ix := [0;1;1; 0;0;1; 0;1;2; 2;2;1; 0;1;2]). exists (ps3 acosF expF atan2F), ix, (ps3 acosF expF atan2F), ix, [(0,1,1); (0,0,1); (0,1,2)], (2,2,1), [(0,1,2)].
  split; [apply weld_Welded; [apply nonanb_ok; vm_cast_no_check (eq_refl true)|vm_cast_no_check (eq_refl (Some (ps3 acosF expF atan2F, ix)))]|].
  split; [apply divide_mod; reflexivity|]. split; [reflexivity|]. split; [apply degb_spec; reflexivity|]. split; reflexivity.
Qed.
End Ex.
