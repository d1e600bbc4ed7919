(** Saving and loading: proofs. *)
From Coq Require Import List ZArith Arith Lia Bool Permutation.
From Verif Require Import Num Vec Heap Mesh Construct Spec BuildSpec Orbit Rings Exec Split Queries BuildTri BuildTop Weld Built Clone BuildProps Io IoSpec.
Import ListNotations.
Local Open Scope mesh_scope.

Section IoP.
Context {N : Num}.
Variable C : codec N.
Implicit Types m : mesh N.

(** ** Writing *)
Lemma mmap_pos {X} (g : nat -> M N X) (k : vec N -> X) m l :
  (forall v, In v l -> g v m = Ok (k (v_pos m v), m)) -> mmap g l m = Ok (map k (map (v_pos m) l), m).
Proof.
  induction l as [|v l IH]; intros H; [reflexivity|]. cbn [mmap map].
  rewrite (bind_ok _ _ _ _ _ (H v (or_introl eq_refl))). rewrite (bind_ok _ _ _ _ _ (IH (fun u Hu => H u (or_intror Hu)))). reflexivity.
Qed.

Definition vline (p : vec N) : obj_line C := LV (c_print C (vx p)) (c_print C (vy p)) (c_print C (vz p)).
Fixpoint flines (l : list nat) : list (obj_line C) :=
  match l with
  | a :: b :: c :: l' => LF (Z.of_nat a + 1) (Z.of_nat b + 1) (Z.of_nat c + 1) :: flines l'
  | _ => []
  end.

Lemma obj_vertices_ok m : WF m -> mmap (obj_vertex C) (m_verts m) m = Ok (map vline (positions m), m).
Proof.
  intros W. apply mmap_pos. intros v Iv. unfold obj_vertex. assert (R := r_pos m v (v_alive m W v Iv)).
  rewrite !(bind_ok _ _ _ _ _ R). reflexivity.
Qed.
Lemma ply_vertices_ok m : WF m -> mmap (ply_vertex C) (m_verts m) m = Ok (map (through3 C EPly) (positions m), m).
Proof.
  intros W. apply mmap_pos. intros v Iv. unfold ply_vertex. rewrite (bind_ok _ _ _ _ _ (r_pos m v (v_alive m W v Iv))). reflexivity.
Qed.

Section Faces.
Variables (m : mesh N) (A : list tri).
Hypothesis B : Built m A.
Notation W := (valid_wf m (so_valid m A (bu_surf m A B))).

Lemma faces_same fs : forall T rest k, Forall2 (face_is m) fs T -> (forall f, In f fs -> In f (m_faces m)) -> (forall t, In t T -> In t A) ->
  (forall t, In t T -> in_range (length (m_verts m)) t) ->
  vertex_indices rest m = Ok (map Z.of_nat k, m) ->
  obj_faces C (Z.of_nat (length (m_verts m))) rest m = Ok (flines k, m) -> ply_faces rest m = Ok (k, m) ->
  exists l, vertex_indices (fs ++ rest) m = Ok (map Z.of_nat l, m) /\
    obj_faces C (Z.of_nat (length (m_verts m))) (fs ++ rest) m = Ok (flines l, m) /\ ply_faces (fs ++ rest) m = Ok (l, m).
Proof.
  induction fs as [|f fs IH]; intros T rest k F Hf Ht Hr E Eo Ep; inversion F as [|? t ? T' Kf F' E1 E2]; subst.
  - exists k. auto.
  - destruct (IH T' rest k F' (fun g Hg => Hf g (or_intror Hg)) (fun u Hu => Ht u (or_intror Hu)) (fun u Hu => Hr u (or_intror Hu)) E Eo Ep) as (l & El & Eol & Epl).
    assert (HF := hole_flag m A B f t (Ht t (or_introl eq_refl)) Kf (Hf f (or_introl eq_refl))).
    cbn [app vertex_indices obj_faces ply_faces]. rewrite !(bind_ok _ _ _ _ _ HF).
    destruct (isolatedb A t).
    + exists l. auto.
    + destruct (read_face m A B f t Kf (Hf f (or_introl eq_refl))) as ([[i j] q] & Cy & R). exists (i :: j :: q :: l).
      assert (Rg : i < length (m_verts m) /\ j < length (m_verts m) /\ q < length (m_verts m)).
      { specialize (Hr t (or_introl eq_refl)). destruct t as [[a b] c]. cbn [in_range] in Hr. destruct Cy as [X|[X|X]]; injection X as -> -> ->; tauto. }
      split; [|split].
      * rewrite R, (bind_ok _ _ _ _ _ El). reflexivity.
      * rewrite R, (bind_ok _ _ _ _ _ Eol). rewrite !(proj2 (Z.ltb_lt _ _)) by (clear - Rg; lia). reflexivity.
      * destruct (wf_fhe m W f (Hf f (or_introl eq_refl))) as (h & Eh & _). rewrite (bind_ok _ _ _ _ _ (r_fhe m f (f_alive m W f (Hf f (or_introl eq_refl))))), Eh.
        rewrite R, (bind_ok _ _ _ _ _ Epl), !Nat2Z.id. reflexivity.
Qed.
Lemma faces_holes fs nv : (forall f, In f fs -> In f (m_faces m)) -> (forall f h, In f fs -> In h (m_hes m) -> h_face m h = Some f -> h_bd m h = true) ->
  vertex_indices fs m = Ok ([], m) /\ obj_faces C nv fs m = Ok ([], m) /\ ply_faces fs m = Ok ([], m).
Proof.
  induction fs as [|f fs IH]; intros Hf Hb; [auto|]. cbn [vertex_indices obj_faces ply_faces].
  destruct (circulate_face m f W (Hf f (or_introl eq_refl))) as (l & _ & Hl & _ & _ & _ & _ & _ & E & _).
  assert (X : forallb (h_bd m) l = true). { apply forallb_forall. intros h Hh. apply Hl in Hh as [Ih Fh]. exact (Hb f h (or_introl eq_refl) Ih Fh). }
  rewrite X in E. rewrite !(bind_ok _ _ _ _ _ E). apply IH; [intros g Hg; apply Hf; right; exact Hg|intros g h Hg; apply Hb; right; exact Hg].
Qed.

Theorem saved : exists l, getVertexIndices m = Ok (map Z.of_nat l, m) /\
  save C EObj m = Ok (FObj (map vline (positions m) ++ flines l), m) /\
  save C EPly m = Ok (FPly (map (through3 C EPly) (positions m)) l, m).
Proof.
  destruct (so_tris m A (bu_surf m A B)) as (holes & Ef & F2 & Hh). unfold getVertexIndices. rewrite bind_get.
  destruct (faces_holes holes (Z.of_nat (length (m_verts m)))) as (H1 & H2 & H3).
  { intros f Hf. rewrite Ef. apply in_or_app. right; exact Hf. }
  { intros f h If Ih Fh. apply (Hh f h If Ih Fh). }
  destruct (faces_same (firstn (length A) (m_faces m)) A holes [] F2) as (l & E1 & E2 & E3); [|auto| |assumption|assumption|assumption|].
  { intros f Hf. rewrite Ef. apply in_or_app. left; exact Hf. }
  { intros t It. apply (bu_ok m A B t It). }
  rewrite <- Ef in E1, E2, E3. exists l. split; [exact E1|]. split; cbn [save]; unfold saveOBJ, savePLY; rewrite bind_get.
  - rewrite (bind_ok _ _ _ _ _ (obj_vertices_ok m W)), bind_get, (bind_ok _ _ _ _ _ E2). reflexivity.
  - rewrite (bind_ok _ _ _ _ _ (ply_vertices_ok m W)), bind_get, (bind_ok _ _ _ _ _ E3). reflexivity.
Qed.
End Faces.

(** ** Reading *)
Lemma obj_index_nat nv i j : obj_index nv i = Some j -> exists k, j = Z.of_nat k.
Proof.
  unfold obj_index. intros H. exists (Z.to_nat j). symmetry. apply Z2Nat.id.
  destruct (0 <? i)%Z eqn:E1; [injection H as <-; apply Z.ltb_lt in E1; lia|]. destruct (i =? 0)%Z; [discriminate|]. cbv zeta in H.
  destruct (Z.of_nat nv + i <? 0)%Z eqn:E2; [discriminate|]. injection H as <-. apply Z.ltb_ge in E2. exact E2.
Qed.
Lemma obj_parse_nat (ls : list (obj_line C)) : forall vs ix vs' ix', obj_parse ls vs (map Z.of_nat ix) = Some (vs', ix') -> Nat.divide 3 (length ix) ->
  exists l, ix' = map Z.of_nat l /\ Nat.divide 3 (length l).
Proof.
  induction ls as [|[x y z|i j k] ls IH]; intros vs ix vs' ix'; cbn [obj_parse].
  - intros [= _ <-] D. exists ix. auto.
  - intros H D. exact (IH _ _ _ _ H D).
  - destruct (obj_index (length vs) i) as [i'|] eqn:Ei; [|discriminate]. destruct (obj_index (length vs) j) as [j'|] eqn:Ej; [|discriminate].
    destruct (obj_index (length vs) k) as [k'|] eqn:Ek; [|discriminate].
    destruct (obj_index_nat _ _ _ Ei) as (a & ->). destruct (obj_index_nat _ _ _ Ej) as (b & ->). destruct (obj_index_nat _ _ _ Ek) as (c & ->).
    change [Z.of_nat a; Z.of_nat b; Z.of_nat c] with (map Z.of_nat [a; b; c]). rewrite <- map_app. intros H D. apply (IH _ _ _ _ H).
    rewrite app_length. destruct D as [d Hd]. exists (S d). cbn [length]. lia.
Qed.

Lemma bind_ext_ok {X Y} (e : M N X) (f g : X -> M N Y) m : (forall x m', f x m' = g x m') -> bind e f m = bind e g m.
Proof. intros H. unfold bind. destruct (e m) as [[x m']| | |]; auto. Qed.
Lemma obj_loop_dedup vs : forall l um m, obj_loop vs (map Z.of_nat l) um m = dedup_loop vs l um m.
Proof.
  induction l as [|i l IH]; intros um m; [reflexivity|]. cbn [map obj_loop dedup_loop].
  unfold obj_corner. rewrite (proj2 (Z.leb_le 0 (Z.of_nat i)) (Nat2Z.is_nonneg i)), Nat2Z.id.
  destruct (nth_error vs i) as [p|]; [|reflexivity]. change (bind (ret p) ?f m) with (f p m). cbv beta.
  apply bind_ext_ok. intros um1 m1. destruct (um_find um1 p) as [k|]; apply bind_ext_ok; intros; apply IH.
Qed.

Definition cleared_indices m : mesh N := set_m_indices [] m.
Lemma load_obj_construct ls vs l m : obj_parse (C := C) ls [] [] = Some (vs, map Z.of_nat l) -> Nat.divide 3 (length l) ->
  load (FObj ls) m = construct vs l (cleared_indices m).
Proof.
  intros E D. unfold load, construct. rewrite !bind_modify. unfold loadOBJ. rewrite E.
  change (clear_elems (cleared_indices m)) with (set_m_indices [] (clear_elems m)).
  assert (DW := dedup_weld vs l [] [] (set_m_indices [] (clear_elems m)) (cleared (cleared_indices m))).
  assert (Z : (modify (set_m_indices []) ;; obj_loop vs (map Z.of_nat l) [] ;; l0 <- get m_indices ;; assertion (length l0 mod 3 =? 0)) (clear_elems m) =
    dedup_loop vs l [] (set_m_indices [] (clear_elems m))).
  { rewrite bind_modify. unfold bind at 1. rewrite obj_loop_dedup. destruct (weld vs l [] []) as [[us ix]|] eqn:Wd.
    - destruct DW as (m1 & E1 & _ & I). rewrite E1. rewrite bind_get, I. change (m_indices (set_m_indices [] (clear_elems m))) with (@nil nat). cbn [app].
      destruct (weld_range vs l [] [] us ix (fun q k (X : In (q, k) []) => match X with end) Wd) as (Ll & _). rewrite Ll.
      destruct D as [d ->]. rewrite Nat.mod_mul by discriminate. reflexivity.
    - rewrite DW. reflexivity. }
  unfold bind at 1. rewrite Z. reflexivity.
Qed.

Lemma parse_saved : forall ps l vs ix, Nat.divide 3 (length l) -> obj_parse (map vline ps ++ flines l) vs ix = Some (vs ++ map (through3 C EObj) ps, ix ++ map Z.of_nat l).
Proof.
  induction ps as [|p ps IH]; intros l vs ix D; cbn [map app].
  - rewrite app_nil_r. remember (length l) as n eqn:Hn. revert l Hn ix D. induction n as [n IHn] using lt_wf_ind. intros l Hn ix D.
    destruct l as [|a [|b [|c l]]]; cbn [flines obj_parse map].
    + rewrite app_nil_r. reflexivity.
    + exfalso. destruct D as [d Hd]. cbn [length] in Hn. lia.
    + exfalso. destruct D as [d Hd]. cbn [length] in Hn. lia.
    + assert (O : forall x, obj_index (length vs) (Z.of_nat x + 1) = Some (Z.of_nat x)).
      { intros x. unfold obj_index. rewrite (proj2 (Z.ltb_lt 0 (Z.of_nat x + 1))) by lia. f_equal. lia. }
      rewrite !O. cbn [length] in Hn. rewrite (IHn (length l)); [|lia|reflexivity|].
      * rewrite <- app_assoc. reflexivity.
      * destruct D as [d Hd]. exists (d - 1). lia.
  - cbn [obj_parse]. unfold vline at 1. rewrite (IH l _ _ D), <- app_assoc. reflexivity.
Qed.

(** Loading an OBJ file gives the same mesh whatever the object held before. *)
Theorem load_obj_replaces (ls : list (obj_line C)) m :
  (exists m1 m2 A, mesh_from (FObj ls) = Ok m1 /\ load (FObj ls) m = Ok (tt, m2) /\ SurfaceOf m1 A /\ SurfaceOf m2 A /\ positions m1 = positions m2) \/
  (mesh_from (FObj ls) = Abort AError /\ load (FObj ls) m = Abort AError) \/
  (mesh_from (FObj ls) = UB NullDeref /\ load (FObj ls) m = UB NullDeref) \/
  (mesh_from (FObj ls) = UB OutOfBounds /\ load (FObj ls) m = UB OutOfBounds).
Proof.
  destruct (obj_parse ls [] []) as [[vs ix]|] eqn:E.
  - destruct (obj_parse_nat ls [] [] vs ix E (ex_intro _ 0 eq_refl)) as (l & -> & D).
    unfold mesh_from. rewrite !(load_obj_construct ls vs l _ E D). exact (replace_when_empty vs l (cleared_indices m) D eq_refl).
  - right; left. unfold mesh_from, load. rewrite !bind_modify. unfold loadOBJ. rewrite E. split; reflexivity.
Qed.

Context {NE : NumEq N}.
Lemma nth_map_inv {X Y} (f : X -> Y) l i y : nth_error (map f l) i = Some y -> exists x, nth_error l i = Some x /\ y = f x.
Proof. revert i. induction l as [|a l IH]; intros [|i]; cbn; try discriminate; [intros [= <-]; eauto|apply IH]. Qed.

Theorem save_load m A e m0 : Built m A -> e <> EOther -> (e = EObj \/ m_indices m0 = []) -> KeptApart C e (positions m) -> (forall t, In t A -> ~ isolated A t) ->
  exists f m' A', save C e m = Ok (f, m) /\ load f m0 = Ok (tt, m') /\ Built m' A' /\
    Forall2 (fun t t' => exists t1, cyc_eq t t1 /\ corners m' t' = corners_of (map (through3 C e) (positions m)) t1) A A' /\
    Permutation (positions m') (map (through3 C e) (positions m)).
Proof.
  intros B Ee H0 [Ap Nn] NI. set (m1 := match e with EObj => cleared_indices m0 | _ => m0 end).
  assert (M1 : m_indices m1 = []) by (unfold m1; destruct e; [reflexivity| |congruence]; destruct H0 as [H0|H0]; [discriminate|exact H0]).
  destruct (rebuild_ok m A (through3 C e) m1 B M1) as (ix & m' & A' & Ei & D & _ & Ec & B' & F & P).
  { intros i j p q Hp Hq V. apply nth_map_inv in Hp as (p' & Hp & ->). apply nth_map_inv in Hq as (q' & Hq & ->). exact (Ap i j p' q' Hp Hq V). }
  { intros p Hp. apply in_map_iff in Hp as (q & <- & Iq). exact (Nn q Iq). }
  { exact NI. }
  destruct (saved m A B) as (l & El & So & Sp). rewrite Ei in El. injection El as El.
  assert (l = ix). { apply (f_equal (map Z.to_nat)) in El. rewrite !map_map, !(map_ext _ (fun x => x) Nat2Z.id), !map_id in El. symmetry; exact El. }
  subst l. destruct e; [| |congruence].
  - exists (FObj (map vline (positions m) ++ flines ix)), m', A'. split; [exact So|]. split; [|auto].
    rewrite (load_obj_construct _ (map (through3 C EObj) (positions m)) ix m0); [exact Ec|apply parse_saved; exact D|exact D].
  - exists (FPly (map (through3 C EPly) (positions m)) ix), m', A'. split; [exact Sp|]. split; [exact Ec|auto].
Qed.
End IoP.
