(** The functions of Mesh.v on moved meshes. *)
From Coq Require Import Reals List ZArith Arith Bool Lra Lia FunctionalExtensionality.
From Verif Require Import Num NumInst Vec Heap Mesh WholeSpec RigidSpec RigidM.
Import ListNotations.
Local Open Scope mesh_scope.

Section Rigid.
Variables (Q : vecR -> vecR) (t : vecR).
Hypothesis HQ : Rotation Q.
Notation T := (motion Q t).
Notation MV := (move Q t).
Notation mv := (mv Q t).
Notation mvs x := (mv same x x).
Lemma mv_binds {A B} (g : B -> B) (x x' : M NumR A) k k' : mv same x x' -> (forall a, mv g (k a) (k' a)) -> mv g (bind x k) (bind x' k').
Proof. intros H K. eapply mv_bind; [exact H|exact K]. Qed.
Lemma mv_option {A B} (g : B -> B) (o : option A) (x x' : A -> M NumR B) y y' : (forall a, mv g (x a) (x' a)) -> mv g y y' -> mv g (match o with Some a => x a | None => y end) (match o with Some a => x' a | None => y' end).
Proof. intros H1 H2. destruct o; auto. Qed.
End Rigid.

Create HintDb mvh.
Global Hint Resolve mv_src mv_next mv_rev mv_face mv_hidx mv_bd mv_vhe mv_vidx mv_vlock mv_pos mv_fhe mv_fidx mv_w_src mv_w_next mv_w_rev mv_w_face mv_w_hidx mv_w_bd mv_w_vhe mv_w_vidx mv_w_lock mv_w_fhe mv_w_fidx mv_w_pos
  mv_new_he mv_new_face mv_new_vertex mv_at mv_ub mv_abort mv_nofuel mv_assertion mv_lifts mv_step_v mv_step_f : mvh.
(** Bring a rotation or motion to the outside. *)
Ltac rgx HQ := fail.
Ltac rg HQ := repeat first [rgx HQ | rewrite (t_sub _ _ HQ) | rewrite (q_sub _ HQ) | rewrite (q_cross _ HQ) | rewrite (q_dot _ HQ) | rewrite (q_length _ HQ) | rewrite (q_scale _ HQ) | rewrite (q_add _ HQ) | rewrite (q_neg _ HQ) | rewrite (t_add _ _ HQ) | rewrite (t_subq _ _ HQ)
  | rewrite (t_mid _ _ HQ) | rewrite (t_eqb _ _ HQ) | rewrite (q_normalize _ HQ) | rewrite (q_div _ HQ) | rewrite (t_dihedral _ _ HQ) | rewrite (t_angle _ _ HQ) | rewrite (t_obtuse _ _ HQ) | rewrite (t_cot _ _ HQ)].
Ltac mvo HQ := first [ solve [auto 2 with mvh nocore] | solve [rg HQ; apply mv_lift] | solve [apply mv_mmap; auto 2 with mvh nocore] ].
Ltac mvt HQ :=
  cbv zeta; first
  [ solve [auto 2 with mvh nocore]
  | match goal with
    | |- mv _ _ _ (bind _ _) (bind _ _) => first [ apply mv_binds; [solve [mvt HQ]|intros ?; mvt HQ] | eapply mv_bind; [solve [mvo HQ]|intros ?; cbv beta; mvt HQ] ]
    | |- mv _ _ _ (new_vertex _) _ => rg HQ; solve [auto 2 with mvh nocore]
    | |- mv _ _ _ (w_pos _ _) _ => rg HQ; solve [auto 2 with mvh nocore]
    | |- mv _ _ _ (get _) (get _) => apply (mv_get _ _ same); intros ?; reflexivity
    | |- mv _ _ _ (modify _) (modify _) => apply mv_modify; intros ?; reflexivity
    | |- mv _ _ _ (ret _) (ret _) => apply mv_ret; unfold same, on_fst; cbn [fst snd]; rg HQ; reflexivity
    | |- mv _ _ _ (if _ then _ else _) (if _ then _ else _) => apply mv_if; [rg HQ; reflexivity|mvt HQ|mvt HQ]
    | |- mv _ _ _ (circ_v _ _ _) (circ_v _ _ _) => apply mv_circ_vs; intros ? ?; mvt HQ
    | |- mv _ _ _ (circ_f _ _ _) (circ_f _ _ _) => apply mv_circ_fs; intros ? ?; mvt HQ
    | |- mv _ _ _ (mfold _ _ _) (mfold _ _ _) => apply mv_mfold_s; intros ? ?; mvt HQ
    | |- mv _ _ _ (mmap _ _) (mmap _ _) => apply mv_mmap_s; intros ?; mvt HQ
    | |- mv _ _ _ (mfor _ _) (mfor _ _) => apply mv_mfor_s; intros ?; mvt HQ
    | |- mv _ _ _ (match ?o with Some _ => _ | None => _ end) (match ?o with Some _ => _ | None => _ end) => apply mv_option; [intros ?; mvt HQ|mvt HQ]
    end
  | idtac ].

Section Mesh.
Variables (Q : vecR -> vecR) (t : vecR).
Hypothesis HQ : Rotation Q.
Notation T := (motion Q t).
Notation MV := (move Q t).
Notation mv := (mv Q t).
Notation mvs x := (mv same x x).
Ltac go := mvt HQ.
Lemma mv_dst p : mvs (he_dst p). Proof. unfold he_dst. go. Qed.
Hint Resolve mv_dst : mvh.
Lemma mv_mesh_vertex i : mvs (mesh_vertex i). Proof. unfold mesh_vertex. go. Qed.
Lemma mv_mesh_halfedge i : mvs (mesh_halfedge i). Proof. unfold mesh_halfedge. go. Qed.
Lemma mv_mesh_face i : mvs (mesh_face i). Proof. unfold mesh_face. go. Qed.
Lemma mv_halfedges p : mvs (v_halfedges p). Proof. unfold v_halfedges. go. Qed.
Lemma mv_neighbors p : mvs (v_neighbors p). Proof. unfold v_neighbors. go. Qed.
Lemma mv_vfaces p : mvs (v_faces p). Proof. unfold v_faces. go. Qed.
Lemma mv_fhalfedges p : mvs (f_halfedges p). Proof. unfold f_halfedges. go. Qed.
Lemma mv_fvertices p : mvs (f_vertices p). Proof. unfold f_vertices. go. Qed.
Lemma mv_degree p : mvs (degree p). Proof. unfold degree. go. Qed.
Lemma mv_vbd p : mvs (v_isBoundary p). Proof. unfold v_isBoundary. go. Qed.
Lemma mv_corners p : mvs (numCorners p). Proof. unfold numCorners. go. Qed.
Lemma mv_hole p : mvs (f_isHole p). Proof. unfold f_isHole. go. Qed.
Lemma mv_fbd p : mvs (f_isBoundary p). Proof. unfold f_isBoundary. go. Qed.
Lemma mv_flock p : mvs (f_isLocked p). Proof. unfold f_isLocked. go. Qed.
Lemma mv_prev_loop fuel p : forall q, mvs (prev_loop fuel p q).
Proof. induction fuel as [|fuel IH]; intros q; cbn [prev_loop]; apply mv_binds; [apply mv_next|intros n; apply mv_if; [reflexivity|apply mv_ret; reflexivity|apply mv_nofuel]|apply mv_next|intros n; apply mv_if; [reflexivity|apply mv_ret; reflexivity|apply IH]]. Qed.
Hint Resolve mv_prev_loop : mvh.
Lemma mv_prev p : mvs (he_prev p). Proof. unfold he_prev. go. Qed.
Lemma mv_length p : mvs (he_length p). Proof. unfold he_length. go. Qed.
Lemma mv_cotWeight p : mvs (he_cotWeight p). Proof. unfold he_cotWeight. go. Qed.
Lemma mv_addVertex p : mvs (addVertex p). Proof. unfold addVertex. go. Qed.
Lemma mv_addHalfedge p : mvs (addHalfedge p). Proof. unfold addHalfedge. go. Qed.
Lemma mv_addFace p : mvs (addFace p). Proof. unfold addFace. go. Qed.
Lemma mv_veq p q : mvs (vertex_eqb p q). Proof. unfold vertex_eqb. go. Qed.
Lemma mv_heq p q : mvs (halfedge_eqb p q). Proof. unfold halfedge_eqb. go. Qed.
Lemma mv_feq p q : mvs (face_eqb p q). Proof. unfold face_eqb. go. Qed.
Lemma mv_free_v a : mvs (free_v a). Proof. unfold free_v. go. Qed.
Lemma mv_free_h a : mvs (free_h a). Proof. unfold free_h. go. Qed.
Lemma mv_free_f a : mvs (free_f a). Proof. unfold free_f. go. Qed.
Hint Resolve mv_mesh_vertex mv_mesh_halfedge mv_mesh_face mv_halfedges mv_neighbors mv_vfaces mv_fhalfedges mv_fvertices mv_degree mv_vbd mv_corners mv_hole mv_fbd mv_flock mv_prev mv_length mv_cotWeight mv_addVertex mv_addHalfedge mv_addFace mv_veq mv_heq mv_feq mv_free_v mv_free_h mv_free_f : mvh.
Lemma mv_removeVertex p : mvs (removeVertex p). Proof. unfold removeVertex. go. Qed.
Lemma mv_removeHalfedge p : mvs (removeHalfedge p). Proof. unfold removeHalfedge. go. Qed.
Lemma mv_removeFace p : mvs (removeFace p). Proof. unfold removeFace. go. Qed.
Hint Resolve mv_removeVertex mv_removeHalfedge mv_removeFace : mvh.
Lemma mv_split p : mvs (splitHE p). Proof. unfold splitHE. go. Qed.
Lemma mv_flip p : mvs (flipHE p). Proof. unfold flipHE. go. Qed.
Lemma ring_norm_move c ps : ring_norm (T c) (map T ps) = Q (ring_norm c ps).
Proof.
  unfold ring_norm. rewrite map_length. assert (K : forall (l : list nat) a, (forall i, In i l -> i < length ps) -> fold_left (fun acc i => vadd acc (cross (vsub (nth i (map T ps) vzero) (T c)) (vsub (nth (Nat.modulo (i + 1) (length ps)) (map T ps) vzero) (T c)))) l (Q a) =
    Q (fold_left (fun acc i => vadd acc (cross (vsub (nth i ps vzero) c) (vsub (nth (Nat.modulo (i + 1) (length ps)) ps vzero) c))) l a)).
  { induction l as [|i l IH]; intros a B; [reflexivity|]. cbn [fold_left]. assert (Li := B i (or_introl eq_refl)). assert (Lj : Nat.modulo (i + 1) (length ps) < length ps) by (apply Nat.mod_upper_bound; lia).
    rewrite (nth_indep (map T ps) vzero (T vzero) (n := i)) by (rewrite map_length; exact Li). rewrite (nth_indep (map T ps) vzero (T vzero) (n := Nat.modulo (i + 1) (length ps))) by (rewrite map_length; exact Lj).
    rewrite !map_nth. rg HQ. apply IH. intros j Ij. apply B. right. exact Ij. }
  rewrite <- (q_zero Q HQ) at 1. apply K. intros i Ii. apply in_seq in Ii. lia.
Qed.
Lemma ring_flips_move n c ps : forall is s, (forall i, In i is -> i < length ps) -> ring_flips (Q n) (T c) (map T ps) (length ps) is s = ring_flips n c ps (length ps) is s.
Proof.
  induction is as [|i l IH]; intros s B; [reflexivity|]. cbn [ring_flips]. assert (Li := B i (or_introl eq_refl)). assert (Lj : Nat.modulo (i + 1) (length ps) < length ps) by (apply Nat.mod_upper_bound; lia).
  rewrite (nth_indep (map T ps) vzero (T vzero) (n := i)) by (rewrite map_length; exact Li). rewrite (nth_indep (map T ps) vzero (T vzero) (n := Nat.modulo (i + 1) (length ps))) by (rewrite map_length; exact Lj).
  rewrite !map_nth. rg HQ. rewrite IH; [reflexivity|]. intros j Ij. apply B. right. exact Ij.
Qed.
Lemma flips_move n c ps : ring_flips (Q n) (T c) (map T ps) (length (map T ps)) (seq 0 (length (map T ps))) nzero = ring_flips n c ps (length ps) (seq 0 (length ps)) nzero.
Proof. rewrite map_length. apply ring_flips_move. intros i Ii. apply in_seq in Ii. lia. Qed.
Hint Resolve mv_split mv_flip : mvh.
Ltac rgx HQ ::= first [rewrite ring_norm_move | rewrite flips_move].
Lemma mv_collapse p : mvs (collapseHE p). Proof. unfold collapseHE. go. Qed.
Hint Resolve mv_collapse : mvh.
Lemma mv_collapseFace p : mvs (collapseFace p). Proof. unfold collapseFace. go. Qed.
Lemma mv_verifyVertex p : mvs (verifyVertex p). Proof. unfold verifyVertex. go. Qed.
Hint Resolve mv_collapseFace mv_verifyVertex : mvh.
Lemma mv_vvs : forall l i, mvs (verify_vertices i l). Proof. induction l as [|a l IH]; intros i; cbn [verify_vertices]; go. Qed.
Lemma mv_vhs : forall l i, mvs (@verify_halfedges NumR i l). Proof. induction l as [|a l IH]; intros i; cbn [verify_halfedges]; go. Qed.
Lemma mv_vfs : forall l i, mvs (@verify_faces NumR i l). Proof. induction l as [|a l IH]; intros i; cbn [verify_faces]; go. Qed.
Hint Resolve mv_vvs mv_vhs mv_vfs : mvh.
Lemma mv_verify : mvs verify. Proof. unfold verify. go. Qed.
Lemma mv_reps : forall l s, mvs (@edge_reps NumR l s). Proof. induction l as [|a l IH]; intros s; cbn [edge_reps]; go. Qed.
Hint Resolve mv_verify mv_reps : mvh.
Lemma mv_numEdges : mvs (@numEdges NumR). Proof. unfold numEdges. go. Qed.
Lemma mv_meanEdge : mvs (@getMeanEdgeLength NumR). Proof. unfold getMeanEdgeLength. go. Qed.
Lemma mv_getVertices : mv (map T) getVertices getVertices.
Proof. unfold getVertices. apply mv_binds; [go|intros l]. apply mv_mmap. intros a. apply mv_pos. Qed.
Lemma mv_vixs : forall l, mvs (@vertex_indices NumR l). Proof. induction l as [|a l IH]; cbn [vertex_indices]; go. Qed.
Hint Resolve mv_vixs : mvh.
Lemma mv_getVertexIndices : mvs (@getVertexIndices NumR). Proof. unfold getVertexIndices. go. Qed.
End Mesh.

Global Hint Resolve mv_dst mv_prev_loop mv_mesh_vertex mv_mesh_halfedge mv_mesh_face mv_halfedges mv_neighbors mv_vfaces mv_fhalfedges mv_fvertices mv_degree mv_vbd mv_corners mv_hole mv_fbd mv_flock mv_prev mv_length mv_cotWeight mv_addVertex mv_addHalfedge mv_addFace mv_veq mv_heq mv_feq mv_free_v mv_free_h mv_free_f
  mv_removeVertex mv_removeHalfedge mv_removeFace mv_split mv_flip mv_collapse mv_collapseFace mv_verifyVertex mv_vvs mv_vhs mv_vfs mv_verify mv_reps mv_numEdges mv_meanEdge mv_getVertices mv_vixs mv_getVertexIndices : mvh.
