(** Order of triangles: a case, and repeated edges. *)
From Coq Require Import List ZArith Arith Lia Bool Permutation Floats.
From Verif Require Import Num NumInst Vec Heap Mesh Construct Spec BuildSpec BuildTri BuildTop Weld Built BuildProps Witness Refute Examples OrderSpec.
Import ListNotations.

Section E.
Variables (acosF expF : float -> float) (atan2F : float -> float -> float).
Notation NF := (NumF acosF expF atan2F).
Notation p := (pt acosF expF atan2F).
Notation sq := (ps_square acosF expF atan2F).

(** A square made of two triangles, and the same with its points listed backwards,
    one of them twice, and its triangles exchanged and begun elsewhere. *)
Definition sq_back : list (vec NF) := [p 0 1 0; p 1 1 0; p 1 0 0; p 0 0 0; p 0 0 0]%float.
Lemma ex_order : exists (ps qs : list (vec NF)) ix jx us vs l k m, Welded ps ix us l /\ Welded qs jx vs k /\ Nat.divide 3 (length ix) /\ Nat.divide 3 (length jx) /\
  SameTriangles ps (triples ix) qs (triples jx) /\ (forall t, In t (triples l) -> ~ degenerate t) /\ NoDup (edges (triples l)) /\
  mesh_of ps ix = Ok m /\ length (m_faces m) = 3 /\ length (triples ix) = 2 /\ length ps = 4 /\ length qs = 5.
Proof.
  set (ix := [0;1;2; 0;2;3]). set (jx := [1;0;3; 2;1;4]). set (vs := [p 1 1 0; p 0 1 0; p 0 0 0; p 1 0 0]%float : list (vec NF)). set (k := [0;1;2; 3;0;2]).
  assert (C : with_mesh acosF expF atan2F (mesh_of sq ix) (fun m => Nat.eqb (length (m_faces m)) 3) = true) by vm_cast_no_check (eq_refl true).
  apply with_ok in C. destruct C as (m & E & C). exists sq, sq_back, ix, jx, sq, vs, ix, k, m.
  split; [apply weld_Welded; [apply nonanb_ok; vm_cast_no_check (eq_refl true)|vm_cast_no_check (eq_refl (Some (sq, ix)))]|].
  split; [apply weld_Welded; [apply nonanb_ok; vm_cast_no_check (eq_refl true)|vm_cast_no_check (eq_refl (Some (vs, k)))]|].
  split; [apply divide_mod; reflexivity|]. split; [apply divide_mod; reflexivity|]. split; [|split; [apply nodegb_ok; reflexivity|split; [apply nodupb_ok; reflexivity|]]].
  - exists [(0,2,3); (0,1,2)]. split; [apply perm_swap|]. constructor; [|constructor; [|constructor]].
    + exists 2, 3, 0, 1, 0, 3. split; [cbn; auto|]. split; [reflexivity|]. repeat split; eexists; eexists; (split; [reflexivity|]); (split; [reflexivity|]); vm_cast_no_check (eq_refl true).
    + exists 1, 2, 0, 2, 1, 4. split; [cbn; auto|]. split; [reflexivity|]. repeat split; eexists; eexists; (split; [reflexivity|]); (split; [reflexivity|]); vm_cast_no_check (eq_refl true).
  - split; [exact E|]. apply Nat.eqb_eq in C. auto.
Qed.

(** With a repeated edge the order decides whether the square is built or a null pointer is followed. *)
Lemma order_refuted : exists (ps : list (vec NF)) ix jx m, NoNaN ps ix /\ (forall i, In i ix -> i < length ps) /\ PosDistinct ps /\ (forall t, In t (triples ix) -> ~ degenerate t) /\
  Permutation (triples ix) (triples jx) /\ Nat.divide 3 (length ix) /\ Nat.divide 3 (length jx) /\ mesh_of ps ix = Ok m /\ mesh_of ps jx = UB NullDeref.
Proof.
  set (ix := [0;1;2; 0;2;3; 0;1;3]). set (jx := [0;1;3; 0;1;2; 0;2;3]).
  assert (C : with_mesh acosF expF atan2F (mesh_of sq ix) (fun m => Nat.eqb (length (m_faces m)) 3) = true) by vm_cast_no_check (eq_refl true).
  assert (C2 : is_ub NullDeref (mesh_of sq jx) = true) by vm_cast_no_check (eq_refl true).
  apply with_ok in C. destruct C as (m & E & C). exists sq, ix, jx, m. split; [apply nonanb_ok; vm_cast_no_check (eq_refl true)|].
  split; [intros i I; cbn in I; cbn; lia|]. split.
  { intros i j a b A B. unfold ps_square in A, B. destruct i as [|[|[|[|i]]]]; destruct j as [|[|[|[|j]]]]; cbn [nth_error] in A, B; try (destruct i; discriminate A); try (destruct j; discriminate B); try reflexivity; injection A as <-; injection B as <-; intros X; exfalso; vm_compute in X; discriminate. }
  split; [apply nodegb_ok; reflexivity|]. split; [|split; [apply divide_mod; reflexivity|split; [apply divide_mod; reflexivity|split; [exact E|exact (is_ub_ok _ _ C2)]]]].
  exact (Permutation_sym (Permutation_cons_append [(0,1,2); (0,2,3)] (0,1,3))).
Qed.
End E.
