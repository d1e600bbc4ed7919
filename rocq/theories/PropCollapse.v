(** When a collapse succeeds (C56) and whether it turns triangles over (C55).
    Vocabulary: Spec.v, EditSpec.v, CollapseSpec.v; the code: Mesh.v. *)
From Coq Require Import Reals List ZArith Floats Arith.
From Verif Require Import Num NumInst Vec Heap Mesh Construct Spec EditSpec CollapseSpec Orbit Rings CollapseIff CollapseFlip CollapseFlipW.
Import ListNotations.
Notation libm1 := (float -> float).
Notation libm2 := (float -> float -> float).

(** ** C56: collapseHE succeeds exactly if the edge is collapsible. *)
Theorem C56_collapse_iff : forall (N : Num) (m : mesh N), Valid m -> forall he, In he (m_hes m) ->
  collapseHE (Some he) m = Ok (false, m) /\ (forall u0 u1 u2 u3 f0 f1, ~ CollapsibleAt m he u0 u1 u2 u3 f0 f1) \/
  exists u0 u1 u2 u3 f0 f1, CollapsibleAt m he u0 u1 u2 u3 f0 f1 /\
    (collapseHE (Some he) m = Abort AAssert /\ ~ PosOk m \/
     exists m', collapseHE (Some he) m = Ok (true, m') /\ Valid m' /\ CollapseEffect m m' he u0 u1 u2 u3 f0 f1).
Proof. exact @collapse_iff. Qed.
Print Assumptions C56_collapse_iff.
(** On this half-edge it succeeds. *)
Example C56_case : forall (a e : libm1) (t : libm2), exists (m : mesh (NumF a e t)) u1 u3 f0 f1,
  Valid m /\ In 30 (m_hes m) /\ CollapsibleAt m 30 5 u1 0 u3 f0 f1.
Proof. intros a e t. destruct (hex_facts a e t) as (m & u1 & u3 & f0 & f1 & V & I & _ & _ & _ & C & _). exists m, u1, u3, f0, f1. auto. Qed.

(** ** C55: false in general.  The triangle f is turned over. *)
Theorem C55_turned_refuted : forall (a e : libm1) (t : libm2), exists ps ix (m : mesh (NumF a e t)) he m' f x y z x' y' z',
  mesh_of ps ix = Ok m /\ Valid m /\ In he (m_hes m) /\ collapseHE (Some he) m = Ok (true, m') /\
  Spec.Tri m f x y z /\ Spec.Tri m' f x' y' z' /\
  nltb (dot (cross (vsub (v_pos m y) (v_pos m x)) (vsub (v_pos m z) (v_pos m x)))
            (cross (vsub (v_pos m' y') (v_pos m' x')) (vsub (v_pos m' z') (v_pos m' x')))) nzero = true.
Proof. exact turned_refuted. Qed.
Print Assumptions C55_turned_refuted.
(** Over the real numbers, and if the half-edge stored at the removed vertex u2 leads to the remaining
    vertex u0 and no triangle becomes perpendicular to the plane of the former ring: seen from the normal d of that
    plane every triangle that has been attached to u0 has the positive orientation. *)
Theorem C55_turned_partial : forall (m m' : mesh NumR), Valid m -> forall he, In he (m_hes m) -> collapseHE (Some he) m = Ok (true, m') ->
  exists u0 u1 u2 u3 f0 f1 ws d, CollapseEffect m m' he u0 u1 u2 u3 f0 f1 /\
    Around m u2 ws /\ normalize (fold_left vadd (wedges (v_pos m u2) (map (v_pos m) ws)) vzero) = Some d /\
    ((exists h, v_he m u2 = Some h /\ dst_of m h = Some u0) ->
     (forall h k a b, In h (m_hes m) -> h_src m h = Some u2 -> rot m h = Some k -> dst_of m h = Some a -> dst_of m k = Some b -> a <> u0 -> b <> u0 ->
        dot d (cross (vsub (v_pos m a) (v_pos m u0)) (vsub (v_pos m b) (v_pos m u0))) <> 0%R) ->
     forall f a b, Spec.Tri m f u2 b a -> f <> f0 -> f <> f1 ->
       Spec.Tri m' f u0 b a /\ (0 < dot d (cross (vsub (v_pos m' a) (v_pos m' u0)) (vsub (v_pos m' b) (v_pos m' u0))))%R).
Proof. exact collapse_turns. Qed.
Print Assumptions C55_turned_partial.
Example C55_case : exists (m m' : mesh NumR) he u0 u1 u2 u3 f0 f1 ws d, Valid m /\ In he (m_hes m) /\ collapseHE (Some he) m = Ok (true, m') /\ CollapseEffect m m' he u0 u1 u2 u3 f0 f1 /\
  Around m u2 ws /\ normalize (fold_left vadd (wedges (v_pos m u2) (map (v_pos m) ws)) vzero) = Some d /\
  (exists h, v_he m u2 = Some h /\ dst_of m h = Some u0) /\
  (forall h k a b, In h (m_hes m) -> h_src m h = Some u2 -> rot m h = Some k -> dst_of m h = Some a -> dst_of m k = Some b -> a <> u0 -> b <> u0 ->
     dot d (cross (vsub (v_pos m a) (v_pos m u0)) (vsub (v_pos m b) (v_pos m u0))) <> 0%R) /\
  exists f a b, Spec.Tri m f u2 b a /\ f <> f0 /\ f <> f1.
Proof. exact hex_turns. Qed.
