(** The Hausdorff distance of the unit square to itself is 1. *)
From Coq Require Import List ZArith Floats Bool Arith Permutation.
From Verif Require Import Num Vec Heap Mesh Construct Spec Witness Bounds Bvh BvhSpec.
Import ListNotations.

Section W.
Variables (acosF expF : float -> float) (atan2F : float -> float -> float).
Notation NF := (Witness.NF acosF expF atan2F).
Variables (trunc : float -> Z) (alg : algos).
Hypothesis AL : algos_ok alg.

Lemma two_perm {A} (l : list A) x y : Permutation [x; y] l -> l = [x; y] \/ l = [y; x].
Proof. intros P. destruct (Permutation_length_2_inv P) as [-> | ->]; auto. Qed.

(** The only thing left open by the standard algorithms for two triangles is their order. *)
Definition build2 (sw : bool) (p q : prim NF) : option (res (option (node NF))) :=
  match box_maxExtent (centroids_of [p; q]) with
  | Some ax => Some (Ok (Some (if sw then Fork (boxes_of [p; q]) (Some (Leaf (boxes_of [q]) (pr_idx q))) (Some (Leaf (boxes_of [p]) (pr_idx p))) ax
                               else Fork (boxes_of [p; q]) (Some (Leaf (boxes_of [p]) (pr_idx p))) (Some (Leaf (boxes_of [q]) (pr_idx q))) ax)))
  | None => None
  end.
Lemma build2_ok p q : build2 true p q <> None -> exists sw b, build_rec (N := NF) trunc alg 2 [p; q] = Ok b /\ build2 sw p q = Some (Ok b).
Proof.
  intros H. unfold build2 in *. cbn [build_rec]. unfold split_range. destruct (box_maxExtent (centroids_of [p; q])) as [ax|]; [|congruence]. cbn [length Nat.leb Nat.div Nat.divmod fst].
  destruct (two_perm _ p q (nth_perm alg AL _ (fun a b => nltb (vget (pr_cen a) ax) (vget (pr_cen b) ax)) 1 [p; q])) as [E | E]; rewrite E; [exists false|exists true]; eexists; split; reflexivity.
Qed.
(** The rest is computation. *)
Definition self_distance (r : res (mesh NF)) (sw : bool) : option (res num) :=
  match r with
  | Ok m =>
      match getVertices m, getVertexIndices m with
      | Ok (ps, _), Ok (ix, _) =>
          match read_tris ps (map Z.to_nat ix) with
          | Ok [t0; t1] =>
              match build2 sw (prim_of 0 (tri_bounds t0)) (prim_of 1 (tri_bounds t1)) with
              | Some (Ok b) =>
                  Some (match distances (mkBvh b [t0; t1]) ps with
                        | Ok d => match max_coeff d with Ok a => Ok (nmax a a) | e => e end
                        | UB u => UB u | Abort u => Abort u | NoFuel => NoFuel end)
              | _ => None
              end
          | _ => None
          end
      | _, _ => None
      end
  | _ => None
  end.
Lemma self_distance_ok m : self_distance (Ok m) true <> None -> exists sw, Some (@hausdorff NF trunc alg m m) = self_distance (Ok m) sw.
Proof.
  intros H. unfold self_distance in *. unfold hausdorff, shortest_distances, bvh_of_mesh. destruct (getVertices m) as [[ps ?]| | |]; try congruence. destruct (getVertexIndices m) as [[ix ?]| | |]; try congruence.
  unfold bvh_construct. destruct (read_tris ps (map Z.to_nat ix)) as [[|t0 [|t1 [|]]]| | |]; try congruence. unfold bvh_of_tris. cbn [length prims_from].
  destruct (build2 true (prim_of 0 (tri_bounds t0)) (prim_of 1 (tri_bounds t1))) as [r|] eqn:E; [|congruence].
  destruct (build2_ok (prim_of 0 (tri_bounds t0)) (prim_of 1 (tri_bounds t1))) as (sw & b & Q & Q'); [congruence|]. exists sw. rewrite Q'. cbn [num Witness.NF NumF] in *. rewrite Q.
  destruct (distances _ ps) as [d| | |]; try reflexivity. destruct (max_coeff d); reflexivity.
Qed.
Definition is_one (o : option (res num)) : bool := match o with Some (Ok x) => nltb nzero x && @neqb NF x none_ | _ => false end.
Lemma square_self : forallb (fun sw => is_one (self_distance (mesh_of (ps_square acosF expF atan2F) [0;1;2; 0;2;3]) sw)) [true; false] = true.
Proof. vm_cast_no_check (eq_refl true). Qed.
Theorem hausdorff_self_refuted : exists (m : mesh NF) d, mesh_of (ps_square acosF expF atan2F) [0;1;2; 0;2;3] = Ok m /\ @hausdorff NF trunc alg m m = Ok d /\ nltb nzero d = true.
Proof.
  assert (S := square_self). cbn [forallb] in S. apply andb_true_iff in S as [St S]. apply andb_true_iff in S as [Sf _].
  destruct (mesh_of (ps_square acosF expF atan2F) [0;1;2; 0;2;3]) as [m| | |]; try discriminate St.
  destruct (self_distance_ok m) as (sw & E); [intros X; rewrite X in St; discriminate St|].
  assert (O : is_one (self_distance (Ok m) sw) = true) by (destruct sw; assumption). rewrite <- E in O. cbn [is_one] in O.
  destruct (@hausdorff NF trunc alg m m) as [d| | |] eqn:Eh; try discriminate O. exists m, d. apply andb_true_iff in O as [O _]. split; [reflexivity|]. split; [exact Eh|exact O].
Qed.
End W.
