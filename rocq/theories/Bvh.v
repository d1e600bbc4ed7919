(** src/tinymesh/core/bvh.h, bvh.cpp and src/tinymesh/ops/metrics.cpp. *)
From Coq Require Import Bool List ZArith Arith.
From Verif Require Import Num Vec VecN Heap Mesh Bounds.
Import ListNotations.

(** The two standard algorithms constructRec calls, as parameters: nth_element(first,
    first + k, last, comp) and partition(first, last, pred) on the sequence [first, last);
    the position partition returns is given by the length of the first list. *)
Record algos := mkAlgos {
  a_nth : forall A, (A -> A -> bool) -> nat -> list A -> list A;
  a_part : forall A, (A -> bool) -> list A -> list A * list A }.

Section Bvh.
Context {N : Num}.
(** static_cast<int> of a double. *)
Variable trunc : num -> Z.
Variable alg : algos.

(** bvh.h 18-31. *)
Record prim := mkPrim { pr_idx : nat; pr_cen : vec N; pr_box : box N }.
Definition prim_of (pid : nat) (b : box N) : prim := mkPrim pid (vscale nhalf (vadd (bmax b) (bmin b))) b.

(** bvh.h 33-57.  A leaf has primIdx >= 0, a fork -1. *)
Inductive node :=
| Leaf (b : box N) (pid : nat)
| Fork (b : box N) (l r : option node) (axis : nat).
Definition node_box (t : node) : box N := match t with Leaf b _ => b | Fork b _ _ _ => b end.

(** bvh.cpp 143-154: idenom and the bucket of a primitive. *)
Definition inv_extent (cb : box N) (ax : nat) : num :=
  ndiv none_ (nadd (nabs (nsub (vget (bmax cb) ax) (vget (bmin cb) ax))) neps12).
Definition bucket_of (cb : box N) (ax : nat) (p : prim) : Z :=
  let numer := nsub (vget (pr_cen p) ax) (vget (bmin cb) ax) in
  let b := trunc (nmul (nmul (nofZ 16) (nabs numer)) (inv_extent cb ax)) in
  if (b =? 16)%Z then 15%Z else b.
(** bvh.cpp 40-50: CompareToBucket::operator(). *)
Definition in_buckets (cb : box N) (ax : nat) (split : nat) (p : prim) : bool :=
  let diff := nabs (nsub (vget (pr_cen p) ax) (vget (bmin cb) ax)) in
  let b := trunc (nmul (nmul (nofZ 16) diff) (inv_extent cb ax)) in
  let b := if (16 <=? b)%Z then 15%Z else b in
  (b <=? Z.of_nat split)%Z.

(** bvh.cpp 10-17, 140-155: the 16 buckets. *)
Definition bucket := (nat * box N)%type.
Fixpoint fill_buckets (cb : box N) (ax : nat) (l : list prim) (bs : list bucket) : res (list bucket) :=
  match l with
  | [] => Ok bs
  | p :: l' =>
      let b := bucket_of cb ax p in
      match (if (b <? 0)%Z then None else nth_error bs (Z.to_nat b)) with
      | None => UB OutOfBounds
      | Some (cnt, bb) =>
          fill_buckets cb ax l' (arr_set bs (Z.to_nat b) (S cnt, box_merge bb (pr_box p)))
      end
  end.
(** bvh.cpp 161-168: total of some buckets. *)
Definition sum_buckets (bs : list bucket) : nat * box N :=
  fold_left (fun acc b => (fst acc + fst b, box_merge (snd acc) (snd b))) bs (0, box0).
(** bvh.cpp 158-170. *)
Definition bucket_cost (bs : list bucket) (area : num) (i : nat) : num :=
  let s0 := sum_buckets (firstn (S i) bs) in
  let s1 := sum_buckets (skipn (S i) bs) in
  nadd nzero (nadd neighth (ndiv (nadd (nmul (nofZ (Z.of_nat (fst s0))) (box_area (snd s0)))
                             (nmul (nofZ (Z.of_nat (fst s1))) (box_area (snd s1)))) area)).
(** bvh.cpp 172-179. *)
Definition min_cost (cost : nat -> num) : num * nat :=
  fold_left (fun acc i => if nltb (cost i) (fst acc) then (cost i, i) else acc) (seq 1 14) (cost 0, 0).

(** bvh.cpp 117-120 and 128-131. *)
Definition boxes_of (l : list prim) : box N := fold_left (fun b p => box_merge b (pr_box p)) l box0.
Definition centroids_of (l : list prim) : box N := fold_left (fun b p => box_add b (pr_cen p)) l box0.

(** bvh.cpp 133-186: the two parts the range is cut into.  If the box has no area every
    bucket cost is 0/0 = NaN in the C++, the comparison in line 181 fails and the middle
    is kept (with the range as it is); the model asks for this first, because
    dividing by zero has no such meaning in the real numbers. *)
Definition split_range (l : list prim) : res (nat * (list prim * list prim)) :=
  let n := length l in
  let cb := centroids_of l in
  match box_maxExtent cb with
  | None => Abort AAssert
  | Some ax =>
      let mid := Nat.div n 2 in
      let halves l := (firstn mid l, skipn mid l) in
      if n <=? 8 then
        Ok (ax, halves (a_nth alg _ (fun a b => nltb (vget (pr_cen a) ax) (vget (pr_cen b) ax)) mid l))
      else
        match fill_buckets cb ax l (repeat (0, box0) 16) with
        | Ok bs =>
            let area := box_area (boxes_of l) in
            if neqb area nzero then Ok (ax, halves l)
            else
              let '(c, i) := min_cost (bucket_cost bs area) in
              if nltb c (nofZ (Z.of_nat n)) then Ok (ax, a_part alg _ (in_buckets cb ax i) l)
              else Ok (ax, halves l)
        | UB u => UB u | Abort u => Abort u | NoFuel => NoFuel
        end
  end.

(** bvh.cpp 111-193.  The range [start, end) of buildData is passed as a list, which the
    two recursive calls own exclusively; (start + end) / 2 - start is (end - start) / 2. *)
Fixpoint build_rec (fuel : nat) (l : list prim) : res (option node) :=
  match l with
  | [] => Ok None
  | [p] => Ok (Some (Leaf (boxes_of l) (pr_idx p)))
  | _ =>
      match fuel with
      | O => NoFuel
      | S fuel' =>
          match split_range l with
          | Ok (ax, (l0, l1)) =>
              match build_rec fuel' l0 with
              | Ok lt_ =>
                  match build_rec fuel' l1 with
                  | Ok rt_ => Ok (Some (Fork (boxes_of l) lt_ rt_ ax))
                  | e => e
                  end
              | e => e
              end
          | UB u => UB u | Abort u => Abort u | NoFuel => NoFuel
          end
      end
  end.

(** bvh.cpp 61-71: the triangles. *)
Fixpoint read_tris (vertices : list (vec N)) (indices : list nat) : res (list (triangle N)) :=
  match indices with
  | [] => Ok []
  | i0 :: i1 :: i2 :: indices' =>
      match nth_error vertices i0, nth_error vertices i1, nth_error vertices i2 with
      | Some a, Some b, Some c =>
          match read_tris vertices indices' with Ok ts => Ok (Tri a b c :: ts) | e => e end
      | _, _, _ => UB OutOfBounds
      end
  | _ => UB OutOfBounds
  end.
Fixpoint prims_from (k : nat) (ts : list (triangle N)) : list prim :=
  match ts with [] => [] | t :: ts' => prim_of k (tri_bounds t) :: prims_from (S k) ts' end.

(** bvh.h 72-73: root and tris. *)
Record bvh := mkBvh { bv_root : option node; bv_tris : list (triangle N) }.
Definition bvh_of_tris (ts : list (triangle N)) : res bvh :=
  match build_rec (length ts) (prims_from 0 ts) with
  | Ok r => Ok (mkBvh r ts)
  | UB u => UB u | Abort u => Abort u | NoFuel => NoFuel
  end.
(** bvh.cpp 57-74. *)
Definition bvh_construct (vertices : list (vec N)) (indices : list nat) : res bvh :=
  match read_tris vertices indices with
  | Ok ts => bvh_of_tris ts
  | UB u => UB u | Abort u => Abort u | NoFuel => NoFuel
  end.
(** bvh.cpp 53-55. *)
Definition bvh_of_mesh (m : mesh N) : res bvh :=
  match getVertices m with
  | Ok (ps, _) =>
      match getVertexIndices m with
      | Ok (ix, _) => bvh_construct ps (map Z.to_nat ix)
      | UB u => UB u | Abort u => Abort u | NoFuel => NoFuel
      end
  | UB u => UB u | Abort u => Abort u | NoFuel => NoFuel
  end.

(** bvh.cpp 87-107: the loop.  The head of the list is the top of the stack. *)
Fixpoint query_loop (fuel : nat) (tris : list (triangle N)) (q : vec N) (stk : list node) (dist : num) (ret : vec N) : res (num * vec N) :=
  match stk with
  | [] => Ok (dist, ret)
  | t :: stk' =>
      match fuel with
      | O => NoFuel
      | S fuel' =>
          match t with
          | Leaf _ pid =>
              match nth_error tris pid with
              | None => UB OutOfBounds
              | Some tr =>
                  let pc := tri_closest tr q in
                  let dc := vlength (vsub q pc) in
                  if nltb dc dist then query_loop fuel' tris q stk' dc pc else query_loop fuel' tris q stk' dist ret
              end
          | Fork b l r _ =>
              if box_inside b q || nleb (box_distance b q) dist then
                let stk1 := match l with Some t => t :: stk' | None => stk' end in
                let stk2 := match r with Some t => t :: stk1 | None => stk1 end in
                query_loop fuel' tris q stk2 dist ret
              else query_loop fuel' tris q stk' dist ret
          end
      end
  end.
Fixpoint node_size (t : node) : nat :=
  match t with
  | Leaf _ _ => 1
  | Fork _ l r _ => S ((match l with Some t => node_size t | None => 0 end) + (match r with Some t => node_size t | None => 0 end))
  end.
(** bvh.cpp 81-109. *)
Definition bvh_closest (b : bvh) (q : vec N) : res (vec N) :=
  match bv_root b with
  | None => UB NullDeref
  | Some t =>
      match query_loop (node_size t) (bv_tris b) q [t] nbig20 vzero with
      | Ok (_, ret) => Ok ret
      | UB u => UB u | Abort u => Abort u | NoFuel => NoFuel
      end
  end.
(** bvh.cpp 76-79. *)
Definition bvh_distance (b : bvh) (q : vec N) : res num :=
  match bvh_closest b q with
  | Ok pc => Ok (vlength (vsub pc q))
  | UB u => UB u | Abort u => Abort u | NoFuel => NoFuel
  end.

(** metrics.cpp 21-32, for the positions of the vertices. *)
Fixpoint distances (b : bvh) (qs : list (vec N)) : res (list num) :=
  match qs with
  | [] => Ok []
  | q :: qs' =>
      match bvh_distance b q with
      | Ok d => match distances b qs' with Ok ds => Ok (d :: ds) | e => e end
      | UB u => UB u | Abort u => Abort u | NoFuel => NoFuel
      end
  end.
Definition shortest_distances (src dst : mesh N) : res (list num) :=
  match bvh_of_mesh dst with
  | Ok b =>
      match getVertices src with
      | Ok (qs, _) => distances b qs
      | UB u => UB u | Abort u => Abort u | NoFuel => NoFuel
      end
  | UB u => UB u | Abort u => Abort u | NoFuel => NoFuel
  end.
(** Eigen's maxCoeff; of an empty vector it is undefined. *)
Definition max_coeff (l : list num) : res num :=
  match l with [] => UB OutOfBounds | x :: l' => Ok (fold_left nmax l' x) end.
(** metrics.cpp 12-19. *)
Definition hausdorff (m0 m1 : mesh N) : res num :=
  match shortest_distances m0 m1 with
  | Ok d01 =>
      match shortest_distances m1 m0 with
      | Ok d10 =>
          match max_coeff d01 with
          | Ok a => match max_coeff d10 with Ok b => Ok (nmax a b) | e => e end
          | e => e
          end
      | UB u => UB u | Abort u => Abort u | NoFuel => NoFuel
      end
  | UB u => UB u | Abort u => Abort u | NoFuel => NoFuel
  end.

End Bvh.
Arguments prim N : clear implicits.
Arguments node N : clear implicits.
Arguments bvh N : clear implicits.
