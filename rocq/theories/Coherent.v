(** src/tinymesh/restore/completion.cpp 97-638: holeFillContextCoherent. *)
From Coq Require Import Bool List ZArith Arith.
From Verif Require Import Num Vec Heap Mesh Measure Tensor Deriv Feat Lapl Hks Bvh FrontC Gmm Icp Repair.
Import ListNotations.
Local Open Scope mesh_scope.

(** ** Patches: 203-263 *)
Section Patch.
Context {N : Num}.
Notation M := (M N).
(** The order in which an unordered_set is traversed, from the order of insertion. *)
Variable horder : forall A : Type, list A -> list A.

(** face.cpp 322-360 (FaceIterator): the faces across the edges of a face. *)
Definition f_neighbors (f : ptr) : M (list ptr) :=
  circ_f f [] (fun acc it => r <- he_rev it ;; g <- he_face r ;; ret (acc ++ [g], false)).
Definition seen (vis : list nat) (f : ptr) : bool := match f with Some a => existsb (Nat.eqb a) vis | None => false end.
(** 216-230: visited and que; [k] bounds the steps. *)
Fixpoint spread (k : nat) (patchRadius : Z) (visited : list nat) (que : list (ptr * Z)) : M (list nat) :=
  match k with
  | O => nofuel
  | S k' =>
      match que with
      | [] => ret visited
      | (f, dist) :: que' =>
          if seen visited f then spread k' patchRadius visited que' else
          match f with
          | None => ub NullDeref
          | Some a =>
              let visited' := visited ++ [a] in
              gs <- f_neighbors f ;;
              spread k' patchRadius visited' (que' ++ map (fun g => (g, dist + 1)%Z) (filter (fun g => negb (seen visited' g) && (dist + 1 <=? patchRadius)%Z) gs))
          end
      end
  end.
(** 208-232.  Every half-edge puts a face into the queue at most twice: around the vertex, and
    from the face it belongs to. *)
Definition patch_faces (patchRadius : Z) (i : nat) : M (list nat) :=
  ctr <- mesh_vertex (Z.of_nat i) ;; fs <- v_faces ctr ;; n <- get (fun m => length (m_hes m)) ;;
  l <- spread (S (2 * n)) patchRadius [] (map (fun f => (f, 1%Z)) fs) ;; ret (horder nat l).
Definition zadd (l : list Z) (i : Z) : list Z := if existsb (Z.eqb i) l then l else l ++ [i].
(** 254-262: the indices of the vertices of a patch. *)
Definition patch_verts (fs : list nat) : M (list Z) :=
  l <- mfold (fun l f => vs <- f_vertices (Some f) ;; ids <- mmap (fun v => ve_idx v) vs ;; ret (fold_left zadd ids l)) [] fs ;;
  ret (horder Z l).
End Patch.

(** ** Descriptors and candidates: 279-321 *)
Section Descr.
Context {N : Num}.
(** (int) of a double. *)
Variable trunc : num -> Z.
Definition lmap2 (f : num -> num -> num) (a b : list num) : list num := map (fun p => f (fst p) (snd p)) (combine a b).
(** maxCoeff(). *)
Definition max_coeff (l : list num) : num := match l with [] => nzero | x :: l' => fold_left nmax l' x end.
Definition scaled (l : list num) : list num := map (fun x => ndiv x (max_coeff l)) l.
(** 285-297, with [n] the number of vertices of the mesh and [fs] the signatures of the patch. *)
Definition hks_mean (dims n : nat) (fs : list (list num)) : list num := map (fun x => ndiv x (nofZ (Z.of_nat n))) (lsum dims fs).
Definition hks_sigma (dims n : nat) (fs : list (list num)) : list num :=
  let mean := hks_mean dims n fs in
  map (fun p => nsqrt (nmax (nsub (fst p) (nmul (snd p) (snd p))) nzero)) (combine (hks_mean dims n (map (fun f => lmap2 nmul f f) fs)) mean).
(** 281-303. *)
Definition descriptor (dims n : nat) (fs : list (list num)) : list num := scaled (hks_mean dims n fs) ++ scaled (hks_sigma dims n fs).

(** std::sort of pairs (318): any correct sort gives the same list when no distance is NaN, since
    equal pairs cannot be told apart. *)
Definition pair_lt (a b : num * nat) : bool := nltb (fst a) (fst b) || negb (nltb (fst b) (fst a)) && (snd a <? snd b).
Fixpoint insert (x : num * nat) (l : list (num * nat)) : list (num * nat) :=
  match l with [] => [x] | y :: l' => if pair_lt y x then y :: insert x l' else x :: l end.
Definition sort (l : list (num * nat)) : list (num * nat) := fold_right insert [] l.
(** 306. *)
Definition n_cands (nSrc : nat) : nat := Z.to_nat (Z.max 10 (trunc (nmul (ndiv none_ (nofZ 1000)) (nofZ (Z.of_nat nSrc))))).
(** 309-321: the candidates for the target with descriptor [d]; [srcs] are the sources and their descriptors. *)
Definition cands (n : nat) (d : list num) (srcs : list (nat * list num)) : res (list nat) :=
  let s := sort (map (fun x => (sq_dist d (snd x), fst x)) srcs) in
  if length s <? n then UB OutOfBounds else Ok (map snd (firstn n s)).
End Descr.

(** ** Matching, new positions and offsets: 327-508 *)
Section Match.
Context {N : Num}.
Notation M := (M N).
Variable svd : mat3 N -> mat3 N * vec N * mat3 N.
(** (int) of a double, and the standard algorithms, in the trees. *)
Variables (trunc : num -> Z) (alg : algos).
(** std::pow(x, 5.0). *)
Variable pow5 : num -> num.
(** Eigen::SimplicialLDLT, as in Feat.v. *)
Variable sparse : nat -> (nat -> nat -> num) -> (nat -> num) -> nat -> num.

Definition liftr {A} (r : res A) : M A := fun m => match r with Ok a => Ok (a, m) | UB u => UB u | Abort u => Abort u | NoFuel => NoFuel end.
(** rotations[i], translations[i]. *)
Definition motion : Type := mat3 N * vec N.
Definition moved (g : motion) (p : vec N) : vec N := vadd (mapp (fst g) p) (snd g).
(** The faces and the indices of the vertices of a patch. *)
Record patch := Pt { p_faces : list nat; p_verts : list Z }.
(** hksTable[v].  A vertex without a signature would get an empty one, of the wrong length. *)
Definition signature (t : table) (v : ptr) : M (list num) := match tfind t v with Some f => ret f | None => ub OutOfBounds end.
Definition features (t : table) (ids : list Z) : M (list (feature N)) :=
  mmap (fun i => v <- mesh_vertex i ;; p <- ve_pos v ;; f <- signature t v ;; ret (p, f)) ids.
(** 333-351: the best candidate.  If none has an error below 1e20, minId is -1 and 361 reads in
    front of an array. *)
Definition best_pair (t : table) (P : list patch) (tgt : nat) (cs : list nat) : M (nat * motion) :=
  pt <- tab_at P (Z.of_nat tgt) ;; ft <- features t (p_verts pt) ;;
  b <- mfold (fun best c =>
         ps <- tab_at P (Z.of_nat c) ;; fs <- features t (p_verts ps) ;;
         match solveRigidICP svd ft fs with
         | None => ub OutOfBounds
         | Some (R, tr, eps) => ret (if nltb eps (fst best) then (eps, Some (c, (R, tr))) else best)
         end) (nbig20, None) cs ;;
  match snd b with Some x => ret x | None => ub OutOfBounds end.
(** 364-373: the source vertex that is closest after the motion. *)
Definition closest_to (g : motion) (p : vec N) (src : list (vec N * Z)) : option Z :=
  snd (fold_left (fun best s => let d := vlength (vsub p (moved g (fst s))) in if nltb d (fst best) then (d, Some (snd s)) else best) src (nbig20, None)).
Definition places (ids : list Z) : M (list (vec N * Z)) := mmap (fun i => v <- mesh_vertex i ;; p <- ve_pos v ;; j <- ve_idx v ;; ret (p, j)) ids.
(** 357-391: the dissimilarity of a target patch and its partner; [flf] has the rows of the feature
    line field and their flags. *)
Definition dissimilarity (flf : list (vec N * num)) (pt ps : patch) (g : motion) : M num :=
  tgt <- places (p_verts pt) ;; src <- places (p_verts ps) ;;
  r <- mfold (fun acc x =>
         match closest_to g (fst x) src with
         | None => ub NullDeref
         | Some c =>
             ft <- tab_at flf (snd x) ;; fs <- tab_at flf c ;;
             let w := if negb (neqb (snd fs) nzero) then nofZ (Z.of_nat (length tgt)) else none_ in
             let l := vlength (vsub (fst ft) (mapp (fst g) (fst fs))) in
             ret (nadd (fst acc) (nmul (nmul w l) l), nadd (snd acc) w)
         end) (nzero, nzero) tgt ;;
  ret (ndiv (fst r) (snd r)).
(** 401-408: uniqueVertices; a point that is not equal to itself is entered again and reads as 0. *)
Definition enter (acc : list (vec N) * list nat) (p : vec N) : list (vec N) * list nat :=
  let vs := if existsb (veqb p) (fst acc) then fst acc else fst acc ++ [p] in
  let fix pos l k := match l with [] => O | q :: l' => if veqb p q then k else pos l' (S k) end in
  (vs, snd acc ++ [pos vs O]).
(** 396-412: the tree of the moved faces of a patch. *)
Definition patch_bvh (ps : patch) (g : motion) : M (bvh N) :=
  pts <- mmap (fun f => vs <- f_vertices (Some f) ;; mmap (fun v => p <- ve_pos v ;; ret (moved g p)) vs) (p_faces ps) ;;
  let a := fold_left enter (concat pts) ([], []) in
  assertion (Nat.eqb (Nat.modulo (length (snd a)) 3) 0) ;;
  liftr (bvh_construct trunc alg (fst a) (snd a)).
(** A target, its patch, the dissimilarity to its partner and the tree of the partner. *)
Record target := Tg { g_id : nat; g_patch : patch; g_dissim : num; g_bvh : bvh N }.
(** 427. *)
Definition weight_of (dissim : num) : num := ndiv none_ (nadd (pow5 dissim) neps12).
(** 417-431: the weighted mean of the closest points, for a vertex in the patches of some targets. *)
Definition pulled (T : list target) (i : Z) : M (vec N) :=
  v <- mesh_vertex i ;; orgPos <- ve_pos v ;;
  r <- mfold (fun acc t =>
         if existsb (Z.eqb i) (p_verts (g_patch t)) then
           closest <- liftr (bvh_closest (g_bvh t) orgPos) ;;
           let weight := weight_of (g_dissim t) in
           ret (vadd (fst acc) (vscale weight closest), nadd (snd acc) weight)
         else ret acc) (vzero, nzero) T ;;
  lift (vdiv (fst r) (snd r)).
(** 414-441: newPoss and offsets.  The order of the vertices is immaterial. *)
Definition aims (T : list target) : M (list (Z * (vec N * vec N))) :=
  mmap (fun i => v <- mesh_vertex i ;; orgPos <- ve_pos v ;; newPos <- pulled T i ;; lk <- ve_lock v ;;
                 ret (i, if lk then (vzero, vsub orgPos newPos) else (newPos, vzero)))
       (fold_left zadd (concat (map (fun t => p_verts (g_patch t)) T)) []).
Definition aim_of (A : list (Z * (vec N * vec N))) (i : Z) : vec N * vec N :=
  match find (fun a => (fst a =? i)%Z) A with Some a => snd a | None => (vzero, vzero) end.
(** 444-476: tripTgt, tripSrc and uniqueBoundary. *)
Record soft := Sf { f_tgt : list (triplet N); f_src : list (triplet N); f_bd : list Z }.
Definition soft_edge (ids : list Z) (row : nat) (acc : soft * num) (it : ptr) : M (soft * num) :=
  let s := fst acc in
  u <- he_dst it ;; weight <- he_cotWeight it ;; lk <- ve_lock u ;; j <- ve_idx u ;;
  let s' := if lk
    then let nc := number (f_bd s) j in Sf (f_tgt s) (f_src s ++ [(Z.of_nat row, Z.of_nat (snd nc), nopp weight)]) (fst nc)
    else let c := match number_of ids j with Some k => k | None => O end in Sf (f_tgt s ++ [(Z.of_nat row, Z.of_nat c, nopp weight)]) (f_src s) (f_bd s) in
  ret (s', nadd (snd acc) weight).
Definition soft_row (ids : list Z) (s : soft) (ri : nat * Z) : M soft :=
  v <- mesh_vertex (snd ri) ;;
  r <- circ_v v (s, nzero) (fun acc it => a <- soft_edge ids (fst ri) acc it ;; ret (a, false)) ;;
  ret (Sf (f_tgt (fst r) ++ [(Z.of_nat (fst ri), Z.of_nat (fst ri), snd r)]) (f_src (fst r)) (f_bd (fst r))).
Definition soft_system (ids : list Z) : M soft := mfold (soft_row ids) (Sf [] [] []) (combine (seq 0 (length ids)) ids).
(** 478-491: one column of -SS * xxSrc, and the solution. *)
Definition soft_rhs (A : list (Z * (vec N * vec N))) (s : soft) (c : vec N -> num) (i : nat) : num :=
  fold_left nadd (map (fun kj => nmul (nopp (entry (f_src s) i (fst kj))) (c (snd (aim_of A (snd kj))))) (combine (seq 0 (length (f_bd s))) (f_bd s))) nzero.
Definition soft_offset (A : list (Z * (vec N * vec N))) (n : nat) (s : soft) (k : nat) : vec N :=
  let x c := sparse n (entry (f_tgt s)) (soft_rhs A s c) k in V3 (x vx) (x vy) (x vz).
(** 497-508. *)
Definition step_to (A : list (Z * (vec N * vec N))) (n : nat) (s : soft) (ri : nat * Z) : M unit :=
  v <- mesh_vertex (snd ri) ;; orgPos <- ve_pos v ;;
  w_pos v (vadd orgPos (vscale (ndiv none_ (nofZ 10)) (vsub (vadd (fst (aim_of A (snd ri))) (soft_offset A n s (fst ri))) orgPos))).
(** 414-508: [ids] are tgtIds. *)
Definition move_targets (T : list target) (ids : list Z) : M unit :=
  A <- aims T ;; s <- soft_system ids ;;
  mfor (combine (seq 0 (length ids)) ids) (step_to A (length ids) s).
End Match.
Arguments patch : clear implicits.
Arguments target N : clear implicits.
Arguments soft N : clear implicits.

(** ** The whole function *)
Section Coherent.
Context {N : Num}.
Notation M := (M N).
Variable horder : forall A : Type, list A -> list A.
Variables (trunc nceil : num -> Z) (nlog ncos nsin pow5 : num -> num).
Variable ldlt : nat -> (nat -> nat -> num) -> (nat -> num) -> nat -> num.
Variable sparse : nat -> (nat -> nat -> num) -> (nat -> num) -> nat -> num.
Variable eigs : nat -> (nat -> nat -> num) -> nat -> option ((nat -> num) * (nat -> nat -> num)).
Variables (svd : mat3 N -> mat3 N * vec N * mat3 N) (alg : algos).
Variable relax : mesh N -> list nat -> option (nat -> vec N).

(** 327-412 for one target and its candidates.  The code finishes each step for all targets before
    it begins the next; none of them writes to the mesh. *)
Definition prepare (t : table) (P : list patch) (flf : list (vec N * num)) (x : nat * list nat) : M (target N) :=
  b <- best_pair svd t P (fst x) (snd x) ;;
  pt <- tab_at P (Z.of_nat (fst x)) ;; ps <- tab_at P (Z.of_nat (fst b)) ;;
  d <- dissimilarity flf pt ps (snd b) ;; h <- patch_bvh trunc alg ps (snd b) ;;
  ret (Tg (fst x) pt d h).
(** 202-263: the patches, srcIds and tgtIds. *)
Definition patches (patchRadius : Z) : M (list patch) :=
  n <- get (fun m => length (m_verts m)) ;;
  mmap (fun i => fs <- patch_faces horder patchRadius i ;; vs <- patch_verts horder fs ;; ret (Pt fs vs)) (seq 0 n).
Definition ids_with (b : bool) : M (list nat) :=
  n <- get (fun m => length (m_verts m)) ;;
  l <- mmap (fun i => v <- mesh_vertex (Z.of_nat i) ;; lk <- ve_lock v ;; ret (i, lk)) (seq 0 n) ;;
  ret (map fst (filter (fun x => Bool.eqb (snd x) b) l)).
(** 279-321: the candidates of every target. *)
Definition candidates (dims : nat) (t : table) (P : list patch) (srcIds tgtIds : list nat) : M (list (list nat)) :=
  D <- mmap (fun p => fs <- mmap (fun i => v <- mesh_vertex i ;; signature t v) (p_verts p) ;; ret (descriptor dims (length P) fs)) P ;;
  mmap (fun i => liftr (cands (n_cands trunc (length srcIds)) (nth i D []) (map (fun j => (j, nth j D [])) srcIds))) tgtIds.
(** 200-635: one iteration; [k] bounds the rounds of the repair. *)
Definition iteration (k : nat) (avgLen avgArea : num) (patchRadius : Z) (dims : nat) (t : table) : M table :=
  P <- patches patchRadius ;; srcIds <- ids_with true ;; tgtIds <- ids_with false ;;
  C <- candidates dims t P srcIds tgtIds ;;
  flf <- getFeatureLineFieldWithFlags ncos nsin ldlt sparse true ;;
  T <- mmap (prepare t P flf) (combine tgtIds C) ;;
  move_targets pow5 sparse T (map Z.of_nat tgtIds) ;;
  r <- repair k avgLen avgArea tgtIds ;;
  t' <- (if r then new_signatures dims t else ret t) ;;
  verify ;; ret t'.
Fixpoint iterations (n k : nat) (avgLen avgArea : num) (patchRadius : Z) (dims : nat) (t : table) : M unit :=
  match n with O => ret tt | S n' => t' <- iteration k avgLen avgArea patchRadius dims t ;; iterations n' k avgLen avgArea patchRadius dims t' end.
(** 113-116. *)
Definition clear_flags : M unit :=
  n <- get (fun m => length (m_hes m)) ;;
  mfor (seq 0 n) (fun i => h <- mesh_halfedge (Z.of_nat i) ;; w_bd h false).
(** 118-196: the radius of the patches and the signatures. *)
Definition measured (avgLen : num) : M (Z * table) :=
  K <- getPrincipalCurvatures ncos nsin ldlt false ;;
  let patchRadius := patch_radius nceil avgLen (map max_curve K) in
  L <- getMeshLaplacian Cotangent ;;
  vs <- get m_verts ;;
  H <- liftr (getHeatKernelSignatures nlog eigs (length vs) (entry L) 300 100) ;;
  ret (patchRadius, combine vs H).
(** 97-638.  [k] and [fuel] bound the loops of the filling and of the repair. *)
Definition holeFillContextCoherent (k fuel maxiters : nat) : M unit :=
  fill_fronts relax k fuel ;;
  avgLen <- getMeanEdgeLength ;; avgArea <- getMeanFaceArea ;;
  clear_flags ;;
  x <- measured avgLen ;;
  iterations maxiters k avgLen avgArea (fst x) 100 (snd x).
End Coherent.
