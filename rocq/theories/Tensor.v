(** src/tinymesh/ops/features.cpp 21-23, 83-127, 178-340 and core/utils.h 31-56: curvature tensors
    and principal curvatures of the vertices.
    Eigen's products are sums in increasing order of the index. *)
From Coq Require Import Bool List ZArith Arith.
From Verif Require Import Num Vec Heap Mesh Measure Features.
Import ListNotations.
Local Open Scope mesh_scope.

Section Tensor.
Context {N : Num}.
Notation M := (M N).
(** std::cos, std::sin and, for a symmetric n x n matrix A, A.ldlt().solve(b). *)
Variables (ncos nsin : num -> num).
Variable ldlt : nat -> (nat -> nat -> num) -> (nat -> num) -> nat -> num.

(** EigenMatrix3, by rows. *)
Record mat3 := Mat { mr0 : vec N; mr1 : vec N; mr2 : vec N }.
Definition mid3 : mat3 := Mat (V3 none_ nzero nzero) (V3 nzero none_ nzero) (V3 nzero nzero none_).
Definition madd3 (a b : mat3) : mat3 := Mat (vadd (mr0 a) (mr0 b)) (vadd (mr1 a) (mr1 b)) (vadd (mr2 a) (mr2 b)).
Definition mscale3 (s : num) (a : mat3) : mat3 := Mat (vscale s (mr0 a)) (vscale s (mr1 a)) (vscale s (mr2 a)).
Definition mcol (a : mat3) (c : vec N -> num) : vec N := V3 (c (mr0 a)) (c (mr1 a)) (c (mr2 a)).
Definition mrow (r : vec N) (b : mat3) : vec N := V3 (dot r (mcol b vx)) (dot r (mcol b vy)) (dot r (mcol b vz)).
Definition mmul3 (a b : mat3) : mat3 := Mat (mrow (mr0 a) b) (mrow (mr1 a) b) (mrow (mr2 a) b).
(** vec.h 269-272. *)
Definition mapp (a : mat3) (v : vec N) : vec N := V3 (dot (mr0 a) v) (dot (mr1 a) v) (dot (mr2 a) v).

(** utils.h 32-38. *)
Definition matrixCrossProd (w : vec N) : mat3 :=
  Mat (V3 nzero (nopp (vz w)) (vy w)) (V3 (vz w) nzero (nopp (vx w))) (V3 (nopp (vy w)) (vx w) nzero).
(** utils.h 40-44. *)
Definition rotationAxisAngle (theta : num) (axis : vec N) : mat3 :=
  let K := matrixCrossProd axis in
  madd3 (madd3 mid3 (mscale3 (nsin theta) K)) (mmul3 (mscale3 (nsub none_ (ncos theta)) K) K).
(** utils.h 46-56; [None]: normalize throws. *)
Definition rotationFromTwoVectors (v0 v1 : vec N) : option mat3 :=
  let outer := cross v0 v1 in
  let theta := natan2 (vlength outer) (dot v0 v1) in
  if nltb (nabs theta) neps12 then Some mid3 else
  match normalize outer with None => None | Some axis => Some (rotationAxisAngle theta axis) end.

(** A symmetric EigenMatrix2; LocalFrame of utils.h 29. *)
Record tensor := Tn { t00 : num; t01 : num; t11 : num }.
Record frame := Fr { fr_u : vec N; fr_v : vec N; fr_n : vec N }.
Definition tzero : tensor := Tn nzero nzero nzero.
Definition tadd (a b : tensor) : tensor := Tn (nadd (t00 a) (t00 b)) (nadd (t01 a) (t01 b)) (nadd (t11 a) (t11 b)).
Definition tscale (s : num) (a : tensor) : tensor := Tn (nmul s (t00 a)) (nmul s (t01 a)) (nmul s (t11 a)).
Definition tdiv (a : tensor) (s : num) : tensor := Tn (ndiv (t00 a) s) (ndiv (t01 a) s) (ndiv (t11 a) s).
(** features.cpp 21-23; vectors of the plane are pairs.  114-116 bracket the product the other
    way round, as u^T (M v). *)
Definition secondForm (t : tensor) (u v : num * num) : num :=
  nadd (nmul (nadd (nmul (fst u) (t00 t)) (nmul (snd u) (t01 t))) (fst v)) (nmul (nadd (nmul (fst u) (t01 t)) (nmul (snd u) (t11 t))) (snd v)).
Definition formR (t : tensor) (u v : num * num) : num :=
  nadd (nmul (fst u) (nadd (nmul (t00 t) (fst v)) (nmul (t01 t) (snd v)))) (nmul (snd u) (nadd (nmul (t01 t) (fst v)) (nmul (t11 t) (snd v)))).
(** features.cpp 289-291, 110-112: coordinates in the first two vectors of a frame. *)
Definition in_frame (x : vec N) (F : frame) : num * num := (dot x (fr_u F), dot x (fr_v F)).

(** std::vector::operator[]. *)
Definition tab_at {X} (l : list X) (i : Z) : M X :=
  if (i <? 0)%Z then ub OutOfBounds else match nth_error l (Z.to_nat i) with Some x => ret x | None => ub OutOfBounds end.

(** ** features.cpp 178-309 *)

(** 192-193 (and 97-98): exp(-0.5 * dist * dist). *)
Definition near_weight (avgLen : num) (p q : vec N) : num :=
  let dist := ndiv (vlength (vsub p q)) avgLen in nexp (nmul (nmul (nopp nhalf) dist) dist).
(** 186-198: the vector smoothNorms is not used afterwards, but computing it can throw. *)
Definition smooth_normal (normals : list (vec N)) (avgLen : num) (v : ptr) : M (vec N) :=
  i <- ve_idx v ;; norm <- tab_at normals i ;;
  s <- circ_v v (norm, none_) (fun acc it =>
    d <- he_dst it ;; p <- ve_pos v ;; q <- ve_pos d ;; k <- ve_idx d ;; nk <- tab_at normals k ;;
    let weight := near_weight avgLen p q in
    ret (vadd (fst acc) (vscale weight nk), nadd (snd acc) weight, false)) ;;
  n <- lift (vdiv (fst s) (snd s)) ;; lift (normalize n).

(** 225-232: the frame of a triangle. *)
Definition face_frame (p0 p1 p2 : vec N) : option frame :=
  let e0 := vsub p2 p1 in let e1 := vsub p0 p2 in
  match normalize e0 with
  | None => None
  | Some uf =>
      match normalize (cross e0 e1) with
      | None => None
      | Some nf => match normalize (cross nf uf) with None => None | Some vf => Some (Fr uf vf nf) end
      end
  end.
(** 237-250: the contributions of one edge to A(0,0), A(0,1), A(2,2) and to b. *)
Record fit := Fit { a00 : num; a01 : num; a22 : num; b0 : num; b1 : num; b2 : num }.
Definition fit_edge (F : frame) (s : fit) (e dn : vec N) : fit :=
  let u := dot e (fr_u F) in let v := dot e (fr_v F) in
  let dnu := dot dn (fr_u F) in let dnv := dot dn (fr_v F) in
  Fit (nadd (a00 s) (nmul u u)) (nadd (a01 s) (nmul u v)) (nadd (a22 s) (nmul v v))
      (nadd (b0 s) (nmul dnu u)) (nadd (b1 s) (nadd (nmul dnu v) (nmul dnv u))) (nadd (b2 s) (nmul dnv v)).
(** 234-253.  kp = k - 1 and kn = k + 1 modulo 3. *)
Definition fit_system (F : frame) (p0 p1 p2 n0 n1 n2 : vec N) : fit :=
  let s := Fit nzero nzero nzero nzero nzero nzero in
  let s := fit_edge F s (vsub p2 p1) (vsub n2 n1) in
  let s := fit_edge F s (vsub p0 p2) (vsub n0 n2) in
  fit_edge F s (vsub p1 p0) (vsub n1 n0).
Definition fit_matrix (s : fit) (i j : nat) : num :=
  match i, j with
  | 0, 0 => a00 s | 1, 1 => nadd (a00 s) (a22 s) | 2, 2 => a22 s
  | 0, 1 | 1, 0 | 1, 2 | 2, 1 => a01 s
  | _, _ => nzero
  end.
Definition fit_rhs (s : fit) (i : nat) : num := match i with 0 => b0 s | 1 => b1 s | _ => b2 s end.
(** 255-257. *)
Definition fit_solve (s : fit) : tensor :=
  let x := ldlt 3 (fit_matrix s) (fit_rhs s) in Tn (x 0) (x 1) (x 2).
(** 204-259: one triangle. *)
Definition face_tensor (f : ptr) : M (tensor * frame) :=
  vs <- f_vertices f ;;
  match vs with
  | [v0; v1; v2] =>
      p0 <- ve_pos v0 ;; p1 <- ve_pos v1 ;; p2 <- ve_pos v2 ;;
      n0 <- v_normal v0 ;; n1 <- v_normal v1 ;; n2 <- v_normal v2 ;;
      F <- lift (face_frame p0 p1 p2) ;;
      ret (fit_solve (fit_system F p0 p1 p2 n0 n1 n2), F)
  | _ => abort AAssert
  end.
(** 283-298: what one face contributes at a vertex with frame F. *)
Definition carried (R : mat3) (F : frame) (t : tensor) (G : frame) : tensor :=
  let up := in_frame (mapp R (fr_u F)) G in let vp := in_frame (mapp R (fr_v F)) G in
  Tn (secondForm t up up) (secondForm t up vp) (secondForm t vp vp).
(** 266-308: one vertex. *)
Definition vertex_tensor (ft : list (tensor * frame)) (v : ptr) : M (tensor * frame) :=
  np <- v_normal v ;;
  up <- circ_v v vzero (fun _ it => d <- he_dst it ;; q <- ve_pos d ;; p <- ve_pos v ;; u <- lift (normalize (vsub q p)) ;; ret (u, true)) ;;
  vp <- lift (normalize (cross np up)) ;;
  let F := Fr up vp np in
  s <- circ_v v (tzero, nzero) (fun acc it =>
    f <- he_face it ;; i <- fa_idx f ;; tg <- tab_at ft i ;;
    R <- lift (rotationFromTwoVectors np (fr_n (snd tg))) ;;
    weight <- v_volonoiIn v f ;;
    ret (tadd (fst acc) (tscale weight (carried R F (fst tg) (snd tg))), nadd (snd acc) weight, false)) ;;
  ret (tdiv (fst s) (snd s), F).
(** 178-309.  mesh.vertex(i) and mesh.face(i) are the elements of the lists. *)
Definition getCurvatureTensors : M (list (tensor * frame)) :=
  vs <- get m_verts ;; fs <- get m_faces ;;
  normals <- mmap (fun v => v_normal (Some v)) vs ;;
  avgLen <- getMeanEdgeLength ;;
  mmap (fun v => smooth_normal normals avgLen (Some v)) vs ;;
  ft <- mmap (fun f => face_tensor (Some f)) fs ;;
  mmap (fun v => vertex_tensor ft (Some v)) vs.

(** ** features.cpp 83-127 *)
Definition smooth_tensor (tf : list (tensor * frame)) (avgLen : num) (v : ptr) : M tensor :=
  i <- ve_idx v ;; tF <- tab_at tf i ;;
  let F := snd tF in
  s <- circ_v v (fst tF, none_) (fun acc it =>
    d <- he_dst it ;; p <- ve_pos v ;; q <- ve_pos d ;;
    let weight := near_weight avgLen p q in
    k <- ve_idx d ;; tG <- tab_at tf k ;;
    let G := snd tG in
    R <- lift (rotationFromTwoVectors (fr_n F) (fr_n G)) ;;
    ru <- lift (normalize (mapp R (fr_u F))) ;; rv <- lift (normalize (mapp R (fr_v F))) ;;
    let u := in_frame ru G in let w := in_frame rv G in
    ret (tadd (fst acc) (tscale weight (Tn (formR (fst tG) u u) (formR (fst tG) u w) (formR (fst tG) w w))), nadd (snd acc) weight, false)) ;;
  ret (tdiv (fst s) (snd s)).
Definition smoothingTensors (tf : list (tensor * frame)) : M (list (tensor * frame)) :=
  vs <- get m_verts ;;
  avgLen <- getMeanEdgeLength ;;
  ts <- mmap (fun v => smooth_tensor tf avgLen (Some v)) vs ;;
  ret (combine ts (map snd tf)).

(** ** features.cpp 311-340 and 34-81: per vertex (k_max, k_min, t_max, t_min). *)
Definition getPrincipalCurvatures (smoothTensors : bool) : M (list (num * num * vec N * vec N)) :=
  tf <- getCurvatureTensors ;;
  tf <- (if smoothTensors then smoothingTensors tf else ret tf) ;;
  mmap (fun x => lift (principal (t00 (fst x)) (t01 (fst x)) (t11 (fst x)) (fr_u (snd x)) (fr_v (snd x)) (fr_n (snd x)))) tf.
End Tensor.
Arguments tensor N : clear implicits.
Arguments frame N : clear implicits.
Arguments mat3 N : clear implicits.
