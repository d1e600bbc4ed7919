(** src/tinymesh/ops/features.cpp 25-32 and 342-500: derivatives of the principal curvatures. *)
From Coq Require Import Bool List ZArith Arith.
From Verif Require Import Num Vec Heap Mesh Measure Features Tensor.
Import ListNotations.
Local Open Scope mesh_scope.

Section Deriv.
Context {N : Num}.
Notation M := (M N).
Variables (ncos nsin : num -> num).
Variable ldlt : nat -> (nat -> nat -> num) -> (nat -> num) -> nat -> num.

(** EigenVector4: the coefficients of a symmetric trilinear form of the plane. *)
Record cubic := Cb { c0 : num; c1 : num; c2 : num; c3 : num }.
Definition czero : cubic := Cb nzero nzero nzero nzero.
Definition cadd (a b : cubic) : cubic := Cb (nadd (c0 a) (c0 b)) (nadd (c1 a) (c1 b)) (nadd (c2 a) (c2 b)) (nadd (c3 a) (c3 b)).
Definition cscale (s : num) (a : cubic) : cubic := Cb (nmul s (c0 a)) (nmul s (c1 a)) (nmul s (c2 a)) (nmul s (c3 a)).
Definition cdiv (a : cubic) (s : num) : cubic := Cb (ndiv (c0 a) s) (ndiv (c1 a) s) (ndiv (c2 a) s) (ndiv (c3 a) s).
(** 25-32. *)
Definition thirdForm (C : cubic) (u v w : num * num) : num :=
  let r := nzero in
  let r := nadd r (nmul (nmul (nmul (c0 C) (fst u)) (fst v)) (fst w)) in
  let r := nadd r (nmul (c1 C) (nadd (nadd (nmul (nmul (snd u) (fst v)) (fst w)) (nmul (nmul (fst u) (snd v)) (fst w))) (nmul (nmul (fst u) (fst v)) (snd w)))) in
  let r := nadd r (nmul (c2 C) (nadd (nadd (nmul (nmul (snd u) (snd v)) (fst w)) (nmul (nmul (fst u) (snd v)) (snd w))) (nmul (nmul (snd u) (fst v)) (snd w)))) in
  nadd r (nmul (nmul (nmul (c3 C) (snd u)) (snd v)) (snd w)).

(** Curvatures and directions of a vertex: k_max, k_min, t_max, t_min. *)
Definition pc : Type := num * num * vec N * vec N.
Definition k_max (x : pc) : num := let '(a, _, _, _) := x in a.
Definition k_min (x : pc) : num := let '(_, b, _, _) := x in b.
Definition t_max (x : pc) : vec N := let '(_, _, c, _) := x in c.
Definition t_min (x : pc) : vec N := let '(_, _, _, d) := x in d.

(** 390-409: the form of one corner (principal curvatures [x], normal [np]) in the frame F of the face. *)
Definition corner_form (F : frame N) (x : pc) (np : vec N) : option (tensor N) :=
  match rotationFromTwoVectors ncos nsin (fr_n F) np with
  | None => None
  | Some rot =>
      let ru := mapp rot (fr_u F) in let rv := mapp rot (fr_v F) in
      let uf := (dot ru (t_max x), dot ru (t_min x)) in
      let vf := (dot rv (t_max x), dot rv (t_min x)) in
      let D := Tn (k_max x) nzero (k_min x) in
      Some (Tn (secondForm D uf uf) (secondForm D uf vf) (secondForm D vf vf))
  end.
Definition tsub (a b : tensor N) : tensor N := Tn (nsub (t00 a) (t00 b)) (nsub (t01 a) (t01 b)) (nsub (t11 a) (t11 b)).
(** 411-428: the contributions of one edge to A(0,0), A(0,1), A(3,3) and to b; the entries of
    the tensor [d] are dfcurv. *)
Record fit4 := Fit4 { g00 : num; g01 : num; g33 : num; h0 : num; h1 : num; h2 : num; h3 : num }.
Definition fit4_edge (F : frame N) (s : fit4) (e : vec N) (d : tensor N) : fit4 :=
  let u := dot e (fr_u F) in let v := dot e (fr_v F) in
  Fit4 (nadd (g00 s) (nmul u u)) (nadd (g01 s) (nmul u v)) (nadd (g33 s) (nmul v v))
       (nadd (h0 s) (nmul u (t00 d)))
       (nadd (h1 s) (nadd (nmul v (t00 d)) (nmul (nmul (nofZ 2) u) (t01 d))))
       (nadd (h2 s) (nadd (nmul (nmul (nofZ 2) v) (t01 d)) (nmul u (t11 d))))
       (nadd (h3 s) (nmul v (t11 d))).
(** kp = k - 1 and kn = k + 1 modulo 3. *)
Definition fit4_system (F : frame N) (p0 p1 p2 : vec N) (m0 m1 m2 : tensor N) : fit4 :=
  let s := Fit4 nzero nzero nzero nzero nzero nzero nzero in
  let s := fit4_edge F s (vsub p2 p1) (tsub m2 m1) in
  let s := fit4_edge F s (vsub p0 p2) (tsub m0 m2) in
  fit4_edge F s (vsub p1 p0) (tsub m1 m0).
(** 429-432. *)
Definition fit4_matrix (s : fit4) (i j : nat) : num :=
  match i, j with
  | 0, 0 => g00 s
  | 1, 1 => nadd (nmul (nofZ 2) (g00 s)) (g33 s)
  | 2, 2 => nadd (g00 s) (nmul (nofZ 2) (g33 s))
  | 3, 3 => g33 s
  | 0, 1 | 1, 0 | 2, 3 | 3, 2 => g01 s
  | 1, 2 | 2, 1 => nmul (nofZ 2) (g01 s)
  | _, _ => nzero
  end.
Definition fit4_rhs (s : fit4) (i : nat) : num := match i with 0 => h0 s | 1 => h1 s | 2 => h2 s | _ => h3 s end.
(** 434. *)
Definition fit4_solve (s : fit4) : cubic :=
  let x := ldlt 4 (fit4_matrix s) (fit4_rhs s) in Cb (x 0) (x 1) (x 2) (x 3).
(** 362-438: one face; [K] are the principal curvatures and normals of the vertices. *)
Definition face_deriv (K : list (pc * vec N)) (f : ptr) : M (cubic * frame N) :=
  vs <- f_vertices f ;;
  match vs with
  | [v0; v1; v2] =>
      p0 <- ve_pos v0 ;; p1 <- ve_pos v1 ;; p2 <- ve_pos v2 ;;
      i0 <- ve_idx v0 ;; i1 <- ve_idx v1 ;; i2 <- ve_idx v2 ;;
      F <- lift (face_frame p0 p1 p2) ;;
      x0 <- tab_at K i0 ;; m0 <- lift (corner_form F (fst x0) (snd x0)) ;;
      x1 <- tab_at K i1 ;; m1 <- lift (corner_form F (fst x1) (snd x1)) ;;
      x2 <- tab_at K i2 ;; m2 <- lift (corner_form F (fst x2) (snd x2)) ;;
      ret (fit4_solve (fit4_system F p0 p1 p2 m0 m1 m2), F)
  | _ => abort AAssert
  end.
(** 457-471: what one face contributes at a vertex with frame F. *)
Definition carried3 (R : mat3 N) (F : frame N) (c : cubic) (G : frame N) : cubic :=
  let up := in_frame (mapp R (fr_u F)) G in let vp := in_frame (mapp R (fr_v F)) G in
  Cb (thirdForm c up up up) (thirdForm c up up vp) (thirdForm c up vp vp) (thirdForm c vp vp vp).
(** 443-487: e_max and e_min of one vertex with frame F and principal curvatures x. *)
Definition vertex_deriv (ft : list (cubic * frame N)) (v : ptr) (F : frame N) (x : pc) : M (num * num) :=
  s <- circ_v v (czero, nzero) (fun acc it =>
    f <- he_face it ;; i <- fa_idx f ;; cg <- tab_at ft i ;;
    R <- lift (rotationFromTwoVectors ncos nsin (fr_n F) (fr_n (snd cg))) ;;
    weight <- v_volonoiIn v f ;;
    ret (cadd (fst acc) (cscale weight (carried3 R F (fst cg) (snd cg))), nadd (snd acc) weight, false)) ;;
  let c := cdiv (fst s) (snd s) in
  let a := in_frame (t_max x) F in let b := in_frame (t_min x) F in
  ret (thirdForm c a a a, thirdForm c b b b).
(** 342-500: per vertex the principal curvatures and (e_max, e_min). *)
Definition getPrincipalCurvaturesWithDerivatives (smoothTensors : bool) : M (list (pc * (num * num))) :=
  tf <- getCurvatureTensors ncos nsin ldlt ;;
  tf <- (if smoothTensors then smoothingTensors ncos nsin tf else ret tf) ;;
  K <- mmap (fun x => lift (principal (t00 (fst x)) (t01 (fst x)) (t11 (fst x)) (fr_u (snd x)) (fr_v (snd x)) (fr_n (snd x)))) tf ;;
  fs <- get m_faces ;;
  ft <- mmap (fun f => face_deriv (combine K (map (fun x => fr_n (snd x)) tf)) (Some f)) fs ;;
  vs <- get m_verts ;;
  es <- mmap (fun vx => vertex_deriv ft (Some (fst vx)) (snd (fst (snd vx))) (snd (snd vx))) (combine vs (combine tf K)) ;;
  ret (combine K es).
End Deriv.
Arguments cubic N : clear implicits.
Arguments pc N : clear implicits.
