(** Concrete meshes over binary64, evaluated: used by the examples and the
    refutations beside the property theorems. *)
From Coq Require Import List ZArith Floats Bool Arith.
From Verif Require Import Num Vec Heap Mesh Construct Spec.
Import ListNotations.

Section Witness.
Variables (acosF expF : float -> float) (atan2F : float -> float -> float).
Local Instance NF : Num := NumF acosF expF atan2F.

Definition pt (x y z : float) : vec NF := @V3 NF x y z.

(** Ten triangles around two interior vertices (numbers 2 and 6 after welding)
    that share the edge 0-1, whose end points lie on the boundary. *)
Definition ps_two : list (vec NF) :=
  [pt 0 (-1) 0; pt (-1) 0 0; pt 0 1 0; pt 1 0 0; pt (-1) 2 0; pt (-2) 0 0; pt (-1) (-2) 0; pt 1 (-2) 0; pt 2 0 0; pt 1 2 0]%float.
Definition ix_two : list nat :=
  [0;2;1; 2;4;1; 4;5;1; 5;6;1; 6;0;1;  2;0;3; 0;7;3; 7;8;3; 8;9;3; 9;2;3].

(** A strip of seven triangles; both end points of the boundary edge 0-1 have degree 5. *)
Definition ps_strip : list (vec NF) :=
  [pt 0 0 0; pt 1 0 0; pt 2 0 0; pt 3 0 0; pt 4 0 0; pt 5 0 0; pt 6 0 0; pt 7 0 0; pt 8 0 0]%float.
Definition ix_strip : list nat := [0;1;2; 0;2;3; 0;3;4; 0;4;5; 2;1;6; 6;1;7; 7;1;8].

(** A tetrahedron. *)
Definition ps_tetra : list (vec NF) := [pt 0 0 0; pt 1 0 0; pt 0 1 0; pt 0 0 1]%float.
Definition ix_tetra : list nat := [0;1;2; 0;3;1; 0;2;3; 1;3;2].

Definition with_mesh (r : res (mesh NF)) (f : mesh NF -> bool) : bool := match r with Ok m => f m | _ => false end.
Definition first_he (m : mesh NF) : nat := nth 0 (m_hes m) 0.
Definition first_face (m : mesh NF) : nat := nth 0 (m_faces m) 0.
Definition is_true (r : res (bool * mesh NF)) : bool := match r with Ok (b, _) => b | _ => false end.

Definition is_abort {A} (k : abkind) (r : res A) : bool :=
  match r, k with Abort AError, AError | Abort AAssert, AAssert | Abort AThrow, AThrow => true | _, _ => false end.
Definition is_ub {A} (k : ubkind) (r : res A) : bool :=
  match r, k with UB OutOfBounds, OutOfBounds | UB NullDeref, NullDeref => true | _, _ => false end.
Definition is_nofuel {A} (r : res A) : bool := match r with NoFuel => true | _ => false end.
Definition with_res {A} (r : res (A * mesh NF)) (f : A -> mesh NF -> bool) : bool := match r with Ok (a, m) => f a m | _ => false end.
Lemma is_abort_ok {A} k (r : res A) : is_abort k r = true -> r = Abort k.
Proof. destruct r as [| |[]|], k; try discriminate; reflexivity. Qed.
Lemma is_ub_ok {A} k (r : res A) : is_ub k r = true -> r = UB k.
Proof. destruct r as [|[]| |], k; try discriminate; reflexivity. Qed.
Lemma is_nofuel_ok {A} (r : res A) : is_nofuel r = true -> r = NoFuel.
Proof. destruct r; try discriminate; reflexivity. Qed.
Lemma with_res_ok {A} (r : res (A * mesh NF)) f : with_res r f = true -> exists a m, r = Ok (a, m) /\ f a m = true.
Proof. destruct r as [[a m]| | |]; try discriminate. intros H. exists a, m. auto. Qed.
Lemma with_ok r f : with_mesh r f = true -> exists m, r = Ok m /\ f m = true.
Proof. destruct r as [m| | |]; try discriminate. intros H. exists m. auto. Qed.
Lemma is_true_ok r : is_true r = true -> exists m, r = Ok (true, m).
Proof. destruct r as [[b m]| | |]; try discriminate. cbn. intros ->. eauto. Qed.

(** All three edits succeed on the first half-edge of [two]. *)
Definition chk_two (m : mesh NF) : bool :=
  Nat.eqb (length (m_hes m)) 38 && negb (h_bd m (first_he m)) &&
  match h_rev m (first_he m) with Some r => negb (h_bd m r) | None => false end &&
  is_true (splitHE (Some (first_he m)) m) && is_true (flipHE (Some (first_he m)) m) && is_true (collapseHE (Some (first_he m)) m).
Lemma two_check : with_mesh (mesh_of ps_two ix_two) chk_two = true.
Proof. vm_cast_no_check (eq_refl true). Qed.


(** ** Refutations *)

(** C06: two degenerate triangles, one of them last. *)
Definition ps3 : list (vec NF) := [pt 0 0 0; pt 1 0 0; pt 0 1 0]%float.
Lemma degen_check : is_abort AError (mesh_of ps3 [0;0;1; 0;1;2; 1;1;2]) &&
  with_mesh (mesh_of ps3 [0;1;2]) (fun _ => true) = true.
Proof. vm_cast_no_check (eq_refl true). Qed.

(** C07: a square, then the same square with the other diagonal. *)
Definition ps_square : list (vec NF) := [pt 0 0 0; pt 1 0 0; pt 1 1 0; pt 0 1 0]%float.
Lemma again_check : with_mesh (mesh_of ps_square [0;1;2; 0;2;3]) (fun m1 =>
  with_mesh (mesh_of ps_square [0;1;3; 1;2;3]) (fun m2 =>
   with_res (construct ps_square [0;1;3; 1;2;3] m1) (fun _ m3 => Nat.eqb (length (m_faces m2)) 3 && Nat.eqb (length (m_faces m3)) 4))) = true.
Proof. vm_cast_no_check (eq_refl true). Qed.
(** ... and a single triangle: the old indices are out of range. *)
Lemma again_oob_check : with_mesh (mesh_of ps_square [0;1;2; 0;2;3]) (fun m1 =>
  with_mesh (mesh_of ps3 [0;1;2]) (fun _ => is_ub OutOfBounds (construct ps3 [0;1;2] m1))) = true.
Proof. vm_cast_no_check (eq_refl true). Qed.

(** C09: the last vertex occurs only in a triangle that is skipped. *)
Lemma skipped_check : is_ub NullDeref (mesh_of ps_square [0;1;2; 0;1;3]) = true.
Proof. vm_cast_no_check (eq_refl true). Qed.

(** C17: flipping a boundary edge. *)
Lemma flip_check : with_mesh (mesh_of ps_strip ix_strip) (fun m =>
  h_bd m (first_he m) && Nat.eqb (length (m_hes m)) 30 &&
  with_res (flipHE (Some (first_he m)) m) (fun b m' => b && is_nofuel (verify m'))) = true.
Proof. vm_cast_no_check (eq_refl true). Qed.

(** C18: the removed end point has a NaN coordinate. *)
Definition with_nan (m : mesh NF) : mesh NF :=
  match dst_of m (first_he m) with Some v => set_v_pos v (pt nan 0 0) m | None => m end.
Lemma nan_check : with_mesh (mesh_of ps_two ix_two) (fun m =>
  Nat.eqb (length (m_hes m)) 38 &&
  is_abort AAssert (collapseHE (Some (first_he m)) (with_nan m))) = true.
Proof. vm_cast_no_check (eq_refl true). Qed.

(** C19: collapsing the edge between the two boundary vertices. *)
Lemma pinch_check : with_mesh (mesh_of ps_two ix_two) (fun m =>
  Nat.eqb (length (m_hes m)) 38 && forallb (fun v => Nat.leb (gaps m v) 1) (m_verts m) &&
  with_res (collapseHE (Some (first_he m)) m) (fun b m' => b && existsb (fun v => Nat.eqb (gaps m' v) 2) (m_verts m'))) = true.
Proof. vm_cast_no_check (eq_refl true). Qed.

(** C21: the first collapse of collapseFace succeeds, the second is refused. *)
Lemma face_check : with_mesh (mesh_of ps_two ix_two) (fun m =>
  Nat.eqb (length (m_hes m)) 38 && Nat.eqb (length (m_faces m)) 11 && negb (on_hole m (match f_he m (first_face m) with Some h => h | None => 0 end)) &&
  with_res (collapseFace (Some (first_face m)) m) (fun b m' => negb b && Nat.eqb (length (m_faces m')) 9)) = true.
Proof. vm_cast_no_check (eq_refl true). Qed.

(** C24: a half-edge pointing to a wrong face. *)
Definition wrong_face (m : mesh NF) : mesh NF :=
  match h_next m (first_he m) with Some n => set_h_face n (Some (nth 1 (m_faces m) 0)) m | None => m end.
Lemma verify_check : with_mesh (mesh_of ps_tetra ix_tetra) (fun m =>
  let m' := wrong_face m in
  is_true (verify m') && Nat.eqb (length (m_hes m')) 12 &&
  match h_next m' (first_he m') with Some n => negb (ptr_eqb (h_face m' n) (h_face m' (first_he m'))) | None => false end) = true.
Proof. vm_cast_no_check (eq_refl true). Qed.

(** C27, C28: a single triangle. *)
Lemma single_check : with_mesh (mesh_of ps3 [0;1;2]) (fun m =>
  Nat.eqb (length (m_faces m)) 2 &&
  with_res (getVertexIndices m) (fun l _ => Nat.eqb (length l) 0) &&
  with_mesh (clone m) (fun m' => Nat.eqb (length (m_verts m')) 0 && Nat.eqb (length (m_faces m')) 0)) = true.
Proof. vm_cast_no_check (eq_refl true). Qed.

End Witness.
