(** On an open mesh the cotangent operator can have a negative diagonal entry. *)
From Coq Require Import List ZArith Bool Arith Floats.
From Verif Require Import Num Vec Heap Mesh Construct Spec Witness Lapl.
Import ListNotations.

Section Open.
Variables (acosF expF : float -> float) (atan2F : float -> float -> float).
Notation NF := (NumF acosF expF atan2F).
Definition ps_kite : list (vec NF) := [pt acosF expF atan2F 0 0 0; pt acosF expF atan2F (-3) (-1) 0; pt acosF expF atan2F 1 0 0; pt acosF expF atan2F 0 1 0]%float.
Definition chk_kite (m : mesh NF) : bool :=
  if Nat.eqb (length (m_verts m)) 4 then match getMeshLaplacian Cotangent m with Ok (ts, _) => PrimFloat.ltb (@entry NF ts 1 1) (-0.5)%float | _ => false end else false.
Lemma kite_check : with_mesh acosF expF atan2F (mesh_of ps_kite [0;1;2; 0;2;3]) chk_kite = true.
Proof. vm_cast_no_check (eq_refl true). Qed.
Theorem cotangent_indefinite : exists ps ix (m : mesh NF) ts m', mesh_of ps ix = Ok m /\ length (m_verts m) = 4 /\ getMeshLaplacian Cotangent m = Ok (ts, m') /\ PrimFloat.ltb (@entry NF ts 1 1) (-0.5)%float = true.
Proof.
  assert (C := kite_check). apply with_ok in C as (m & E & C). unfold chk_kite in C. match type of C with (if ?x then _ else _) = _ => destruct x eqn:L4; [|discriminate C] end. apply Nat.eqb_eq in L4.
  revert C. destruct (@getMeshLaplacian NF Cotangent m) as [[ts m']| | |] eqn:Q; intros C; try discriminate C. exists ps_kite, [0;1;2; 0;2;3], m, ts, m'. split; [exact E|]. split; [exact L4|]. split; [exact Q|exact C].
Qed.
End Open.
