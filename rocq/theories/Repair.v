(** src/tinymesh/restore/completion.cpp 510-632: the repair of the mesh in holeFillContextCoherent. *)
From Coq Require Import Bool List ZArith Arith.
From Verif Require Import Num Vec Heap Mesh Measure.
Import ListNotations.
Local Open Scope mesh_scope.

Section Repair.
Context {N : Num}.
Notation M := (M N).

(** The loops "for (it ...) if (test) if (op) { update = true; break; }" over the half-edges
    around a vertex (523-531, 545-559, 573-587); the result is [update]. *)
Definition around (test op : ptr -> M bool) (v : ptr) : M bool :=
  circ_v v false (fun _ it => b <- test it ;; if b then r <- op it ;; ret (r, r) else ret (false, false)).
(** The loops do { ... } while (update) (515-532, 537-560, 565-588, 593-612); [k] bounds the
    rounds.  [i] is tgtId, [rep] and the result are isRepaired. *)
Fixpoint rounds (k : nat) (one : ptr -> M bool) (i : nat) (rep : bool) : M bool :=
  match k with
  | O => nofuel
  | S k' =>
      n <- get (fun m => length (m_verts m)) ;;
      if n <=? i then ret rep
      else v <- mesh_vertex (Z.of_nat i) ;; u <- one v ;; if u then rounds k' one i true else ret rep
  end.
Definition sweep (k : nat) (one : ptr -> M bool) (ids : list nat) (rep : bool) : M bool :=
  mfold (fun r i => rounds k one i r) rep ids.

(** 524: it->length() > 1.5 * avgLen. *)
Definition too_long (avgLen : num) (it : ptr) : M bool :=
  l <- he_length it ;; ret (nltb (nmul (ndiv (nofZ 3) ntwo) avgLen) l).
(** 546-551, 574-579: al and ar. *)
Definition opposite (it : ptr) : M (num * num) :=
  s <- he_src it ;; v0 <- ve_pos s ;;
  d <- he_dst it ;; v1 <- ve_pos d ;;
  n <- he_next it ;; l <- he_dst n ;; vl <- ve_pos l ;;
  r <- he_rev it ;; rn <- he_next r ;; x <- he_dst rn ;; vr <- ve_pos x ;;
  ret (vangle v0 vl v1, vangle v0 vr v1).
(** 552. *)
Definition obtuse_pair (it : ptr) : M bool := a <- opposite it ;; ret (nltb npi (nadd (fst a) (snd a))).
(** 580. *)
Definition sharp (it : ptr) : M bool :=
  a <- opposite it ;; let lim := ndiv npi (nofZ 10) in ret (nltb (fst a) lim || nltb (snd a) lim).
(** 601-611: the faces around a vertex. *)
Definition small_faces (avgArea : num) (v : ptr) : M bool :=
  circ_v v false (fun _ it =>
    f <- he_face it ;; i <- fa_idx f ;;
    if (i <? 0)%Z then ret (false, false)
    else a <- f_area f ;;
         if nltb a (nmul (ndiv none_ (nofZ 100)) avgArea) then r <- collapseFace f ;; ret (r, r) else ret (false, false)).

(** 513-533, 535-561, 563-589, 591-613. *)
Definition repair_split (k : nat) (avgLen : num) : list nat -> bool -> M bool := sweep k (around (too_long avgLen) splitHE).
Definition repair_flip (k : nat) : list nat -> bool -> M bool := sweep k (around obtuse_pair flipHE).
Definition repair_collapse (k : nat) : list nat -> bool -> M bool := sweep k (around sharp collapseHE).
Definition repair_faces (k : nat) (avgArea : num) : list nat -> bool -> M bool := sweep k (small_faces avgArea).
(** 510-613. *)
Definition repair (k : nat) (avgLen avgArea : num) (ids : list nat) : M bool :=
  r <- repair_split k avgLen ids false ;; r <- repair_flip k ids r ;;
  r <- repair_collapse k ids r ;; repair_faces k avgArea ids r.

(** 615-632: the signatures of new vertices.  hksTable: the address of a vertex and its signature;
    the entries of removed vertices stay. *)
Definition table : Type := list (nat * list num).
Definition tfind (t : table) (v : ptr) : option (list num) :=
  match v with Some a => option_map snd (find (fun e => fst e =? a) t) | None => None end.
Definition lsum (dims : nat) (l : list (list num)) : list num :=
  fold_left (fun s f => map (fun p => nadd (fst p) (snd p)) (combine s f)) l (repeat nzero dims).
Definition new_signature (dims : nat) (t : table) (i : nat) : M table :=
  v <- mesh_vertex (Z.of_nat i) ;;
  match v, tfind t v with
  | Some a, None =>
      ns <- v_neighbors v ;;
      let fs := flat_map (fun u => match tfind t u with Some f => [f] | None => [] end) ns in
      let c := nofZ (Z.of_nat (length fs)) in
      ret ((a, map (fun x => ndiv x c) (lsum dims fs)) :: t)
  | _, _ => ret t
  end.
Definition new_signatures (dims : nat) (t : table) : M table :=
  n <- get (fun m => length (m_verts m)) ;; mfold (new_signature dims) t (seq 0 n).
End Repair.
