(** Threads: programs as sequences of single memory accesses, and their interleavings. *)
From Coq Require Import List Arith.
From Verif Require Import Num Vec Heap.
Import ListNotations.

Section Prog.
Context {S : Type}.

(** A program either is finished or performs one atomic action and goes on. *)
Inductive prog (A : Type) : Type :=
| PRet (a : A)
| PAct (X : Type) (c : S -> res (X * S)) (k : X -> prog A).
Arguments PRet {A} _.
Arguments PAct {A} X _ _.

Definition act {X} (c : S -> res (X * S)) : prog X := PAct X c PRet.
Fixpoint pbind {A B} (p : prog A) (k : A -> prog B) : prog B :=
  match p with
  | PRet a => k a
  | PAct X c k' => PAct X c (fun x => pbind (k' x) k)
  end.

(** Running a program alone. *)
Fixpoint solo {A} (p : prog A) (s : S) : res (A * S) :=
  match p with
  | PRet a => Ok (a, s)
  | PAct X c k =>
      match c s with
      | Ok (x, s') => solo (k x) s'
      | UB u => UB u
      | Abort u => Abort u
      | NoFuel => NoFuel
      end
  end.

Fixpoint setnth {X} (l : list X) (i : nat) (x : X) : list X :=
  match l, i with
  | [], _ => []
  | _ :: l', O => x :: l'
  | y :: l', Datatypes.S i' => y :: setnth l' i' x
  end.

(** [outcome s ts o]: some interleaving of the threads [ts] started in [s] ends
    with [o], either because all threads are finished or because an access fails. *)
Inductive outcome : S -> list (prog unit) -> res S -> Prop :=
| out_done s ts : (forall i p, nth_error ts i = Some p -> p = PRet tt) -> outcome s ts (Ok s)
| out_step s ts i X (c : S -> res (X * S)) k x s' o :
    nth_error ts i = Some (PAct X c k) -> c s = Ok (x, s') -> outcome s' (setnth ts i (k x)) o -> outcome s ts o
| out_ub s ts i X (c : S -> res (X * S)) k u : nth_error ts i = Some (PAct X c k) -> c s = UB u -> outcome s ts (UB u)
| out_abort s ts i X (c : S -> res (X * S)) k u : nth_error ts i = Some (PAct X c k) -> c s = Abort u -> outcome s ts (Abort u)
| out_nofuel s ts i X (c : S -> res (X * S)) k : nth_error ts i = Some (PAct X c k) -> c s = NoFuel -> outcome s ts NoFuel.

End Prog.
Arguments prog S A : clear implicits.
Arguments PRet {S A} _.
Arguments PAct {S A} X _ _.

Declare Scope prog_scope.
Delimit Scope prog_scope with prog.
Notation "x <- e ;; k" := (pbind e (fun x => k)) (at level 61, e at next level, right associativity) : prog_scope.
Notation "e ;; k" := (pbind e (fun _ => k)) (at level 61, right associativity) : prog_scope.
