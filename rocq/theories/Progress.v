(** Model of ProgressBar (src/tinymesh/core/progress.h 15-105).

    Simplifications: the clock is an argument (milliseconds since construction,
    one reading per call of step); double arithmetic on times is exact rational
    arithmetic; the text other than the bar and the two counters is left out. *)
From Coq Require Import List ZArith Bool Ascii String.
Import ListNotations.
Local Open Scope Z_scope.

Definition int_min : Z := - 2147483648.
Definition int_max : Z := 2147483647.
Definition fits (x : Z) : bool := (int_min <=? x) && (x <=? int_max).

(** progress.h 88-92: the fields m_step and m_total (m_width is the constant 40). *)
Record pbar : Type := PBar { pb_step : Z; pb_total : Z }.
(** What one call shows: nothing, or a line with the bar and the counters. *)
Record line : Type := Line { ln_bar : list ascii; ln_step : Z; ln_total : Z }.

(** [PThrow]: std::length_error from the std::string constructor.
    [PUndef]: undefined behaviour (signed overflow, division by zero, conversion of a
    double that does not fit in int). *)
Inductive pres : Type := POk (b : pbar) (o : option line) | PThrow | PUndef.

(** progress.h 20-25. *)
Definition pb_new (total : Z) : pbar := PBar 0 total.

(** std::string(n, c) with an int n converted to size_t: a negative n is a length
    above max_size. *)
Definition str (n : Z) (c : ascii) : option (list ascii) :=
  if n <? 0 then None else Some (repeat c (Z.to_nat n)).

(** progress.h 66-71. *)
Definition bar_text (tick : Z) : option (list ascii) :=
  match str tick "="%char with
  | None => None
  | Some s => if tick =? 40 then Some s else
      match str (40 - tick - 1) " "%char with Some t => Some (s ++ ">"%char :: t)%list | None => None end
  end.

(** (int)(p / q) for a quotient of integers, q > 0: truncation, undefined if it does not fit. *)
Definition to_int (p q : Z) : option Z := let x := Z.quot p q in if fits x then Some x else None.

(** progress.h 35-84: step(n) when the clock shows [elapsed] milliseconds. *)
Definition pb_do (b : pbar) (n elapsed : Z) : pres :=
  let st := pb_step b + n in                                                (* 36 *)
  let tot := pb_total b in
  if negb (fits st) then PUndef else
  if (st =? 0) || (elapsed =? 0) then PUndef else                           (* 41, 50: 0/0, (int)inf *)
  if negb (fits (tot - st)) then PUndef else                                (* 42 *)
  match to_int elapsed 1000, to_int (elapsed * (tot - st) * Z.sgn st) (Z.abs st * 1000), (* 44-47 *)
        to_int (1000 * st * Z.sgn elapsed) (Z.abs elapsed) with             (* 50 *)
  | Some _, Some _, Some _ =>
      if negb (fits (40 * st)) || (tot =? 0) then PUndef else               (* 65 *)
      match bar_text (Z.quot (40 * st) tot) with
      | None => PThrow
      | Some s =>
          if (st =? tot) || (Z.rem st (Z.max 1 (Z.quot tot 1000)) =? 0) then (* 72 *)
            match to_int (100 * st * Z.sgn tot) (Z.abs tot) with            (* 77 *)
            | Some _ => POk (PBar st tot) (Some (Line s st tot))
            | None => PUndef
            end
          else POk (PBar st tot) None
      end
  | _, _, _ => PUndef
  end.

(** progress.h 86-90. *)
Definition pb_finish (b : pbar) (elapsed : Z) : pres :=
  if pb_step b =? pb_total b then POk b None else pb_do b (pb_total b - pb_step b) elapsed.

(** A history of calls of step: amounts and clock readings. *)
Fixpoint pb_run (b : pbar) (l : list (Z * Z)) : pres :=
  match l with
  | [] => POk b None
  | (n, e) :: l' => match pb_do b n e with POk b' _ => pb_run b' l' | r => r end
  end.
(** The lines shown during a history. *)
Fixpoint pb_lines (b : pbar) (l : list (Z * Z)) : list line :=
  match l with
  | [] => []
  | (n, e) :: l' => match pb_do b n e with
                    | POk b' (Some x) => x :: pb_lines b' l'
                    | POk b' None => pb_lines b' l'
                    | _ => []
                    end
  end.
