(* SpecHist.v : independent vocabulary used to state the properties of the
   integrator base class and of the driver loop.  Nothing here refers to how the
   model computes. *)
From Coq Require Import List.
From Verif Require Import ModelHist.
Import ListNotations.
Set Implicit Arguments.

(* The points accepted since the object was created or last reset, oldest first:
   a plain unbounded log. *)
Fixpoint accepted_log {T Y} (log : list (T * Y)) (ops : list (hist_op T Y)) : list (T * Y) :=
  match ops with
  | [] => log
  | OpAccept s :: rest => accepted_log (log ++ [(sr_t s, sr_y s)]) rest
  | OpReset t y :: rest => accepted_log [(t, y)] rest
  end.

(* the newest k entries of a log, newest first *)
Definition newest {A} (k : nat) (log : list A) : list A := firstn k (rev log).

(* t0, t0+dt, (t0+dt)+dt, ... : the i-th time reached by i successive additions *)
Fixpoint added_times {T} (add : T -> T -> T) (t0 dt : T) (i : nat) : T :=
  match i with O => t0 | S j => add (added_times add t0 dt j) dt end.

(* events a user's callbacks can observe *)
Inductive event (T Y : Type) : Type :=
| EvBefore (t : T) (y : Y)
| EvAfter (t : T) (y : Y).
Arguments EvBefore {T Y}.
Arguments EvAfter {T Y}.

(* before/after events of a run whose trajectory is ts, ys: for every step, one
   "before" event at the point the step starts from, then one "after" event at the
   point it ends in *)
Fixpoint expected_events {T Y} (pts : list (T * Y)) : list (event T Y) :=
  match pts with
  | p :: ((q :: _) as rest) =>
      EvBefore (fst p) (snd p) :: EvAfter (fst q) (snd q) :: expected_events rest
  | _ => []
  end.
