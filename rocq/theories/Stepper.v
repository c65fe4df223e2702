(** for step in tape.timestepper(iterable) (tape.py 236-257, 753-785).  No proofs here.

    Simplified: producing the next item records nothing on the tape.  [bar] is the class stored in
    tape.progress_bar: the null bar of the library (its [iter] returns its argument, 765-766) or a bar whose
    [iter] is a generator looping over its argument, as in the progress package. *)
From Coq Require Import List Arith ZArith Bool.
From Verif Require Import Base Model Record Ckpt.
Import ListNotations.

Section Stepper.
Context {V A : Type} (F : fops V).

(** Iterables.  A list, tuple or range has no __next__; an iterator (generator, iter(..), enumerate, zip) hands out
    its items and then raises StopIteration ([None]) or another exception. *)
Inductive iterable : Type :=
| Sequence (items : list A)
| Iterator (items : list A) (last : option exn).

Inductive bar : Set := NullBar | GeneratorBar.
Definition bar_iter (b : bar) (it : iterable) : iterable :=
  match b, it with
  | NullBar, _ => it
  | GeneratorBar, Sequence l => Iterator l None
  | GeneratorBar, Iterator l e => Iterator l e
  end.

(** next(it) *)
Definition it_next (it : iterable) : iterable * res A :=
  match it with
  | Sequence _ => (it, Err EType)
  | Iterator [] e => (Iterator [] None, Err (match e with Some e => e | None => EStopIter end))
  | Iterator (x :: l) e => (Iterator l e, Ok x)
  end.

(** TapeTimeStepper (769-785). *)
Record stepper : Type := Stepper { sp_it : iterable; sp_first : bool }.
Definition timestepper (b : bar) (it : iterable) : stepper := Stepper (bar_iter b it) true.
Definition sp_next (sp : stepper) (cw : cworld V) : stepper * cworld V * res A :=
  match it_next (sp_it sp) with
  | (it, Err e) => (Stepper it (sp_first sp), cw, Err e)
  | (it, Ok x) =>
      if sp_first sp then (Stepper it false, cw, Ok x)
      else match cexec_stmt F cw SEndStep with
           | (cw1, Some e) => (Stepper it false, cw1, Err e)
           | (cw1, None) => (Stepper it false, cw1, Ok x)
           end
  end.

(** ** The for statement of Python
    The statements of one iteration depend on its number, the item and what the program has seen so far; they stop at the
    first exception.  At the end the body goes on to the next item, leaves the loop (break, return) or
    raises. *)
Inductive leave : Set := Continue | Break | Raise (e : exn).
Definition body_fun : Type := nat -> A -> cworld V -> list (stmt V) * leave.
Definition run_body (p : list (stmt V) * leave) (cw : cworld V) : cworld V * leave :=
  match iter_o (cexec_stmt F) (fst p) cw with
  | (cw1, Some e) => (cw1, Raise e)
  | (cw1, None) => (cw1, snd p)
  end.

Inductive outcome : Set := Finished | Left | Raised (e : exn).
(** One line of the log: item, state when the body starts, state when it ends. *)
Definition entry : Type := (A * cworld V * cworld V)%type.

(** [k] counts iterations.  [None]: [fuel] used up, which does not happen below. *)
Fixpoint for_loop (fuel k : nat) (sp : stepper) (cw : cworld V) (body : body_fun) : option (cworld V * list entry * outcome) :=
  match fuel with
  | O => None
  | S f =>
      match sp_next sp cw with
      | (_, cw1, Err EStopIter) => Some (cw1, [], Finished)
      | (_, cw1, Err e) => Some (cw1, [], Raised e)
      | (sp1, cw1, Ok x) =>
          match run_body (body k x cw1) cw1 with
          | (cw2, Raise e) => Some (cw2, [(x, cw1, cw2)], Raised e)
          | (cw2, Break) => Some (cw2, [(x, cw1, cw2)], Left)
          | (cw2, Continue) =>
              match for_loop f (S k) sp1 cw2 body with
              | None => None
              | Some (cw3, log, o) => Some (cw3, (x, cw1, cw2) :: log, o)
              end
          end
      end
  end.

Definition items_of (it : iterable) : list A := match it with Sequence l => l | Iterator l _ => l end.
(** for step in tape.timestepper(it): body *)
Definition step_loop (b : bar) (it : iterable) (cw : cworld V) (body : body_fun) : option (cworld V * list entry * outcome) :=
  for_loop (S (length (items_of it))) 0 (timestepper b it) cw body.

End Stepper.

Arguments iterable A : clear implicits.
Arguments Sequence {A} _.
Arguments Iterator {A} _ _.
Arguments body_fun V A : clear implicits.
Arguments entry V A : clear implicits.
