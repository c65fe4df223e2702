(** Specification vocabulary for loops over tape.timestepper (C44). *)
From Coq Require Import List Arith.
From Verif Require Import Base Model Record Ckpt Stepper.
Import ListNotations.

Section Spec.
Context {V A : Type}.
(** The blocks of the tape, time step by time step, and as one list. *)
Definition steps_of (cw : cworld V) : list (list (block V)) := map (@ts_blocks V) (t_steps (w_tape (cw_w cw))).
Definition blocks_of (cw : cworld V) : list (block V) := t_flat (w_tape (cw_w cw)).
Definition consistent (cw : cworld V) : Prop := blocks_of cw = concat (steps_of cw).
(** The number of time steps the checkpointing schedule has announced, if any. *)
Definition announced (cw : cworld V) : option nat := match cw_man cw with Some m => cm_total m | None => None end.

(** Log of a loop: the item of an iteration and the blocks put on the tape while its body ran. *)
Definition item (e : entry V A) : A := fst (fst e).
Definition before (e : entry V A) : cworld V := snd (fst e).
Definition after (e : entry V A) : cworld V := snd e.
Definition work (e : entry V A) : list (block V) := skipn (length (blocks_of (before e))) (blocks_of (after e)).

(** What executing the body's statements from [cw] to [cw'] ends with: an exception, or the way the body leaves. *)
Definition performs (F : fops V) (p : list (stmt V) * leave) (cw cw' : cworld V) (l : leave) : Prop :=
  (iter_o (cexec_stmt F) (fst p) cw = (cw', None) /\ l = snd p) \/ exists e, iter_o (cexec_stmt F) (fst p) cw = (cw', Some e) /\ l = Raise e.
(** How the last iteration ends the loop; after [continue] it ends when the iterator does, or raises, or ending the time step raises. *)
Definition ends (l : leave) (out : outcome) : Prop :=
  match l with Break => out = Left | Raise e => out = Raised e | Continue => out <> Left end.
End Spec.
