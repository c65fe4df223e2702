(** Specification for programs recorded after [tape.clear_tape()]: the program is re-run from the
    values the objects had when the tape was cleared.  Nothing about tapes. *)
From Coq Require Import List Arith Bool.
From Verif Require Import Base Model Record Spec.
Import ListNotations.

Section SpecClear.
Context {V : Type} (F : fops V).

(** The objects a user holds: value and number of in-place modifications of each. *)
Definition holding (ov : override V) (objs : list (V * nat)) (ann : bool) : sst V :=
  SSt (map (fun io => let '(i, (x, g)) := io in SObj x (prescribed ov (i, g) x) g) (enum objs)) ann None [].
Definition run_from (ov : override V) (objs : list (V * nat)) (ann : bool) (p : list (stmt V)) : sst V :=
  fold_left (spec_stmt F ov) p (holding ov objs ann).

(** Value of object [j] when [p] is re-run from [objs] with the controls created by [p] replaced. *)
Definition rerun_from (objs : list (V * nat)) (ann : bool) (p : list (stmt V)) (vals : list V) (j : nat) : res V :=
  let vs := map fst (s_ctrls (run_from no_override objs ann p)) in
  let s := run_from (prescribe vs vals no_override) objs ann p in
  match s_err s with
  | Some e => Err e
  | None => match nth_error (s_objs s) j with Some x => Ok (s_rep x) | None => Err EAttr end
  end.

(** The statement names only objects with number [n] or higher. *)
Definition from_stmt (n : nat) (c : stmt V) : bool :=
  match c with
  | SNew _ | SPause | SContinue | SEndStep => true
  | SOp _ args | SFun _ args _ | SUser _ _ args _ _ => forallb (Nat.leb n) args
  | SInpl _ _ args o _ _ => forallb (Nat.leb n) args && Nat.leb n o
  | SUpdate o _ | SGC o | SControl o | STouch o => Nat.leb n o
  end.
Definition only_from (n : nat) (p : list (stmt V)) : bool := forallb (from_stmt n) p.
End SpecClear.
