(** overload_function (pyadjoint/overloaded_function.py 6-48) with result shapes, results that are
    existing objects, and keyword arguments. *)
From Coq Require Import List Arith Bool.
From Verif Require Import Base Model Record.
Import ListNotations.

(** A Python result: a single object, a list or a tuple. *)
Inductive shape (A : Type) : Type := One (a : A) | PList (l : list A) | PTuple (l : list A).
Arguments One {A} a. Arguments PList {A} l. Arguments PTuple {A} l.
(** Enlist (enlisting.py 1-4) and Enlist.delist (6-12). *)
Definition enlist {A} (x : shape A) : list A := match x with One a => [a] | PList l | PTuple l => l end.
Definition delist {A B} (x : shape A) (r : list B) : res (shape B) :=
  match x with
  | PList _ | PTuple _ => Ok (PList r)
  | One _ => match r with [b] => Ok (One b) | _ => Err EAssert end
  end.

Section Over.
Context {V : Type}.
(** One result: a new value, or an existing overloaded object (for example an argument). *)
Inductive ret : Type := RNew (y : V) | ROld (o : nat).

(** [create_overloaded_object] for each result (overloaded_type.py 12-39): overloaded objects as they are. *)
Fixpoint make_results (w : world V) (rs : list ret) : world V * list nat :=
  match rs with
  | [] => (w, [])
  | RNew y :: r => let '(w1, o) := new_obj w y in let '(w2, os) := make_results w1 r in (w2, o :: os)
  | ROld o :: r => let '(w2, os) := make_results w r in (w2, o :: os)
  end.

(** The wrapped function: [accepts] are the keyword names it takes, [func] what it computes. *)
Definition call_func (accepts : list nat) (func : list V -> res (shape ret)) (kwargs : list nat) (xs : list V) : res (shape ret) :=
  if forallb (fun k => mem k accepts) kwargs then func xs else Err EType.

(** [pops]: the block class's pop_kwargs_keys (block.py 29-41); [kwargs] without [annotate]. *)
Definition exec_over (w : world V) (u : ublock V) (pops accepts : list nat) (func : list V -> res (shape ret))
  (args : list nat) (ann : bool) (kwargs : list nat) (tag : option nat) : world V * res (shape nat) :=
  match arg_vals w args with
  | Err e => (w, Err e)
  | Ok xs =>
      let annotate := w_ann w && ann in
      let kw := if annotate then filter (fun k => negb (mem k pops)) kwargs else kwargs in
      let '(w1, deps) := if annotate then add_deps w args else (w, []) in
      match call_func accepts func kw xs with
      | Err e => (w1, Err e)
      | Ok r =>
          let '(w2, os) := make_results w1 (enlist r) in
          if annotate then
            let '(w3, vs) := add_outs w2 os in
            (with_tape (fun t => add_block t (Blk (KUser u) deps vs tag)) w3, delist r os)
          else (w2, delist r os)
      end
  end.
End Over.
Arguments ret V : clear implicits.
