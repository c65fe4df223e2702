(** Exceptions, results and the arithmetic parameter shared by the whole model. *)
From Coq Require Import List Arith ZArith Lia Bool.
Import ListNotations.

(** The Python exceptions that the modelled code raises or lets through.
    [EUser n] stands for whatever a user-supplied function raises. *)
Inductive exn : Set :=
| EValue | EType | EZeroDiv | EOverflow | ERuntime | EKey | EIndex | EAssert
| ECheckpoint | ENotImpl | EStopIter | EAttr | EUser (n : nat).

(** A Python call returns a value or raises. *)
Inductive res (A : Type) : Type :=
| Ok (a : A)
| Err (e : exn).
Arguments Ok {A} a.
Arguments Err {A} e.

Definition bind {A B} (x : res A) (f : A -> res B) : res B :=
  match x with Ok a => f a | Err e => Err e end.
Definition rmap {A B} (f : A -> B) (x : res A) : res B :=
  match x with Ok a => Ok (f a) | Err e => Err e end.

Notation "'do' x <- a ; b" := (bind a (fun x => b))
  (at level 200, x name, a at level 100, b at level 200).

(** The float operations used by pyadjoint (/repo/pyadjoint/adjfloat.py).  Nothing is assumed
    about them: structural theorems hold for any choice, in particular IEEE doubles.
    [f_div] [f_pow] [f_exp] [f_log] may raise (ZeroDivisionError, OverflowError, ValueError; a
    complex result of float.__pow__ is modelled as an error); [f_nplog] is numpy.log, which
    returns nan/-inf instead of raising. *)
Record fops (V : Type) : Type := {
  f_zero : V; f_one : V; f_two : V; f_three : V;
  f_add : V -> V -> V;
  f_sub : V -> V -> V;
  f_mul : V -> V -> V;
  f_neg : V -> V;
  f_div : V -> V -> res V;
  f_pow : V -> V -> res V;
  f_exp : V -> res V;
  f_log : V -> res V;
  f_nplog : V -> V;
  f_le : V -> V -> bool;
  f_lt : V -> V -> bool
}.
Arguments f_zero {V}. Arguments f_one {V}. Arguments f_two {V}. Arguments f_three {V}.
Arguments f_add {V}. Arguments f_sub {V}. Arguments f_mul {V}. Arguments f_neg {V}.
Arguments f_div {V}. Arguments f_pow {V}. Arguments f_exp {V}. Arguments f_log {V}.
Arguments f_nplog {V}. Arguments f_le {V}. Arguments f_lt {V}.

(** Python lists of integers/identities used as sets: membership test. *)
Definition mem (x : nat) (l : list nat) : bool := existsb (Nat.eqb x) l.

(** [enumerate l] (Python), as (index, element) pairs, starting from [i]. *)
Fixpoint enum_from {A} (i : nat) (l : list A) : list (nat * A) :=
  match l with
  | [] => []
  | x :: r => (i, x) :: enum_from (S i) r
  end.
Definition enum {A} (l : list A) : list (nat * A) := enum_from 0 l.

(** A loop over [l] whose body may raise: effects before the exception are kept. *)
Fixpoint iter_o {S A} (f : S -> A -> S * option exn) (l : list A) (s : S) : S * option exn :=
  match l with
  | [] => (s, None)
  | x :: r =>
      match f s x with
      | (s', None) => iter_o f r s'
      | (s', Some e) => (s', Some e)
      end
  end.

(** Sequencing of two raising actions. *)
Definition andthen {S} (a : S * option exn) (f : S -> S * option exn) : S * option exn :=
  match a with
  | (s, None) => f s
  | (s, Some e) => (s, Some e)
  end.

Definition is_some {A} (o : option A) : bool :=
  match o with Some _ => true | None => false end.

(** Loop in the result monad. *)
Fixpoint mapM {A B} (f : A -> res B) (l : list A) : res (list B) :=
  match l with
  | [] => Ok []
  | x :: r => match f x with
              | Err e => Err e
              | Ok y => match mapM f r with Err e => Err e | Ok ys => Ok (y :: ys) end
              end
  end.
