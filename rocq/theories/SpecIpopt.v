(** Specification of an IPOPT solve (C57). *)
From Coq Require Import List Arith Bool.
From Coq Require String.
Import String.StringSyntax.
From Verif Require Import Base Coll SpecOpt.
Import ListNotations.
Local Open Scope string_scope.

(** What the user gets: the solution IPOPT ends with, or the exception that came out of a callback. *)
Definition returned {V S} (ks : list (ctl V S)) (is_list : bool) (r : res (list S)) (ans : res (pyval V)) : Prop :=
  match r with
  | Err e => ans = Err e
  | Ok x => exists vs, packed ks vs x /\ ans = Ok (match vs, is_list with [v], false => POne v | _, _ => PList vs end)
  end.

(** The documented names of the parameters *)
Definition renamed (n m : String.string) : Prop :=
  (n = "tolerance" /\ m = "tol") \/ (n = "maximum_iterations" /\ m = "max_iter") \/ (n <> "tolerance" /\ n <> "maximum_iterations" /\ m = n).
