(** Python programs with assignments, if and while over AdjFloats and plain numbers.
    AdjFloat (/repo/pyadjoint/adjfloat.py 48-110) defines no comparison and no __bool__: float's are used, which look at the value and
    return a plain bool, so nothing is recorded about them.  No proofs here. *)
From Coq Require Import List Arith Bool.
From Verif Require Import Base Model Record PyExp.
Import ListNotations.

Inductive cmp : Set := CmpLt | CmpLe | CmpGt | CmpGe | CmpEq | CmpNe.

Section PyFlow.
Context {V : Type} (F : fops V) (P : pyops V).

(** Variables are numbered in the order of their first assignment. *)
Inductive prog : Type :=
| Skip
| Assign (i : nat) (e : pexp V)
| Seq (a b : prog)
| If (c : cmp) (x y : pexp V) (a b : prog)
| While (c : cmp) (x y : pexp V) (body : prog).

(** float.__lt__ and so on; [==] in terms of [<=], also right for nan. *)
Definition cmp_val (c : cmp) (a b : V) : bool :=
  match c with
  | CmpLt => f_lt F a b | CmpLe => f_le F a b | CmpGt => f_lt F b a | CmpGe => f_le F b a
  | CmpEq => f_le F a b && f_le F b a | CmpNe => negb (f_le F a b && f_le F b a)
  end.
Definition bind_var (env : list (pval V)) (i : nat) (x : pval V) : res (list (pval V)) :=
  if i <? length env then Ok (list_set env i x) else if i =? length env then Ok (env ++ [x]) else Err EKey.

(** [None]: not finished after [fuel] steps. *)
Fixpoint py_flow (fuel : nat) (env : list (pval V)) (w : world V) (p : prog) : option (world V * res (list (pval V))) :=
  match fuel with
  | 0 => None
  | S f =>
      match p with
      | Skip => Some (w, Ok env)
      | Assign i e => match py_eval F P env w e with
                      | (w1, Ok x) => Some (w1, bind_var env i x)
                      | (w1, Err e) => Some (w1, Err e)
                      end
      | Seq a b => match py_flow f env w a with
                   | Some (w1, Ok env1) => py_flow f env1 w1 b
                   | r => r
                   end
      | If c x y a b =>
          match py_eval F P env w x with
          | (w1, Err e) => Some (w1, Err e)
          | (w1, Ok u) =>
              match py_eval F P env w1 y with
              | (w2, Err e) => Some (w2, Err e)
              | (w2, Ok v) =>
                  match py_val w2 u, py_val w2 v with
                  | Ok s, Ok t => py_flow f env w2 (if cmp_val c s t then a else b)
                  | Err e, _ | _, Err e => Some (w2, Err e)
                  end
              end
          end
      | While c x y body => py_flow f env w (If c x y (Seq body (While c x y body)) Skip)
      end
  end.
(** As [py_run]: the first variables are controls. *)
Definition flow_run (fuel : nat) (xs : list V) (p : prog) : option (world V * res (list (pval V))) :=
  py_flow fuel (map PObj (seq 0 (length xs))) (exec F (world_new F true) (declare 0 xs)) p.
End PyFlow.
Arguments prog V : clear implicits.
