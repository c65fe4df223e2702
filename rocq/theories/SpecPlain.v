(** Specification: running a program as plain Python.  Values only: no annotation switch, no tape. *)
From Coq Require Import List Arith Bool.
From Verif Require Import Base Model Record Spec SpecTape.
Import ListNotations.

Section SpecPlain.
Context {V : Type} (F : fops V).

Fixpoint look (l : list V) (args : list nat) : option (list V) :=
  match args with
  | [] => Some []
  | o :: r => match nth_error l o, look l r with Some x, Some xs => Some (x :: xs) | _, _ => None end
  end.
Definition plain_call (l : list V) (func : list V -> res (list V)) (args : list nat) : list V * option exn :=
  match look l args with
  | None => (l, Some EAttr)
  | Some xs => match func xs with Ok ys => (l ++ ys, None) | Err e => (l, Some e) end
  end.
(** The objects' values after a statement, and the exception it raises. *)
Definition plain (l : list V) (c : stmt V) : list V * option exn :=
  match c with
  | SNew x => (l ++ [x], None)
  | SOp k args => if sargs_ok k true args then plain_call l (fun xs => rmap (fun y => [y]) (sop F k xs)) args else (l, Some EType)
  | SFun k args _ => if sargs_ok k false args then plain_call l (fun xs => rmap (fun y => [y]) (sop F k xs)) args else (l, Some EType)
  | SUser _ func args _ _ => plain_call l func args
  | SInpl _ func args o _ _ =>
      match look l args, nth_error l o with
      | Some xs, Some _ => match func xs with Ok y => (list_set l o y, None) | Err e => (l, Some e) end
      | _, _ => (l, Some EAttr)
      end
  | SUpdate o x => match nth_error l o with Some _ => (list_set l o x, None) | None => (l, Some EAttr) end
  | SControl o | STouch o => match nth_error l o with Some _ => (l, None) | None => (l, Some EAttr) end
  | SPause | SContinue | SEndStep | SGC _ => (l, None)
  end.
Definition plain_run (l : list V) (p : list (stmt V)) : list V := fold_left (fun l c => fst (plain l c)) p l.

(** The program without the statements that raise. *)
Fixpoint survivors (l : list V) (p : list (stmt V)) : list (stmt V) :=
  match p with
  | [] => []
  | c :: r => match plain l c with
              | (l', None) => c :: survivors l' r
              | (l', Some _) => survivors l' r
              end
  end.

(** The program without annotation switches; all calls annotated. *)
Fixpoint unswitched (p : list (stmt V)) : list (stmt V) :=
  match p with
  | [] => []
  | (SPause | SContinue) :: r => unswitched r
  | SFun k args _ :: r => SFun k args true :: unswitched r
  | SUser u func args _ tag :: r => SUser u func args true tag :: unswitched r
  | SInpl u func args o _ tag :: r => SInpl u func args o true tag :: unswitched r
  | c :: r => c :: unswitched r
  end.
(** The program without collections. *)
Definition not_gc (c : stmt V) : bool := match c with SGC _ => false | _ => true end.
Definition no_gc (p : list (stmt V)) : list (stmt V) := filter not_gc p.

(** Statement executed while annotation is off, of a kind that produces new objects. *)
Definition unannotated (ann : bool) (c : stmt V) : bool :=
  match c with
  | SOp _ _ => negb ann
  | SFun _ _ a | SUser _ _ _ a _ => negb (ann && a)
  | _ => false
  end.
(** Does a statement assign to object [o]? *)
Definition modifies (o : nat) (c : stmt V) : bool :=
  match c with SInpl _ _ _ o' _ _ | SUpdate o' _ => Nat.eqb o o' | _ => false end.
Definition switches_on (c : stmt V) : bool := match c with SContinue => true | _ => false end.
End SpecPlain.
