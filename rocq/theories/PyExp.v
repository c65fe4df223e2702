(** Python expressions over AdjFloats and plain numbers: which operands' methods are called and what they record.
    /repo/pyadjoint/adjfloat.py 8-96, 140-179, 232-273; Python's binary operator dispatch (data model, 3.3.8). *)
From Coq Require Import List Arith Bool.
From Verif Require Import Base Model Record.
Import ListNotations.

(** Python's binary operators on numbers, unary operators, and the functions pyadjoint.exp, log, min, max. *)
Inductive bop : Set := BAdd | BSub | BMul | BDiv | BPow | BMod | BFloor.
Inductive uop : Set := UNeg | UPos | UAbs.
Inductive fn1 : Set := FExp | FLog.
Inductive fn2 : Set := FMin | FMax.

Section PyExp.
Context {V : Type} (F : fops V).

(** Operations of plain numbers that AdjFloat does not override. *)
Record pyops : Type := { py_mod : V -> V -> res V; py_floor : V -> V -> res V; py_abs : V -> V }.
Variable P : pyops.

(** [PLit true] is an int, [PLit false] a float; [PVar i]: the i-th variable of the program. *)
Inductive pexp : Type :=
| PLit (int : bool) (v : V)
| PVar (i : nat)
| PBin (o : bop) (a b : pexp)
| PUn (o : uop) (a : pexp)
| PFun1 (f : fn1) (a : pexp)
| PFun2 (f : fn2) (a b : pexp).

(** A Python value: an int or float, or an AdjFloat object. *)
Inductive pval : Type := PNum (int : bool) (v : V) | PObj (o : nat).

(** int and float arithmetic. *)
Definition bin_val (o : bop) (a b : V) : res V :=
  match o with
  | BAdd => Ok (f_add F a b) | BSub => Ok (f_sub F a b) | BMul => Ok (f_mul F a b)
  | BDiv => f_div F a b | BPow => f_pow F a b
  | BMod => py_mod P a b | BFloor => py_floor P a b
  end.
Definition un_val (o : uop) (a : V) : V := match o with UNeg => f_neg F a | UPos => a | UAbs => py_abs P a end.
(** Is the result of two numbers an int. *)
Definition int_res (o : bop) (i j : bool) (b : V) : bool :=
  i && j && match o with BDiv => false | BPow => negb (f_lt F b (f_zero F)) | _ => true end.

Definition py_val (w : world V) (x : pval) : res V :=
  match x with
  | PNum _ v => Ok v
  | PObj o => match nth_error (w_objs w) o with Some ob => Ok (o_val ob) | None => Err EAttr end
  end.

(** annotated_operator from line 30 on (adjfloat.py 30-42): [y] is what the float method returned.  The result is
    object number [length (w_objs w)]. *)
Definition annotated (w : world V) (k : kind V) (args : list nat) (y : V) : world V :=
  let '(w1, o) := new_obj w y in
  if w_ann w then
    let '(w2, terms) := get_bvs w1 args in
    let '(w3, _) := add_deps w2 args in
    let w4 := with_tape (fun t => add_block t (Blk k terms [] None)) w3 in
    let '(w5, v) := get_bv w4 o in
    let w6 := will_out w5 v in
    with_tape (last_push_out v) w6
  else w1.
(** [arg if isinstance(arg, OverloadedType) else self.__class__(arg)] (28). *)
Definition to_adj (w : world V) (x : pval) : world V * nat :=
  match x with PNum _ v => new_obj w v | PObj o => (w, o) end.

(** The methods __add__, __sub__, __mul__, __truediv__, __pow__ of AdjFloat (54-90); % and // are float's. *)
Definition op_kind (o : bop) : option (kind V) :=
  match o with BAdd => Some KAdd | BSub => Some KSub | BMul => Some KMul | BDiv => Some KDiv | BPow => Some KPow | _ => None end.

(** [x op y].  An AdjFloat on the left: its own method.  A number on the left of an AdjFloat: the reflected method of the
    AdjFloat, which exists for + - * (70-87); float's reflected method otherwise, whose result is a float. *)
Definition py_bin (w : world V) (o : bop) (x y : pval) : world V * res pval :=
  match py_val w x, py_val w y with
  | Ok a, Ok b =>
      match bin_val o a b with
      | Err e => (w, Err e)
      | Ok r =>
          match x, y with
          | PNum i _, PNum j _ => (w, Ok (PNum (int_res o i j b) r))
          | PNum _ _, PObj oy =>
              match o with
              | BAdd => let '(w1, c) := to_adj w x in (annotated w1 KAdd [oy; c] r, Ok (PObj (length (w_objs w1))))
              | BMul => let '(w1, c) := to_adj w x in (annotated w1 KMul [oy; c] r, Ok (PObj (length (w_objs w1))))
              | BSub => let '(w1, c) := to_adj w x in (annotated w1 KSub [c; oy] r, Ok (PObj (length (w_objs w1))))
              | _ => (w, Ok (PNum false r))
              end
          | PObj ox, _ =>
              match op_kind o with
              | Some k => let '(w1, c) := to_adj w y in (annotated w1 k [ox; c] r, Ok (PObj (length (w_objs w1))))
              | None => (w, Ok (PNum false r))
              end
          end
      end
  | Err e, _ | _, Err e => (w, Err e)
  end.

(** [-x], [+x], [abs(x)]: AdjFloat has __neg__ only (66-68). *)
Definition py_un (w : world V) (o : uop) (x : pval) : world V * res pval :=
  match py_val w x with
  | Err e => (w, Err e)
  | Ok a =>
      match x, o with
      | PNum i _, _ => (w, Ok (PNum i (un_val o a)))
      | PObj ox, UNeg => (annotated w KNeg [ox] (un_val UNeg a), Ok (PObj (length (w_objs w))))
      | PObj _, _ => (w, Ok (PNum false (un_val o a)))
      end
  end.

(** create_overloaded_object (overloaded_type.py 12-39): float is registered, int is not and stays an int. *)
Definition overloaded (w : world V) (x : pval) : world V * option nat :=
  match x with
  | PObj o => (w, Some o)
  | PNum false v => let '(w1, o) := new_obj w v in (w1, Some o)
  | PNum true _ => (w, None)
  end.
(** [add_dependency(dep)] reads [dep.block_variable]: AttributeError for an int. *)
Fixpoint add_deps_until (w : world V) (os : list (option nat)) : world V :=
  match os with
  | [] | None :: _ => w
  | Some o :: r => add_deps_until (fst (add_dep w o)) r
  end.
Fixpoint all_some (os : list (option nat)) : option (list nat) :=
  match os with
  | [] => Some []
  | None :: _ => None
  | Some o :: r => option_map (cons o) (all_some r)
  end.
Fixpoint overload_all (w : world V) (xs : list pval) : world V * list (option nat) :=
  match xs with
  | [] => (w, [])
  | x :: r => let '(w1, o) := overloaded w x in let '(w2, os) := overload_all w1 r in (w2, o :: os)
  end.

(** exp, log, min, max of pyadjoint (adjfloat.py 144-179, 236-273). *)
Definition py_fun (w : world V) (k : kind V) (xs : list pval) : world V * res pval :=
  match mapM (py_val w) xs with
  | Err e => (w, Err e)
  | Ok vs =>
      if w_ann w then
        let '(w1, os) := overload_all w xs in
        match all_some os with
        | None => (add_deps_until w1 os, Err EAttr)
        | Some args =>
            let '(w2, e) := exec_fun F w1 k args true in
            (w2, match e with Some x => Err x | None => Ok (PObj (length (w_objs w1))) end)
        end
      else
        match op_value F k vs with
        | Err e => (w, Err e)
        | Ok y => (fst (new_obj w y), Ok (PObj (length (w_objs w))))
        end
  end.
Definition kind1 (f : fn1) : kind V := match f with FExp => KExp | FLog => KLog end.
Definition kind2 (f : fn2) : kind V := match f with FMin => KMin | FMax => KMax end.

(** Evaluating an expression; operands from left to right, the first exception comes out. *)
Fixpoint py_eval (env : list pval) (w : world V) (e : pexp) : world V * res pval :=
  match e with
  | PLit i v => (w, Ok (PNum i v))
  | PVar i => (w, match nth_error env i with Some x => Ok x | None => Err EKey end)
  | PBin o a b =>
      match py_eval env w a with
      | (w1, Ok x) => match py_eval env w1 b with
                      | (w2, Ok y) => py_bin w2 o x y
                      | (w2, Err e) => (w2, Err e)
                      end
      | (w1, Err e) => (w1, Err e)
      end
  | PUn o a => match py_eval env w a with (w1, Ok x) => py_un w1 o x | (w1, Err e) => (w1, Err e) end
  | PFun1 f a => match py_eval env w a with (w1, Ok x) => py_fun w1 (kind1 f) [x] | (w1, Err e) => (w1, Err e) end
  | PFun2 f a b =>
      match py_eval env w a with
      | (w1, Ok x) => match py_eval env w1 b with
                      | (w2, Ok y) => py_fun w2 (kind2 f) [x; y]
                      | (w2, Err e) => (w2, Err e)
                      end
      | (w1, Err e) => (w1, Err e)
      end
  end.

(** Assignments to new variables. *)
Fixpoint py_lets (env : list pval) (w : world V) (es : list pexp) : world V * res (list pval) :=
  match es with
  | [] => (w, Ok env)
  | e :: r => match py_eval env w e with
              | (w1, Ok x) => py_lets (env ++ [x]) w1 r
              | (w1, Err e) => (w1, Err e)
              end
  end.

(** [x0 = AdjFloat(v0); c0 = Control(x0); x1 = ...], then the assignments. *)
Fixpoint declare (i : nat) (xs : list V) : list (stmt V) :=
  match xs with [] => [] | x :: r => SNew x :: SControl i :: declare (S i) r end.
Definition py_run (ann : bool) (xs : list V) (es : list pexp) : world V * res (list pval) :=
  py_lets (map PObj (seq 0 (length xs))) (exec F (world_new F ann) (declare 0 xs)) es.

End PyExp.
Arguments pyops V : clear implicits.
Arguments pexp V : clear implicits.
Arguments pval V : clear implicits.
