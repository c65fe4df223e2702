(** Specification: evaluating Python expressions with ordinary numbers.  No tape, no objects. *)
From Coq Require Import List Arith Bool.
From Verif Require Import Base Model Spec PyExp.
Import ListNotations.

Section SpecPy.
Context {V : Type} (F : fops V) (P : pyops V).

(** Operators of Python's numbers. *)
Definition binary (o : bop) (x y : V) : res V :=
  match o with
  | BAdd => Ok (f_add F x y) | BSub => Ok (f_sub F x y) | BMul => Ok (f_mul F x y)
  | BDiv => f_div F x y | BPow => f_pow F x y
  | BMod => py_mod P x y | BFloor => py_floor P x y
  end.
Definition unary (o : uop) (x : V) : V := match o with UNeg => f_neg F x | UPos => x | UAbs => py_abs P x end.

Fixpoint number (env : list V) (e : pexp V) : res V :=
  match e with
  | PLit _ v => Ok v
  | PVar i => match nth_error env i with Some x => Ok x | None => Err EKey end
  | PBin o a b => do x <- number env a; do y <- number env b; binary o x y
  | PUn o a => do x <- number env a; Ok (unary o x)
  | PFun1 FExp a => do x <- number env a; sop F KExp [x]
  | PFun1 FLog a => do x <- number env a; sop F KLog [x]
  | PFun2 FMin a b => do x <- number env a; do y <- number env b; sop F KMin [x; y]
  | PFun2 FMax a b => do x <- number env a; do y <- number env b; sop F KMax [x; y]
  end.
(** The values of all variables of a program run with the numbers [env] for its first variables. *)
Fixpoint numbers (env : list V) (es : list (pexp V)) : res (list V) :=
  match es with
  | [] => Ok env
  | e :: r => do x <- number env e; numbers (env ++ [x]) r
  end.
Definition variable (xs : list V) (es : list (pexp V)) (j : nat) : res V :=
  do l <- numbers xs es; match nth_error l j with Some y => Ok y | None => Err EKey end.

(** Does the expression contain a recorded float in a place where the result is one; [env]: which variables do. *)
Fixpoint recorded_float (env : list bool) (e : pexp V) : bool :=
  match e with
  | PLit _ _ => false
  | PVar i => nth i env false
  | PBin (BAdd | BSub | BMul) a b => recorded_float env a || recorded_float env b
  | PBin (BDiv | BPow) a _ => recorded_float env a
  | PBin (BMod | BFloor) _ _ => false
  | PUn UNeg a => recorded_float env a
  | PUn _ _ => false
  | PFun1 _ _ | PFun2 _ _ _ => true
  end.
(** Expressions that are floats, not ints, by their form: quotients, and operations with a float in them. *)
Fixpoint float_form (e : pexp V) : bool :=
  match e with
  | PLit i _ => negb i
  | PVar _ => false
  | PBin BDiv _ _ => true
  | PBin _ a b => float_form a || float_form b
  | PUn _ a => float_form a
  | PFun1 _ _ | PFun2 _ _ _ => true
  end.

(** The expressions pyadjoint records: in [a / b] and [a ** b] with a recorded [b] also [a] is recorded; no %, //, +x,
    abs(x) of recorded floats; arguments of exp, log, min, max are recorded or of float form. *)
Fixpoint supported (env : list bool) (e : pexp V) : bool :=
  match e with
  | PLit _ _ => true
  | PVar i => Nat.ltb i (length env)
  | PBin o a b =>
      supported env a && supported env b &&
      match o with
      | BAdd | BSub | BMul => true
      | BDiv | BPow => recorded_float env a || negb (recorded_float env b)
      | BMod | BFloor => negb (recorded_float env a) && negb (recorded_float env b)
      end
  | PUn o a => supported env a && match o with UNeg => true | _ => negb (recorded_float env a) end
  | PFun1 _ a => supported env a && (recorded_float env a || float_form a)
  | PFun2 _ a b => supported env a && supported env b && (recorded_float env a || float_form a) && (recorded_float env b || float_form b)
  end.
Fixpoint supported_program (env : list bool) (es : list (pexp V)) : bool :=
  match es with
  | [] => true
  | e :: r => supported env e && supported_program (env ++ [recorded_float env e]) r
  end.
(** Which variables hold recorded floats after the assignments. *)
Fixpoint recorded_vars (env : list bool) (es : list (pexp V)) : list bool :=
  match es with
  | [] => env
  | e :: r => recorded_vars (env ++ [recorded_float env e]) r
  end.
(** No powers, no min or max. *)
Fixpoint elementary (e : pexp V) : bool :=
  match e with
  | PLit _ _ | PVar _ => true
  | PBin o a b => match o with BPow => false | _ => elementary a && elementary b end
  | PUn _ a | PFun1 _ a => elementary a
  | PFun2 _ _ _ => false
  end.

End SpecPy.
