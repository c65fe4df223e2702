(** Specification: programs over plain numbers and lists of numbers.  No tape, no objects. *)
From Coq Require Import List Arith ZArith Bool Sorting.Sorted.
From Verif Require Import Base Model Spec Arrays.
Import ListNotations.

(** What Python and numpy document about indices of a sequence of length [n].  An int names a position from the front, or from
    the end if negative.  A slice names every [step]-th position from its first one up to (down to) and excluding its end,
    where missing bounds are the ends of the sequence, negative ones count from the end and positions outside are left out. *)
Definition names (n : nat) (z : Z) (p : nat) : Prop := p < n /\ (z = Z.of_nat p \/ z = (Z.of_nat p - Z.of_nat n)%Z).
Definition from_end (n : nat) (z : Z) : Z := if Z.ltb z 0 then (z + Z.of_nat n)%Z else z.
Definition first_up (n : nat) (s : option Z) : Z := match s with None => 0%Z | Some z => Z.max 0 (from_end n z) end.
Definition last_up (n : nat) (s : option Z) : Z := match s with None => Z.of_nat n | Some z => from_end n z end.
Definition first_down (n : nat) (s : option Z) : Z := match s with None => (Z.of_nat n - 1)%Z | Some z => Z.min (Z.of_nat n - 1) (from_end n z) end.
Definition last_down (n : nat) (s : option Z) : Z := match s with None => (-1)%Z | Some z => from_end n z end.
Definition indexes (it : item) (n : nat) (r : res (list nat)) : Prop :=
  match it, r with
  | IInt z, Ok ps => exists p, ps = [p] /\ names n z p
  | IInt z, Err e => e = EIndex /\ forall p, ~ names n z p
  | ISlice s e step, Ok ps => step <> 0%Z /\
      ((0 < step)%Z -> StronglySorted lt ps /\ forall p, In p ps <->
         p < n /\ (first_up n s <= Z.of_nat p < last_up n e)%Z /\ (step | Z.of_nat p - first_up n s)%Z) /\
      ((step < 0)%Z -> StronglySorted gt ps /\ forall p, In p ps <->
         p < n /\ (last_down n e < Z.of_nat p <= first_down n s)%Z /\ (step | first_down n s - Z.of_nat p)%Z)
  | ISlice _ _ step, Err e => step = 0%Z /\ e = EValue
  | IList zs, Ok ps => Forall2 (names n) zs ps
  | IList zs, Err e => e = EIndex /\ forall ps, ~ Forall2 (names n) zs ps
  | IMask ms, Ok ps => length ms = n /\ StronglySorted lt ps /\ forall p, In p ps <-> nth_error ms p = Some true
  | IMask ms, Err e => e = EIndex /\ length ms <> n
  end.

Section SpecArr.
Context {V : Type} (F : fops V).

(** Number [p] of a list, or the sublist with the numbers [ps]. *)
Definition pick (it : item) (x : aval V) : res (aval V) :=
  match x with
  | Num _ => Err EType
  | Arr l =>
      match picks it (length l) with
      | Err e => Err e
      | Ok ps => if is_int it then match ps with
                                   | p :: _ => Ok (Num (nth p l (f_zero F)))
                                   | [] => Err EIndex
                                   end
                 else Ok (Arr (map (fun p => nth p l (f_zero F)) ps))
      end
  end.
Definition number_of (x : aval V) : res V := match x with Num v => Ok v | Arr _ => Err EType end.
Definition lookup (env : list (aval V)) (i : nat) : res (aval V) :=
  match nth_error env i with Some x => Ok x | None => Err EAttr end.

Definition avalue (env : list (aval V)) (s : astmt V) : res (aval V) :=
  match s with
  | ALit x => Ok x
  | AItem a it => do x <- lookup env a; pick it x
  | AOp k args | AFun k args => do xs <- mapM (lookup env) args; do vs <- mapM number_of xs; rmap Num (sop F k vs)
  end.
(** All variables of the program run with [env] for its first variables. *)
Fixpoint avalues (env : list (aval V)) (es : list (astmt V)) : res (list (aval V)) :=
  match es with
  | [] => Ok env
  | e :: r => do x <- avalue env e; avalues (env ++ [x]) r
  end.
Definition avariable (xs : list (aval V)) (es : list (astmt V)) (j : nat) : res (aval V) :=
  do l <- avalues xs es; lookup l j.

(** Which variables hold arrays; operators and functions get floats, only arrays are indexed. *)
Definition operator (k : kind V) (args : list nat) : bool :=
  match k, args with (KAdd | KSub | KMul | KDiv | KPow), [_; _] | KNeg, [_] => true | _, _ => false end.
Definition function (k : kind V) (args : list nat) : bool :=
  match k, args with (KMin | KMax), [_; _] | (KExp | KLog), [_] => true | _, _ => false end.
Definition holds (tys : list bool) (b : bool) (i : nat) : bool :=
  match nth_error tys i with Some t => eqb t b | None => false end.
Definition atype (tys : list bool) (s : astmt V) : option bool :=
  match s with
  | ALit x => Some (is_arr x)
  | AItem a it => if holds tys true a then Some (negb (is_int it)) else None
  | AOp k args => if operator k args && forallb (holds tys false) args then Some false else None
  | AFun k args => if function k args && forallb (holds tys false) args then Some false else None
  end.
Fixpoint atypes (tys : list bool) (es : list (astmt V)) : option (list bool) :=
  match es with
  | [] => Some tys
  | e :: r => match atype tys e with Some t => atypes (tys ++ [t]) r | None => None end
  end.

(** The shape of a value: length of an array. *)
Definition shape (x : aval V) : option nat := match x with Num _ => None | Arr l => Some (length l) end.
(** Lists of ints in brackets do not name a position twice in an array of length [n]; the other kinds of index never do. *)
Definition distinct (it : item) (n : nat) : Prop :=
  match it, picks it n with IList _, Ok ps => NoDup ps | _, _ => True end.
(** No list of ints in brackets names a position twice, when the variables have the values [env]. *)
Definition unrepeated (es : list (astmt V)) (env : list (aval V)) : Prop :=
  forall a it l, In (AItem a it) es -> nth_error env a = Some (Arr l) -> distinct it (length l).
(** The variables a statement reads; each of the first [n] variables is read, or is variable [j]. *)
Definition reads (s : astmt V) : list nat := match s with ALit _ => [] | AItem a _ => [a] | AOp _ args | AFun _ args => args end.
Definition used (n j : nat) (es : list (astmt V)) : Prop := forall i, i < n -> i = j \/ exists s, In s es /\ In i (reads s).
End SpecArr.
