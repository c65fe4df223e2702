(** Specification: running a Python program with if and while on ordinary numbers.  No tape, no objects. *)
From Coq Require Import List Arith Bool.
From Verif Require Import Base Model Spec PyExp SpecPy PyFlow.
Import ListNotations.

Section SpecFlow.
Context {V : Type} (F : fops V) (P : pyops V).
Definition decided (c : cmp) (u v : V) : bool :=
  match c with
  | CmpLt => f_lt F u v | CmpLe => f_le F u v | CmpGt => f_lt F v u | CmpGe => f_le F v u
  | CmpEq => f_le F u v && f_le F v u | CmpNe => negb (f_le F u v && f_le F v u)
  end.
Definition assigned {A} (l : list A) (i : nat) (x : A) : list A := firstn i l ++ x :: skipn (S i) l.

(** Conditions on the expressions evaluated (given which variables are recorded floats) and on the numbers compared
    (given whether one of them is a recorded float). *)
Variables (okE : list bool -> pexp V -> bool) (okC : bool -> V -> V -> Prop).
(** [runs env p ds r]: with the variables [env] (number, is it a recorded float) the program ends with the variables in [r], or raises;
    its comparisons come out as [ds] says, in order; [r] has the part of [ds] that is left. *)
Inductive runs : list (V * bool) -> prog V -> list bool -> res (list (V * bool) * list bool) -> Prop :=
| r_skip env ds : runs env Skip ds (Ok (env, ds))
| r_assign env i e v ds : okE (map snd env) e = true -> number F P (map fst env) e = Ok v -> i <= length env ->
    runs env (Assign i e) ds (Ok (assigned env i (v, recorded_float (map snd env) e), ds))
| r_assign_raise env i e x ds : okE (map snd env) e = true -> number F P (map fst env) e = Err x -> runs env (Assign i e) ds (Err x)
| r_seq env a b ds env1 ds1 r : runs env a ds (Ok (env1, ds1)) -> runs env1 b ds1 r -> runs env (Seq a b) ds r
| r_seq_raise env a b ds e : runs env a ds (Err e) -> runs env (Seq a b) ds (Err e)
| r_if env c x y a b u v ds r : okE (map snd env) x = true -> okE (map snd env) y = true ->
    number F P (map fst env) x = Ok u -> number F P (map fst env) y = Ok v -> okC (recorded_float (map snd env) x || recorded_float (map snd env) y) u v ->
    runs env (if decided c u v then a else b) ds r -> runs env (If c x y a b) (decided c u v :: ds) r
| r_if_raise1 env c x y a b e ds : okE (map snd env) x = true -> number F P (map fst env) x = Err e -> runs env (If c x y a b) ds (Err e)
| r_if_raise2 env c x y a b u e ds : okE (map snd env) x = true -> okE (map snd env) y = true ->
    number F P (map fst env) x = Ok u -> number F P (map fst env) y = Err e -> runs env (If c x y a b) ds (Err e)
| r_while env c x y body ds r : runs env (If c x y (Seq body (While c x y body)) Skip) ds r -> runs env (While c x y body) ds r.
(** The program started on the numbers [xs] of its controls. *)
Definition started (xs : list V) : list (V * bool) := map (fun x => (x, true)) xs.
End SpecFlow.
Definition anyE {V} (_ : list bool) (_ : pexp V) : bool := true.
Definition anyC {V} (_ : bool) (_ _ : V) : Prop := True.
(** Recorded floats are not compared with numbers equal to them. *)
Definition apart {V} (b : bool) (u v : V) : Prop := b = true -> u <> v.
(** Variable [j] of the result. *)
Definition result_at {V} (r : res (list (V * bool) * list bool)) (j : nat) : res V :=
  do x <- r; match nth_error (fst x) j with Some v => Ok (fst v) | None => Err EKey end.
(** Recorded expressions without powers, min and max. *)
Definition calculus {V} (env : list bool) (e : pexp V) : bool := supported env e && elementary e.
