(** Specification of a run of ROL: vectors are lists of values, the objective is a function; no objects, no tape (C60). *)
From Coq Require Import List Arith Bool.
From Verif Require Import Base Model Coll Solvers SpecSolvers Rol.
Import ListNotations.

Section Plays.
Context {V S : Type}.
(** The operations of the space the controls live in. *)
Variables (add : V -> V -> V) (mul : S -> V -> V) (dot : V -> V -> S) (dim : V -> nat)
  (unary : (S -> S) -> V -> V) (binary : (S -> S -> S) -> V -> V -> V) (reduce : (S -> S -> S) -> V -> S -> S)
  (zero : S) (plus : S -> S -> S) (root : S -> S).

Definition zip {A B D} (f : A -> B -> D) (x : list A) (y : list B) : list D := map (fun p => f (fst p) (snd p)) (combine x y).
Definition put {A} (l : list A) (i : nat) (x : A) : list A := firstn i l ++ x :: skipn (Datatypes.S i) l.
Definition product (x y : list V) : S := fold_left plus (zip dot x y) zero.

(** [does vs o vs' a]: operation [o] on the vectors [vs] leaves [vs'] and answers [a]. *)
Inductive does (vs : list (list V)) : vop S -> list (list V) -> vans V S -> Prop :=
| do_clone i x : nth_error vs i = Some x -> does vs (VClone i) (vs ++ [map (mul zero) x]) (AVec (length vs))
| do_plus i j x y : nth_error vs i = Some x -> nth_error vs j = Some y -> length x = length y ->
    does vs (VPlus i j) (put vs i (zip add x y)) ANone
| do_scale a i x : nth_error vs i = Some x -> does vs (VScale a i) (put vs i (map (mul a) x)) ANone
| do_unary f i x : nth_error vs i = Some x -> does vs (VUnary f i) (put vs i (map (unary f) x)) ANone
| do_binary f i j x y : nth_error vs i = Some x -> nth_error vs j = Some y -> length x = length y ->
    does vs (VBinary f i j) (put vs i (zip (binary f) x y)) ANone
| do_dot i j x y : nth_error vs i = Some x -> nth_error vs j = Some y -> does vs (VDot i j) vs (ANum (product x y))
| do_norm i x : nth_error vs i = Some x -> does vs (VNorm i) vs (ANum (root (product x x)))
| do_dim i x : nth_error vs i = Some x -> does vs (VDim i) vs (ANat (list_sum (map dim x)))
| do_reduce f r0 i x : nth_error vs i = Some x -> does vs (VReduce f r0 i) vs (ANum (fold_left (fun r v => reduce f v r) x r0)).

(** Objective, derivative and Hessian action. *)
Variables (J : list V -> res V) (dJ : list V -> list V -> Prop) (HJ : list V -> list V -> list V -> Prop).
(** [plays vs p g a r]: [a], with vectors [vs], ends with [r]: the values of its first vector, or an exception of the objective.
    [p]: where ROL stands ([allowed], SpecSolvers.v); [g]: where it last asked for a gradient.  Hessian actions are asked for there. *)
Inductive plays : list (list V) -> rstate (list V) -> option (list V) -> algo V S -> res (list V) -> Prop :=
| pl_stop vs p g x : nth_error vs 0 = Some x -> plays vs p g Stop (Ok x)
| pl_vector vs p g o vs' a k r : does vs o vs' a -> plays vs' p g (k a) r -> plays vs p g (Ask o k) r
| pl_update vs p g f i x p' y d k r : nth_error vs i = Some x -> allowed p f x p' -> J x = Ok y -> dJ x d ->
    plays vs p' g (k ANone) r -> plays vs p g (Ask (VUpdate f i) k) r
| pl_raise vs p g f i x e k : nth_error vs i = Some x -> (f = Initial \/ f = Trial \/ f = Temp) -> J x = Err e ->
    plays vs p g (Ask (VUpdate f i) k) (Err e)
| pl_value vs p g x y k r : at_point p = Some x -> J x = Ok y -> plays vs p g (k (AVal (Some y))) r -> plays vs p g (Ask VValue k) r
| pl_gradient vs p g i x d k r : at_point p = Some x -> i < length vs -> dJ x d ->
    plays (put vs i d) p (Some x) (k ANone) r -> plays vs p g (Ask (VGradient i) k) r
| pl_hessian vs p i j x v h k r : at_point p = Some x -> i < length vs -> nth_error vs j = Some v -> HJ x v h ->
    plays (put vs i h) p (Some x) (k ANone) r -> plays vs p (Some x) (Ask (VHessVec i j) k) r.
(** What solve() returns: an exception unchanged; the values, bare if the control was given bare. *)
Definition returned (listed : bool) (r : res (list V)) : res (pyval V) :=
  match r with
  | Err e => Err e
  | Ok x => if listed then Ok (PList x) else match x with [y] => Ok (POne y) | _ => Err EAssert end
  end.
(** Lower and upper bounds: the number filled in, or the given value. *)
Definition bound_value (b : bnd V S) (x : V) : V := match b with BNum s => unary (fun _ => s) (mul zero x) | BObj v => v end.
End Plays.
