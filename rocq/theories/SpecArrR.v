(** Directions and directional derivatives for controls that are floats and arrays. *)
From Coq Require Import List ZArith Reals.
From Verif Require Import Base Model RealInst Arrays SpecArr.
Import ListNotations.
Open Scope R_scope.

(** A direction for a value: a float for a float, an array of the same length for an array. *)
Definition direction (x y : aval R) : Prop :=
  match x, y with Num _, Num _ => True | Arr l, Arr m => length l = length m | _, _ => False end.
(** [x + s*y], entry by entry. *)
Fixpoint move (l m : list R) (s : R) : list R := match l, m with x :: l', y :: m' => (x + s * y) :: move l' m' s | _, _ => [] end.
Definition moved (x y : aval R) (s : R) : aval R :=
  match x, y with Num a, Num b => Num (a + s * b) | Arr l, Arr m => Arr (move l m s) | _, _ => x end.
Fixpoint moves (xs ys : list (aval R)) (s : R) : list (aval R) :=
  match xs, ys with x :: xs', y :: ys' => moved x y s :: moves xs' ys' s | _, _ => [] end.
(** [numpy.sum(g * d)]: the float [g] multiplies every entry. *)
Fixpoint sum_prod (l m : list R) : R := match l, m with x :: l', y :: m' => x * y + sum_prod l' m' | _, _ => 0 end.
Fixpoint sum_all (l : list R) : R := match l with [] => 0 | x :: l' => x + sum_all l' end.
Definition apair (g d : aval R) : R :=
  match g, d with
  | Num x, Num y => x * y
  | Num x, Arr m => x * sum_all m
  | Arr l, Num y => sum_all l * y
  | Arr l, Arr m => sum_prod l m
  end.
Fixpoint apairs (gs ds : list (aval R)) : R := match gs, ds with g :: gs', d :: ds' => apair g d + apairs gs' ds' | _, _ => 0 end.

(** Variable [b] is assigned a literal by the program, whose first [n] variables are the controls. *)
Definition literal (n : nat) (es : list (astmt R)) (b : nat) : Prop := (n <= b)%nat /\ exists x, nth_error es (b - n)%nat = Some (ALit x).
(** With [env] for the values of the variables, every power has a positive base or a literal integer exponent that is defined and differentiable there,
    and [min] and [max] are not taken of equal numbers. *)
Definition gentle (n : nat) (es : list (astmt R)) (env : list (aval R)) : Prop :=
  (forall a b x y, In (AOp KPow [a; b]) es -> nth_error env a = Some (Num x) -> nth_error env b = Some (Num y) ->
     0 < x \/ (literal n es b /\ exists z : Z, y = IZR z /\ (x <> 0 \/ (1 <= z)%Z))) /\
  (forall k a b x y, In (AFun k [a; b]) es -> k = KMin \/ k = KMax -> nth_error env a = Some (Num x) -> nth_error env b = Some (Num y) -> x <> y).
