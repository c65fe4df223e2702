(** Specification of an optimisation run: the algorithm on mathematical functions, no tape (C51). *)
From Coq Require Import List Arith Bool Reals.
From Coquelicot Require Import Coquelicot.
From Verif Require Import Base Model Spec Coll Opt SpecOpt Minimise.
Import ListNotations.

(** The methods that are given derivatives, and Hessian actions (the user's algorithm gets both). *)
Definition gets_gradient (m : method) : bool := match m with COBYLA | NelderMead | Anneal | Powell => false | _ => true end.
Definition gets_hessian (m : method) : bool := match m with NewtonCG | Custom => true | _ => false end.

Section Plays.
Context {V S : Type}.
Variable ks : list (ctl V S).
(** Objective, its derivative and its Hessian action (relations: undefined at points without). *)
Variables (J : list V -> res V) (dJ : list V -> list V -> Prop) (HJ : list V -> list V -> list V -> Prop).
Variables (jac hess : bool).
(** [plays last a r]: the algorithm [a] ends with [r] when it is answered by [J], [dJ], [HJ].
    Derivatives are asked for at [last], the point evaluated last (None: nothing evaluated, or the
    evaluation raised), and exist there. *)
Inductive plays : option (list V) -> algo V S -> res (list S) -> Prop :=
| pl_ret last x : length x = total ks -> plays last (ARet x) (Ok x)
| pl_raise last e : plays last (ARaise e) (Err e)
| pl_value last x vs k r : packed ks vs x ->
    plays (match J vs with Ok _ => Some vs | Err _ => None end) (k (J vs)) r -> plays last (AJ x k) r
| pl_gradient x vs g arr k r : jac = true -> packed ks vs x -> dJ vs g -> packed ks g arr ->
    plays (Some vs) (k (Ok arr)) r -> plays (Some vs) (AD x k) r
| pl_hessian x vs dir d g H arr k r : hess = true -> packed ks vs x -> packed ks d dir -> dJ vs g -> (exists garr, packed ks g garr) ->
    HJ vs d H -> packed ks H arr -> plays (Some vs) (k (Ok arr)) r -> plays (Some vs) (AH x dir k) r.

(** What minimize does with the algorithm's result [r]: an exception comes out unchanged; an array becomes
    controls, returned (bare if there is one) and stored, so that they are the values the controls have afterwards. *)
Definition outcome (r : res (list S)) (ans : res (pyval V)) (stored : list V) : Prop :=
  match r with
  | Err e => ans = Err e
  | Ok x => exists vs, packed ks vs x /\ stored = vs /\ ans = Ok (match vs with [v] => POne v | _ => PList vs end)
  end.
End Plays.

(** Over the reals: [J(m) = s * y(m)] with [y] the re-run program, and [g] is its derivative at [m]:
    the functional is defined near [m] in every direction, with derivative [g . d]. *)
Open Scope R_scope.
Definition objective (y : list R -> res R) (s : R) (m : list R) : res R := rmap (fun x => x * s) (y m).
Definition dotR (g d : list R) : R := fold_right Rplus 0 (map (fun xy => fst xy * snd xy) (combine g d)).
Definition moved (m d : list R) (s : R) : list R := map (fun md => fst md + s * snd md) (combine m d).
Definition gradient_at (y : list R -> res R) (s : R) (m g : list R) : Prop :=
  length g = length m /\
  forall d, length d = length m -> exists f : R -> R,
    locally 0 (fun t => objective y s (moved m d t) = Ok (f t)) /\ is_derive f 0 (dotR g d).
(** [H] is the Hessian of [s * y] at [m] applied to [d]: there is a gradient at all points of the line through [m] along [d] near [m],
    and its entries have the derivatives [H] along that line. *)
Definition hessian_at (y : list R -> res R) (s : R) (m d H : list R) : Prop :=
  length H = length m /\ length d = length m /\
  exists G : R -> list R, locally 0 (fun t => gradient_at y s (moved m d t) (G t)) /\ forall i, is_derive (fun t => nth i (G t) 0) 0 (nth i H 0).
