(** Specification of Moola's functional with Hessians: answers at the points asked about (C61). *)
From Coq Require Import List Arith Bool.
From Verif Require Import Base Model Solvers Moola.
Import ListNotations.

Section Spec.
Variables X A G D : Type.
(** Value, gradient and Hessian action (relations: undefined at points without) *)
Variables (J : X -> A -> Prop) (dJ : X -> G -> Prop) (HJ : X -> D -> G -> Prop).
(** [answers last g l os]: [os] are the right answers to the calls [l].  [last]: the point evaluated last, by a call or by making an
    operator; [g]: the point of the last gradient.  Gradients are asked for at the point evaluated last; operators are applied when their point
    is the one evaluated last and the one of the last gradient. *)
Inductive answers : option X -> option X -> list (hcall X D) -> list (hans A G) -> Prop :=
| an_nil last g : answers last g [] []
| an_value last g x y l os : J x y -> answers (Some x) g l os -> answers last g (HCall (MEval x) :: l) (RVal (Ok y) :: os)
| an_gradient g x d l os : dJ x d -> answers (Some x) (Some x) l os -> answers (Some x) g (HCall (MDeriv x) :: l) (RGrad (Ok d) :: os)
| an_hessian last g x y l os : J x y -> answers (Some x) g l os -> answers last g (HHess x :: l) (RMade (Ok tt) :: os)
| an_apply x d h l os : HJ x d h -> answers (Some x) (Some x) l os -> answers (Some x) (Some x) (HApply x d :: l) (RAct (Ok h) :: os).
Definition call_point (c : hcall X D) : X := match c with HCall (MEval x) => x | HCall (MDeriv x) => x | HHess x => x | HApply x _ => x end.
End Spec.
Arguments answers {X A G D}. Arguments call_point {X D}.
