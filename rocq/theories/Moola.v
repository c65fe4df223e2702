(** The Hessian of Moola's functional (/repo/pyadjoint/optimization/moola_problem.py 95-107), on top of the memoised
    evaluations and derivatives of Solvers.v.  No proofs here. *)
From Coq Require Import List Arith Bool.
From Verif Require Import Base Model Record Surgery Solvers.
Import ListNotations.

Section Hessian.
Variables T X A G D : Type.
Variable hash : X -> nat.
Variable ev : T -> X -> T * res A.
Variable dv : T -> T * res G.
(** rf.hessian(direction.data) *)
Variable hv : T -> D -> T * res G.

(** What Moola calls.  [HHess x]: functional.hessian(x); [HApply x d]: an operator made by functional.hessian(x) is applied to [d],
    at any later time. *)
Inductive hcall : Type := HCall (c : mcall X) | HHess (x : X) | HApply (x : X) (d : D).
(** [RMade]: hessian(x) returned an operator *)
Inductive hans : Type := RVal (r : res A) | RGrad (r : res G) | RMade (r : res unit) | RAct (r : res G).
Definition mh_step (memoize : nat) (s : moola T A G) (c : hcall) : moola T A G * hans :=
  match c with
  | HCall c => let '(s', r) := mo_step T X A G hash ev dv memoize s c in (s', match r with inl r => RVal r | inr r => RGrad r end)
  | HHess x =>
      (* self(x), whose value is dropped (99); the operator (101-107) keeps x only for the conversion of its results *)
      let '(s', r) := mo_call T X A G hash ev memoize x s in (s', RMade (rmap (fun _ => tt) r))
  | HApply _ d =>
      (* rf.hessian on the tape as it is now (104); convert_to_moola_dual_vector is not modelled *)
      let '(t, r) := hv (mo_t T A G s) d in
      (Mo T A G (mo_eh T A G s) (mo_ee T A G s) (mo_dh T A G s) (mo_de T A G s) t, RAct r)
  end.
Fixpoint mh_run (memoize : nat) (s : moola T A G) (l : list hcall) : list hans :=
  match l with
  | [] => []
  | c :: r => let '(s', o) := mh_step memoize s c in o :: mh_run memoize s' r
  end.
End Hessian.
Arguments HCall {X D}. Arguments HHess {X D}. Arguments HApply {X D}.
Arguments RVal {A G}. Arguments RGrad {A G}. Arguments RMade {A G}. Arguments RAct {A G}.
