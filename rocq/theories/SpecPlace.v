(** Specification vocabulary for placeholders (C27). *)
From Coq Require Import List Arith.
From Verif Require Import Base Model BaseFacts Graph Record Spec History.
Import ListNotations.

Section Spec.
Context {V : Type} (F : fops V).

(** No linked variable is computed by a block that comes before a block reading the placeholder. *)
Definition links_later (lk : nat -> option nat) (bs : list (block V)) : Prop :=
  forall pre b post p l, bs = pre ++ b :: post -> lk p = Some l -> In p (deps_of post) -> ~ In l (b_outs b).
(** Placeholders are not outputs, and neither they nor what they are linked to are controls or placeholders. *)
Definition links_ok (lk : nat -> option nat) (bs : list (block V)) (cs : list nat) : Prop :=
  forall p l, lk p = Some l -> ~ In p (outs_of bs) /\ ~ In p cs /\ ~ In l cs /\ lk l = None.

(** The values [e] with each placeholder showing what its linked variable holds. *)
Definition fed (lk : nat -> option nat) (e : nat -> V) : nat -> V :=
  fun v => match lk v with Some l => e l | None => e v end.
(** The values after supplying controls. *)
Definition given (cs : list nat) (xs : list V) (e : nat -> V) : nat -> V :=
  fun v => match supplied cs xs v with Some x => x | None => e v end.

(** Evaluations of the graph one after the other; each starts from the values of the one before, the
    placeholders holding the previous values of what they are linked to. *)
Fixpoint fed_runs (lk : nat -> option nat) (bs : list (block V)) (rf : rfun V) (e : nat -> V) (l : list (list V)) : list (res V) :=
  match l with
  | [] => []
  | xs :: r => match geval F (fun v => mem v (rf_ctrls rf)) bs (given (rf_ctrls rf) xs (fed lk e)) with
               | (_, Some x) => [Err x]
               | (e1, None) => Ok (f_mul F (e1 (rf_J rf)) (rf_scale rf)) :: fed_runs lk bs rf e1 r
               end
  end.

(** The program as a function of its controls, the last of which is given the previous result. *)
Fixpoint feedback (ann : bool) (p : list (stmt V)) (j : nat) (prev : V) (l : list (list V)) : list (res V) :=
  match l with
  | [] => []
  | xs :: r => match spec_rerun F ann p (xs ++ [prev]) j with
               | Ok y => Ok y :: feedback ann p j y r
               | Err e => [Err e]
               end
  end.
End Spec.
