(** Specification of the adapters: what a functional without memoisation returns, ROL's protocol,
    leaves and joined keys of nested dictionaries. *)
From Coq Require Import String Ascii List Arith Bool.
From Verif Require Import Base Model Record Solvers.
Import ListNotations.

(** ** Moola: derivatives are asked for at the point evaluated last *)
Section Moola.
Variables X A G : Type.
Fixpoint in_order (last : option X) (l : list (mcall X)) : Prop :=
  match l with
  | [] => True
  | MEval x :: r => in_order (Some x) r
  | MDeriv x :: r => last = Some x /\ in_order last r
  end.
(** Derivatives are asked for at a point evaluated last for which that was the first evaluation (or only evaluations of the
    same point lie in between).  [seen]: points evaluated so far; [cur]: the point so reached, if any. *)
Fixpoint first_time (seen : list X) (cur : option X) (l : list (mcall X)) : Prop :=
  match l with
  | [] => True
  | MEval x :: r => ((cur = Some x \/ ~ In x seen) /\ first_time (x :: seen) (Some x) r) \/ first_time (x :: seen) None r
  | MDeriv x :: r => cur = Some x /\ first_time seen cur r
  end.
(** the results, given the value and the derivative at a point *)
Definition expected (val : X -> res A) (der : X -> res G) (c : mcall X) : res A + res G :=
  match c with MEval x => inl (val x) | MDeriv x => inr (der x) end.
Definition succeeds (val : X -> res A) (der : X -> res G) (c : mcall X) : Prop :=
  match c with MEval x => exists v, val x = Ok v | MDeriv x => exists d, der x = Ok d end.
Definition evaluations_succeed (val : X -> res A) (c : mcall X) : Prop :=
  match c with MEval x => exists v, val x = Ok v | MDeriv _ => True end.
(** results of the evaluations only *)
Definition eval_results (l : list (mcall X)) (os : list (res A + res G)) : list (X * res A) :=
  flat_map (fun co => match co with (MEval x, inl r) => [(x, r)] | _ => [] end) (combine l os).
End Moola.

(** ** ROL: "Initial: has not been called before; Accept: this is the new iterate, trial has been called;
    Revert: revert to previous, trial has been called; Trial: candidate for next; Temp: temporary"
    (rol_solver.py 34-38).  [RReady c]: [c] is the iterate; [RTrial c y]: [c] is the iterate, [y] was passed last. *)
Section ROL.
Variable X : Type.
Inductive rstate : Type := RStart | RReady (c : X) | RTrial (c y : X).
Inductive allowed : rstate -> flag -> X -> rstate -> Prop :=
| al_initial s x : allowed s Initial x (RReady x)
| al_trial s f c x : (f = Trial \/ f = Temp) -> (s = RReady c \/ exists y, s = RTrial c y) -> allowed s f x (RTrial c x)
| al_accept c x : allowed (RTrial c x) Accept x (RReady x)
| al_revert s c : (s = RReady c \/ exists y, s = RTrial c y) -> allowed s Revert c (RReady c).
Definition at_point (s : rstate) : option X := match s with RStart => None | RReady c => Some c | RTrial _ y => Some y end.
End ROL.
Arguments RStart {X}. Arguments RReady {X}. Arguments RTrial {X}. Arguments allowed {X}. Arguments at_point {X}.

(** ** Nested dictionaries *)
Section Dicts.
Context {A : Type}.
Local Open Scope string_scope.
(** [path] leads to [x], which is not a dictionary with entries *)
Inductive leaf_at : param A -> list string -> param A -> Prop :=
| la_leaf a : leaf_at (PLeaf a) [] (PLeaf a)
| la_empty : leaf_at (PDict []) [] (PDict [])
| la_in k p d path x : In (k, p) d -> leaf_at p path x -> leaf_at (PDict d) (k :: path) x.
(** keys joined with the separator, which is not repeated *)
Inductive joined (sep : string) : list string -> string -> Prop :=
| jo_one k : joined sep [k] k
| jo_empty r s : joined sep r s -> joined sep ("" :: r) s
| jo_sep k r s : k <> "" -> (exists p, k = p ++ sep) -> joined sep r s -> joined sep (k :: r) (k ++ s)
| jo_add k r s : k <> "" -> ~ (exists p, k = p ++ sep) -> joined sep r s -> joined sep (k :: r) (k ++ sep ++ s).
End Dicts.

(** ** Points of a reduced functional: its value, its derivative after evaluation there from the state [h0],
    its Hessian action after that *)
Section Points.
Context {V : Type} (F : fops V).
Variables (t : tape V) (rf : rfun V) (h0 : heap V).
Notation bs := (t_flat t).
Definition val_at (x : list V) : res V := snd (rf_call F bs rf x h0).
Definition der_at (x : list V) : res (list V) := snd (rf_derivative F bs rf (f_one F) (fst (rf_call F bs rf x h0))).
Definition hes_at (x d : list V) : res (list V) := snd (rf_hessian F bs rf d (fst (rf_derivative F bs rf (f_one F) (fst (rf_call F bs rf x h0))))).

(** ROL calls update, and gradient at any time in between *)
Inductive revent : Type := RUpdate (f : flag) (x : list V) | RGradient.
Fixpoint rol_run (l : list revent) (s : rol V) : option (rol V) :=
  match l with
  | [] => Some s
  | RUpdate f x :: r => match rol_update F t rf x f s with (s', None) => rol_run r s' | (_, Some _) => None end
  | RGradient :: r => match rol_gradient F t rf s with (s', Ok _) => rol_run r s' | (_, Err _) => None end
  end.
Inductive rol_protocol : rstate (list V) -> list revent -> rstate (list V) -> Prop :=
| rp_nil p : rol_protocol p [] p
| rp_update p f x p1 l p2 v d : allowed p f x p1 -> val_at x = Ok v -> der_at x = Ok d -> rol_protocol p1 l p2 -> rol_protocol p (RUpdate f x :: l) p2
| rp_gradient p l p2 : p <> RStart -> rol_protocol p l p2 -> rol_protocol p (RGradient :: l) p2.

End Points.
Arguments RUpdate {V}. Arguments RGradient {V}.

(** The components a value has in a range of [n] scalars *)
Definition fits {S} (n : nat) (v : pval S) (d : list S) : Prop :=
  match v with PNum a => d = repeat a n | PObj e => d = e /\ length e = n | POther => False end.

Local Open Scope string_scope.
(** the prefix with one underscore at its end *)
Definition full_prefix (p0 : string) : string := if String.eqb p0 "" || ends_with "_" p0 then p0 else p0 ++ "_".
