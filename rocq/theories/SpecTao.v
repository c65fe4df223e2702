(** Specification of a TAO solve: the solver on mathematical functions, no tape (C56). *)
From Coq Require Import List Arith Bool.
From Verif Require Import Base Model Coll Opt SpecOpt Tao.
Import ListNotations.

Section TPlays.
Context {V S : Type}.
Variable ks : list (ctl V S).
Variables (sadd smul : S -> S -> S) (szero : S).
(** Objective, its derivative, its Hessian action; Riesz representation of a derivative, control by control. *)
Variables (J : list V -> res V) (dJ : list V -> list V -> Prop) (HJ : list V -> list V -> list V -> Prop) (riesz : list (V -> V)).
Definition represent (g : list V) : list V := map (fun fv => fst fv (snd fv)) (combine riesz g).

(** [tplays m sh seen a r]: TAO, behaving as [a], ends with [r] when it is answered by [J], [dJ], [HJ] at the points it
    asks about.  [m]: the point of the Hessian, once it is set; [sh]: its shift since; [seen]: whether
    a derivative has been computed.  Points may be asked about in any order. *)
Inductive tplays : option (list V) -> S -> bool -> talgo V S -> res (list S * bool) -> Prop :=
| tp_done m sh seen x c : length x = total ks -> tplays m sh seen (TDone x c) (Ok (x, c))
| tp_raise m sh seen e : tplays m sh seen (TRaise e) (Err e)
| tp_objective m sh seen x g0 vs y g arr k r : packed ks vs x -> length g0 = total ks -> J vs = Ok y -> dJ vs g -> packed ks g arr ->
    tplays m sh true (k (Ok (y, arr))) r -> tplays m sh seen (TObj x g0 k) r
| tp_fails m sh seen x g0 vs e k r : packed ks vs x -> J vs = Err e -> tplays m sh false (k (Err e)) r -> tplays m sh seen (TObj x g0 k) r
| tp_hess m sh seen x vs k r : packed ks vs x -> tplays (Some vs) szero seen (k (Ok tt)) r -> tplays m sh seen (THess x k) r
| tp_shift m sh seen a k r : tplays m (sadd sh a) seen k r -> tplays m sh seen (TShift a k) r
| tp_mult sh seen vs x y0 d y g ga H arr k r : packed ks d x -> length y0 = total ks -> J vs = Ok y -> dJ vs g -> packed ks g ga -> HJ vs d H -> packed ks H arr ->
    tplays (Some vs) sh true (k (Ok (map (fun ab => sadd (fst ab) (smul sh (snd ab))) (combine arr x)))) r -> tplays (Some vs) sh seen (TMult x y0 k) r
| tp_norm m sh x y0 g arr k r : packed ks g x -> length y0 = total ks -> packed ks (represent g) arr ->
    tplays m sh true (k (Ok arr)) r -> tplays m sh true (TNorm x y0 k) r.

(** What solve() does with the way TAO ends. *)
Definition tao_outcome (is_list : bool) (r : res (list S * bool)) (ans : res (pyval V)) : Prop :=
  match r with
  | Err e => ans = Err e
  | Ok (_, false) => ans = Err ETao
  | Ok (x, true) => exists vs, packed ks vs x /\ ans = Ok (match vs, is_list with [v], false => POne v | _, _ => PList vs end)
  end.
End TPlays.
