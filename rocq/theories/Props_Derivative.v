(** Property theorems: derivatives (C06, C07) in any arithmetic. *)
From Coq Require Import List Arith ZArith Bool.
From Verif Require Import Base Model BaseFacts Graph Record Spec RecordFacts Replay ReplayExec History Session Sweep SpecGraph Marks FreshAdj Instances.
Import ListNotations.

(** The assumptions on tapes made below hold for every recorded program. *)
Theorem recorded_tapes_are_clean : forall (V : Type) (F : fops V) (ann : bool) (p : list (stmt V)) (j : nat),
  consistent p -> disciplined ann p = true -> j < length (w_objs (exec F (world_new F ann) p)) ->
  let w := fst (recorded F ann p j) in
  wf_tape (t_flat (w_tape w)) /\ (forall b, In b (t_flat (w_tape w)) -> gives_value F b) /\
  (forall v, bv_ctrl (w_heap w v) = false) /\ (forall v, bv_mark (w_heap w v) = false) /\
  (forall v, bv_adj (w_heap w v) = None /\ bv_tlm (w_heap w v) = None /\ bv_hess (w_heap w v) = None).
Proof. exact (@recorded_clean). Qed.
Print Assumptions recorded_tapes_are_clean.

(** [stays_fresh bs J ctrls h l]: every control is on the tape, or no control off the tape (other than
    the functional) carries an adjoint value and the calls of [l] only differentiate functionals that are
    on the tape, or [J] itself.  Both alternatives are excluded only in the situation of
    [C07_off_tape_refuted] below. *)
(** C06: two derivatives that return, with any derivatives, Hessians, tangent sweeps, resets, ... in
    between (succeeding or raising half-way, of any functional and controls), return the same list. *)
Theorem C06_repeatable : forall (V : Type) (F : fops V) (bs : list (block V)) (rf : rfun V) (a : V) (h : heap V)
    (l1 l2 : list (api V)) (g1 g2 : list V),
  topo bs -> (forall v, bv_ctrl (h v) = false) -> stays_fresh bs (rf_J rf) (rf_ctrls rf) h (l1 ++ l2) ->
  forallb (fun a => negb (is_call a)) l1 = true -> forallb (fun a => negb (is_call a)) l2 = true ->
  snd (rf_derivative F bs rf a (run_hist F bs h l1)) = Ok g1 ->
  snd (rf_derivative F bs rf a (run_hist F bs h l2)) = Ok g2 -> g1 = g2.
Proof. exact (@derivative_repeat_fresh). Qed.
Print Assumptions C06_repeatable.

(** C06: when the calls in between did not raise, the outcome is the same also if it is an exception;
    and if the derivative returns after some history with failures, it returns the same after
    any history without. *)
Theorem C06_repeatable_no_failures : forall (V : Type) (F : fops V) (bs : list (block V)) (rf : rfun V) (a : V) (h : heap V)
    (l1 l2 : list (api V)),
  topo bs -> (forall v, bv_ctrl (h v) = false) -> (forall v, bv_mark (h v) = false) ->
  stays_fresh bs (rf_J rf) (rf_ctrls rf) h (l1 ++ l2) ->
  forallb (fun a => negb (is_call a)) l1 = true -> forallb (fun a => negb (is_call a)) l2 = true ->
  all_ok F bs h l1 = true -> all_ok F bs h l2 = true ->
  snd (rf_derivative F bs rf a (run_hist F bs h l1)) = snd (rf_derivative F bs rf a (run_hist F bs h l2)).
Proof. exact (@derivative_clean_fresh). Qed.
Print Assumptions C06_repeatable_no_failures.

Theorem C06_failures_only_lose_results : forall (V : Type) (F : fops V) (bs : list (block V)) (rf : rfun V) (a : V) (h : heap V)
    (l1 l2 : list (api V)) (g : list V),
  topo bs -> (forall v, bv_ctrl (h v) = false) -> (forall v, bv_mark (h v) = false) ->
  stays_fresh bs (rf_J rf) (rf_ctrls rf) h (l1 ++ l2) ->
  forallb (fun a => negb (is_call a)) l1 = true -> forallb (fun a => negb (is_call a)) l2 = true ->
  all_ok F bs h l2 = true ->
  snd (rf_derivative F bs rf a (run_hist F bs h l1)) = Ok g ->
  snd (rf_derivative F bs rf a (run_hist F bs h l2)) = Ok g.
Proof. exact (@derivative_monotone_fresh). Qed.
Print Assumptions C06_failures_only_lose_results.

(** [x = 2; y = 0; e = 0; p = y ** e; J = x + p]. *)
Definition pow_at_zero : list (stmt Z) :=
  [SNew 2%Z; SNew 0%Z; SNew 0%Z; SControl 0; SControl 1; SOp KPow [1; 2]; SOp KAdd [0; 3]].
Definition paz_w := fst (recorded ZF true pow_at_zero 4).
Definition paz_J := snd (recorded ZF true pow_at_zero 4).

(** Full C06 is false: a derivative with respect to [y] that raises (0**-1) leaves [y] marked, and
    then the derivative with respect to [x], which returned before, raises too. *)
Theorem C06_stale_marks_refuted : exists (bs : list (block Z)) (h : heap Z) (rf : rfun Z) (l : list (api Z)),
  (forall v, bv_ctrl (h v) = false) /\ (forall v, bv_mark (h v) = false) /\
  forallb (fun a => negb (is_call a)) l = true /\
  snd (rf_derivative ZF bs rf 1%Z h) = Ok [1%Z] /\
  snd (rf_derivative ZF bs rf 1%Z (run_hist ZF bs h l)) = Err EZeroDiv.
Proof.
  exists (t_flat (w_tape paz_w)), (w_heap paz_w), (RF paz_J [0] 1%Z), [ADeriv (RF paz_J [1] 1%Z) 1%Z].
  destruct (recorded_clean ZF true pow_at_zero 4) as [_ [_ [A [B _]]]].
  - repeat constructor.
  - reflexivity.
  - vm_compute. repeat constructor.
  - split; [exact A|]. split; [exact B|]. vm_conj.
Qed.
Print Assumptions C06_stale_marks_refuted.

(** A history with a failing Hessian in it, controls on the tape, the derivative still returns. *)
Example C06_demo :
  let bs := t_flat (w_tape paz_w) in
  let l := [ADeriv (RF paz_J [0] 7%Z) 3%Z; AHess (RF paz_J [0; 1] 1%Z) [1%Z; 1%Z; 1%Z]; AGrad 3 [0] 5%Z; ATlm [(0, Some 4%Z)] false] in
  all_ok ZF bs (w_heap paz_w) l = false /\
  snd (rf_derivative ZF bs (RF paz_J [0] 1%Z) 1%Z (run_hist ZF bs (w_heap paz_w) l)) = Ok [1%Z] /\
  snd (rf_derivative ZF bs (RF paz_J [0] 1%Z) 1%Z (w_heap paz_w)) = Ok [1%Z] /\
  mem 0 (vars_of bs) = true.
Proof. vm_conj. Qed.

(** C07: if no chain of recorded operations leads from a control (used on the tape) to the
    functional, its derivative is zero, after any call history. *)
Theorem C07_no_influence_zero : forall (V : Type) (F : fops V) (bs : list (block V)) (rf : rfun V) (a : V) (h : heap V)
    (l : list (api V)) (g : list V) (i c : nat),
  topo bs -> (forall v, bv_ctrl (h v) = false) ->
  nth_error (rf_ctrls rf) i = Some c -> In c (vars_of bs) -> ~ influences bs c (rf_J rf) ->
  snd (rf_derivative F bs rf a (run_hist F bs h l)) = Ok g -> nth_error g i = Some (f_zero F).
Proof. exact (@no_influence_zero). Qed.
Print Assumptions C07_no_influence_zero.

(** [J = x * x] and [K = x * y]: J does not depend on y; a derivative of K came before. *)
Definition two_funs : list (stmt Z) :=
  [SNew 3%Z; SNew 5%Z; SControl 0; SControl 1; SOp KMul [0; 0]; SOp KMul [0; 1]].
Definition tf_w := fst (recorded ZF true two_funs 2).
Example C07_demo :
  let bs := t_flat (w_tape tf_w) in
  ~ influences bs 1 2 /\ influences bs 1 3 /\
  snd (rf_derivative ZF bs (RF 3 [0; 1] 1%Z) 1%Z (w_heap tf_w)) = Ok [5%Z; 3%Z] /\
  snd (rf_derivative ZF bs (RF 2 [0; 1] 1%Z) 1%Z (run_hist ZF bs (w_heap tf_w) [ADeriv (RF 3 [0; 1] 1%Z) 1%Z])) = Ok [6%Z; 0%Z].
Proof.
  destruct (recorded_clean ZF true two_funs 2) as [[Ht _] _].
  { repeat constructor. } { reflexivity. } { vm_compute. repeat constructor. }
  assert (E : find_relevant (t_flat (w_tape tf_w)) [1] = [3; 1]) by (vm_compute; reflexivity).
  assert (I : forall v, influences (t_flat (w_tape tf_w)) 1 v <-> In v [3; 1]).
  { intros v. rewrite <- E. rewrite (find_relevant_influences (t_flat (w_tape tf_w)) [1] v Ht). split.
    - intros H. exists 1. split; [left; reflexivity|exact H].
    - intros [c [[<-|[]] H]]. exact H. }
  cbv zeta. split; [|split; [|vm_conj]].
  - rewrite I. intros [H|[H|[]]]; discriminate.
  - rewrite I. left. reflexivity.
Qed.

(** Full C07 is false for a control that is not on the tape: [rf1 = ReducedFunctional(x, Control(x))]
    leaves adj_value = 1 in x's variable, which no reset reaches; afterwards the derivative of
    [J = y * y] with respect to x, on which J does not depend, is 1. *)
Theorem C07_off_tape_refuted : exists (bs : list (block Z)) (h : heap Z) (J c : nat) (l : list (api Z)),
  topo bs /\ (forall v, bv_ctrl (h v) = false) /\ (forall v, bv_adj (h v) = None) /\
  ~ influences bs c J /\
  snd (rf_derivative ZF bs (RF J [c] 1%Z) 1%Z h) = Ok [0%Z] /\
  snd (rf_derivative ZF bs (RF J [c] 1%Z) 1%Z (run_hist ZF bs h l)) = Ok [1%Z].
Proof.
  set (p := [SNew 3%Z; SNew 5%Z; SControl 0; SControl 1; SOp KMul [1; 1]]).
  destruct (recorded_clean ZF true p 2) as [[Ht _] [_ [A [_ B]]]].
  { repeat constructor. } { reflexivity. } { vm_compute. repeat constructor. }
  set (w := fst (recorded ZF true p 2)) in *.
  exists (t_flat (w_tape w)), (w_heap w), 2, 0, [ADeriv (RF 0 [0] 1%Z) 1%Z].
  split; [exact Ht|]. split; [exact A|]. split; [apply B|]. split; [|vm_conj].
  intros H. assert (K : In 2 (find_relevant (t_flat (w_tape w)) [0])).
  { apply (find_relevant_influences _ _ _ Ht). exists 0. split; [left; reflexivity|exact H]. }
  assert (E : find_relevant (t_flat (w_tape w)) [0] = [0]) by (vm_compute; reflexivity).
  rewrite E in K. destruct K as [K|[]]; discriminate.
Qed.
Print Assumptions C07_off_tape_refuted.
