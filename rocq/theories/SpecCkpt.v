(** Vocabulary for the statements about checkpointed evaluation. *)
From Coq Require Import List Arith ZArith Bool.
From Verif Require Import Base Model Record Ckpt.
Import ListNotations.

Section SpecCkpt.
Context {V : Type}.

(** Programs whose objects are never modified (floats), whose block variables are not collected while
    recording, and which do not call exp or log. *)
Definition pure_stmt (c : stmt V) : bool :=
  match c with
  | SInpl _ _ _ _ _ _ | SUpdate _ _ | SGC _ => false
  | SFun (KExp | KLog) _ _ => false
  | _ => true
  end.
Definition pure_program (p : list (stmt V)) : Prop := forallb pure_stmt p = true.
(** How often the program ends a time step. *)
Definition ends (p : list (stmt V)) : nat := length (filter (fun c => match c with SEndStep => true | _ => false end) p).

End SpecCkpt.

(** The actions take the steps k, k+1, ..., n-1 in order, each exactly once, then end the forward run. *)
Inductive covers (n : nat) : nat -> list action -> Prop :=
| cov_end : covers n n [AEndForward]
| cov_fwd : forall k n1 ics adj st rest,
    k < n -> match n1 with Some b => k < b | None => True end ->
    covers n (match n1 with Some b => Nat.min b n | None => n end) rest ->
    covers n k (AForward k n1 ics adj st :: rest).

(** The actions reverse the steps m-1, ..., 0 in this order, each exactly once; before and between they may
    replay any steps and load any of the [n] steps' checkpoints. *)
Inductive reverses (n : nat) : nat -> list action -> Prop :=
| rev_end : reverses n 0 [AEndReverse]
| rev_step : forall m k clear rest, k <= m -> reverses n k rest -> reverses n m (AReverse m k clear :: rest)
| rev_fwd : forall m n0 n1 ics adj st rest, reverses n m rest -> reverses n m (AForward n0 n1 ics adj st :: rest)
| rev_copy : forall m k st rest, k < n -> reverses n m rest -> reverses n m (ACopy k st :: rest)
| rev_move : forall m k st rest, k < n -> reverses n m rest -> reverses n m (AMove k st :: rest).

(** A Forward action after which every step's values are kept, outside the working storage, for the adjoint run. *)
Definition storing (a : action) : Prop := match a with AForward _ _ _ adj st => adj = true /\ is_work st = false | _ => True end.
(** The actions reverse the steps k-1, ..., 0 in this order, loading each step's own checkpoint just before. *)
Inductive restoring : nat -> list action -> Prop :=
| res_end : restoring 0 [AEndReverse]
| res_copy : forall k st clear rest, restoring k rest -> restoring (S k) (ACopy k st :: AReverse (S k) k clear :: rest)
| res_move : forall k st clear rest, restoring k rest -> restoring (S k) (AMove k st :: AReverse (S k) k clear :: rest).

(** The schedule begins, for [n] steps, with actions covering them; a schedule that does not know [n]
    beforehand yields the same Forward actions before it is told. *)
Definition covering (sc : schedule) (n : nat) (fwd : list action) : Prop :=
  covers n 0 fwd /\
  firstn (length fwd) (sc_acts sc (Some n)) = fwd /\
  (sc_max sc = Some n \/
   sc_max sc = None /\ firstn (length fwd - 1) (sc_acts sc None) = removelast fwd).

(** After them it goes on with [rev], which reverses all steps. *)
Definition reversing (sc : schedule) (n : nat) (fwd rev : list action) : Prop :=
  reverses n n rev /\ firstn (length fwd + length rev) (sc_acts sc (Some n)) = fwd ++ rev.

(** ** What a user can call once checkpointing is enabled *)
Section Calls.
Context {V : Type} (F : fops V).

Inductive cop : Type := OEnd | OCall (rf : rfun V) (vals : list V) | ODeriv (rf : rfun V) (x : V).
Definition cop_run (s : cst V) (o : cop) : cst V * option exn :=
  let of {A} (r : cst V * res A) := (fst r, match snd r with Ok _ => None | Err e => Some e end) in
  match o with
  | OEnd => cm_end_timestep (S (Z.to_nat (latest_timestep (c_tape s)))) s
  | OCall rf vals => of (c_call F rf vals s)
  | ODeriv rf x => of (c_derivative F rf x s)
  end.

Definition ok (r : cst V * option exn) : bool := match snd r with None => true | Some _ => false end.
(** States reachable from [s]. *)
Fixpoint cop_hist (s : cst V) (l : list cop) : cst V :=
  match l with [] => s | o :: r => cop_hist (fst (cop_run s o)) r end.
(** No evaluation succeeds along the history. *)
Fixpoint no_eval (s : cst V) (l : list cop) : bool :=
  match l with
  | [] => true
  | o :: r => negb (match o with OCall _ _ => ok (cop_run s o) | _ => false end) && no_eval (fst (cop_run s o)) r
  end.

(** Every derivative along the history succeeds. *)
Fixpoint derivs_ok (s : cst V) (l : list cop) : bool :=
  match l with
  | [] => true
  | o :: r => match o with ODeriv _ _ => ok (cop_run s o) | _ => true end && derivs_ok (fst (cop_run s o)) r
  end.
(** The history is empty or ends with an evaluation. *)
Definition evaluated_last (l : list cop) : Prop := l = [] \/ exists l' rf vals, l = l' ++ [OCall rf vals].

(** Calls after which the stored values no longer belong to a completed forward run: a derivative that
    succeeded, or an evaluation that failed after the recording was over. *)
Definition spends (s : cst V) (o : cop) : Prop :=
  match o with
  | OEnd => False
  | OCall rf vals => cm_mode (c_man s) <> MRecord /\ length vals = length (rf_ctrls rf) /\ ok (cop_run s o) = false
  | ODeriv _ _ => ok (cop_run s o) = true
  end.

(** Evaluations and derivatives for the controls [cs]. *)
Definition on_controls (cs : list nat) (o : cop) : Prop :=
  match o with OEnd => False | OCall rf _ | ODeriv rf _ => rf_ctrls rf = cs end.
(** Calls that get past the check of their arguments, whether or not they succeed. *)
Definition attempted (cs : list nat) (o : cop) : Prop :=
  match o with OEnd => False | OCall _ vals => length vals = length cs | ODeriv _ _ => cs <> [] end.
(** Evaluations at the values [xs] only. *)
Definition at_values (xs : list V) (o : cop) : Prop :=
  match o with OCall _ vals => vals = xs | _ => True end.

(** Checkpointing enabled on an empty tape, then the program [p] recorded. *)
Definition ckpt_session (pkg : bool) (sc : schedule) (ann : bool) (p : list (stmt V)) (s : cst V) : Prop :=
  exists cw m, cw_enable pkg sc (world_new F ann) = (cw, None) /\ cw_man (cexec F cw p) = Some m /\
    s = cw_cst (cw_w (cexec F cw p)) m.
End Calls.
Arguments cop V : clear implicits.
