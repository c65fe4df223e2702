(** Specification of re-running a recorded program.  It knows objects, values and the annotation
    switch, nothing about tapes, block variables, checkpoints or sweeps. *)
From Coq Require Import List Arith Bool.
From Verif Require Import Base Model Record.
Import ListNotations.

Section Spec.
Context {V : Type} (F : fops V).

(** The mathematical operation behind an operator or function applied to its arguments. *)
Definition sop (k : kind V) (xs : list V) : res V :=
  match k, xs with
  | KAdd, [a; b] => Ok (f_add F a b)
  | KSub, [a; b] => Ok (f_sub F a b)
  | KMul, [a; b] => Ok (f_mul F a b)
  | KDiv, [a; b] => f_div F a b
  | KPow, [a; b] => f_pow F a b
  | KNeg, [a] => Ok (f_neg F a)
  | KExp, [a] => f_exp F a
  | KLog, [a] => f_log F a
  | KMin, [a; b] => Ok (if f_lt F b a then b else a)
  | KMax, [a; b] => Ok (if f_lt F a b then b else a)
  | _, _ => Err EType
  end.
Definition sargs_ok (k : kind V) (operator : bool) (args : list nat) : bool :=
  match k, args with
  | (KAdd | KSub | KMul | KDiv | KPow), [_; _] => operator
  | KNeg, [_] => operator
  | (KMin | KMax), [_; _] => negb operator
  | (KExp | KLog), [_] => negb operator
  | _, _ => false
  end.

(** A version of an object: its name and how often it had been modified in place. *)
Definition ver : Type := nat * nat.
(** Values prescribed for some versions (the controls). *)
Definition override : Type := ver -> option V.

(** An object: its value in the recorded run, its value in the re-run, its modification count. *)
Record sobj : Type := SObj { s_rec : V; s_rep : V; s_gen : nat }.
(** [s_err]: the first exception raised by the re-run; [s_ctrls]: versions that
    became controls, with their values in the recorded run. *)
Record sst : Type := SSt { s_objs : list sobj; s_ann : bool; s_err : option exn; s_ctrls : list (ver * V) }.

Definition prescribed (ov : override) (v : ver) (x : V) : V :=
  match ov v with Some y => y | None => x end.

(** Append versions with recorded values [ys], re-run values [zs], optionally an exception. *)
Definition sobjs_new (ys zs : list V) : list sobj := map (fun yz => SObj (fst yz) (snd yz) 0) (combine ys zs).
Definition raise (e : exn) (s : sst) : sst :=
  SSt (s_objs s) (s_ann s) (match s_err s with None => Some e | x => x end) (s_ctrls s).
Definition push (os : list sobj) (s : sst) : sst :=
  SSt (s_objs s ++ os) (s_ann s) (s_err s) (s_ctrls s).
Definition put (o : nat) (x : sobj) (s : sst) : sst :=
  SSt (list_set (s_objs s) o x) (s_ann s) (s_err s) (s_ctrls s).

(** Versions that the next [n] new objects will have. *)
Definition next_vers (s : sst) (n : nat) : list ver := map (fun i => (i, 0)) (seq (length (s_objs s)) n).

(** What the re-run does with an operation whose recorded results are [ys], results named [vs]:
    not annotated, without result, or with a prescribed result: not re-executed;
    otherwise its function is applied to the re-run values. *)
Definition results (ov : override) (annotated : bool) (vs : list ver) (ys : list V) (again : res (list V)) : res (list V) :=
  if annotated && negb (existsb (fun v => is_some (ov v)) vs) && negb (Nat.eqb (length ys) 0)
  then match again with
       | Err e => Err e
       | Ok zs => if Nat.ltb (length zs) (length ys) then Err EIndex else Ok (firstn (length ys) zs)
       end
  else Ok (map (fun vy => prescribed ov (fst vy) (snd vy)) (combine vs ys)).

Definition get_args (f : sobj -> V) (s : sst) (args : list nat) : option (list V) :=
  fold_right (fun o r => match nth_error (s_objs s) o, r with Some x, Some l => Some (f x :: l) | _, _ => None end) (Some []) args.

Definition spec_call (ov : override) (annotated : bool) (func : list V -> res (list V)) (args : list nat) (s : sst) : sst :=
  match get_args s_rec s args, get_args s_rep s args with
  | Some xs, Some ps =>
      match func xs with
      | Err _ => s                            (* failed while recording: not part of the program *)
      | Ok ys =>
          match results ov annotated (next_vers s (length ys)) ys (func ps) with
          | Ok zs => push (sobjs_new ys zs) s
          | Err e => push (sobjs_new ys ys) (raise e s)
          end
      end
  | _, _ => s
  end.

Definition spec_inpl (ov : override) (annotated : bool) (func : list V -> res V) (args : list nat) (o : nat) (s : sst) : sst :=
  match get_args s_rec s args, get_args s_rep s args, nth_error (s_objs s) o with
  | Some xs, Some ps, Some x =>
      match func xs with
      | Err _ => s
      | Ok y =>
          match results ov annotated [(o, S (s_gen x))] [y] (rmap (fun z => [z]) (func ps)) with
          | Ok [z] => put o (SObj y z (S (s_gen x))) s
          | Ok _ => s
          | Err e => put o (SObj y y (S (s_gen x))) (raise e s)
          end
      end
  | _, _, _ => s
  end.

Definition spec_stmt (ov : override) (s : sst) (c : stmt V) : sst :=
  match c with
  | SNew x => push [SObj x (prescribed ov (length (s_objs s), 0) x) 0] s
  | SOp k args =>
      if sargs_ok k true args
      then spec_call ov (s_ann s) (fun xs => rmap (fun y => [y]) (sop k xs)) args s else s
  | SFun k args a =>
      if sargs_ok k false args
      then spec_call ov (s_ann s && a) (fun xs => rmap (fun y => [y]) (sop k xs)) args s else s
  | SUser _ func args a _ => spec_call ov (s_ann s && a) func args s
  | SInpl _ func args o a _ => spec_inpl ov (s_ann s && a) func args o s
  | SUpdate o x =>
      match nth_error (s_objs s) o with
      | None => s
      | Some b => put o (SObj x (prescribed ov (o, S (s_gen b)) x) (S (s_gen b))) s
      end
  | SPause => SSt (s_objs s) false (s_err s) (s_ctrls s)
  | SContinue => SSt (s_objs s) true (s_err s) (s_ctrls s)
  | SEndStep => s
  | SGC _ | STouch _ => s
  | SControl o =>
      match nth_error (s_objs s) o with
      | None => s
      | Some b => SSt (s_objs s) (s_ann s) (s_err s) (s_ctrls s ++ [((o, s_gen b), s_rec b)])
      end
  end.

Definition spec_exec (ov : override) (ann : bool) (p : list (stmt V)) : sst :=
  fold_left (spec_stmt ov) p (SSt [] ann None []).

(** Prescribe [vals] for the versions [vs]; the last one wins for a repeated version. *)
Fixpoint prescribe (vs : list ver) (vals : list V) (ov : override) : override :=
  match vs, vals with
  | v :: vs', x :: xs =>
      prescribe vs' xs (fun u => if Nat.eqb (fst u) (fst v) && Nat.eqb (snd u) (snd v) then Some x else ov u)
  | _, _ => ov
  end.
Definition no_override : override := fun _ => None.

(** Value of object [j] when the program is re-run with the values [vals] for its controls. *)
Definition spec_rerun (ann : bool) (p : list (stmt V)) (vals : list V) (j : nat) : res V :=
  let vs := map fst (s_ctrls (spec_exec no_override ann p)) in
  let s := spec_exec (prescribe vs vals no_override) ann p in
  match s_err s with
  | Some e => Err e
  | None => match nth_error (s_objs s) j with Some x => Ok (s_rep x) | None => Err EAttr end
  end.

(** The values the controls had while recording. *)
Definition control_values (ann : bool) (p : list (stmt V)) : list V :=
  map snd (s_ctrls (spec_exec no_override ann p)).
(** The value of object [j] at the end of the recorded run. *)
Definition recorded_value (ann : bool) (p : list (stmt V)) (j : nat) : option V :=
  option_map s_rec (nth_error (s_objs (spec_exec no_override ann p)) j).

(** User blocks recompute what the user's function computed. *)
Definition consistent_stmt (c : stmt V) : Prop :=
  match c with
  | SUser u func _ _ _ =>
      forall xs i, u_recompute u xs i =
        match func xs with
        | Err e => Err e
        | Ok ys => match nth_error ys i with Some y => Ok (Some y) | None => Err EIndex end
        end
  | SInpl u func _ _ _ _ => forall xs i, u_recompute u xs i = rmap Some (func xs)
  | _ => True
  end.
Definition consistent (p : list (stmt V)) : Prop := Forall consistent_stmt p.

(** In-place changes happen only while annotating (changes outside go through SUpdate, i.e.
    stop_annotating(modifies=...)). *)
Fixpoint disciplined (ann : bool) (p : list (stmt V)) : bool :=
  match p with
  | [] => true
  | SPause :: r => disciplined false r
  | SContinue :: r => disciplined true r
  | SInpl _ _ _ _ a _ :: r => ann && a && disciplined ann r
  | _ :: r => disciplined ann r
  end.

End Spec.
Arguments sst V : clear implicits.
Arguments sobj V : clear implicits.
Arguments override V : clear implicits.
