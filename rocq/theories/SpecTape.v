(** Specification: which operations of a program end up on the tape, in terms of object versions
    and values only. *)
From Coq Require Import List Arith Bool.
From Verif Require Import Base Model Record Spec.
Import ListNotations.

Section SpecTape.
Context {V : Type} (F : fops V).

(** One recorded operation: what it is, the versions it read and the versions it produced, each
    with its value. *)
Record vblock : Type := VB { vb_kind : kind V; vb_deps : list (ver * V); vb_outs : list (ver * V) }.

(** The current versions of some objects. *)
Definition vers_of (s : sst V) (os : list nat) : list (ver * V) :=
  flat_map (fun o => match nth_error (s_objs s) o with Some b => [((o, s_gen b), s_rec b)] | None => [] end) os.

(** A call is recorded when annotation is on and its function returns.  [early]: the operation is
    put on the tape before it is computed (exp, log, min, max), so that an exception leaves an
    operation without results. *)
Definition tape_call (annotated early : bool) (k : kind V) (func : list V -> res (list V)) (args : list nat) (s : sst V) : list vblock :=
  match annotated, get_args s_rec s args with
  | true, Some xs =>
      match func xs with
      | Err _ => if early then [VB k (vers_of s args) []] else []
      | Ok ys => [VB k (vers_of s args) (combine (next_vers s (length ys)) ys)]
      end
  | _, _ => []
  end.
Definition tape_inpl (annotated : bool) (k : kind V) (func : list V -> res V) (args : list nat) (o : nat) (s : sst V) : list vblock :=
  match annotated, get_args s_rec s args, nth_error (s_objs s) o with
  | true, Some xs, Some b =>
      match func xs with
      | Err _ => []
      | Ok y => [VB k (vers_of s args) [((o, S (s_gen b)), y)]]
      end
  | _, _, _ => []
  end.

Definition tape_stmt (s : sst V) (c : stmt V) : list vblock :=
  match c with
  | SOp k args => if sargs_ok k true args then tape_call (s_ann s) false k (fun xs => rmap (fun y => [y]) (sop F k xs)) args s else []
  | SFun k args a => if sargs_ok k false args then tape_call (s_ann s && a) true k (fun xs => rmap (fun y => [y]) (sop F k xs)) args s else []
  | SUser u func args a _ => tape_call (s_ann s && a) false (KUser u) func args s
  | SInpl u func args o a _ => tape_inpl (s_ann s && a) (KUser u) func args o s
  | _ => []
  end.

Definition spec_step (sg : sst V * list vblock) (c : stmt V) : sst V * list vblock :=
  (spec_stmt F no_override (fst sg) c, snd sg ++ tape_stmt (fst sg) c).
Definition spec_tape (ann : bool) (p : list (stmt V)) : list vblock :=
  snd (fold_left spec_step p (SSt [] ann None [], [])).

(** The operations with results; the versions mentioned. *)
Definition has_results (b : vblock) : bool := match vb_outs b with [] => false | _ => true end.
Definition mentions (g : list vblock) (v : ver) : Prop := exists b x, In b g /\ In (v, x) (vb_deps b ++ vb_outs b).
End SpecTape.
Arguments vblock V : clear implicits.
