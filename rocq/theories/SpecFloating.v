(** Specification: re-running a program with floating objects.  A floating object has no value of its own: whenever it is used it shows
    its function of what its arguments are at that moment.  No tape, no block variables. *)
From Coq Require Import List Arith Bool.
From Verif Require Import Base Model Record Spec Floating.
Import ListNotations.

Section SpecFloating.
Context {V : Type} (F : fops V).

Definition shown (f : sobj V -> V) (s : sst V) (t : views V) (o : nat) : option V :=
  match look t o with
  | Some vw => option_map (vw_func vw) (get_args f s (vw_args vw))
  | None => option_map f (nth_error (s_objs s) o)
  end.
Definition shown_all (f : sobj V -> V) (s : sst V) (t : views V) (args : list nat) : option (list V) :=
  fold_right (fun o r => match shown f s t o, r with Some x, Some l => Some (x :: l) | _, _ => None end) (Some []) args.
(** As Spec.spec_call. *)
Definition spec_fcall (ov : override V) (annotated : bool) (func : list V -> res (list V)) (args : list nat) (s : sst V) (t : views V) : sst V :=
  match shown_all s_rec s t args, shown_all s_rep s t args with
  | Some xs, Some ps =>
      match func xs with
      | Err _ => s
      | Ok ys =>
          match results ov annotated (next_vers s (length ys)) ys (func ps) with
          | Ok zs => push (sobjs_new ys zs) s
          | Err e => push (sobjs_new ys ys) (raise e s)
          end
      end
  | _, _ => s
  end.
Definition spec_fstmt (ov : override V) (st : sst V * views V) (c : fstmt V) : sst V * views V :=
  let '(s, t) := st in
  match c with
  | FOrd (SUser _ func args a _) => (spec_fcall ov (s_ann s && a) func args s t, t)
  | FOrd c => (spec_stmt F ov s c, t)
  | FView vw => match get_args s_rec s (vw_args vw), get_args s_rep s (vw_args vw) with
                | Some xs, Some ps => (push [SObj (vw_func vw xs) (vw_func vw ps) 0] s, (length (s_objs s), vw) :: t)
                | _, _ => (s, t)
                end
  end.
Definition spec_fexec (ov : override V) (ann : bool) (p : list (fstmt V)) : sst V * views V :=
  fold_left (spec_fstmt ov) p (SSt [] ann None [], []).
(** Value of object [j] when the program is re-run with the values [vals] for its controls. *)
Definition spec_frerun (ann : bool) (p : list (fstmt V)) (vals : list V) (j : nat) : res V :=
  let vs := map fst (s_ctrls (fst (spec_fexec no_override ann p))) in
  let s := fst (spec_fexec (prescribe vs vals no_override) ann p) in
  match s_err s with
  | Some e => Err e
  | None => match nth_error (s_objs s) j with Some x => Ok (s_rep x) | None => Err EAttr end
  end.

(** Blocks compute what the functions compute. *)
Definition view_consistent (vw : view V) : Prop := forall xs i, u_recompute (vw_u vw) xs i = Ok (Some (vw_func vw xs)).
Definition fconsistent (p : list (fstmt V)) : Prop :=
  Forall (fun c => match c with FOrd c => consistent_stmt c | FView vw => view_consistent vw end) p.

(** Floating objects are only used as arguments of wrapped functions, at most once per call; in particular they are no controls, and
    arguments of floating objects are not floating.  Other objects: as they like; no operators and no wrapped in-place functions here. *)
Definition plain (t : views V) (o : nat) : Prop := look t o = None.
Definition floats (t : views V) (o : nat) : bool := is_some (look t o).
Definition allowed (t : views V) (c : fstmt V) : Prop :=
  match c with
  | FView vw => Forall (plain t) (vw_args vw)
  | FOrd (SUser _ _ args _ _) => NoDup (filter (floats t) args)
  | FOrd (SUpdate o _) | FOrd (SControl o) => plain t o
  | FOrd (SOp _ _) | FOrd (SFun _ _ _) | FOrd (SInpl _ _ _ _ _ _) => False
  | FOrd _ => True
  end.
Fixpoint legal (st : sst V * views V) (p : list (fstmt V)) : Prop :=
  match p with
  | [] => True
  | c :: r => allowed (snd st) c /\ legal (spec_fstmt no_override st c) r
  end.
End SpecFloating.
