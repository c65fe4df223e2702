(** Floating types (/repo/pyadjoint/overloaded_type.py 401-463): objects whose value is computed from other objects, e.g. a component
    of a mixed function.  When such an object becomes a dependency of a block, a block computing it is put on the tape first.  No proofs here.
    Modelled: arguments of functions wrapped by overload_function; _ad_floating_active is True (with False the hooks are those of
    OverloadedType, up to the flag floating_type that nothing reads); output blocks (_ad_annotate_output_block 442-451) are not modelled. *)
From Coq Require Import List Arith ZArith Bool.
From Verif Require Import Base Model Record.
Import ListNotations.

Section Floating.
Context {V : Type} (F : fops V).

(** FloatingType.__init__ (402-415): block_class, _ad_args, ad_block_tag.  [vw_func]: what the object shows, given the values of its
    arguments; it shares their storage, so this holds at all times and cannot raise. *)
Record view : Type := View { vw_u : ublock V; vw_func : list V -> V; vw_args : list nat; vw_tag : option nat }.
(** The floating objects created so far. *)
Definition views : Type := list (nat * view).
Definition look (t : views) (o : nat) : option view := option_map snd (find (fun p => Nat.eqb (fst p) o) t).

(** The value an argument shows. *)
Definition read (w : world V) (t : views) (o : nat) : res V :=
  match look t o with
  | Some vw => rmap (vw_func vw) (arg_vals w (vw_args vw))
  | None => match nth_error (w_objs w) o with Some ob => Ok (o_val ob) | None => Err EAttr end
  end.

(** BlockVariable.will_add_as_dependency (block_variable.py 64-71) after the hook (65): for the block variable it was called on. *)
Definition used (w : world V) (v : nat) : world V :=
  let b := w_heap w v in
  let w1 := if match t_latest (w_tape w) with None => true | Some c => Z.ltb (bv_last b) c end
            then with_heap (fun h => upd h v (save_output false)) w else w in
  let w2 := with_tape (fun t => add_to_state t v (bv_last b)) w1 in
  with_heap (fun h => upd h v (fun b => set_times (bv_created b) (latest_timestep (w_tape w2)) b)) w2.

(** Block.add_dependency (block.py 43-57) of the floating object [f] showing [y]: its block variable is looked up, the hook (422-426)
    runs _ad_annotate_block (432-440), saves the new block variable, and the rest happens to the one looked up first.
    The object has shown [y] all along; the model writes it when the new block variable is made, nothing reads it before. *)
Definition float_dep (w : world V) (f : nat) (vw : view) (y : V) : world V * nat :=
  let '(w0, old) := get_bv w f in
  let '(w1, deps) := add_deps w0 (vw_args vw) in
  let w2 := with_tape (fun t => add_block t (Blk (KUser (vw_u vw)) deps [] (vw_tag vw))) w1 in
  let '(w3, v) := create_bv (assign_obj w2 f y) f in
  let w4 := with_tape (last_push_out v) (will_out w3 v) in
  let w5 := with_heap (fun h => upd h v (save_output false)) w4 in
  (used w5 old, v).
Fixpoint float_deps (w : world V) (t : views) (os : list nat) (ys : list V) : world V * list nat :=
  match os, ys with
  | o :: r, y :: zs =>
      let '(w1, v) := match look t o with Some vw => float_dep w o vw y | None => add_dep w o end in
      let '(w2, vs) := float_deps w1 t r zs in (w2, v :: vs)
  | _, _ => (w, [])
  end.

(** overload_function (overloaded_function.py 22-48) as in Record.exec_user. *)
Definition float_user (w : world V) (t : views) (u : ublock V) (func : list V -> res (list V)) (args : list nat)
  (ann : bool) (tag : option nat) : world V * option exn :=
  match mapM (read w t) args with
  | Err e => (w, Some e)
  | Ok xs =>
      let annotate := w_ann w && ann in
      let '(w1, deps) := if annotate then float_deps w t args xs else (w, []) in
      match func xs with
      | Err e => (w1, Some e)
      | Ok ys =>
          let '(w2, os) := new_objs w1 ys in
          if annotate then
            let '(w3, vs) := add_outs w2 os in
            (with_tape (fun t => add_block t (Blk (KUser u) deps vs tag)) w3, None)
          else (w2, None)
      end
  end.

Inductive fstmt : Type :=
| FOrd (c : stmt V)          (* an ordinary statement; arguments of SUser may be floating *)
| FView (vw : view).         (* a new floating object *)
Definition float_step (st : world V * views) (c : fstmt) : world V * views :=
  let '(w, t) := st in
  match c with
  | FOrd (SUser u func args a tag) => (fst (float_user w t u func args a tag), t)
  | FOrd c => (fst (exec_stmt F w c), t)
  | FView vw => match arg_vals w (vw_args vw) with
                | Err _ => (w, t)
                | Ok xs => (fst (new_obj w (vw_func vw xs)), (length (w_objs w), vw) :: t)
                end
  end.
Definition float_exec (ann : bool) (p : list fstmt) : world V * views := fold_left float_step p (world_new F ann, []).
(** As Session.recorded: the block variable of the functional [j] is looked up at the end. *)
Definition float_recorded (ann : bool) (p : list fstmt) (j : nat) : world V * nat := get_bv (fst (float_exec ann p)) j.
End Floating.
Arguments view V : clear implicits.
Arguments views V : clear implicits.
Arguments fstmt V : clear implicits.
