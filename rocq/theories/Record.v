(** Recording: the tape with its time steps, overloaded objects, and user programs as statement
    lists.  No proofs here.  Line numbers refer to /repo/pyadjoint. *)
From Coq Require Import List Arith ZArith Lia Bool.
From Verif Require Import Base Model.
Import ListNotations.

Section Record_.
Context {V : Type} (F : fops V).

(** ** Tape and time steps: tape.py 178-335, 788-911 *)

(** TimeStep (tape.py 788-802).  OrderedSets are duplicate-free lists in insertion order
    (OrderedSet.v); [_checkpoint] is an insertion-ordered dictionary. *)
Record tstep : Type := TS {
  ts_blocks : list (block V);
  ts_state : list nat;
  ts_adjdeps : list nat;
  ts_ckpt : list (nat * option (V * bool));
  ts_revised : bool
}.
Definition ts_new : tstep := TS [] [] [] [] false.

(** Tape (178-208) without package data: TimeStepSequence keeps both [_steps] and the flat list. *)
Record tape : Type := Tape {
  t_steps : list tstep;
  t_flat : list (block V);
  t_latest : option Z;      (* latest_checkpoint; None is float("inf") *)
  t_eager : bool;           (* _eagerly_checkpoint_outputs *)
  t_count : nat             (* _recompute_count *)
}.
Definition tape_new : tape := Tape [] [] None false 0.

Definition set_steps (s : list tstep) (t : tape) := Tape s (t_flat t) (t_latest t) (t_eager t) (t_count t).

(** OrderedSet.add (ordered_set.py 36). *)
Definition oadd (v : nat) (s : list nat) : list nat := if mem v s then s else s ++ [v].

(** latest_timestep (219-222). *)
Definition latest_timestep (t : tape) : Z := Z.max (Z.of_nat (length (t_steps t)) - 1) 0.

(** TimeStepSequence.append_step (899-901). *)
Definition append_step (t : tape) : tape := set_steps (t_steps t ++ [ts_new]) t.
Definition ensure_step (t : tape) : tape := match t_steps t with [] => append_step t | _ => t end.

(** Apply [f] to the last element. *)
Fixpoint map_last {A} (f : A -> A) (l : list A) : list A :=
  match l with
  | [] => []
  | [x] => [f x]
  | x :: r => x :: map_last f r
  end.

Definition ts_push (b : block V) (s : tstep) :=
  TS (ts_blocks s ++ [b]) (ts_state s) (ts_adjdeps s) (ts_ckpt s) (ts_revised s).

(** TimeStepSequence.append (892-897) through Tape.add_block (269-276), which returns the index. *)
Definition add_block (t : tape) (b : block V) : tape :=
  let t1 := ensure_step t in
  Tape (map_last (ts_push b) (t_steps t1)) (t_flat t1 ++ [b]) (t_latest t1) (t_eager t1) (t_count t1).
Definition add_block_index (t : tape) (b : block V) : nat := length (t_flat (add_block t b)) - 1.

(** block.add_output on the block recorded last: the same Python object sits in both lists. *)
Definition push_out (v : nat) (b : block V) : block V :=
  Blk (b_kind b) (b_deps b) (b_outs b ++ [v]) (b_tag b).
Definition last_push_out (v : nat) (t : tape) : tape :=
  Tape (map_last (fun s => TS (map_last (push_out v) (ts_blocks s)) (ts_state s) (ts_adjdeps s) (ts_ckpt s) (ts_revised s)) (t_steps t))
       (map_last (push_out v) (t_flat t)) (t_latest t) (t_eager t) (t_count t).

(** [for step in steps[k:]: f(step)]. *)
Fixpoint map_from {A} (k : nat) (f : A -> A) (l : list A) : list A :=
  match l with
  | [] => []
  | x :: r => match k with O => f x :: map_from O f r | S k' => x :: map_from k' f r end
  end.

Definition ts_add_state (v : nat) (s : tstep) :=
  TS (ts_blocks s) (oadd v (ts_state s)) (ts_adjdeps s) (ts_ckpt s) (ts_revised s).
Definition ts_add_adjdep (v : nat) (s : tstep) :=
  TS (ts_blocks s) (ts_state s) (oadd v (ts_adjdeps s)) (ts_ckpt s) (ts_revised s).

(** add_to_checkpointable_state (278-292), add_to_adjoint_dependencies (294-308);
    last_used >= -1 always, so the slice start is not negative. *)
Definition add_to_state (t : tape) (v : nat) (last_used : Z) : tape :=
  let t1 := ensure_step t in
  set_steps (map_from (Z.to_nat (last_used + 1)) (ts_add_state v) (t_steps t1)) t1.
Definition add_to_adjdeps (t : tape) (v : nat) (last_used : Z) : tape :=
  let t1 := ensure_step t in
  set_steps (map_from (Z.to_nat (last_used + 1)) (ts_add_adjdep v) (t_steps t1)) t1.

(** ** Worlds *)

(** An OverloadedType instance: its current value and its weak reference to a block variable
    (overloaded_type.py 110-143).  [o_gen] is ghost: number of in-place modifications so far. *)
Record obj : Type := Obj { o_val : V; o_bv : option nat; o_gen : nat }.

(** Python process state seen by the library.  [w_ctrls]: block variables of the Control objects
    created so far (they hold strong references). *)
Record world : Type := World {
  w_objs : list obj;
  w_heap : heap V;
  w_next : nat;
  w_tape : tape;
  w_ann : bool;
  w_ctrls : list nat
}.

Definition world_new (ann : bool) : world :=
  World [] (fun _ => bv_new 0 0 (f_zero F)) 0 tape_new ann [].

Definition with_objs (f : list obj -> list obj) (w : world) :=
  World (f (w_objs w)) (w_heap w) (w_next w) (w_tape w) (w_ann w) (w_ctrls w).
Definition with_heap (f : heap V -> heap V) (w : world) :=
  World (w_objs w) (f (w_heap w)) (w_next w) (w_tape w) (w_ann w) (w_ctrls w).
Definition with_tape (f : tape -> tape) (w : world) :=
  World (w_objs w) (w_heap w) (w_next w) (f (w_tape w)) (w_ann w) (w_ctrls w).
Definition with_ann (a : bool) (w : world) :=
  World (w_objs w) (w_heap w) (w_next w) (w_tape w) a (w_ctrls w).

Fixpoint list_set {A} (l : list A) (i : nat) (x : A) : list A :=
  match l, i with
  | [], _ => []
  | _ :: r, O => x :: r
  | y :: r, S j => y :: list_set r j x
  end.

(** OverloadedType.create_block_variable (overloaded_type.py 141-143). *)
Definition create_bv (w : world) (o : nat) : world * nat :=
  match nth_error (w_objs w) o with
  | None => (w, w_next w)
  | Some ob =>
      let n := w_next w in
      (World (list_set (w_objs w) o (Obj (o_val ob) (Some n) (o_gen ob)))
             (upd (w_heap w) n (fun _ => bv_new o (o_gen ob) (o_val ob)))
             (S n) (w_tape w) (w_ann w) (w_ctrls w), n)
  end.
(** The property [block_variable] (129-132). *)
Definition get_bv (w : world) (o : nat) : world * nat :=
  match nth_error (w_objs w) o with
  | Some ob => match o_bv ob with Some v => (w, v) | None => create_bv w o end
  | None => (w, w_next w)
  end.

(** BlockVariable.will_add_as_dependency (block_variable.py 64-71).  The hook
    _ad_will_add_as_dependency (overloaded_type.py 273-277) saves with overwrite=False and returns
    None, i.e. overwrite = False. *)
Definition will_dep (w : world) (v : nat) : world :=
  let w1 := with_heap (fun h => upd h v (save_output false)) w in
  let b := w_heap w1 v in
  let w2 := if match t_latest (w_tape w1) with None => true | Some c => Z.ltb (bv_last b) c end
            then with_heap (fun h => upd h v (save_output false)) w1 else w1 in
  let w3 := with_tape (fun t => add_to_state t v (bv_last b)) w2 in
  with_heap (fun h => upd h v (fun b => set_times (bv_created b) (latest_timestep (w_tape w3)) b)) w3.

(** BlockVariable.will_add_as_output (73-83); _ad_will_add_as_output returns True (279-286). *)
Definition will_out (w : world) (v : nat) : world :=
  let ts := latest_timestep (w_tape w) in
  let w1 := with_heap (fun h => upd h v (set_times ts ts)) w in
  let w2 := if t_eager (w_tape w1) then with_heap (fun h => upd h v (save_output true)) w1 else w1 in
  with_tape (fun t => add_to_adjdeps t v (ts - 1)) w2.

(** Block.add_dependency (block.py 43-57, no_duplicates=False). *)
Definition add_dep (w : world) (o : nat) : world * nat :=
  let '(w1, v) := get_bv w o in (will_dep w1 v, v).

Fixpoint add_deps (w : world) (os : list nat) : world * list nat :=
  match os with
  | [] => (w, [])
  | o :: r => let '(w1, v) := add_dep w o in
              let '(w2, vs) := add_deps w1 r in (w2, v :: vs)
  end.
(** [[arg.block_variable for arg in args]] (adjfloat.py 340). *)
Fixpoint get_bvs (w : world) (os : list nat) : world * list nat :=
  match os with
  | [] => (w, [])
  | o :: r => let '(w1, v) := get_bv w o in
              let '(w2, vs) := get_bvs w1 r in (w2, v :: vs)
  end.

(** A fresh overloaded object (AdjFloat(x), create_overloaded_object). *)
Definition new_obj (w : world) (x : V) : world * nat :=
  (with_objs (fun l => l ++ [Obj x None 0]) w, length (w_objs w)).

(** ** User programs *)

(** A statement of a user's straight-line program; objects are named by creation order.  An
    exception raised by a statement is taken to be caught by the user, the program goes on. *)
Inductive stmt : Type :=
| SNew (x : V)                              (* a fresh AdjFloat(x) *)
| SOp (k : kind V) (args : list nat)        (* + - * / ** neg through annotate_operator *)
| SFun (k : kind V) (args : list nat) (annotate : bool)  (* exp log min max, annotate= keyword *)
| SUser (u : ublock V) (func : list V -> res (list V)) (args : list nat) (annotate : bool) (tag : option nat)
                                            (* a function wrapped by overload_function *)
| SInpl (u : ublock V) (func : list V -> res V) (args : list nat) (o : nat) (annotate : bool) (tag : option nat)
                                            (* overload_function of a function that assigns to object o and returns it *)
| SUpdate (o : nat) (x : V)                 (* with stop_annotating(modifies=o): o.assign(x) *)
| SPause | SContinue                        (* pause_annotation / continue_annotation *)
| SEndStep                                  (* tape.end_timestep() *)
| SGC (o : nat)                             (* the collector frees o's block variable, if unreferenced *)
| SControl (o : nat)                        (* Control(o) *)
| STouch (o : nat).                         (* a reference to o.block_variable is taken and dropped *)

Definition is_operator (k : kind V) : bool :=
  match k with KAdd | KSub | KMul | KDiv | KPow | KNeg => true | _ => false end.
Definition is_function (k : kind V) : bool :=
  match k with KExp | KLog | KMin | KMax => true | _ => false end.
Definition arity (k : kind V) : nat := match k with KNeg | KExp | KLog => 1 | _ => 2 end.

(** The Python operation itself. *)
Definition op_value (k : kind V) (xs : list V) : res V :=
  match comp_recompute F k xs 0 with
  | Ok (Some x) => Ok x
  | Ok None => Err EType
  | Err e => Err e
  end.

Definition arg_vals (w : world) (args : list nat) : res (list V) :=
  mapM (fun o => match nth_error (w_objs w) o with Some ob => Ok (o_val ob) | None => Err EAttr end) args.

(** Assigning a new value to an object changes what every block variable's [output] shows. *)
Definition assign_obj (w : world) (o : nat) (x : V) : world :=
  match nth_error (w_objs w) o with
  | None => w
  | Some ob =>
      with_objs (fun l => list_set l o (Obj x (o_bv ob) (S (o_gen ob))))
        (with_heap (fun h v => if Nat.eqb (bv_obj (h v)) o then set_out x (h v) else h v) w)
  end.

(** annotate_operator (adjfloat.py 8-44) with FloatOperatorBlock.__init__ (334-342). *)
Definition exec_op (w : world) (k : kind V) (args : list nat) : world * option exn :=
  if negb (is_operator k && Nat.eqb (length args) (arity k)) then (w, Some EType)
  else
    match arg_vals w args with
    | Err e => (w, Some e)
    | Ok xs =>
        match op_value k xs with
        | Err e => (w, Some e)
        | Ok y =>
            let '(w1, o) := new_obj w y in
            if w_ann w then
              let '(w2, terms) := get_bvs w1 args in
              let '(w3, _) := add_deps w2 args in
              let w4 := with_tape (fun t => add_block t (Blk k terms [] None)) w3 in
              let '(w5, v) := get_bv w4 o in
              let w6 := will_out w5 v in
              (with_tape (last_push_out v) w6, None)
            else (w1, None)
        end
    end.

(** exp, log, min, max (adjfloat.py 144-179, 236-273): the block is on the tape before the value
    is computed; a value error leaves a block without outputs. *)
Definition exec_fun (w : world) (k : kind V) (args : list nat) (ann : bool) : world * option exn :=
  if negb (is_function k && Nat.eqb (length args) (arity k)) then (w, Some EType)
  else
    match arg_vals w args with
    | Err e => (w, Some e)
    | Ok xs =>
        let annotate := w_ann w && ann in
        let w1 := if annotate then
                    let '(w', deps) := add_deps w args in
                    with_tape (fun t => add_block t (Blk k deps [] None)) w'
                  else w in
        match op_value k xs with
        | Err e => (w1, Some e)
        | Ok y =>
            let '(w2, o) := new_obj w1 y in
            if annotate then
              let '(w3, v) := get_bv w2 o in
              (with_tape (last_push_out v) (will_out w3 v), None)
            else (w2, None)
        end
    end.

(** [for out in r: block.add_output(out.create_block_variable())] *)
Fixpoint add_outs (w : world) (os : list nat) : world * list nat :=
  match os with
  | [] => (w, [])
  | o :: r => let '(w1, v) := create_bv w o in
              let '(w2, vs) := add_outs (will_out w1 v) r in (w2, v :: vs)
  end.
Fixpoint new_objs (w : world) (ys : list V) : world * list nat :=
  match ys with
  | [] => (w, [])
  | y :: r => let '(w1, o) := new_obj w y in
              let '(w2, os) := new_objs w1 r in (w2, o :: os)
  end.

(** overload_function (overloaded_function.py 22-48): the block object is built (adding its
    dependencies) before the function runs, its outputs are added, then it is put on the tape. *)
Definition exec_user (w : world) (u : ublock V) (func : list V -> res (list V)) (args : list nat)
  (ann : bool) (tag : option nat) : world * option exn :=
  match arg_vals w args with
  | Err e => (w, Some e)
  | Ok xs =>
      let annotate := w_ann w && ann in
      let '(w1, deps) := if annotate then add_deps w args else (w, []) in
      match func xs with
      | Err e => (w1, Some e)
      | Ok ys =>
          let '(w2, os) := new_objs w1 ys in
          if annotate then
            let '(w3, vs) := add_outs w2 os in
            (with_tape (fun t => add_block t (Blk (KUser u) deps vs tag)) w3, None)
          else (w2, None)
      end
  end.

(** The same wrapper around a function that assigns to [o] in place and returns [o]. *)
Definition exec_inpl (w : world) (u : ublock V) (func : list V -> res V) (args : list nat) (o : nat)
  (ann : bool) (tag : option nat) : world * option exn :=
  match arg_vals w args with
  | Err e => (w, Some e)
  | Ok xs =>
    match nth_error (w_objs w) o with
    | None => (w, Some EAttr)
    | Some _ =>
      let annotate := w_ann w && ann in
      let '(w1, deps) := if annotate then add_deps w args else (w, []) in
      match func xs with
      | Err e => (w1, Some e)
      | Ok y =>
          let w2 := assign_obj w1 o y in
          if annotate then
            let '(w3, vs) := add_outs w2 [o] in
            (with_tape (fun t => add_block t (Blk (KUser u) deps vs tag)) w3, None)
          else (w2, None)
      end
    end
  end.

(** clear_block_variable (overloaded_type.py 138-139). *)
Definition clear_bv (w : world) (o : nat) : world :=
  match nth_error (w_objs w) o with
  | None => w
  | Some ob => with_objs (fun l => list_set l o (Obj (o_val ob) None (o_gen ob))) w
  end.

(** Who keeps a block variable alive: blocks, the sets kept by time steps, Control objects. *)
Definition referenced (w : world) (v : nat) : bool :=
  existsb (fun b => mem v (b_deps b) || mem v (b_outs b)) (t_flat (w_tape w))
  || existsb (fun s => mem v (ts_state s) || mem v (ts_adjdeps s)) (t_steps (w_tape w))
  || mem v (w_ctrls w).

Definition exec_stmt (w : world) (s : stmt) : world * option exn :=
  match s with
  | SNew x => (fst (new_obj w x), None)
  | SOp k args => exec_op w k args
  | SFun k args ann => exec_fun w k args ann
  | SUser u func args ann tag => exec_user w u func args ann tag
  | SInpl u func args o ann tag => exec_inpl w u func args o ann tag
  | SUpdate o x =>
      match nth_error (w_objs w) o with
      | None => (w, Some EAttr)
      | Some _ => (clear_bv (assign_obj w o x) o, None)      (* tape.py 122-130 *)
      end
  | SPause => (with_ann false w, None)                        (* tape.py 20-23 *)
  | SContinue => (with_ann true w, None)                      (* tape.py 26-30 *)
  | SEndStep => (with_tape append_step w, None)               (* tape.py 229-234 *)
  | SGC o =>
      match nth_error (w_objs w) o with
      | None => (w, None)
      | Some ob =>
          match o_bv ob with
          | Some v => if referenced w v then (w, None) else (clear_bv w o, None)
          | None => (w, None)
          end
      end
  | SControl o =>
      match nth_error (w_objs w) o with
      | None => (w, Some EAttr)
      | Some _ =>
          let '(w1, v) := get_bv w o in
          (World (w_objs w1) (w_heap w1) (w_next w1) (w_tape w1) (w_ann w1) (w_ctrls w1 ++ [v]), None)
      end
  | STouch o =>
      match nth_error (w_objs w) o with
      | None => (w, Some EAttr)
      | Some _ => (fst (get_bv w o), None)                    (* overloaded_type.py 129-132 *)
      end
  end.

(** Running a program; exceptions are caught by the user between statements. *)
Definition exec (w : world) (p : list stmt) : world :=
  fold_left (fun w s => fst (exec_stmt w s)) p w.

End Record_.

Arguments tstep V : clear implicits.
Arguments tape V : clear implicits.
Arguments obj V : clear implicits.
Arguments world V : clear implicits.
Arguments stmt V : clear implicits.
