(** Operations on a whole tape: optimisation, copies, tags, snapshots, clearing.  No proofs here.
    Line numbers refer to /repo/pyadjoint/tape.py. *)
From Coq Require Import List Arith ZArith Bool.
From Verif Require Import Base Model Record.
Import ListNotations.

Section Surgery.
Context {V : Type}.

(** ** Tape.optimize_for_controls (464-494) *)

(** [for output in block.get_outputs(): if output in nodes: raise RuntimeError; nodes.add(output)] (482-485). *)
Fixpoint add_nodes (outs nodes : list nat) : res (list nat) :=
  match outs with
  | [] => Ok nodes
  | o :: r => if mem o nodes then Err ERuntime else add_nodes r (o :: nodes)
  end.

(** The inner loop over the blocks of one time step: (nodes, blocks appended). *)
Fixpoint opt_ctrl_blocks (bs : list (block V)) (nodes : list nat) : res (list nat * list (block V)) :=
  match bs with
  | [] => Ok (nodes, [])
  | b :: r =>
      if existsb (fun d => mem d nodes) (b_deps b) then
        match add_nodes (b_outs b) nodes with
        | Err e => Err e
        | Ok nodes1 => match opt_ctrl_blocks r nodes1 with
                       | Err e => Err e
                       | Ok (nodes2, kept) => Ok (nodes2, b :: kept)
                       end
        end
      else opt_ctrl_blocks r nodes
  end.

(** The outer loop.  [discarded_variables.union(...)] (488) returns a new set that is dropped, so
    [discarded_variables] stays empty and each new step gets a copy of the old checkpointable state
    (490-491); the other metadata of the new TimeStep is empty. *)
Fixpoint opt_ctrl_steps (steps : list (tstep V)) (nodes : list nat) : res (list (tstep V)) :=
  match steps with
  | [] => Ok []
  | s :: r =>
      match opt_ctrl_blocks (ts_blocks s) nodes with
      | Err e => Err e
      | Ok (nodes1, kept) =>
          match opt_ctrl_steps r nodes1 with
          | Err e => Err e
          | Ok out => Ok (TS kept (ts_state s) [] [] false :: out)
          end
      end
  end.

(** [self._blocks] is replaced only at the end (493): an exception leaves the tape alone. *)
Definition replace_steps (steps : list (tstep V)) (t : tape V) : tape V :=
  Tape steps (flat_map (@ts_blocks V) steps) (t_latest t) (t_eager t) (t_count t).
Definition optimize_for_controls (ctrls : list nat) (t : tape V) : tape V * option exn :=
  match opt_ctrl_steps (t_steps t) ctrls with
  | Err e => (t, Some e)
  | Ok steps => (replace_steps steps t, None)
  end.

(** ** Tape.optimize_for_functionals (496-520) *)

(** One step, blocks visited in reverse: (retained nodes, kept blocks in order). *)
Fixpoint opt_fun_blocks (bs : list (block V)) (retained : list nat) : list nat * list (block V) :=
  match bs with
  | [] => (retained, [])
  | b :: r =>
      let '(ret1, kept) := opt_fun_blocks r retained in
      if existsb (fun o => mem o ret1) (b_outs b) then (b_deps b ++ ret1, b :: kept) else (ret1, kept)
  end.
Fixpoint opt_fun_steps (steps : list (tstep V)) (retained : list nat) : list nat * list (list (block V)) :=
  match steps with
  | [] => (retained, [])
  | s :: r =>
      let '(ret1, out) := opt_fun_steps r retained in
      let '(ret2, kept) := opt_fun_blocks (ts_blocks s) ret1 in
      (ret2, kept :: out)
  end.
(** The checkpointable state is intersected with the final set of retained nodes (516-518);
    TimeStepSequence(steps=...) (520) copies the steps, keeping blocks and state. *)
Definition optimize_for_functionals (funs : list nat) (t : tape V) : tape V :=
  let '(ret, kept) := opt_fun_steps (t_steps t) funs in
  replace_steps
    (map (fun sk => TS (snd sk) (filter (fun v => mem v ret) (ts_state (fst sk))) [] [] false)
         (combine (t_steps t) kept)) t.

(** Tape.optimize (457-462) with both arguments, and ReducedFunctional.optimize_tape
    (reduced_functional.py 256-260). *)
Definition optimize (ctrls funs : list nat) (t : tape V) : tape V * option exn :=
  match optimize_for_controls ctrls t with
  | (t1, Some e) => (t1, Some e)
  | (t1, None) => (optimize_for_functionals funs t1, None)
  end.
Definition rf_optimize (rf : rfun V) (t : tape V) := optimize (rf_ctrls rf) [rf_J rf] t.

(** ** Tags: get_blocks (337-350), get_tags (352-360) *)
Definition tag_eqb (a b : option nat) : bool :=
  match a, b with Some x, Some y => Nat.eqb x y | None, None => true | _, _ => false end.
Definition get_blocks (tag : option nat) (t : tape V) : list (block V) :=
  match tag with
  | None => t_flat t
  | Some _ => filter (fun b => tag_eqb (b_tag b) tag) (t_flat t)
  end.
Definition get_tags (t : tape V) : list nat :=
  fold_left (fun tags b => match b_tag b with
                           | Some g => if mem g tags then tags else tags ++ [g]
                           | None => tags
                           end) (t_flat t) [].

(** ** Snapshots: checkpoint_block_vars (417-434), restore_block_vars (436-455)

    [var.checkpoint] reads the private [_checkpoint] (block_variable.py 88-90), not saved_output. *)
Definition snapshot_vars (ctrls : list nat) (tag : option nat) (t : tape V) : list nat :=
  flat_map (@b_outs V) (get_blocks tag t) ++ ctrls.
Definition checkpoint_block_vars (ctrls : list nat) (tag : option nat) (t : tape V) (h : heap V)
  : list (nat * (option V * bool)) :=
  map (fun v => (v, (bv_ckpt (h v), bv_raw (h v)))) (snapshot_vars ctrls tag t).
Definition restore_block_vars (d : list (nat * (option V * bool))) (h : heap V) : heap V :=
  fold_left (fun h' kv => upd h' (fst kv) (set_ckpt (fst (snd kv)) (snd (snd kv)))) d h.

(** ** Tape.clear_tape (210-217): reset_variables(None) resets adjoint values only (block.py 89-93). *)
Definition clear_tape (t : tape V) (h : heap V) : tape V * heap V :=
  (Tape [] [] (t_latest t) (t_eager t) 0, reset_adj (t_flat t) h).

(** Tape.end_timestep (229-234) without a checkpoint manager is [append_step]. *)
Inductive top : Type :=
| TAdd (b : block V) | TEnd | TState (v : nat) (last : Z) | TAdjdep (v : nat) (last : Z).
Definition run_top (t : tape V) (o : top) : tape V :=
  match o with
  | TAdd b => add_block t b
  | TEnd => append_step t
  | TState v l => add_to_state t v l
  | TAdjdep v l => add_to_adjdeps t v l
  end.
Definition run_tops (t : tape V) (l : list top) : tape V := fold_left run_top l t.

End Surgery.
Arguments top V : clear implicits.

(** ** Copies (Tape.copy 397-409, TimeStepSequence.__init__ 878-890, TimeStep.copy 804-807)

    The two tapes live in one process: [TimeStep.copy] assigns the original's OrderedSet object to
    the copy's [checkpointable_state].  Sets are therefore kept in a store, steps hold addresses. *)
Section Shared.
Context {V : Type}.

Record astep : Type := AS {
  a_blocks : list (block V);
  a_state : nat;
  a_adjdeps : nat;
  a_ckpt : list (nat * option (V * bool));
  a_revised : bool
}.
Record atape : Type := ATape { at_steps : list astep; at_flat : list (block V); at_latest : option Z; at_eager : bool; at_count : nat }.
Record store : Type := Store { st_sets : nat -> list nat; st_next : nat }.

Definition st_alloc (s : store) : store * nat := (Store (fun a => if Nat.eqb a (st_next s) then [] else st_sets s a) (S (st_next s)), st_next s).
Definition st_add (v : nat) (s : store) (a : nat) : store :=
  Store (fun a' => if Nat.eqb a' a then oadd v (st_sets s a) else st_sets s a') (st_next s).

(** TimeStep() (791-802) appended to the steps. *)
Definition a_append_step (s : store) (t : atape) : store * atape :=
  let '(s1, a) := st_alloc s in
  let '(s2, a') := st_alloc s1 in
  (s2, ATape (at_steps t ++ [AS [] a a' [] false]) (at_flat t) (at_latest t) (at_eager t) (at_count t)).
Definition a_ensure_step (s : store) (t : atape) : store * atape :=
  match at_steps t with [] => a_append_step s t | _ => (s, t) end.
Definition a_run_top (s : store) (t : atape) (o : top V) : store * atape :=
  match o with
  | TAdd b =>
      let '(s1, t1) := a_ensure_step s t in
      (s1, ATape (map_last (fun x => AS (a_blocks x ++ [b]) (a_state x) (a_adjdeps x) (a_ckpt x) (a_revised x)) (at_steps t1))
                 (at_flat t1 ++ [b]) (at_latest t1) (at_eager t1) (at_count t1))
  | TEnd => a_append_step s t
  | TState v l =>
      let '(s1, t1) := a_ensure_step s t in
      (fold_left (fun s' x => st_add v s' (a_state x)) (skipn (Z.to_nat (l + 1)) (at_steps t1)) s1, t1)
  | TAdjdep v l =>
      let '(s1, t1) := a_ensure_step s t in
      (fold_left (fun s' x => st_add v s' (a_adjdeps x)) (skipn (Z.to_nat (l + 1)) (at_steps t1)) s1, t1)
  end.

(** [step.copy() for step in blocks._steps]: same set object for the state, a new one for the rest. *)
Fixpoint a_copy_steps (s : store) (l : list astep) : store * list astep :=
  match l with
  | [] => (s, [])
  | x :: r => let '(s1, _) := st_alloc s in
              let '(s2, a) := st_alloc s1 in
              let '(s3, r') := a_copy_steps s2 r in
              (s3, AS (a_blocks x) (a_state x) a [] false :: r')
  end.
Definition a_copy (s : store) (t : atape) : store * atape :=
  let '(s1, l) := a_copy_steps s (at_steps t) in
  (s1, ATape l (flat_map a_blocks l) None false 0).

(** The tape one sees through the store. *)
Definition a_view (s : store) (t : atape) : tape V :=
  Tape (map (fun x => TS (a_blocks x) (st_sets s (a_state x)) (st_sets s (a_adjdeps x)) (a_ckpt x) (a_revised x)) (at_steps t))
       (at_flat t) (at_latest t) (at_eager t) (at_count t).

(** Operations on the original ([false]) and on the copy ([true]), in any order. *)
Definition run_both (p : store * atape * atape) (o : bool * top V) : store * atape * atape :=
  let '(s, t, c) := p in
  if fst o then let '(s1, c1) := a_run_top s c (snd o) in (s1, t, c1)
  else let '(s1, t1) := a_run_top s t (snd o) in (s1, t1, c).
Definition run_boths (p : store * atape * atape) (l : list (bool * top V)) := fold_left run_both l p.
End Shared.
Arguments astep V : clear implicits.
Arguments atape V : clear implicits.
