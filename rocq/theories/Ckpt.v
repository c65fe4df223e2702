(** Checkpointed evaluation: the checkpoint manager, the per-step checkpoints, Tape.enable_checkpointing
    and ReducedFunctional through the manager.  No proofs here.
    Line numbers refer to /repo/pyadjoint/checkpointing.py unless another file is named. *)
From Coq Require Import List Arith ZArith Bool.
From Verif Require Import Base Model Record.
Import ListNotations.

(** ** The part of the package checkpoint_schedules that the manager sees *)

(** StorageType; the manager only distinguishes DISK (with package data) and WORK. *)
Inductive storage : Set := DISK | RAM | WORK | NONE.
Definition is_work (s : storage) : bool := match s with WORK => true | _ => false end.

(** Actions.  [AForward n0 n1 write_ics write_adj_deps storage]; [n1 = None] is sys.maxsize.
    [AReverse n1 n0 clear_adj_deps] iterates over n1-1, ..., n0.  The destination of Copy and Move is
    ignored by the manager. *)
Inductive action : Set :=
| AForward (n0 : nat) (n1 : option nat) (ics adj : bool) (st : storage)
| AReverse (n1 n0 : nat) (clear : bool)
| ACopy (n : nat) (from : storage)
| AMove (n : nat) (from : storage)
| AEndForward
| AEndReverse.

(** A schedule object: [sc_max] is max_n at construction, [sc_acts m] the actions generated when max_n
    is [m] ([next] at position [p] returns the p-th one; an online schedule may generate different later
    actions once finalize has told it the number of steps), [sc_single] isinstance(...,
    SingleMemoryStorageSchedule), [sc_disk] uses_storage_type(DISK), [sc_exhausted p] is_exhausted.
    A schedule that never ends is not modelled (the manager stops asking at EndReverse). *)
Record schedule : Type := Sched {
  sc_max : option nat;
  sc_acts : option nat -> list action;
  sc_single : bool;
  sc_disk : bool;
  sc_exhausted : nat -> bool
}.

(** Mode (22-38). *)
Inductive mode : Set := MRecord | MFinished | MEvaluated | MExhausted | MRecompute | MEvalAdj.
Definition mode_eqb (a b : mode) : bool :=
  match a, b with
  | MRecord, MRecord | MFinished, MFinished | MEvaluated, MEvaluated | MExhausted, MExhausted
  | MRecompute, MRecompute | MEvalAdj, MEvalAdj => true
  | _, _ => false
  end.

(** CheckpointManager attributes (65-98); the gc frequency is None.  [cm_total = None] is sys.maxsize,
    [cm_pos] the number of actions taken from the schedule, [cm_max] the schedule's current max_n. *)
Record cman : Type := CM {
  cm_sched : schedule;
  cm_pos : nat;
  cm_max : option nat;
  cm_fwd : list action;
  cm_rev : list action;
  cm_total : option nat;
  cm_mode : mode;
  cm_cur : action;
  cm_keep : bool;
  cm_glob : list nat
}.

Definition set_mode (x : mode) (m : cman) :=
  CM (cm_sched m) (cm_pos m) (cm_max m) (cm_fwd m) (cm_rev m) (cm_total m) x (cm_cur m) (cm_keep m) (cm_glob m).
Definition set_cur (x : action) (m : cman) :=
  CM (cm_sched m) (cm_pos m) (cm_max m) (cm_fwd m) (cm_rev m) (cm_total m) (cm_mode m) x (cm_keep m) (cm_glob m).
Definition set_keep (x : bool) (m : cman) :=
  CM (cm_sched m) (cm_pos m) (cm_max m) (cm_fwd m) (cm_rev m) (cm_total m) (cm_mode m) (cm_cur m) x (cm_glob m).
Definition set_glob (x : list nat) (m : cman) :=
  CM (cm_sched m) (cm_pos m) (cm_max m) (cm_fwd m) (cm_rev m) (cm_total m) (cm_mode m) (cm_cur m) (cm_keep m) x.
(** [self._current_action = a; self.forward_schedule.append(a)] after [a = next(schedule)]. *)
Definition push_fwd (a : action) (m : cman) :=
  CM (cm_sched m) (S (cm_pos m)) (cm_max m) (cm_fwd m ++ [a]) (cm_rev m) (cm_total m) (cm_mode m) a (cm_keep m) (cm_glob m).
Definition push_rev (a : action) (m : cman) :=
  CM (cm_sched m) (S (cm_pos m)) (cm_max m) (cm_fwd m) (cm_rev m ++ [a]) (cm_total m) (cm_mode m) a (cm_keep m) (cm_glob m).
(** [schedule.finalize(n); self.total_timesteps = schedule.max_n] (118-122). *)
Definition set_total (n : nat) (m : cman) :=
  CM (cm_sched m) (cm_pos m) (Some n) (cm_fwd m) (cm_rev m) (Some n) (cm_mode m) (cm_cur m) (cm_keep m) (cm_glob m).

(** next(schedule): None is StopIteration. *)
Definition next_act (m : cman) : option action := nth_error (sc_acts (cm_sched m) (cm_max m)) (cm_pos m).
(** Number of actions still to come, the bound of the loops that call next. *)
Definition left_acts (m : cman) : nat := length (sc_acts (cm_sched m) (cm_max m)) - cm_pos m.

(** [step in action] for Forward. *)
Definition in_fwd (t n0 : nat) (n1 : option nat) : bool :=
  Nat.leb n0 t && match n1 with None => true | Some b => Nat.ltb t b end.
(** [t < self.total_timesteps] *)
Definition lt_total (t : nat) (m : cman) : bool :=
  match cm_total m with None => true | Some n => Nat.ltb t n end.

Definition minus (l r : list nat) : list nat := filter (fun v => negb (mem v r)) l.

Section Ckpt.
Context {V : Type} (F : fops V).

(** ** TimeStep.checkpoint, restore_from_checkpoint, delete_checkpoint (tape.py 809-858) *)

(** Python dictionary assignment d[v] = x: replaces in place or appends. *)
Fixpoint dput (v : nat) (x : option (V * bool)) (d : list (nat * option (V * bool))) :=
  match d with
  | [] => [(v, x)]
  | (w, y) :: r => if Nat.eqb w v then (v, x) :: r else (w, y) :: dput v x r
  end.
Definition dmem (v : nat) (d : list (nat * option (V * bool))) : bool := mem v (map fst d).

Definition ts_put (v : nat) (x : option (V * bool)) (s : tstep V) : tstep V :=
  TS (ts_blocks s) (ts_state s) (ts_adjdeps s) (dput v x (ts_ckpt s)) (ts_revised s).
Definition ts_del (s : tstep V) : tstep V :=
  TS (ts_blocks s) (ts_state s) (ts_adjdeps s) [] (ts_revised s).

(** [var.saved_output._ad_create_checkpoint()]: a plain Python float (left by exp/log recomputation)
    has no such attribute; AdjFloat returns itself. *)
Definition store_saved (h : heap V) (s : tstep V) (v : nat) : tstep V * option exn :=
  if bv_raw (h v) && is_some (bv_ckpt (h v)) then (s, Some EAttr)
  else (ts_put v (Some (saved h v, false)) s, None).
(** [self._checkpoint[var] = var._checkpoint] for global dependencies (824-827). *)
Definition store_state (h : heap V) (glob : list nat) (s : tstep V) (v : nat) : tstep V * option exn :=
  if mem v glob then
    (ts_put v (match bv_ckpt (h v) with None => None | Some x => Some (x, bv_raw (h v)) end) s, None)
  else store_saved h s v.
Definition adj_set (s : tstep V) : list nat :=
  if ts_revised s then ts_adjdeps s
  else fold_left (fun l v => oadd v l) (ts_state s) (ts_adjdeps s).
Definition ts_checkpoint (h : heap V) (glob : list nat) (st adj : bool) (s : tstep V) : tstep V * option exn :=
  andthen (if st then iter_o (store_state h glob) (ts_state s) s else (s, None))
          (fun s1 => if adj then iter_o (store_saved h) (adj_set s1) s1 else (s1, None)).

(** restore_from_checkpoint (842-854), through the guarded setter; _ad_restore_at_checkpoint of AdjFloat
    returns the checkpoint, so the storage type makes no difference. *)
Definition ts_restore (h : heap V) (s : tstep V) : heap V :=
  fold_left (fun h' e => upd h' (fst e) (match snd e with
                                         | None => put_ckpt None false
                                         | Some (x, r) => put_ckpt (Some x) r
                                         end)) (ts_ckpt s) h.

(** [var._checkpoint = None]: not guarded. *)
Definition drop (h : heap V) (v : nat) : heap V := upd h v (set_ckpt None false).

(** ** The state the manager works on *)
Record cst : Type := CS { c_heap : heap V; c_tape : tape V; c_man : cman }.
Definition on_heap (f : heap V -> heap V) (s : cst) := CS (f (c_heap s)) (c_tape s) (c_man s).
Definition on_tape_ (f : tape V -> tape V) (s : cst) := CS (c_heap s) (f (c_tape s)) (c_man s).
Definition on_man (f : cman -> cman) (s : cst) := CS (c_heap s) (c_tape s) (f (c_man s)).
Definition put_step (i : nat) (x : tstep V) (s : cst) :=
  on_tape_ (fun t => set_steps (list_set (t_steps t) i x) t) s.
Definition set_latest (x : option Z) (t : tape V) := Tape (t_steps t) (t_flat t) x (t_eager t) (t_count t).
Definition set_eager (x : bool) (t : tape V) := Tape (t_steps t) (t_flat t) (t_latest t) x (t_count t).

(** ** While recording *)

(** The block of 168-211 for a Forward action whose storage is not WORK. *)
Definition taping_store (n0 : nat) (ics adj : bool) (t : nat) (s : cst) : cst * option exn :=
  match nth_error (t_steps (c_tape s)) (t - 1) with
  | None => (s, Some EIndex)
  | Some cur =>
      let g := cm_glob (c_man s) in
      let gone := if Nat.eqb t 1 then [] else minus g (ts_state cur) in
      let g1 := if Nat.eqb t 1 then fold_left (fun l v => oadd v l) (ts_state cur) g
                else minus g gone in
      let s1 := on_heap (fun h => fold_left drop gone h) (on_man (set_glob g1) s) in
      let '(cur1, e) := ts_checkpoint (c_heap s1) g1 (ics && Nat.eqb t (S n0)) adj cur in
      let s2 := put_step (t - 1) cur1 s1 in
      match e with
      | Some e => (s2, Some e)
      | None =>
          (on_heap (fun h => fold_left drop (flat_map (@b_outs V) (ts_blocks cur))
                               (fold_left drop (minus (ts_state cur) g1) h)) s2, None)
      end
  end.

(** process_taping (127-237). *)
Definition process_taping (a : action) (t : nat) (s : cst) : cst * res bool :=
  match a with
  | AForward n0 n1 ics adj st =>
      if Nat.ltb t n0 then (s, Err ECheckpoint)
      else
        let s1 := on_tape_ (set_eager adj) s in
        match (if Nat.ltb n0 t && negb (is_work st) then taping_store n0 ics adj t s1 else (s1, None)) with
        | (s2, Some e) => (s2, Err e)
        | (s2, None) =>
            if in_fwd t n0 n1 && lt_total t (c_man s2) then
              let s3 := on_tape_ (@append_step V) s2 in
              ((if ics then on_tape_ (set_latest (Some (Z.of_nat n0))) s3 else s3), Ok true)
            else (s2, Ok false)
        end
  | AEndForward =>
      if match cm_total (c_man s) with Some n => Nat.eqb t n | None => false end
      then (on_man (set_mode MEvaluated) s, Ok true)
      else (s, Err ECheckpoint)
  | _ => (s, Err ECheckpoint)
  end.

(** The loop of end_timestep (111-113); [fuel] is the number of actions left. *)
Fixpoint taping_loop (fuel t : nat) (s : cst) : cst * option exn :=
  match process_taping (cm_cur (c_man s)) t s with
  | (s1, Err e) => (s1, Some e)
  | (s1, Ok true) => (s1, None)
  | (s1, Ok false) =>
      match next_act (c_man s1) with
      | None => (s1, Some EStopIter)
      | Some a =>
          match fuel with
          | O => (s1, Some EStopIter)          (* not reached: fuel >= actions left *)
          | S f => taping_loop f t (on_man (push_fwd a) s1)
          end
      end
  end.

(** CheckpointManager.end_timestep (101-113), argument already incremented. *)
Definition cm_end_timestep (t : nat) (s : cst) : cst * option exn :=
  match cm_mode (c_man s) with
  | MRecord => taping_loop (left_acts (c_man s)) t s
  | _ => (s, Some ECheckpoint)
  end.

(** end_taping (115-125).  The loop ends because each round either fails, reaches EVALUATED or adds one
    of the [total] steps. *)
Fixpoint end_taping_loop (fuel t : nat) (s : cst) : cst * option exn :=
  match cm_mode (c_man s) with
  | MEvaluated => (s, None)
  | _ => match fuel with
         | O => (s, Some ERuntime)             (* not reached *)
         | S f => match cm_end_timestep t s with
                  | (s1, None) => end_taping_loop f (S t) s1
                  | (s1, Some e) => (s1, Some e)
                  end
         end
  end.
Definition end_taping (s : cst) : cst * option exn :=
  let t := Z.to_nat (latest_timestep (c_tape s)) in
  match cm_max (c_man s) with
  | None => let s1 := on_man (set_total (length (t_steps (c_tape s)))) s in
            end_taping_loop (S (S (length (t_steps (c_tape s))))) (S t) s1
  | Some 0 => (s, Some ERuntime)               (* finalize of a schedule that already has max_n *)
  | Some n => end_taping_loop (S (S n)) (S t) s
  end.

(** CheckpointManager.__init__ (65-99) through Tape.enable_checkpointing (tape.py 310-336).
    [pkg]: the tape carries package data.  The manager is installed only if nothing was raised; the
    changes made to the tape before an exception stay. *)
Definition man_new (sc : schedule) (a : action) : cman :=
  CM sc 1 (sc_max sc) [a] []
     (match sc_max sc with Some (S n) => Some (S n) | _ => None end) MRecord a false [].

Definition enable (pkg : bool) (sc : schedule) (h : heap V) (t : tape V) : heap V * tape V * res cman :=
  match t_flat t with
  | _ :: _ => (h, t, Err ECheckpoint)
  | [] =>
      if sc_disk sc && negb pkg then (h, t, Err ECheckpoint)
      else
        match nth_error (sc_acts sc (sc_max sc)) 0 with
        | None => (h, t, Err EStopIter)
        | Some a =>
            let s := CS h (set_latest (Some 0%Z) t) (man_new sc a) in
            match cm_end_timestep 0 s with
            | (s1, None) => (c_heap s1, c_tape s1, Ok (c_man s1))
            | (s1, Some e) => (c_heap s1, c_tape s1, Err e)
            end
        end
  end.

(** ** Evaluation *)

(** The loop over the variables of the step's state that the next step does not need (354-375);
    the first test leaves the loop.  The set is iterated in the order of its first insertions; the code
    leaves that order open. *)
Fixpoint clear_state (vars : list nat) (step : nat) (ck : list (nat * option (V * bool))) (single : bool)
  (prev_adj state0 : list nat) (keep : bool) (h : heap V) : heap V * bool :=
  match vars with
  | [] => (h, keep)
  | v :: r =>
      if Nat.eqb step 0 && negb (dmem v ck) then (h, true)
      else if single then
        clear_state r step ck single prev_adj state0 keep
          (if Nat.ltb 1 step && negb (mem v prev_adj) then drop h v else h)
      else if mem v state0 && keep then clear_state r step ck single prev_adj state0 keep h
      else clear_state r step ck single prev_adj state0 keep (drop h v)
  end.

(** One round of the loop of 323-398; [func] is the functional's variable if [if functional:] holds. *)
Definition forward_step (n0 : nat) (ics adj : bool) (st : storage) (func : option nat)
  (s : cst) (step : nat) : cst * option exn :=
  match nth_error (t_steps (c_tape s)) step with
  | None => (s, Some EIndex)
  | Some cur =>
      let '(h1, e) := iter_o (recompute_block F) (ts_blocks cur) (c_heap s) in
      let s1 := on_heap (fun _ => h1) s in
      match e with
      | Some e => (s1, Some e)
      | None =>
          let g := cm_glob (c_man s) in
          let '(cur1, e1) := if is_work st then (cur, None)
                             else ts_checkpoint h1 g (ics && Nat.eqb step n0) adj cur in
          let s2 := put_step step cur1 s1 in
          match e1 with
          | Some e1 => (s2, Some e1)
          | None =>
              let nxt := match cm_total (c_man s) with
                         | Some n => if Nat.ltb step (n - 1) then nth_error (t_steps (c_tape s)) (S step)
                                     else Some ts_new
                         | None => nth_error (t_steps (c_tape s)) (S step)
                         end in
              match nxt with
              | None => (s2, Some EIndex)
              | Some nx =>
                  let to_keep := ts_state nx ++ match func with Some J => [J] | None => [] end in
                  let steps2 := t_steps (c_tape s2) in
                  let '(h3, keep) :=
                    clear_state (minus (ts_state cur1) (to_keep ++ g)) step (ts_ckpt cur1)
                      (sc_single (cm_sched (c_man s)))
                      (ts_adjdeps (nth (step - 1) steps2 ts_new)) (ts_state (nth 0 steps2 ts_new))
                      (cm_keep (c_man s)) h1 in
                  let kept := if adj && is_work st then ts_adjdeps cur1 ++ to_keep else to_keep in
                  let h4 := fold_left drop (minus (flat_map (@b_outs V) (ts_blocks cur)) kept) h3 in
                  (on_heap (fun _ => h4) (on_man (set_keep keep) s2), None)
              end
          end
      end
  end.

(** [while step in cp_action and step < self.total_timesteps]. *)
Definition fwd_steps (n0 : nat) (n1 : option nat) (m : cman) (nsteps : nat) : list nat :=
  let stop := match n1, cm_total m with
              | Some a, Some b => Nat.min a b
              | Some a, None => a
              | None, Some b => b
              | None, None => S nsteps          (* runs into IndexError *)
              end in
  seq n0 (stop - n0).

(** One block of the loop 407-416: evaluate_adj, then the revision of the adjoint dependencies. *)
Definition reverse_block (markings : bool) (hs : heap V * tstep V) (b : block V) : (heap V * tstep V) * option exn :=
  let '(h, s) := hs in
  match adj_block F markings h b with
  | (h1, Some e) => ((h1, s), Some e)
  | (h1, None) =>
      if ts_revised s then ((h1, s), None)
      else
        let a1 := fold_left (fun l d => if bv_mark (h1 d) then oadd d l else l) (b_deps b) (ts_adjdeps s) in
        let a2 := minus a1 (filter (fun o => negb (bv_mark (h1 o))) (b_outs b)) in
        ((h1, TS (ts_blocks s) (ts_state s) a2 (ts_ckpt s) (ts_revised s)), None)
  end.

(** 425-430 for one output. *)
Definition reverse_out (clear : bool) (keep : list nat) (h : heap V) (o : nat) : heap V :=
  let h1 := upd h o (set_tlm None) in
  let h2 := if bv_ctrl (h o) then h1 else upd (upd h1 o (set_adj None)) o (set_hess None) in
  if clear && negb (mem o keep) then drop h2 o else h2.

Definition reverse_step (clear markings : bool) (s : cst) (step : nat) : cst * option exn :=
  match nth_error (t_steps (c_tape s)) step with
  | None => (s, Some EIndex)
  | Some cur =>
      let '((h1, cur1), e) := iter_o (reverse_block markings) (rev (ts_blocks cur)) (c_heap s, cur) in
      match e with
      | Some e => (put_step step cur1 (on_heap (fun _ => h1) s), Some e)
      | None =>
          let cur2 := TS (ts_blocks cur1) (ts_state cur1) (ts_adjdeps cur1) (ts_ckpt cur1) true in
          let h2 := fold_left (reverse_out clear (ts_state cur)) (flat_map (@b_outs V) (ts_blocks cur)) h1 in
          (put_step step cur2 (on_heap (fun _ => h2) s), None)
      end
  end.

(** process_operation (297-455). *)
Definition process_op (func : option nat) (markings : bool) (s : cst) (a : action) : cst * option exn :=
  match a with
  | AForward n0 n1 ics adj st =>
      iter_o (forward_step n0 ics adj st func) (fwd_steps n0 n1 (c_man s) (length (t_steps (c_tape s)))) s
  | AReverse n1 n0 clear => iter_o (reverse_step clear markings) (rev (seq n0 (n1 - n0))) s
  | ACopy n _ =>
      match nth_error (t_steps (c_tape s)) n with
      | None => (s, Some EIndex)
      | Some cur => (on_heap (fun h => ts_restore h cur) s, None)
      end
  | AMove n _ =>
      match nth_error (t_steps (c_tape s)) n with
      | None => (s, Some EIndex)
      | Some cur => (put_step n (ts_del cur) (on_heap (fun h => ts_restore h cur) s), None)
      end
  | AEndForward => (on_man (set_mode MEvaluated) s, None)
  | AEndReverse =>
      (on_man (set_mode (if sc_exhausted (cm_sched (c_man s)) (cm_pos (c_man s)) then MExhausted else MEvaluated)) s,
       None)
  end.

(** recompute (239-259); packages' disk resets are not modelled. *)
Definition cm_recompute (func : option nat) (s : cst) : cst * option exn :=
  andthen (match cm_mode (c_man s) with MRecord => end_taping s | _ => (s, None) end) (fun s1 =>
  let s2 := on_man (set_mode MRecompute) s1 in
  match cm_fwd (c_man s2) with
  | AForward n0 _ _ _ _ :: _ =>
      match nth_error (t_steps (c_tape s2)) n0 with
      | None => (s2, Some EIndex)
      | Some cur =>
          iter_o (fun s a => process_op func false (on_man (set_cur a) s) a) (cm_fwd (c_man s2))
                 (on_heap (fun h => ts_restore h cur) s2)
      end
  | _ => (s2, Some EAttr)
  end).

(** The first adjoint evaluation takes its actions from the schedule (287-291). *)
Fixpoint reverse_loop (fuel : nat) (markings : bool) (s : cst) : cst * option exn :=
  match cm_cur (c_man s) with
  | AEndReverse => (s, None)
  | _ =>
      match next_act (c_man s) with
      | None => (s, Some EStopIter)
      | Some a =>
          match fuel with
          | O => (s, Some EStopIter)           (* not reached *)
          | S f => andthen (process_op None markings (on_man (push_rev a) s) a) (reverse_loop f markings)
          end
      end
  end.

(** evaluate_adj (261-295). *)
Definition cm_evaluate_adj (last_block : nat) (markings : bool) (s : cst) : cst * option exn :=
  if negb (Nat.eqb last_block 0) then (s, Some ENotImpl)
  else
    andthen (match cm_mode (c_man s) with MRecord => end_taping s | _ => (s, None) end) (fun s1 =>
    match cm_mode (c_man s1) with
    | MEvaluated | MFinished =>
        andthen (match cm_rev (c_man s1) with
                 | [] => reverse_loop (left_acts (c_man s1)) markings s1
                 | acts => iter_o (process_op None markings) acts s1
                 end)
                (fun s2 => (on_man (set_mode MEvalAdj) s2, None))
    | _ => (s1, Some ECheckpoint)
    end).

(** ** ReducedFunctional.__call__ and derivative on a tape with a manager
    (reduced_functional.py 193-254, 112-160; drivers.py 5-33) *)

(** bool(x) of a float: nan is true. *)
Definition truthy (x : V) : bool := negb (f_le F x (f_zero F) && f_le F (f_zero F) x).

Definition c_marked_controls (ctrls : list nat) (s : cst) (body : cst -> cst * option exn) : cst * option exn :=
  let '(s1, e) := body (on_heap (fun h => upd_all h ctrls (set_ctrl true)) s) in
  (on_heap (fun h => upd_all h ctrls (set_ctrl false)) s1, e).
Definition c_marked_nodes (nodes : list nat) (s : cst) (body : cst -> cst * option exn) : cst * option exn :=
  match body (on_heap (fun h => upd_all h nodes (set_mark true)) s) with
  | (s1, None) => (on_heap (fun h => upd_all h nodes (set_mark false)) s1, None)
  | (s1, Some e) => (s1, Some e)
  end.
Definition bump (t : tape V) := Tape (t_steps t) (t_flat t) (t_latest t) (t_eager t) (S (t_count t)).

Definition c_call (rf : rfun V) (vals : list V) (s : cst) : cst * res V :=
  if negb (Nat.eqb (length vals) (length (rf_ctrls rf))) then (s, Err EValue)
  else
    let s1 := on_tape_ bump (on_heap (fun h => update_controls h (rf_ctrls rf) vals) s) in
    let func := if truthy (bv_out (c_heap s (rf_J rf))) then Some (rf_J rf) else None in
    match c_marked_controls (rf_ctrls rf) s1 (cm_recompute func) with
    | (s2, Some e) => (s2, Err e)
    | (s2, None) => (s2, Ok (f_mul F (saved (c_heap s2) (rf_J rf)) (rf_scale rf)))
    end.

Definition c_derivative (rf : rfun V) (adj_input : V) (s : cst) : cst * res (list V) :=
  match rf_ctrls rf with
  | [] => (s, Err EValue)
  | _ =>
      let bs := t_flat (c_tape s) in
      let s1 := on_heap (fun h => upd (reset_adj bs h) (rf_J rf)
                                      (set_adj (Some (f_mul F adj_input (rf_scale rf))))) s in
      match c_marked_nodes (find_relevant bs (rf_ctrls rf)) s1 (fun s' =>
              c_marked_controls (rf_ctrls rf) s' (cm_evaluate_adj 0 true)) with
      | (s2, Some e) => (s2, Err e)
      | (s2, None) => (s2, Ok (map (get_derivative F (c_heap s2)) (rf_ctrls rf)))
      end
  end.

(** ** Programs recorded with a manager: tape.end_timestep (tape.py 229-234) goes to it *)
Record cworld : Type := CW { cw_w : world V; cw_man : option cman }.

Definition cw_cst (w : world V) (m : cman) : cst := CS (w_heap w) (w_tape w) m.
Definition cst_cw (w : world V) (s : cst) : cworld :=
  CW (World (w_objs w) (c_heap s) (w_next w) (c_tape s) (w_ann w) (w_ctrls w)) (Some (c_man s)).

Definition cexec_stmt (cw : cworld) (s : stmt V) : cworld * option exn :=
  match s, cw_man cw with
  | SEndStep, Some m =>
      let '(s1, e) := cm_end_timestep (S (Z.to_nat (latest_timestep (w_tape (cw_w cw))))) (cw_cst (cw_w cw) m) in
      (cst_cw (cw_w cw) s1, e)
  | _, _ => let '(w1, e) := exec_stmt F (cw_w cw) s in (CW w1 (cw_man cw), e)
  end.
Definition cexec (cw : cworld) (p : list (stmt V)) : cworld :=
  fold_left (fun w s => fst (cexec_stmt w s)) p cw.

(** tape.enable_checkpointing(schedule) as a step of the program. *)
Definition cw_enable (pkg : bool) (sc : schedule) (w : world V) : cworld * option exn :=
  let '(h, t, r) := enable pkg sc (w_heap w) (w_tape w) in
  let w1 := World (w_objs w) h (w_next w) t (w_ann w) (w_ctrls w) in
  match r with
  | Ok m => (CW w1 (Some m), None)
  | Err e => (CW w1 None, Some e)
  end.

End Ckpt.

Arguments cst V : clear implicits.
Arguments cworld V : clear implicits.
