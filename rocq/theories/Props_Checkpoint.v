(** C40-C42: checkpointed evaluation and derivatives. *)
From Coq Require Import List Arith ZArith Bool Lia.
From Verif Require Import Base Model BaseFacts Graph Record Spec Instances History Session Marks Ckpt SpecCkpt CkptProtocol CkptCall CkptAdj CkptGrad CkptStored.
Import ListNotations.

(** * C40: the protocol *)

(** end_timestep after any successful evaluation or derivative, whatever was called in between and
    whatever the schedule: refused, and the whole state stays as it was. *)
Theorem C40_end_timestep_refused : forall {V} (F : fops V) pkg sc ann p s l1 o l2, ckpt_session F pkg sc ann p s ->
  o <> OEnd -> ok (cop_run F (cop_hist F s l1) o) = true ->
  let s' := cop_hist F s (l1 ++ o :: l2) in cop_run F s' OEnd = (s', Some ECheckpoint).
Proof. exact @end_protocol. Qed.
Print Assumptions C40_end_timestep_refused.

(** A derivative after a derivative that succeeded or an evaluation that failed, with no successful
    evaluation in between: refused; tape, manager and every value stay as they were.  (A reduced
    functional without controls fails earlier, with ValueError.) *)
Theorem C40_derivative_refused : forall {V} (F : fops V) pkg sc ann p s l1 o l2, ckpt_session F pkg sc ann p s ->
  spends F (cop_hist F s l1) o -> no_eval F (fst (cop_run F (cop_hist F s l1) o)) l2 = true ->
  let s' := cop_hist F s (l1 ++ o :: l2) in
  forall rf x, exists h, cop_run F s' (ODeriv rf x) = (CS h (c_tape s') (c_man s'), Some (match rf_ctrls rf with [] => EValue | _ => ECheckpoint end)) /\
    forall v, bv_out (h v) = bv_out (c_heap s' v) /\ bv_ckpt (h v) = bv_ckpt (c_heap s' v) /\ saved h v = saved (c_heap s') v.
Proof. exact @derivative_protocol. Qed.
Print Assumptions C40_derivative_refused.

(** enable_checkpointing on a tape with blocks: refused, nothing changes. *)
Theorem C40_enable_refused : forall {V} pkg sc (w : world V), t_flat (w_tape w) <> [] ->
  cw_enable pkg sc w = (CW w None, Some ECheckpoint).
Proof. exact @enable_refused. Qed.
Print Assumptions C40_enable_refused.

(** ** Examples: x^8 in three steps *)
Definition pow8 (x : Z) : list (stmt Z) :=
  [SNew x; SControl 0; SOp KMul [0; 0]; SEndStep; SOp KMul [1; 1]; SEndStep; SOp KMul [2; 2]].
Definition sched (n : nat) (acts : list action) : schedule :=
  Sched (Some n) (fun _ => acts) false false (fun p => Nat.eqb p (length acts)).
(** One snapshot at the start, the steps replayed from it. *)
Definition revolve3 : list action :=
  [AForward 0 (Some 2) true false RAM; AForward 2 (Some 3) false true WORK; AEndForward;
   AReverse 3 2 true; ACopy 0 RAM; AForward 0 (Some 1) false false NONE; AForward 1 (Some 2) false true WORK; AReverse 2 1 true;
   AMove 0 RAM; AForward 0 (Some 1) false true WORK; AReverse 1 0 true; AEndReverse].
(** What the adjoint needs is kept for every step. *)
Definition adj3 : list action :=
  [AForward 0 (Some 1) false true RAM; AForward 1 (Some 2) false true RAM; AForward 2 (Some 3) false true RAM; AEndForward;
   AMove 2 RAM; AReverse 3 2 true; AMove 1 RAM; AReverse 2 1 true; AMove 0 RAM; AReverse 1 0 true; AEndReverse].
(** The start of the run is kept, no derivative. *)
Definition fwd3 : list action := [AForward 0 (Some 3) true false RAM; AEndForward].

Definition at_start (sc : schedule) (p : list (stmt Z)) : cworld Z := cexec ZF (fst (cw_enable false sc (world_new ZF true))) p.
Definition mgr (sc : schedule) (cw : cworld Z) : cman := match cw_man cw with Some m => m | None => man_new sc AEndForward end.
Definition state (sc : schedule) (p : list (stmt Z)) : cst Z := cw_cst (cw_w (at_start sc p)) (mgr sc (at_start sc p)).

Lemma state_session : forall sc p, snd (cw_enable false sc (world_new ZF true)) = None -> is_some (cw_man (at_start sc p)) = true ->
  ckpt_session ZF false sc true p (state sc p).
Proof.
  intros sc p H1 H2. unfold state. exists (fst (cw_enable false sc (world_new ZF true))), (mgr sc (at_start sc p)).
  split; [rewrite <- H1; apply surjective_pairing|]. split; [|reflexivity]. unfold mgr, at_start in *.
  destruct (cw_man _); [reflexivity|discriminate].
Qed.

Example C40_demo :
  let s := state (sched 3 revolve3) (pow8 2) in let rf := RF 3 [0] 1%Z in
  ckpt_session ZF false (sched 3 revolve3) true (pow8 2) s /\
  ok (cop_run ZF s (OCall rf [3%Z])) = true /\
  snd (cop_run ZF (cop_hist ZF s [OCall rf [3%Z]]) OEnd) = Some ECheckpoint /\
  spends ZF (cop_hist ZF s [OCall rf [3%Z]]) (ODeriv rf 1%Z) /\
  snd (cop_run ZF (cop_hist ZF s [OCall rf [3%Z]; ODeriv rf 1%Z]) (ODeriv rf 1%Z)) = Some ECheckpoint /\
  snd (cop_run ZF (cop_hist ZF s [OCall rf [3%Z]; ODeriv rf 1%Z; OCall rf [5%Z]]) (ODeriv rf 1%Z)) = None.
Proof. cbv zeta. split; [apply state_session; vm_compute; reflexivity|]. vm_conj. Qed.

(** * C41 *)

(** C41 is false as stated.  In each case the schedule covers the three steps and the evaluation without
    checkpointing is Ok. *)
Definition plain (p : list (stmt Z)) (j : nat) (vals : list Z) : res Z :=
  let w := fst (recorded ZF true p j) in
  snd (rf_call ZF (t_flat (w_tape w)) (RF (snd (recorded ZF true p j)) (w_ctrls w) 1%Z) vals (w_heap w)).

Lemma fwd3_covering : covering (sched 3 fwd3) 3 fwd3.
Proof. split; [repeat (constructor; cbn; try lia)|]. split; [reflexivity|now left]. Qed.

(** The recorded value of the functional is zero: [if functional:] is false, the functional's value is
    dropped and the recorded value is returned for every control value. *)
Theorem C41_zero_functional_refuted : exists sc fwd p s rf j vals x,
  covering sc 3 fwd /\ ckpt_session ZF false sc true p s /\ pure_program p /\
  plain p j vals = Ok x /\ snd (recorded ZF true p j) = rf_J rf /\ w_ctrls (fst (recorded ZF true p j)) = rf_ctrls rf /\
  snd (c_call ZF rf vals s) = Ok 0%Z /\ x <> 0%Z.
Proof.
  exists (sched 3 fwd3), fwd3, (pow8 0), (state (sched 3 fwd3) (pow8 0)), (RF 3 [0] 1%Z), 3, [3%Z], 6561%Z.
  split; [apply fwd3_covering|]. split; [apply state_session; vm_compute; reflexivity|].
  repeat match goal with |- _ /\ _ => split end; try (vm_compute; reflexivity). lia.
Qed.
Print Assumptions C41_zero_functional_refuted.

(** The first evaluation ends the recording after the controls were set, and ending the last step
    discards the value just given to a control used in that step. *)
Definition last_step (x : Z) : list (stmt Z) :=
  [SNew x; SNew 5%Z; SControl 0; SOp KMul [1; 1]; SEndStep; SOp KMul [2; 2]; SEndStep; SOp KMul [3; 0]].
Theorem C41_first_evaluation_refuted : exists sc fwd p s rf j vals x y,
  covering sc 3 fwd /\ ckpt_session ZF false sc true p s /\ pure_program p /\
  plain p j vals = Ok x /\ snd (recorded ZF true p j) = rf_J rf /\ w_ctrls (fst (recorded ZF true p j)) = rf_ctrls rf /\
  snd (c_call ZF rf vals s) = Ok y /\ x <> y.
Proof.
  exists (sched 3 fwd3), fwd3, (last_step 2), (state (sched 3 fwd3) (last_step 2)), (RF 4 [0] 1%Z), 4, [3%Z], 1875%Z, 1250%Z.
  split; [apply fwd3_covering|]. split; [apply state_session; vm_compute; reflexivity|].
  repeat match goal with |- _ /\ _ => split end; try (vm_compute; reflexivity). lia.
Qed.
Print Assumptions C41_first_evaluation_refuted.

(** An intermediate value computed by exp is a plain float after recomputation and cannot be stored. *)
Definition through_exp (x : Z) : list (stmt Z) :=
  [SNew x; SControl 0; SFun KExp [0] true; SEndStep; SOp KMul [1; 1]; SEndStep; SOp KMul [2; 2]].
Definition second3 : list action := [AForward 0 (Some 1) false false RAM; AForward 1 (Some 3) true false RAM; AEndForward].
Theorem C41_exp_refuted : exists sc fwd p s rf j vals x,
  covering sc 3 fwd /\ ckpt_session ZF false sc true p s /\
  plain p j vals = Ok x /\ snd (recorded ZF true p j) = rf_J rf /\ w_ctrls (fst (recorded ZF true p j)) = rf_ctrls rf /\
  snd (c_call ZF rf vals s) = Err EAttr.
Proof.
  exists (sched 3 second3), second3, (through_exp 2), (state (sched 3 second3) (through_exp 2)), (RF 3 [0] 1%Z), 3, [3%Z], 4096%Z.
  split; [split; [repeat (constructor; cbn; try lia)|split; [reflexivity|now left]]|]. split; [apply state_session; vm_compute; reflexivity|].
  vm_conj.
Qed.
Print Assumptions C41_exp_refuted.

(** What holds.  Programs of immutable values without exp and log, any schedule that covers the steps
    (whether or not it knows their number beforehand), any history of evaluations and derivatives for
    the same controls, successful or not: once one of them got past the check of its arguments, every
    evaluation of a functional whose recorded value is not zero has the outcome - the value, or the
    exception - of the evaluation on an ordinary tape, in the state in which the recording left it. *)
Theorem C41_evaluation_partial : forall {V} (F : fops V) sc n fwd, covering sc n fwd -> 1 <= n ->
  forall pkg ann p, pure_program p -> consistent p -> (sc_max sc = None -> S (ends p) = n) ->
  forall s, ckpt_session F pkg sc ann p s ->
  forall cs ops j ob J scale vals, let w := exec F (world_new F ann) p in
  Forall (on_controls cs) ops -> Exists (attempted cs) ops ->
  nth_error (w_objs w) j = Some ob -> o_bv ob = Some J -> truthy F (o_val ob) = true ->
  snd (c_call F (RF J cs scale) vals (cop_hist F s ops)) = snd (rf_call F (t_flat (w_tape w)) (RF J cs scale) vals (w_heap w)).
Proof. exact @ckpt_call. Qed.
Print Assumptions C41_evaluation_partial.

(** The same against the program run again with the controls given the supplied values. *)
Theorem C41_rerun_partial : forall {V} (F : fops V) sc n fwd, covering sc n fwd -> 1 <= n ->
  forall pkg ann p, pure_program p -> consistent p -> (sc_max sc = None -> S (ends p) = n) ->
  forall s, ckpt_session F pkg sc ann p s ->
  forall cs ops j ob J scale vals, let w := exec F (world_new F ann) p in
  cs = w_ctrls w -> length vals = length cs -> Forall (on_controls cs) ops -> Exists (attempted cs) ops ->
  nth_error (w_objs w) j = Some ob -> o_bv ob = Some J -> truthy F (o_val ob) = true ->
  snd (c_call F (RF J cs scale) vals (cop_hist F s ops)) = rmap (fun x => f_mul F x scale) (spec_rerun F ann p vals j).
Proof. exact @ckpt_call_rerun. Qed.
Print Assumptions C41_rerun_partial.

(** At the recorded values of the controls every evaluation, also the first one, gives the recorded value. *)
Theorem C41_recorded_controls_partial : forall {V} (F : fops V) sc n fwd, covering sc n fwd -> 1 <= n ->
  forall pkg ann p, pure_program p -> consistent p -> (sc_max sc = None -> S (ends p) = n) ->
  forall s, ckpt_session F pkg sc ann p s ->
  forall cs ops j ob J scale, let w := exec F (world_new F ann) p in
  let xs := map (fun c => bv_rec (w_heap w c)) cs in
  Forall (on_controls cs) ops -> Forall (at_values xs) ops ->
  nth_error (w_objs w) j = Some ob -> o_bv ob = Some J -> truthy F (o_val ob) = true ->
  snd (c_call F (RF J cs scale) xs (cop_hist F s ops)) = Ok (f_mul F (o_val ob) scale).
Proof. exact @ckpt_call_recorded. Qed.
Print Assumptions C41_recorded_controls_partial.

(** With a schedule that stores what the adjoint needs of every step, and controls that are no results and are used
    in every step, the first evaluation is right as well. *)
Theorem C41_stored_partial : forall {V} (F : fops V) sc n fwd back, covering sc n fwd -> 1 <= n -> reversing sc n fwd back ->
  Forall storing fwd -> restoring n back ->
  forall pkg ann p, pure_program p -> consistent p -> S (ends p) = n ->
  forall s, ckpt_session F pkg sc ann p s ->
  let w := exec F (world_new F ann) p in let bs := t_flat (w_tape w) in
  forall cs, cs <> [] -> (forall c, In c cs -> ~ In c (outs_of bs)) ->
  (forall c t, In c cs -> In t (t_steps (c_tape s)) -> In c (deps_of (ts_blocks t))) ->
  forall ops j ob J scale vals, Forall (on_controls cs) ops -> nth_error (w_objs w) j = Some ob -> o_bv ob = Some J -> truthy F (o_val ob) = true ->
  snd (c_call F (RF J cs scale) vals (cop_hist F s ops)) = snd (rf_call F bs (RF J cs scale) vals (w_heap w)).
Proof. exact @stored_call. Qed.
Print Assumptions C41_stored_partial.

(** A schedule that is told the number of steps at the end. *)
Definition online (fin : list action) : schedule :=
  Sched None (fun m => match m with None => [AForward 0 None true false RAM] | Some _ => fin end) false false (fun p => Nat.eqb p (length fin)).
Definition told3 : list action := [AForward 0 None true false RAM; AEndForward].

Definition back3 : list action :=
  [AReverse 3 2 true; ACopy 0 RAM; AForward 0 (Some 2) false true WORK; AReverse 2 0 true; AEndReverse].

Example C41_demo :
  let rf := RF 3 [0] 1%Z in let ops := [OCall rf [1%Z; 1%Z]; OCall rf [3%Z]; ODeriv rf 1%Z; ODeriv rf 1%Z] in
  let s := state (sched 3 revolve3) (pow8 2) in let s1 := state (online told3) (pow8 2) in
  ckpt_session ZF false (sched 3 revolve3) true (pow8 2) s /\ ckpt_session ZF false (online told3) true (pow8 2) s1 /\
  covering (sched 3 revolve3) 3 (firstn 3 revolve3) /\ covering (online told3) 3 told3 /\
  pure_program (pow8 2) /\ consistent (pow8 2) /\ S (ends (pow8 2)) = 3 /\
  Forall (on_controls [0]) ops /\ Exists (attempted [0]) ops /\
  (exists ob, nth_error (w_objs (exec ZF (world_new ZF true) (pow8 2))) 3 = Some ob /\ o_bv ob = Some 3 /\ truthy ZF (o_val ob) = true) /\
  snd (c_call ZF rf [5%Z] (cop_hist ZF s ops)) = Ok 390625%Z /\ snd (c_call ZF rf [5%Z] (cop_hist ZF s1 ops)) = Ok 390625%Z /\
  snd (c_call ZF rf [2%Z] s) = Ok 256%Z.
Proof.
  cbv zeta.
  split; [apply state_session; vm_compute; reflexivity|]. split; [apply state_session; vm_compute; reflexivity|].
  split; [split; [repeat (constructor; cbn; try lia)|split; [reflexivity|now left]]|].
  split; [split; [repeat (constructor; cbn; try lia)|split; [reflexivity|right; split; reflexivity]]|].
  split; [reflexivity|]. split; [repeat constructor|]. split; [reflexivity|]. split; [repeat constructor|].
  split; [right; left; reflexivity|]. split; [eexists; vm_compute; repeat split; reflexivity|]. vm_conj.
Qed.

(** * C42 *)
(** What holds at the recorded values of the controls: whatever steps the schedule stores, replays or drops, as
    long as it covers the steps and then reverses them, every derivative (the first one and repeated ones) is the
    derivative without a manager; it fails exactly when that one does. *)
Theorem C42_recorded_controls_partial : forall {V} (F : fops V) sc n fwd back, covering sc n fwd -> 1 <= n -> reversing sc n fwd back ->
  forall pkg ann p, pure_program p -> consistent p -> (sc_max sc = None -> S (ends p) = n) ->
  forall s, ckpt_session F pkg sc ann p s ->
  let w := exec F (world_new F ann) p in let bs := t_flat (w_tape w) in
  forall cs, on_tape bs cs ->
  let xs := map (fun c => bv_rec (w_heap w c)) cs in
  forall ops J scale x, Forall (on_controls cs) ops -> Forall (at_values xs) ops -> derivs_ok F s ops = true -> evaluated_last ops ->
  snd (c_derivative F (RF J cs scale) x (cop_hist F s ops)) = snd (rf_derivative F bs (RF J cs scale) x (w_heap w)).
Proof. exact @ckpt_derivative_recorded. Qed.
Print Assumptions C42_recorded_controls_partial.

Example C42_recorded_demo :
  let rf := RF 3 [0] 1%Z in let ops := [ODeriv rf 1%Z; OCall rf [2%Z]; ODeriv rf 5%Z; OCall rf [2%Z]] in
  let s := state (sched 3 revolve3) (pow8 2) in let s1 := state (online (told3 ++ back3)) (pow8 2) in
  ckpt_session ZF false (sched 3 revolve3) true (pow8 2) s /\ ckpt_session ZF false (online (told3 ++ back3)) true (pow8 2) s1 /\
  reversing (sched 3 revolve3) 3 (firstn 3 revolve3) (skipn 3 revolve3) /\ reversing (online (told3 ++ back3)) 3 told3 back3 /\
  covering (online (told3 ++ back3)) 3 told3 /\
  Forall (on_controls [0]) ops /\ Forall (at_values [2%Z]) ops /\ derivs_ok ZF s ops = true /\ derivs_ok ZF s1 ops = true /\ evaluated_last ops /\
  snd (c_derivative ZF rf 1%Z (cop_hist ZF s ops)) = Ok [1024%Z] /\ snd (c_derivative ZF rf 1%Z (cop_hist ZF s1 ops)) = Ok [1024%Z] /\
  snd (c_derivative ZF rf 1%Z (cop_hist ZF s1 (ops ++ [ODeriv rf 1%Z]))) = Err ECheckpoint.
Proof.
  cbv zeta.
  split; [apply state_session; vm_compute; reflexivity|]. split; [apply state_session; vm_compute; reflexivity|].
  split; [split; [repeat (constructor; cbn; try lia)|reflexivity]|].
  split; [split; [repeat (constructor; cbn; try lia)|reflexivity]|].
  split; [split; [repeat (constructor; cbn; try lia)|split; [reflexivity|right; split; reflexivity]]|].
  split; [repeat constructor|]. split; [repeat constructor|]. split; [vm_compute; reflexivity|]. split; [vm_compute; reflexivity|].
  split; [right; eexists [_; _; _], _, _; reflexivity|]. vm_conj.
Qed.

(** At any values: the schedule stores what the adjoint needs of every step and restores each step before
    reversing it, and the controls are no results and are used in every step.  After any evaluations and successful
    derivatives for these controls, the derivative that follows an evaluation is the one an ordinary tape gives
    after that evaluation; it fails exactly when that one does. *)
Theorem C42_stored_partial : forall {V} (F : fops V) sc n fwd back, covering sc n fwd -> 1 <= n -> reversing sc n fwd back ->
  Forall storing fwd -> restoring n back ->
  forall pkg ann p, pure_program p -> consistent p -> S (ends p) = n ->
  forall s, ckpt_session F pkg sc ann p s ->
  let w := exec F (world_new F ann) p in let bs := t_flat (w_tape w) in
  forall cs, on_tape bs cs -> cs <> [] -> (forall c, In c cs -> ~ In c (outs_of bs)) ->
  (forall c t, In c cs -> In t (t_steps (c_tape s)) -> In c (deps_of (ts_blocks t))) ->
  forall ops rf vals y J scale x, Forall (on_controls cs) ops -> derivs_ok F s ops = true -> rf_ctrls rf = cs ->
  snd (c_call F rf vals (cop_hist F s ops)) = Ok y ->
  snd (c_derivative F (RF J cs scale) x (fst (c_call F rf vals (cop_hist F s ops)))) =
  snd (rf_derivative F bs (RF J cs scale) x (fst (rf_call F bs rf vals (w_heap w)))).
Proof. exact @stored_derivative. Qed.
Print Assumptions C42_stored_partial.

(** x^4 * 7^4, with the control and another variable used in each of three steps. *)
Definition each3 (x : Z) : list (stmt Z) :=
  [SNew x; SControl 0; SNew 7%Z; SOp KMul [1; 1]; SOp KMul [0; 0]; SEndStep; SOp KMul [3; 0]; SOp KMul [4; 2]; SEndStep; SOp KMul [5; 0]; SOp KMul [6; 2]].

Example C42_stored_demo :
  let rf := RF 7 [0] 1%Z in let ops := [OCall rf [3%Z]; ODeriv rf 1%Z; OCall rf [1%Z; 2%Z]; OCall rf [4%Z]; ODeriv rf 2%Z] in
  let s := state (sched 3 adj3) (each3 2) in let w := exec ZF (world_new ZF true) (each3 2) in
  covering (sched 3 adj3) 3 (firstn 4 adj3) /\ reversing (sched 3 adj3) 3 (firstn 4 adj3) (skipn 4 adj3) /\
  Forall storing (firstn 4 adj3) /\ restoring 3 (skipn 4 adj3) /\
  pure_program (each3 2) /\ consistent (each3 2) /\ S (ends (each3 2)) = 3 /\
  ckpt_session ZF false (sched 3 adj3) true (each3 2) s /\
  on_tape (t_flat (w_tape w)) [0] /\ ~ In 0 (outs_of (t_flat (w_tape w))) /\
  (forall t, In t (t_steps (c_tape s)) -> In 0 (deps_of (ts_blocks t))) /\
  Forall (on_controls [0]) ops /\ derivs_ok ZF s ops = true /\
  snd (c_call ZF rf [5%Z] s) = Ok 1500625%Z /\ snd (c_call ZF rf [5%Z] (cop_hist ZF s ops)) = Ok 1500625%Z /\
  snd (c_derivative ZF rf 1%Z (fst (c_call ZF rf [5%Z] (cop_hist ZF s ops)))) = Ok [1200500%Z].
Proof.
  cbv zeta. split; [split; [repeat (constructor; cbn; try lia)|split; [reflexivity|now left]]|].
  split; [split; [repeat (constructor; cbn; try lia)|reflexivity]|].
  split; [repeat constructor|]. split; [repeat constructor|]. split; [reflexivity|]. split; [repeat constructor|]. split; [reflexivity|].
  split; [apply state_session; vm_compute; reflexivity|].
  split; [intros c [<-|[]]; vm_compute; tauto|]. split; [vm_compute; intuition discriminate|].
  split.
  { assert (E : forall l : list (tstep Z), forallb (fun t => mem 0 (deps_of (ts_blocks t))) l = true -> forall t, In t l -> In 0 (deps_of (ts_blocks t))).
    { intros l H t Ht. rewrite forallb_forall in H. apply mem_In. now apply H. }
    apply E. vm_compute. reflexivity. }
  split; [repeat constructor|]. vm_conj.
Qed.

(** The same program and controls, but the steps replayed from a snapshot: after two evaluations the derivative is wrong even
    though the control is used in every step. *)
Theorem C42_work_refuted : exists sc fwd back p s rf v1 v2 y g g', covering sc 3 fwd /\ reversing sc 3 fwd back /\
  ckpt_session ZF false sc true p s /\ pure_program p /\
  (forall c t, In c (rf_ctrls rf) -> In t (t_steps (c_tape s)) -> In c (deps_of (ts_blocks t))) /\
  snd (c_call ZF rf v1 s) = Ok y /\
  let s1 := fst (c_call ZF rf v1 s) in let w := exec ZF (world_new ZF true) p in let bs := t_flat (w_tape w) in
  snd (c_call ZF rf v2 s1) = snd (rf_call ZF bs rf v2 (w_heap w)) /\
  snd (rf_derivative ZF bs rf 1%Z (fst (rf_call ZF bs rf v2 (w_heap w)))) = Ok g /\
  snd (c_derivative ZF rf 1%Z (fst (c_call ZF rf v2 s1))) = Ok g' /\ g <> g'.
Proof.
  exists (sched 3 revolve3), (firstn 3 revolve3), (skipn 3 revolve3), (each3 2), (state (sched 3 revolve3) (each3 2)), (RF 7 [0] 1%Z), [3%Z], [5%Z], 194481%Z, [1200500%Z], [667478%Z].
  split; [split; [repeat (constructor; cbn; try lia)|split; [reflexivity|now left]]|].
  split; [split; [repeat (constructor; cbn; try lia)|reflexivity]|].
  split; [apply state_session; vm_compute; reflexivity|]. split; [reflexivity|].
  split.
  { assert (E : forall l : list (tstep Z), forallb (fun t => mem 0 (deps_of (ts_blocks t))) l = true -> forall c t, In c [0] -> In t l -> In c (deps_of (ts_blocks t))).
    { intros l H c t [<-|[]] Ht. rewrite forallb_forall in H. apply mem_In. now apply H. }
    apply E. vm_compute. reflexivity. }
  cbv zeta. repeat match goal with |- _ /\ _ => split end; try (vm_compute; reflexivity). discriminate.
Qed.
Print Assumptions C42_work_refuted.

Definition plain_derivative (p : list (stmt Z)) (j : nat) (vals : list Z) : res (list Z) :=
  let w := fst (recorded ZF true p j) in let rf := RF (snd (recorded ZF true p j)) (w_ctrls w) 1%Z in
  snd (rf_derivative ZF (t_flat (w_tape w)) rf 1%Z (fst (rf_call ZF (t_flat (w_tape w)) rf vals (w_heap w)))).

(** C42 is false as stated: a control not used in every step loses its new value when its step is left
    (the assignment is not guarded) and the restore before the reverse step does not bring it back (the
    setter ignores controls), so the adjoint uses the recorded control value. *)
Theorem C42_stored_steps_refuted : exists sc p s rf j vals g g',
  ckpt_session ZF false sc true p s /\ pure_program p /\
  plain p j vals = snd (c_call ZF rf vals s) /\
  snd (recorded ZF true p j) = rf_J rf /\ w_ctrls (fst (recorded ZF true p j)) = rf_ctrls rf /\
  plain_derivative p j vals = Ok g /\
  snd (c_derivative ZF rf 1%Z (fst (c_call ZF rf vals s))) = Ok g' /\ g <> g'.
Proof.
  exists (sched 3 adj3), (pow8 2), (state (sched 3 adj3) (pow8 2)), (RF 3 [0] 1%Z), 3, [3%Z], [17496%Z], [11664%Z].
  split; [apply state_session; vm_compute; reflexivity|].
  repeat match goal with |- _ /\ _ => split end; try (vm_compute; reflexivity). discriminate.
Qed.
Print Assumptions C42_stored_steps_refuted.

(** Likewise when steps are replayed from a snapshot: then every replayed value comes from the recorded
    control. *)
Theorem C42_replayed_steps_refuted : exists sc p s rf j vals g g',
  ckpt_session ZF false sc true p s /\ pure_program p /\
  plain p j vals = snd (c_call ZF rf vals s) /\
  snd (recorded ZF true p j) = rf_J rf /\ w_ctrls (fst (recorded ZF true p j)) = rf_ctrls rf /\
  plain_derivative p j vals = Ok g /\
  snd (c_derivative ZF rf 1%Z (fst (c_call ZF rf vals s))) = Ok g' /\ g <> g'.
Proof.
  exists (sched 3 revolve3), (pow8 2), (state (sched 3 revolve3) (pow8 2)), (RF 3 [0] 1%Z), 3, [3%Z], [17496%Z], [1024%Z].
  split; [apply state_session; vm_compute; reflexivity|].
  repeat match goal with |- _ /\ _ => split end; try (vm_compute; reflexivity). discriminate.
Qed.
Print Assumptions C42_replayed_steps_refuted.
