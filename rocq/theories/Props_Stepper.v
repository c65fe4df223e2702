(** C44: loops over tape.timestepper. *)
From Coq Require Import List Arith ZArith Bool Lia.
From Verif Require Import Base Model Record Ckpt Stepper SpecStepper StepperFacts Instances.
Import ListNotations.

(** For iterators (or any iterable behind a progress bar that iterates itself) and bodies that do not end
    time steps themselves, with or without a checkpoint manager.  The loop comes to an end.  The items arrive in order; without a
    manager all of them arrive unless the loop was left or something was raised.  Every iteration runs its body once; only the
    last may leave, and an exception of its body is the loop's.  The blocks recorded by the first iteration go to the current time step, those of iteration k
    to the k-th time step after it, and nothing else changes, provided that
    a time step exists already or the first iteration records something, and that the announced
    number of time steps is not exceeded. *)
Theorem C44_iterators_partial : forall (V A : Type) (F : fops V) (b : bar) (it : iterable A) (cw : cworld V) (body : body_fun V A),
  b = GeneratorBar \/ (exists l e, it = Iterator l e) ->
  (forall k x u s, In s (fst (body k x u)) -> s <> SEndStep) ->
  consistent cw ->
  exists cw' log out, step_loop F b it cw body = Some (cw', log, out) /\
    map item log = firstn (length log) (items_of it) /\
    (cw_man cw = None -> out = Finished -> map item log = items_of it) /\
    (forall k e, nth_error log k = Some e -> exists l,
       performs F (body k (item e) (before e)) (before e) (after e) l /\ (S k < length log -> l = Continue) /\ (S k = length log -> ends l out) /\
       blocks_of (after e) = blocks_of (before e) ++ work e) /\
    (out = Left -> exists k e, nth_error log k = Some e /\ S k = length log /\ performs F (body k (item e) (before e)) (before e) (after e) Break) /\
    (log = [] -> cw' = cw) /\
    ((forall n, announced cw = Some n -> max 1 (length (steps_of cw)) + length (items_of it) <= S n) ->
     steps_of cw <> [] \/ hd [] (map work log) <> [] -> log <> [] ->
     steps_of cw' = removelast (steps_of cw) ++ (last (steps_of cw) [] ++ hd [] (map work log)) :: tl (map work log)).
Proof. exact @step_loop_spec. Qed.
Print Assumptions C44_iterators_partial.

(** On a tape without time steps: time step k holds what iteration k recorded. *)
Corollary C44_fresh_tape_partial : forall (V A : Type) (F : fops V) (b : bar) (it : iterable A) (w : world V) (body : body_fun V A) cw' log out,
  b = GeneratorBar \/ (exists l e, it = Iterator l e) ->
  (forall k x u s, In s (fst (body k x u)) -> s <> SEndStep) ->
  w_tape w = tape_new -> step_loop F b it (CW w None) body = Some (cw', log, out) -> hd [] (map work log) <> [] ->
  steps_of cw' = map work log.
Proof. exact @step_loop_fresh. Qed.
Print Assumptions C44_fresh_tape_partial.

(** A generator of four items; the body multiplies the item by an object recorded before; the loop is left in the third iteration. *)
Example C44_demo : exists cw' log, step_loop ZF NullBar (Iterator [7; 8; 9; 10]%Z None) start sq_body = Some (cw', log, Left) /\
  map item log = [7; 8; 9]%Z /\ map (@length _) (steps_of cw') = [1; 1; 1].
Proof. exact demo_check. Qed.
Example C44_demo_hyp : forall k x u s, In s (fst (sq_body k x u)) -> s <> SEndStep.
Proof. intros k x u s [<-|[<-|[]]]; discriminate. Qed.

(** ** Where the property fails *)

(** A list, tuple or range with the progress bar the library installs: TypeError before the first
    item, whatever the body.  (The documentation of timestepper uses range(10).) *)
Theorem C44_sequences_raise : forall (V A : Type) (F : fops V) (l : list A) (cw : cworld V) (body : body_fun V A),
  step_loop F NullBar (Sequence l) cw body = Some (cw, [], Raised EType).
Proof. exact @sequence_raises. Qed.
Print Assumptions C44_sequences_raise.

Theorem C44_refuted : exists (it : iterable Z) (body : body_fun Z Z),
  (forall k x u s, In s (fst (body k x u)) -> s <> SEndStep) /\ items_of it = [0; 1; 2]%Z /\
  exists cw' out, step_loop ZF NullBar it start body = Some (cw', [], out).
Proof. exact (ex_intro _ (Sequence [0; 1; 2]%Z) (ex_intro _ sq_body (conj C44_demo_hyp (conj eq_refl (ex_intro _ start (ex_intro _ (Raised EType) eq_refl)))))). Qed.
Print Assumptions C44_refuted.

(** A fresh tape and a first iteration that records nothing: the work of the second iteration goes
    to the first time step, for which there is no third. *)
Theorem C44_empty_start_refuted : exists (it : iterable Z) (body : body_fun Z Z) cw' log,
  (forall k x u s, In s (fst (body k x u)) -> s <> SEndStep) /\
  step_loop ZF NullBar it (CW (world_new ZF true) None) body = Some (cw', log, Finished) /\
  length log = 3 /\ map (@length _) (map work log) = [0; 1; 1] /\ map (@length _) (steps_of cw') = [1; 1].
Proof. exact empty_start_example. Qed.
Print Assumptions C44_empty_start_refuted.

(** A loop one iteration longer than the schedule says: no error, and the last iteration is recorded in the time step of the one before. *)
Theorem C44_schedule_refuted : exists sc (it : iterable Z) (body : body_fun Z Z) cw cw' log,
  (forall k x u s, In s (fst (body k x u)) -> s <> SEndStep) /\
  cw_enable false sc (exec ZF (world_new ZF true) [SNew 5%Z]) = (cw, None) /\
  step_loop ZF NullBar it cw body = Some (cw', log, Finished) /\
  length log = 3 /\ map (@length _) (map work log) = [1; 1; 1] /\ map (@length _) (steps_of cw') = [1; 2].
Proof. exact long_loop_example. Qed.
Print Assumptions C44_schedule_refuted.
