(** Property theorems: recording on a cleared tape (C50). *)
From Coq Require Import List Arith ZArith Bool.
From Verif Require Import Base Model BaseFacts Graph Record Spec RecordFacts Session Surgery Coll RFull SpecClear ClearTape ClearFresh Instances.
Import ListNotations.

(** C50, the direct effect: blocks, time steps and the evaluation counter are gone, adjoint values of all
    variables that were on the tape are gone; objects, the switch, Control objects and stored values stay. *)
Theorem C50_effect_partial : forall (V : Type) (F : fops V) (w : world V),
  t_flat (w_tape (cleared F w)) = [] /\ t_steps (w_tape (cleared F w)) = [] /\ t_count (w_tape (cleared F w)) = 0 /\
  w_objs (cleared F w) = w_objs w /\ w_ann (cleared F w) = w_ann w /\ w_ctrls (cleared F w) = w_ctrls w /\
  (forall v, In v (vars_of (t_flat (w_tape w))) -> bv_adj (w_heap (cleared F w) v) = None) /\
  (forall v, saved (w_heap (cleared F w)) v = saved (w_heap w) v).
Proof. exact (@clear_effect). Qed.
Print Assumptions C50_effect_partial.

(** C50 after any history of recordings, evaluations, derivatives, Hessians, optimisations and
    clearings, for a program that uses objects created after the clearing: its reduced functional over
    the Control objects it created evaluates to the re-run of the program alone. *)
Theorem C50_new_objects_partial : forall (V : Type) (F : fops V) (ann : bool) (l : list (hop V)) (p : list (stmt V)) (j : nat)
    (vals : list V) (scale : V),
  let w0 := cleared F (hrun F (world_new F ann) l) in
  consistent p -> disciplined (w_ann w0) p = true -> only_from (length (w_objs w0)) p = true ->
  length (w_objs w0) <= j -> j < length (w_objs (exec F w0 p)) ->
  let w := fst (on_cleared F w0 p j) in
  let cs := skipn (length (w_ctrls w0)) (w_ctrls w) in
  length vals = length cs ->
  snd (rf_call F (t_flat (w_tape w)) (RF (snd (on_cleared F w0 p j)) cs scale) vals (w_heap w)) =
  rmap (fun x => f_mul F x scale) (rerun_from F (held w0) (w_ann w0) p vals j).
Proof. exact (@fresh_after_clear). Qed.
Print Assumptions C50_new_objects_partial.

(** Any program, also one using earlier objects, if the tape was only recorded on and cleared before. *)
Theorem C50_only_recorded_partial : forall (V : Type) (F : fops V) (ann : bool) (ps : list (list (stmt V))) (p : list (stmt V))
    (j : nat) (vals : list V) (scale : V),
  Forall consistent ps -> consistent p -> disciplined ann (concat ps ++ p) = true ->
  let w0 := phases F ann ps in
  j < length (w_objs (exec F w0 p)) ->
  let w := fst (on_cleared F w0 p j) in
  let cs := skipn (length (w_ctrls w0)) (w_ctrls w) in
  length vals = length cs ->
  snd (rf_call F (t_flat (w_tape w)) (RF (snd (on_cleared F w0 p j)) cs scale) vals (w_heap w)) =
  rmap (fun x => f_mul F x scale) (rerun_from F (held w0) (w_ann w0) p vals j).
Proof. exact (@recorded_after_clear). Qed.
Print Assumptions C50_only_recorded_partial.

(** [x = 3; z = 2; Control(x); y = x*z; rf(5); rf.derivative()]. *)
Definition c50_rf : rfull Z := RFull 2 (PList [0]) (fun _ => true) 1%Z [].
Definition c50_before : list (hop Z) :=
  [HStmt (SNew 3%Z); HStmt (SNew 2%Z); HStmt (SControl 0); HStmt (SOp KMul [0; 1]);
   HCall c50_rf (PList [VSame 5%Z]) (fun _ => None) (fun _ _ => None); HDeriv c50_rf 1%Z].

(** Non-vacuity: afterwards [a = 4; Control(a); b = a*a; K = b + b] on new objects; evaluation at 6. *)
Example C50_new_objects_demo :
  let p := [SNew 4%Z; SControl 3; SOp KMul [3; 3]; SEndStep; SOp KAdd [4; 4]] in
  let w0 := cleared ZF (hrun ZF (world_new ZF true) c50_before) in
  consistent p /\ disciplined true p = true /\ only_from (length (w_objs w0)) p = true /\ length (w_objs w0) = 3 /\
  length (w_objs (exec ZF w0 p)) = 6 /\ w_ctrls (fst (on_cleared ZF w0 p 5)) = [0; 3] /\
  rerun_from ZF (held w0) true p [6%Z] 5 = Ok 72%Z.
Proof. split; [repeat constructor|]. vm_conj. Qed.

(** [x = 3; y = x*x; clear_tape(); with stop_annotating(modifies=x): x.assign(4); clear_tape();
    Control(y); K = x*y] evaluated at 10. *)
Example C50_only_recorded_demo :
  let ps := [[SNew 3%Z; SControl 0; SOp KMul [0; 0]]; [SUpdate 0 4%Z]] in
  let p := [SControl 1; SOp KMul [0; 1]] in
  let w0 := phases ZF true ps in
  Forall consistent ps /\ consistent p /\ disciplined true (concat ps ++ p) = true /\
  w_ctrls (fst (on_cleared ZF w0 p 2)) = [0; 1] /\ rerun_from ZF (held w0) true p [10%Z] 2 = Ok 40%Z.
Proof. split; [repeat constructor|]. split; [repeat constructor|]. vm_conj. Qed.

(** C50 refuted for programs that use objects evaluated at other values before: clearing keeps the
    stored values, and recording does not overwrite them.  After [rf(5)] and clear_tape(), x is still
    3 and [y = x*z] records 6, but the functional over z evaluates at z = 2 to 10, and the derivative
    with respect to z is 5. *)
Theorem C50_refuted : exists (l : list (hop Z)) (p : list (stmt Z)) (j : nat),
  let w0 := cleared ZF (hrun ZF (world_new ZF true) l) in
  let w := fst (on_cleared ZF w0 p j) in
  let J := snd (on_cleared ZF w0 p j) in
  let cs := skipn (length (w_ctrls w0)) (w_ctrls w) in
  consistent p /\ disciplined (w_ann w0) p = true /\
  map fst (held w0) = [3; 2; 6]%Z /\ option_map (@o_val Z) (nth_error (w_objs w) j) = Some 6%Z /\
  rerun_from ZF (held w0) true p [2%Z] j = Ok 6%Z /\
  snd (rf_call ZF (t_flat (w_tape w)) (RF J cs 1%Z) [2%Z] (w_heap w)) = Ok 10%Z /\
  snd (rf_derivative ZF (t_flat (w_tape w)) (RF J cs 1%Z) 1%Z (w_heap w)) = Ok [5%Z].
Proof. exists c50_before, [SControl 1; SOp KMul [0; 1]], 3. split; [repeat constructor|]. vm_conj. Qed.
Print Assumptions C50_refuted.
