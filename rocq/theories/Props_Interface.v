(** Property theorems: the annotation switch (C15, C17), the working tape (C18), derivative_components
    (C22), result shapes (C23), the recompute counter (C48). *)
From Coq Require Import List Arith ZArith Bool Sorted.
From Verif Require Import Base Model BaseFacts Graph Record Spec RecordFacts Session Surgery Coll Proc ProcFacts RFull RFullFacts Instances.
Import ListNotations.

(** ** C15 *)
(** States in which objects not yet created have not been entered; every reachable state is one. *)
Theorem C15_reachable : forall (defs : nat -> code) (ann : bool) (n : nat) (c : code) (s : pst) (o : option exn),
  run defs n (process ann) c = Some (s, o) -> forall k, p_next s <= k -> p_stk s k = [].
Proof. exact process_reachable. Qed.
Print Assumptions C15_reachable.

(** Programs of with-blocks, decorated calls, raises, try/except, recursion, queries and operations (no
    explicit pause/continue): the switch ends as it began, whether or not an exception escapes; and
    every stop_annotating object is back to its state. *)
Theorem C15_restored : forall (defs : nat -> code), (forall f, no_switch (defs f) = true) ->
  forall (n : nat) (s : pst) (c : code) (s' : pst) (o : option exn),
  (forall k, p_next s <= k -> p_stk s k = []) -> no_switch c = true -> run defs n s c = Some (s', o) ->
  p_ann s' = p_ann s /\ forall k, p_stk s' k = p_stk s k.
Proof. exact switch_and_stacks. Qed.
Print Assumptions C15_restored.

(** A single with-block or decorated call restores the switch even around pause/continue inside. *)
Theorem C15_with_restores : forall (defs : nat -> code) (n : nat) (s : pst) (k : nat) (c : code) (s' : pst) (o : option exn),
  (forall k, p_next s <= k -> p_stk s k = []) -> run defs n s (With k c) = Some (s', o) -> p_ann s' = p_ann s.
Proof. exact with_restores. Qed.
Print Assumptions C15_with_restores.
Theorem C15_new_with_restores : forall (defs : nat -> code) (n : nat) (s : pst) (m : option (list nat)) (c : code) (s' : pst) (o : option exn),
  (forall k, p_next s <= k -> p_stk s k = []) -> run defs n s (WithNew m c) = Some (s', o) -> p_ann s' = p_ann s.
Proof. exact withnew_restores. Qed.
Print Assumptions C15_new_with_restores.

(** Inside, annotation is off everywhere: queries answer False, nothing is recorded. *)
Theorem C15_off_inside : forall (defs : nat -> code), (forall f, no_continue (defs f) = true) ->
  forall (n : nat) (s : pst) (k : nat) (c : code) (s' : pst) (o : option exn),
  (forall k, p_next s <= k -> p_stk s k = []) -> no_continue c = true -> run defs n s (With k c) = Some (s', o) ->
  exists l, p_log s' = l ++ p_log s /\ (forall b, In (Ask b) l -> b = false) /\ (forall t, ~ In (Rec t) l).
Proof. exact with_off_inside. Qed.
Print Assumptions C15_off_inside.

(** f0 (decorated by no_annotations) calls itself and raises at depth; caught two levels up. *)
Example C15_demo :
  let defs := fun f => if f =? 0 then With 0 (Seq Query (Seq (Try (Call 1) Op) (Raise (EUser 7)))) else With 0 (WithNew None (Seq Op (Raise EValue))) in
  exists s, run defs 20 (process true) (Seq Op (Seq (Try (Call 0) Query) (Seq (With 0 (With 0 Query)) Op))) = Some (s, None) /\
    p_ann s = true /\ rev (p_log s) = [Rec 0; Ask false; Ask true; Ask false; Rec 0].
Proof. eexists. split; [vm_compute; reflexivity|]. split; reflexivity. Qed.
(** [modifies] with a re-entered object raises, and still restores. *)
Example C15_modifies_demo :
  exists s, run (fun _ => Skip) 20 (process true) (Seq (SMake (Some [3])) (Try (With 1 (With 1 Op)) (Seq Query Op))) = Some (s, None) /\
    p_ann s = true /\ rev (p_log s) = [Cleared 3; Ask true; Rec 0].
Proof. eexists. split; [vm_compute; reflexivity|]. split; reflexivity. Qed.

(** ** C17 *)
(** rf(values): whatever the checks, callbacks and recomputations do (short of switching annotation on
    themselves), and wherever an exception is raised. *)
Theorem C17_call : forall (defs : nat -> code), (forall f, no_continue (defs f) = true) ->
  forall (checks cb_pre cb_post : code) (recs : list code), forallb no_continue (checks :: cb_pre :: cb_post :: recs) = true ->
  forall (n : nat) (s s' : pst) (o : option exn), (forall k, p_next s <= k -> p_stk s k = []) ->
  run defs n s (call_code checks cb_pre cb_post recs) = Some (s', o) ->
  p_ann s' = p_ann s /\ exists l, p_log s' = l ++ p_log s /\ forall t, ~ In (Rec t) l.
Proof. exact call_mute. Qed.
Print Assumptions C17_call.
(** C04, process part: the annotation switch and every stop_annotating object are as before, whatever checks, callbacks and
    recomputations do (pause and continue included) and wherever one of them raises; so is the working tape if they only
    change it within with-blocks. *)
Theorem C04_switch_and_tape : forall (defs : nat -> code) (checks cb_pre cb_post : code) (recs : list code) (n : nat) (s s' : pst) (o : option exn),
  (forall k, p_next s <= k -> p_stk s k = []) ->
  run defs n s (call_code checks cb_pre cb_post recs) = Some (s', o) ->
  p_ann s' = p_ann s /\ (forall k, p_stk s' k = p_stk s k) /\
  ((forall f, scoped (defs f) = true) -> forallb scoped (checks :: cb_pre :: cb_post :: recs) = true -> p_work s' = p_work s).
Proof. exact call_process. Qed.
Print Assumptions C04_switch_and_tape.
(** The second of three blocks switches annotation on, works on another tape and raises. *)
Example C04_process_demo :
  let recs := [Op; Seq Continue (TScope (Seq Op (Raise EZeroDiv))); Op] in
  exists s, run (fun _ => Skip) 20 (process true) (call_code Skip Skip Skip recs) = Some (s, Some EZeroDiv) /\
    p_ann s = true /\ p_work s = 0 /\ p_log s = [Rec 1].
Proof. eexists. split; [vm_compute; reflexivity|]. split; [reflexivity|]. split; reflexivity. Qed.
Theorem C17_hessian : forall (defs : nat -> code), (forall f, no_continue (defs f) = true) ->
  forall (cb_pre cb_post : code) (tlms hess : list code), forallb no_continue (cb_pre :: cb_post :: tlms ++ hess) = true ->
  forall (n : nat) (s s' : pst) (o : option exn), (forall k, p_next s <= k -> p_stk s k = []) ->
  run defs n s (hessian_code cb_pre cb_post tlms hess) = Some (s', o) ->
  p_ann s' = p_ann s /\ exists l, p_log s' = l ++ p_log s /\ forall t, ~ In (Rec t) l.
Proof. exact hessian_mute. Qed.
Print Assumptions C17_hessian.
(** derivative() is not decorated: it records nothing if its callbacks do not. *)
Theorem C17_derivative_partial : forall (defs : nat -> code), (forall f, no_continue (defs f) = true) ->
  forall (comps : list code), forallb no_continue comps = true ->
  forall (n : nat) (s s' : pst) (o : option exn), (forall k, p_next s <= k -> p_stk s k = []) ->
  run defs n s (derivative_code Skip Skip comps) = Some (s', o) ->
  p_ann s' = p_ann s /\ exists l, p_log s' = l ++ p_log s /\ forall t, ~ In (Rec t) l.
Proof. exact derivative_plain_mute. Qed.
Print Assumptions C17_derivative_partial.
Theorem C17_tape_adjoint : forall (defs : nat -> code), (forall f, no_continue (defs f) = true) ->
  forall (comps : list code), forallb no_continue comps = true ->
  forall (n : nat) (s s' : pst) (o : option exn), (forall k, p_next s <= k -> p_stk s k = []) ->
  run defs n s (tape_adj_code comps) = Some (s', o) ->
  p_ann s' = p_ann s /\ exists l, p_log s' = l ++ p_log s /\ forall t, ~ In (Rec t) l.
Proof. exact tape_adj_mute. Qed.
Print Assumptions C17_tape_adjoint.

(** Refuted: the post callback of derivative_components multiplies the left-out controls by 0., a
    recorded operation; and tape.evaluate_tlm on a tape with a power (or a difference whose tangent is
    an AdjFloat and whose output already has one) records. *)
Theorem C17_refuted :
  (exists s, run (fun _ => Skip) 50 (process true) (derivative_code Skip (pack_code 3 [1]) [Op; Op]) = Some (s, None) /\ p_log s = [Rec 0; Rec 0]) /\
  (exists s, run (fun _ => Skip) 50 (process true) (pow_tlm_code (Some Plain) None None) = Some (s, None) /\ p_log s = [Rec 0]) /\
  (exists s, run (fun _ => Skip) 50 (process true) (sub_tlm_code (Some Adj) (Some Plain) None) = Some (s, None) /\ p_log s = [Rec 0]).
Proof. split; [|split]; (eexists; split; [vm_compute; reflexivity|reflexivity]). Qed.
Print Assumptions C17_refuted.

(** C17 for Tape.evaluate_hessian called directly: the Hessian sweeps of differences and negations (powers and quotients, also undecorated, are not covered; the other blocks' sweeps are decorated) record
    one operation for every AdjFloat among a stored value and the value added to it ([mixes]), and nothing else; [hin]: Hessian value of the output,
    [h0], [h1]: those stored at the inputs, by type. *)
Theorem C17_block_hessians_partial : forall (defs : nat -> code) (n : nat) (s : pst) (hin h0 h1 : option pyt), p_ann s = true ->
  exists s1 s2,
    run defs (4 + n) s (sub_hess_code hin h0 h1) = Some (s1, None) /\
    p_log s1 = repeat (Rec (p_work s)) (match hin with None => 0 | Some t => mixes h0 t + mixes h1 Plain end) ++ p_log s /\ p_ann s1 = true /\
    run defs (4 + n) s (neg_hess_code hin h0) = Some (s2, None) /\
    p_log s2 = repeat (Rec (p_work s)) (match hin with None => 0 | Some _ => mixes h0 Plain end) ++ p_log s /\ p_ann s2 = true.
Proof. exact block_sweeps. Qed.
Print Assumptions C17_block_hessians_partial.
Example C17_block_demo : p_ann (process true) = true /\ mixes (Some Adj) Plain = 1 /\ mixes (Some Plain) Plain = 0 /\ mixes None Adj = 0.
Proof. repeat split. Qed.

(** x = 2; y = 5; J = x * y, annotation on. *)
Definition xy_prog : list (stmt Z) := [SNew 2%Z; SNew 5%Z; SControl 0; SControl 1; SOp KMul [0; 1]].
Definition xy_w := fst (recorded ZF true xy_prog 2).
Definition xy_J := snd (recorded ZF true xy_prog 2).
(** The same on the full model: derivative() with derivative_components=(0,) grows the tape. *)
Theorem C17_components_refuted : exists (w : world Z) (r : rfull Z),
  length (t_flat (w_tape w)) = 1 /\ snd (full_derivative ZF w r 1%Z) = Ok (PList [5%Z; 0%Z]) /\
  length (t_flat (w_tape (fst (full_derivative ZF w r 1%Z)))) = 2.
Proof. exists xy_w, (RFull xy_J (PList [0; 1]) (fun _ => true) 1%Z [0%Z]). vm_conj. Qed.
Print Assumptions C17_components_refuted.

Example C17_demo : exists s, run (fun _ => Skip) 50 (process true)
  (Seq Op (Seq (Try (call_code Query Skip Op [Op; Raise EZeroDiv; Op]) Skip) (Seq (derivative_code Query Skip [Op; Op]) Op))) = Some (s, None) /\
  p_ann s = true /\ rev (p_log s) = [Rec 0; Ask false; Ask true; Rec 0].
Proof. eexists. split; [vm_compute; reflexivity|]. split; reflexivity. Qed.

(** ** C18 *)
(** [with set_working_tape(): c]: the previous tape is re-established whatever happens inside; if the
    working tape is changed inside only by nested with-blocks, nothing inside is recorded on a tape that
    existed before; without nested ones everything recorded goes to the new tape. *)
Theorem C18_context : forall (defs : nat -> code) (n : nat) (s : pst) (c : code) (s' : pst) (o : option exn),
  run defs n s (TScope c) = Some (s', o) ->
  p_work s' = p_work s /\
  ((forall f, scoped (defs f) = true) -> scoped c = true ->
     exists l, p_log s' = l ++ p_log s /\ forall t, In (Rec t) l -> p_ntape s <= t) /\
  ((forall f, no_tape (defs f) = true) -> no_tape c = true ->
     exists l, p_log s' = l ++ p_log s /\ forall t, In (Rec t) l -> t = p_ntape s).
Proof. exact tscope_spec. Qed.
Print Assumptions C18_context.
(** Any scoped program: the working tape is as on entry, records go to it or to tapes made since. *)
Theorem C18_scoped_programs : forall (defs : nat -> code), (forall f, scoped (defs f) = true) ->
  forall (n : nat) (s : pst) (c : code) (s' : pst) (o : option exn), scoped c = true -> run defs n s c = Some (s', o) ->
  p_work s' = p_work s /\ p_ntape s <= p_ntape s' /\
  exists l, p_log s' = l ++ p_log s /\ forall t, In (Rec t) l -> t = p_work s \/ p_ntape s <= t < p_ntape s'.
Proof. exact scoped_run. Qed.
Print Assumptions C18_scoped_programs.
(** The decorator is not equivalent: defining the function already switches the working tape (a
    recording between definition and call goes to the new tape), and a second call records on the old. *)
Theorem C18_decorator_refuted :
  exists s1 s2,
    run (fun _ => Skip) 20 (process true) (Seq (TMake 0) (Seq Op (Seq (TWith 0 Op) (TWith 0 Op)))) = Some (s1, None) /\
    run (fun _ => Skip) 20 (process true) (Seq Skip (Seq Op (Seq (TScope Op) (TScope Op)))) = Some (s2, None) /\
    rev (p_log s1) = [Rec 1; Rec 1; Rec 0] /\ rev (p_log s2) = [Rec 0; Rec 1; Rec 2].
Proof. eexists. eexists. split; [vm_compute; reflexivity|]. split; [vm_compute; reflexivity|]. split; reflexivity. Qed.
Print Assumptions C18_decorator_refuted.
Example C18_demo : exists s, run (fun _ => TScope (Seq Op (Raise EValue))) 30 (process true)
  (Seq Op (Seq (TScope (Seq Op (Seq (Try (Call 0) Op) Op))) Op)) = Some (s, None) /\
  rev (p_log s) = [Rec 0; Rec 1; Rec 2; Rec 1; Rec 1; Rec 0] /\ p_work s = 0.
Proof. eexists. split; [vm_compute; reflexivity|]. split; reflexivity. Qed.

(** ** C22 *)
(** Ascending indices within range, controls given as a list or tuple, full derivative returns [g]:
    derivative() with these components returns [g] at the selected positions and zero elsewhere.
    (multiplication by zero gives zero: excludes infinite and nan control values.) *)
Theorem C22_ascending_partial : forall (V : Type) (F : fops V), (forall x, f_mul F x (f_zero F) = f_zero F) ->
  forall (w : world V) (r : rfull V) (a : V) (idx : list nat) (g : list V),
  is_list (fu_controls r) = true -> fu_comps r = map Z.of_nat idx -> idx <> [] ->
  StronglySorted lt idx -> Forall (fun i => i < length (py_items (fu_controls r))) idx ->
  topo (t_flat (w_tape w)) -> (forall v, bv_ctrl (w_heap w v) = false) -> (forall v, bv_mark (w_heap w v) = false) ->
  Forall (fun c => c < w_next w /\ bv_obj (w_heap w c) < length (w_objs w)) (py_items (fu_controls r)) ->
  snd (rf_derivative F (t_flat (w_tape w)) (fu_rf r) a (w_heap w)) = Ok g ->
  snd (full_derivative F w r a) = Ok (PList (map (fun i => if mem i idx then nth i g (f_zero F) else f_zero F) (seq 0 (length g)))).
Proof. exact (@components_spec). Qed.
Print Assumptions C22_ascending_partial.

(** x = 2; y = 5; z = 7; J = x*y*z, gradient (35, 14, 10). *)
Definition xyz_prog : list (stmt Z) := [SNew 2%Z; SNew 5%Z; SNew 7%Z; SControl 0; SControl 1; SControl 2; SOp KMul [0; 1]; SOp KMul [3; 2]].
Definition xyz_w := fst (recorded ZF true xyz_prog 4).
Definition xyz_J := snd (recorded ZF true xyz_prog 4).
Definition xyz_r (cs : pyval nat) (idx : list Z) : rfull Z := RFull xyz_J cs (fun _ => true) 1%Z idx.
Example C22_demo :
  snd (rf_derivative ZF (t_flat (w_tape xyz_w)) (fu_rf (xyz_r (PList [0; 1; 2]) [])) 1%Z (w_heap xyz_w)) = Ok [35; 14; 10]%Z /\
  forallb (fun c => (c <? w_next xyz_w) && (bv_obj (w_heap xyz_w c) <? length (w_objs xyz_w))) [0; 1; 2] = true /\
  snd (full_derivative ZF xyz_w (xyz_r (PTuple [0; 1; 2]) [0; 2]%Z) 1%Z) = Ok (PList [35; 0; 10]%Z).
Proof. vm_conj. Qed.
(** The full statement is false: an unsorted tuple swaps the derivatives; a repeated index gives the
    next position the wrong one; a negative index loses the derivative or gives another position the wrong one; an empty tuple selects
    everything; a single Control raises TypeError. *)
Theorem C22_refuted : exists (w : world Z) (r : list Z -> rfull Z) (r1 : rfull Z),
  snd (full_derivative ZF w (r []) 1%Z) = Ok (PList [35; 14; 10]%Z) /\
  snd (full_derivative ZF w (r [2; 0]%Z) 1%Z) = Ok (PList [10; 0; 35]%Z) /\
  snd (full_derivative ZF w (r [0; 0; 1]%Z) 1%Z) = Ok (PList [35; 35; 0]%Z) /\
  snd (full_derivative ZF w (r [-1]%Z) 1%Z) = Ok (PList [0; 0; 0]%Z) /\
  snd (full_derivative ZF w (r [-3; 1]%Z) 1%Z) = Ok (PList [0; 35; 0]%Z) /\
  snd (full_derivative ZF w (r [3]%Z) 1%Z) = Err EIndex /\ snd (full_derivative ZF w (r [-4]%Z) 1%Z) = Err EIndex /\
  fu_controls r1 = POne 0 /\ fu_comps r1 = [0%Z] /\ snd (full_derivative ZF w r1 1%Z) = Err EType.
Proof.
  exists xyz_w, (xyz_r (PList [0; 1; 2])), (xyz_r (POne 0) [0%Z]). vm_conj.
Qed.
Print Assumptions C22_refuted.

(** ** C23 *)
(** The derivative comes back in the shape of the controls, with the values of the list interface
    (C05-C08 are about those); exceptions are passed on. *)
Theorem C23_derivative : forall (V : Type) (F : fops V) (w : world V) (r : rfull V) (a : V), fu_comps r = [] ->
  match snd (rf_derivative F (t_flat (w_tape w)) (fu_rf r) a (w_heap w)) with
  | Err e => snd (full_derivative F w r a) = Err e
  | Ok l => exists y, snd (full_derivative F w r a) = Ok y /\
      match fu_controls r with
      | POne _ => exists x, l = [x] /\ y = POne x
      | PList cs | PTuple cs => length l = length cs /\ y = PList l
      end
  end.
Proof. exact (@derivative_plain_shape). Qed.
Print Assumptions C23_derivative.
Theorem C23_derivative_components : forall (V : Type) (F : fops V) (w : world V) (r : rfull V) (a : V) (y : pyval V),
  snd (full_derivative F w r a) = Ok y ->
  exists l, match fu_controls r with
      | POne _ => exists x, l = [x] /\ y = POne x
      | PList cs | PTuple cs => length l = length cs /\ y = PList l
      end.
Proof. exact (@derivative_shape_ok). Qed.
Print Assumptions C23_derivative_components.
Theorem C23_hessian : forall (V : Type) (F : fops V) (w : world V) (r : rfull V) (m : pyval V),
  match snd (rf_hessian F (t_flat (w_tape w)) (fu_rf r) (py_items m) (w_heap w)) with
  | Err e => snd (full_hessian F w r m) = Err e
  | Ok l => exists y, snd (full_hessian F w r m) = Ok y /\
      match fu_controls r with
      | POne _ => exists x, l = [x] /\ y = POne x
      | PList cs | PTuple cs => length l = length cs /\ y = PList l
      end
  end.
Proof. exact (@hessian_shape_ok). Qed.
Print Assumptions C23_hessian.
(** Enlist then delist: round trip (a tuple becomes a list); a wrong-sized list for a single object is
    refused. *)
Theorem C23_round_trip : forall (A B : Type) (x : pyval A) (l : list B),
  delist (mk_enlist x) (el_items (mk_enlist x)) = Ok (match x with PTuple c => PList c | y => y end) /\
  (forall a, x = POne a -> length l <> 1 -> delist (mk_enlist x) l = Err EAssert).
Proof. exact enlist_round_trip. Qed.
Print Assumptions C23_round_trip.
Example C23_demo :
  snd (full_derivative ZF xyz_w (xyz_r (POne 1) []) 1%Z) = Ok (POne 14%Z) /\
  snd (full_derivative ZF xyz_w (xyz_r (PTuple [1]) []) 1%Z) = Ok (PList [14%Z]) /\
  snd (full_hessian ZF xyz_w (xyz_r (POne 1) []) (POne 1%Z)) = Ok (POne 0%Z) /\
  delist (mk_enlist (POne 1)) [3; 4] = Err EAssert.
Proof. vm_conj. Qed.

(** ** C48 *)
(** For every history of recording, evaluations (accepted, refused or failing, with raising callbacks),
    derivatives, Hessians, tape optimisation and clearing: the counter is the number of evaluations
    started since the tape was created or cleared.  An evaluation starts if there is one acceptable
    value per control and eval_cb_pre does not raise. *)
Theorem C48_counter : forall (V : Type) (F : fops V) (l : list (hop V)) (w : world V),
  evals l (t_count (w_tape w)) (t_count (w_tape (hrun F w l))).
Proof. exact (@counter_spec). Qed.
Print Assumptions C48_counter.
Theorem C48_determined : forall (V : Type) (l : list (hop V)) (n m m' : nat), evals l n m -> evals l n m' -> m = m'.
Proof. exact (@evals_fun). Qed.
Print Assumptions C48_determined.
Example C48_demo :
  let r := xyz_r (PList [0; 1; 2]) [] in let ok := fun _ : pyval (pyarg Z) => @None exn in
  let l := [HCall r (PList [VSame 1; VNum 2; VSame 3]%Z) ok (fun _ _ => None);
            HCall r (PList [VSame 1; VNum 2]%Z) ok (fun _ _ => None);
            HCall r (PList [VSame 1; VBad; VSame 3]%Z) ok (fun _ _ => None);
            HCall r (PList [VSame 1; VNum 2; VSame 3]%Z) (fun _ => Some EValue) (fun _ _ => None);
            HDeriv r 1%Z; HStmt (SOp KMul [0; 1]);
            HCall r (PTuple [VSame 1; VNum 2; VSame 3]%Z) ok (fun _ _ => Some EValue)] in
  t_count (w_tape (hrun ZF xyz_w l)) = 2 /\
  t_count (w_tape (hrun ZF xyz_w (l ++ [HClear; HCall r (PList [VSame 1; VNum 2; VSame 3]%Z) ok (fun _ _ => None)]))) = 1.
Proof. vm_conj. Qed.
