(** Property theorems: annotation off (C16), failing operations (C26), versions (C28), garbage
    collection (C29), overload_function (C47), what is recorded (C49). *)
From Coq Require Import List Arith ZArith Bool.
From Verif Require Import Base Model BaseFacts Graph Record Spec RecordFacts Replay ReplayStep ReplayExec History Session
  SpecTape Iso TapeRecord IsoRecord SpecPlain Observe Over OverFacts Proc ProcFacts Instances.
Import ListNotations.

(** ** C16 *)
(** The objects' values are those of the program run as plain Python, whatever the switches. *)
Theorem C16_same_values : forall (V : Type) (F : fops V) (ann : bool) (p : list (stmt V)),
  vals (exec F (world_new F ann) p) = plain_run F [] p /\
  vals (exec F (world_new F ann) p) = vals (exec F (world_new F true) (unswitched p)).
Proof. exact @switches_values. Qed.
Print Assumptions C16_same_values.

(** ... and so are the exceptions raised, statement by statement. *)
Theorem C16_same_exceptions : forall (V : Type) (F : fops V) (ann : bool) (p : list (stmt V)) (c : stmt V),
  snd (exec_stmt F (exec F (world_new F ann) p) c) = snd (plain F (plain_run F [] p) c).
Proof. exact @switches_exceptions. Qed.
Print Assumptions C16_same_exceptions.

(** An operation executed while annotation is off, or called with annotate=False, leaves the tape as it is. *)
Theorem C16_nothing_recorded : forall (V : Type) (F : fops V) (w : world V) (c : stmt V),
  ann_of (w_ann w) c = false -> (match c with SEndStep => False | _ => True end) ->
  w_tape (fst (exec_stmt F w c)) = w_tape w.
Proof. exact @off_frame. Qed.
Print Assumptions C16_nothing_recorded.

(** Its results are constants: the program cannot be told from the one in which the results are new
    objects with those values, at any later point and through any call of the API. *)
Theorem C16_constants : forall (V : Type) (F : fops V) (ann : bool) (p : list (stmt V)) (c : stmt V) (q : list (stmt V)) (js : list nat),
  unannotated (w_ann (exec F (world_new F ann) p)) c = true ->
  let results := skipn (length (plain_run F [] p)) (fst (plain F (plain_run F [] p) c)) in
  session F ann (p ++ c :: q) js = session F ann (p ++ map SNew results ++ q) js.
Proof. exact @constant_session. Qed.
Print Assumptions C16_constants.

(** x = 3; y = x*x; pause; z = y*x (27); continue; J = z + y.  J is 36 and dJ/dx = 2x = 6. *)
Definition off_demo : list (stmt Z) :=
  [SNew 3%Z; SControl 0; SOp KMul [0; 0]; SPause; SOp KMul [1; 0]; SContinue; SOp KAdd [2; 1]].
Example C16_demo :
  unannotated (w_ann (exec ZF (world_new ZF true) (firstn 4 off_demo))) (SOp KMul [1; 0] : stmt Z) = true /\
  plain_run ZF [] off_demo = [3; 9; 27; 36]%Z /\
  length (flat (exec ZF (world_new ZF true) off_demo)) = 2 /\
  observe ZF (session ZF true off_demo [3]) [QDeriv 0 [0] 1%Z 1%Z; QCall 0 [0] 1%Z [5%Z]; QDeriv 0 [0] 1%Z 1%Z]
    = Some [Ok [6%Z]; Ok [52%Z]; Ok [10%Z]].
Proof. vm_conj. Qed.

(** ** C26 *)
(** Operations that raise can be dropped from the program without changing the result of any sequence
    of API calls, provided the functionals and controls used are not mentioned only by failed operations. *)
Theorem C26_failures_unobservable : forall (V : Type) (F : fops V) (ann : bool) (p : list (stmt V)) (js : list nat),
  consistent p -> disciplined ann p = true ->
  let s := spec_exec F no_override ann p in
  Forall (fun j => j < length (plain_run F [] p)) js ->
  (forall v, In v (map fst (vers_of s js) ++ map fst (s_ctrls s)) ->
     mentions (spec_tape F ann p) v -> mentions (spec_tape F ann (survivors F [] p)) v) ->
  forall l, observe F (session F ann p js) l = observe F (session F ann (survivors F [] p) js) l.
Proof. exact @failures_unobservable. Qed.
Print Assumptions C26_failures_unobservable.
Theorem C26_same_values : forall (V : Type) (F : fops V) (ann : bool) (p : list (stmt V)),
  vals (exec F (world_new F ann) p) = vals (exec F (world_new F ann) (survivors F [] p)).
Proof. exact @survivors_values. Qed.
Print Assumptions C26_same_values.

(** x = -1 (control); y = x*x; log(x) raises; y/0 raises; a user function raises; J = y*x. *)
Definition uraise : ublock Z :=
  {| u_recompute := fun _ _ => Err (EUser 3); u_adj := fun _ _ _ => Ok None; u_tlm := fun _ _ _ => Ok None; u_hess := fun _ _ _ _ _ => Ok None |}.
Definition fail_demo : list (stmt Z) :=
  [SNew (-1)%Z; SControl 0; SOp KMul [0; 0]; SFun KLog [0] true; SNew 0%Z; SOp KDiv [1; 2];
   SUser uraise (fun _ => Err (EUser 3)) [1; 0] true None; SOp KMul [1; 0]].
Example C26_demo :
  survivors ZF [] fail_demo = [SNew (-1)%Z; SControl 0; SOp KMul [0; 0]; SNew 0%Z; SOp KMul [1; 0]] /\
  disciplined true fail_demo = true /\
  length (flat (exec ZF (world_new ZF true) fail_demo)) = 3 /\
  length (flat (exec ZF (world_new ZF true) (survivors ZF [] fail_demo))) = 2 /\
  observe ZF (session ZF true fail_demo [3]) [QDeriv 0 [0] 1%Z 1%Z; QCall 0 [0] 1%Z [-2]%Z; QDeriv 0 [0] 1%Z 1%Z; QHess 0 [0] 1%Z [1%Z]]
    = Some [Ok [3%Z]; Ok [-8]%Z; Ok [12%Z]; Ok [-12]%Z].
Proof. vm_conj. Qed.
Example C26_demo_consistent : consistent fail_demo /\
  (forall v, In v (map fst (vers_of (spec_exec ZF no_override true fail_demo) [3]) ++ map fst (s_ctrls (spec_exec ZF no_override true fail_demo))) ->
     mentions (spec_tape ZF true fail_demo) v -> mentions (spec_tape ZF true (survivors ZF [] fail_demo)) v).
Proof.
  split; [repeat constructor|].
  intros v Hv _. vm_compute in Hv. destruct Hv as [<-|[<-|[]]].
  - exists (VB KMul [((1,0),1%Z); ((0,0),(-1)%Z)] [((3,0),(-1)%Z)]), (-1)%Z. vm_compute. auto 10.
  - exists (VB KMul [((0,0),(-1)%Z); ((0,0),(-1)%Z)] [((1,0),1%Z)]), (-1)%Z. vm_compute. auto 10.
Qed.
(** Why the condition: x is a functional and a control and appears in no operation but the failed one.
    The adjoint of a variable on no block is never reset, so the derivative of y*y with respect to x
    after that of x itself is the stale 1; with the failed block on the tape it is 0. *)
Example C26_only_failed :
  let p := [SNew (-1)%Z; SControl 0; SFun KLog [0] true; SNew 3%Z; SOp KMul [1; 1]] in
  let q := [QDeriv 1 [0] 1%Z 1%Z; QDeriv 0 [0] 1%Z 1%Z] in
  observe ZF (session ZF true p [2; 0]) q = Some [Ok [1%Z]; Ok [0%Z]] /\
  observe ZF (session ZF true (survivors ZF [] p) [2; 0]) q = Some [Ok [1%Z]; Ok [1%Z]].
Proof. vm_conj. Qed.

(** ** C28 *)
(** Updates through stop_annotating(modifies=...) change nothing for functionals recorded before
    them: any sequence of API calls answers as without the updates. *)
Theorem C28_old_functionals : forall (V : Type) (F : fops V) (ann : bool) (p : list (stmt V)) (us : list (nat * V)) (js : list nat),
  consistent p -> disciplined ann p = true ->
  Forall (fun j => j < length (plain_run F [] p)) js -> (forall j, In j js -> ~ In j (map fst us)) ->
  forall l, observe F (session F ann (p ++ map (fun ox => SUpdate (fst ox) (snd ox)) us) js) l = observe F (session F ann p js) l.
Proof. exact @old_operations. Qed.
Print Assumptions C28_old_functionals.

(** What every block will read when replayed: blocks recorded before the update read the same versions
    and values as without it, with versions of [o] up to [g]; blocks recorded after it (until the next
    assignment to [o]) that depend on [o] read the new version with the new value. *)
Theorem C28_versions : forall (V : Type) (F : fops V) (ann : bool) (p1 : list (stmt V)) (o : nat) (x : V) (p2 : list (stmt V)),
  consistent (p1 ++ SUpdate o x :: p2) -> disciplined ann (p1 ++ SUpdate o x :: p2) = true ->
  o < length (plain_run F [] p1) -> Forall (fun c => modifies o c = false) p2 ->
  let reads := fun p => map (fun b => map (fun v => (verb (w_heap (exec F (world_new F ann) p) v), saved (w_heap (exec F (world_new F ann) p)) v)) (b_deps b))
                            (t_flat (w_tape (exec F (world_new F ann) p))) in
  exists after g, reads (p1 ++ SUpdate o x :: p2) = reads p1 ++ after /\
    (forall r d, In r (reads p1) -> In d r -> fst (fst d) = o -> snd (fst d) <= g) /\
    (forall r d, In r after -> In d r -> fst (fst d) = o -> d = ((o, S g), x)).
Proof. exact @update_versions. Qed.
Print Assumptions C28_versions.

(** Evaluation with new control values is the program re-run, in which an update assigns the value it
    assigned (C01 gives this for every program; here with any number of updates explicit). *)
Theorem C28_rerun : forall (V : Type) (F : fops V) (ann : bool) (p : list (stmt V)) (us : list (nat * V)) (q : list (stmt V)) (j : nat) (vals : list V) (scale : V),
  let prog := p ++ map (fun ox => SUpdate (fst ox) (snd ox)) us ++ q in
  consistent prog -> disciplined ann prog = true -> j < length (w_objs (exec F (world_new F ann) prog)) ->
  let w := fst (recorded F ann prog j) in
  length vals = length (w_ctrls w) ->
  snd (rf_call F (t_flat (w_tape w)) (RF (snd (recorded F ann prog j)) (w_ctrls w) scale) vals (w_heap w)) =
  rmap (fun x => f_mul F x scale) (spec_rerun F ann prog vals j).
Proof. exact (fun V F ann p us q j vals scale Hc Hd Hj Hl =>
  rf_call_rerun F ann _ j vals scale [] Hc Hd Hj Hl (fun rf vs (H : In _ []) => match H with end) (or_introl eq_refl)). Qed.
Print Assumptions C28_rerun.

(** x = 3 (control); u = 2; a = x*u; u := 5; b = x*u; u := 7; J = a*b with J(x) = 10 x^2. *)
Definition upd_demo : list (stmt Z) :=
  [SNew 3%Z; SNew 2%Z; SControl 0; SOp KMul [0; 1]; SUpdate 1 5%Z; SOp KMul [0; 1]; SUpdate 1 7%Z; SOp KMul [2; 3]].
Example C28_demo :
  plain_run ZF [] upd_demo = [3; 7; 6; 15; 90]%Z /\ disciplined true upd_demo = true /\
  observe ZF (session ZF true upd_demo [4]) [QCall 0 [0] 1%Z [4%Z]; QDeriv 0 [0] 1%Z 1%Z] = Some [Ok [160%Z]; Ok [80%Z]] /\
  map (fun b => map (fun v => (verb (w_heap (exec ZF (world_new ZF true) upd_demo) v), saved (w_heap (exec ZF (world_new ZF true) upd_demo)) v)) (b_deps b))
      (t_flat (w_tape (exec ZF (world_new ZF true) upd_demo)))
  = [[((0,0), 3%Z); ((1,0), 2%Z)]; [((0,0), 3%Z); ((1,1), 5%Z)]; [((2,0), 6%Z); ((3,0), 15%Z)]].
Proof. vm_conj. Qed.

(** ** C29 *)
(** Two programs that differ only in where the collector runs: same values, same answers. *)
Theorem C29_unobservable : forall (V : Type) (F : fops V) (ann : bool) (p q : list (stmt V)) (js : list nat),
  consistent p -> consistent q -> disciplined ann p = true -> disciplined ann q = true ->
  no_gc p = no_gc q -> Forall (fun j => j < length (plain_run F [] p)) js ->
  vals (exec F (world_new F ann) p) = vals (exec F (world_new F ann) q) /\
  forall l, observe F (session F ann p js) l = observe F (session F ann q js) l.
Proof. exact @gc_unobservable. Qed.
Print Assumptions C29_unobservable.

(** Something looked at x.block_variable before any operation; with a collection in between, x gets a
    second variable, and still value, derivative and Hessian action agree. *)
Definition gc_demo (g : list (stmt Z)) : list (stmt Z) :=
  [SNew 5%Z; SNew 2%Z; STouch 0; STouch 1] ++ g ++ [SControl 0; SOp KAdd [0; 1]] ++ g ++ [SUpdate 0 4%Z; STouch 0] ++ g ++ [SOp KMul [2; 0]; SGC 2].
Example C29_demo :
  no_gc (gc_demo [SGC 0; SGC 1]) = no_gc (gc_demo []) /\ disciplined true (gc_demo [SGC 0; SGC 1]) = true /\
  map o_bv (w_objs (exec ZF (world_new ZF true) (gc_demo [SGC 0; SGC 1]))) = [Some 6; Some 3; Some 4; Some 7] /\
  map o_bv (w_objs (exec ZF (world_new ZF true) (gc_demo []))) = [Some 3; Some 1; Some 2; Some 4] /\
  observe ZF (session ZF true (gc_demo [SGC 0; SGC 1]) [3]) [QCall 0 [0] 1%Z [6%Z]; QDeriv 0 [0] 1%Z 1%Z] = Some [Ok [32%Z]; Ok [4%Z]] /\
  observe ZF (session ZF true (gc_demo []) [3]) [QCall 0 [0] 1%Z [6%Z]; QDeriv 0 [0] 1%Z 1%Z] = Some [Ok [32%Z]; Ok [4%Z]].
Proof. vm_conj. Qed.

(** ** C47 *)
(** With annotation on, a call that returns adds exactly one block at the end of the tape.  Its
    dependencies are the current versions of the arguments with their values, its outputs new variables,
    one per result, each holding that result; the returned objects are the function's results, and (when
    distinct) their block variables are the block's outputs. *)
Theorem C47_one_block : forall (V : Type) (F : fops V) (p : list (stmt V)) (ann0 : bool) (u : ublock V) (pops accepts : list nat)
    (func : list V -> res (shape (ret V))) (args : list nat) (a : bool) (kwargs : list nat) (tag : option nat) (xs : list V) (r : shape (ret V)),
  consistent p -> disciplined ann0 p = true ->
  let w := exec F (world_new F ann0) p in
  w_ann w && a = true -> arg_vals w args = Ok xs ->
  call_func accepts func (filter (fun k => negb (mem k pops)) kwargs) xs = Ok r ->
  Forall (old_ok (length (w_objs w))) (enlist r) ->
  let '(w', res) := exec_over w u pops accepts func args a kwargs tag in
  exists deps outs os,
    t_flat (w_tape w') = t_flat (w_tape w) ++ [Blk (KUser u) deps outs tag] /\
    Forall2 (fun o v => version_of w o v (w_heap w')) args deps /\
    length outs = length (enlist r) /\ NoDup outs /\ (forall v, In v outs -> ~ In v deps /\ ~ In v (vars_of (t_flat (w_tape w)))) /\
    res = delist r os /\ Forall2 (result_of w w') (enlist r) os /\
    Forall2 (fun o v => bv_obj (w_heap w' v) = o /\ nth_error (vals w') o = Some (bv_out (w_heap w' v))) os outs /\
    (NoDup os -> Forall2 (fun o v => exists ob, nth_error (w_objs w') o = Some ob /\ o_bv ob = Some v) os outs) /\ w_ann w' = w_ann w.
Proof. exact @over_on_program. Qed.
Print Assumptions C47_one_block.

(** With annotation off, no block and no block variable. *)
Theorem C47_off : forall (V : Type) (w : world V) (u : ublock V) (pops accepts : list nat)
    (func : list V -> res (shape (ret V))) (args : list nat) (a : bool) (kwargs : list nat) (tag : option nat),
  w_ann w && a = false ->
  let '(w', res) := exec_over w u pops accepts func args a kwargs tag in
  w_tape w' = w_tape w /\ w_heap w' = w_heap w /\ w_next w' = w_next w /\ w_ann w' = w_ann w /\
  (forall xs r, arg_vals w args = Ok xs -> call_func accepts func kwargs xs = Ok r -> Forall (old_ok (length (w_objs w))) (enlist r) ->
     exists os, res = delist r os /\ Forall2 (result_of w w') (enlist r) os).
Proof. exact @over_off. Qed.
Print Assumptions C47_off.

(** A call that raises records nothing. *)
Theorem C47_raise : forall (V : Type) (F : fops V) (p : list (stmt V)) (ann0 : bool) (u : ublock V) (pops accepts : list nat)
    (func : list V -> res (shape (ret V))) (args : list nat) (a : bool) (kwargs : list nat) (tag : option nat) (e : exn),
  consistent p -> disciplined ann0 p = true ->
  let w := exec F (world_new F ann0) p in
  (forall xs r, func xs = Ok r -> Forall (old_ok (length (w_objs w))) (enlist r)) ->
  snd (exec_over w u pops accepts func args a kwargs tag) = Err e ->
  t_flat (w_tape (fst (exec_over w u pops accepts func args a kwargs tag))) = t_flat (w_tape w).
Proof. exact @over_raise_program. Qed.
Print Assumptions C47_raise.

(** A single result comes back single and a list as a list, element by element.  A tuple does not. *)
Theorem C47_shape_partial : forall (V : Type) (r : shape (ret V)) (os : list nat), length os = length (enlist r) ->
  (forall l, r <> PTuple l) -> exists q, delist r os = Ok q /\ shaped_as r q /\ enlist q = os.
Proof. exact @delist_shape. Qed.
Print Assumptions C47_shape_partial.
Theorem C47_tuple_refuted : exists (w : world Z) (u : ublock Z) (func : list Z -> res (shape (ret Z))),
  func [2%Z] = Ok (PTuple [RNew 3%Z; RNew 4%Z]) /\
  snd (exec_over w u [] [] func [0] true [] None) = Ok (PList [1; 2]).
Proof. exact tuple_becomes_list. Qed.
Print Assumptions C47_tuple_refuted.

(** Keyword arguments meant for the block are taken out of the call only when annotating: with
    annotation off the function itself receives them and the same call raises TypeError. *)
Theorem C47_kwargs_refuted : exists (w : world Z) (u : ublock Z) (pops accepts : list nat) (func : list Z -> res (shape (ret Z))) (kwargs : list nat),
  snd (exec_over w u pops accepts func [0] true kwargs None) = Ok (One 1) /\
  snd (exec_over (with_ann false w) u pops accepts func [0] true kwargs None) = Err EType.
Proof. exact kwargs_differ. Qed.
Print Assumptions C47_kwargs_refuted.
(** Without such keywords the two calls compute the same results. *)
Theorem C47_kwargs_partial : forall (V : Type) (pops accepts : list nat) (func : list V -> res (shape (ret V))) (kwargs : list nat) (xs : list V),
  (forall k, In k kwargs -> ~ In k pops) ->
  call_func accepts func (filter (fun k => negb (mem k pops)) kwargs) xs = call_func accepts func kwargs xs.
Proof. exact @kwargs_same. Qed.
Print Assumptions C47_kwargs_partial.

(** Nesting: whatever the wrapped function's own code does (overloaded operations, further overloaded
    calls, with-blocks, recursion), short of calling continue_annotation, nothing is recorded inside it and
    the call records exactly one block, or none with annotation off. *)
Theorem C47_nested : forall (defs : nat -> code), (forall f, no_continue (defs f) = true) ->
  forall (n : nat) (s : pst) (kw : bool) (body : code) (s' : pst),
  (forall k, p_next s <= k -> p_stk s k = []) -> no_continue body = true ->
  run defs n s (Seq (WithNew None body) (OpKw kw)) = Some (s', None) ->
  p_ann s' = p_ann s /\
  exists l, Forall silent l /\ p_log s' = (if p_ann s && kw then [Rec (p_work s')] else []) ++ l ++ p_log s.
Proof. exact over_nested. Qed.
Print Assumptions C47_nested.
Theorem C47_nested_raise : forall (defs : nat -> code), (forall f, no_continue (defs f) = true) ->
  forall (n : nat) (s : pst) (kw : bool) (body : code) (s' : pst) (e : exn),
  (forall k, p_next s <= k -> p_stk s k = []) -> no_continue body = true ->
  run defs n s (Seq (WithNew None body) (OpKw kw)) = Some (s', Some e) ->
  p_ann s' = p_ann s /\ exists l, Forall silent l /\ p_log s' = l ++ p_log s.
Proof. exact over_nested_raise. Qed.
Print Assumptions C47_nested_raise.

(** f(x, y) = [x + y, x], returning its own argument; the argument gets a new version variable. *)
Example C47_demo :
  let w := exec ZF (world_new ZF true) [SNew 2%Z; SNew 5%Z; SOp KMul [0; 1]] in
  let func := fun xs => match xs with [x; y] => Ok (PList [RNew (x + y)%Z; ROld 0]) | _ => Err EType end in
  let w' := fst (exec_over w uraise [] [] func [0; 1] true [] (Some 4)) in
  snd (exec_over w uraise [] [] func [0; 1] true [] (Some 4)) = Ok (PList [3; 0]) /\ vals w' = [2; 5; 10; 7]%Z /\ length (t_flat (w_tape w')) = 2 /\
  map (fun b => (b_deps b, b_outs b, b_tag b)) (t_flat (w_tape w')) = [([0; 1], [2], None); ([0; 1], [3; 4], Some 4)] /\
  map o_bv (w_objs w') = [Some 4; Some 1; Some 2; Some 3].
Proof. vm_conj. Qed.
Example C47_nested_demo :
  let defs := fun f => if f =? 0 then Seq Op (Seq (WithNew None Op) (OpKw true)) else Raise EValue in
  exists s, run defs 20 (process true) (Seq (WithNew None (Seq (Call 0) (Try (Call 1) Op))) (OpKw true)) = Some (s, None) /\ p_log s = [Rec 0].
Proof. eexists. split; vm_compute; reflexivity. Qed.

(** ** C49 *)
(** The tape lists, in execution order, exactly the operations executed with annotation on: what they
    are, the versions and values they read, the versions and values they produced. *)
Theorem C49_tape_is_program : forall (V : Type) (F : fops V) (ann : bool) (p : list (stmt V)), consistent p -> disciplined ann p = true ->
  let w := exec F (world_new F ann) p in
  map (fun b => VB (b_kind b) (map (pairof (w_heap w)) (b_deps b)) (map (pairof (w_heap w)) (b_outs b))) (t_flat (w_tape w)) = spec_tape F ann p.
Proof. exact @tape_records. Qed.
Print Assumptions C49_tape_is_program.
Example C49_demo :
  spec_tape ZF true (firstn 6 fail_demo ++ off_demo) =
    [VB KMul [((0,0),(-1)%Z); ((0,0),(-1)%Z)] [((1,0),1%Z)]; VB KLog [((0,0),(-1)%Z)] [];
     VB KMul [((0,0),(-1)%Z); ((0,0),(-1)%Z)] [((4,0),1%Z)]; VB KAdd [((2,0),0%Z); ((1,0),1%Z)] [((6,0),1%Z)]].
Proof. vm_compute. reflexivity. Qed.
