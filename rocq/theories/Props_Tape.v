(** Property theorems: optimisation, copies, tags and snapshots of tapes (C13, C14, C19, C20, C21, C25). *)
From Coq Require Import List Arith ZArith Bool.
From Verif Require Import Base Model BaseFacts Graph Record Spec History Session Sweep SpecGraph Marks Surgery Optimize OptimizeRun TapeFacts TapeMore TapeCopy Instances.
Import ListNotations.

(** Tapes of recorded programs: the flat list is the concatenation of the time steps. *)
Theorem recorded_tapes_are_coherent : forall (V : Type) (F : fops V) (ann : bool) (p : list (stmt V)),
  let t := w_tape (exec F (world_new F ann) p) in t_flat t = concat (map (@ts_blocks V) (t_steps t)).
Proof. exact (fun V F ann p => exec_coherent F p (world_new F ann) eq_refl). Qed.
Print Assumptions recorded_tapes_are_coherent.

(** ** C13 *)

(** Which blocks are kept: those a control influences and that influence the functional, in order,
    time step by time step. *)
Theorem C13_kept_blocks : forall (V : Type) (ctrls : list nat) (J : nat) (t t' : tape V),
  t_flat t = concat (map (@ts_blocks V) (t_steps t)) -> wf_tape (t_flat t) -> optimize ctrls [J] t = (t', None) ->
  exists keep : block V -> bool,
    (forall b, In b (t_flat t) -> (keep b = true <->
       (exists c d, In c ctrls /\ influences (t_flat t) c d /\ In d (b_deps b)) /\
       (exists o, In o (b_outs b) /\ influences (t_flat t) o J))) /\
    t_flat t' = filter keep (t_flat t) /\
    map (@ts_blocks V) (t_steps t') = map (filter keep) (map (@ts_blocks V) (t_steps t)).
Proof. exact (@optimize_keeps). Qed.
Print Assumptions C13_kept_blocks.

(** Each time step keeps, of its checkpointable state, the variables that influence the functional in the optimised tape. *)
Theorem C13_state : forall (V : Type) (ctrls : list nat) (J : nat) (t t' : tape V),
  t_flat t = concat (map (@ts_blocks V) (t_steps t)) -> wf_tape (t_flat t) -> optimize ctrls [J] t = (t', None) ->
  exists keep : nat -> bool,
    (forall v, keep v = true <-> influences (t_flat t') v J) /\ map (@ts_state V) (t_steps t') = map (filter keep) (map (@ts_state V) (t_steps t)).
Proof. exact (@optimize_keeps_state). Qed.
Print Assumptions C13_state.

(** The tape of opt_prog below with the variables x, c, d checkpointable in the first step: after optimising x and c are. *)
Example C13_state_demo : let b k ds o := @Blk Z k ds [o] None in
  let t := Tape [TS [b KMul [0; 0] 3; b KMul [2; 2] 4] [0; 4; 5] [] [] false; TS [b KMul [1; 3] 5; b KAdd [3; 4] 6] [] [] [] false]
                [b KMul [0; 0] 3; b KMul [2; 2] 4; b KMul [1; 3] 5; b KAdd [3; 4] 6] None false 0 in
  snd (optimize [0] [6] t) = None /\ map (@ts_state Z) (t_steps (fst (optimize [0] [6] t))) = [[0; 4]; []].
Proof. vm_conj. Qed.

(** Any sequence of evaluations and derivatives of the functional that returns on the unoptimised
    tape returns the same results on the optimised one. *)
Theorem C13_same_results : forall (V : Type) (F : fops V) (rf : rfun V) (t t' : tape V) (h : heap V) (l : list (api V)),
  t_flat t = concat (map (@ts_blocks V) (t_steps t)) -> wf_tape (t_flat t) -> (forall b, In b (t_flat t) -> gives_value F b) ->
  (forall v, bv_ctrl (h v) = false) -> (forall v, bv_mark (h v) = false) ->
  at_rest F (t_flat t) (rf_ctrls rf) (rf_J rf) h ->
  rf_optimize rf t = (t', None) ->
  (forall c, In c (rf_ctrls rf) -> In c (vars_of (t_flat t')) \/ c = rf_J rf \/ bv_adj (h c) = None) ->
  Forall (through rf) l -> all_ok F (t_flat t) h l = true ->
  outcomes F (t_flat t') h l = outcomes F (t_flat t) h l.
Proof. exact (@optimize_same_results). Qed.
Print Assumptions C13_same_results.

(** The hypothesis [at_rest] holds for every recorded program, after any calls that do not raise
    through functionals with the same controls or leaf controls. *)
Theorem C13_recorded_at_rest : forall (V : Type) (F : fops V) (ann : bool) (p : list (stmt V)) (j : nat) (ctrls : list nat) (l : list (api V)),
  consistent p -> disciplined ann p = true -> j < length (w_objs (exec F (world_new F ann) p)) ->
  let w := fst (recorded F ann p j) in
  let bs := t_flat (w_tape w) in
  Forall (fun a => match a with ACall rf _ => forall o, In o (outs_of bs) -> In o (rf_ctrls rf) -> In o ctrls | _ => True end) l ->
  calls_ok F bs (w_heap w) l = true ->
  at_rest F bs ctrls (snd (recorded F ann p j)) (run_hist F bs (w_heap w) l).
Proof. exact (@recorded_hist_at_rest). Qed.
Print Assumptions C13_recorded_at_rest.

(** [x=3; y=5; k=2; a=x*x; c=k*k; d=y*a; s=a+c], two time steps; J = s, control x.  c does not depend on x,
    d does not contribute to s. *)
Definition opt_prog : list (stmt Z) :=
  [SNew 3%Z; SNew 5%Z; SNew 2%Z; SControl 0; SOp KMul [0; 0]; SOp KMul [2; 2]; SEndStep; SOp KMul [1; 3]; SOp KAdd [3; 4]].
Definition opt_w := fst (recorded ZF true opt_prog 6).
Definition opt_J := snd (recorded ZF true opt_prog 6).
Definition opt_rf : rfun Z := RF opt_J (w_ctrls opt_w) 1%Z.
Example C13_demo :
  length (t_flat (w_tape opt_w)) = 4 /\
  snd (rf_optimize opt_rf (w_tape opt_w)) = None /\
  map (fun s => length (ts_blocks s)) (t_steps (fst (rf_optimize opt_rf (w_tape opt_w)))) = [1; 1] /\
  all_ok ZF (t_flat (w_tape opt_w)) (w_heap opt_w) [ACall opt_rf [7%Z]; ADeriv opt_rf 1%Z; ACall opt_rf [2%Z]; ADeriv opt_rf 1%Z] = true /\
  outcomes ZF (t_flat (fst (rf_optimize opt_rf (w_tape opt_w)))) (w_heap opt_w) [ACall opt_rf [7%Z]; ADeriv opt_rf 1%Z; ACall opt_rf [2%Z]; ADeriv opt_rf 1%Z]
    = [Ok [53%Z]; Ok [14%Z]; Ok [8%Z]; Ok [4%Z]].
Proof. vm_conj. Qed.

(** Without the freshness hypothesis C13 is false: a control whose uses are all optimised away falls
    off the tape, and an adjoint value left by an earlier derivative is returned for it.
    [x=3; y=5; a=x*y; s=x*x], derivative of a with respect to y, then optimise for (s; x, y). *)
Definition stale_prog : list (stmt Z) :=
  [SNew 3%Z; SNew 5%Z; SControl 0; SControl 1; SOp KMul [0; 1]; SOp KMul [0; 0]].
Definition stale_w := fst (recorded ZF true stale_prog 3).
Theorem C13_stale_adjoint_refuted : exists (t : tape Z) (h : heap Z) (rf rf2 : rfun Z),
  wf_tape (t_flat t) /\ (forall v, bv_ctrl (h v) = false) /\ (forall v, bv_mark (h v) = false) /\
  at_rest ZF (t_flat t) (rf_ctrls rf) (rf_J rf) h /\
  snd (rf_optimize rf t) = None /\
  let h1 := run_hist ZF (t_flat t) h [ADeriv rf2 1%Z] in
  snd (rf_derivative ZF (t_flat t) rf 1%Z h1) = Ok [6%Z; 0%Z] /\
  snd (rf_derivative ZF (t_flat (fst (rf_optimize rf t))) rf 1%Z h1) = Ok [6%Z; 3%Z].
Proof.
  assert (C : consistent stale_prog) by repeat constructor.
  assert (L : 3 < length (w_objs (exec ZF (world_new ZF true) stale_prog))) by (vm_compute; repeat constructor).
  exists (w_tape stale_w), (w_heap stale_w), (RF 3 [0; 1] 1%Z), (RF 2 [1] 1%Z).
  destruct (recorded_clean ZF true stale_prog 3 C eq_refl L) as [A [_ [B1 [B2 _]]]].
  split; [exact A|]. split; [exact B1|]. split; [exact B2|].
  split; [exact (recorded_at_rest ZF true stale_prog 3 C eq_refl L [0; 1])|]. vm_conj.
Qed.
Print Assumptions C13_stale_adjoint_refuted.

(** Nor does the optimised tape raise where the unoptimised one does: a failing operation that does
    not contribute to the functional is gone. *)
Definition side_prog : list (stmt Z) := [SNew 3%Z; SControl 0; SFun KLog [0] true; SOp KMul [0; 0]].
Theorem C13_exceptions_refuted : exists (t : tape Z) (h : heap Z) (rf : rfun Z),
  wf_tape (t_flat t) /\ (forall v, bv_ctrl (h v) = false) /\ snd (rf_optimize rf t) = None /\
  snd (rf_call ZF (t_flat t) rf [(-2)%Z] h) = Err EValue /\
  snd (rf_call ZF (t_flat (fst (rf_optimize rf t))) rf [(-2)%Z] h) = Ok 4%Z.
Proof.
  assert (C : consistent side_prog) by repeat constructor.
  assert (L : 2 < length (w_objs (exec ZF (world_new ZF true) side_prog))) by (vm_compute; repeat constructor).
  exists (w_tape (fst (recorded ZF true side_prog 2))), (w_heap (fst (recorded ZF true side_prog 2))), (RF 2 [0] 1%Z).
  destruct (recorded_clean ZF true side_prog 2 C eq_refl L) as [A [_ [B1 _]]].
  split; [exact A|]. split; [exact B1|]. vm_conj.
Qed.
Print Assumptions C13_exceptions_refuted.

(** ** C14 *)
Theorem C14_refused_changes_nothing : forall (V : Type) (ctrls funs : list nat) (t t' : tape V) (e : exn),
  (optimize_for_controls ctrls t = (t', Some e) -> t' = t) /\ (optimize ctrls funs t = (t', Some e) -> t' = t).
Proof. exact (fun V ctrls funs t t' e => conj (refused_unchanged ctrls t t' e) (optimize_unchanged ctrls funs t t' e)). Qed.
Print Assumptions C14_refused_changes_nothing.

Theorem C14_refused_exactly : forall (V : Type) (ctrls : list nat) (t : tape V),
  t_flat t = concat (map (@ts_blocks V) (t_steps t)) -> wf_tape (t_flat t) ->
  (snd (optimize_for_controls ctrls t) = Some ERuntime <->
     exists b c d o, In b (t_flat t) /\ In c ctrls /\ influences (t_flat t) c d /\ In d (b_deps b) /\ In o (b_outs b) /\ In o ctrls) /\
  (snd (optimize_for_controls ctrls t) = None <->
     ~ exists b c d o, In b (t_flat t) /\ In c ctrls /\ influences (t_flat t) c d /\ In d (b_deps b) /\ In o (b_outs b) /\ In o ctrls).
Proof. exact (@refused_iff). Qed.
Print Assumptions C14_refused_exactly.

(** Controls x and a = x*x: refused; controls x and y: accepted. *)
Example C14_demo :
  snd (optimize_for_controls [0; 1] (w_tape opt_w)) = Some ERuntime /\ snd (optimize_for_controls [0; 4] (w_tape opt_w)) = None /\
  map (fun b => (b_deps b, b_outs b)) (t_flat (w_tape opt_w)) = [([0; 0], [1]); ([2; 2], [3]); ([4; 1], [5]); ([1; 3], [6])].
Proof. vm_conj. Qed.

(** ** C19 *)
Theorem C19_order_and_steps : forall (V : Type) (t : tape V) (l : list (top V)),
  t_flat t = concat (map (@ts_blocks V) (t_steps t)) ->
  t_flat (run_tops t l) = concat (map (@ts_blocks V) (t_steps (run_tops t l))) /\
  t_flat (run_tops t l) = t_flat t ++ flat_map (fun o => match o with TAdd b => [b] | _ => [] end) l.
Proof. exact (@tops_order). Qed.
Print Assumptions C19_order_and_steps.

Theorem C19_add_block_index : forall (V : Type) (t : tape V) (b : block V),
  add_block_index t b = length (t_flat t) /\ nth_error (t_flat (add_block t b)) (add_block_index t b) = Some b.
Proof. exact (@add_index). Qed.
Print Assumptions C19_add_block_index.

(** A block stays in its time step at its place; a new one goes into the last step. *)
Theorem C19_no_block_moves : forall (V : Type) (t : tape V) (l : list (top V)) (k i : nat) (b : block V),
  (exists s, nth_error (map (@ts_blocks V) (t_steps t)) k = Some s /\ nth_error s i = Some b) ->
  (exists s, nth_error (map (@ts_blocks V) (t_steps (run_tops t l))) k = Some s /\ nth_error s i = Some b).
Proof. exact (fun V t l k i b => run_tops_placed l t k i b). Qed.
Print Assumptions C19_no_block_moves.
Theorem C19_new_block_in_last_step : forall (V : Type) (t : tape V) (b : block V), exists k i,
  S k = length (t_steps (add_block t b)) /\
  (exists s, nth_error (map (@ts_blocks V) (t_steps (add_block t b))) k = Some s /\ nth_error s i = Some b) /\
  length (t_steps t) <= length (t_steps (add_block t b)) <= max 1 (length (t_steps t)).
Proof. exact (@add_placed). Qed.
Print Assumptions C19_new_block_in_last_step.

Example C19_demo :
  let b k := @Blk Z KAdd [k; k] [k + 10] None in
  map (fun s => length (ts_blocks s)) (t_steps (run_tops tape_new [TState 0 (-1); TAdd (b 0); TAdd (b 1); TEnd; TAdjdep 3 0; TEnd; TAdd (b 2)])) = [2; 0; 1] /\
  add_block_index (run_tops tape_new [TAdd (b 0); TEnd; TAdd (b 1)]) (b 2) = 2.
Proof. vm_conj. Qed.

(** ** C20 *)

(** A tape in the store with unshared sets is the tape of Record.v. *)
Theorem copy_model_refines_tape : forall (V : Type) (s : store) (t : atape V) (o : top V), own s t ->
  let '(s1, t1) := a_run_top s t o in a_view s1 t1 = run_top (a_view s t) o /\ own s1 t1.
Proof. exact (@a_run_top_view). Qed.
Print Assumptions copy_model_refines_tape.

(** The copy has the same blocks and time steps; operations on either, in any interleaving, have on
    the blocks and time steps of that tape the effect they have alone, and none on the other. *)
Theorem C20_same_blocks_partial : forall (V : Type) (s : store) (t : atape V), let '(s1, c) := a_copy s t in
  map (@ts_blocks V) (t_steps (a_view s1 c)) = map (@ts_blocks V) (t_steps (a_view s t)) /\
  t_flat (a_view s1 c) = concat (map (@ts_blocks V) (t_steps (a_view s t))).
Proof. exact (@copy_view). Qed.
Print Assumptions C20_same_blocks_partial.

Theorem C20_independent_partial : forall (V : Type) (s : store) (t c : atape V) (l : list (bool * top V)),
  let mine (side : bool) := map snd (filter (fun o => Bool.eqb (fst o) side) l) in
  let '(s1, t1, c1) := run_boths (s, t, c) l in
  let steps u := map (@ts_blocks V) (t_steps u) in
  steps (a_view s1 t1) = steps (run_tops (a_view s t) (mine false)) /\ t_flat (a_view s1 t1) = t_flat (run_tops (a_view s t) (mine false)) /\
  steps (a_view s1 c1) = steps (run_tops (a_view s c) (mine true)) /\ t_flat (a_view s1 c1) = t_flat (run_tops (a_view s c) (mine true)).
Proof. exact (@copies_independent). Qed.
Print Assumptions C20_independent_partial.

(** The copy starts with empty sets of adjoint dependencies of its own: operations on either tape have on them the effect they have alone. *)
Theorem C20_adjoint_dependencies_partial : forall (V : Type) (s : store) (t : atape V) (l : list (bool * top V)), own s t ->
  let mine (side : bool) := map snd (filter (fun o => Bool.eqb (fst o) side) l) in
  let '(s0, c) := a_copy s t in
  let '(s1, t1, c1) := run_boths (s0, t, c) l in
  let deps u := map (@ts_adjdeps V) (t_steps u) in
  deps (a_view s0 c) = map (fun _ => []) (t_steps (a_view s t)) /\
  deps (a_view s1 t1) = deps (run_tops (a_view s t) (mine false)) /\ deps (a_view s1 c1) = deps (run_tops (a_view s0 c) (mine true)).
Proof. exact (@copies_adjdeps). Qed.
Print Assumptions C20_adjoint_dependencies_partial.
Example C20_adjoint_demo : let s := Store (fun a => match a with 1 => [0] | _ => [] end) 2 in
  let t := ATape [AS [Blk (V:=Z) KAdd [0; 0] [1] None] 0 1 [] false] [Blk KAdd [0; 0] [1] None] None false 0 in
  own s t /\ let '(s0, c) := a_copy s t in
  let '(s1, t1, c1) := run_boths (s0, t, c) [(true, TAdjdep 7 (-1)); (false, TAdjdep 8 (-1))] in
  map (@ts_adjdeps Z) (t_steps (a_view s1 t1)) = [[0; 8]] /\ map (@ts_adjdeps Z) (t_steps (a_view s1 c1)) = [[7]].
Proof.
  split; [|vm_compute; split; reflexivity]. split.
  - constructor; [intros [H|[]]; discriminate H|]. constructor; [intros []|constructor].
  - intros a [<-|[<-|[]]]; cbn; repeat constructor.
Qed.

(** Not so for the checkpointable state of time steps: the copy shares the set of checkpointable variables, so
    recording on the copy changes what the original stores at checkpoints. *)
Theorem C20_shared_state_refuted : exists (s : store) (t : atape Z), own s t /\
  let '(s1, c) := a_copy s t in
  let '(s2, t2, _) := run_boths (s1, t, c) [(true, TState 7 (-1)); (true, TAdd (Blk KAdd [7; 7] [8] None))] in
  map (@ts_state Z) (t_steps (a_view s1 t)) = [[0]] /\ map (@ts_state Z) (t_steps (a_view s2 t2)) = [[0; 7]].
Proof.
  exists (Store (fun a => match a with 0 => [0] | _ => [] end) 2), (ATape [AS [Blk KAdd [0; 0] [1] None] 0 1 [] false] [Blk KAdd [0; 0] [1] None] None false 0).
  split; [|vm_compute; split; reflexivity]. split.
  - constructor; [intros [H|[]]; discriminate H|]. constructor; [intros []|constructor].
  - intros a [<-|[<-|[]]]; cbn; repeat constructor.
Qed.
Print Assumptions C20_shared_state_refuted.

(** ** C21 *)
Theorem C21_values_restored : forall (V : Type) (F : fops V) (t : tape V) (ctrls : list nat) (l : list (api V)) (h : heap V),
  (forall v, bv_ctrl (h v) = false) ->
  Forall (fun a => match a with ACall rf _ => incl (rf_ctrls rf) ctrls | _ => True end) l ->
  let h' := restore_block_vars (checkpoint_block_vars ctrls None t h) (run_hist F (t_flat t) h l) in
  (forall v, bv_ctrl (h' v) = false) /\ (forall v, saved h' v = saved h v).
Proof. exact (@snapshot_saved). Qed.
Print Assumptions C21_values_restored.

(** With a tag, or with functionals evaluated whose controls are not listed: outputs of the selected
    blocks and the listed controls are restored. *)
Theorem C21_selected_values_restored : forall (V : Type) (F : fops V) (t : tape V) (ctrls : list nat) (tag : option nat) (l : list (api V)) (h : heap V),
  (forall v, bv_ctrl (h v) = false) ->
  let h' := restore_block_vars (checkpoint_block_vars ctrls tag t h) (run_hist F (t_flat t) h l) in
  forall v, In v (flat_map (@b_outs V) (get_blocks tag t)) \/ In v ctrls -> saved h' v = saved h v.
Proof. exact (@snapshot_tag_saved). Qed.
Print Assumptions C21_selected_values_restored.

Theorem C21_derivative_restored : forall (V : Type) (F : fops V) (t : tape V) (ctrls : list nat) (l : list (api V)) (h : heap V) (rf : rfun V) (a : V),
  topo (t_flat t) -> (forall v, bv_ctrl (h v) = false) -> (forall v, bv_mark (h v) = false) ->
  Forall (fun a => match a with ACall rf _ => incl (rf_ctrls rf) ctrls | _ => True end) l ->
  sweeps_ok F (t_flat t) h l = true -> (forall c, In c (rf_ctrls rf) -> In c (vars_of (t_flat t))) ->
  let h' := restore_block_vars (checkpoint_block_vars ctrls None t h) (run_hist F (t_flat t) h l) in
  snd (rf_derivative F (t_flat t) rf a h') = snd (rf_derivative F (t_flat t) rf a h).
Proof. exact (@snapshot_derivative). Qed.
Print Assumptions C21_derivative_restored.

(** Whatever failed in between (sweeps that raise leave marks, see C06_stale_marks_refuted). *)
Theorem C21_derivative_restored_if_returns : forall (V : Type) (F : fops V) (t : tape V) (ctrls : list nat) (l : list (api V)) (h : heap V) (rf : rfun V) (a : V) (g1 g2 : list V),
  topo (t_flat t) -> (forall v, bv_ctrl (h v) = false) ->
  Forall (fun a => match a with ACall rf _ => incl (rf_ctrls rf) ctrls | _ => True end) l ->
  (forall c, In c (rf_ctrls rf) -> In c (vars_of (t_flat t))) ->
  let h' := restore_block_vars (checkpoint_block_vars ctrls None t h) (run_hist F (t_flat t) h l) in
  snd (rf_derivative F (t_flat t) rf a h') = Ok g1 -> snd (rf_derivative F (t_flat t) rf a h) = Ok g2 -> g1 = g2.
Proof. exact (@snapshot_derivative_any). Qed.
Print Assumptions C21_derivative_restored_if_returns.

Example C21_demo :
  let t := w_tape opt_w in
  let h := w_heap opt_w in
  let l := [ACall opt_rf [7%Z]; ADeriv opt_rf 1%Z; ACall opt_rf [2%Z]; ACall opt_rf [1%Z; 2%Z]] in
  let h1 := run_hist ZF (t_flat t) h l in
  let h2 := restore_block_vars (checkpoint_block_vars (w_ctrls opt_w) None t h) h1 in
  map (saved h) [0; 1; opt_J] = [3; 9; 13]%Z /\ map (saved h1) [0; 1; opt_J] = [2; 4; 8]%Z /\ map (saved h2) [0; 1; opt_J] = [3; 9; 13]%Z /\
  snd (rf_derivative ZF (t_flat t) opt_rf 1%Z h1) = Ok [4%Z] /\ snd (rf_derivative ZF (t_flat t) opt_rf 1%Z h2) = Ok [6%Z].
Proof. vm_conj. Qed.

(** ** C25 *)
Theorem C25_tags_listed_once : forall (V : Type) (t : tape V), NoDup (get_tags t) /\
  (forall g, In g (get_tags t) <-> exists b, In b (t_flat t) /\ b_tag b = Some g).
Proof. exact (@tags_listed). Qed.
Print Assumptions C25_tags_listed_once.

(** First appearance: a listed tag comes right after the tags of the blocks before its first block. *)
Theorem C25_first_appearance : forall (V : Type) (t : tape V) (l1 l2 : list nat) (g : nat), get_tags t = l1 ++ g :: l2 ->
  exists bs1 b bs2, t_flat t = bs1 ++ b :: bs2 /\ b_tag b = Some g /\ ~ (exists b', In b' bs1 /\ b_tag b' = Some g) /\
    (forall g', In g' l1 <-> exists b', In b' bs1 /\ b_tag b' = Some g').
Proof. exact (@tags_first). Qed.
Print Assumptions C25_first_appearance.

Theorem C25_blocks_of_tag : forall (V : Type) (t : tape V) (g : nat),
  get_blocks None t = t_flat t /\
  (forall b, In b (get_blocks (Some g) t) <-> In b (t_flat t) /\ b_tag b = Some g) /\
  exists sel, get_blocks (Some g) t = filter sel (t_flat t).
Proof. exact (@blocks_of_tag). Qed.
Print Assumptions C25_blocks_of_tag.

Theorem C25_partition : forall (V : Type) (t : tape V) (b : block V), In b (t_flat t) -> b_tag b <> None ->
  exists g, In g (get_tags t) /\ In b (get_blocks (Some g) t) /\
    forall g', In g' (get_tags t) -> In b (get_blocks (Some g') t) -> g' = g.
Proof. exact (@tags_partition). Qed.
Print Assumptions C25_partition.

Example C25_demo :
  let b k g := @Blk Z KAdd [k; k] [k + 10] g in
  let t := run_tops tape_new [TAdd (b 0 (Some 5)); TAdd (b 1 None); TEnd; TAdd (b 2 (Some 3)); TAdd (b 3 (Some 5))] in
  get_tags t = [5; 3] /\ map (fun x => b_deps x) (get_blocks (Some 5) t) = [[0; 0]; [3; 3]].
Proof. vm_conj. Qed.
