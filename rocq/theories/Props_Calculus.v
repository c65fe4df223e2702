(** Property theorems over the reals: exact derivatives (C05, C45) and tangents (C08). *)
From Coq Require Import List Arith ZArith Bool Lia Reals Lra.
From Coquelicot Require Import Coquelicot.
From Verif Require Import Base Model BaseFacts Graph Record Spec RecordFacts Replay ReplayExec History Session Sweep SpecGraph Marks FreshAdj Dual TlmSweep RealInst Calculus Gradient.
Import ListNotations.
Open Scope R_scope.

(** C05, for any tape: after an evaluation at [m] and any further calls that do not evaluate
    (successful or not), a derivative that returns is the exact derivative of the reduced functional
    at [m], and the reduced functional is defined near [m] in every direction.  [fresh_ctrls]: controls
    are on the tape, or are the functional, or carry no stale adjoint value (see C07_off_tape_refuted). *)
Theorem C05_derivative_exact : forall (bs : list (block R)) (J : nat) (ctrls : list nat) (sc : R) (m : list R) (h0 : heap R) (y : R)
  (l : list (api R)) (d g : list R),
  wf_tape bs -> List.Forall shaped bs -> NoDup ctrls -> independent bs ctrls ->
  (forall v, bv_ctrl (h0 v) = false) -> length d = length ctrls ->
  snd (rf_call RO bs (RF J ctrls sc) m h0) = Ok y -> calm l ->
  let h := run_hist RO bs (fst (rf_call RO bs (RF J ctrls sc) m h0)) l in
  fresh_ctrls bs J ctrls h -> smooth_at bs ctrls (saved h) -> adjoints_right bs ctrls (saved h) ->
  snd (rf_derivative RO bs (RF J ctrls sc) 1 h) = Ok g ->
  exists f : R -> R, locally 0 (fun s => snd (rf_call RO bs (RF J ctrls sc) (shift m d s) h) = Ok (f s)) /\ is_derive f 0 (dot RO g d).
Proof. exact derivative_after_call_fresh. Qed.
Print Assumptions C05_derivative_exact.

(** At such points the derivative does return, unless an earlier failed call left stale marks. *)
Theorem C05_derivative_returns : forall (bs : list (block R)) (J : nat) (ctrls : list nat) (sc : R) (m : list R) (h0 : heap R) (y : R)
  (l : list (api R)) (a : R),
  wf_tape bs -> List.Forall shaped bs -> NoDup ctrls -> ctrls <> [] -> independent bs ctrls ->
  (forall v, bv_ctrl (h0 v) = false) ->
  snd (rf_call RO bs (RF J ctrls sc) m h0) = Ok y -> calm l ->
  let h := run_hist RO bs (fst (rf_call RO bs (RF J ctrls sc) m h0)) l in
  (forall v, bv_mark (h v) = false) ->
  smooth_at bs ctrls (saved h) -> adjoints_run bs ctrls (saved h) ->
  exists g, snd (rf_derivative RO bs (RF J ctrls sc) a h) = Ok g /\ length g = length ctrls.
Proof. exact derivative_runs_after_call. Qed.
Print Assumptions C05_derivative_returns.

(** C05 for recorded programs, before the first evaluation: the derivative of the program itself,
    re-run with other values of its controls, at the recorded values.  Controls must be on the tape, or the
    calls made before only differentiate functionals that are on the tape or are J itself. *)
Theorem C05_program_recorded : forall (ann : bool) (p : list (stmt R)) (j : nat) (sc : R) (l : list (api R)) (d g : list R),
  consistent p -> disciplined ann p = true -> (j < length (w_objs (exec RO (world_new RO ann) p)))%nat ->
  let w := fst (recorded RO ann p j) in
  let rf := RF (snd (recorded RO ann p j)) (w_ctrls w) sc in
  let bs := t_flat (w_tape w) in
  let h := run_hist RO bs (w_heap w) l in
  NoDup (w_ctrls w) -> independent bs (w_ctrls w) -> on_tape bs (w_ctrls w) \/ seeds_on bs (rf_J rf) l -> calm l -> length d = length (w_ctrls w) ->
  smooth_at bs (w_ctrls w) (saved h) -> adjoints_right bs (w_ctrls w) (saved h) ->
  snd (rf_derivative RO bs rf 1 h) = Ok g ->
  exists y : R -> R, locally 0 (fun s => spec_rerun RO ann p (shift (control_values RO ann p) d s) j = Ok (y s)) /\
    is_derive (fun s => y s * sc) 0 (dot RO g d).
Proof. exact derivative_recorded_seeds. Qed.
Print Assumptions C05_program_recorded.

Theorem C05_program_returns : forall (ann : bool) (p : list (stmt R)) (j : nat) (sc : R) (l : list (api R)) (a : R),
  consistent p -> disciplined ann p = true -> (j < length (w_objs (exec RO (world_new RO ann) p)))%nat ->
  let w := fst (recorded RO ann p j) in
  let rf := RF (snd (recorded RO ann p j)) (w_ctrls w) sc in
  let bs := t_flat (w_tape w) in
  let h := run_hist RO bs (w_heap w) l in
  w_ctrls w <> [] -> independent bs (w_ctrls w) -> calm l -> all_ok RO bs (w_heap w) l = true ->
  smooth_at bs (w_ctrls w) (saved h) -> adjoints_run bs (w_ctrls w) (saved h) ->
  exists g, snd (rf_derivative RO bs rf a h) = Ok g /\ length g = length (w_ctrls w).
Proof. exact derivative_recorded_runs. Qed.
Print Assumptions C05_program_returns.

(** C05 for recorded programs after any history of calls that ends in an evaluation at [m] and calls
    that do not evaluate. *)
Theorem C05_program_evaluated : forall (ann : bool) (p : list (stmt R)) (j : nat) (sc : R) (l1 : list (api R)) (m : list R) (y0 : R)
  (l2 : list (api R)) (d g : list R),
  consistent p -> disciplined ann p = true -> (j < length (w_objs (exec RO (world_new RO ann) p)))%nat ->
  let w := fst (recorded RO ann p j) in
  let rf := RF (snd (recorded RO ann p j)) (w_ctrls w) sc in
  let bs := t_flat (w_tape w) in
  let h1 := run_hist RO bs (w_heap w) l1 in
  let h := run_hist RO bs (fst (rf_call RO bs rf m h1)) l2 in
  NoDup (w_ctrls w) -> independent bs (w_ctrls w) -> on_tape bs (w_ctrls w) \/ seeds_on bs (rf_J rf) (l1 ++ l2) -> closed (w_ctrls w) bs -> calls_controls w l1 ->
  snd (rf_call RO bs rf m h1) = Ok y0 -> calm l2 -> length d = length (w_ctrls w) ->
  smooth_at bs (w_ctrls w) (saved h) -> adjoints_right bs (w_ctrls w) (saved h) ->
  snd (rf_derivative RO bs rf 1 h) = Ok g ->
  exists y : R -> R, locally 0 (fun s => spec_rerun RO ann p (shift m d s) j = Ok (y s)) /\
    is_derive (fun s => y s * sc) 0 (dot RO g d).
Proof. exact derivative_evaluated_seeds. Qed.
Print Assumptions C05_program_evaluated.

(** Computation that keeps the arithmetic of the reals. *)
Ltac rcompute := lazy -[Rplus Rmult Rminus Ropp exp ln IZR Rle_dec Rlt_dec Req_EM_T Rdiv Rinv Rpower powerRZ Int_part].

(** [x = 3; y = 2; J = exp(x*y) - max(x, y)]. *)
Definition calc_prog : list (stmt R) :=
  [SNew 3; SNew 2; SControl 0; SControl 1; SOp KMul [0; 1]%nat; SFun KMax [0; 1]%nat true; SFun KExp [2]%nat true; SOp KSub [4; 3]%nat].
Definition calc_w := fst (recorded RO true calc_prog 5).
Definition calc_bs := t_flat (w_tape calc_w).
Definition calc_blocks : list (block R) :=
  [Blk KMul [0; 1]%nat [2]%nat None; Blk KMax [0; 1]%nat [3]%nat None; Blk KExp [2]%nat [4]%nat None; Blk KSub [4; 3]%nat [5]%nat None].
Lemma calc_bs_eq : calc_bs = calc_blocks.
Proof. rcompute. reflexivity. Qed.
Example C05_demo : consistent calc_prog /\ disciplined true calc_prog = true /\ (5 < length (w_objs (exec RO (world_new RO true) calc_prog)))%nat /\
  w_ctrls calc_w = [0; 1]%nat /\ independent calc_bs [0; 1]%nat /\ on_tape calc_bs [0; 1]%nat /\
  smooth_at calc_bs [0; 1]%nat (saved (w_heap calc_w)) /\ adjoints_right calc_bs [0; 1]%nat (saved (w_heap calc_w)) /\
  adjoints_run calc_bs [0; 1]%nat (saved (w_heap calc_w)).
Proof.
  split; [repeat constructor|]. split; [reflexivity|].
  assert (Hj : (5 < length (w_objs (exec RO (world_new RO true) calc_prog)))%nat) by (rcompute; repeat constructor).
  split; [exact Hj|]. split; [rcompute; reflexivity|].
  destruct (recorded_clean RO true calc_prog 5) as [[Ht _] _]. { repeat constructor. } { reflexivity. } { exact Hj. }
  clear Hj.
  assert (S0 : saved (w_heap calc_w) 0%nat = 3) by (rcompute; reflexivity).
  assert (S1 : saved (w_heap calc_w) 1%nat = 2) by (rcompute; reflexivity).
  revert S0 S1. generalize (saved (w_heap calc_w)). intros e S0 S1.
  split; [apply independent_check; [exact Ht|rewrite calc_bs_eq; reflexivity]|].
  split; [apply on_tape_check; rewrite calc_bs_eq; reflexivity|]. clear Ht. rewrite calc_bs_eq.
  split; [|split]; intros b d Hb _ _ _; destruct Hb as [<-|[<-|[<-|[<-|[]]]]]; try exact I.
  cbn. rewrite S0, S1. lra.
Qed.

(** C05 in full is false: [J = y * y] does not depend on the control x, but x carries the adjoint value
    that differentiating [ReducedFunctional(x, Control(x))] left in it, and no block of the tape reads x;
    the derivative of J is 1. *)
Theorem C05_off_tape_refuted : exists (p : list (stmt R)) (l : list (api R)),
  consistent p /\ disciplined true p = true /\ (2 < length (w_objs (exec RO (world_new RO true) p)))%nat /\
  let w := fst (recorded RO true p 2) in
  let rf := RF (snd (recorded RO true p 2)) (w_ctrls w) 1 in
  calm l /\ length (w_ctrls w) = 1%nat /\
  (forall x, spec_rerun RO true p [x] 2 = Ok (5 * 5)) /\
  exists g, snd (rf_derivative RO (t_flat (w_tape w)) rf 1 (run_hist RO (t_flat (w_tape w)) (w_heap w) l)) = Ok g /\ dot RO g [1] = 1.
Proof.
  exists [SNew 3; SNew 5; SControl 0; SOp KMul [1; 1]%nat], [ADeriv (RF 0%nat [0%nat] 1) 1].
  split; [repeat constructor|]. split; [reflexivity|]. split; [rcompute; repeat constructor|].
  cbv zeta. split; [reflexivity|]. split; [rcompute; reflexivity|]. split; [intros x; rcompute; reflexivity|].
  exists [1 * 1]. split; [rcompute; reflexivity|]. unfold dot; cbn. lra.
Qed.
Print Assumptions C05_off_tape_refuted.

(** C08: the tangent sweep gives the exact directional derivative of any variable [J]. *)
Theorem C08_tangent_exact : forall (bs : list (block R)) (J : nat) (ctrls : list nat) (sc : R) (m : list R) (h0 : heap R) (y : R)
  (l : list (api R)) (d : list R) (h' : heap R),
  wf_tape bs -> List.Forall shaped bs -> NoDup ctrls -> independent bs ctrls ->
  (forall v, bv_ctrl (h0 v) = false) -> length d = length ctrls ->
  snd (rf_call RO bs (RF J ctrls sc) m h0) = Ok y -> calm l ->
  let h := run_hist RO bs (fst (rf_call RO bs (RF J ctrls sc) m h0)) l in
  tlm_clean bs ctrls h ->
  smooth_at bs ctrls (saved h) -> tangents_right bs ctrls (saved h) ->
  run_tlm RO bs ctrls d h = (h', None) ->
  exists f : R -> R, locally 0 (fun s => snd (rf_call RO bs (RF J ctrls sc) (shift m d s) h) = Ok (f s)) /\ is_derive f 0 (val RO (bv_tlm (h' J)) * sc).
Proof. exact tangent_after_call. Qed.
Print Assumptions C08_tangent_exact.

Theorem C08_program_recorded : forall (ann : bool) (p : list (stmt R)) (j : nat) (d : list R) (hT : heap R),
  consistent p -> disciplined ann p = true -> (j < length (w_objs (exec RO (world_new RO ann) p)))%nat ->
  let w := fst (recorded RO ann p j) in
  let J := snd (recorded RO ann p j) in
  let bs := t_flat (w_tape w) in
  NoDup (w_ctrls w) -> independent bs (w_ctrls w) -> length d = length (w_ctrls w) ->
  smooth_at bs (w_ctrls w) (saved (w_heap w)) -> tangents_right bs (w_ctrls w) (saved (w_heap w)) ->
  run_tlm RO bs (w_ctrls w) d (w_heap w) = (hT, None) ->
  exists y : R -> R, locally 0 (fun s => spec_rerun RO ann p (shift (control_values RO ann p) d s) j = Ok (y s)) /\
    is_derive y 0 (val RO (bv_tlm (hT J))).
Proof. exact tangent_recorded. Qed.
Print Assumptions C08_program_recorded.

(** [x = 3; y = 2; J = exp(x*y) - x], direction (5, 7): gradient and tangent. *)
Definition tlm_prog : list (stmt R) :=
  [SNew 3; SNew 2; SControl 0; SControl 1; SOp KMul [0; 1]%nat; SFun KExp [2]%nat true; SOp KSub [3; 0]%nat].
Definition tlm_w := fst (recorded RO true tlm_prog 4).
Definition tlm_J := snd (recorded RO true tlm_prog 4).
Definition tlm_bs := t_flat (w_tape tlm_w).
Lemma tlm_bs_eq : tlm_bs = [Blk KMul [0; 1]%nat [2]%nat None; Blk KExp [2]%nat [3]%nat None; Blk KSub [3; 0]%nat [4]%nat None].
Proof. rcompute. reflexivity. Qed.
Example C08_demo : consistent tlm_prog /\ disciplined true tlm_prog = true /\ (4 < length (w_objs (exec RO (world_new RO true) tlm_prog)))%nat /\
  w_ctrls tlm_w = [0; 1]%nat /\ independent tlm_bs [0; 1]%nat /\
  smooth_at tlm_bs [0; 1]%nat (saved (w_heap tlm_w)) /\ tangents_right tlm_bs [0; 1]%nat (saved (w_heap tlm_w)) /\
  snd (rf_derivative RO tlm_bs (RF tlm_J [0; 1]%nat 1) 1 (w_heap tlm_w)) = Ok [2 * exp 6 - 1; 3 * exp 6] /\
  snd (run_tlm RO tlm_bs [0; 1]%nat [5; 7] (w_heap tlm_w)) = None /\
  val RO (bv_tlm (fst (run_tlm RO tlm_bs [0; 1]%nat [5; 7] (w_heap tlm_w)) tlm_J)) = 31 * exp 6 - 5.
Proof.
  split; [repeat constructor|]. split; [reflexivity|].
  assert (Hj : (4 < length (w_objs (exec RO (world_new RO true) tlm_prog)))%nat) by (rcompute; repeat constructor).
  split; [exact Hj|]. split; [rcompute; reflexivity|].
  destruct (recorded_clean RO true tlm_prog 4) as [[Ht _] _]. { repeat constructor. } { reflexivity. } { exact Hj. }
  clear Hj.
  split; [apply independent_check; [exact Ht|rewrite tlm_bs_eq; reflexivity]|]. clear Ht.
  split; [|split]; [rewrite tlm_bs_eq; intros b d Hb _ _ _; destruct Hb as [<-|[<-|[<-|[]]]]; exact I..|].
  split; [|split; [rcompute; reflexivity|]].
  - rcompute. replace (3 * 2) with 6 by ring. f_equal. f_equal; [ring|]. f_equal; ring.
  - rcompute. replace (3 * 2) with 6 by ring. ring.
Qed.

(** C45.  Values: an evaluation uses the supplied value of an intermediate control everywhere
    downstream, see C01_C03_any_controls_any_history.  Derivatives: exact for controls none of which is computed
    from another, C05_derivative_exact (which does not ask controls to be leaves).  False when one
    control is computed from another: [x = 3; y = x*x; J = x*y] with controls x and y gives
    [27; 3] although rf is the function x*y of two independent arguments. *)
Definition cut_prog : list (stmt R) := [SNew 3; SControl 0; SOp KMul [0; 0]%nat; SControl 1; SOp KMul [0; 1]%nat].
Definition cut_w := fst (recorded RO true cut_prog 2).
Definition cut_J := snd (recorded RO true cut_prog 2).
Definition cut_bs := t_flat (w_tape cut_w).
Lemma cut_bs_eq : cut_bs = [Blk KMul [0; 0]%nat [1]%nat None; Blk KMul [0; 1]%nat [2]%nat None].
Proof. rcompute. reflexivity. Qed.
Theorem C45_dependent_controls_refuted : exists (bs : list (block R)) (J : nat) (ctrls : list nat) (m d g : list R) (h0 : heap R) (y : R),
  wf_tape bs /\ List.Forall shaped bs /\ NoDup ctrls /\ (forall v, bv_ctrl (h0 v) = false) /\ on_tape bs ctrls /\ length d = length ctrls /\
  snd (rf_call RO bs (RF J ctrls 1) m h0) = Ok y /\
  let h := fst (rf_call RO bs (RF J ctrls 1) m h0) in
  smooth_at bs ctrls (saved h) /\ adjoints_right bs ctrls (saved h) /\
  snd (rf_derivative RO bs (RF J ctrls 1) 1 h) = Ok g /\
  ~ exists f : R -> R, locally 0 (fun s => snd (rf_call RO bs (RF J ctrls 1) (shift m d s) h) = Ok (f s)) /\ is_derive f 0 (dot RO g d).
Proof.
  exists cut_bs, cut_J, [0; 1]%nat, [3; 9], [1; 0], [27; 3], (w_heap cut_w), 27.
  destruct (recorded_clean RO true cut_prog 2) as [Hw [_ [Nc _]]]. { repeat constructor. } { reflexivity. } { rcompute. repeat constructor. }
  pose proof (recorded_shaped RO true cut_prog 2) as Hs.
  split; [exact Hw|]. split. { apply Hs. { repeat constructor. } { reflexivity. } { rcompute. repeat constructor. } }
  split. { repeat constructor; cbn; lia. }
  split; [exact Nc|]. clear Hw Nc Hs. split; [apply on_tape_check; rewrite cut_bs_eq; reflexivity|]. split; [reflexivity|].
  split. { rcompute. f_equal. ring. }
  cbv zeta. split; [|split; [|split]].
  - rewrite cut_bs_eq. intros b d Hb _ _ _. destruct Hb as [<-|[<-|[]]]; exact I.
  - rewrite cut_bs_eq. intros b d Hb _ _ _. destruct Hb as [<-|[<-|[]]]; exact I.
  - rcompute. f_equal. f_equal; [ring|]. f_equal; ring.
  - intros [f [A B]].
    assert (E : forall s, snd (rf_call RO cut_bs (RF cut_J [0; 1]%nat 1) (shift [3; 9] [1; 0] s)
                  (fst (rf_call RO cut_bs (RF cut_J [0; 1]%nat 1) [3; 9] (w_heap cut_w)))) = Ok ((3 + s) * 9)).
    { intros s. rcompute. f_equal. ring. }
    assert (K : is_derive f 0 9).
    { apply (is_derive_ext_loc (fun s => (3 + s) * 9)).
      - revert A. apply filter_imp. intros s A. rewrite E in A. now injection A.
      - auto_derive; [exact I|ring]. }
    apply is_derive_unique in B. apply is_derive_unique in K. rewrite B in K. cbn in K. lra.
Qed.
Print Assumptions C45_dependent_controls_refuted.
