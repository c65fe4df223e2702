(** Property theorems: duality of the sweeps (C09), scaling (C12), solve_adjoint (C43). *)
From Coq Require Import List Arith ZArith Bool Lia.
From Verif Require Import Base Model BaseFacts Graph Record Spec RecordFacts Replay ReplayExec History Session Sweep SpecGraph Marks FreshAdj Dual TlmSweep DualAll Linear Instances.
Import ListNotations.

(** C09: in every commutative ring with a division that is multiplication by some factor, for every
    tape of float operations and user blocks whose adjoint component is the transpose of their
    tangent component, the seed times the tangent of J equals the derivative applied to the
    direction, from any states that hold the same forward values.  Controls may depend on one another:
    the tangent sweep adds to a direction, and the gradient of a control includes what passes through
    the others. *)
Theorem C09_duality : forall (V : Type) (F : fops V),
  ring_theory (f_zero F) (f_one F) (f_add F) (f_mul F) (f_sub F) (f_neg F) eq ->
  (forall a t x r s, f_div F a x = Ok r -> f_div F t x = Ok s -> f_mul F r t = f_mul F a s) ->
  forall (bs : list (block V)) (J : nat) (ctrls : list nat) (adj : V) (dots : list V) (hA hT hT' : heap V) (g : list V),
  wf_tape bs -> Forall shaped bs -> users_dual F bs -> NoDup ctrls -> length dots = length ctrls ->
  (forall v, bv_ctrl (hA v) = false) -> fresh_ctrls bs J ctrls hA -> tlm_clean bs ctrls hT ->
  (forall v, saved hT v = saved hA v) ->
  snd (compute_gradient F bs J ctrls adj hA) = Ok g ->
  run_tlm F bs ctrls dots hT = (hT', None) ->
  f_mul F adj (val F (bv_tlm (hT' J))) = dot F g dots.
Proof. exact (@duality_all). Qed.
Print Assumptions C09_duality.

(** The same for recorded programs without further assumptions on the state: any call history that
    does not evaluate may precede the derivative.  Controls must be on the tape, or the calls made before
    only differentiate functionals that are on the tape or are [J]. *)
Theorem C09_duality_recorded : forall (V : Type) (F : fops V),
  ring_theory (f_zero F) (f_one F) (f_add F) (f_mul F) (f_sub F) (f_neg F) eq ->
  (forall a t x r s, f_div F a x = Ok r -> f_div F t x = Ok s -> f_mul F r t = f_mul F a s) ->
  forall (ann : bool) (p : list (stmt V)) (j : nat) (ctrls : list nat) (s a : V) (dots : list V) (l : list (api V)) (hT : heap V) (g : list V),
  consistent p -> disciplined ann p = true -> j < length (w_objs (exec F (world_new F ann) p)) ->
  let w := fst (recorded F ann p j) in
  let J := snd (recorded F ann p j) in
  let bs := t_flat (w_tape w) in
  users_dual F bs -> NoDup ctrls -> length dots = length ctrls -> on_tape bs ctrls \/ seeds_on bs J l ->
  forallb (fun a => negb (is_call a)) l = true ->
  snd (rf_derivative F bs (RF J ctrls s) a (run_hist F bs (w_heap w) l)) = Ok g ->
  run_tlm F bs ctrls dots (w_heap w) = (hT, None) ->
  f_mul F (f_mul F a s) (val F (bv_tlm (hT J))) = dot F g dots.
Proof. exact (@duality_recorded). Qed.
Print Assumptions C09_duality_recorded.

(** [x = 3; y = 2; J = (x*y - y) * (x / (-1)) + x ** y], direction (5, 7), seed 2*3. *)
Definition dual_prog : list (stmt Z) :=
  [SNew 3%Z; SNew 2%Z; SControl 0; SControl 1; SNew (-1)%Z; SOp KMul [0; 1]; SOp KSub [3; 1]; SOp KDiv [0; 2]; SOp KMul [4; 5];
   SOp KPow [0; 1]; SOp KAdd [6; 7]].
Definition dual_w := fst (recorded ZU true dual_prog 8).
Definition dual_J := snd (recorded ZU true dual_prog 8).
Example C09_demo :
  consistent dual_prog /\ disciplined true dual_prog = true /\
  let bs := t_flat (w_tape dual_w) in
  users_dual ZU bs /\ NoDup [0; 1] /\ on_tape bs [0; 1] /\
  snd (rf_derivative ZU bs (RF dual_J [0; 1] 3%Z) 2%Z (w_heap dual_w)) = Ok [-24; 18]%Z /\
  snd (run_tlm ZU bs [0; 1] [5; 7]%Z (w_heap dual_w)) = None /\
  bv_tlm (fst (run_tlm ZU bs [0; 1] [5; 7]%Z (w_heap dual_w)) dual_J) = Some 1%Z.
Proof.
  split; [repeat constructor|]. split; [reflexivity|]. cbv zeta.
  split; [|split; [|split; [|vm_conj]]].
  - assert (E : map (@b_kind Z) (t_flat (w_tape dual_w)) = [KMul; KSub; KDiv; KMul; KPow; KAdd]) by (vm_compute; reflexivity).
    intros b u Hb Hk. apply (in_map (@b_kind Z)) in Hb. rewrite E, Hk in Hb.
    clear - Hb. destruct Hb as [H|[H|[H|[H|[H|[H|[]]]]]]]; discriminate H.
  - repeat constructor; cbn; intuition discriminate.
  - apply on_tape_check. vm_compute. reflexivity.
Qed.

(** [x = 3; y = x * x; J = y * x] with both x and y as controls, direction (1, 2): y carries 2 + 6, J carries
    9 + 3 * 8 = 33; the gradient is (9 + 3 * 6, 3). *)
Example C09_dependent_demo :
  let p := [SNew 3%Z; SOp KMul [0; 0]; SControl 0; SControl 1; SOp KMul [1; 0]] in
  consistent p /\ disciplined true p = true /\
  let w := fst (recorded ZU true p 2) in
  let J := snd (recorded ZU true p 2) in
  let bs := t_flat (w_tape w) in
  on_tape bs (w_ctrls w) /\ ~ independent bs (w_ctrls w) /\ w_ctrls w = [0; 1] /\
  snd (rf_derivative ZU bs (RF J [0; 1] 1%Z) 1%Z (w_heap w)) = Ok [27; 3]%Z /\
  snd (run_tlm ZU bs [0; 1] [1; 2]%Z (w_heap w)) = None /\
  bv_tlm (fst (run_tlm ZU bs [0; 1] [1; 2]%Z (w_heap w)) J) = Some 33%Z.
Proof.
  cbv zeta. split; [repeat constructor|]. split; [reflexivity|]. split; [apply on_tape_check; vm_compute; reflexivity|].
  split; [|vm_conj].
  intros K. refine (K 0 1 _ _ _ _); [vm_compute; now left|vm_compute; right; now left|discriminate|].
  eapply inf_step with (d := 0); [vm_compute; left; reflexivity|vm_compute; now left|vm_compute; now left|constructor].
Qed.

(** Without that condition on the controls duality is false: x is not on the tape of [J = y * y], and
    differentiating [ReducedFunctional(x, Control(x))] left adj_value 1 in it.  The derivative of J in the
    direction 1 is then 1, and J has no tangent. *)
Theorem C09_off_tape_refuted : exists (p : list (stmt Z)) (l : list (api Z)),
  consistent p /\ disciplined true p = true /\ 2 < length (w_objs (exec ZU (world_new ZU true) p)) /\
  let w := fst (recorded ZU true p 2) in
  let J := snd (recorded ZU true p 2) in
  let bs := t_flat (w_tape w) in
  w_ctrls w = [0; 1] /\ forallb (fun a => negb (is_call a)) l = true /\
  snd (rf_derivative ZU bs (RF J [0] 1%Z) 1%Z (run_hist ZU bs (w_heap w) l)) = Ok [1%Z] /\
  snd (run_tlm ZU bs [0] [1%Z] (w_heap w)) = None /\
  bv_tlm (fst (run_tlm ZU bs [0] [1%Z] (w_heap w)) J) = None.
Proof.
  exists [SNew 3%Z; SNew 5%Z; SControl 0; SControl 1; SOp KMul [1; 1]], [ADeriv (RF 0 [0] 1%Z) 1%Z].
  split; [repeat constructor|]. split; [reflexivity|]. split; [vm_compute; repeat constructor|]. vm_conj.
Qed.
Print Assumptions C09_off_tape_refuted.

(** C12: scale and seed act linearly, on results and on failures alike. *)
Theorem C12_value_scale : forall (V : Type) (F : fops V),
  ring_theory (f_zero F) (f_one F) (f_add F) (f_mul F) (f_sub F) (f_neg F) eq ->
  forall (bs : list (block V)) (J : nat) (ctrls : list nat) (s : V) (vals : list V) (h : heap V),
  snd (rf_call F bs (RF J ctrls s) vals h) = rmap (f_mul F s) (snd (rf_call F bs (RF J ctrls (f_one F)) vals h)) /\
  fst (rf_call F bs (RF J ctrls s) vals h) = fst (rf_call F bs (RF J ctrls (f_one F)) vals h).
Proof. exact (@value_scale). Qed.
Print Assumptions C12_value_scale.

Theorem C12_derivative_scale : forall (V : Type) (F : fops V),
  ring_theory (f_zero F) (f_one F) (f_add F) (f_mul F) (f_sub F) (f_neg F) eq ->
  (forall s a x, f_div F (f_mul F s a) x = rmap (f_mul F s) (f_div F a x)) ->
  forall (bs : list (block V)) (J : nat) (ctrls : list nat) (s a : V) (h : heap V),
  (forall b u, In b bs -> b_kind b = KUser u -> user_homogeneous F u) ->
  (forall v, bv_ctrl (h v) = false) -> fresh_ctrls bs J ctrls h ->
  snd (rf_derivative F bs (RF J ctrls s) a h) =
  rmap (map (f_mul F (f_mul F a s))) (snd (rf_derivative F bs (RF J ctrls (f_one F)) (f_one F) h)).
Proof. exact (@derivative_scale). Qed.
Print Assumptions C12_derivative_scale.

(** Without [fresh_ctrls] C12 is false: x is not on the tape of [J = y * y], and differentiating
    [ReducedFunctional(x, Control(x))] left adj_value 1 in it; with scale 2 and with scale 1 the derivative
    of J with respect to x is that 1. *)
Theorem C12_off_tape_refuted : exists (p : list (stmt Z)) (l : list (api Z)),
  consistent p /\ disciplined true p = true /\ 2 < length (w_objs (exec ZU (world_new ZU true) p)) /\
  let w := fst (recorded ZU true p 2) in
  let J := snd (recorded ZU true p 2) in
  let h := run_hist ZU (t_flat (w_tape w)) (w_heap w) l in
  w_ctrls w = [0; 1] /\
  snd (rf_derivative ZU (t_flat (w_tape w)) (RF J [0] 1%Z) 1%Z h) = Ok [1%Z] /\
  snd (rf_derivative ZU (t_flat (w_tape w)) (RF J [0] 2%Z) 1%Z h) = Ok [1%Z].
Proof.
  exists [SNew 3%Z; SNew 5%Z; SControl 0; SControl 1; SOp KMul [1; 1]], [ADeriv (RF 0 [0] 1%Z) 1%Z].
  split; [repeat constructor|]. split; [reflexivity|]. split; [vm_compute; repeat constructor|]. vm_conj.
Qed.
Print Assumptions C12_off_tape_refuted.

(** [fresh_ctrls] holds of recorded programs: for controls on the tape after any calls, and for any
    controls after calls that only differentiate functionals on the tape, or [J]. *)
Theorem C12_no_stale : forall (V : Type) (F : fops V) (ann : bool) (p : list (stmt V)) (j J : nat) (ctrls : list nat) (l : list (api V)),
  consistent p -> disciplined ann p = true -> j < length (w_objs (exec F (world_new F ann) p)) ->
  let w := fst (recorded F ann p j) in
  let bs := t_flat (w_tape w) in
  on_tape bs ctrls \/ seeds_on bs J l ->
  fresh_ctrls bs J ctrls (run_hist F bs (w_heap w) l).
Proof. exact (@recorded_fresh). Qed.
Print Assumptions C12_no_stale.

Example C12_demo :
  let bs := t_flat (w_tape dual_w) in
  snd (rf_derivative ZU bs (RF dual_J [0; 1] 1%Z) 1%Z (w_heap dual_w)) = Ok [-4; 3]%Z /\
  snd (rf_derivative ZU bs (RF dual_J [0; 1] 3%Z) 2%Z (w_heap dual_w)) = Ok [-24; 18]%Z /\
  snd (rf_call ZU bs (RF dual_J [0; 1] 1%Z) [2; 3]%Z (w_heap dual_w)) = Ok 2%Z /\
  snd (rf_call ZU bs (RF dual_J [0; 1] 5%Z) [2; 3]%Z (w_heap dual_w)) = Ok 10%Z.
Proof. vm_conj. Qed.

(** C43 is false: with a functional that is not a Control, solve_adjoint leaves every variable on the
    tape without a sensitivity. *)
Theorem C43_no_sensitivities_refuted : forall (V : Type) (F : fops V) (bs : list (block V)) (J : nat) (a : V) (h : heap V) (v : nat),
  In v (vars_of bs) ->
  snd (solve_adjoint F bs J false a h) = None /\ bv_adj (fst (solve_adjoint F bs J false a h) v) = None.
Proof. exact (@solve_adjoint_none). Qed.
Print Assumptions C43_no_sensitivities_refuted.

Theorem C43_solve_adjoint_refuted : exists (bs : list (block Z)) (h : heap Z) (J v : nat),
  snd (compute_gradient ZU bs J [v] 1%Z h) = Ok [6%Z] /\
  bv_adj (fst (solve_adjoint ZU bs J false 1%Z h) v) = None.
Proof.
  exists (t_flat (w_tape (fst (recorded ZU true [SNew 3%Z; SOp KMul [0; 0]] 1)))), (w_heap (fst (recorded ZU true [SNew 3%Z; SOp KMul [0; 0]] 1))), 1, 0.
  vm_conj.
Qed.
Print Assumptions C43_solve_adjoint_refuted.

(** C43 holds when the functional is passed as a Control: every variable on the tape then carries the
    derivative of J with respect to it, in any arithmetic and from any state. *)
Theorem C43_solve_adjoint_control : forall (V : Type) (F : fops V) (bs : list (block V)) (J : nat) (a : V) (h h' : heap V) (v : nat) (h2 : heap V),
  topo bs -> (forall u, bv_ctrl (h2 u) = false) -> (forall u, saved h2 u = saved h u) -> (forall u, bv_mark (h2 u) = false) ->
  In v (vars_of bs) -> solve_adjoint F bs J true a h = (h', None) ->
  snd (compute_gradient F bs J [v] a h2) = Ok [match bv_adj (h' v) with Some x => x | None => f_zero F end].
Proof. exact (@solve_adjoint_control). Qed.
Print Assumptions C43_solve_adjoint_control.

Example C43_demo :
  let bs := t_flat (w_tape dual_w) in
  snd (solve_adjoint ZU bs dual_J true 1%Z (w_heap dual_w)) = None /\
  map (fun v => bv_adj (fst (solve_adjoint ZU bs dual_J true 1%Z (w_heap dual_w)) v)) [0; 1; 3; 6]
    = [Some (-4); Some 3; Some (-3); Some 1]%Z /\
  snd (compute_gradient ZU bs dual_J [3] 1%Z (w_heap dual_w)) = Ok [-3]%Z.
Proof. vm_conj. Qed.
