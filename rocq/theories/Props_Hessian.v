(** Property theorems about Hessian actions (C10): refutations, and exactness for the operations whose second-order code is right. *)
From Coq Require Import List Arith ZArith Bool Lia Reals Lra.
From Coquelicot Require Import Coquelicot.
From Verif Require Import Base Model BaseFacts Graph Record Spec RecordFacts Replay ReplayExec History Session Sweep SpecGraph Marks Dual TlmSweep RealInst Calculus Gradient Instances SpecHess HessExact Props_Calculus.
Import ListNotations.
Open Scope R_scope.

(** [rf.derivative()] after [rf(m)], and [rf.hessian(d)] after both, on a recorded program. *)
Definition grad_at (p : list (stmt R)) (j : nat) (m : list R) :=
  let w := fst (recorded RO true p j) in
  let rf := RF (snd (recorded RO true p j)) (w_ctrls w) 1 in
  let bs := t_flat (w_tape w) in
  rf_derivative RO bs rf 1 (fst (rf_call RO bs rf m (w_heap w))).
Definition hess_at (p : list (stmt R)) (j : nat) (m d : list R) :=
  let w := fst (recorded RO true p j) in
  rf_hessian RO (t_flat (w_tape w)) (RF (snd (recorded RO true p j)) (w_ctrls w) 1) d (fst (grad_at p j m)).

(** C10 is false for exp: the Hessian of [exp x] is returned as 0. *)
Theorem C10_exp_refuted : exists (p : list (stmt R)) (j : nat) (m d : list R) (g : R -> R) (D v : R),
  consistent p /\ disciplined true p = true /\
  (forall s, snd (grad_at p j (shift m d s)) = Ok [g s]) /\ is_derive g 0 D /\
  snd (hess_at p j m d) = Ok [v] /\ v <> D.
Proof.
  exists [SNew 3; SControl 0; SFun KExp [0]%nat true], 1%nat, [3], [1], (fun s => exp (3 + s)), (exp 3), 0.
  split; [repeat constructor|]. split; [reflexivity|]. split; [|split; [|split]].
  - intros s. rcompute. rewrite !Rmult_1_r. reflexivity.
  - auto_derive; [exact I|]. rewrite Rplus_0_r, Rmult_1_l. reflexivity.
  - rcompute. rewrite Rmult_0_r. reflexivity.
  - intros E. pose proof (exp_pos 3). lra.
Qed.
Print Assumptions C10_exp_refuted.

(** C10 is false for products with one relevant factor: [y = 2*x; J = y*y] at [x = 3] gives 12
    instead of 8 (the loop variable replaces the index of the other factor). *)
Theorem C10_mul_refuted : exists (p : list (stmt R)) (j : nat) (m d : list R) (g : R -> R) (D v : R),
  consistent p /\ disciplined true p = true /\
  (forall s, snd (grad_at p j (shift m d s)) = Ok [g s]) /\ is_derive g 0 D /\
  snd (hess_at p j m d) = Ok [v] /\ v <> D.
Proof.
  exists [SNew 2; SNew 3; SControl 1; SOp KMul [0; 1]%nat; SOp KMul [2; 2]%nat], 3%nat, [3], [1], (fun s => 8 * (3 + s)), 8, 12.
  split; [repeat constructor|]. split; [reflexivity|]. split; [|split; [|split]].
  - intros s. rcompute. f_equal. f_equal. ring.
  - auto_derive; [exact I|]. ring.
  - rcompute. f_equal. f_equal. ring.
  - lra.
Qed.
Print Assumptions C10_mul_refuted.

(** ... and for products of two controls: [z = x*y; J = z*z] at (2, 3), direction (1, 0): 30 instead of 24 in the second entry. *)
Theorem C10_mul_two_refuted : exists (p : list (stmt R)) (j : nat) (m d : list R) (g1 g2 : R -> R) (D1 D2 v1 v2 : R),
  consistent p /\ disciplined true p = true /\
  (forall s, snd (grad_at p j (shift m d s)) = Ok [g1 s; g2 s]) /\ is_derive g1 0 D1 /\ is_derive g2 0 D2 /\
  snd (hess_at p j m d) = Ok [v1; v2] /\ v1 = D1 /\ v2 <> D2.
Proof.
  exists [SNew 2; SNew 3; SControl 0; SControl 1; SOp KMul [0; 1]%nat; SOp KMul [2; 2]%nat], 3%nat, [2; 3], [1; 0],
    (fun s => 18 * (2 + s)), (fun s => 6 * (2 + s) * (2 + s)), 18, 24, 18, 30.
  split; [repeat constructor|]. split; [reflexivity|]. split; [|split; [|split; [|split; [|split]]]].
  - intros s. rcompute. f_equal. f_equal; [ring|]. f_equal. ring.
  - auto_derive; [exact I|]. ring.
  - auto_derive; [exact I|]. ring.
  - rcompute. f_equal. f_equal; [ring|]. f_equal. ring.
  - reflexivity.
  - lra.
Qed.
Print Assumptions C10_mul_two_refuted.

(** C10 is false for log: with [J = log x] the second-order component is 0 at every [x > 0] whatever the direction,
    although the adjoint component [a / x] changes at rate [- a t / x^2]. *)
Theorem C10_log_refuted : forall (x a t : R) (rel : list (nat * option R)), 0 < x -> a <> 0 -> t <> 0 ->
  comp_hess RO KLog [x] [Some 0] [Some a] 0 rel = Ok (Some 0) /\
  exists g D, locally 0 (fun s => comp_adj RO KLog [x + s * t] [Some a] 0 = Ok (Some (g s))) /\ is_derive g 0 D /\ D <> 0.
Proof.
  intros x a t rel Hx Ha Ht. split.
  - cbn. destruct (Req_EM_T x 0) as [E|_]; [lra|]. cbn. destruct (Req_EM_T x 0) as [E|_]; [lra|]. cbn. f_equal. f_equal. field. lra.
  - exists (fun s => a / (x + s * t)), (- (a * t) / (x * x)). split; [|split].
    + assert (L : locally 0 (fun s => 0 < x + s * t)).
      { apply (curve_open (fun s => x + s * t) t (fun y => 0 < y)); [auto_derive; [exact I|ring]|apply open_gt|]. rewrite Rmult_0_l, Rplus_0_r. exact Hx. }
      revert L. apply filter_imp. intros s L. cbn. destruct (Req_EM_T (x + s * t) 0) as [E|_]; [lra|reflexivity].
    + auto_derive; rewrite Rmult_0_l, Rplus_0_r; [lra|]. field. lra.
    + intros K. assert (a * t = 0).
      { apply (f_equal (fun y => - (y * (x * x)))) in K. rewrite Rmult_0_l, Ropp_0 in K. rewrite <- K. field. lra. }
      apply Rmult_integral in H. tauto.
Qed.
Print Assumptions C10_log_refuted.

(** C10 is false for quotients of constants: [J = x / (a / b)] with the control x raises TypeError. *)
Theorem C10_div_refuted : exists (p : list (stmt Z)) (j : nat) (g : list Z),
  consistent p /\ disciplined true p = true /\
  let w := fst (recorded ZU true p j) in
  let rf := RF (snd (recorded ZU true p j)) (w_ctrls w) 1%Z in
  let bs := t_flat (w_tape w) in
  snd (rf_derivative ZU bs rf 1%Z (w_heap w)) = Ok g /\
  snd (rf_hessian ZU bs rf [1%Z] (fst (rf_derivative ZU bs rf 1%Z (w_heap w)))) = Err EType.
Proof.
  exists [SNew 1%Z; SNew 1%Z; SNew 3%Z; SControl 2; SOp KDiv [0; 1]%nat; SOp KDiv [2; 3]%nat], 4%nat, [1%Z].
  split; [repeat constructor|]. split; [reflexivity|]. cbv zeta. split; vm_compute; reflexivity.
Qed.
Print Assumptions C10_div_refuted.

(** C10, the part that holds: after [rf(m)] and [rf.derivative()], [rf.hessian(d)] is the derivative at 0 of
    [s -> rf(m + s d); rf.derivative()], entry by entry, if between the controls and the functional there are only
    sums, differences, negations, min, max, quotients, powers, squares, and products whose result enters the
    functional linearly.  Missing: exp, log, general products, and user blocks (refuted above for the first three). *)
Theorem C10_hessian_partial : forall (bs : list (block R)) (J : nat) (ctrls : list nat) (sc : R) (m : list R) (h0 : heap R) (y : R)
  (hg : heap R) (g d : list R) (hH : heap R) (H : list R),
  wf_tape bs -> List.Forall shaped bs -> NoDup ctrls -> independent bs ctrls ->
  (forall v, bv_ctrl (h0 v) = false) -> (forall v, bv_mark (h0 v) = false) -> tlm_clean bs ctrls h0 -> on_tape bs ctrls -> length d = length ctrls ->
  let rf := RF J ctrls sc in
  snd (rf_call RO bs rf m h0) = Ok y ->
  let h := fst (rf_call RO bs rf m h0) in
  rf_derivative RO bs rf 1 h = (hg, Ok g) ->
  twice_smooth bs ctrls (saved h) -> tangents_right bs ctrls (saved h) -> second_order_sound bs ctrls J ->
  rf_hessian RO bs rf d hg = (hH, Ok H) ->
  exists G : R -> list R,
    locally 0 (fun s => snd (rf_derivative RO bs rf 1 (fst (rf_call RO bs rf (shift m d s) hH))) = Ok (G s)) /\
    forall i, is_derive (fun s => nth i (G s) 0) 0 (nth i H 0).
Proof. exact hessian_after_call. Qed.
Print Assumptions C10_hessian_partial.

(** ... and for recorded programs. *)
Theorem C10_program_partial : forall (ann : bool) (p : list (stmt R)) (j : nat) (sc : R) (m : list R) (y : R) (hg : heap R) (g d : list R)
  (hH : heap R) (H : list R),
  consistent p -> disciplined ann p = true -> (j < length (w_objs (exec RO (world_new RO ann) p)))%nat ->
  let w := fst (recorded RO ann p j) in
  let rf := RF (snd (recorded RO ann p j)) (w_ctrls w) sc in
  let bs := t_flat (w_tape w) in
  let h := fst (rf_call RO bs rf m (w_heap w)) in
  NoDup (w_ctrls w) -> independent bs (w_ctrls w) -> on_tape bs (w_ctrls w) -> length d = length (w_ctrls w) ->
  snd (rf_call RO bs rf m (w_heap w)) = Ok y ->
  rf_derivative RO bs rf 1 h = (hg, Ok g) ->
  twice_smooth bs (w_ctrls w) (saved h) -> tangents_right bs (w_ctrls w) (saved h) -> second_order_sound bs (w_ctrls w) (rf_J rf) ->
  rf_hessian RO bs rf d hg = (hH, Ok H) ->
  exists G : R -> list R,
    locally 0 (fun s => snd (rf_derivative RO bs rf 1 (fst (rf_call RO bs rf (shift m d s) hH))) = Ok (G s)) /\
    forall i, is_derive (fun s => nth i (G s) 0) 0 (nth i H 0).
Proof. exact hessian_recorded. Qed.
Print Assumptions C10_program_partial.

(** [J = x*x + x*y - y] evaluated at (1, 2), direction (1, 0): the action is (2, 1). *)
Definition hess_prog : list (stmt R) :=
  [SNew 3; SNew 5; SControl 0; SControl 1; SOp KMul [0; 0]%nat; SOp KMul [0; 1]%nat; SOp KAdd [2; 3]%nat; SOp KSub [4; 1]%nat].
Definition hess_w := fst (recorded RO true hess_prog 5).
Definition hess_bs := t_flat (w_tape hess_w).
Definition hess_blocks : list (block R) :=
  [Blk KMul [0; 0]%nat [2]%nat None; Blk KMul [0; 1]%nat [3]%nat None; Blk KAdd [2; 3]%nat [4]%nat None; Blk KSub [4; 1]%nat [5]%nat None].
Lemma hess_bs_eq : hess_bs = hess_blocks.
Proof. rcompute. reflexivity. Qed.
Definition hess_rf := RF (snd (recorded RO true hess_prog 5)) (w_ctrls hess_w) 1.
Definition hess_h := fst (rf_call RO hess_bs hess_rf [1; 2] (w_heap hess_w)).
Example C10_demo : consistent hess_prog /\ disciplined true hess_prog = true /\ (5 < length (w_objs (exec RO (world_new RO true) hess_prog)))%nat /\
  hess_rf = RF 5 [0; 1]%nat 1 /\ independent hess_bs [0; 1]%nat /\ on_tape hess_bs [0; 1]%nat /\
  is_ok (snd (rf_call RO hess_bs hess_rf [1; 2] (w_heap hess_w))) = true /\
  snd (rf_derivative RO hess_bs hess_rf 1 hess_h) = Ok [4; 0] /\
  snd (rf_hessian RO hess_bs hess_rf [1; 0] (fst (rf_derivative RO hess_bs hess_rf 1 hess_h))) = Ok [2; 1] /\
  twice_smooth hess_bs [0; 1]%nat (saved hess_h) /\ tangents_right hess_bs [0; 1]%nat (saved hess_h) /\ second_order_sound hess_bs [0; 1]%nat 5.
Proof.
  split; [repeat constructor|]. split; [reflexivity|].
  assert (Hj : (5 < length (w_objs (exec RO (world_new RO true) hess_prog)))%nat) by (rcompute; repeat constructor).
  split; [exact Hj|]. split; [rcompute; reflexivity|].
  assert (Ht : topo hess_bs) by (rewrite hess_bs_eq; cbn; intuition lia).
  split; [apply independent_check; [exact Ht|rewrite hess_bs_eq; reflexivity]|].
  split; [apply on_tape_check; rewrite hess_bs_eq; reflexivity|].
  split; [rcompute; reflexivity|].
  split; [clear; rcompute; f_equal; f_equal; [ring|f_equal; ring]|].
  split; [clear; rcompute; f_equal; f_equal; [ring|f_equal; ring]|].
  generalize (saved hess_h). intros e.
  split; [split|split].
  - rewrite hess_bs_eq. intros b d Hb _ _ _; destruct Hb as [<-|[<-|[<-|[<-|[]]]]]; exact I.
  - rewrite hess_bs_eq. intros b d0 d1 Hb _ Hk. destruct Hb as [<-|[<-|[<-|[<-|[]]]]]; discriminate Hk.
  - rewrite hess_bs_eq. intros b d Hb _ _ _; destruct Hb as [<-|[<-|[<-|[<-|[]]]]]; exact I.
  - apply second_order_check; [exact Ht|]. rewrite hess_bs_eq. reflexivity.
Qed.
