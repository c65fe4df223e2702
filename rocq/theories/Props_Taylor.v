(** C39: the Taylor test.  Over the reals. *)
From Coq Require Import List Arith ZArith Bool Lia Reals Lra.
From Coquelicot Require Import Coquelicot.
From Verif Require Import Base Model BaseFacts Graph Record Spec RecordFacts Replay ReplayExec History Session Sweep SpecGraph Marks Dual TlmSweep RealInst Calculus Gradient Taylor SpecTaylor TaylorFacts.
From Verif Require Props_Calculus.
Import ListNotations.
Open Scope R_scope.

(** C39: residuals, rate and final state, on any tape in any state between calls.  [D]: the directional
    derivative passed by the caller, or else the gradient applied to the direction.
    The default of the second-order term is H = 0. *)
Theorem C39_taylor_test : forall (t : tape R) (rf : rfun R) (h : heap R),
  wf_tape (t_flat t) -> (forall b, In b (t_flat t) -> gives_value RO b) -> closed (rf_ctrls rf) (t_flat t) ->
  (forall v, bv_ctrl (h v) = false) -> on_tape (t_flat t) (rf_ctrls rf) -> (forall v, bv_mark (h v) = false) -> NoDup (rf_ctrls rf) ->
  forall (m d : list R) (dopt : option R) (H : R) (jm : R) (j : nat -> R) (g : list R) (D : R),
  length d = length m -> snd (rf_call RO (t_flat t) rf m h) = Ok jm ->
  (forall k, (k < 4)%nat -> snd (rf_call RO (t_flat t) rf (shift m d (step k)) h) = Ok (j k)) ->
  (dopt = Some D \/ dopt = None /\ snd (rf_derivative RO (t_flat t) rf 1 (fst (rf_call RO (t_flat t) rf m h))) = Ok g /\ D = dot RO g d) ->
  exists h' es r, taylor_test (t_flat t) rf m d dopt H h = (h', Ok (es, r)) /\
    es = map (fun k => Rabs (j k - jm - step k * D - 1 / 2 * step k ^ 2 * H)) [0; 1; 2; 3]%nat /\
    ((exists k, (k < 3)%nat /\ nth k es 0 = 0) -> r = Err EZeroDiv) /\
    ((forall k, (k < 3)%nat -> nth k es 0 <> 0) -> exists q, r = Ok q /\ smallest_order es q) /\
    (forall v, saved h' v = saved (fst (rf_call RO (t_flat t) rf (shift m d (step 3)) h)) v) /\
    map (saved h') (rf_ctrls rf) = shift m d (step 3).
Proof. exact taylor_top. Qed.
Print Assumptions C39_taylor_test.

(** The derivative term is the derivative of J along the direction. *)
Theorem C39_derivative_term : forall (t : tape R) (rf : rfun R) (h : heap R),
  wf_tape (t_flat t) -> (forall b, In b (t_flat t) -> gives_value RO b) -> closed (rf_ctrls rf) (t_flat t) ->
  (forall v, bv_ctrl (h v) = false) -> on_tape (t_flat t) (rf_ctrls rf) -> NoDup (rf_ctrls rf) ->
  List.Forall shaped (t_flat t) -> independent (t_flat t) (rf_ctrls rf) ->
  forall (m d : list R) (jm : R) (g : list R) (f : R -> R),
  length d = length m -> snd (rf_call RO (t_flat t) rf m h) = Ok jm ->
  (exists r, 0 < r /\ forall s, Rabs s <= r -> snd (rf_call RO (t_flat t) rf (shift m d s) h) = Ok (f s)) ->
  smooth_at (t_flat t) (rf_ctrls rf) (saved (fst (rf_call RO (t_flat t) rf m h))) ->
  adjoints_right (t_flat t) (rf_ctrls rf) (saved (fst (rf_call RO (t_flat t) rf m h))) ->
  snd (rf_derivative RO (t_flat t) rf 1 (fst (rf_call RO (t_flat t) rf m h))) = Ok g ->
  is_derive f 0 (dot RO g d).
Proof. exact taylor_exact. Qed.
Print Assumptions C39_derivative_term.

(** Functionals that are polynomials of degree at most 2 along the direction: residuals [|c| eps^2].
    Affine ([c = 0]): the residuals vanish, and the call raises ZeroDivisionError; otherwise the rate is 2. *)
Theorem C39_affine_quadratic : forall (t : tape R) (rf : rfun R) (h : heap R),
  wf_tape (t_flat t) -> (forall b, In b (t_flat t) -> gives_value RO b) -> closed (rf_ctrls rf) (t_flat t) ->
  (forall v, bv_ctrl (h v) = false) -> on_tape (t_flat t) (rf_ctrls rf) -> (forall v, bv_mark (h v) = false) -> NoDup (rf_ctrls rf) ->
  List.Forall shaped (t_flat t) -> independent (t_flat t) (rf_ctrls rf) ->
  forall (m d : list R) (g : list R) (a b c : R),
  length d = length m ->
  (forall s, Rabs s <= 1 / 100 -> snd (rf_call RO (t_flat t) rf (shift m d s) h) = Ok (a + b * s + c * s ^ 2)) ->
  smooth_at (t_flat t) (rf_ctrls rf) (saved (fst (rf_call RO (t_flat t) rf m h))) ->
  adjoints_right (t_flat t) (rf_ctrls rf) (saved (fst (rf_call RO (t_flat t) rf m h))) ->
  snd (rf_derivative RO (t_flat t) rf 1 (fst (rf_call RO (t_flat t) rf m h))) = Ok g ->
  exists h', taylor_test (t_flat t) rf m d None 0 h = (h', Ok (map (fun k => Rabs c * step k ^ 2) [0; 1; 2; 3]%nat,
    if Req_EM_T c 0 then Err EZeroDiv else Ok (Finite 2))) /\ dot RO g d = b.
Proof. exact taylor_poly. Qed.
Print Assumptions C39_affine_quadratic.

(** taylor_to_dict: residuals and orders of R0, R1, R2; the tape ends at [m]. *)
Theorem C39_taylor_to_dict : forall (t : tape R) (rf : rfun R) (h : heap R),
  wf_tape (t_flat t) -> (forall b, In b (t_flat t) -> gives_value RO b) -> closed (rf_ctrls rf) (t_flat t) ->
  (forall v, bv_ctrl (h v) = false) -> on_tape (t_flat t) (rf_ctrls rf) -> (forall v, bv_mark (h v) = false) -> NoDup (rf_ctrls rf) ->
  forall (m d : list R) (jm : R) (j : nat -> R) (g hm : list R),
  length d = length m -> snd (rf_call RO (t_flat t) rf m h) = Ok jm ->
  (forall k, (k < 4)%nat -> snd (rf_call RO (t_flat t) rf (shift m d (step k)) h) = Ok (j k)) ->
  snd (rf_derivative RO (t_flat t) rf 1 (fst (rf_call RO (t_flat t) rf m h))) = Ok g ->
  snd (rf_hessian RO (t_flat t) rf d (fst (rf_derivative RO (t_flat t) rf 1 (fst (rf_call RO (t_flat t) rf m h))))) = Ok hm ->
  let r0 := map (fun k => Rabs (j k - jm)) [0; 1; 2; 3]%nat in
  let r1 := map (fun k => Rabs (j k - jm - step k * dot RO g d)) [0; 1; 2; 3]%nat in
  let r2 := map (fun k => Rabs (j k - jm - step k * dot RO g d - 1 / 2 * step k ^ 2 * dot RO hm d)) [0; 1; 2; 3]%nat in
  ((exists r k, In r [r0; r1; r2] /\ (k < 3)%nat /\ nth k r 0 = 0) -> snd (taylor_to_dict (t_flat t) rf m d h) = Err EZeroDiv) /\
  ((forall r k, In r [r0; r1; r2] -> (k < 3)%nat -> nth k r 0 <> 0) -> exists h' a b c,
     taylor_to_dict (t_flat t) rf m d h = (h', Ok [(r0, a); (r1, b); (r2, c)]) /\
     (forall r o, In (r, o) [(r0, a); (r1, b); (r2, c)] -> length o = 3%nat /\ forall k, (k < 3)%nat -> is_order (nth k r 0) (nth (S k) r 0) (nth k o (Finite 0))) /\
     (forall v, saved h' v = saved (fst (rf_call RO (t_flat t) rf m h)) v) /\ map (saved h') (rf_ctrls rf) = m).
Proof. exact dict_top. Qed.
Print Assumptions C39_taylor_to_dict.

(** Numbers of directions and points that differ: ValueError, tape untouched. *)
Theorem C39_mismatch : forall (bs : list (block R)) (rf : rfun R) (m d : list R) (dopt : option R) (H : R) (h : heap R),
  length d <> length m -> taylor_test bs rf m d dopt H h = (h, Err EValue) /\ taylor_to_dict bs rf m d h = (h, Err EValue).
Proof. exact taylor_mismatch. Qed.
Print Assumptions C39_mismatch.

(** [x = 3; J = x*x], direction 5: hypotheses of the theorems, and rate 2. *)
Definition tay_prog : list (stmt R) := [SNew 3; SControl 0; SOp KMul [0; 0]%nat].
Definition tay_w := fst (recorded RO true tay_prog 1).
Definition tay_rf := RF (snd (recorded RO true tay_prog 1)) (w_ctrls tay_w) 1.
Lemma tay_bs : t_flat (w_tape tay_w) = [Blk KMul [0; 0]%nat [1]%nat None].
Proof. Props_Calculus.rcompute. reflexivity. Qed.
Lemma tay_rf_eq : tay_rf = RF 1%nat [0%nat] 1.
Proof. Props_Calculus.rcompute. reflexivity. Qed.
Lemma tay_call : forall x, snd (rf_call RO [Blk KMul [0; 0]%nat [1]%nat None] (RF 1%nat [0%nat] 1) [x] (w_heap tay_w)) = Ok (x * x * 1).
Proof. intros x. Props_Calculus.rcompute. reflexivity. Qed.
Lemma tay_deriv : forall x, snd (rf_derivative RO [Blk KMul [0; 0]%nat [1]%nat None] (RF 1%nat [0%nat] 1) 1
  (fst (rf_call RO [Blk KMul [0; 0]%nat [1]%nat None] (RF 1%nat [0%nat] 1) [x] (w_heap tay_w)))) = Ok [1 * 1 * x + 1 * 1 * x].
Proof. intros x. Props_Calculus.rcompute. reflexivity. Qed.
Lemma tay_clean : wf_tape (t_flat (w_tape tay_w)) /\ (forall b, In b (t_flat (w_tape tay_w)) -> gives_value RO b) /\
  (forall v, bv_ctrl (w_heap tay_w v) = false) /\ (forall v, bv_mark (w_heap tay_w v) = false) /\
  (forall v, bv_adj (w_heap tay_w v) = None /\ bv_tlm (w_heap tay_w v) = None /\ bv_hess (w_heap tay_w v) = None).
Proof. apply (recorded_clean RO true tay_prog 1); [repeat constructor | reflexivity | Props_Calculus.rcompute; repeat constructor]. Qed.
Example C39_demo : exists h', taylor_test (t_flat (w_tape tay_w)) tay_rf [3] [5] None 0 (w_heap tay_w) =
  (h', Ok (map (fun k => Rabs 25 * step k ^ 2) [0; 1; 2; 3]%nat, Ok (Finite 2))).
Proof.
  destruct tay_clean as (Hw & Hg & Hc & Hm & _).
  assert (Ht : topo (t_flat (w_tape tay_w))) by exact (proj1 Hw).
  assert (Sm : smooth_at (t_flat (w_tape tay_w)) [0%nat] (saved (fst (rf_call RO (t_flat (w_tape tay_w)) (RF 1%nat [0%nat] 1) [3] (w_heap tay_w)))) /\
    adjoints_right (t_flat (w_tape tay_w)) [0%nat] (saved (fst (rf_call RO (t_flat (w_tape tay_w)) (RF 1%nat [0%nat] 1) [3] (w_heap tay_w))))).
  { rewrite tay_bs. split; intros b x Hb _ _ _; destruct Hb as [<-|[]]; exact I. }
  destruct Sm as [Sm Ar]. rewrite tay_rf_eq.
  destruct (C39_affine_quadratic (w_tape tay_w) (RF 1%nat [0%nat] 1) (w_heap tay_w)) with (m := [3]) (d := [5]) (g := [1 * 1 * 3 + 1 * 1 * 3]) (a := 9) (b := 30) (c := 25) as (h' & E & _);
    [exact Hw | exact Hg | | exact Hc | | exact Hm | | | | | | exact Sm | exact Ar | |].
  - rewrite tay_bs. intros b o [<-|[]] [<-|[]] [H|[]]. discriminate.
  - apply on_tape_check. rewrite tay_bs. reflexivity.
  - repeat constructor. intros [].
  - rewrite tay_bs. repeat constructor.
  - intros c c' [<-|[]] [<-|[]] H. exfalso. apply H. reflexivity.
  - reflexivity.
  - intros s _. rewrite tay_bs. change (shift [3] [5] s) with [3 + s * 5]. replace (9 + 30 * s + 25 * s ^ 2) with ((3 + s * 5) * (3 + s * 5) * 1) by (clear; ring). apply tay_call.
  - rewrite tay_bs. apply tay_deriv.
  - exists h'. rewrite E. destruct (Req_EM_T 25 0) as [H|_]; [exfalso; clear - H; lra | reflexivity].
Qed.
