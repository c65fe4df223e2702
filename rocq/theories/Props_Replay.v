(** Property theorems: evaluation of reduced functionals (C01-C04, C11, C46). *)
From Coq Require Import List Arith ZArith Bool.
From Verif Require Import Base Model BaseFacts Graph Record Spec RecordFacts Replay ReplayExec History Session Instances.
Import ListNotations.

(** A program used by the examples: [x = 3; y = 4; Control(x); Control(y); z = x*y;
    with stop_annotating(): t = z + x;  u = z / t;  f = log(-1) fails;  J = u - x;
    with stop_annotating(modifies=y): y.assign(9);  K = J + y]. *)
Definition demo : list (stmt Z) :=
  [SNew 3%Z; SNew 4%Z; SNew (-1)%Z; SControl 0; SControl 1; SOp KMul [0; 1]; SPause; SOp KAdd [3; 0]; SContinue;
   SOp KMul [3; 4]; SFun KLog [2] true; SEndStep; SGC 4; SOp KSub [5; 0]; SUpdate 1 9%Z; SOp KAdd [6; 1]].

(** C01: evaluating a reduced functional over all controls of a recorded program gives what
    re-running the program with the controls replaced gives: same value or same exception. *)
Theorem C01_evaluate_is_rerun : forall (V : Type) (F : fops V) (ann : bool) (p : list (stmt V)) (j : nat)
    (vals : list V) (scale : V),
  consistent p -> disciplined ann p = true -> j < length (w_objs (exec F (world_new F ann) p)) ->
  let w := fst (recorded F ann p j) in
  let J := snd (recorded F ann p j) in
  length vals = length (w_ctrls w) ->
  snd (rf_call F (t_flat (w_tape w)) (RF J (w_ctrls w) scale) vals (w_heap w)) =
  rmap (fun x => f_mul F x scale) (spec_rerun F ann p vals j).
Proof. exact (fun V F ann p j vals scale Hc Hd Hj Hl =>
  rf_call_rerun F ann p j vals scale [] Hc Hd Hj Hl (fun rf vs (H : In _ []) => match H with end) (or_introl eq_refl)). Qed.
Print Assumptions C01_evaluate_is_rerun.

Example C01_demo :
  consistent demo /\ disciplined true demo = true /\
  spec_rerun ZF true demo [5%Z; 7%Z] 7 = Ok (5*7*15 - 5 + 9)%Z /\
  (let w := fst (recorded ZF true demo 7) in
   snd (rf_call ZF (t_flat (w_tape w)) (RF (snd (recorded ZF true demo 7)) (w_ctrls w) 10%Z) [5%Z; 7%Z] (w_heap w)) = Ok 5290%Z).
Proof. split; [repeat constructor|]. vm_conj. Qed.

(** The exception of a block is the exception of the call: [x = 8; Control(x); y = x / x] at 0. *)
Example C01_demo_exception :
  let p := [SNew 8%Z; SControl 0; SOp KDiv [0; 0]] in
  spec_rerun ZF true p [0%Z] 1 = Err EZeroDiv /\
  (let w := fst (recorded ZF true p 1) in
   snd (rf_call ZF (t_flat (w_tape w)) (RF (snd (recorded ZF true p 1)) (w_ctrls w) 1%Z) [0%Z] (w_heap w)) = Err EZeroDiv).
Proof. vm_conj. Qed.

(** C01 for any part of the controls and after any history of API calls: the prescribed versions
    are the functional's own controls, then the most recent values of the other leaf controls. *)
Theorem C01_C03_any_controls_any_history : forall (V : Type) (F : fops V) (ann : bool) (p : list (stmt V)) (j : nat)
    (cs : list nat) (vals : list V) (scale : V) (l : list (api V)),
  consistent p -> disciplined ann p = true -> j < length (w_objs (exec F (world_new F ann) p)) ->
  let w := fst (recorded F ann p j) in
  let J := snd (recorded F ann p j) in
  (forall c, In c cs -> In c (w_ctrls w)) -> length vals = length cs -> calls_controls w l ->
  (l = [] \/ closed cs (t_flat (w_tape w))) ->
  snd (rf_call F (t_flat (w_tape w)) (RF J cs scale) vals (run_hist F (t_flat (w_tape w)) (w_heap w) l)) =
  rmap (fun x => f_mul F x scale)
    (spec_value F (prescribe (map (fun c => verb (w_heap w c)) cs) vals (hist_override F w l)) ann p j).
Proof. exact (@call_history_sim). Qed.
Print Assumptions C01_C03_any_controls_any_history.

Definition c01_hist : list (api Z) :=
  [ACall (RF 4 [0] 1%Z) [8%Z]; ACall (RF 4 [0; 1] 1%Z) [1%Z; 2%Z]; ADeriv (RF 5 [0] 1%Z) 1%Z; ACall (RF 4 [1; 0] 1%Z) [6%Z]].
Definition demo_w := fst (recorded ZF true demo 7).
Example C01_C03_demo :
  (forall rf vals, In (ACall rf vals) c01_hist -> forall c, In c (rf_ctrls rf) -> In c (w_ctrls demo_w)) /\
  closed [1] (t_flat (w_tape demo_w)) /\
  snd (rf_call ZF (t_flat (w_tape demo_w)) (RF (snd (recorded ZF true demo 7)) [1] 1%Z) [7%Z]
         (run_hist ZF (t_flat (w_tape demo_w)) (w_heap demo_w) c01_hist)) = Ok (1*7*15 - 1 + 9)%Z.
Proof.
  assert (Ec : w_ctrls demo_w = [0; 1]) by (vm_compute; reflexivity).
  assert (Eo : map b_outs (t_flat (w_tape demo_w)) = [[2]; [4]; []; [6]; [8]]) by (vm_compute; reflexivity).
  split; [|split].
  - rewrite Ec. intros rf vals H c Hc. unfold c01_hist in H. cbn [In] in H.
    destruct H as [H|[H|[H|[H|[]]]]]; [| |discriminate H|]; injection H as <- _; cbn in Hc |- *; tauto.
  - intros b o Hb Ho Hc. destruct Hc as [<-|[]]. apply (in_map b_outs) in Hb. rewrite Eo in Hb. cbn [In] in Hb.
    destruct Hb as [Hb|[Hb|[Hb|[Hb|[Hb|[]]]]]]; rewrite <- Hb in Ho; cbn in Ho; try (destruct Ho as [Ho|[]]; discriminate); destruct Ho.
  - vm_compute. reflexivity.
Qed.

(** C02: the values the controls had while recording give the recorded value of the functional. *)
Theorem C02_recorded_value : forall (V : Type) (F : fops V) (ann : bool) (p : list (stmt V)) (j : nat) (x scale : V)
    (l : list (api V)),
  consistent p -> disciplined ann p = true -> recorded_value F ann p j = Some x ->
  let w := fst (recorded F ann p j) in
  let J := snd (recorded F ann p j) in
  calls_controls w l -> (l = [] \/ closed (w_ctrls w) (t_flat (w_tape w))) ->
  snd (rf_call F (t_flat (w_tape w)) (RF J (w_ctrls w) scale) (control_values F ann p)
         (run_hist F (t_flat (w_tape w)) (w_heap w) l)) = Ok (f_mul F x scale).
Proof. exact (@rf_call_recorded). Qed.
Print Assumptions C02_recorded_value.

Example C02_demo : control_values ZF true demo = [3%Z; 4%Z] /\ recorded_value ZF true demo 7 = Some (12*15 - 3 + 9)%Z.
Proof. vm_conj. Qed.

(** C03: two call histories that supplied the same most recent values for the leaves outside the
    functional's own controls are indistinguishable to an evaluation. *)
Theorem C03_history_independent : forall (V : Type) (F : fops V) (bs : list (block V)) (rf : rfun V) (vals : list V)
    (h : heap V) (l1 l2 : list (api V)),
  topo bs -> (forall b, In b bs -> gives_value F b) -> closed (rf_ctrls rf) bs -> (forall v, bv_ctrl (h v) = false) ->
  (forall v, ~ In v (outs_of bs) -> ~ In v (rf_ctrls rf) -> latest l1 v = latest l2 v) ->
  snd (rf_call F bs rf vals (run_hist F bs h l1)) = snd (rf_call F bs rf vals (run_hist F bs h l2)).
Proof. exact (@rf_call_history). Qed.
Print Assumptions C03_history_independent.

(** C03 for programs: whatever happened before, the call gives the re-run value. *)
Theorem C03_any_history_is_rerun : forall (V : Type) (F : fops V) (ann : bool) (p : list (stmt V)) (j : nat)
    (vals : list V) (scale : V) (l : list (api V)),
  consistent p -> disciplined ann p = true -> j < length (w_objs (exec F (world_new F ann) p)) ->
  let w := fst (recorded F ann p j) in
  let J := snd (recorded F ann p j) in
  length vals = length (w_ctrls w) -> calls_controls w l ->
  (l = [] \/ closed (w_ctrls w) (t_flat (w_tape w))) ->
  snd (rf_call F (t_flat (w_tape w)) (RF J (w_ctrls w) scale) vals (run_hist F (t_flat (w_tape w)) (w_heap w) l)) =
  rmap (fun x => f_mul F x scale) (spec_rerun F ann p vals j).
Proof. exact (@rf_call_rerun). Qed.
Print Assumptions C03_any_history_is_rerun.

(** Without [closed] C03 is false: when only one of two results of a user block is a control, the
    block is not recomputed and the other result keeps whatever an earlier call computed.
    Here [(a, b) = f(x) = (x, 10*x)] and [J = a + b], controls [x, a]. *)
Definition two_results : ublock Z :=
  {| u_recompute := fun xs i => match xs with [x] => match i with O => Ok (Some x) | 1 => Ok (Some (10 * x)%Z) | _ => Err EIndex end | _ => Err EIndex end;
     u_adj := fun _ _ _ => Ok None; u_tlm := fun _ _ _ => Ok None; u_hess := fun _ _ _ _ _ => Ok None |}.
Definition sibling : list (stmt Z) :=
  [SNew 1%Z; SControl 0;
   SUser two_results (fun xs => match xs with [x] => Ok [x; (10 * x)%Z] | _ => Err EIndex end) [0] true None;
   SControl 1; SOp KAdd [1; 2]].
Theorem C03_sibling_refuted : exists (p : list (stmt Z)) (j : nat) (l1 l2 : list (api Z)) (vals : list Z),
  consistent p /\ disciplined true p = true /\
  let w := fst (recorded ZF true p j) in
  let rf := RF (snd (recorded ZF true p j)) (w_ctrls w) 1%Z in
  (forall v, ~ In v (outs_of (t_flat (w_tape w))) -> ~ In v (rf_ctrls rf) -> latest l1 v = latest l2 v) /\
  snd (rf_call ZF (t_flat (w_tape w)) rf vals (run_hist ZF (t_flat (w_tape w)) (w_heap w) l1)) = Ok 12%Z /\
  snd (rf_call ZF (t_flat (w_tape w)) rf vals (run_hist ZF (t_flat (w_tape w)) (w_heap w) l2)) = Ok 52%Z.
Proof.
  assert (Ec : w_ctrls (fst (recorded ZF true sibling 3)) = [0; 1]) by (vm_compute; reflexivity).
  exists sibling, 3, [], [ACall (RF 3 [0] 1%Z) [5%Z]], [2%Z; 2%Z].
  split; [repeat constructor|]. 
  - intros [|x [|y r]] [|[|[|i]]]; reflexivity.
  - split; [reflexivity|]. cbv zeta. split; [|vm_conj].
    intros v Hv Hc. cbn. destruct (Nat.eqb_spec v 0) as [->|]; [|reflexivity].
    exfalso. apply Hc. cbn [rf_ctrls]. rewrite Ec. now left.
Qed.
Print Assumptions C03_sibling_refuted.

(** C04: a call that raises leaves no control flag, and the next call gives the re-run value. *)
Theorem C04_retry : forall (V : Type) (F : fops V) (ann : bool) (p : list (stmt V)) (j : nat)
    (bad vals : list V) (scale : V) (e : exn),
  consistent p -> disciplined ann p = true -> j < length (w_objs (exec F (world_new F ann) p)) ->
  let w := fst (recorded F ann p j) in
  let rf := RF (snd (recorded F ann p j)) (w_ctrls w) scale in
  length vals = length (w_ctrls w) -> closed (w_ctrls w) (t_flat (w_tape w)) ->
  snd (rf_call F (t_flat (w_tape w)) rf bad (w_heap w)) = Err e ->
  let h' := fst (rf_call F (t_flat (w_tape w)) rf bad (w_heap w)) in
  (forall v, bv_ctrl (h' v) = false) /\
  snd (rf_call F (t_flat (w_tape w)) rf vals h') = rmap (fun x => f_mul F x scale) (spec_rerun F ann p vals j).
Proof. exact (@retry). Qed.
Print Assumptions C04_retry.

(** C04 for any controls, also some outputs of a block only: the next call gives what it gives right after recording. *)
Theorem C04_as_fresh : forall (V : Type) (F : fops V) (ann : bool) (p : list (stmt V)) (j : nat) (cs : list nat)
    (bad vals : list V) (scale : V),
  consistent p -> disciplined ann p = true -> j < length (w_objs (exec F (world_new F ann) p)) ->
  let w := fst (recorded F ann p j) in
  let rf := RF (snd (recorded F ann p j)) cs scale in
  let h' := fst (rf_call F (t_flat (w_tape w)) rf bad (w_heap w)) in
  (forall v, bv_ctrl (h' v) = false) /\
  snd (rf_call F (t_flat (w_tape w)) rf vals h') = snd (rf_call F (t_flat (w_tape w)) rf vals (w_heap w)).
Proof. exact (@retry_recorded). Qed.
Print Assumptions C04_as_fresh.

(** [x = 8; y = x / x; J = x + y]: fails at x = 0 (second block never runs), then works. *)
Example C04_demo :
  let p := [SNew 8%Z; SControl 0; SOp KDiv [0; 0]; SOp KAdd [0; 1]] in
  let w := fst (recorded ZF true p 2) in
  let rf := RF (snd (recorded ZF true p 2)) (w_ctrls w) 1%Z in
  let r := rf_call ZF (t_flat (w_tape w)) rf [0%Z] (w_heap w) in
  snd r = Err EZeroDiv /\ snd (rf_call ZF (t_flat (w_tape w)) rf [5%Z] (fst r)) = Ok 6%Z.
Proof. vm_conj. Qed.

(** C11: derivative, Hessian, adjoint and tangent sweeps and resets, successful or raising, leave
    every stored value and every later evaluation as it was. *)
Theorem C11_sweeps_keep_values : forall (V : Type) (F : fops V) (bs : list (block V)) (h : heap V) (a : api V),
  (forall v, bv_ctrl (h v) = false) -> is_call a = false ->
  (forall v, saved (fst (api_run F bs h a)) v = saved h v) /\
  (forall v, bv_ckpt (fst (api_run F bs h a) v) = bv_ckpt (h v) /\ bv_out (fst (api_run F bs h a) v) = bv_out (h v)) /\
  (forall rf vals, snd (rf_call F bs rf vals (fst (api_run F bs h a))) = snd (rf_call F bs rf vals h)).
Proof. exact (@sweep_values). Qed.
Print Assumptions C11_sweeps_keep_values.

(** A derivative that raises half-way: [J = x + y ** e] with e a control, at y = 0: 0**(-1). *)
Example C11_demo :
  let p := [SNew 2%Z; SNew 0%Z; SNew 0%Z; SControl 0; SControl 1; SOp KPow [1; 2]; SOp KAdd [0; 3]] in
  let w := fst (recorded ZF true p 4) in
  let r := api_run ZF (t_flat (w_tape w)) (w_heap w) (ADeriv (RF (snd (recorded ZF true p 4)) (w_ctrls w) 1%Z) 1%Z) in
  snd r = Err EZeroDiv /\ bv_adj (fst r 0) = Some 1%Z /\ bv_mark (fst r 0) = true /\ saved (fst r) 3 = saved (w_heap w) 3.
Proof. vm_conj. Qed.

(** C46: after any sequence of API calls, normal or exceptional, no variable is flagged, and the
    value a control was last given is the one stored. *)
Theorem C46_flags_never_leak : forall (V : Type) (F : fops V) (bs : list (block V)) (h : heap V) (l : list (api V)),
  (forall v, bv_ctrl (h v) = false) ->
  (forall v, bv_ctrl (run_hist F bs h l v) = false) /\
  (forall v, ~ In v (outs_of bs) ->
     saved (run_hist F bs h l) v = match latest l v with Some x => x | None => saved h v end).
Proof. exact (@flags_never_leak). Qed.
Print Assumptions C46_flags_never_leak.

Example C46_demo :
  let w := fst (recorded ZF true demo 7) in
  let h := run_hist ZF (t_flat (w_tape w)) (w_heap w) c01_hist in
  map (fun v => bv_ctrl (h v)) [0; 1; 2; 3; 4] = [false; false; false; false; false] /\ saved h 0 = 1%Z /\ saved h 1 = 2%Z.
Proof. vm_conj. Qed.
