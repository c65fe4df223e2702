(** Property theorems about minimize and maximize (C51). *)
From Coq Require Import List Arith ZArith Bool Lia Reals Lra.
From Coquelicot Require Import Coquelicot.
From Verif Require Import Base Model BaseFacts Graph Record Spec RecordFacts Replay ReplayExec History Session Sweep SpecGraph Marks Instances Coll Opt SpecOpt OptFacts
  Solvers SpecSolvers SolverFacts Dual TlmSweep RealInst Calculus Gradient Minimise SpecMinimise MinimiseFacts.
Import ListNotations.
Open Scope nat_scope.

(** C51, the part that holds: [rf] is a ReducedFunctional (not its NumPy view) on a recorded program, any calls of
    functionals of the same controls came before, and the algorithm asks for derivatives only at the point it
    evaluated last and where they exist.  Then it gets [scale * J] of the re-run program, the derivative and the
    Hessian action [rf] gives after an evaluation there, and its result is handed out and stored in the controls.
    Missing: the NumPy view, other orders of questions, [bounds] for basinhopping, the scale and the tape
    afterwards (refuted below). *)
Theorem C51_minimise_partial : forall (V S : Type) (F : fops V) (ann : bool) (p : list (stmt V)) (j : nat) (l : list (api V)) (wbs : list (block V))
  (bcs : list (@bctrl V S)) (ks : list (ctl V S)) (cur : list V) (m : method) (s s0 : V) (mkw : option (option (@sbounds V S)))
  (b : option sbounds) (alg : list S -> option (list (option S * option S)) -> algo V S) (attr : option V) (vs0 : list V) (x0 : list S)
  (b1 : option sbounds) (b2 : option (list (option S * option S))) (r : res (list S)),
  consistent p -> disciplined ann p = true -> j < length (w_objs (exec F (world_new F ann) p)) ->
  let w := fst (recorded F ann p j) in
  let bs := t_flat (w_tape w) in
  let J := snd (recorded F ann p j) in
  let rf := RF J (w_ctrls w) s in
  let h0 := run_hist F bs (w_heap w) l in
  closed (w_ctrls w) bs -> on_tape bs (w_ctrls w) -> In J (vars_of bs) -> NoDup (w_ctrls w) -> calls_controls w l -> (forall v, bv_mark (h0 v) = false) ->
  List.Forall law ks -> map bc_type bcs = types ks -> length ks = length (w_ctrls w) -> Forall2 (fun k v => k_ok k v) ks cur ->
  m <> MUnknown -> map (saved h0) (w_ctrls w) = vs0 -> packed ks vs0 x0 -> passed_bounds m mkw b = Ok b1 -> serialised bcs b1 = Ok b2 ->
  plays ks (fun x => rmap (fun y => f_mul F y s) (spec_rerun F ann p x j))
    (fun x g => der_at F (w_tape w) rf h0 x = Ok g) (fun x d H => hes_at F (w_tape w) rf h0 x d = Ok H) (gets_gradient m) (gets_hessian m) None (alg x0 b2) r ->
  let out := minimise F bs wbs bcs cur m s mkw b (Some alg) (ORF (RF J (w_ctrls w) s0) false attr) h0 in
  outcome ks r (snd out) (map (saved (snd (fst out))) (w_ctrls w)).
Proof. exact (@minimise_recorded). Qed.
Print Assumptions C51_minimise_partial.

(** ... and maximize shows the algorithm [-scale * J]. *)
Theorem C51_maximise_partial : forall (V S : Type) (F : fops V) (ann : bool) (p : list (stmt V)) (j : nat) (l : list (api V)) (wbs : list (block V))
  (bcs : list (@bctrl V S)) (ks : list (ctl V S)) (cur : list V) (m : method) (s s0 : V) (mkw : option (option (@sbounds V S)))
  (b : option sbounds) (alg : list S -> option (list (option S * option S)) -> algo V S) (attr : option V) (vs0 : list V) (x0 : list S)
  (b1 : option sbounds) (b2 : option (list (option S * option S))) (r : res (list S)),
  consistent p -> disciplined ann p = true -> j < length (w_objs (exec F (world_new F ann) p)) ->
  let w := fst (recorded F ann p j) in
  let bs := t_flat (w_tape w) in
  let J := snd (recorded F ann p j) in
  let rf := RF J (w_ctrls w) (f_neg F s) in
  let h0 := run_hist F bs (w_heap w) l in
  closed (w_ctrls w) bs -> on_tape bs (w_ctrls w) -> In J (vars_of bs) -> NoDup (w_ctrls w) -> calls_controls w l -> (forall v, bv_mark (h0 v) = false) ->
  List.Forall law ks -> map bc_type bcs = types ks -> length ks = length (w_ctrls w) -> Forall2 (fun k v => k_ok k v) ks cur ->
  m <> MUnknown -> map (saved h0) (w_ctrls w) = vs0 -> packed ks vs0 x0 -> passed_bounds m mkw b = Ok b1 -> serialised bcs b1 = Ok b2 ->
  plays ks (fun x => rmap (fun y => f_mul F y (f_neg F s)) (spec_rerun F ann p x j))
    (fun x g => der_at F (w_tape w) rf h0 x = Ok g) (fun x d H => hes_at F (w_tape w) rf h0 x d = Ok H) (gets_gradient m) (gets_hessian m) None (alg x0 b2) r ->
  let out := maximise F bs wbs bcs cur m s mkw b (Some alg) (ORF (RF J (w_ctrls w) s0) false attr) h0 in
  outcome ks r (snd out) (map (saved (snd (fst out))) (w_ctrls w)).
Proof. exact (fun V S F ann p j l wbs bcs ks cur m s => @minimise_recorded V S F ann p j l wbs bcs ks cur m (f_neg F s)). Qed.
Print Assumptions C51_maximise_partial.

(** C51 over the reals: the derivatives the algorithm gets are those of the function [scale * J]
    ([gradient_at], no tape).  The condition on the points [x] is that of C05: no kink of min or max, base
    of a power with a varying exponent positive, exact user adjoints. *)
Theorem C51_exact_partial : forall (S : Type) (ann : bool) (p : list (stmt R)) (j : nat) (l : list (api R)) (wbs : list (block R))
  (bcs : list (@bctrl R S)) (ks : list (ctl R S)) (cur : list R) (m : method) (s s0 : R) (mkw : option (option (@sbounds R S)))
  (b : option sbounds) (alg : list S -> option (list (option S * option S)) -> algo R S) (attr : option R) (vs0 : list R) (x0 : list S)
  (b1 : option sbounds) (b2 : option (list (option S * option S))) (r : res (list S)),
  consistent p -> disciplined ann p = true -> j < length (w_objs (exec RO (world_new RO ann) p)) ->
  let w := fst (recorded RO ann p j) in
  let bs := t_flat (w_tape w) in
  let J := snd (recorded RO ann p j) in
  let rf := RF J (w_ctrls w) s in
  let h0 := run_hist RO bs (w_heap w) l in
  closed (w_ctrls w) bs -> on_tape bs (w_ctrls w) -> In J (vars_of bs) -> NoDup (w_ctrls w) -> w_ctrls w <> [] -> independent bs (w_ctrls w) ->
  calls_controls w l -> (forall v, bv_mark (h0 v) = false) ->
  List.Forall law ks -> map bc_type bcs = types ks -> length ks = length (w_ctrls w) -> Forall2 (fun k v => k_ok k v) ks cur ->
  m <> MUnknown -> map (saved h0) (w_ctrls w) = vs0 -> packed ks vs0 x0 -> passed_bounds m mkw b = Ok b1 -> serialised bcs b1 = Ok b2 ->
  (forall x, length x = length (w_ctrls w) -> is_ok (spec_rerun RO ann p x j) = true ->
     let e := saved (fst (rf_call RO bs rf x h0)) in smooth_at bs (w_ctrls w) e /\ adjoints_right bs (w_ctrls w) e /\ adjoints_run bs (w_ctrls w) e) ->
  plays ks (objective (fun x => spec_rerun RO ann p x j) s) (gradient_at (fun x => spec_rerun RO ann p x j) s)
    (fun x d H => hes_at RO (w_tape w) rf h0 x d = Ok H) (gets_gradient m) (gets_hessian m) None (alg x0 b2) r ->
  let out := minimise RO bs wbs bcs cur m s mkw b (Some alg) (ORF (RF J (w_ctrls w) s0) false attr) h0 in
  outcome ks r (snd out) (map (saved (snd (fst out))) (w_ctrls w)).
Proof. exact minimise_exact. Qed.
Print Assumptions C51_exact_partial.

(** [x = 3; y = x*x; J = y*x] with an AdjFloat control *)
Definition mi_prog {V} (three : V) : list (stmt V) := [SNew three; SControl 0; SOp KMul [0; 0]; SOp KMul [1; 0]].
Definition mi_w := fst (recorded ZF true (mi_prog 3%Z) 2).
Definition mi_bs := t_flat (w_tape mi_w).
Definition mi_J := snd (recorded ZF true (mi_prog 3%Z) 2).
Definition mi_rf : rfun Z := RF mi_J [0] 5%Z.
Definition mi_b : @bctrl Z Z := BC adjfloat true.
Definition mi_k : ctl Z Z := Ctl adjfloat (fun _ => True) (fun v => [v]).
(** one step of descent from the start, clipped at the lower bound; exceptions pass through *)
Definition descent (x0 : list Z) (b : option (list (option Z * option Z))) : algo Z Z :=
  AJ x0 (fun v => match v with Err e => ARaise e | Ok _ =>
  AD x0 (fun g => match g with Err e => ARaise e | Ok g =>
  let x := (hd 0 x0 - hd 0 g)%Z in
  ARet [match b with Some [(Some lo, _)] => Z.max lo x | _ => x end] end) end).
(** reports the value at the start *)
Definition report (x0 : list Z) (_ : option (list (option Z * option Z))) : algo Z Z :=
  AJ x0 (fun v => match v with Err e => ARaise e | Ok v => ARet [v] end).
(** evaluates at 3, asks for the gradient at 1 *)
Definition astray (_ : list Z) (_ : option (list (option Z * option Z))) : algo Z Z :=
  AJ [3%Z] (fun v => match v with Err e => ARaise e | Ok _ => AD [1%Z] (fun g => match g with Err e => ARaise e | Ok g => ARet g end) end).
Definition still (x0 : list Z) (_ : option (list (option Z * option Z))) : algo Z Z := AJ x0 (fun _ => ARet [1%Z]).
Definition mi_min m s b alg wrap := minimise ZF mi_bs [] [mi_b] [3%Z] m s (Some None) b (Some alg) (ORF mi_rf wrap None) (w_heap mi_w).
Definition mi_max m s b alg wrap := maximise ZF mi_bs [] [mi_b] [3%Z] m s (Some None) b (Some alg) (ORF mi_rf wrap None) (w_heap mi_w).

(** The hypotheses of C51_minimise_partial hold (scale 2: gradient 54), with and without a bound. *)
Example C51_demo :
  w_ctrls mi_w = [0] /\ closed [0] mi_bs /\ on_tape mi_bs [0] /\ mem mi_J (vars_of mi_bs) = true /\ law mi_k /\
  plays [mi_k] (fun x => rmap (fun y => (y * 2)%Z) (spec_rerun ZF true (mi_prog 3%Z) x 2))
    (fun x g => der_at ZF (w_tape mi_w) (RF mi_J [0] 2%Z) (w_heap mi_w) x = Ok g) (fun _ _ _ => False) true false None (descent [3%Z] None) (Ok [(-51)%Z]) /\
  snd (mi_min LBFGSB 2%Z None descent false) = Ok (POne (-51)%Z) /\
  snd (mi_min LBFGSB 2%Z (Some (SBFlat [BInt 0; BInt 9]%Z)) descent false) = Ok (POne 0%Z) /\
  snd (mi_max LBFGSB 2%Z None descent false) = Ok (POne 57%Z).
Proof.
  assert (Eb : mi_bs = [Blk KMul [0; 0] [1] None; Blk KMul [1; 0] [2] None]) by (vm_compute; reflexivity).
  split; [vm_compute; reflexivity|]. split.
  { rewrite Eb. intros b o Hb Ho [<-|[]]. exfalso. destruct Hb as [<-|[<-|[]]]; destruct Ho as [Ho|[]]; discriminate Ho. }
  split; [apply on_tape_check; rewrite Eb; reflexivity|]. split; [vm_compute; reflexivity|]. split; [exact (adjfloat_lawful Z)|]. split; [|vm_conj].
  assert (P : forall v, packed [mi_k] [v] [v]) by (intros v; exact (packed_cons mi_k [] v [] [] I (packed_nil))).
  assert (E1 : spec_rerun ZF true (mi_prog 3%Z) [3%Z] 2 = Ok 27%Z) by (vm_compute; reflexivity).
  assert (E2 : der_at ZF (w_tape mi_w) (RF mi_J [0] 2%Z) (w_heap mi_w) [3%Z] = Ok [54%Z]) by (vm_compute; reflexivity).
  apply (pl_value _ _ _ _ _ _ _ [3%Z] [3%Z]); [apply P|]. rewrite E1. cbn [rmap bind].
  apply (pl_gradient _ _ _ _ _ _ [3%Z] [3%Z] [54%Z] [54%Z]); [reflexivity | apply P | exact E2 | apply P |].
  apply pl_ret. reflexivity.
Qed.

(** ... of C51_exact_partial (scale 2, gradient 2*27 of [2 x^3] at 3), for any algorithm that evaluates and
    differentiates at 3 and stops. *)
Definition re_w := fst (recorded RO true (mi_prog 3%R) 2).
Definition re_k : ctl R R := Ctl adjfloat (fun _ => True) (fun v => [v]).
Definition re_blocks : list (block R) := [Blk KMul [0; 0] [1] None; Blk KMul [1; 0] [2] None].
Ltac rcompute := lazy -[Rplus Rmult Rminus Ropp exp ln IZR Rle_dec Rlt_dec Req_EM_T Rdiv Rinv Rpower powerRZ Int_part].
Example C51_exact_demo :
  t_flat (w_tape re_w) = re_blocks /\ w_ctrls re_w = [0] /\ snd (recorded RO true (mi_prog 3%R) 2) = 2 /\ independent re_blocks [0] /\ on_tape re_blocks [0] /\
  (forall e, smooth_at re_blocks [0] e /\ adjoints_right re_blocks [0] e /\ adjoints_run re_blocks [0] e) /\
  forall k : list R -> list R,
  plays [re_k] (objective (fun x => spec_rerun RO true (mi_prog 3%R) x 2) 2) (gradient_at (fun x => spec_rerun RO true (mi_prog 3%R) x 2) 2)
    (fun _ _ _ => False) true false None
    (AJ [3%R] (fun v => match v with Err e => ARaise e | Ok _ => AD [3%R] (fun g => match g with Err e => ARaise e | Ok g => ARet [hd 0%R (k g)] end) end))
    (Ok [hd 0%R (k [54%R])]).
Proof.
  assert (Er : forall x, spec_rerun RO true (mi_prog 3%R) [x] 2 = Ok (x * x * x)%R) by (intros x; rcompute; reflexivity).
  split; [rcompute; reflexivity|]. split; [rcompute; reflexivity|]. split; [rcompute; reflexivity|]. clear - Er.
  assert (Ht : topo re_blocks).
  { destruct (recorded_clean RO true (mi_prog 3%R) 2) as [[Ht _] _]; [repeat constructor | reflexivity | rcompute; repeat constructor |].
    replace re_blocks with (t_flat (w_tape (fst (recorded RO true (mi_prog 3%R) 2)))); [exact Ht|]. clear. rcompute. reflexivity. }
  split; [apply independent_check; [exact Ht | reflexivity]|]. split; [apply on_tape_check; reflexivity|]. split.
  { intros e. split; [|split]; intros b d Hb _ _ _; destruct Hb as [<-|[<-|[]]]; exact I. }
  intros k. assert (P : forall v, packed [re_k] [v] [v]) by (intros v; exact (packed_cons re_k [] v [] [] I (packed_nil))).
  apply (pl_value _ _ _ _ _ _ _ [3%R] [3%R]); [apply P|]. unfold objective at 2. rewrite Er. cbn [rmap bind].
  unfold objective at 2. rewrite Er. cbn [rmap bind].
  apply (pl_gradient _ _ _ _ _ _ [3%R] [3%R] [54%R] [54%R]); [reflexivity | apply P | | apply P |].
  - split; [reflexivity|]. intros [|d [|? ?]] Hd; try discriminate Hd.
    exists (fun t => (3 + t * d) * (3 + t * d) * (3 + t * d) * 2)%R. split.
    + apply filter_forall. intros t. unfold objective, moved. cbn [combine map fst snd]. rewrite Er. reflexivity.
    + unfold dotR. cbn [combine map fst snd fold_right]. auto_derive; [exact I|]. ring.
  - apply pl_ret. reflexivity.
Qed.

(** The full statement is false.
    (1) For the NumPy view the scale is not used: the algorithm sees J, and maximize minimises.
    (2) The functional keeps the scale: [rf(3)] was 5*27 before, and is -27 after maximize, even if that raises.
    (3) A gradient is that of the point evaluated last, whatever point the algorithm asks for.
    (4) basinhopping never sees [bounds].
    (5) Afterwards the tape holds the controls returned with the intermediate values of another point:
        [rf.derivative()] is 11, not 3. *)
Theorem C51_refuted :
  (snd (mi_min SLSQP 2%Z None report false) = Ok (POne 54%Z) /\ snd (mi_min SLSQP 2%Z None report true) = Ok (POne 135%Z) /\
   snd (mi_max SLSQP 2%Z None descent true) = snd (mi_min SLSQP 2%Z None descent true)) /\
  (snd (rf_call ZF mi_bs mi_rf [3%Z] (w_heap mi_w)) = Ok 135%Z /\
   (let out := mi_max SLSQP 1%Z None report false in snd (rf_call ZF mi_bs (or_rf (fst (fst out))) [3%Z] (snd (fst out))) = Ok (-27)%Z) /\
   (let out := mi_max MUnknown 1%Z None report false in snd out = Err EKey /\ snd (rf_call ZF mi_bs (or_rf (fst (fst out))) [3%Z] (snd (fst out))) = Ok (-27)%Z)) /\
  (der_at ZF (w_tape mi_w) (RF mi_J [0] 1%Z) (w_heap mi_w) [1%Z] = Ok [3%Z] /\ snd (mi_min SLSQP 1%Z None astray false) = Ok (POne 27%Z)) /\
  (let b := Some (SBFlat [BInt 0; BInt 9]%Z) in
   snd (mi_min SLSQP 1%Z b descent false) = Ok (POne 0%Z) /\ snd (mi_min Basinhopping 1%Z b descent false) = Ok (POne (-24)%Z)) /\
  (let out := mi_min SLSQP 1%Z None still false in
   snd out = Ok (POne 1%Z) /\ np_get_controls (or_rf (fst (fst out))) [adjfloat] (snd (fst out)) = Ok [1%Z] /\
   snd (rf_derivative ZF mi_bs (or_rf (fst (fst out))) 1%Z (snd (fst out))) = Ok [11%Z] /\
   der_at ZF (w_tape mi_w) (RF mi_J [0] 1%Z) (w_heap mi_w) [1%Z] = Ok [3%Z]).
Proof. vm_conj. Qed.
Print Assumptions C51_refuted.
