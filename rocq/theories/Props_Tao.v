(** Property theorems about TAOSolver (C56). *)
From Coq Require Import List Arith ZArith Bool Lia Reals Lra.
From Coquelicot Require Import Coquelicot.
From Verif Require Import Base Model BaseFacts Graph Record Spec RecordFacts Replay ReplayExec History Session Sweep SpecGraph Marks Instances Coll Opt SpecOpt OptFacts
  Solvers SpecSolvers SolverFacts Dual TlmSweep RealInst Calculus Gradient SpecMinimise MinimiseFacts Reach Tao SpecTao TaoFacts.
Import ListNotations.
Open Scope nat_scope.

(** C56, the part that holds: the controls' type converts to PETSc and back, every control influences J, the control objects
    have not been overwritten since (their block variables are still those of the controls), user blocks do not answer
    None, and subvectors share memory with their vector.  Then whatever TAO asks, in whatever order, it is answered
    with [scale * J] of the re-run program and with the derivative and Hessian action [rf] gives after an evaluation
    at the point of the question; shifts add to the Hessian since it was last set; the solution comes out.
    Missing: the cases refuted below. *)
Theorem C56_tao_partial : forall (V S : Type) (F : fops V) (sadd smul : S -> S -> S) (szero : S) (seqb : S -> S -> bool),
  (forall a b, sadd a (smul szero b) = a) -> (forall a b, seqb a b = true <-> a = b) ->
  forall (ann : bool) (p : list (stmt V)) (j : nat) (l : list (api V)) (s : V)
    (bcs : list (@bctrl V S)) (ks : list (ctl V S)) (cur : list V) (riesz : list (V -> V)) (lim : S * S) (bounds : option (list (@bnd V S))) (is_list : bool)
    (x_old : list S) (alg : list S -> option (list S * list S) -> talgo V S) (x0 : list S) (b : option (list S * list S)) (r : res (list S * bool)),
  consistent p -> disciplined ann p = true -> j < length (w_objs (exec F (world_new F ann) p)) ->
  let w := fst (recorded F ann p j) in
  let bs := t_flat (w_tape w) in
  let J := snd (recorded F ann p j) in
  let rf := RF J (w_ctrls w) s in
  let h0 := run_hist F bs (w_heap w) l in
  closed (w_ctrls w) bs -> on_tape bs (w_ctrls w) -> In J (vars_of bs) -> calls_controls w l -> (forall v, bv_mark (h0 v) = false) ->
  List.Forall gives_adj bs -> List.Forall gives_hess bs -> (forall c, In c (w_ctrls w) -> influences bs c J) ->
  List.Forall law ks -> map bc_type bcs = types ks -> length ks = length (w_ctrls w) -> Forall2 (fun k v => k_ok k v) ks cur ->
  length riesz = length ks -> packed ks (map (saved h0) (w_ctrls w)) x0 -> length x_old = total ks ->
  match bounds with
  | None => b = None
  | Some l => length l = length ks /\ exists lu, tao_bounds (snd lim) (fst lim) bcs l = Ok lu /\ b = Some lu
  end ->
  tplays ks sadd smul szero (fun x => rmap (fun y => f_mul F y s) (spec_rerun F ann p x j))
    (fun x g => der_at F (w_tape w) rf h0 x = Ok g) (fun x d H => hes_at F (w_tape w) rf h0 x d = Ok H) riesz None szero false (alg x0 b) r ->
  tao_outcome ks is_list r (snd (tao_solve F sadd smul szero seqb true bs rf bcs cur (w_ctrls w) riesz lim bounds is_list x_old alg h0)).
Proof. exact (@tao_recorded). Qed.
Print Assumptions C56_tao_partial.

(** C56 over the reals: the derivatives TAO gets are those of the function [scale * J] ([gradient_at], no tape), under the conditions
    of C05 on the points. *)
Theorem C56_exact_partial : forall (S : Type) (sadd smul : S -> S -> S) (szero : S) (seqb : S -> S -> bool) (ann : bool) (p : list (stmt R)) (j : nat) (l : list (api R)) (s : R)
    (bcs : list (@bctrl R S)) (ks : list (ctl R S)) (cur : list R) (riesz : list (R -> R)) (lim : S * S) (bounds : option (list (@bnd R S))) (is_list : bool)
    (x_old : list S) (alg : list S -> option (list S * list S) -> talgo R S) (x0 : list S) (b : option (list S * list S)) (r : res (list S * bool)),
  (forall a b, sadd a (smul szero b) = a) -> (forall a b, seqb a b = true <-> a = b) ->
  consistent p -> disciplined ann p = true -> j < length (w_objs (exec RO (world_new RO ann) p)) ->
  let w := fst (recorded RO ann p j) in
  let bs := t_flat (w_tape w) in
  let J := snd (recorded RO ann p j) in
  let rf := RF J (w_ctrls w) s in
  let h0 := run_hist RO bs (w_heap w) l in
  closed (w_ctrls w) bs -> on_tape bs (w_ctrls w) -> In J (vars_of bs) -> NoDup (w_ctrls w) -> w_ctrls w <> [] -> independent bs (w_ctrls w) ->
  calls_controls w l -> (forall v, bv_mark (h0 v) = false) ->
  List.Forall gives_adj bs -> List.Forall gives_hess bs -> (forall c, In c (w_ctrls w) -> influences bs c J) ->
  List.Forall law ks -> map bc_type bcs = types ks -> length ks = length (w_ctrls w) -> Forall2 (fun k v => k_ok k v) ks cur ->
  length riesz = length ks -> packed ks (map (saved h0) (w_ctrls w)) x0 -> length x_old = total ks ->
  match bounds with
  | None => b = None
  | Some l => length l = length ks /\ exists lu, tao_bounds (snd lim) (fst lim) bcs l = Ok lu /\ b = Some lu
  end ->
  (forall x, length x = length (w_ctrls w) -> is_ok (spec_rerun RO ann p x j) = true ->
     let e := saved (fst (rf_call RO bs rf x h0)) in smooth_at bs (w_ctrls w) e /\ adjoints_right bs (w_ctrls w) e /\ adjoints_run bs (w_ctrls w) e) ->
  tplays ks sadd smul szero (objective (fun x => spec_rerun RO ann p x j) s) (gradient_at (fun x => spec_rerun RO ann p x j) s)
    (fun x d H => hes_at RO (w_tape w) rf h0 x d = Ok H) riesz None szero false (alg x0 b) r ->
  tao_outcome ks is_list r (snd (tao_solve RO sadd smul szero seqb true bs rf bcs cur (w_ctrls w) riesz lim bounds is_list x_old alg h0)).
Proof. exact tao_exact. Qed.
Print Assumptions C56_exact_partial.

(** [x = 3; y = x*x; J = y*x] with a control of a type that holds one float and converts to PETSc ([adjfloat] with
    its NumPy conversions in their place), scale 2 *)
Definition ta_prog {V} (three : V) : list (stmt V) := [SNew three; SControl 0; SOp KMul [0; 0]; SOp KMul [1; 0]].
Definition ta_w := fst (recorded ZF true (ta_prog 3%Z) 2).
Definition ta_bs := t_flat (w_tape ta_w).
Definition ta_rf : rfun Z := RF 2 [0] 2%Z.
Definition ta_k : ctl Z Z := Ctl adjfloat (fun _ => True) (fun v => [v]).
Definition ta_b : @bctrl Z Z := BC adjfloat true.
Definition ta_solve shares bs rf bcs cur bvs bounds il alg h :=
  tao_solve ZF Z.add Z.mul 0%Z Z.eqb shares bs rf bcs cur bvs [fun v => (10 * v)%Z] (-100, 100)%Z bounds il [0%Z] alg h.
(** sets the Hessian at the start [x0], shifts it by 7, evaluates at 1 (value 2, gradient 6), multiplies 1 by the Hessian at the start
    (12 x0 + 7), represents that, and stops at the sum of all this or at the upper bound *)
Definition tour (x0 : list Z) (b : option (list Z * list Z)) : talgo Z Z :=
  THess x0 (fun _ => TShift 7%Z (TObj [1%Z] [0%Z] (fun o => match o with Err e => TRaise e | Ok (v, g) =>
  TMult [1%Z] [0%Z] (fun q => match q with Err e => TRaise e | Ok q =>
  TNorm q [0%Z] (fun n => match n with Err e => TRaise e | Ok n =>
  let x := (v + hd 0 g + hd 0 q + hd 0 n)%Z in TDone [match b with Some (_, [up]) => Z.min x up | _ => x end] true end) end) end))).
Definition giving_up (x0 : list Z) (_ : option (list Z * list Z)) : talgo Z Z := TObj x0 [0%Z] (fun _ => TDone x0 false).
Definition first_norm (x0 : list Z) (_ : option (list Z * list Z)) : talgo Z Z := TNorm x0 [0%Z] (fun n => match n with Err e => TRaise e | Ok n => TDone n true end).
Definition slope (x0 : list Z) (_ : option (list Z * list Z)) : talgo Z Z := TObj x0 [0%Z] (fun o => match o with Err e => TRaise e | Ok (_, g) => TDone g true end).

Example C56_demo :
  w_ctrls ta_w = [0] /\ closed [0] ta_bs /\ on_tape ta_bs [0] /\ mem 2 (vars_of ta_bs) = true /\ law ta_k /\ influences ta_bs 0 2 /\
  List.Forall gives_adj ta_bs /\ List.Forall gives_hess ta_bs /\
  tplays [ta_k] Z.add Z.mul 0%Z (fun x => rmap (fun y => (y * 2)%Z) (spec_rerun ZF true (ta_prog 3%Z) x 2))
    (fun x g => der_at ZF (w_tape ta_w) ta_rf (w_heap ta_w) x = Ok g) (fun x d H => hes_at ZF (w_tape ta_w) ta_rf (w_heap ta_w) x d = Ok H) [fun v => (10 * v)%Z]
    None 0%Z false (tour [3%Z] None) (Ok ([481%Z], true)) /\
  snd (ta_solve true ta_bs ta_rf [ta_b] [3%Z] [0] None false tour (w_heap ta_w)) = Ok (POne 481%Z) /\
  snd (ta_solve true ta_bs ta_rf [ta_b] [3%Z] [0] None true tour (w_heap ta_w)) = Ok (PList [481%Z]) /\
  snd (ta_solve true ta_bs ta_rf [ta_b] [3%Z] [0] (Some [BSeq [BNone; BInt 9%Z]]) false tour (w_heap ta_w)) = Ok (POne 9%Z) /\
  snd (ta_solve true ta_bs ta_rf [ta_b] [3%Z] [0] None false giving_up (w_heap ta_w)) = Err ETao.
Proof.
  assert (Eb : ta_bs = [Blk KMul [0; 0] [1] None; Blk KMul [1; 0] [2] None]) by (vm_compute; reflexivity).
  split; [vm_compute; reflexivity|]. split.
  { rewrite Eb. intros b o Hb Ho [<-|[]]. exfalso. destruct Hb as [<-|[<-|[]]]; destruct Ho as [Ho|[]]; discriminate Ho. }
  split; [apply on_tape_check; rewrite Eb; reflexivity|]. split; [vm_compute; reflexivity|]. split; [exact (adjfloat_lawful Z)|].
  split.
  { rewrite Eb. apply (inf_step _ _ (Blk KMul [1; 0] [2] None) 0 2); cbn; auto. constructor. }
  split; [rewrite Eb; repeat constructor; intros u Hu; discriminate Hu|]. split; [rewrite Eb; repeat constructor; intros u Hu; discriminate Hu|].
  split; [|vm_conj].
  assert (P : forall v, packed [ta_k] [v] [v]) by (intros v; exact (packed_cons ta_k [] v [] [] I (packed_nil))).
  unfold tour. apply (tp_hess _ _ _ _ _ _ _ _ _ _ _ _ [3%Z]); [apply P|]. apply tp_shift.
  apply (tp_objective _ _ _ _ _ _ _ _ _ _ _ _ _ [1%Z] 2%Z [6%Z] [6%Z]); [apply P | reflexivity | vm_compute; reflexivity | vm_compute; reflexivity | apply P |].
  cbn [hd]. apply (tp_mult _ _ _ _ _ _ _ _ _ _ _ _ _ [1%Z] 54%Z [54%Z] [54%Z] [36%Z] [36%Z]);
    [apply P | reflexivity | vm_compute; reflexivity | vm_compute; reflexivity | apply P | vm_compute; reflexivity | apply P |].
  cbn. apply (tp_norm _ _ _ _ _ _ _ _ _ _ _ _ [43%Z] [430%Z]); [apply P | reflexivity | apply P |]. apply tp_done. reflexivity.
Qed.

(** ... of C56_exact_partial: a run that evaluates at 3 where [2 x^3] is 54 with gradient 54. *)
Definition tr_k : ctl R R := Ctl adjfloat (fun _ => True) (fun v => [v]).
Definition tr_blocks : list (block R) := [Blk KMul [0; 0] [1] None; Blk KMul [1; 0] [2] None].
Ltac rcompute := lazy -[Rplus Rmult Rminus Ropp exp ln IZR Rle_dec Rlt_dec Req_EM_T Rdiv Rinv Rpower powerRZ Int_part].
Example C56_exact_demo :
  t_flat (w_tape (fst (recorded RO true (ta_prog 3%R) 2))) = tr_blocks /\
  (forall e, smooth_at tr_blocks [0] e /\ adjoints_right tr_blocks [0] e /\ adjoints_run tr_blocks [0] e) /\
  tplays [tr_k] Rplus Rmult 0%R (objective (fun x => spec_rerun RO true (ta_prog 3%R) x 2) 2) (gradient_at (fun x => spec_rerun RO true (ta_prog 3%R) x 2) 2)
    (fun _ _ _ => False) [fun v => v] None 0%R false
    (TObj [3%R] [0%R] (fun o => match o with Err e => TRaise e | Ok (v, g) => TDone g true end)) (Ok ([54%R], true)).
Proof.
  assert (Er : forall x, spec_rerun RO true (ta_prog 3%R) [x] 2 = Ok (x * x * x)%R) by (intros x; rcompute; reflexivity).
  split; [rcompute; reflexivity|]. split.
  { intros e. split; [|split]; intros b d Hb _ _ _; destruct Hb as [<-|[<-|[]]]; exact I. }
  assert (P : forall v, packed [tr_k] [v] [v]) by (intros v; exact (packed_cons tr_k [] v [] [] I (packed_nil))).
  apply (tp_objective _ _ _ _ _ _ _ _ _ _ _ _ _ [3%R] (3 * 3 * 3 * 2)%R [54%R] [54%R]); [apply P | reflexivity | unfold objective; rewrite Er; reflexivity | | apply P |].
  - split; [reflexivity|]. intros [|d [|? ?]] Hd; try discriminate Hd.
    exists (fun t => (3 + t * d) * (3 + t * d) * (3 + t * d) * 2)%R. split.
    + apply filter_forall. intros t. unfold objective, moved. cbn [combine map fst snd]. rewrite Er. reflexivity.
    + unfold dotR. cbn [combine map fst snd fold_right]. auto_derive; [exact I|]. ring.
  - apply tp_done. reflexivity.
Qed.

(** The full statement is false.
    (1) AdjFloat has no PETSc conversions: the solver cannot be made for float controls.
    (2) With a second control [z = 5] that J does not use the gradient callback raises TypeError; [rf.derivative()] is (54, 0).
    (3) The control object was doubled in place after Control(x), then [J = x*x], so J is [4 x^2] as a function of the control and
        [rf.derivative()] at 3 is 24.  TAO gets 12, the derivative with respect to the doubled object: the gradient is read from the object's
        current variable.
    (4) A norm asked for before the first derivative raises RuntimeError.
    (5) Where subvectors are copies TAO starts at what its vector held before (0, not 3) and gets no gradient. *)
Definition ta2_prog : list (stmt Z) := [SNew 3%Z; SControl 0; SNew 5%Z; SControl 1; SOp KMul [0; 0]; SOp KMul [2; 0]].
Definition ta2_w := fst (recorded ZF true ta2_prog 3).
Definition petscless : ctype Z Z := CT 1 (fun _ => Err ENotImpl) (fun _ => Err ENotImpl) (fun v => Ok v).
Definition twice (o : option Z) : res (option Z) := Ok (option_map (Z.mul 2) o).
Definition doubling : ublock Z := {|
  u_recompute := fun xs _ => Ok (Some (2 * hd 0 xs))%Z;
  u_adj := fun _ ins _ => twice (hd None ins);
  u_tlm := fun _ ts _ => twice (hd None ts);
  u_hess := fun _ hs _ _ _ => twice (hd None hs) |}.
Definition ta3_prog : list (stmt Z) := [SNew 3%Z; SControl 0; SInpl doubling (fun xs => Ok (2 * hd 0 xs)%Z) [0] 0 true None; SOp KMul [0; 0]].
Definition ta3_w := fst (recorded ZF true ta3_prog 1).
Definition ta3_rf : rfun Z := RF (snd (recorded ZF true ta3_prog 1)) (w_ctrls ta3_w) 1%Z.
Theorem C56_refuted :
  snd (ta_solve true ta_bs ta_rf [BC petscless true] [3%Z] [0] None false slope (w_heap ta_w)) = Err ENotImpl /\
  (let rf := RF (snd (recorded ZF true ta2_prog 3)) (w_ctrls ta2_w) 2%Z in
   der_at ZF (w_tape ta2_w) rf (w_heap ta2_w) [3; 5]%Z = Ok [54; 0]%Z /\
  snd (tao_solve ZF Z.add Z.mul 0%Z Z.eqb true (t_flat (w_tape ta2_w)) rf [ta_b; ta_b] [3; 5]%Z (w_ctrls ta2_w) [fun v => v; fun v => v] (-100, 100)%Z None true [0; 0]%Z
          (fun x0 _ => TObj x0 [0; 0]%Z (fun o => match o with Err e => TRaise e | Ok (_, g) => TDone g true end)) (w_heap ta2_w)) = Err EType) /\
  (consistent ta3_prog /\ disciplined true ta3_prog = true /\
  der_at ZF (w_tape ta3_w) ta3_rf (w_heap ta3_w) [3]%Z = Ok [24%Z] /\
  snd (ta_solve true (t_flat (w_tape ta3_w)) ta3_rf [ta_b] [6%Z] [snd (get_bv (exec ZF (world_new ZF true) ta3_prog) 0)] None false slope (w_heap ta3_w)) = Ok (POne 12%Z)) /\
  snd (ta_solve true ta_bs ta_rf [ta_b] [3%Z] [0] None false first_norm (w_heap ta_w)) = Err ERuntime /\
  (snd (ta_solve true ta_bs ta_rf [ta_b] [3%Z] [0] None false slope (w_heap ta_w)) = Ok (POne 54%Z) /\
  snd (ta_solve false ta_bs ta_rf [ta_b] [3%Z] [0] None false slope (w_heap ta_w)) = Ok (POne 0%Z)).
Proof.
  split; [vm_compute; reflexivity|]. split; [vm_conj|]. split; [|vm_conj].
  split; [repeat constructor; cbn; intros; try congruence|]. vm_conj.
Qed.
Print Assumptions C56_refuted.
