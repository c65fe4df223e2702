(** Property theorems about the second derivatives optimisation packages get (C10, C51, C56, C60) and about Moola's Hessian (C61). *)
From Coq Require Import List Arith ZArith Bool Lia Reals Lra.
From Coquelicot Require Import Coquelicot.
From Verif Require Import Base Model BaseFacts Graph Record Spec RecordFacts Replay ReplayExec History Session Sweep SpecGraph Marks Instances Coll Opt SpecOpt OptFacts
  Solvers SpecSolvers SolverFacts Dual TlmSweep RealInst Calculus Gradient Reach SpecHess HessExact Minimise SpecMinimise MinimiseFacts Tao SpecTao Rol SpecRol HessDer HessRuns
  Moola SpecMoola MoolaFacts.
Import ListNotations.
Open Scope nat_scope.

(** C10 against the program: after any calls, [rf(m)], [rf.derivative()] and [rf.hessian(d)] the result is the Hessian of [scale * J] of the
    re-run program applied to [d] ([hessian_at], no tape).  [hes_at h0 m d]: what rf.hessian(d) returns after rf(m) and rf.derivative() from the state [h0].
    Conditions as in C10_program_partial, at the point; differentiability (C05) at the points of the domain.  Missing: exp, log, general products, user blocks. *)
Theorem C10_rerun_partial : forall (ann : bool) (p : list (stmt R)) (j : nat) (s : R) (l : list (api R)),
  consistent p -> disciplined ann p = true -> j < length (w_objs (exec RO (world_new RO ann) p)) ->
  let w := fst (recorded RO ann p j) in
  let bs := t_flat (w_tape w) in
  let J := snd (recorded RO ann p j) in
  let rf := RF J (w_ctrls w) s in
  let h0 := run_hist RO bs (w_heap w) l in
  NoDup (w_ctrls w) -> w_ctrls w <> [] -> independent bs (w_ctrls w) -> on_tape bs (w_ctrls w) -> In J (vars_of bs) -> closed (w_ctrls w) bs ->
  calls_controls w l -> (forall v, bv_mark (h0 v) = false) ->
  forall m d g H : list R, length m = length (w_ctrls w) -> length d = length (w_ctrls w) -> is_ok (spec_rerun RO ann p m j) = true ->
  (forall x, length x = length (w_ctrls w) -> is_ok (spec_rerun RO ann p x j) = true ->
     let e := saved (fst (rf_call RO bs rf x h0)) in smooth_at bs (w_ctrls w) e /\ adjoints_right bs (w_ctrls w) e) ->
  twice_smooth bs (w_ctrls w) (saved (fst (rf_call RO bs rf m h0))) -> tangents_right bs (w_ctrls w) (saved (fst (rf_call RO bs rf m h0))) ->
  second_order_sound bs (w_ctrls w) J ->
  der_at RO (w_tape w) rf h0 m = Ok g -> hes_at RO (w_tape w) rf h0 m d = Ok H ->
  hessian_at (fun x => spec_rerun RO ann p x j) s m d H.
Proof. exact hessian_true. Qed.
Print Assumptions C10_rerun_partial.

(** C51 with exact Hessians: value, gradient and Hessian action the algorithm gets are those of the function [scale * J].  The conditions on the points are those of C10;
    rf.hessian does not raise there. *)
Theorem C51_hessian_partial : forall (S : Type) (ann : bool) (p : list (stmt R)) (j : nat) (l : list (api R)) (wbs : list (block R))
  (bcs : list (@bctrl R S)) (ks : list (ctl R S)) (cur : list R) (m : Minimise.method) (s s0 : R) (mkw : option (option (@sbounds R S)))
  (b : option sbounds) (alg : list S -> option (list (option S * option S)) -> Minimise.algo R S) (attr : option R) (vs0 : list R) (x0 : list S)
  (b1 : option sbounds) (b2 : option (list (option S * option S))) (r : res (list S)),
  consistent p -> disciplined ann p = true -> j < length (w_objs (exec RO (world_new RO ann) p)) ->
  let w := fst (recorded RO ann p j) in
  let bs := t_flat (w_tape w) in
  let J := snd (recorded RO ann p j) in
  let rf := RF J (w_ctrls w) s in
  let h0 := run_hist RO bs (w_heap w) l in
  closed (w_ctrls w) bs -> on_tape bs (w_ctrls w) -> In J (vars_of bs) -> NoDup (w_ctrls w) -> w_ctrls w <> [] -> independent bs (w_ctrls w) ->
  calls_controls w l -> (forall v, bv_mark (h0 v) = false) ->
  List.Forall law ks -> map bc_type bcs = types ks -> length ks = length (w_ctrls w) -> Forall2 (fun k v => k_ok k v) ks cur ->
  m <> MUnknown -> map (saved h0) (w_ctrls w) = vs0 -> packed ks vs0 x0 -> passed_bounds m mkw b = Ok b1 -> serialised bcs b1 = Ok b2 ->
  (forall x, length x = length (w_ctrls w) -> is_ok (spec_rerun RO ann p x j) = true ->
     let e := saved (fst (rf_call RO bs rf x h0)) in
     twice_smooth bs (w_ctrls w) e /\ adjoints_right bs (w_ctrls w) e /\ adjoints_run bs (w_ctrls w) e /\ tangents_right bs (w_ctrls w) e /\
     forall d, length d = length (w_ctrls w) -> is_ok (hes_at RO (w_tape w) rf h0 x d) = true) ->
  second_order_sound bs (w_ctrls w) J ->
  SpecMinimise.plays ks (objective (fun x => spec_rerun RO ann p x j) s) (gradient_at (fun x => spec_rerun RO ann p x j) s)
    (hessian_at (fun x => spec_rerun RO ann p x j) s) (gets_gradient m) (gets_hessian m) None (alg x0 b2) r ->
  let out := minimise RO bs wbs bcs cur m s mkw b (Some alg) (ORF (RF J (w_ctrls w) s0) false attr) h0 in
  outcome ks r (snd out) (map (saved (snd (fst out))) (w_ctrls w)).
Proof. exact minimise_hessians. Qed.
Print Assumptions C51_hessian_partial.

(** C56 with exact Hessians *)
Theorem C56_hessian_partial : forall (S : Type) (sadd smul : S -> S -> S) (szero : S) (seqb : S -> S -> bool) (ann : bool) (p : list (stmt R)) (j : nat) (l : list (api R)) (s : R)
    (bcs : list (@bctrl R S)) (ks : list (ctl R S)) (cur : list R) (riesz : list (R -> R)) (lim : S * S) (bounds : option (list (@Opt.bnd R S))) (is_list : bool)
    (x_old : list S) (alg : list S -> option (list S * list S) -> talgo R S) (x0 : list S) (b : option (list S * list S)) (r : res (list S * bool)),
  (forall a b, sadd a (smul szero b) = a) -> (forall a b, seqb a b = true <-> a = b) ->
  consistent p -> disciplined ann p = true -> j < length (w_objs (exec RO (world_new RO ann) p)) ->
  let w := fst (recorded RO ann p j) in
  let bs := t_flat (w_tape w) in
  let J := snd (recorded RO ann p j) in
  let rf := RF J (w_ctrls w) s in
  let h0 := run_hist RO bs (w_heap w) l in
  closed (w_ctrls w) bs -> on_tape bs (w_ctrls w) -> In J (vars_of bs) -> NoDup (w_ctrls w) -> w_ctrls w <> [] -> independent bs (w_ctrls w) ->
  calls_controls w l -> (forall v, bv_mark (h0 v) = false) ->
  List.Forall gives_adj bs -> List.Forall gives_hess bs -> (forall c, In c (w_ctrls w) -> influences bs c J) ->
  List.Forall law ks -> map bc_type bcs = types ks -> length ks = length (w_ctrls w) -> Forall2 (fun k v => k_ok k v) ks cur ->
  length riesz = length ks -> packed ks (map (saved h0) (w_ctrls w)) x0 -> length x_old = total ks ->
  match bounds with
  | None => b = None
  | Some l => length l = length ks /\ exists lu, tao_bounds (snd lim) (fst lim) bcs l = Ok lu /\ b = Some lu
  end ->
  (forall x, length x = length (w_ctrls w) -> is_ok (spec_rerun RO ann p x j) = true ->
     let e := saved (fst (rf_call RO bs rf x h0)) in
     twice_smooth bs (w_ctrls w) e /\ adjoints_right bs (w_ctrls w) e /\ adjoints_run bs (w_ctrls w) e /\ tangents_right bs (w_ctrls w) e /\
     forall d, length d = length (w_ctrls w) -> is_ok (hes_at RO (w_tape w) rf h0 x d) = true) ->
  second_order_sound bs (w_ctrls w) J ->
  tplays ks sadd smul szero (objective (fun x => spec_rerun RO ann p x j) s) (gradient_at (fun x => spec_rerun RO ann p x j) s)
    (hessian_at (fun x => spec_rerun RO ann p x j) s) riesz None szero false (alg x0 b) r ->
  tao_outcome ks is_list r (snd (tao_solve RO sadd smul szero seqb true bs rf bcs cur (w_ctrls w) riesz lim bounds is_list x_old alg h0)).
Proof. exact tao_hessians. Qed.
Print Assumptions C56_hessian_partial.

(** C60 with exact Hessians *)
Theorem C60_hessian_partial : forall (S : Type) (add : R -> R -> R) (mul : S -> R -> R) (dot : R -> R -> S) (dim : R -> nat)
  (unary : (S -> S) -> R -> R) (binary : (S -> S -> S) -> R -> R -> R) (reduce : (S -> S -> S) -> R -> S -> S) (asg : bool)
  (zero : S) (plus : S -> S -> S) (root : S -> S) (ann : bool) (p : list (stmt R)) (j : nat) (l : list (api R)) (s : R)
  (A : Type) (e : enlist A) (a : Rol.algo R S) (r : res (list R)),
  consistent p -> disciplined ann p = true -> j < length (w_objs (exec RO (world_new RO ann) p)) ->
  let w := fst (recorded RO ann p j) in
  let bs := t_flat (w_tape w) in
  let J := snd (recorded RO ann p j) in
  let rf := RF J (w_ctrls w) s in
  let h0 := run_hist RO bs (w_heap w) l in
  closed (w_ctrls w) bs -> on_tape bs (w_ctrls w) -> In J (vars_of bs) -> NoDup (w_ctrls w) -> w_ctrls w <> [] -> independent bs (w_ctrls w) ->
  calls_controls w l -> (forall v, bv_mark (h0 v) = false) ->
  (forall x, length x = length (w_ctrls w) -> is_ok (spec_rerun RO ann p x j) = true ->
     let e := saved (fst (rf_call RO bs rf x h0)) in
     twice_smooth bs (w_ctrls w) e /\ adjoints_right bs (w_ctrls w) e /\ adjoints_run bs (w_ctrls w) e /\ tangents_right bs (w_ctrls w) e /\
     forall d, length d = length (w_ctrls w) -> is_ok (hes_at RO (w_tape w) rf h0 x d) = true) ->
  second_order_sound bs (w_ctrls w) J ->
  SpecRol.plays add mul dot dim unary binary reduce zero plus root (objective (fun x => spec_rerun RO ann p x j) s)
    (gradient_at (fun x => spec_rerun RO ann p x j) s) (hessian_at (fun x => spec_rerun RO ann p x j) s) [map (saved h0) (w_ctrls w)] RStart None a r ->
  snd (rol_solve RO (OT add mul true true (Some dot) (Some dim) (Some unary) (Some binary) (Some reduce) asg) (Sc zero plus root) (w_tape w) rf e a h0)
    = returned (el_listed e) r.
Proof. exact rol_hessians. Qed.
Print Assumptions C60_hessian_partial.

(** C61, the part that holds: memoize 0 or 1, any calls of functionals of the same controls before; gradients are asked for at the point evaluated last (evaluated by
    a call or by making a Hessian), Hessians are applied when their point is the one evaluated last and the one of the last gradient ([answers]); nothing raises.
    Then all values are those of [scale * J] of the re-run program, gradients and Hessian actions those [rf] gives without memoisation.
    Missing: the other orders, larger memoize, failures (refuted below and in C36); the conversion of results to Moola's vectors. *)
Theorem C61_moola_partial : forall (V : Type) (F : fops V) (ann : bool) (p : list (stmt V)) (j : nat) (l : list (api V)) (s : V) (hash : list V -> nat) (n : nat)
  (calls : list (hcall (list V) (list V))) (os : list (hans V (list V))),
  consistent p -> disciplined ann p = true -> j < length (w_objs (exec F (world_new F ann) p)) ->
  let w := fst (recorded F ann p j) in
  let bs := t_flat (w_tape w) in
  let J := snd (recorded F ann p j) in
  let rf := RF J (w_ctrls w) s in
  let h0 := run_hist F bs (w_heap w) l in
  closed (w_ctrls w) bs -> on_tape bs (w_ctrls w) -> In J (vars_of bs) -> w_ctrls w <> [] -> calls_controls w l -> (forall v, bv_mark (h0 v) = false) -> n <= 1 ->
  (forall c1 c2, In c1 calls -> In c2 calls -> hash (call_point c1) = hash (call_point c2) -> call_point c1 = call_point c2) ->
  answers (fun x y => length x = length (w_ctrls w) /\ rmap (fun y => f_mul F y s) (spec_rerun F ann p x j) = Ok y)
    (fun x d => der_at F (w_tape w) rf h0 x = Ok d) (fun x d H => hes_at F (w_tape w) rf h0 x d = Ok H) None None calls os ->
  mh_run (heap V) (list V) V (list V) (list V) hash (fun h x => rf_call F bs rf x h) (fun h => rf_derivative F bs rf (f_one F) h)
    (fun h d => rf_hessian F bs rf d h) n (mo_new (heap V) V (list V) h0) calls = os.
Proof. exact moola_recorded. Qed.
Print Assumptions C61_moola_partial.

(** Over the reals: value, gradient and Hessian of the function, under the conditions of C10. *)
Theorem C61_exact_partial : forall (ann : bool) (p : list (stmt R)) (j : nat) (l : list (api R)) (s : R) (hash : list R -> nat) (n : nat)
  (calls : list (hcall (list R) (list R))) (os : list (hans R (list R))),
  consistent p -> disciplined ann p = true -> j < length (w_objs (exec RO (world_new RO ann) p)) ->
  let w := fst (recorded RO ann p j) in
  let bs := t_flat (w_tape w) in
  let J := snd (recorded RO ann p j) in
  let rf := RF J (w_ctrls w) s in
  let h0 := run_hist RO bs (w_heap w) l in
  closed (w_ctrls w) bs -> on_tape bs (w_ctrls w) -> In J (vars_of bs) -> NoDup (w_ctrls w) -> w_ctrls w <> [] -> independent bs (w_ctrls w) ->
  calls_controls w l -> (forall v, bv_mark (h0 v) = false) -> n <= 1 ->
  (forall c1 c2, In c1 calls -> In c2 calls -> hash (call_point c1) = hash (call_point c2) -> call_point c1 = call_point c2) ->
  (forall x, length x = length (w_ctrls w) -> is_ok (spec_rerun RO ann p x j) = true ->
     let e := saved (fst (rf_call RO bs rf x h0)) in
     twice_smooth bs (w_ctrls w) e /\ adjoints_right bs (w_ctrls w) e /\ adjoints_run bs (w_ctrls w) e /\ tangents_right bs (w_ctrls w) e /\
     forall d, length d = length (w_ctrls w) -> is_ok (hes_at RO (w_tape w) rf h0 x d) = true) ->
  second_order_sound bs (w_ctrls w) J ->
  answers (fun x y => length x = length (w_ctrls w) /\ objective (fun x => spec_rerun RO ann p x j) s x = Ok y)
    (gradient_at (fun x => spec_rerun RO ann p x j) s) (hessian_at (fun x => spec_rerun RO ann p x j) s) None None calls os ->
  mh_run (heap R) (list R) R (list R) (list R) hash (fun h x => rf_call RO bs rf x h) (fun h => rf_derivative RO bs rf 1%R h)
    (fun h d => rf_hessian RO bs rf d h) n (mo_new (heap R) R (list R) h0) calls = os.
Proof. exact moola_exact. Qed.
Print Assumptions C61_exact_partial.

(** [x = 3; J = x*x*x] *)
Definition mh_prog : list (stmt Z) := [SNew 3%Z; SControl 0; SOp KMul [0; 0]; SOp KMul [1; 0]].
Definition mh_w := fst (recorded ZF true mh_prog 2).
Definition mh_rf : rfun Z := RF (snd (recorded ZF true mh_prog 2)) [0] 1%Z.
Definition mh_val := val_at ZF (w_tape mh_w) mh_rf (w_heap mh_w).
Definition mh_der := der_at ZF (w_tape mh_w) mh_rf (w_heap mh_w).
Definition mh_hes := hes_at ZF (w_tape mh_w) mh_rf (w_heap mh_w).
Definition mh_results (n : nat) (l : list (hcall (list Z) (list Z))) : list (hans Z (list Z)) :=
  mh_run (heap Z) (list Z) Z (list Z) (list Z) (fun x => Z.to_nat (hd 0%Z x)) (fun h x => rf_call ZF (t_flat (w_tape mh_w)) mh_rf x h)
    (fun h => rf_derivative ZF (t_flat (w_tape mh_w)) mh_rf 1%Z h) (fun h d => rf_hessian ZF (t_flat (w_tape mh_w)) mh_rf d h) n
    (mo_new (heap Z) Z (list Z) (w_heap mh_w)) l.
Definition newton : list (hcall (list Z) (list Z)) :=
  [HCall (MEval [1]); HCall (MDeriv [1]); HHess [1]; HApply [1] [1]; HApply [1] [2]; HCall (MEval [5]); HCall (MEval [2]); HCall (MDeriv [2]); HCall (MDeriv [2]); HApply [2] [1];
   HCall (MEval [7]); HHess [2]; HApply [2] [3]]%Z.
Definition newton_answers : list (hans Z (list Z)) :=
  [RVal (Ok 1); RGrad (Ok [3]); RMade (Ok tt); RAct (Ok [6]); RAct (Ok [12]); RVal (Ok 125); RVal (Ok 8); RGrad (Ok [12]); RGrad (Ok [12]); RAct (Ok [12]);
   RVal (Ok 343); RMade (Ok tt); RAct (Ok [36])]%Z.
Example C61_demo :
  w_ctrls mh_w = [0] /\ mem (rf_J mh_rf) (vars_of (t_flat (w_tape mh_w))) = true /\
  answers (fun x y => length x = 1 /\ rmap (fun y => (y * 1)%Z) (spec_rerun ZF true mh_prog x 2) = Ok y) (fun x d => mh_der x = Ok d) (fun x d H => mh_hes x d = Ok H)
    None None newton newton_answers /\
  mh_results 0 newton = newton_answers /\ mh_results 1 newton = newton_answers.
Proof.
  split; [vm_compute; reflexivity|]. split; [vm_compute; reflexivity|]. split; [|vm_conj].
  repeat first [constructor | eapply an_hessian]; vm_compute; reflexivity.
Qed.

(** The full statement is false.  (1) An operator applied after another evaluation acts at the point evaluated last, with the adjoint values of the last gradient.
    (2) An operator made at a point without a gradient there uses the adjoint values of another point; before any gradient
    it raises TypeError.
    (3) memoize = 2: making an operator at a remembered point leaves the tape where it is. *)
Theorem C61_refuted :
  mh_hes [1%Z] [1%Z] = Ok [6%Z] /\
  nth_error (mh_results 1 [HCall (MEval [1]); HCall (MDeriv [1]); HHess [1]; HCall (MEval [2]); HApply [1] [1]]%Z) 4 = Some (RAct (Ok [10%Z])) /\
  nth_error (mh_results 1 [HCall (MEval [2]); HCall (MDeriv [2]); HHess [1]; HApply [1] [1]]%Z) 3 = Some (RAct (Ok [8%Z])) /\
  mh_results 1 [HHess [1]; HApply [1] [1]]%Z = [RMade (Ok tt); RAct (Err EType)] /\
  nth_error (mh_results 2 [HCall (MEval [1]); HCall (MDeriv [1]); HCall (MEval [2]); HHess [1]; HApply [1] [1]]%Z) 4 = Some (RAct (Ok [10%Z])).
Proof. vm_conj. Qed.
Print Assumptions C61_refuted.

(** The hypotheses of the theorems over the reals: [x = 3; y = 5; J = x*x + x*y - y], scale 2; Hessian [[4, 2], [2, 0]]. *)
Definition hr_prog : list (stmt R) :=
  [SNew 3%R; SNew 5%R; SControl 0; SControl 1; SOp KMul [0; 0]; SOp KMul [0; 1]; SOp KAdd [2; 3]; SOp KSub [4; 1]].
Definition hr_blocks : list (block R) := [Blk KMul [0; 0] [2] None; Blk KMul [0; 1] [3] None; Blk KAdd [2; 3] [4] None; Blk KSub [4; 1] [5] None].
Definition hr_w := fst (recorded RO true hr_prog 5).
Definition hr_Y := fun x => spec_rerun RO true hr_prog x 5.
Definition hr_k : ctl R R := Ctl (CT 1 (fun v => Ok [v]) (fun a => match a with [v] => Ok v | _ => Err EIndex end) (fun v => Ok v)) (fun _ => True) (fun v => [v]).
Ltac rcompute := lazy -[Rplus Rmult Rminus Ropp exp ln IZR Rle_dec Rlt_dec Req_EM_T Rdiv Rinv Rpower powerRZ Int_part].
Lemma hr_value : forall a b : R, hr_Y [a; b] = Ok (a * a + a * b - b)%R.
Proof. intros a b. rcompute. reflexivity. Qed.
Lemma hr_gradient : forall a b : R, gradient_at hr_Y 2 [a; b] [(2 * a + b) * 2; (a - 1) * 2]%R.
Proof.
  intros a b. split; [reflexivity|]. intros [|u [|v [|? ?]]] Hd; try discriminate Hd.
  exists (fun t => ((a + t * u) * (a + t * u) + (a + t * u) * (b + t * v) - (b + t * v)) * 2)%R. split.
  - apply filter_forall. intros t. unfold objective, moved. cbn [combine map fst snd]. rewrite hr_value. reflexivity.
  - unfold dotR. cbn [combine map fst snd fold_right]. auto_derive; [exact I|]. ring.
Qed.
Lemma hr_hessian : forall a b u v : R, hessian_at hr_Y 2 [a; b] [u; v] [(2 * u + v) * 2; u * 2]%R.
Proof.
  intros a b u v. split; [reflexivity|]. split; [reflexivity|].
  exists (fun t => [(2 * (a + t * u) + (b + t * v)) * 2; ((a + t * u) - 1) * 2]%R). split.
  - apply filter_forall. intros t. unfold moved. cbn [combine map fst snd]. apply hr_gradient.
  - intros [|[|i]]; cbn [nth].
    + auto_derive; [exact I|]. ring.
    + auto_derive; [exact I|]. ring.
    + destruct i; exact (@is_derive_const R_AbsRing R_NormedModule 0%R 0%R).
Qed.
Example C61_exact_demo :
  t_flat (w_tape hr_w) = hr_blocks /\ w_ctrls hr_w = [0; 1] /\ snd (recorded RO true hr_prog 5) = 5 /\ independent hr_blocks [0; 1] /\ on_tape hr_blocks [0; 1] /\
  (forall e, twice_smooth hr_blocks [0; 1] e /\ adjoints_right hr_blocks [0; 1] e /\ adjoints_run hr_blocks [0; 1] e /\ tangents_right hr_blocks [0; 1] e) /\
  (forall x d, length x = 2 -> length d = 2 -> is_ok (hes_at RO (w_tape hr_w) (RF 5 [0; 1] 2%R) (w_heap hr_w) x d) = true) /\ second_order_sound hr_blocks [0; 1] 5 /\
  answers (fun x y => length x = 2 /\ objective hr_Y 2 x = Ok y) (gradient_at hr_Y 2) (hessian_at hr_Y 2) None None
    [HHess [1; 4]; HCall (MDeriv [1; 4]); HApply [1; 4] [1; 0]]%R [RMade (Ok tt); RGrad (Ok [(2 * 1 + 4) * 2; (1 - 1) * 2]); RAct (Ok [(2 * 1 + 0) * 2; 1 * 2])]%R /\
  SpecMinimise.plays [hr_k; hr_k] (objective hr_Y 2) (gradient_at hr_Y 2) (hessian_at hr_Y 2) true true None
    (AJ [3; 5]%R (fun v => match v with Err e => ARaise e | Ok _ => AH [3; 5]%R [1; 0]%R (fun h => match h with Err e => ARaise e | Ok h => ARet h end) end)) (Ok [(2 * 1 + 0) * 2; 1 * 2]%R) /\
  tplays [hr_k; hr_k] Rplus Rmult 0%R (objective hr_Y 2) (gradient_at hr_Y 2) (hessian_at hr_Y 2) [fun v => v; fun v => v] None 0%R false
    (THess [3; 5]%R (fun _ => TMult [1; 0]%R [0; 0]%R (fun h => match h with Err e => TRaise e | Ok h => TDone h true end)))
    (Ok ([(2 * 1 + 0) * 2 + 0 * 1; 1 * 2 + 0 * 0]%R, true)) /\
  SpecRol.plays Rplus Rmult Rmult (fun _ : R => 1) (fun f x => f x) (fun f x y => f x y) (fun f x r => f x r) 0%R Rplus sqrt
    (objective hr_Y 2) (gradient_at hr_Y 2) (hessian_at hr_Y 2) [[3; 5]%R] RStart None
    (Ask (VUpdate Initial 0) (fun _ => Ask (VClone 0) (fun _ => Ask (VGradient 1) (fun _ => Ask (VHessVec 1 0) (fun _ => Ask (VPlus 0 1) (fun _ => Stop))))))
    (Ok [3 + (2 * 3 + 5) * 2; 5 + 3 * 2]%R).
Proof.
  assert (Eb : t_flat (w_tape hr_w) = hr_blocks) by (rcompute; reflexivity). split; [exact Eb|]. split; [rcompute; reflexivity|]. split; [rcompute; reflexivity|].
  assert (Ht : topo hr_blocks) by (cbn; intuition lia).
  split; [apply independent_check; [exact Ht | reflexivity]|]. split; [apply on_tape_check; reflexivity|]. split.
  { intros e. split; [split|split; [|split]].
    - intros b d Hb _ _ _; destruct Hb as [<-|[<-|[<-|[<-|[]]]]]; exact I.
    - intros b d0 d1 Hb _ Hk. destruct Hb as [<-|[<-|[<-|[<-|[]]]]]; discriminate Hk.
    - intros b d Hb _ _ _; destruct Hb as [<-|[<-|[<-|[<-|[]]]]]; exact I.
    - intros b d Hb _ _ _; destruct Hb as [<-|[<-|[<-|[<-|[]]]]]; exact I.
    - intros b d Hb _ _ _; destruct Hb as [<-|[<-|[<-|[<-|[]]]]]; exact I. }
  split.
  { intros [|a [|b [|? ?]]] [|u [|v [|? ?]]] Hx Hd; try discriminate Hx; try discriminate Hd. clear. rcompute. reflexivity. }
  split; [apply second_order_check; [exact Ht | reflexivity]|]. clear Eb Ht.
  assert (P : forall a b, packed [hr_k; hr_k] [a; b] [a; b]) by (intros a b; exact (packed_cons hr_k [hr_k] a [b] [b] I (packed_cons hr_k [] b [] [] I packed_nil))).
  assert (Ej : forall a b, objective hr_Y 2 [a; b] = Ok ((a * a + a * b - b) * 2)%R) by (intros a b; unfold objective; now rewrite hr_value).
  split; [|split; [|split]].
  - apply (an_hessian _ _ _ _ _ _ _ _ _ _ ((1 * 1 + 1 * 4 - 4) * 2)%R); [split; [reflexivity|apply Ej]|].
    apply an_gradient; [apply hr_gradient|]. apply an_apply; [apply hr_hessian|]. apply an_nil.
  - apply (SpecMinimise.pl_value _ _ _ _ _ _ _ [3; 5]%R [3; 5]%R); [apply P|]. rewrite Ej.
    apply (SpecMinimise.pl_hessian _ _ _ _ _ _ [3; 5]%R [3; 5]%R [1; 0]%R [1; 0]%R [(2 * 3 + 5) * 2; (3 - 1) * 2]%R [(2 * 1 + 0) * 2; 1 * 2]%R [(2 * 1 + 0) * 2; 1 * 2]%R);
      [reflexivity | apply P | apply P | apply hr_gradient | eexists; apply P | apply hr_hessian | apply P |]. apply pl_ret. reflexivity.
  - apply (tp_hess _ _ _ _ _ _ _ _ _ _ _ _ [3; 5]%R); [apply P|].
    apply (tp_mult _ _ _ _ _ _ _ _ _ _ [3; 5]%R _ _ [1; 0]%R ((3 * 3 + 3 * 5 - 5) * 2)%R [(2 * 3 + 5) * 2; (3 - 1) * 2]%R [(2 * 3 + 5) * 2; (3 - 1) * 2]%R [(2 * 1 + 0) * 2; 1 * 2]%R [(2 * 1 + 0) * 2; 1 * 2]%R);
      [apply P | reflexivity | apply Ej | apply hr_gradient | apply P | apply hr_hessian | apply P |]. cbn [combine map fst snd]. apply tp_done. reflexivity.
  - eapply (SpecRol.pl_update _ _ _ _ _ _ _ _ _ _ _ _ _ [[3; 5]%R] RStart None Initial 0 [3; 5]%R (RReady [3; 5]%R)); [reflexivity | constructor | apply Ej | apply hr_gradient |].
    eapply pl_vector; [apply (do_clone _ _ _ _ _ _ _ _ _ _ _ 0 [3; 5]%R); reflexivity|].
    eapply (SpecRol.pl_gradient _ _ _ _ _ _ _ _ _ _ _ _ _ _ _ None 1 [3; 5]%R); [reflexivity | apply Nat.lt_succ_diag_r | apply hr_gradient |].
    eapply (SpecRol.pl_hessian _ _ _ _ _ _ _ _ _ _ _ _ _ _ _ 1 0 [3; 5]%R [3; 5]%R); [reflexivity | apply Nat.lt_succ_diag_r | reflexivity | apply hr_hessian |].
    eapply pl_vector; [apply (do_plus _ _ _ _ _ _ _ _ _ _ _ 0 1 [3; 5]%R [(2 * 3 + 5) * 2; 3 * 2]%R); reflexivity|].
    apply pl_stop. reflexivity.
Qed.
