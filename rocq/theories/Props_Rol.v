(** Property theorems about ROLVector and ROLSolver (C60). *)
From Coq Require Import List Arith ZArith Bool Lia Reals Lra.
From Coquelicot Require Import Coquelicot.
From Verif Require Import Base Model BaseFacts Graph Record Spec RecordFacts Replay ReplayExec History Session Sweep SpecGraph Marks Instances Coll
  Solvers SpecSolvers SolverFacts Dual TlmSweep RealInst Calculus Gradient SpecMinimise MinimiseFacts Rol SpecRol RolFacts.
Import ListNotations.
Open Scope nat_scope.

(** C60, the part that holds: the controls' type changes in place, copies are new objects, and all methods exist; any calls of functionals of the
    same controls came before; ROL is any algorithm that keeps the update protocol of C37 and asks for Hessian actions where it last
    asked for a gradient.  Then solve() returns what the algorithm computes with plain lists of values, answered by [scale * J] of the
    re-run program.  Missing: types like AdjFloat, other orders of updates and Hessian actions (refuted below and in C37), constraints. *)
Theorem C60_solve_partial : forall (V S : Type) (F : fops V) (add : V -> V -> V) (mul : S -> V -> V) (dot : V -> V -> S) (dim : V -> nat)
  (unary : (S -> S) -> V -> V) (binary : (S -> S -> S) -> V -> V -> V) (reduce : (S -> S -> S) -> V -> S -> S) (asg : bool)
  (zero : S) (plus : S -> S -> S) (root : S -> S) (ann : bool) (p : list (stmt V)) (j : nat) (l : list (api V)) (s : V)
  (A : Type) (e : enlist A) (a : algo V S) (r : res (list V)),
  consistent p -> disciplined ann p = true -> j < length (w_objs (exec F (world_new F ann) p)) ->
  let w := fst (recorded F ann p j) in
  let bs := t_flat (w_tape w) in
  let J := snd (recorded F ann p j) in
  let rf := RF J (w_ctrls w) s in
  let h0 := run_hist F bs (w_heap w) l in
  closed (w_ctrls w) bs -> on_tape bs (w_ctrls w) -> In J (vars_of bs) -> NoDup (w_ctrls w) -> w_ctrls w <> [] -> calls_controls w l ->
  (forall v, bv_mark (h0 v) = false) ->
  plays add mul dot dim unary binary reduce zero plus root (fun x => rmap (fun y => f_mul F y s) (spec_rerun F ann p x j))
    (fun x d => der_at F (w_tape w) rf h0 x = Ok d) (fun x v h => hes_at F (w_tape w) rf h0 x v = Ok h) [map (saved h0) (w_ctrls w)] RStart None a r ->
  snd (rol_solve F (OT add mul true true (Some dot) (Some dim) (Some unary) (Some binary) (Some reduce) asg) (Sc zero plus root) (w_tape w) rf e a h0)
    = returned (el_listed e) r.
Proof. exact @solve_recorded. Qed.
Print Assumptions C60_solve_partial.

(** Over the reals the gradients are those of the function [scale * J] (conditions on the points as in C51_exact_partial). *)
Theorem C60_exact_partial : forall (S : Type) (add : R -> R -> R) (mul : S -> R -> R) (dot : R -> R -> S) (dim : R -> nat)
  (unary : (S -> S) -> R -> R) (binary : (S -> S -> S) -> R -> R -> R) (reduce : (S -> S -> S) -> R -> S -> S) (asg : bool)
  (zero : S) (plus : S -> S -> S) (root : S -> S) (ann : bool) (p : list (stmt R)) (j : nat) (l : list (api R)) (s : R)
  (A : Type) (e : enlist A) (a : algo R S) (r : res (list R)),
  consistent p -> disciplined ann p = true -> j < length (w_objs (exec RO (world_new RO ann) p)) ->
  let w := fst (recorded RO ann p j) in
  let bs := t_flat (w_tape w) in
  let J := snd (recorded RO ann p j) in
  let rf := RF J (w_ctrls w) s in
  let h0 := run_hist RO bs (w_heap w) l in
  closed (w_ctrls w) bs -> on_tape bs (w_ctrls w) -> In J (vars_of bs) -> NoDup (w_ctrls w) -> w_ctrls w <> [] -> independent bs (w_ctrls w) ->
  calls_controls w l -> (forall v, bv_mark (h0 v) = false) ->
  (forall x, length x = length (w_ctrls w) -> is_ok (spec_rerun RO ann p x j) = true ->
     let e := saved (fst (rf_call RO bs rf x h0)) in smooth_at bs (w_ctrls w) e /\ adjoints_right bs (w_ctrls w) e /\ adjoints_run bs (w_ctrls w) e) ->
  plays add mul dot dim unary binary reduce zero plus root (objective (fun x => spec_rerun RO ann p x j) s)
    (gradient_at (fun x => spec_rerun RO ann p x j) s) (fun x v h => hes_at RO (w_tape w) rf h0 x v = Ok h) [map (saved h0) (w_ctrls w)] RStart None a r ->
  snd (rol_solve RO (OT add mul true true (Some dot) (Some dim) (Some unary) (Some binary) (Some reduce) asg) (Sc zero plus root) (w_tape w) rf e a h0)
    = returned (el_listed e) r.
Proof. exact solve_exact. Qed.
Print Assumptions C60_exact_partial.

(** The vectors of bounds: new objects with the numbers filled in or the values given; no other object changes. *)
Theorem C60_bounds : forall (V S : Type) (F : fops V) (add : V -> V -> V) (mul : S -> V -> V) (dot : V -> V -> S) (dim : V -> nat)
  (unary : (S -> S) -> V -> V) (binary : (S -> S -> S) -> V -> V -> V) (reduce : (S -> S -> S) -> V -> S -> S)
  (zero : S) (plus : S -> S -> S) (root : S -> S) (m : list V) (x : list nat) (bs : list (bnd V S * bnd V S)),
  (forall o, In o x -> o < length m) -> length bs = length x ->
  exists m' lo up,
    rol_bounds F (OT add mul true true (Some dot) (Some dim) (Some unary) (Some binary) (Some reduce) true) (Sc zero plus root) m x bs = Ok (m', lo, up) /\
    values F m' lo = zip (bound_value mul unary zero) (map fst bs) (values F m x) /\
    values F m' up = zip (bound_value mul unary zero) (map snd bs) (values F m x) /\
    (forall o, o < length m -> get F m' o = get F m o) /\ NoDup (lo ++ up) /\ (forall o, In o (lo ++ up) -> length m <= o).
Proof. exact @bounds_spec. Qed.
Print Assumptions C60_bounds.

(** [x = 3; J = x*x*x], scale 2; controls whose type changes in place, and AdjFloat. *)
Definition ro_prog {V} (three : V) : list (stmt V) := [SNew three; SControl 0; SOp KMul [0; 0]; SOp KMul [1; 0]].
Definition ro_w := fst (recorded ZF true (ro_prog 3%Z) 2).
Definition ro_J := snd (recorded ZF true (ro_prog 3%Z) 2).
Definition ro_rf : rfun Z := RF ro_J [0] 2%Z.
Definition cell : otype Z Z := OT Z.add Z.mul true true (Some Z.mul) (Some (fun _ => 1)) (Some (fun f x => f x)) (Some (fun f x y => f x y)) (Some (fun f x r => f x r)) true.
Definition adjfloat_type : otype Z Z := OT Z.add Z.mul false false None None None None None false.
Definition ints : scalars Z := Sc 0%Z Z.add (fun x => x).
Definition ro_solve T a := rol_solve ZF T ints (w_tape ro_w) ro_rf (EL [0] false) a (w_heap ro_w).
Definition ro_val := val_at ZF (w_tape ro_w) ro_rf (w_heap ro_w).
Definition ro_der := der_at ZF (w_tape ro_w) ro_rf (w_heap ro_w).
Definition ro_hes := hes_at ZF (w_tape ro_w) ro_rf (w_heap ro_w).
(** [x := x - J'(x)], the trial point accepted if its value is less than [below]; an iteration of Newton's direction is added if asked for. *)
Definition descend (below : Z) (newton : bool) : algo Z Z :=
  Ask (VUpdate Initial 0) (fun _ => Ask (VClone 0) (fun g => match g with
  | AVec g => Ask (VClone 0) (fun y => match y with
    | AVec y => Ask (VGradient g) (fun _ => Ask (VScale (-1)%Z g) (fun _ => Ask (VPlus y 0) (fun _ => Ask (VPlus y g) (fun _ =>
        Ask (VUpdate Trial y) (fun _ => Ask VValue (fun v => match v with
        | AVal (Some v) =>
            if (v <? below)%Z
            then Ask (VUpdate Accept y) (fun _ => Ask (VScale 0%Z 0) (fun _ => Ask (VPlus 0 y) (fun _ => Stop)))
            else Ask (VUpdate Revert 0) (fun _ => if newton then Ask (VHessVec y 0) (fun _ => Ask (VPlus 0 y) (fun _ => Stop)) else Stop)
        | _ => Stop end))))))
    | _ => Stop end)
  | _ => Stop end)).

Notation ro_plays := (plays Z.add Z.mul Z.mul (fun _ : Z => 1) (fun f x => f x) (fun f x y => f x y) (fun f x r => f x r) 0%Z Z.add (fun x => x)
  (fun x => rmap (fun y => (y * 2)%Z) (spec_rerun ZF true (ro_prog 3%Z) x 2)) (fun x d => ro_der x = Ok d) (fun x v h => ro_hes x v = Ok h)).
(** The hypotheses of C60_solve_partial hold: gradient 2*27, trial point -51 with value 2*(-51)^3; rejected, Hessian action 36 on 3 at 3. *)
Example C60_demo :
  w_ctrls ro_w = [0] /\ map (saved (w_heap ro_w)) [0] = [3%Z] /\
  ro_plays [[3%Z]] RStart None (descend 0 true) (Ok [(-51)%Z]) /\ snd (ro_solve cell (descend 0 true)) = Ok (POne (-51)%Z) /\
  ro_plays [[3%Z]] RStart None (descend (-999999) true) (Ok [111%Z]) /\ snd (ro_solve cell (descend (-999999) true)) = Ok (POne 111%Z) /\
  rol_bounds ZF cell ints [3%Z; 8%Z] [1; 0] [(BNum 0%Z, BObj 9%Z); (BObj 1%Z, BNum 5%Z)] = Ok ([3; 8; 0; 1; 9; 5]%Z, [2; 3], [4; 5]).
Proof.
  assert (E1 : spec_rerun ZF true (ro_prog 3%Z) [3%Z] 2 = Ok 27%Z) by (vm_compute; reflexivity).
  assert (E2 : spec_rerun ZF true (ro_prog 3%Z) [(-51)%Z] 2 = Ok (-132651)%Z) by (vm_compute; reflexivity).
  assert (D1 : ro_der [3%Z] = Ok [54%Z]) by (vm_compute; reflexivity).
  assert (D2 : ro_der [(-51)%Z] = Ok [15606%Z]) by (vm_compute; reflexivity).
  assert (H1 : ro_hes [3%Z] [3%Z] = Ok [108%Z]) by (vm_compute; reflexivity).
  split; [vm_compute; reflexivity|]. split; [vm_compute; reflexivity|]. split.
  { eapply (pl_update _ _ _ _ _ _ _ _ _ _ _ _ _ [[3%Z]] RStart None Initial 0 [3%Z] (RReady [3%Z]) 54%Z [54%Z]); [reflexivity | constructor | now rewrite E1 | exact D1 |].
    eapply pl_vector; [apply (do_clone _ _ _ _ _ _ _ _ _ _ _ 0 [3%Z]); reflexivity|]. eapply pl_vector; [apply (do_clone _ _ _ _ _ _ _ _ _ _ _ 0 [3%Z]); reflexivity|].
    cbn. eapply (pl_gradient _ _ _ _ _ _ _ _ _ _ _ _ _ _ _ None 1 [3%Z] [54%Z]); [reflexivity | cbn; lia | exact D1 |].
    eapply pl_vector; [apply (do_scale _ _ _ _ _ _ _ _ _ _ _ (-1)%Z 1 [54%Z]); reflexivity|].
    eapply pl_vector; [apply (do_plus _ _ _ _ _ _ _ _ _ _ _ 2 0 [0%Z] [3%Z]); reflexivity|].
    eapply pl_vector; [apply (do_plus _ _ _ _ _ _ _ _ _ _ _ 2 1 [3%Z] [(-54)%Z]); reflexivity|].
    eapply (pl_update _ _ _ _ _ _ _ _ _ _ _ _ _ _ _ _ Trial 2 [(-51)%Z] (RTrial [3%Z] [(-51)%Z]) (-265302)%Z [15606%Z]); [reflexivity | constructor; auto | now rewrite E2 | exact D2 |].
    eapply (pl_value _ _ _ _ _ _ _ _ _ _ _ _ _ _ _ _ [(-51)%Z] (-265302)%Z); [reflexivity | now rewrite E2 |]. cbn [Z.ltb Z.compare].
    eapply (pl_update _ _ _ _ _ _ _ _ _ _ _ _ _ _ _ _ Accept 2 [(-51)%Z] (RReady [(-51)%Z]) (-265302)%Z [15606%Z]); [reflexivity | constructor | now rewrite E2 | exact D2 |].
    eapply pl_vector; [apply (do_scale _ _ _ _ _ _ _ _ _ _ _ 0%Z 0 [3%Z]); reflexivity|].
    eapply pl_vector; [apply (do_plus _ _ _ _ _ _ _ _ _ _ _ 0 2 [0%Z] [(-51)%Z]); reflexivity|].
    apply pl_stop. reflexivity. }
  split; [vm_compute; reflexivity|]. split; [|vm_conj].
  eapply (pl_update _ _ _ _ _ _ _ _ _ _ _ _ _ [[3%Z]] RStart None Initial 0 [3%Z] (RReady [3%Z]) 54%Z [54%Z]); [reflexivity | constructor | now rewrite E1 | exact D1 |].
  eapply pl_vector; [apply (do_clone _ _ _ _ _ _ _ _ _ _ _ 0 [3%Z]); reflexivity|]. eapply pl_vector; [apply (do_clone _ _ _ _ _ _ _ _ _ _ _ 0 [3%Z]); reflexivity|].
  cbn. eapply (pl_gradient _ _ _ _ _ _ _ _ _ _ _ _ _ _ _ None 1 [3%Z] [54%Z]); [reflexivity | cbn; lia | exact D1 |].
  eapply pl_vector; [apply (do_scale _ _ _ _ _ _ _ _ _ _ _ (-1)%Z 1 [54%Z]); reflexivity|].
  eapply pl_vector; [apply (do_plus _ _ _ _ _ _ _ _ _ _ _ 2 0 [0%Z] [3%Z]); reflexivity|].
  eapply pl_vector; [apply (do_plus _ _ _ _ _ _ _ _ _ _ _ 2 1 [3%Z] [(-54)%Z]); reflexivity|].
  eapply (pl_update _ _ _ _ _ _ _ _ _ _ _ _ _ _ _ _ Trial 2 [(-51)%Z] (RTrial [3%Z] [(-51)%Z]) (-265302)%Z [15606%Z]); [reflexivity | constructor; auto | now rewrite E2 | exact D2 |].
  eapply (pl_value _ _ _ _ _ _ _ _ _ _ _ _ _ _ _ _ [(-51)%Z] (-265302)%Z); [reflexivity | now rewrite E2 |]. cbn [Z.ltb Z.compare].
  eapply (pl_update _ _ _ _ _ _ _ _ _ _ _ _ _ _ _ _ Revert 0 [3%Z] (RReady [3%Z]) 54%Z [54%Z]); [reflexivity | constructor; eauto | now rewrite E1 | exact D1 |].
  eapply (pl_hessian _ _ _ _ _ _ _ _ _ _ _ _ _ _ _ 2 0 [3%Z] [3%Z] [108%Z]); [reflexivity | cbn; lia | reflexivity | exact H1 |].
  eapply pl_vector; [apply (do_plus _ _ _ _ _ _ _ _ _ _ _ 0 2 [3%Z] [108%Z]); reflexivity|].
  apply pl_stop. reflexivity.
Qed.

(** ... of C60_exact_partial: gradient 54 of [2 x^3] at 3, for any algorithm that goes on with it. *)
Definition rr_blocks : list (block R) := [Blk KMul [0; 0] [1] None; Blk KMul [1; 0] [2] None].
Ltac rcompute := lazy -[Rplus Rmult Rminus Ropp exp ln IZR Rle_dec Rlt_dec Req_EM_T Rdiv Rinv Rpower powerRZ Int_part].
Example C60_exact_demo :
  t_flat (w_tape (fst (recorded RO true (ro_prog 3%R) 2))) = rr_blocks /\ w_ctrls (fst (recorded RO true (ro_prog 3%R) 2)) = [0] /\
  independent rr_blocks [0] /\ on_tape rr_blocks [0] /\
  (forall e, smooth_at rr_blocks [0] e /\ adjoints_right rr_blocks [0] e /\ adjoints_run rr_blocks [0] e) /\
  forall c : R,
  plays Rplus Rmult Rmult (fun _ : R => 1) (fun f x => f x) (fun f x y => f x y) (fun f x r => f x r) 0%R Rplus sqrt
    (objective (fun x => spec_rerun RO true (ro_prog 3%R) x 2) 2) (gradient_at (fun x => spec_rerun RO true (ro_prog 3%R) x 2) 2)
    (fun _ _ _ => False) [[3%R]] RStart None
    (Ask (VUpdate Initial 0) (fun _ => Ask (VClone 0) (fun _ => Ask (VGradient 1) (fun _ => Ask (VScale c 1) (fun _ => Ask (VPlus 0 1) (fun _ => Stop))))))
    (Ok [(3 + c * 54)%R]).
Proof.
  assert (Er : forall x, spec_rerun RO true (ro_prog 3%R) [x] 2 = Ok (x * x * x)%R) by (intros x; rcompute; reflexivity).
  split; [rcompute; reflexivity|]. split; [rcompute; reflexivity|]. clear - Er.
  assert (Ht : topo rr_blocks).
  { destruct (recorded_clean RO true (ro_prog 3%R) 2) as [[Ht _] _]; [repeat constructor | reflexivity | rcompute; repeat constructor |].
    replace rr_blocks with (t_flat (w_tape (fst (recorded RO true (ro_prog 3%R) 2)))); [exact Ht|]. clear. rcompute. reflexivity. }
  split; [apply independent_check; [exact Ht | reflexivity]|]. split; [apply on_tape_check; reflexivity|]. split.
  { intros e. split; [|split]; intros b d Hb _ _ _; destruct Hb as [<-|[<-|[]]]; exact I. }
  intros c.
  assert (G : gradient_at (fun x => spec_rerun RO true (ro_prog 3%R) x 2) 2 [3%R] [54%R]).
  { split; [reflexivity|]. intros [|d [|? ?]] Hd; try discriminate Hd.
    exists (fun t => (3 + t * d) * (3 + t * d) * (3 + t * d) * 2)%R. split.
    + apply filter_forall. intros t. unfold objective, moved. cbn [combine map fst snd]. rewrite Er. reflexivity.
    + unfold dotR. cbn [combine map fst snd fold_right]. auto_derive; [exact I|]. ring. }
  eapply (pl_update _ _ _ _ _ _ _ _ _ _ _ _ _ [[3%R]] RStart None Initial 0 [3%R] (RReady [3%R]) (3 * 3 * 3 * 2)%R [54%R]);
    [reflexivity | constructor | unfold objective; now rewrite Er | exact G |].
  eapply pl_vector; [apply (do_clone _ _ _ _ _ _ _ _ _ _ _ 0 [3%R]); reflexivity|].
  eapply (pl_gradient _ _ _ _ _ _ _ _ _ _ _ _ _ _ _ None 1 [3%R] [54%R]); [reflexivity | apply Nat.lt_succ_diag_r | exact G |].
  eapply pl_vector; [apply (do_scale _ _ _ _ _ _ _ _ _ _ _ c 1 [54%R]); reflexivity|].
  eapply pl_vector; [apply (do_plus _ _ _ _ _ _ _ _ _ _ _ 0 1 [3%R] [(c * 54)%R]); reflexivity|].
  apply pl_stop. reflexivity.
Qed.

(** The full statement is false.
    (1) AdjFloat controls: no operation changes a number in place, so the same algorithm returns the start instead of -51;
        clones are the vector itself, not zero; the first norm or inner product raises
        TypeError, dimension NotImplementedError, and the methods bound constraints need do not exist.
    (2) The start vector is made of the tape's own objects: operations on it before the first evaluation change the values the tape
        stores for the controls (and later ones change the object the user got from the control), the rest of the tape staying. *)
Theorem C60_refuted :
  (snd (ro_solve cell (descend 60 false)) = Ok (POne (-51)%Z) /\ snd (ro_solve adjfloat_type (descend 60 false)) = Ok (POne 3%Z) /\
   values ZF (so_objs (fst (ro_solve adjfloat_type (Ask (VClone 0) (fun _ => Stop))))) (nth 1 (so_vecs (fst (ro_solve adjfloat_type (Ask (VClone 0) (fun _ => Stop))))) []) = [3%Z] /\
   snd (ro_solve adjfloat_type (Ask (VNorm 0) (fun _ => Stop))) = Err EType /\
   snd (ro_solve adjfloat_type (Ask (VDim 0) (fun _ => Stop))) = Err ENotImpl /\
   rol_bounds ZF adjfloat_type ints [3%Z] [0] [(BNum 0%Z, BNum 1%Z)] = Err EAttr) /\
  (saved (w_heap ro_w) 0 = 3%Z /\ saved (w_heap ro_w) ro_J = 27%Z /\
   (let s := fst (ro_solve cell (Ask (VScale 2%Z 0) (fun _ => Stop))) in
    saved (ro_h (so_rol s)) 0 = 6%Z /\ saved (ro_h (so_rol s)) ro_J = 27%Z) /\
   get ZF (so_objs (rol_start ro_rf (w_heap ro_w))) 0 = 3%Z /\ get ZF (so_objs (fst (ro_solve cell (descend 0 false)))) 0 = (-51)%Z).
Proof. vm_conj. Qed.
Print Assumptions C60_refuted.
(** (3) A Hessian action at a point accepted after the last gradient is not that of the point: it uses the adjoint values of the old one. *)
Definition stale : algo Z Z :=
  Ask (VUpdate Initial 0) (fun _ => Ask (VClone 0) (fun _ => Ask (VGradient 1) (fun _ => Ask (VScale 0%Z 1) (fun _ => Ask (VPlus 1 0) (fun _ => Ask (VPlus 1 0) (fun _ =>
  Ask (VUpdate Trial 1) (fun _ => Ask (VUpdate Accept 1) (fun _ => Ask (VHessVec 0 0) (fun _ => Stop))))))))).
Theorem C60_hessian_refuted :
  ro_hes [6%Z] [3%Z] = Ok [216%Z] /\ exists r, snd (ro_solve cell stale) = Ok (POne r) /\ r <> 216%Z.
Proof. split; [vm_compute; reflexivity|]. exists 180%Z. split; [vm_compute; reflexivity | discriminate]. Qed.
Print Assumptions C60_hessian_refuted.
