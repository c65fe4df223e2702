(** Property theorems about constraints handed to ROL (C62). *)
From Coq Require Import List Arith ZArith Bool Lia Reals Lra.
From Coquelicot Require Import Coquelicot.
From Verif Require Import Base Model BaseFacts Graph Record Spec RecordFacts Replay ReplayExec History Session Sweep SpecGraph Marks Instances Coll
  Solvers SpecSolvers SolverFacts Dual TlmSweep RealInst Calculus Gradient RFullFacts SpecHess HessExact SpecMinimise MinimiseFacts Rol SpecRol RolFacts RolCon SpecRolCon RolConFacts Props_Rol.
Import ListNotations.
Open Scope nat_scope.

(** C62, the part that holds: as C60_solve_partial, for problems with any list of equality and inequality constraints, whose methods are any
    functions that may raise.  ROL asks for derivatives of constraints only with vectors of one control, of the right lengths, and writes a
    vector it does not read in the same call.  Missing: several controls, types like AdjFloat (refuted below). *)
Theorem C62_solve_partial : forall (V S : Type) (F : fops V) (add : V -> V -> V) (mul : S -> V -> V) (dot : V -> V -> S) (dim : V -> nat)
  (unary : (S -> S) -> V -> V) (binary : (S -> S -> S) -> V -> V -> V) (reduce : (S -> S -> S) -> V -> S -> S) (asg : bool)
  (zero : S) (plus : S -> S -> S) (root : S -> S) (riesz : V -> V) (all : list (rcon V)) (ann : bool) (p : list (stmt V)) (j : nat) (l : list (api V)) (s : V)
  (A : Type) (e : enlist A) (a : calgo V S) (r : res (list V)),
  consistent p -> disciplined ann p = true -> j < length (w_objs (exec F (world_new F ann) p)) ->
  let w := fst (recorded F ann p j) in
  let bs := t_flat (w_tape w) in
  let J := snd (recorded F ann p j) in
  let rf := RF J (w_ctrls w) s in
  let h0 := run_hist F bs (w_heap w) l in
  closed (w_ctrls w) bs -> on_tape bs (w_ctrls w) -> In J (vars_of bs) -> NoDup (w_ctrls w) -> w_ctrls w <> [] -> calls_controls w l ->
  (forall v, bv_mark (h0 v) = false) ->
  (forall c, In c all -> rc_over c = true) ->
  cplays add mul dot dim unary binary reduce zero plus root riesz all (length (w_ctrls w)) (fun x => rmap (fun y => f_mul F y s) (spec_rerun F ann p x j))
    (fun x d => der_at F (w_tape w) rf h0 x = Ok d) (fun x v h => hes_at F (w_tape w) rf h0 x v = Ok h)
    (first_vectors mul zero all (map (saved h0) (w_ctrls w))) RStart None a r ->
  con_solve F (OT add mul true true (Some dot) (Some dim) (Some unary) (Some binary) (Some reduce) asg) (Sc zero plus root) riesz (w_tape w) rf all e a h0
    = returned (el_listed e) r.
Proof. exact @con_solve_recorded. Qed.
Print Assumptions C62_solve_partial.

(** Over the reals, gradients and Hessian actions are those of the function [scale * J] (conditions on the points as in C60_hessian_partial). *)
Theorem C62_exact_partial : forall (S : Type) (add : R -> R -> R) (mul : S -> R -> R) (dot : R -> R -> S) (dim : R -> nat)
  (unary : (S -> S) -> R -> R) (binary : (S -> S -> S) -> R -> R -> R) (reduce : (S -> S -> S) -> R -> S -> S) (asg : bool)
  (zero : S) (plus : S -> S -> S) (root : S -> S) (riesz : R -> R) (all : list (rcon R)) (ann : bool) (p : list (stmt R)) (j : nat) (l : list (api R)) (s : R)
  (A : Type) (e : enlist A) (a : calgo R S) (r : res (list R)),
  consistent p -> disciplined ann p = true -> j < length (w_objs (exec RO (world_new RO ann) p)) ->
  let w := fst (recorded RO ann p j) in
  let bs := t_flat (w_tape w) in
  let J := snd (recorded RO ann p j) in
  let rf := RF J (w_ctrls w) s in
  let h0 := run_hist RO bs (w_heap w) l in
  closed (w_ctrls w) bs -> on_tape bs (w_ctrls w) -> In J (vars_of bs) -> NoDup (w_ctrls w) -> w_ctrls w <> [] -> independent bs (w_ctrls w) ->
  calls_controls w l -> (forall v, bv_mark (h0 v) = false) ->
  (forall x, length x = length (w_ctrls w) -> is_ok (spec_rerun RO ann p x j) = true ->
     let e := saved (fst (rf_call RO bs rf x h0)) in
     twice_smooth bs (w_ctrls w) e /\ adjoints_right bs (w_ctrls w) e /\ adjoints_run bs (w_ctrls w) e /\ tangents_right bs (w_ctrls w) e /\
     forall d, length d = length (w_ctrls w) -> is_ok (hes_at RO (w_tape w) rf h0 x d) = true) ->
  second_order_sound bs (w_ctrls w) J ->
  (forall c, In c all -> rc_over c = true) ->
  cplays add mul dot dim unary binary reduce zero plus root riesz all (length (w_ctrls w)) (objective (fun x => spec_rerun RO ann p x j) s)
    (gradient_at (fun x => spec_rerun RO ann p x j) s) (hessian_at (fun x => spec_rerun RO ann p x j) s)
    (first_vectors mul zero all (map (saved h0) (w_ctrls w))) RStart None a r ->
  con_solve RO (OT add mul true true (Some dot) (Some dim) (Some unary) (Some binary) (Some reduce) asg) (Sc zero plus root) riesz (w_tape w) rf all e a h0
    = returned (el_listed e) r.
Proof. exact con_solve_exact. Qed.
Print Assumptions C62_exact_partial.

(** A constraint of either kind whose workspace is no overloaded value: TypeError, for any ROL, any control type. *)
Theorem C62_type_error : forall (V S : Type) (F : fops V) (T : otype V S) (C : scalars S) (riesz : V -> V) (t : tape V) (rf : rfun V) (all : list (rcon V))
  (A : Type) (e : enlist A) (a : calgo V S) (h : heap V) (c : rcon V),
  In c all -> rc_class c <> ROther -> rc_over c = false -> con_solve F T C riesz t rf all e a h = Err EType.
Proof. exact @csolve_refuses. Qed.
Print Assumptions C62_type_error.

(** A constraint of neither kind has no effect at all: ROL gets the same problem without it. *)
Theorem C62_others_dropped : forall (V S : Type) (F : fops V) (T : otype V S) (C : scalars S) (riesz : V -> V) (t : tape V) (rf : rfun V) (all : list (rcon V))
  (A : Type) (e : enlist A) (a : calgo V S) (h : heap V),
  con_solve F T C riesz t rf all e a h = con_solve F T C riesz t rf (filter (fun c => match rc_class c with ROther => false | _ => true end) all) e a h.
Proof. exact @con_solve_others. Qed.
Print Assumptions C62_others_dropped.

(** Example: 2 x^3 at 3 with equality constraints [x - 5 = 0] and [x^2 = 0] and inequality constraint [100 - x >= 0]; the map of the
    derivatives multiplies by 10. *)
Definition lin_con (k : rclass) (b : Z) : rcon Z := RC k (fun m => Ok (nth 0 m 0 - b)%Z) (fun _ d => Ok d) (fun _ p => Ok p) (fun _ _ _ => Ok 0%Z) 0%Z true.
Definition sq_con : rcon Z := RC REq (fun m => Ok (nth 0 m 0 * nth 0 m 0)%Z) (fun m d => Ok (2 * nth 0 m 0 * d)%Z) (fun m p => Ok (2 * nth 0 m 0 * p)%Z)
  (fun m d p => Ok (2 * d * p)%Z) 0%Z true.
Definition top_con : rcon Z := RC RIneq (fun m => if (100 <? nth 0 m 0)%Z then Err EValue else Ok (100 - nth 0 m 0)%Z) (fun _ d => Ok (-d)%Z) (fun _ p => Ok (-p)%Z)
  (fun _ _ _ => Ok 0%Z) 0%Z true.
Definition rc_all : list (rcon Z) := [lin_con REq 5; top_con; lin_con ROther 9; sq_con].
Definition rc_solve (T : otype Z Z) (a : calgo Z Z) := con_solve ZF T ints (Z.mul 10) (w_tape ro_w) ro_rf rc_all (EL [0] false) a (w_heap ro_w).
Definition v_ {V S} o (k : calgo V S) : calgo V S := CAsk (RVec o) (fun _ => k).
Definition c_ {V S} o (k : calgo V S) : calgo V S := CAsk (RCon o) (fun _ => k).
Definition con_run (last : calgo Z Z) : calgo Z Z :=
  v_ (VUpdate Initial 0) (c_ (CValue true 1 0) (v_ (VClone 1) (c_ (CJac true 4 0 0) (v_ (VPlus 1 4) (v_ (VClone 0) (v_ (VGradient 5) (c_ (CAdj true 5 1 0)
    (v_ (VPlus 0 5) (c_ (CHess true 5 0 1 0) last))))))))).
Notation rc_plays := (cplays Z.add Z.mul Z.mul (fun _ : Z => 1) (fun f x => f x) (fun f x y => f x y) (fun f x r => f x r) 0%Z Z.add (fun x => x) (Z.mul 10) rc_all 1
  (fun x => rmap (fun y => (y * 2)%Z) (spec_rerun ZF true (ro_prog 3%Z) x 2)) (fun x d => ro_der x = Ok d) (fun x v h => ro_hes x v = Ok h)).
(** The hypotheses hold: values (-2, 9), derivatives along 3 (3, 18), adjoint derivative 1 + 6*27, Hessian 2*1633*27; the inequality constraint raises. *)
Example C62_demo :
  first_vectors Z.mul 0%Z rc_all [3%Z] = [[3]; [0; 0]; [0]; [0]]%Z /\
  rc_plays (first_vectors Z.mul 0%Z rc_all [3%Z]) RStart None (con_run (v_ (VPlus 0 5) CStop)) (Ok [883453%Z]) /\ rc_solve cell (con_run (v_ (VPlus 0 5) CStop)) = Ok (POne 883453%Z) /\
  rc_plays (first_vectors Z.mul 0%Z rc_all [3%Z]) RStart None (con_run (c_ (CValue false 2 0) CStop)) (Err EValue) /\ rc_solve cell (con_run (c_ (CValue false 2 0) CStop)) = Err EValue.
Proof.
  assert (E1 : spec_rerun ZF true (ro_prog 3%Z) [3%Z] 2 = Ok 27%Z) by (vm_compute; reflexivity).
  assert (D1 : ro_der [3%Z] = Ok [54%Z]) by (vm_compute; reflexivity).
  assert (P : forall k r, rc_plays [[1633]; [1; 27]; [0]; [0]; [3; 18]; [881820]]%Z (RReady [3%Z]) (Some [3%Z]) k r -> rc_plays (first_vectors Z.mul 0%Z rc_all [3%Z]) RStart None (con_run k) r).
  { intros k r H. unfold con_run, v_, c_.
    eapply (cp_update _ _ _ _ _ _ _ _ _ _ _ _ _ _ _ _ _ RStart None Initial 0 [3%Z] (RReady [3%Z]) 54%Z [54%Z]); [reflexivity | reflexivity | constructor | now rewrite E1 | exact D1 |].
    eapply (cp_con _ _ _ _ _ _ _ _ _ _ _ _ _ _ _ _ _ _ _ _ [[3]; [-2; 9]; [0]; [0]]%Z); [exact (cd_value Z.add Z.mul 0%Z (Z.mul 10) rc_all [[3]; [0; 0]; [0]; [0]]%Z true 1 0 [3%Z] ltac:(cbn; lia) eq_refl)|].
    eapply cp_vector; [apply (do_clone _ _ _ _ _ _ _ _ _ _ _ 1 [-2; 9]%Z); reflexivity|].
    eapply (cp_con _ _ _ _ _ _ _ _ _ _ _ _ _ _ _ _ _ _ _ _ [[3]; [-2; 9]; [0]; [0]; [3; 18]]%Z); [exact (cd_jac Z.add Z.mul 0%Z (Z.mul 10) rc_all [[3]; [-2; 9]; [0]; [0]; [0; 0]]%Z true 4 0 0 [3%Z] 3%Z [0; 0]%Z eq_refl eq_refl eq_refl eq_refl ltac:(discriminate) ltac:(discriminate))|].
    eapply cp_vector; [apply (do_plus _ _ _ _ _ _ _ _ _ _ _ 1 4 [-2; 9]%Z [3; 18]%Z); reflexivity|].
    eapply cp_vector; [apply (do_clone _ _ _ _ _ _ _ _ _ _ _ 0 [3]%Z); reflexivity|].
    eapply (cp_gradient _ _ _ _ _ _ _ _ _ _ _ _ _ _ _ _ _ _ None 5 [3%Z] [54%Z]); [reflexivity | cbn; lia | exact D1 |].
    eapply (cp_con _ _ _ _ _ _ _ _ _ _ _ _ _ _ _ _ _ _ _ _ [[3]; [1; 27]; [0]; [0]; [3; 18]; [1630]]%Z); [exact (cd_adj Z.add Z.mul 0%Z (Z.mul 10) rc_all [[3]; [1; 27]; [0]; [0]; [3; 18]; [54]]%Z true 5 1 0 [3%Z] [1; 27]%Z 54%Z eq_refl eq_refl eq_refl eq_refl ltac:(discriminate) ltac:(discriminate))|].
    eapply cp_vector; [apply (do_plus _ _ _ _ _ _ _ _ _ _ _ 0 5 [3]%Z [1630]%Z); reflexivity|].
    eapply (cp_con _ _ _ _ _ _ _ _ _ _ _ _ _ _ _ _ _ _ _ _ [[1633]; [1; 27]; [0]; [0]; [3; 18]; [881820]]%Z); [exact (cd_hess Z.add Z.mul 0%Z (Z.mul 10) rc_all [[1633]; [1; 27]; [0]; [0]; [3; 18]; [1630]]%Z true 5 0 1 0 [1633]%Z 1633%Z [1; 27]%Z 1630%Z eq_refl eq_refl eq_refl eq_refl eq_refl ltac:(discriminate) ltac:(discriminate) ltac:(discriminate))|].
    exact H. }
  split; [reflexivity|]. split; [|split; [vm_compute; reflexivity|]; split; [|vm_compute; reflexivity]].
  - apply P. eapply cp_vector; [apply (do_plus _ _ _ _ _ _ _ _ _ _ _ 0 5 [1633]%Z [881820]%Z); reflexivity|]. apply cp_stop. reflexivity.
  - apply P. apply cp_con_raise. exact (cd_value Z.add Z.mul 0%Z (Z.mul 10) rc_all [[1633]; [1; 27]; [0]; [0]; [3; 18]; [881820]]%Z false 2 0 [1633%Z] ltac:(cbn; lia) eq_refl).
Qed.

(** The full statement is false.
    (1) Two controls: derivatives along (0, 1) and along (0, 0) are the same whatever the constraint's methods compute, so those of
        [y = 0] cannot be right; adjoint derivatives leave the second entry as it was.
    (2) AdjFloat: derivatives are not stored anywhere. *)
Definition rc2_prog : list (stmt Z) := [SNew 0%Z; SNew 1%Z; SControl 0; SControl 1; SOp KMul [0; 1]].
Definition rc2_w := fst (recorded ZF true rc2_prog 2).
Definition rc2 (jac adj : list Z -> Z -> res Z) : list (rcon Z) := [RC REq (fun m => Ok (nth 1 m 0%Z)) jac adj (fun _ _ _ => Ok 0%Z) 0%Z true].
Definition rc2_after jac adj (a : calgo Z Z) : solver Z * option exn :=
  let rf := RF (snd (recorded ZF true rc2_prog 2)) (w_ctrls rc2_w) 1%Z in
  cplay ZF cell ints (Z.mul 10) (w_tape rc2_w) rf (rc2 jac adj) a (con_start ZF cell ints (w_tape rc2_w) rf (rc2 jac adj) (w_heap rc2_w)).
Definition vectors (s : solver Z) : list (list Z) := map (values ZF (so_objs s)) (so_vecs s).
Definition rc_play T (a : calgo Z Z) := cplay ZF T ints (Z.mul 10) (w_tape ro_w) ro_rf rc_all a (con_start ZF T ints (w_tape ro_w) ro_rf rc_all (w_heap ro_w)).
Theorem C62_refuted :
  (forall jac adj, vectors (fst (rc2_after jac adj (v_ (VClone 0) CStop))) = [[0; 1]; [0]; []; [0; 0]]%Z /\
     let along i := rc2_after jac adj (v_ (VClone 0) (c_ (CJac true 1 i 0) CStop)) in
     snd (along 0) = snd (along 3) /\ vectors (fst (along 0)) = vectors (fst (along 3))) /\
  (forall jac adj y, (forall m p, adj m p = Ok y) ->
     vectors (fst (rc2_after jac adj (v_ (VClone 0) (v_ (VPlus 3 0) (v_ (VClone 1) (c_ (CAdj true 3 4 0) CStop)))))) = [[0; 1]; [0]; []; [10 * y; 10]; [0]]%Z) /\
  (vectors (fst (rc_play cell (c_ (CJac true 1 0 0) CStop))) = [[3]; [3; 18]; [0]; [0]]%Z /\
   vectors (fst (rc_play adjfloat_type (c_ (CJac true 1 0 0) CStop))) = [[3]; [0; 0]; [0]; [0]]%Z /\
   vectors (fst (rc_play cell (c_ (CValue true 1 0) (c_ (CAdj true 2 1 0) CStop)))) = [[3]; [-2; 9]; [520]; [0]]%Z /\
   vectors (fst (rc_play adjfloat_type (c_ (CValue true 1 0) (c_ (CAdj true 2 1 0) CStop)))) = [[3]; [-2; 9]; [0]; [0]]%Z).
Proof.
  split; [|split; [|vm_conj]].
  - intros jac adj. split; [vm_compute; reflexivity|]. cbv zeta. unfold rc2_after. cbv zeta.
    set (s0 := con_start _ _ _ _ _ _ _). set (rf := RF _ _ _). set (t := w_tape rc2_w).
    assert (E : exists s1, step ZF cell ints t rf s0 (VClone 0) = (s1, Ok (AVec 3)) /\ so_objs s1 = [0; 1; 0; 0; 0]%Z /\ so_vecs s1 = [[0; 1]; [2]; []; [3; 4]]).
    { exists (fst (step ZF cell ints t rf s0 (VClone 0))). split; [rewrite (surjective_pairing (step _ _ _ _ _ _ _)) at 1; f_equal; vm_compute; reflexivity|].
      split; vm_compute; reflexivity. }
    destruct E as ([o v r sh] & E & Eo & Ev). cbn in Eo, Ev. subst o v. unfold v_, c_. cbn [cplay cstep]. rewrite !E. clearbody s0 rf t. clear E.
    cbn. destruct (jac [0; 1]%Z 0%Z) as [y|e]; split; cbn; try reflexivity; unfold wrote; destruct sh; reflexivity.
  - intros jac adj y Ha. unfold rc2_after. cbv zeta. set (s0 := con_start _ _ _ _ _ _ _). set (rf := RF _ _ _). set (t := w_tape rc2_w).
    assert (E : exists s1 s2 s3, step ZF cell ints t rf s0 (VClone 0) = (s1, Ok (AVec 3)) /\ step ZF cell ints t rf s1 (VPlus 3 0) = (s2, Ok ANone) /\
      step ZF cell ints t rf s2 (VClone 1) = (s3, Ok (AVec 4)) /\ so_objs s3 = [0; 1; 0; 0; 1; 0]%Z /\ so_vecs s3 = [[0; 1]; [2]; []; [3; 4]; [5]]).
    { exists (fst (step ZF cell ints t rf s0 (VClone 0))). exists (fst (step ZF cell ints t rf (fst (step ZF cell ints t rf s0 (VClone 0))) (VPlus 3 0))). eexists.
      split; [rewrite (surjective_pairing (step _ _ _ _ _ s0 _)) at 1; f_equal; vm_compute; reflexivity|].
      split; [rewrite (surjective_pairing (step _ _ _ _ _ _ (VPlus 3 0))) at 1; f_equal; vm_compute; reflexivity|].
      split; [rewrite (surjective_pairing (step _ _ _ _ _ _ (VClone 1))) at 1; f_equal; vm_compute; reflexivity|]. split; vm_compute; reflexivity. }
    destruct E as (s1 & s2 & [o v r sh] & E1 & E2 & E3 & Eo & Ev). cbn in Eo, Ev. subst o v. unfold v_, c_. cbn [cplay cstep]. rewrite E1, E2, E3. clearbody s0 rf t. clear E1 E2 E3.
    cbn. rewrite Ha. unfold mapped. cbn. unfold wrote. destruct sh; cbn; destruct y; reflexivity.
Qed.
Print Assumptions C62_refuted.

(** ... of C62_exact_partial: gradient 54 of [2 x^3] at 3 and the equality constraint [x^2 = 9], for any algorithm that goes on with them. *)
Definition rq_con : rcon R := RC REq (fun m => Ok (nth 0 m 0 * nth 0 m 0 - 9)%R) (fun m d => Ok (2 * nth 0 m 0 * d)%R) (fun m p => Ok (2 * nth 0 m 0 * p)%R)
  (fun m d p => Ok (2 * d * p)%R) 0%R true.
Example C62_exact_demo :
  t_flat (w_tape (fst (recorded RO true (ro_prog 3%R) 2))) = rr_blocks /\ w_ctrls (fst (recorded RO true (ro_prog 3%R) 2)) = [0] /\ snd (recorded RO true (ro_prog 3%R) 2) = 2 /\
  independent rr_blocks [0] /\ on_tape rr_blocks [0] /\
  (forall e, twice_smooth rr_blocks [0] e /\ adjoints_right rr_blocks [0] e /\ adjoints_run rr_blocks [0] e /\ tangents_right rr_blocks [0] e) /\
  (forall x d, length x = 1 -> length d = 1 ->
     is_ok (hes_at RO (w_tape (fst (recorded RO true (ro_prog 3%R) 2))) (RF 2 [0] 2%R) (w_heap (fst (recorded RO true (ro_prog 3%R) 2))) x d) = true) /\
  second_order_sound rr_blocks [0] 2 /\
  forall c : R,
  cplays Rplus Rmult Rmult (fun _ : R => 1) (fun f x => f x) (fun f x y => f x y) (fun f x r => f x r) 0%R Rplus sqrt (fun x => x) [rq_con] 1
    (objective (fun x => spec_rerun RO true (ro_prog 3%R) x 2) 2) (gradient_at (fun x => spec_rerun RO true (ro_prog 3%R) x 2) 2)
    (hessian_at (fun x => spec_rerun RO true (ro_prog 3%R) x 2) 2) (first_vectors Rmult 0%R [rq_con] [3%R]) RStart None
    (v_ (VUpdate Initial 0) (v_ (VClone 0) (v_ (VGradient 3) (v_ (VScale c 3) (c_ (CValue true 1 0) (v_ (VClone 0) (c_ (CAdj true 4 1 0) (v_ (VPlus 3 4) (v_ (VPlus 0 3) CStop)))))))))
    (Ok [3 + (c * 54 + (0 * (0 * 3) + 2 * 3 * (3 * 3 - 9)))]%R).
Proof.
  assert (Er : forall x, spec_rerun RO true (ro_prog 3%R) [x] 2 = Ok (x * x * x)%R) by (intros x; rcompute; reflexivity).
  split; [rcompute; reflexivity|]. split; [rcompute; reflexivity|]. split; [rcompute; reflexivity|].
  assert (Ht : topo rr_blocks) by (cbn; intuition lia).
  split; [apply independent_check; [exact Ht | reflexivity]|]. split; [apply on_tape_check; reflexivity|]. split.
  { intros e. split; [split|split; [|split]].
    - intros b d Hb _ _ _; destruct Hb as [<-|[<-|[]]]; exact I.
    - intros b d0 d1 Hb _ Hk. destruct Hb as [<-|[<-|[]]]; discriminate Hk.
    - intros b d Hb _ _ _; destruct Hb as [<-|[<-|[]]]; exact I.
    - intros b d Hb _ _ _; destruct Hb as [<-|[<-|[]]]; exact I.
    - intros b d Hb _ _ _; destruct Hb as [<-|[<-|[]]]; exact I. }
  split.
  { intros [|a [|? ?]] [|u [|? ?]] Hx Hd; try discriminate Hx; try discriminate Hd. clear. rcompute. reflexivity. }
  split; [apply second_order_check; [exact Ht | reflexivity]|]. clear Ht. intros c.
  assert (G : gradient_at (fun x => spec_rerun RO true (ro_prog 3%R) x 2) 2 [3%R] [54%R]).
  { split; [reflexivity|]. intros [|d [|? ?]] Hd; try discriminate Hd.
    exists (fun t => (3 + t * d) * (3 + t * d) * (3 + t * d) * 2)%R. split.
    + apply filter_forall. intros t. unfold objective, moved. cbn [combine map fst snd]. rewrite Er. reflexivity.
    + unfold dotR. cbn [combine map fst snd fold_right]. auto_derive; [exact I|]. ring. }
  unfold v_, c_.
  eapply (cp_update _ _ _ _ _ _ _ _ _ _ _ _ _ _ _ _ _ RStart None Initial 0 [3%R] (RReady [3%R]) (3 * 3 * 3 * 2)%R [54%R]);
    [reflexivity | reflexivity | constructor | unfold objective; now rewrite Er | exact G |].
  eapply cp_vector; [apply (do_clone _ _ _ _ _ _ _ _ _ _ _ 0 [3%R]); reflexivity|].
  eapply (cp_gradient _ _ _ _ _ _ _ _ _ _ _ _ _ _ _ _ _ _ None 3 [3%R] [54%R]); [reflexivity | apply Nat.lt_succ_diag_r | exact G |].
  eapply cp_vector; [apply (do_scale _ _ _ _ _ _ _ _ _ _ _ c 3 [54%R]); reflexivity|].
  eapply (cp_con _ _ _ _ _ _ _ _ _ _ _ _ _ _ _ _ _ _ _ _ [[3]; [3 * 3 - 9]; []; [c * 54]]%R);
    [exact (cd_value Rplus Rmult 0%R (fun x => x) [rq_con] [[3]; [0]; []; [c * 54]]%R true 1 0 [3%R] ltac:(repeat constructor) eq_refl)|].
  eapply cp_vector; [apply (do_clone _ _ _ _ _ _ _ _ _ _ _ 0 [3%R]); reflexivity|].
  eapply (cp_con _ _ _ _ _ _ _ _ _ _ _ _ _ _ _ _ _ _ _ _ [[3]; [3 * 3 - 9]; []; [c * 54]; [0 * (0 * 3) + 2 * 3 * (3 * 3 - 9)]]%R);
    [exact (cd_adj Rplus Rmult 0%R (fun x => x) [rq_con] [[3]; [3 * 3 - 9]; []; [c * 54]; [0 * 3]]%R true 4 1 0 [3%R] [3 * 3 - 9]%R (0 * 3)%R eq_refl eq_refl eq_refl eq_refl ltac:(discriminate) ltac:(discriminate))|].
  eapply cp_vector; [apply (do_plus _ _ _ _ _ _ _ _ _ _ _ 3 4 [c * 54]%R [0 * (0 * 3) + 2 * 3 * (3 * 3 - 9)]%R); reflexivity|].
  eapply cp_vector; [apply (do_plus _ _ _ _ _ _ _ _ _ _ _ 0 3 [3]%R [c * 54 + (0 * (0 * 3) + 2 * 3 * (3 * 3 - 9))]%R); reflexivity|].
  apply cp_stop. reflexivity.
Qed.
