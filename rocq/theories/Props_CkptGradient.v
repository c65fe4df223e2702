(** Property theorems over the reals for derivatives under a checkpoint manager (C42). *)
From Coq Require Import List Arith ZArith Bool Lia Reals Lra.
From Coquelicot Require Import Coquelicot.
From Verif Require Import Base Model BaseFacts Graph Record Spec RecordFacts Replay ReplayExec History Session Sweep SpecGraph Marks Dual TlmSweep RealInst Calculus Gradient.
From Verif Require Import Ckpt SpecCkpt CkptGradR.
Import ListNotations.
Open Scope R_scope.

(** Under the conditions of [C05_program_recorded] the derivative taken through any schedule that covers the
    steps and then reverses them is, at the recorded control values, the exact derivative of the program. *)
Theorem C42_gradient_partial : forall sc n fwd back, covering sc n fwd -> (1 <= n)%nat -> reversing sc n fwd back ->
  forall pkg ann p, pure_program p -> consistent p -> (sc_max sc = None -> S (ends p) = n) ->
  forall s, ckpt_session RO pkg sc ann p s ->
  let w := exec RO (world_new RO ann) p in let bs := t_flat (w_tape w) in let cs := w_ctrls w in
  NoDup cs -> independent bs cs -> on_tape bs cs ->
  let xs := map (fun c => bv_rec (w_heap w c)) cs in
  smooth_at bs cs (saved (w_heap w)) -> adjoints_right bs cs (saved (w_heap w)) ->
  forall ops j ob J scale d g, List.Forall (on_controls cs) ops -> List.Forall (at_values xs) ops -> derivs_ok RO s ops = true -> evaluated_last ops ->
  nth_error (w_objs w) j = Some ob -> o_bv ob = Some J -> length d = length cs ->
  snd (c_derivative RO (RF J cs scale) 1 (cop_hist RO s ops)) = Ok g ->
  exists y : R -> R, locally 0 (fun t => spec_rerun RO ann p (shift (control_values RO ann p) d t) j = Ok (y t)) /\
    is_derive (fun t => y t * scale) 0 (dot RO g d).
Proof. exact ckpt_gradient. Qed.
Print Assumptions C42_gradient_partial.

Ltac rcompute := lazy -[Rplus Rmult Rminus Ropp exp ln IZR Rle_dec Rlt_dec Req_EM_T Rdiv Rinv Rpower powerRZ Int_part].
(** 3^4 in two steps, the first one replayed from a snapshot. *)
Definition ck_prog : list (stmt R) := [SNew 3; SControl 0; SOp KMul [0; 0]%nat; SEndStep; SOp KMul [1; 1]%nat].
Definition ck_fwd : list action := [AForward 0 (Some 1%nat) true false RAM; AForward 1 (Some 2%nat) false true WORK; AEndForward].
Definition ck_back : list action := [AReverse 2 1 true; ACopy 0 RAM; AForward 0 (Some 1%nat) false true WORK; AReverse 1 0 true; AEndReverse].
Definition ck_sched : schedule := Sched (Some 2%nat) (fun _ => ck_fwd ++ ck_back) false false (fun p => Nat.eqb p 8).
Definition ck_cw : cworld R := cexec RO (fst (cw_enable false ck_sched (world_new RO true))) ck_prog.
Definition ck_man : cman := match cw_man ck_cw with Some m => m | None => man_new ck_sched AEndForward end.
Definition ck_w := exec RO (world_new RO true) ck_prog.
Definition ck_bs := t_flat (w_tape ck_w).
Lemma ck_bs_eq : ck_bs = [Blk KMul [0; 0]%nat [1]%nat None; Blk KMul [1; 1]%nat [2]%nat None].
Proof. rcompute. reflexivity. Qed.

Example C42_gradient_demo :
  covering ck_sched 2 ck_fwd /\ reversing ck_sched 2 ck_fwd ck_back /\ pure_program ck_prog /\ consistent ck_prog /\
  ckpt_session RO false ck_sched true ck_prog (cw_cst (cw_w ck_cw) ck_man) /\
  w_ctrls ck_w = [0]%nat /\ independent ck_bs [0]%nat /\ on_tape ck_bs [0]%nat /\
  smooth_at ck_bs [0]%nat (saved (w_heap ck_w)) /\ adjoints_right ck_bs [0]%nat (saved (w_heap ck_w)) /\
  (exists ob, nth_error (w_objs ck_w) 2 = Some ob /\ o_bv ob = Some 2%nat) /\
  snd (c_derivative RO (RF 2 [0]%nat 1) 1 (cw_cst (cw_w ck_cw) ck_man)) = Ok [108].
Proof.
  split; [split; [repeat (constructor; cbn; try lia)|split; [reflexivity|now left]]|].
  split; [split; [repeat (constructor; cbn; try lia)|reflexivity]|].
  split; [reflexivity|]. split; [repeat constructor|].
  split; [exists (fst (cw_enable false ck_sched (world_new RO true))), ck_man; split; [rcompute; reflexivity|split; [rcompute; reflexivity|reflexivity]]|].
  split; [rcompute; reflexivity|].
  destruct (recorded_clean RO true ck_prog 2) as [[Ht _] _]. { repeat constructor. } { reflexivity. } { rcompute. repeat constructor. }
  replace (t_flat (w_tape (fst (recorded RO true ck_prog 2)))) with ck_bs in Ht by (rcompute; reflexivity).
  split; [apply independent_check; [exact Ht|rewrite ck_bs_eq; reflexivity]|].
  split; [apply on_tape_check; rewrite ck_bs_eq; reflexivity|]. clear Ht. rewrite ck_bs_eq.
  split; [intros b d Hb _ _ _; destruct Hb as [<-|[<-|[]]]; exact I|].
  split; [intros b d Hb _ _ _; destruct Hb as [<-|[<-|[]]]; exact I|].
  split; [eexists; split; rcompute; reflexivity|].
  rcompute. f_equal. f_equal. ring.
Qed.

(** At any values, with the schedules and controls of [C42_stored_partial]: after an evaluation the derivative is
    the exact derivative of the program at the values of that evaluation. *)
Theorem C42_stored_gradient_partial : forall sc n fwd back, covering sc n fwd -> (1 <= n)%nat -> reversing sc n fwd back -> List.Forall storing fwd -> restoring n back ->
  forall pkg ann p, pure_program p -> consistent p -> S (ends p) = n ->
  forall s, ckpt_session RO pkg sc ann p s ->
  let w := exec RO (world_new RO ann) p in let bs := t_flat (w_tape w) in let cs := w_ctrls w in
  NoDup cs -> cs <> [] -> on_tape bs cs -> (forall c, In c cs -> ~ In c (outs_of bs)) ->
  (forall c t, In c cs -> In t (t_steps (c_tape s)) -> In c (deps_of (ts_blocks t))) ->
  forall ops j ob J scale vals y0 d g, List.Forall (on_controls cs) ops -> derivs_ok RO s ops = true ->
  nth_error (w_objs w) j = Some ob -> o_bv ob = Some J -> length d = length cs ->
  snd (c_call RO (RF J cs scale) vals (cop_hist RO s ops)) = Ok y0 ->
  let e := saved (fst (rf_call RO bs (RF J cs scale) vals (w_heap w))) in
  smooth_at bs cs e -> adjoints_right bs cs e ->
  snd (c_derivative RO (RF J cs scale) 1 (fst (c_call RO (RF J cs scale) vals (cop_hist RO s ops)))) = Ok g ->
  exists y : R -> R, locally 0 (fun t => spec_rerun RO ann p (shift vals d t) j = Ok (y t)) /\
    is_derive (fun t => y t * scale) 0 (dot RO g d).
Proof. exact ckpt_stored_gradient. Qed.
Print Assumptions C42_stored_gradient_partial.

(** x^3 in two steps, both stored; recorded at 3, evaluated at 5. *)
Definition cs_prog : list (stmt R) := [SNew 3; SControl 0; SOp KMul [0; 0]%nat; SEndStep; SOp KMul [1; 0]%nat].
Definition cs_fwd : list action := [AForward 0 (Some 1%nat) false true RAM; AForward 1 (Some 2%nat) false true RAM; AEndForward].
Definition cs_back : list action := [ACopy 1 RAM; AReverse 2 1 true; AMove 0 RAM; AReverse 1 0 true; AEndReverse].
Definition cs_sched : schedule := Sched (Some 2%nat) (fun _ => cs_fwd ++ cs_back) false false (fun p => Nat.eqb p 8).
Definition cs_cw : cworld R := cexec RO (fst (cw_enable false cs_sched (world_new RO true))) cs_prog.
Definition cs_man : cman := match cw_man cs_cw with Some m => m | None => man_new cs_sched AEndForward end.
Definition cs_st : cst R := cw_cst (cw_w cs_cw) cs_man.
Notation cs_w := (exec RO (world_new RO true) cs_prog).
Notation cs_bs := (flat cs_w).
Lemma cs_bs_eq : cs_bs = [Blk KMul [0; 0]%nat [1]%nat None; Blk KMul [1; 0]%nat [2]%nat None].
Proof. vm_compute. reflexivity. Qed.

Lemma cs_plain : let w := exec RO (world_new RO true) cs_prog in let h := fst (rf_call RO (flat w) (RF 2 [0]%nat 1) [5] (w_heap w)) in
  snd (rf_call RO (flat w) (RF 2 [0]%nat 1) [5] (w_heap w)) = Ok 125 /\ snd (rf_derivative RO (flat w) (RF 2 [0]%nat 1) 1 h) = Ok [75].
Proof.
  cbv zeta. split.
  - transitivity (@Ok R (5 * 5 * 5 * 1)); [vm_cast_no_check (@eq_refl (res R) (Ok (5 * 5 * 5 * 1)))|]. replace (5 * 5 * 5 * 1) with 125 by ring. reflexivity.
  - transitivity (@Ok (list R) [1 * 1 * (5 * 5) + 1 * 1 * 5 * 5 + 1 * 1 * 5 * 5]); [vm_cast_no_check (@eq_refl (res (list R)) (Ok [1 * 1 * (5 * 5) + 1 * 1 * 5 * 5 + 1 * 1 * 5 * 5]))|].
    replace (1 * 1 * (5 * 5) + 1 * 1 * 5 * 5 + 1 * 1 * 5 * 5) with 75 by ring. reflexivity.
Qed.

Lemma cs_sess : ckpt_session RO false cs_sched true cs_prog cs_st.
Proof.
  exists (fst (cw_enable false cs_sched (world_new RO true))), cs_man. split; [reflexivity|split; [vm_compute; reflexivity|reflexivity]].
Qed.
Lemma cs_deps : map (fun t => deps_of (ts_blocks t)) (t_steps (c_tape cs_st)) = [[0; 0]; [1; 0]]%nat.
Proof. vm_compute. reflexivity. Qed.
Lemma cs_ctrls : w_ctrls cs_w = [0]%nat.
Proof. vm_compute. reflexivity. Qed.
Lemma cs_J : exists ob, nth_error (w_objs (exec RO (world_new RO true) cs_prog)) 2 = Some ob /\ o_bv ob = Some 2%nat /\ truthy RO (o_val ob) = true.
Proof.
  eexists. split; [lazy -[Rmult IZR]; reflexivity|]. split; [reflexivity|]. unfold truthy. cbn [o_val].
  lazy -[Rmult IZR Rle_dec Rlt_dec]. match goal with |- context [Rle_dec ?a ?b] => destruct (Rle_dec a b) as [K|K] end; [exfalso; lra|reflexivity].
Qed.

Lemma cs_leaf : on_tape (flat (exec RO (world_new RO true) cs_prog)) [0]%nat /\ forall c, In c [0]%nat -> ~ In c (outs_of (flat (exec RO (world_new RO true) cs_prog))).
Proof. rewrite cs_bs_eq. split; [now apply on_tape_check|]. intros c [<-|[]]. cbn. intuition discriminate. Qed.
Lemma cs_values : forall s, ckpt_session RO false cs_sched true cs_prog s -> map (fun t => deps_of (ts_blocks t)) (t_steps (c_tape s)) = [[0; 0]; [1; 0]]%nat ->
  covering cs_sched 2 cs_fwd -> reversing cs_sched 2 cs_fwd cs_back -> List.Forall storing cs_fwd -> restoring 2 cs_back -> pure_program cs_prog -> consistent cs_prog ->
  snd (c_call RO (RF 2 [0]%nat 1) [5] s) = Ok 125 /\ snd (c_derivative RO (RF 2 [0]%nat 1) 1 (fst (c_call RO (RF 2 [0]%nat 1) [5] s))) = Ok [75].
Proof.
  intros s H7 Hd H1 H2 H3 H4 H5 H6. destruct cs_leaf as [H8 H9].
  assert (H10 : forall c t, In c [0]%nat -> In t (t_steps (c_tape s)) -> In c (deps_of (ts_blocks t))).
  { intros c t [<-|[]] Ht. apply (in_map (fun t => deps_of (ts_blocks t))) in Ht. rewrite Hd in Ht. destruct Ht as [<-|[<-|[]]]; cbn; tauto. }
  destruct cs_J as [ob [J1 [J2 J3]]]. destruct cs_plain as [P1 P2].
  assert (N0 : [0%nat] <> []) by discriminate. assert (L0 : (1 <= 2)%nat) by lia.
  assert (Y : snd (c_call RO (RF 2 [0]%nat 1) [5] s) = Ok 125).
  { rewrite <- P1. exact (CkptStored.stored_call RO cs_sched 2 cs_fwd cs_back H1 L0 H2 H3 H4 false true cs_prog H5 H6 eq_refl s H7 [0]%nat N0 H9 H10
      [] 2%nat ob 2%nat 1 [5] (List.Forall_nil _) J1 J2 J3). }
  split; [exact Y|]. rewrite <- P2.
  exact (CkptStored.stored_derivative RO cs_sched 2 cs_fwd cs_back H1 L0 H2 H3 H4 false true cs_prog H5 H6 eq_refl s H7 [0]%nat H8 N0 H9 H10
      [] (RF 2 [0]%nat 1) [5] 125 2%nat 1 1 (List.Forall_nil _) eq_refl eq_refl Y).
Qed.

Example C42_stored_gradient_demo :
  let rf := RF 2 [0]%nat 1 in
  covering cs_sched 2 cs_fwd /\ reversing cs_sched 2 cs_fwd cs_back /\ List.Forall storing cs_fwd /\ restoring 2 cs_back /\
  pure_program cs_prog /\ consistent cs_prog /\ ckpt_session RO false cs_sched true cs_prog cs_st /\
  w_ctrls cs_w = [0]%nat /\ on_tape cs_bs [0]%nat /\ ~ In 0%nat (outs_of cs_bs) /\
  map (fun t => deps_of (ts_blocks t)) (t_steps (c_tape cs_st)) = [[0; 0]; [1; 0]]%nat /\
  (forall e, smooth_at cs_bs [0]%nat e /\ adjoints_right cs_bs [0]%nat e) /\
  snd (c_call RO rf [5] cs_st) = Ok 125 /\
  snd (c_derivative RO rf 1 (fst (c_call RO rf [5] cs_st))) = Ok [75].
Proof.
  cbv zeta.
  assert (H1 : covering cs_sched 2 cs_fwd) by (split; [repeat (constructor; cbn; try lia)|split; [reflexivity|now left]]).
  assert (H2 : reversing cs_sched 2 cs_fwd cs_back) by (split; [repeat (constructor; cbn; try lia)|reflexivity]).
  assert (H3 : List.Forall storing cs_fwd) by repeat constructor.
  assert (H4 : restoring 2 cs_back) by repeat constructor.
  assert (H5 : pure_program cs_prog) by reflexivity.
  assert (H6 : consistent cs_prog) by repeat constructor.
  destruct (cs_values cs_st cs_sess cs_deps H1 H2 H3 H4 H5 H6) as [Y D].
  repeat (split; [assumption|]). split; [exact cs_sess|]. split; [exact cs_ctrls|]. split; [exact (proj1 cs_leaf)|].
  split; [exact (proj2 cs_leaf 0%nat (or_introl eq_refl))|]. split; [exact cs_deps|].
  split. { intros e. rewrite cs_bs_eq. split; intros b d Hb _ _ _; destruct Hb as [<-|[<-|[]]]; exact I. }
  split; [exact Y|exact D].
Qed.
