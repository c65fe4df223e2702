(** Runs of IPOPTSolver against runs on mathematical functions. *)
From Coq Require Import List Arith ZArith Lia Bool Reals.
From Coq Require String.
Import String.StringSyntax.
From Coquelicot Require Import Coquelicot.
From Verif Require Import Base Model BaseFacts Graph Record RecordFacts Spec Replay ReplayExec History Session Sweep SpecGraph Marks FreshAdj Dual Coll Opt SpecOpt OptFacts
  Solvers SpecSolvers SolverFacts TlmSweep RealInst Calculus Gradient Minimise SpecMinimise MinimiseFacts Ipopt SpecIpopt.
Import ListNotations.
Local Open Scope string_scope.
Open Scope nat_scope.

Lemma plays_length : forall (V S : Type) (ks : list (ctl V S)) J dJ HJ jac hess last a x, plays ks J dJ HJ jac hess last a (Ok x) -> length x = total ks.
Proof.
  intros V S ks J dJ HJ jac hess last a x P. remember (Ok x) as r eqn:Er. revert Er.
  induction P; intros Er; auto; [injection Er as <-; assumption | discriminate Er].
Qed.

Section Driver.
Context {V S P : Type} (F : fops V) (six minus_one : P).

Lemma ipopt_recorded : forall ann (p : list (stmt V)) j l s (bcs : list (@bctrl V S)) ks cur lim bounds maxim (params : option (list (String.string * P))) is_list alg x0 b r,
  consistent p -> disciplined ann p = true -> (j < length (w_objs (exec F (world_new F ann) p)))%nat ->
  let w := fst (recorded F ann p j) in
  let bs := t_flat (w_tape w) in
  let J := snd (recorded F ann p j) in
  let rf := RF J (w_ctrls w) s in
  let h0 := run_hist F bs (w_heap w) l in
  closed (w_ctrls w) bs -> on_tape bs (w_ctrls w) -> In J (vars_of bs) -> calls_controls w l -> no_mark h0 ->
  List.Forall law ks -> map bc_type bcs = types ks -> length ks = length (w_ctrls w) -> Forall2 (fun k v => k_ok k v) ks cur ->
  packed ks (map (saved h0) (w_ctrls w)) x0 -> ipopt_bounds (snd lim) (fst lim) bcs bounds = Ok b ->
  plays ks (fun x => rmap (fun y => f_mul F y s) (spec_rerun F ann p x j)) (fun x g => der_at F (w_tape w) rf h0 x = Ok g) (fun _ _ _ => False) true false None
    (alg x0 b (option_value (add_options six minus_one maxim params))) r ->
  returned ks is_list r (snd (ipopt_solve F six minus_one bs rf bcs cur lim bounds maxim params is_list alg h0)).
Proof.
  intros ann p j l s bcs ks cur lim bounds maxim params is_list alg x0 b r Hc Hd Hj w bs J rf h0 Hcl Ho HJ Hcc M0 HL Hty Hlen HC Hp0 Hb Pl.
  destruct (recorded_clean F ann p j Hc Hd Hj) as [Hwf [Hgv [Nc _]]]. fold w bs in Hwf, Hgv, Nc.
  assert (N0 : no_ctrl h0) by (apply hist_frame; exact Nc).
  unfold ipopt_solve. rewrite Hb. cbn [bind]. rewrite Hty. unfold np_get_controls. cbn [rf_ctrls rf]. rewrite (get_global_packed ks _ x0 HL Hp0). cbn [bind].
  assert (P1 : plays ks (val_at F (w_tape w) rf h0) (fun x g => der_at F (w_tape w) rf h0 x = Ok g) (fun x d H => hes_at F (w_tape w) rf h0 x d = Ok H) true false None
    (alg x0 b (option_value (add_options six minus_one maxim params))) r).
  { revert Pl. apply plays_mono; auto; [|contradiction|discriminate].
    intros vs x Hp. symmetry. apply (rf_call_rerun F ann p j vs s l Hc Hd Hj); auto.
    destruct (packed_lengths ks vs x HL Hp) as [A _]. fold w. rewrite A. exact Hlen. }
  destruct (run_plays F (w_tape w) rf h0 (proj1 Hwf) Hgv Hcl N0 Ho M0 HJ ks cur [] true false HL HC None _ r P1 h0) as (h1 & E1 & K1 & Nm1).
  { split; [apply okheap_0; exact N0 | exact M0]. }
  fold bs in E1. rewrite E1. unfold returned. destruct r as [x|e]; [|reflexivity].
  pose proof (plays_length _ _ _ _ _ _ _ _ _ _ _ Pl) as Hx. destruct (packed_exists ks x HL Hx) as [vs Hp]. exists vs. split; [exact Hp|].
  cbn [snd]. rewrite (copies_ok ks cur HL HC). cbn [bind].
  rewrite <- (app_nil_r x), (set_local_packed ks vs x [] cur HL Hp); [reflexivity|]. symmetry. exact (F2_len _ _ _ HC).
Qed.

(** Options. *)
Lemma option_value_app : forall (a b : list (String.string * P)) n, option_value (a ++ b) n = match option_value b n with Some v => Some v | None => option_value a n end.
Proof. induction a as [|[m v] a IH]; intros b n; cbn; [now destruct (option_value b n)|]. rewrite IH. now destruct (option_value b n). Qed.
Lemma renamed_map : forall n m, renamed n m <-> param_map n = m.
Proof.
  intros n m. unfold renamed, param_map.
  destruct (String.eqb_spec n "tolerance") as [->|H1].
  - split; [intros [[_ ->]|[[H _]|[H _]]]; [reflexivity|discriminate H|now contradict H] | intros <-; left; auto].
  - destruct (String.eqb_spec n "maximum_iterations") as [->|H2].
    + split; [intros [[H _]|[[_ ->]|[_ [H _]]]]; [discriminate H|reflexivity|now contradict H] | intros <-; right; left; auto].
    + split; [intros [[H _]|[[H _]|[_ [_ ->]]]]; [contradiction|contradiction|reflexivity] | intros <-; right; right; auto].
Qed.
Lemma params_value : forall (l : list (String.string * P)) m v,
  option_value (map (fun nv => (param_map (fst nv), snd nv)) l) m = Some v <->
  exists n l1 l2, l = l1 ++ (n, v) :: l2 /\ renamed n m /\ forall n' v', In (n', v') l2 -> ~ renamed n' m.
Proof.
  induction l as [|[n0 v0] l IH]; intros m v; cbn.
  - split; [discriminate|]. intros (n & [|? ?] & l2 & E & _); discriminate E.
  - destruct (option_value (map (fun nv => (param_map (fst nv), snd nv)) l) m) as [w|] eqn:Ew.
    + split.
      * intros H. injection H as ->. destruct (proj1 (IH m v) Ew) as (n & l1 & l2 & -> & R1 & R2). exists n, ((n0, v0) :: l1), l2. auto.
      * intros (n & l1 & l2 & E & R1 & R2). destruct l1 as [|q l1]; cbn in E; [injection E as E0 E1 E | injection E as E0 E].
        -- subst. exfalso. destruct (proj1 (IH m w) Ew) as (n' & l1' & l2' & -> & R1' & _). apply (R2 n' w); [apply in_or_app; right; left; reflexivity | exact R1'].
        -- rewrite <- Ew. apply (proj2 (IH m v)). exists n, l1, l2. auto.
    + assert (Hno : forall n' v', In (n', v') l -> ~ renamed n' m).
      { intros n' v' Hi Hr. clear IH. induction l as [|[a c] l IHl]; [exact Hi|]. cbn in Ew.
        destruct (option_value (map (fun nv => (param_map (fst nv), snd nv)) l) m) eqn:E2; [discriminate Ew|].
        destruct Hi as [Hi|Hi]; [|exact (IHl eq_refl Hi)]. injection Hi as -> ->. apply renamed_map in Hr. rewrite Hr, String.eqb_refl in Ew. discriminate Ew. }
      destruct (String.eqb_spec (param_map n0) m) as [E0|E0].
      * split.
        -- intros H. injection H as ->. exists n0, [], l. split; [reflexivity|]. split; [now apply renamed_map|exact Hno].
        -- intros (n & l1 & l2 & E & R1 & R2). destruct l1 as [|q l1]; cbn in E; [injection E as E0' E1 E; now subst|injection E as E1 E].
           exfalso. apply (Hno n v); [rewrite E; apply in_or_app; right; left; reflexivity | exact R1].
      * split; [discriminate|]. intros (n & l1 & l2 & E & R1 & R2). destruct l1 as [|q l1]; cbn in E; [injection E as E1 E2 E | injection E as E1 E].
        -- subst. apply renamed_map in R1. contradiction.
        -- exfalso. apply (Hno n v); [rewrite E; apply in_or_app; right; left; reflexivity | exact R1].
Qed.
Lemma options_spec : forall maxim (params : list (String.string * P)) m,
  let used := option_value (add_options six minus_one maxim (Some params)) m in
  (forall n v l1 l2, params = l1 ++ (n, v) :: l2 -> renamed n m -> (forall n' v', In (n', v') l2 -> ~ renamed n' m) -> used = Some v) /\
  ((forall n v, In (n, v) params -> ~ renamed n m) ->
   used = if String.eqb m "print_level" then Some six else if String.eqb m "obj_scaling_factor" && maxim then Some minus_one else None).
Proof.
  intros maxim params m used.
  assert (E : used = match option_value (map (fun nv => (param_map (fst nv), snd nv)) params) m with Some v => Some v
    | None => if String.eqb m "print_level" then Some six else if String.eqb m "obj_scaling_factor" && maxim then Some minus_one else None end).
  { unfold used, add_options. rewrite app_comm_cons, option_value_app.
    destruct (option_value (map (fun nv => (param_map (fst nv), snd nv)) params) m) as [w|] eqn:Ew; [reflexivity|].
    destruct maxim; cbn -[String.eqb]; rewrite (String.eqb_sym "print_level" m), ?(String.eqb_sym "obj_scaling_factor" m).
    - destruct (String.eqb_spec m "obj_scaling_factor") as [->|]; [reflexivity|]. now destruct (String.eqb m "print_level").
    - destruct (String.eqb m "print_level"); [reflexivity|]. now rewrite andb_false_r. }
  rewrite E. split.
  - intros n v l1 l2 -> R1 R2. assert (Ew := proj2 (params_value (l1 ++ (n, v) :: l2) m v)). rewrite Ew; [reflexivity|]. exists n, l1, l2. auto.
  - intros H. destruct (option_value (map (fun nv => (param_map (fst nv), snd nv)) params) m) as [w|] eqn:Ew; [|reflexivity].
    exfalso. destruct (proj1 (params_value params m w) Ew) as (n & l1 & l2 & -> & R1 & _). apply (H n w); [apply in_or_app; right; left; reflexivity | exact R1].
Qed.
End Driver.

Lemma ipopt_exact : forall (S P : Type) (six minus_one : P) ann p j l s (bcs : list (@bctrl R S)) ks cur lim bounds maxim (params : option (list (String.string * P))) is_list alg x0 b r,
  consistent p -> disciplined ann p = true -> (j < length (w_objs (exec RO (world_new RO ann) p)))%nat ->
  let w := fst (recorded RO ann p j) in
  let bs := t_flat (w_tape w) in
  let J := snd (recorded RO ann p j) in
  let rf := RF J (w_ctrls w) s in
  let h0 := run_hist RO bs (w_heap w) l in
  closed (w_ctrls w) bs -> on_tape bs (w_ctrls w) -> In J (vars_of bs) -> NoDup (w_ctrls w) -> w_ctrls w <> [] -> independent bs (w_ctrls w) ->
  calls_controls w l -> no_mark h0 ->
  List.Forall law ks -> map bc_type bcs = types ks -> length ks = length (w_ctrls w) -> Forall2 (fun k v => k_ok k v) ks cur ->
  packed ks (map (saved h0) (w_ctrls w)) x0 -> ipopt_bounds (snd lim) (fst lim) bcs bounds = Ok b ->
  (forall x, length x = length (w_ctrls w) -> is_ok (spec_rerun RO ann p x j) = true ->
     let e := saved (fst (rf_call RO bs rf x h0)) in smooth_at bs (w_ctrls w) e /\ adjoints_right bs (w_ctrls w) e /\ adjoints_run bs (w_ctrls w) e) ->
  plays ks (objective (fun x => spec_rerun RO ann p x j) s) (gradient_at (fun x => spec_rerun RO ann p x j) s) (fun _ _ _ => False) true false None
    (alg x0 b (option_value (add_options six minus_one maxim params))) r ->
  returned ks is_list r (snd (ipopt_solve RO six minus_one bs rf bcs cur lim bounds maxim params is_list alg h0)).
Proof.
  intros S P six minus_one ann p j l s bcs ks cur lim bounds maxim params is_list alg x0 b r Hc Hd Hj w bs J rf h0 Hcl Ho HJ Hnd Hne Hi Hcc M0 HL Hty Hlen HC Hp0 Hb Hreg Pl.
  apply (ipopt_recorded RO six minus_one ann p j l s bcs ks cur lim bounds maxim params is_list alg x0 b r); auto.
  revert Pl. apply plays_mono; auto; [|discriminate].
  intros vs x y g arr Hp Hy Hg _. destruct (packed_lengths ks vs x HL Hp) as [Lv _].
  destruct (Hreg vs) as (R1 & R2 & R3); [congruence| |].
  { unfold objective in Hy. destruct (spec_rerun RO ann p vs j); [reflexivity|discriminate Hy]. }
  apply (gradient_der ann p j s l vs y g); auto. exact (eq_trans Lv Hlen).
Qed.
