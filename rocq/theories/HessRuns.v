(** Optimisation runs answered by the second derivative of the re-run program. *)
From Coq Require Import List Arith ZArith Bool Lia Reals Lra.
From Coquelicot Require Import Coquelicot.
From Verif Require Import Base Model BaseFacts Graph Record Spec RecordFacts Replay ReplayExec History Session Sweep SpecGraph Marks Iso Coll Opt SpecOpt OptFacts
  Solvers SpecSolvers SolverFacts Dual TlmSweep RealInst Calculus Gradient Reach RFullFacts SpecHess HessExact Minimise SpecMinimise MinimiseFacts Tao SpecTao TaoFacts Rol SpecRol RolFacts HessDer.
Import ListNotations.
Open Scope R_scope.

(** minimize *)
Lemma minimise_hessians : forall (S : Type) ann p j l wbs (bcs : list (@bctrl R S)) ks cur m s s0 mkw b alg attr vs0 x0 b1 b2 r,
  consistent p -> disciplined ann p = true -> (j < length (w_objs (exec RO (world_new RO ann) p)))%nat ->
  let w := fst (recorded RO ann p j) in
  let bs := t_flat (w_tape w) in
  let J := snd (recorded RO ann p j) in
  let rf := RF J (w_ctrls w) s in
  let h0 := run_hist RO bs (w_heap w) l in
  closed (w_ctrls w) bs -> on_tape bs (w_ctrls w) -> In J (vars_of bs) -> NoDup (w_ctrls w) -> w_ctrls w <> [] -> independent bs (w_ctrls w) ->
  calls_controls w l -> no_mark h0 ->
  List.Forall law ks -> map bc_type bcs = types ks -> length ks = length (w_ctrls w) -> Forall2 (fun k v => k_ok k v) ks cur ->
  m <> MUnknown -> map (saved h0) (w_ctrls w) = vs0 -> packed ks vs0 x0 -> passed_bounds m mkw b = Ok b1 -> serialised bcs b1 = Ok b2 ->
  (forall x, length x = length (w_ctrls w) -> is_ok (spec_rerun RO ann p x j) = true ->
     let e := saved (fst (rf_call RO bs rf x h0)) in
     twice_smooth bs (w_ctrls w) e /\ adjoints_right bs (w_ctrls w) e /\ adjoints_run bs (w_ctrls w) e /\ tangents_right bs (w_ctrls w) e /\
     forall d, length d = length (w_ctrls w) -> is_ok (hes_at RO (w_tape w) rf h0 x d) = true) ->
  second_order_sound bs (w_ctrls w) J ->
  SpecMinimise.plays ks (objective (fun x => spec_rerun RO ann p x j) s) (gradient_at (fun x => spec_rerun RO ann p x j) s)
    (hessian_at (fun x => spec_rerun RO ann p x j) s) (has_jac m) (has_hess m) None (alg x0 b2) r ->
  let out := minimise RO bs wbs bcs cur m s mkw b (Some alg) (ORF (RF J (w_ctrls w) s0) false attr) h0 in
  outcome ks r (snd out) (map (saved (snd (fst out))) (w_ctrls w)).
Proof.
  intros S ann p j l wbs bcs ks cur m s s0 mkw b alg attr vs0 x0 b1 b2 r Hc Hd Hj w bs J rf h0 Hcl Ho HJ Hnd Hne Hi Hcc M0 HL Hty Hlen HC Hm Hv0 Hp0 Hb1 Hb2 Hreg Hso P.
  apply (minimise_exact S ann p j l wbs bcs ks cur m s s0 mkw b alg attr vs0 x0 b1 b2 r); auto.
  { intros x Lx Hx. destruct (Hreg x Lx Hx) as ([A1 _] & A2 & A3 & _). auto. }
  revert P. apply plays_mono; auto; [|discriminate].
  intros vs x y d da H Hp Hy _ HH. destruct (packed_lengths ks vs x HL Hp) as [Lv _].
  apply (hessian_answer ann p j s l Hc Hd Hj Hnd Hne Hi Ho HJ Hcl Hcc M0 vs d y H); auto. exact (eq_trans Lv Hlen).
Qed.

(** TAOSolver.solve *)
Lemma tplays_hess : forall (V S : Type) (ks : list (ctl V S)) sadd smul szero J (dJ : list V -> list V -> Prop) (HJ HJ' : list V -> list V -> list V -> Prop) riesz m sh seen a r,
  (forall vs y d H, Forall2 (fun k v => k_ok k v) ks vs -> J vs = Ok y -> HJ vs d H -> HJ' vs d H) ->
  (forall vs, m = Some vs -> Forall2 (fun k v => k_ok k v) ks vs) ->
  tplays ks sadd smul szero J dJ HJ riesz m sh seen a r -> tplays ks sadd smul szero J dJ HJ' riesz m sh seen a r.
Proof.
  intros V S ks sadd smul szero J dJ HJ HJ' riesz m sh seen a r E Hm P.
  induction P as [m sh seen x c Hx | m sh seen e | m sh seen x g0 vs y g arr k r Hp Hl0 Ev Ed Hpg P IH | m sh seen x g0 vs e k r Hp Ev P IH
    | m sh seen x vs k r Hp P IH | m sh seen al k r P IH | sh seen vs x y0 d y g ga H arr k r Hpd Hl0 Ev Ed Hpg EH HpH P IH | m sh x y0 g arr k r Hpg Hl0 Hpr P IH].
  - now constructor.
  - constructor.
  - apply (tp_objective _ _ _ _ _ _ _ _ _ _ _ _ _ vs y g arr); eauto.
  - apply (tp_fails _ _ _ _ _ _ _ _ _ _ _ _ _ vs e); eauto.
  - eapply tp_hess; eauto. apply IH. intros u Hu. injection Hu as <-. exact (packed_ok ks vs x Hp).
  - apply tp_shift. auto.
  - apply (tp_mult _ _ _ _ _ _ _ _ _ _ _ _ _ d y g ga H arr); eauto.
  - eapply tp_norm; eauto.
Qed.
Lemma tao_hessians : forall (S : Type) (sadd smul : S -> S -> S) (szero : S) (seqb : S -> S -> bool) ann p j l s (bcs : list (@bctrl R S)) ks cur riesz lim bounds is_list x_old alg x0 b r,
  (forall a b, sadd a (smul szero b) = a) -> (forall a b, seqb a b = true <-> a = b) ->
  consistent p -> disciplined ann p = true -> (j < length (w_objs (exec RO (world_new RO ann) p)))%nat ->
  let w := fst (recorded RO ann p j) in
  let bs := t_flat (w_tape w) in
  let J := snd (recorded RO ann p j) in
  let rf := RF J (w_ctrls w) s in
  let h0 := run_hist RO bs (w_heap w) l in
  closed (w_ctrls w) bs -> on_tape bs (w_ctrls w) -> In J (vars_of bs) -> NoDup (w_ctrls w) -> w_ctrls w <> [] -> independent bs (w_ctrls w) ->
  calls_controls w l -> no_mark h0 ->
  List.Forall gives_adj bs -> List.Forall gives_hess bs -> (forall c, In c (w_ctrls w) -> influences bs c J) ->
  List.Forall law ks -> map bc_type bcs = types ks -> length ks = length (w_ctrls w) -> Forall2 (fun k v => k_ok k v) ks cur ->
  length riesz = length ks -> packed ks (map (saved h0) (w_ctrls w)) x0 -> length x_old = total ks ->
  match bounds with
  | None => b = None
  | Some l => length l = length ks /\ exists lu, tao_bounds (snd lim) (fst lim) bcs l = Ok lu /\ b = Some lu
  end ->
  (forall x, length x = length (w_ctrls w) -> is_ok (spec_rerun RO ann p x j) = true ->
     let e := saved (fst (rf_call RO bs rf x h0)) in
     twice_smooth bs (w_ctrls w) e /\ adjoints_right bs (w_ctrls w) e /\ adjoints_run bs (w_ctrls w) e /\ tangents_right bs (w_ctrls w) e /\
     forall d, length d = length (w_ctrls w) -> is_ok (hes_at RO (w_tape w) rf h0 x d) = true) ->
  second_order_sound bs (w_ctrls w) J ->
  tplays ks sadd smul szero (objective (fun x => spec_rerun RO ann p x j) s) (gradient_at (fun x => spec_rerun RO ann p x j) s)
    (hessian_at (fun x => spec_rerun RO ann p x j) s) riesz None szero false (alg x0 b) r ->
  tao_outcome ks is_list r (snd (tao_solve RO sadd smul szero seqb true bs rf bcs cur (w_ctrls w) riesz lim bounds is_list x_old alg h0)).
Proof.
  intros S sadd smul szero seqb ann p j l s bcs ks cur riesz lim bounds is_list x_old alg x0 b r Hz Heq Hc Hd Hj w bs J rf h0 Hcl Ho HJ Hnd Hne Hi Hcc M0
    Hga Hgh Hinf HL Hty Hlen HC Hri Hp0 Hxo Hb Hreg Hso P.
  apply (tao_exact S sadd smul szero seqb ann p j l s bcs ks cur riesz lim bounds is_list x_old alg x0 b r); auto.
  { intros x Lx Hx. destruct (Hreg x Lx Hx) as ([A1 _] & A2 & A3 & _). auto. }
  revert P. apply tplays_hess; [|discriminate].
  intros vs y d H Hok Hy HH. assert (Lv : length vs = length (w_ctrls w)) by (rewrite <- (F2_len _ _ _ Hok); exact Hlen).
  apply (hessian_answer ann p j s l Hc Hd Hj Hnd Hne Hi Ho HJ Hcl Hcc M0 vs d y H); auto.
Qed.

(** ROLSolver.solve *)
Lemma rol_hessians : forall (S : Type) (add : R -> R -> R) (mul : S -> R -> R) (dot : R -> R -> S) (dim : R -> nat)
  (unary : (S -> S) -> R -> R) (binary : (S -> S -> S) -> R -> R -> R) (reduce : (S -> S -> S) -> R -> S -> S) (asg : bool)
  (zero : S) (plus : S -> S -> S) (root : S -> S) ann (p : list (stmt R)) j l s (A : Type) (e : enlist A) a r,
  consistent p -> disciplined ann p = true -> (j < length (w_objs (exec RO (world_new RO ann) p)))%nat ->
  let w := fst (recorded RO ann p j) in
  let bs := t_flat (w_tape w) in
  let J := snd (recorded RO ann p j) in
  let rf := RF J (w_ctrls w) s in
  let h0 := run_hist RO bs (w_heap w) l in
  closed (w_ctrls w) bs -> on_tape bs (w_ctrls w) -> In J (vars_of bs) -> NoDup (w_ctrls w) -> w_ctrls w <> [] -> independent bs (w_ctrls w) -> calls_controls w l -> no_mark h0 ->
  (forall x, length x = length (w_ctrls w) -> is_ok (spec_rerun RO ann p x j) = true ->
     let e := saved (fst (rf_call RO bs rf x h0)) in
     twice_smooth bs (w_ctrls w) e /\ adjoints_right bs (w_ctrls w) e /\ adjoints_run bs (w_ctrls w) e /\ tangents_right bs (w_ctrls w) e /\
     forall d, length d = length (w_ctrls w) -> is_ok (hes_at RO (w_tape w) rf h0 x d) = true) ->
  second_order_sound bs (w_ctrls w) J ->
  SpecRol.plays add mul dot dim unary binary reduce zero plus root (objective (fun x => spec_rerun RO ann p x j) s)
    (gradient_at (fun x => spec_rerun RO ann p x j) s) (hessian_at (fun x => spec_rerun RO ann p x j) s) [map (saved h0) (w_ctrls w)] RStart None a r ->
  snd (rol_solve RO (OT add mul true true (Some dot) (Some dim) (Some unary) (Some binary) (Some reduce) asg) (Sc zero plus root) (w_tape w) rf e a h0) = returned (el_listed e) r.
Proof.
  intros S add mul dot dim unary binary reduce asg zero plus root ann p j l s A e a r Hc Hd Hj w bs J rf h0 Hcl Ho HJ Hnd Hne Hi Hcc M0 Hreg Hso P.
  apply (solve_exact S add mul dot dim unary binary reduce asg zero plus root ann p j l s A e a r); auto.
  { intros x Lx Hx. destruct (Hreg x Lx Hx) as ([A1 _] & A2 & A3 & _). auto. }
  eapply (rol_mono add mul dot dim unary binary reduce zero plus root (length (w_ctrls w))); [| | |exact P| |exact I].
  - reflexivity.
  - intros x y d Hx Hy Hdx. split; [exact Hdx|]. destruct Hdx as [L _]. congruence.
  - intros x y v h Hx Hy _ Hh. split; [|destruct Hh as [L _]; congruence].
    apply (hessian_answer ann p j s l Hc Hd Hj Hnd Hne Hi Ho HJ Hcl Hcc M0 x v y h); auto.
  - intros [|[|i]] x Hx; cbn in Hx; try discriminate. injection Hx as <-. apply map_length.
Qed.
