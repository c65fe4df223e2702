(** Hessian actions of a reduced functional against the second derivative of the re-run program. *)
From Coq Require Import List Arith ZArith Bool Lia Reals Lra.
From Coquelicot Require Import Coquelicot.
From Verif Require Import Base Model BaseFacts Graph Record Spec RecordFacts Replay ReplayExec History Session Sweep SpecGraph Marks Iso Coll
  Solvers SpecSolvers SolverFacts Dual TlmSweep RealInst Calculus Gradient RFullFacts HessFacts HessSweep SpecHess HessExact SpecMinimise MinimiseFacts RolFacts.
Import ListNotations.
Open Scope R_scope.

Lemma gradient_unique : forall y s m g g', gradient_at y s m g -> gradient_at y s m g' -> g = g'.
Proof.
  intros y s m g g' [L H] [L' H']. apply (nth_ext _ _ 0 0); [congruence|]. intros i _.
  set (d := unit_vec (length m) i). assert (Ld : length d = length m) by apply unit_vec_length.
  destruct (H d Ld) as (f & Lf & Df). destruct (H' d Ld) as (f' & Lf' & Df'). rewrite dotR_dot in Df, Df'.
  assert (E : dot RO g d = dot RO g' d).
  { rewrite <- (is_derive_unique _ _ _ Df). apply is_derive_unique. apply (is_derive_ext_loc f'); [|exact Df'].
    generalize (filter_and _ _ Lf Lf'). apply filter_imp. intros t [A B]. congruence. }
  unfold d in E. rewrite <- (dot_unit g i), <- (dot_unit g' i), L, L'. exact E.
Qed.
Lemma hessian_unique : forall y s m d H H', hessian_at y s m d H -> hessian_at y s m d H' -> H = H'.
Proof.
  intros y s m d H H' (L & _ & G & LG & DG) (L' & _ & G' & LG' & DG'). apply (nth_ext _ _ 0 0); [congruence|]. intros i _.
  rewrite <- (is_derive_unique _ _ _ (DG i)). apply is_derive_unique. apply (is_derive_ext_loc (fun t => nth i (G' t) 0)); [|apply DG'].
  generalize (filter_and _ _ LG LG'). apply filter_imp. intros t [A B]. now rewrite (gradient_unique y s _ _ _ A B).
Qed.

Section Recorded.
Variables (ann : bool) (p : list (stmt R)) (j : nat) (sc : R) (l : list (api R)).
Hypothesis Hc : consistent p.
Hypothesis Hd : disciplined ann p = true.
Hypothesis Hj : (j < length (w_objs (exec RO (world_new RO ann) p)))%nat.
Notation w := (fst (recorded RO ann p j)).
Notation rf := (RF (snd (recorded RO ann p j)) (w_ctrls w) sc).
Notation bs := (t_flat (w_tape w)).
Notation h0 := (run_hist RO bs (w_heap w) l).
Notation Y := (fun x => spec_rerun RO ann p x j).
Notation at_ m := (saved (fst (rf_call RO bs rf m h0))).
Hypothesis Hnd : NoDup (w_ctrls w).
Hypothesis Hne : w_ctrls w <> [].
Hypothesis Hi : independent bs (w_ctrls w).
Hypothesis Ho : on_tape bs (w_ctrls w).
Hypothesis HJ : In (snd (recorded RO ann p j)) (vars_of bs).
Hypothesis Hcl : closed (w_ctrls w) bs.
Hypothesis Hcc : calls_controls w l.
Hypothesis M0 : no_mark h0.

Lemma der_gradient : forall m y0 g, Y m = Ok y0 -> length m = length (w_ctrls w) ->
  smooth_at bs (w_ctrls w) (at_ m) -> adjoints_right bs (w_ctrls w) (at_ m) -> der_at RO (w_tape w) rf h0 m = Ok g ->
  gradient_at Y sc m g.
Proof.
  intros m y0 g Hy Hl Hs Ha Hg. split.
  - unfold der_at in Hg. rewrite derivative_grad in Hg by exact Hne. rewrite Hl. exact (grad_length RO _ _ _ _ _ _ Hg).
  - intros d Ld.
    assert (Ey : snd (rf_call RO bs rf m h0) = Ok (y0 * sc)).
    { etransitivity; [apply (rf_call_rerun RO ann p j _ sc l Hc Hd Hj); auto|]. now rewrite Hy. }
    destruct (derivative_evaluated ann p j sc l m (y0 * sc) [] d g Hc Hd Hj) as (y & Ly & Dy); auto; [reflexivity | congruence |].
    exists (fun s => y s * sc). split; [|now rewrite dotR_dot]. revert Ly. apply filter_imp. intros s E. unfold objective. rewrite moved_shift, E. reflexivity.
Qed.

Lemma moved_0 : forall m d, length d = length m -> moved m d 0 = m.
Proof.
  unfold moved. induction m as [|x m IH]; intros [|y d] H; cbn in *; try discriminate H; [reflexivity|]. f_equal; [ring|]. apply IH. now injection H.
Qed.
Lemma moved_length : forall m d s, length d = length m -> length (moved m d s) = length m.
Proof. intros m d s H. unfold moved. rewrite map_length, combine_length. lia. Qed.

Lemma hessian_true : forall m d g H, length m = length (w_ctrls w) -> length d = length (w_ctrls w) -> is_ok (Y m) = true ->
  (forall x, length x = length (w_ctrls w) -> is_ok (Y x) = true -> smooth_at bs (w_ctrls w) (at_ x) /\ adjoints_right bs (w_ctrls w) (at_ x)) ->
  twice_smooth bs (w_ctrls w) (at_ m) -> tangents_right bs (w_ctrls w) (at_ m) -> second_order_sound bs (w_ctrls w) (rf_J rf) ->
  der_at RO (w_tape w) rf h0 m = Ok g -> hes_at RO (w_tape w) rf h0 m d = Ok H ->
  hessian_at Y sc m d H.
Proof.
  intros m d g H Hm Ld Hy Hreg Hts Htr Hso Hg HH. destruct (Y m) as [y0|] eqn:Ey; [|discriminate Hy]. cbn beta in Ey.
  destruct (recorded_clean RO ann p j Hc Hd Hj) as [Hwf [Hgv [Nc [Nm _]]]].
  assert (N0 : no_ctrl h0) by (apply hist_frame; exact Nc).
  assert (Ow : okheap (w_tape w) rf h0 (w_heap w)).
  { split; [exact Nc|]. split.
    - intros v. destruct (hist_frame RO bs l (w_heap w) Nc) as [_ E]. specialize (E v). unfold frame in E. injection E. intros. congruence.
    - intros v Hv Hv'. rewrite hist_leaf by assumption. rewrite latest_ctrl with (w := w) by assumption. reflexivity. }
  assert (Vm : val_at RO (w_tape w) rf h0 m = Ok (y0 * sc)).
  { unfold val_at. etransitivity; [apply (rf_call_rerun RO ann p j _ sc l Hc Hd Hj); auto|]. now rewrite Ey. }
  destruct (holds_call RO (w_tape w) rf h0 (proj1 Hwf) Hgv Hcl N0 (w_heap w) m _ Ow Nm Vm) as [Vw Hh].
  set (hw := fst (rf_call RO bs rf m (w_heap w))) in *. pose proof Hh as (_ & _ & Es).
  destruct (holds_deriv RO (w_tape w) rf h0 (proj1 Hwf) Hgv Hcl N0 Ho M0 hw m g Hh Hg) as [Eg Hhg].
  pose proof (deriv_derived RO (w_tape w) rf h0 (proj1 Hwf) Hgv Hcl N0 M0 Hne hw m Hh) as Dr.
  set (hg := fst (rf_derivative RO bs rf (f_one RO) hw)) in *.
  destruct (hess_derived RO (w_tape w) rf h0 (proj1 Hwf) Hgv Hcl N0 Ho M0 HJ hg m d H Hhg Dr (ex_intro _ g Hg) HH) as (hH & EH & HhH & _).
  assert (Eg' : rf_derivative RO bs rf 1 hw = (hg, Ok g)) by (rewrite <- Eg; apply surjective_pairing).
  destruct (hessian_recorded ann p j sc m (y0 * sc) hg g d hH H Hc Hd Hj Hnd Hi Ho Ld Vw Eg') as (G & LG & DG).
  { destruct Hts as [T1 T2]. split; [apply (smooth_at_ext bs _ (at_ m)); [intros; symmetry; apply Es | exact T1]|].
    intros b d0 d1 Hb Hn Hk Hdp Hin. rewrite !Es. exact (T2 b d0 d1 Hb Hn Hk Hdp Hin). }
  { intros b d1 Hb Hn Hd1 Hin. specialize (Htr b d1 Hb Hn Hd1 Hin). unfold tangent_right in *.
    assert (E : map (saved hw) (b_deps b) = map (at_ m) (b_deps b)) by (apply map_ext; exact Es). fold hw. rewrite E. exact Htr. }
  { exact Hso. }
  { exact EH. }
  split; [rewrite Hm; exact (hess_length RO _ _ _ _ _ _ HH)|]. split; [congruence|]. exists G. split; [|exact DG].
  (* the functional is defined along the line *)
  destruct (Hreg m Hm) as [S1 S2]; [now rewrite Ey|].
  destruct (der_gradient m y0 g Ey Hm S1 S2 Hg) as [_ GR]. destruct (GR d) as (f & Lf & _); [congruence|].
  generalize (filter_and _ _ Lf LG). apply filter_imp. intros t [A B].
  assert (Lt : length (moved m d t) = length (w_ctrls w)) by (rewrite moved_length; congruence).
  unfold objective in A. destruct (spec_rerun RO ann p (moved m d t) j) as [yt|] eqn:Et; [|discriminate A].
  destruct (Hreg (moved m d t) Lt) as [T1 T2]; [now rewrite Et|].
  apply (der_gradient _ yt); auto.
  assert (Vt : val_at RO (w_tape w) rf h0 (moved m d t) = Ok (yt * sc)).
  { unfold val_at. etransitivity; [apply (rf_call_rerun RO ann p j _ sc l Hc Hd Hj); auto|]. now rewrite Et. }
  destruct HhH as (OH & MH & _).
  destruct (holds_call RO (w_tape w) rf h0 (proj1 Hwf) Hgv Hcl N0 hH (moved m d t) _ OH MH Vt) as [_ Ht].
  rewrite <- (der_holds RO (w_tape w) rf h0 (proj1 Hwf) Hgv Hcl N0 Ho M0 _ _ Ht). rewrite moved_shift. exact B.
Qed.
Lemma hessian_der : forall m d g H, length m = length (w_ctrls w) ->
  (forall x, length x = length (w_ctrls w) -> is_ok (Y x) = true -> smooth_at bs (w_ctrls w) (at_ x) /\ adjoints_right bs (w_ctrls w) (at_ x)) ->
  twice_smooth bs (w_ctrls w) (at_ m) -> tangents_right bs (w_ctrls w) (at_ m) -> second_order_sound bs (w_ctrls w) (rf_J rf) ->
  is_ok (Y m) = true -> der_at RO (w_tape w) rf h0 m = Ok g -> is_ok (hes_at RO (w_tape w) rf h0 m d) = true ->
  hessian_at Y sc m d H -> hes_at RO (w_tape w) rf h0 m d = Ok H.
Proof.
  intros m d g H Hm Hreg Hts Htr Hso Hy Hg Hok HH. destruct (hes_at RO (w_tape w) rf h0 m d) as [H'|] eqn:E; [|discriminate Hok]. f_equal.
  apply (hessian_unique Y sc m d); [|exact HH]. apply (hessian_true m d g); auto. destruct HH as (_ & L & _). congruence.
Qed.
(** ... answered wherever the function has a Hessian *)
Lemma hessian_answer : forall m d y H, length m = length (w_ctrls w) ->
  (forall x, length x = length (w_ctrls w) -> is_ok (Y x) = true ->
     twice_smooth bs (w_ctrls w) (at_ x) /\ adjoints_right bs (w_ctrls w) (at_ x) /\ adjoints_run bs (w_ctrls w) (at_ x) /\ tangents_right bs (w_ctrls w) (at_ x) /\
     forall e, length e = length (w_ctrls w) -> is_ok (hes_at RO (w_tape w) rf h0 x e) = true) ->
  second_order_sound bs (w_ctrls w) (rf_J rf) -> objective Y sc m = Ok y -> hessian_at Y sc m d H -> hes_at RO (w_tape w) rf h0 m d = Ok H.
Proof.
  intros m d y H Hm Hreg Hso Hy HH.
  assert (Hok : is_ok (Y m) = true) by (unfold objective in Hy; destruct (Y m); [reflexivity|discriminate Hy]).
  destruct (Hreg m Hm Hok) as ([T1 T2] & A1 & A2 & A3 & A4). pose proof HH as (_ & Ld & G & LG & _).
  apply locally_singleton in LG. rewrite moved_0 in LG by exact Ld.
  apply (hessian_der m d (G 0) H); auto.
  - intros x Lx Hx. destruct (Hreg x Lx Hx) as ([B1 _] & B2 & _). auto.
  - split; assumption.
  - apply (gradient_der ann p j sc l m y (G 0)); auto.
  - apply A4. congruence.
Qed.
End Recorded.
