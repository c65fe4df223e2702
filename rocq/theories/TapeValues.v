(** The value every variable holds after an evaluation. *)
From Coq Require Import List Arith ZArith Bool Lia.
From Verif Require Import Base Model Record Spec BaseFacts Graph RecordFacts Replay ReplayExec History Session Marks.
Import ListNotations.

Section TapeValues.
Context {V : Type} (F : fops V).

(** An evaluation of another functional leaves the same values. *)
Lemma call_other : forall bs J J' cs sc vals h, no_ctrl h -> length vals = length cs ->
  forall v, saved (fst (rf_call F bs (RF J cs sc) vals h)) v = saved (fst (rf_call F bs (RF J' cs sc) vals h)) v.
Proof.
  intros bs J J' cs sc vals h Hn Hl v. pose proof (rf_call_spec F bs (RF J cs sc) vals h Hn Hl) as [_ [A _]].
  pose proof (rf_call_spec F bs (RF J' cs sc) vals h Hn Hl) as [_ [B _]]. cbn [rf_ctrls] in *. congruence.
Qed.

Theorem evaluated_values : forall ann p j vals scale l1 l2 y k ob u,
  consistent p -> disciplined ann p = true -> j < length (w_objs (exec F (world_new F ann) p)) ->
  let w := fst (recorded F ann p j) in
  let rf := RF (snd (recorded F ann p j)) (w_ctrls w) scale in
  let r := rf_call F (flat w) rf vals (run_hist F (flat w) (w_heap w) l1) in
  length vals = length (w_ctrls w) -> calls_controls w l1 -> (l1 = [] \/ closed (w_ctrls w) (flat w)) ->
  snd r = Ok y -> forallb (fun a => negb (is_call a)) l2 = true ->
  nth_error (w_objs w) k = Some ob -> o_bv ob = Some u ->
  spec_rerun F ann p vals k = Ok (saved (run_hist F (flat w) (fst r) l2) u).
Proof.
  intros ann p j vals scale l1 l2 y k ob u Hc Hd Hj w rf r Hl Hcc Hcl Hr Hn Hk Hu.
  destruct (recorded_good F ann p j no_override Hc Hd Hj) as [[W _] [Hv C]]. fold w in W, Hv, C.
  assert (N0 : no_ctrl (w_heap w)) by (intros q; apply (wi_ctrl F [] w W)).
  assert (N1 : no_ctrl (run_hist F (flat w) (w_heap w) l1)) by (now apply (hist_frame F)).
  assert (N2 : no_ctrl (fst r)).
  { intros q. destruct (rf_call_spec F (flat w) rf vals _ N1 Hl) as [_ [_ E]]. specialize (E q). fold r in E. apply erase_ckpt_ctrl in E. rewrite E. apply N1. }
  rewrite (hist_saved F (flat w) l2 (fst r) N2 Hn).
  assert (Hrr := rf_call_rerun F ann p j vals scale l1 Hc Hd Hj Hl Hcc Hcl). fold w rf r in Hrr.
  set (St := fun ov => spec_exec F ov ann p).
  assert (HS : forall ov, good F ov w (St ov)) by (intros ov; exact (proj1 (recorded_good F ann p j ov Hc Hd Hj))).
  destruct (call_history_full F w St k u (w_ctrls w) vals scale l1 HS Hv (ex_intro _ ob (conj Hk Hu)) (fun c H => H) Hl Hcc Hcl) as [_ Q].
  destruct (call_history_full F w St j (snd (recorded F ann p j)) (w_ctrls w) vals scale l1 HS Hv C (fun c H => H) Hl Hcc Hcl) as [Rj _].
  fold rf r in Rj. rewrite Hr in Rj. set (ov := prescribe _ vals (hist_override F w l1)) in *.
  assert (E : spec_rerun F ann p vals k = rerun_value (St ov) k).
  { rewrite spec_rerun_value, (spec_ctrls F ann p j Hc Hd Hj). fold w. change (rerun_value (St ov) k) with (spec_value F ov ann p k).
    apply spec_value_ext. unfold ov. apply prescribe_agree; [now rewrite map_length|].
    intros q. destruct (hist_override F w l1 q) eqn:Eq; [left|right; reflexivity]. apply (hist_override_in F w l1). congruence. }
  rewrite E. clear E. unfold rerun_value in *.
  destruct (s_err (St ov)) as [e|]; [discriminate|].
  destruct (nth_error (s_objs (St ov)) k) as [so|] eqn:Es.
  - f_equal. rewrite <- (Q (s_rep so) eq_refl). unfold r, rf. now apply call_other.
  - apply nth_error_None in Es. apply nth_error_some_lt in Hk. rewrite (sm_len F ov w _ (proj2 (HS ov))) in Hk. lia.
Qed.
End TapeValues.
