(** Floating objects: evaluations after other calls. *)
From Coq Require Import List Arith ZArith Lia Bool.
From Verif Require Import Base Model BaseFacts Graph Record Spec RecordFacts Replay ReplayExec History Session Sweep Marks Floating SpecFloating FloatFacts.
Import ListNotations.
Open Scope nat_scope.

(** Evaluations in the history are of reduced functionals with these controls. *)
Definition own_calls {V} (ctrls : list nat) (l : list (api V)) : Prop := forall rf vals, In (ACall rf vals) l -> rf_ctrls rf = ctrls.

Section FloatHist.
Context {V : Type} (F : fops V).

Lemma own_saved : forall bs ctrls l h, no_ctrl h -> own_calls ctrls l ->
  forall u, ~ In u ctrls -> ~ In u (computed (fun u => mem u ctrls) bs) -> saved (run_hist F bs h l) u = saved h u.
Proof.
  intros bs ctrls l. induction l as [|a l IH]; intros h Nc Ho u Hu Hn; [reflexivity|].
  change (run_hist F bs h (a :: l)) with (run_hist F bs (fst (api_run F bs h a)) l).
  rewrite IH; auto; [|now apply api_no_ctrl|intros rf vals K; apply (Ho rf vals); now right].
  destruct (is_call a) eqn:Ea; [|now apply (sweep_values F bs h a Nc Ea)].
  destruct a as [rf vals| | | | | | | | | |]; try discriminate. pose proof (Ho rf vals (or_introl eq_refl)) as Er. cbn [api_run].
  assert (Ef : fst (let '(h', r) := rf_call F bs rf vals h in (h', rmap (fun x => [x]) r)) = fst (rf_call F bs rf vals h)) by (destruct (rf_call F bs rf vals h); reflexivity).
  rewrite Ef. clear Ef.
  destruct (Nat.eq_dec (length vals) (length (rf_ctrls rf))) as [Hl|Hl].
  2:{ rewrite (rf_call_mismatch F bs rf vals h Hl). reflexivity. }
  destruct (rf_call_spec F bs rf vals h Nc Hl) as [_ [B _]].
  replace (saved (fst (rf_call F bs rf vals h)) u) with (start_env h (rf_ctrls rf) vals u); [|rewrite B, Er; symmetry; apply geval_frame; exact Hn].
  unfold start_env. pose proof (supplied_some (rf_ctrls rf) vals u Hl) as K. rewrite Er in *. rewrite (proj2 (mem_false _ _) Hu) in K.
  destruct (supplied _ _ u); [discriminate|reflexivity].
Qed.

Lemma float_rerun : forall ann p j vals scale l, fconsistent p -> legal F (SSt [] ann None [], []) p ->
  j < length (w_objs (fst (float_exec F ann p))) -> plain (snd (float_exec F ann p)) j ->
  let w := fst (float_recorded F ann p j) in
  let J := snd (float_recorded F ann p j) in
  length vals = length (w_ctrls w) -> own_calls (w_ctrls w) l ->
  snd (rf_call F (t_flat (w_tape w)) (RF J (w_ctrls w) scale) vals (run_hist F (t_flat (w_tape w)) (w_heap w) l)) =
    rmap (fun x => f_mul F x scale) (spec_frerun F ann p vals j).
Proof.
  intros ann p j vals scale l Hc Hl Hj Hp w J Hlen Ho. destruct (float_rerun_at F ann p j vals scale Hc Hl Hj Hp) as [W A]. fold w J in W, A.
  apply A; [exact Hlen|apply hist_frame; exact (wi_ctrl F [] w W)|]. intros u. apply own_saved; [exact (wi_ctrl F [] w W)|exact Ho].
Qed.
End FloatHist.
