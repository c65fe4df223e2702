(** Derivatives under a checkpoint manager at the recorded control values. *)
From Coq Require Import List Arith ZArith Lia Bool.
From Verif Require Import Base Model BaseFacts Graph Record Spec RecordFacts Replay ReplayExec History Marks Session Ckpt SpecCkpt CkptProtocol CkptRecord CkptStep CkptInv CkptTape CkptEval CkptCall CkptAdj.
Import ListNotations.

Section Marks.
Context {V : Type} (F : fops V).
Implicit Types (h : heap V) (s : cst V).

Definition same_mark h h' : Prop := forall v, bv_mark (h' v) = bv_mark (h v).
Lemma same_mark_erase : forall h h', same_erase h h' -> same_mark h h'.
Proof. intros h h' H v. destruct (erase_fields _ _ (H v)) as [_ [_ [_ [_ [E _]]]]]. exact E. Qed.
Lemma reverse_step_mark : forall clear mk s k, same_mark (c_heap s) (c_heap (fst (reverse_step F clear mk s k))).
Proof.
  intros clear mk s k v. unfold reverse_step. destruct (nth_error _ k) as [cur|]; [|reflexivity].
  assert (M : forall l (hs : heap V * tstep V), bv_mark (fst (fst (iter_o (reverse_block F mk) l hs)) v) = bv_mark (fst hs v)).
  { intros l hs. destruct (iter_o _ l hs) as [hs' e] eqn:E. cbn [fst].
    refine (iter_o_inv _ (fun x => bv_mark (fst x v) = bv_mark (fst hs v)) _ _ _ _ _ eq_refl E).
    intros [h1 s1] b [h2 s2] e2 _ H1 E1. cbn [fst] in *. unfold reverse_block in E1.
    pose proof (adj_sweep_keeps F (@bv_mark V) (fun _ _ => eq_refl) [b] 0 mk h1 v) as K. unfold evaluate_adj in K. cbn in K.
    destruct (adj_block F mk h1 b) as [h3 [x|]]; cbn [fst] in K; [|destruct (ts_revised s1)]; inversion E1; subst; congruence. }
  specialize (M (rev (ts_blocks cur)) (c_heap s, cur)). destruct (iter_o _ _ (c_heap s, cur)) as [[h1 cur1] [e|]]; cbn [fst] in *; [exact M|].
  cbn [put_step on_tape_ on_heap c_heap]. destruct (reverse_outs clear (ts_state cur) (flat_map (@b_outs V) (ts_blocks cur)) h1 v) as [Q _]. rewrite Q. exact M.
Qed.
Lemma iter_mark : forall {A} (f : cst V -> A -> cst V * option exn) l s, (forall s x, same_mark (c_heap s) (c_heap (fst (f s x)))) -> same_mark (c_heap s) (c_heap (fst (iter_o f l s))).
Proof.
  intros A f l s Hf. destruct (iter_o f l s) as [s' e] eqn:E. refine (iter_o_inv f (fun x => same_mark (c_heap s) (c_heap x)) _ _ _ _ _ (fun _ => eq_refl) E).
  intros s1 x s2 e2 _ H1 E1 v. specialize (Hf s1 x v). rewrite E1 in Hf. cbn [fst] in Hf. rewrite Hf. apply H1.
Qed.
Lemma process_mark : forall func mk s a, same_mark (c_heap s) (c_heap (fst (process_op F func mk s a))).
Proof.
  intros func mk s a. assert (D : (exists n1 n0 c, a = AReverse n1 n0 c) \/ match a with AReverse _ _ _ => False | _ => True end) by (destruct a; eauto).
  destruct D as [[n1 [n0 [c ->]]]|D]; [|apply same_mark_erase; now apply process_erase]. cbn [process_op]. apply iter_mark. intros. apply reverse_step_mark.
Qed.
Lemma loop_mark : forall fuel mk s, same_mark (c_heap s) (c_heap (fst (reverse_loop F fuel mk s))).
Proof.
  induction fuel as [|f IH]; intros mk s v.
  - cbn [reverse_loop]. destruct (cm_cur (c_man s)); try reflexivity; destruct (next_act (c_man s)); reflexivity.
  - cbn [reverse_loop].
    assert (G : bv_mark (c_heap (fst match next_act (c_man s) with None => (s, Some EStopIter) | Some a => andthen (process_op F None mk (on_man (push_rev a) s) a) (reverse_loop F f mk) end) v) = bv_mark (c_heap s v)).
    { destruct (next_act (c_man s)) as [a|]; [|reflexivity]. pose proof (process_mark None mk (on_man (push_rev a) s) a v) as K.
      destruct (process_op F None mk (on_man (push_rev a) s) a) as [s1 [e|]]; cbn [andthen fst] in *; [exact K|]. rewrite IH. exact K. }
    destruct (cm_cur (c_man s)); exact G || reflexivity.
Qed.
Lemma adjoint_mark : forall mk s, cm_mode (c_man s) <> MRecord -> same_mark (c_heap s) (c_heap (fst (cm_evaluate_adj F 0 mk s))).
Proof.
  intros mk s Hm v. unfold cm_evaluate_adj. cbn [Nat.eqb negb].
  replace (match cm_mode (c_man s) with MRecord => end_taping s | _ => (s, None) end) with (s, @None exn) by (destruct (cm_mode (c_man s)); congruence). cbn [andthen].
  assert (G : bv_mark (c_heap (fst (andthen match cm_rev (c_man s) with [] => reverse_loop F (left_acts (c_man s)) mk s | acts => iter_o (process_op F None mk) acts s end
                (fun s2 => (on_man (set_mode MEvalAdj) s2, None)))) v) = bv_mark (c_heap s v)).
  { assert (K : same_mark (c_heap s) (c_heap (fst match cm_rev (c_man s) with [] => reverse_loop F (left_acts (c_man s)) mk s | acts => iter_o (process_op F None mk) acts s end))).
    { destruct (cm_rev (c_man s)) as [|a l]; [apply loop_mark|]. apply iter_mark. intros. apply process_mark. }
    specialize (K v). destruct (match cm_rev (c_man s) with [] => _ | _ => _ end) as [s1 [e|]]; exact K. }
  destruct (cm_mode (c_man s)); exact G || reflexivity.
Qed.
Lemma recompute_mark : forall func s, cm_mode (c_man s) <> MRecord -> same_mark (c_heap s) (c_heap (fst (cm_recompute F func s))).
Proof.
  intros func s Hm v. unfold cm_recompute.
  replace (match cm_mode (c_man s) with MRecord => end_taping s | _ => (s, None) end) with (s, @None exn) by (destruct (cm_mode (c_man s)); congruence).
  cbn [andthen]. set (s2 := on_man (set_mode MRecompute) s).
  destruct (cm_fwd (c_man s2)) as [|[n0 n1 ics adj st| | | | |] acts]; try reflexivity.
  destruct (nth_error (t_steps (c_tape s2)) n0) as [cur|] eqn:E; [|reflexivity].
  match goal with |- context[iter_o ?f ?l ?x] => rewrite (iter_mark f l x) end.
  - apply (same_mark_erase (c_heap s)). apply restore_erase.
  - intros s3 a u. apply (process_mark func _ (on_man (set_cur a) s3) a).
Qed.
End Marks.

Section Grad.
Context {V : Type} (F : fops V).
Implicit Types (h : heap V) (s : cst V).
Variable sc : schedule.
Variable n : nat.
Variable fwd back : list action.
Hypothesis Hcov : covering sc n fwd.
Hypothesis Hn : 1 <= n.
Hypothesis Hback : reversing sc n fwd back.
Variable bs : list (block V).
Variable r : nat -> V.
Variable cs : list nat.
Local Notation cut := (fun v => mem v cs).
Local Notation Fz := (fun _ : nat => True).
Local Notation nodes := (find_relevant bs cs).
Hypothesis Hraw : forall b, In b bs -> raw_result (b_kind b) = false.
Hypothesis Hwf : wf_tape bs.
Hypothesis Hrec : forall b, In b bs -> block_rec F r b.
Hypothesis Hon : forall c, In c cs -> In c (vars_of bs).
Hypothesis Hne : cs <> [].

Lemma all_fz : forall b, In b bs -> frozen F r Fz cut b.
Proof. intros b Hb. right. right. auto. Qed.
Lemma at_compat : compat r Fz cs (map r cs).
Proof. intros v x H. right. pose proof (supplied_in _ _ _ _ H) as Hv. rewrite (supplied_map_all cs r v Hv) in H. congruence. Qed.

Definition marks_in h : Prop := forall v, bv_mark (h v) = true -> In v nodes.
Definition Hist s : Prop :=
  ready sc n fwd bs r Fz s /\ marks_in (c_heap s) /\ (Post sc n fwd bs r Fz s -> RevOK fwd back (c_man s)).

Lemma done_rev : forall m, Done sc n fwd m -> RevOK fwd back m.
Proof. intros m D. left. split; [apply (dn_rev _ _ _ _ D)|]. split; [apply (dn_pos _ _ _ _ D)|]. rewrite (dn_cur _ _ _ _ D). discriminate. Qed.
Lemma pre_not_post : forall s, Pre sc n fwd bs r s -> cm_mode (c_man s) = MRecord.
Proof. intros s P. destruct (pr_world _ _ _ _ _ _ P) as [w [m [-> [_ [R _]]]]]. apply (rp_mode _ _ _ _ _ R). Qed.

(** ** The state when the adjoint sweep starts *)
Lemma start_mark : forall J x s v, t_flat (c_tape s) = bs -> bv_mark (c_heap (adj_start cs J x s) v) = if mem v nodes then true else bv_mark (c_heap s v).
Proof.
  intros J x s v Hb. unfold adj_start. cbn [on_heap c_heap]. rewrite upd_all_spec by reflexivity. rewrite upd_all_spec by reflexivity. rewrite Hb.
  assert (E : bv_mark (upd (reset_adj bs (c_heap s)) J (set_adj (Some x)) v) = bv_mark (c_heap s v)).
  { unfold upd, reset_adj. destruct (Nat.eqb v J); cbn; rewrite reset_with_spec by reflexivity; destruct (mem v (vars_of bs)); reflexivity. }
  destruct (mem v cs), (mem v nodes); cbn; auto.
Qed.
Lemma start_adj : forall J x s v, t_flat (c_tape s) = bs -> In v (vars_of bs) -> bv_adj (c_heap (adj_start cs J x s) v) = if Nat.eqb v J then Some x else None.
Proof.
  intros J x s v Hb Hv. unfold adj_start. cbn [on_heap c_heap]. rewrite upd_all_spec by reflexivity. rewrite upd_all_spec by reflexivity. rewrite Hb.
  assert (E : bv_adj (upd (reset_adj bs (c_heap s)) J (set_adj (Some x)) v) = if Nat.eqb v J then Some x else None).
  { unfold upd, reset_adj. destruct (Nat.eqb v J); cbn; [reflexivity|]. rewrite reset_with_spec by reflexivity. apply mem_In in Hv. rewrite Hv. reflexivity. }
  destruct (mem v cs), (mem v nodes); cbn; auto.
Qed.

Variable hw : heap V.
Hypothesis Hw1 : forall v, bv_mark (hw v) = false.
Hypothesis Hw2 : forall b d, In b bs -> In d (b_deps b) -> saved hw d = r d.
Definition plain_start (J : nat) (x : V) : heap V :=
  upd_all (upd_all (upd (reset_adj bs hw) J (set_adj (Some x))) nodes (set_mark true)) cs (set_ctrl true).
Lemma plain_mark : forall J x v, bv_mark (plain_start J x v) = mem v nodes.
Proof.
  intros J x v. unfold plain_start. rewrite upd_all_spec by reflexivity. rewrite upd_all_spec by reflexivity.
  assert (E : bv_mark (upd (reset_adj bs hw) J (set_adj (Some x)) v) = false).
  { unfold upd, reset_adj. destruct (Nat.eqb v J); cbn; rewrite reset_with_spec by reflexivity; destruct (mem v (vars_of bs)); apply Hw1. }
  destruct (mem v cs), (mem v nodes); cbn; auto.
Qed.
Lemma plain_adj : forall J x v, In v (vars_of bs) -> bv_adj (plain_start J x v) = if Nat.eqb v J then Some x else None.
Proof.
  intros J x v Hv. unfold plain_start. rewrite upd_all_spec by reflexivity. rewrite upd_all_spec by reflexivity.
  assert (E : bv_adj (upd (reset_adj bs hw) J (set_adj (Some x)) v) = if Nat.eqb v J then Some x else None).
  { unfold upd, reset_adj. destruct (Nat.eqb v J); cbn; [reflexivity|]. rewrite reset_with_spec by reflexivity. apply mem_In in Hv. rewrite Hv. reflexivity. }
  destruct (mem v cs), (mem v nodes); cbn; auto.
Qed.
Lemma plain_saved : forall J x v, saved (plain_start J x) v = saved hw v.
Proof.
  intros J x v. assert (K : bv_ckpt (plain_start J x v) = bv_ckpt (hw v) /\ bv_out (plain_start J x v) = bv_out (hw v)).
  { unfold plain_start. rewrite upd_all_spec by reflexivity. rewrite upd_all_spec by reflexivity.
    assert (E : bv_ckpt (upd (reset_adj bs hw) J (set_adj (Some x)) v) = bv_ckpt (hw v) /\ bv_out (upd (reset_adj bs hw) J (set_adj (Some x)) v) = bv_out (hw v)).
    { unfold upd, reset_adj. destruct (Nat.eqb v J); cbn; rewrite reset_with_spec by reflexivity; destruct (mem v (vars_of bs)); auto. }
    destruct (mem v cs), (mem v nodes); cbn; exact E. }
  unfold saved. destruct K as [-> ->]. reflexivity.
Qed.
Lemma plain_derivative_start : forall J scale x, snd (rf_derivative F bs (RF J cs scale) x hw) =
  let pl := evaluate_adj F bs 0 true (plain_start J (f_mul F x scale)) in
  match snd pl with Some e => Err e | None => Ok (map (get_derivative F (fst pl)) cs) end.
Proof.
  intros J scale x. unfold rf_derivative. cbn [rf_ctrls rf_J rf_scale]. destruct cs as [|c l] eqn:Ecs; [congruence|]. rewrite <- Ecs.
  unfold compute_gradient, with_marked_nodes, with_marked_controls. fold (plain_start J (f_mul F x scale)). cbv zeta.
  destruct (evaluate_adj F bs 0 true (plain_start J (f_mul F x scale))) as [h1 [e|]]; [reflexivity|]. cbn [fst snd]. f_equal. apply map_ext. intros v.
  unfold get_derivative. rewrite upd_all_spec by reflexivity. destruct (mem v nodes); cbn; rewrite upd_all_spec by reflexivity; destruct (mem v cs); reflexivity.
Qed.

(** ** One derivative *)
Lemma derivative_equal : forall J scale x s, Hist s -> may_adjoint (cm_mode (c_man s)) = true ->
  let rs := c_derivative F (RF J cs scale) x s in
  snd rs = snd (rf_derivative F bs (RF J cs scale) x hw) /\ (forall l, snd rs = Ok l -> RevOK fwd back (c_man (fst rs))).
Proof.
  intros J scale x s [R [Hm HR]] May. cbv zeta. rewrite (c_derivative_start F cs (RF J cs scale) x s eq_refl Hne). cbn [rf_J rf_scale]. set (y := f_mul F x scale).
  rewrite plain_derivative_start. fold y. cbv zeta.
  destruct (derivative_start F sc n fwd bs r Fz cs Hcov Hn J y s R) as [s1 [I1 [M1 [G1 [G2 [G3 G4]]]]]]. rewrite G1.
  assert (Fl : t_flat (c_tape s) = bs).
  { destruct R as [P|[I0 _]]; [|destruct I0 as [sk0 [E0 [_ Eb0]]]; rewrite <- Eb0; apply (ei_flat _ _ _ _ _ _ _ _ E0)]. destruct (pr_world _ _ _ _ _ _ P) as [w [m [-> [_ [_ [_ E]]]]]]. exact E. }
  assert (HR1 : RevOK fwd back (c_man s1)).
  { destruct G3 as [G3|G3]; [|now apply done_rev]. rewrite (G2 G3). now apply HR. }
  assert (Md : cm_mode (c_man s1) = MEvaluated \/ cm_mode (c_man s1) = MFinished).
  { destruct G3 as [G3|G3]; [|left; apply (dn_mode _ _ _ _ G3)]. rewrite (G2 G3) in M1 |- *. cbn in M1 |- *. destruct (cm_mode (c_man s)); try discriminate; auto; congruence. }
  destruct I1 as [sk [E1 [S1 B1]]].
  assert (Rl : Rel sk cut [] (c_heap s1) (plain_start J y)).
  { split; intros v.
    - destruct (erase_fields _ _ (G4 v)) as [_ [_ [_ [_ [K _]]]]]. rewrite K, plain_mark, start_mark by exact Fl. destruct (mem v nodes) eqn:E; [reflexivity|].
      destruct (bv_mark (c_heap s v)) eqn:Ev; [|reflexivity]. apply Hm in Ev. apply mem_In in Ev. congruence.
    - intros Hv. assert (Hv' : In v (vars_of bs)) by (destruct Hv as [[_ Hv]|Hv]; [rewrite <- B1; exact Hv|apply Hon; now apply mem_In]).
      destruct (erase_fields _ _ (G4 v)) as [_ [_ [_ [_ [_ K]]]]]. rewrite K, plain_adj, start_adj; auto. }
  destruct (adjoint_rec F sc n fwd back sk r cut S1) with (s := s1) (hp := plain_start J y) as [A1 A2]; try (rewrite B1); auto.
  { intros b d. rewrite B1. intros Hb Hd. rewrite plain_saved. eauto. }
  rewrite B1 in A1, A2. destruct (cm_evaluate_adj F 0 true s1) as [s2 [e|]]; cbn [fst snd] in *; rewrite <- A1; [split; [reflexivity|discriminate]|].
  destruct (A2 (eq_sym A1)) as [A3 A4]. split; [|intros l _; right; exact A4].
  f_equal. apply map_ext_in. intros c Hc. unfold get_derivative. cbn [on_heap c_heap]. rewrite upd_all_spec by reflexivity.
  assert (E : bv_adj (c_heap s2 c) = bv_adj (fst (evaluate_adj F bs 0 true (plain_start J y)) c)) by (apply A3; right; now apply mem_In).
  rewrite <- E. destruct (mem c _); cbn; rewrite upd_all_spec by reflexivity; destruct (mem c cs); reflexivity.
Qed.

Lemma derivative_hist : forall J scale x s l, Hist s -> snd (c_derivative F (RF J cs scale) x s) = Ok l -> may_adjoint (cm_mode (c_man s)) = true ->
  Hist (fst (c_derivative F (RF J cs scale) x s)).
Proof.
  intros J scale x s l H Ok1 May. destruct (derivative_equal J scale x s H May) as [_ K]. destruct H as [R [Hm HR]].
  split; [right; exact (derivative_leaves F sc n fwd bs r Fz cs Hcov Hn Hraw all_fz (RF J cs scale) x s R eq_refl Hne)|]. split; [|intros _; eapply K; eauto].
  rewrite (c_derivative_start F cs (RF J cs scale) x s eq_refl Hne). cbn [rf_J rf_scale]. set (y := f_mul F x scale).
  destruct (derivative_start F sc n fwd bs r Fz cs Hcov Hn J y s R) as [s1 [I1 [M1 [G1 [G2 [G3 G4]]]]]]. rewrite G1.
  assert (Fl : t_flat (c_tape s) = bs).
  { destruct R as [P|[I0 _]]; [|destruct I0 as [sk0 [E0 [_ Eb0]]]; rewrite <- Eb0; apply (ei_flat _ _ _ _ _ _ _ _ E0)]. destruct (pr_world _ _ _ _ _ _ P) as [w [m [-> [_ [_ [_ E]]]]]]. exact E. }
  assert (Q : marks_in (c_heap (fst (cm_evaluate_adj F 0 true s1)))).
  { intros v Hv. rewrite (adjoint_mark F true s1 M1 v) in Hv. destruct (erase_fields _ _ (G4 v)) as [_ [_ [_ [_ [K' _]]]]]. rewrite K', start_mark in Hv by exact Fl.
    destruct (mem v nodes) eqn:E; [now apply mem_In|now apply Hm]. }
  destruct (cm_evaluate_adj F 0 true s1) as [s2 [e|]]; cbn [fst on_heap c_heap] in *; intros v Hv; rewrite upd_all_spec in Hv by reflexivity.
  - apply Q. destruct (mem v cs); exact Hv.
  - destruct (mem v (find_relevant (t_flat (c_tape s)) cs)); [discriminate|]. rewrite upd_all_spec in Hv by reflexivity. apply Q. destruct (mem v cs); exact Hv.
Qed.

(** ** One evaluation at the recorded values *)
Lemma forward_not_rev : forall a k acts, covers n k acts -> In a acts -> a <> AEndReverse.
Proof. intros a k acts H. induction H; intros [X|X]; subst; try discriminate; try (destruct X); auto. Qed.

Lemma covers_ok : forall func sk k acts, StepsOK n sk -> flat_map fst sk = bs -> covers n k acts -> forall s, EInv sc n fwd sk r Fz cut s ->
  snd (iter_o (fun s a => process_op F func false (on_man (set_cur a) s) a) acts s) = None.
Proof.
  intros func sk k acts SO Eb H.
  assert (Hraw' : forall b, In b (flat_map fst sk) -> raw_result (b_kind b) = false) by (rewrite Eb; exact Hraw).
  assert (Hrec' : forall b, In b (flat_map fst sk) -> block_rec F r b) by (rewrite Eb; exact Hrec).
  assert (G : forall l, (forall a, In a l -> match a with AReverse _ _ _ => False | ACopy k _ | AMove k _ => k < n | _ => True end) -> forall s, EInv sc n fwd sk r Fz cut s ->
    snd (iter_o (fun s a => process_op F func false (on_man (set_cur a) s) a) l s) = None).
  { induction l as [|a l IH]; intros Hl s E; [reflexivity|]. cbn [iter_o].
    assert (E1 : EInv sc n fwd sk r Fz cut (on_man (set_cur a) s)) by (apply EInv_man; [exact E|apply MFix_cur; apply (ei_man _ _ _ _ _ _ _ _ E)]).
    pose proof (rec_process F sc n fwd sk r cut SO Hraw' Hrec' func false _ a E1 (Hl a (or_introl eq_refl))) as K.
    pose proof (process_inv F sc n fwd sk r Fz cut Hraw' (rec_frozen F sk r cut Hrec') (so_len _ _ SO) func false _ a E1) as I1.
    destruct (process_op F func false (on_man (set_cur a) s) a) as [s1 e]. cbn [fst snd] in *. subst e. apply IH; [|exact I1]. intros b Hb. apply Hl. now right. }
  intros s E. apply G; [|exact E]. clear - H. intros a Ha. induction H as [|k n1 ics adj st rest _ _ H IH].
  - destruct Ha as [<-|[]]. exact I.
  - destruct Ha as [<-|Ha]; [exact I|exact (IH Ha)].
Qed.

Lemma recompute_rec : forall func s, Inv sc n fwd bs r Fz cut s -> cm_mode (c_man s) <> MRecord -> RevOK fwd back (c_man s) ->
  snd (cm_recompute F func s) = None /\ cm_mode (c_man (fst (cm_recompute F func s))) = MEvaluated /\ RevOK fwd back (c_man (fst (cm_recompute F func s))).
Proof.
  intros func s [sk [E [SO Eb]]] Hm HR. destruct Hcov as [Hc _].
  assert (N : snd (cm_recompute F func s) = None).
  { unfold cm_recompute. replace (match cm_mode (c_man s) with MRecord => end_taping s | _ => (s, None) end) with (s, @None exn) by (destruct (cm_mode (c_man s)); congruence).
    cbn [andthen on_man c_man set_mode cm_fwd c_tape]. rewrite (mf_fwd _ _ _ _ (ei_man _ _ _ _ _ _ _ _ E)).
    assert (Hs : exists n1 ics adj st rest, fwd = AForward 0 n1 ics adj st :: rest).
    { clear - Hc Hn. inversion Hc as [Hz|k n1 ics adj st rest Hk Hn1 Hr Hx Hy]; subst; [lia|]. exists n1, ics, adj, st, rest. reflexivity. }
    destruct Hs as [n1 [ics [adj [st [rest Ef]]]]].
    pose proof (ei_sk _ _ _ _ _ _ _ _ E) as L. apply (f_equal (@length _)) in L. rewrite map_length, (so_len _ _ SO) in L.
    destruct (nth_error (t_steps (c_tape s)) 0) as [cur|] eqn:En; [|apply nth_error_None in En; lia].
    set (s2 := on_man (set_mode MRecompute) s). change (CS (c_heap s) (c_tape s) (set_mode MRecompute (c_man s))) with s2.
    assert (E2 : EInv sc n fwd sk r Fz cut s2) by (apply EInv_man; [exact E|apply MFix_mode; apply (ei_man _ _ _ _ _ _ _ _ E)]).
    assert (E3 : EInv sc n fwd sk r Fz cut (on_heap (fun h => ts_restore h cur) s2)).
    { apply (EInv_heap sc n fwd sk r Fz cut cut s2 (ts_restore (c_heap s2) cur) E2). apply HInv_restore; [apply (ei_heap _ _ _ _ _ _ _ _ E)|]. eapply EInv_dict; [exact E|exact En]. }
    pose proof (covers_ok func sk 0 fwd SO Eb Hc _ E3) as X.
    rewrite Ef in X |- *. rewrite En. exact X. }
  split; [exact N|].
  assert (Hi : MInv (c_man s)).
  { split; [right|intros ?; contradiction]. rewrite (mf_fwd _ _ _ _ (ei_man _ _ _ _ _ _ _ _ E)). clear - Hc.
    induction Hc as [|k n1 ics adj st rest _ _ _ [l [-> IH]]]; [exists []; auto|]. exists (AForward k n1 ics adj st :: l). cbn. auto. }
  destruct (recompute_man F func s Hi Hm) as [_ Rm]. cbv zeta in Rm. rewrite N in Rm. split; [exact Rm|].
  unfold cm_recompute. replace (match cm_mode (c_man s) with MRecord => end_taping s | _ => (s, None) end) with (s, @None exn) by (destruct (cm_mode (c_man s)); congruence).
  cbn [andthen on_man c_man set_mode cm_fwd c_tape].
  assert (Rm' : RevOK fwd back (c_man (on_man (set_mode MRecompute) s))) by exact HR.
  rewrite (mf_fwd _ _ _ _ (ei_man _ _ _ _ _ _ _ _ E)).
  destruct fwd as [|[n0 n1 ics adj st| | | | |] acts] eqn:Ef; try exact Rm'. destruct (nth_error (t_steps (c_tape s)) n0) as [cur|]; [|exact Rm']. rewrite <- Ef in *.
  match goal with |- context[iter_o ?f ?l ?x] => destruct (iter_o f l x) as [s' e] eqn:Ei; refine (iter_o_inv f (fun z => RevOK fwd back (c_man z)) l x s' e _ _ Ei) end; [|exact Rm'].
  intros s1 a s2 e2 Ha H1 E1. destruct (process_pos F func false (on_man (set_cur a) s1) a) as [P1 P2]. destruct (process_op_man F func false (on_man (set_cur a) s1) a) as [_ [P3 _]].
  rewrite E1 in P1, P2, P3. cbn [fst on_man c_man set_cur cm_pos cm_rev cm_cur] in P1, P2, P3. destruct H1 as [[K1 [K2 K3]]|K1]; [left|right; congruence].
  split; [congruence|]. split; [congruence|]. rewrite P3. eapply forward_not_rev; eauto.
Qed.

Lemma call_hist : forall rf s, Hist s -> rf_ctrls rf = cs -> let rs := c_call F rf (map r cs) s in Hist (fst rs) /\ cm_mode (c_man (fst rs)) = MEvaluated.
Proof.
  intros rf s [R [Hm HR]] Er. cbv zeta. rewrite (c_call_entered F cs rf (map r cs) s Er (map_length _ _)). cbv zeta.
  pose proof (call_leaves F sc n fwd bs r Fz cs Hcov Hn Hraw all_fz rf (map r cs) s R Er at_compat (map_length _ _)) as L.
  rewrite (c_call_entered F cs rf (map r cs) s Er (map_length _ _)) in L. cbv zeta in L.
  destruct (call_start F sc n fwd bs r Fz cs Hcov Hn s (map r cs) R at_compat (map_length _ _)) as [s1 [I1 [M1 [G1 [G2 [G3 G4]]]]]]. rewrite G1 in *.
  set (func := if truthy F (bv_out (c_heap s (rf_J rf))) then Some (rf_J rf) else None) in *.
  assert (HR1 : RevOK fwd back (c_man s1)).
  { destruct G3 as [G3|G3]; [|now apply done_rev]. rewrite (G2 G3). now apply HR. }
  destruct (recompute_rec func s1 I1 M1 HR1) as [_ [A2 A3]]. pose proof (recompute_mark F func s1 M1) as Q.
  destruct (cm_recompute F func s1) as [s2 e]. cbn [fst on_heap c_heap c_man] in *. split; [|exact A2].
  split; [right; exact L|]. split; [|intros _; exact A3].
  intros v Hv. cbn [on_heap c_heap fst] in Hv. rewrite upd_all_spec in Hv by reflexivity. assert (Hv' : bv_mark (c_heap s2 v) = true) by (destruct (mem v cs); exact Hv).
  rewrite Q in Hv'. destruct (erase_fields _ _ (G4 v)) as [_ [_ [_ [_ [K _]]]]]. rewrite K in Hv'. apply Hm. cbn [entered on_heap on_tape_ c_heap] in Hv'.
  rewrite upd_all_spec in Hv' by reflexivity.
  assert (Hu : forall l vals h, bv_mark (update_controls h l vals v) = bv_mark (h v)).
  { clear. induction l as [|c l IH]; intros [|x vals] h; try reflexivity. cbn. rewrite IH. unfold upd. destruct (Nat.eqb v c); [|reflexivity]. unfold put_ckpt. destruct (bv_ctrl (h v)); reflexivity. }
  rewrite <- (Hu cs (map r cs)). destruct (mem v cs); exact Hv'.
Qed.
End Grad.

Section Session.
Context {V : Type} (F : fops V).
Implicit Types (h : heap V) (s : cst V).
Variable sc : schedule.
Variable n : nat.
Variable fwd back : list action.
Hypothesis Hcov : covering sc n fwd.
Hypothesis Hn : 1 <= n.
Hypothesis Hback : reversing sc n fwd back.
Variable pkg ann : bool.
Variable p : list (stmt V).
Hypothesis Hp : pure_program p.
Hypothesis Hcons : consistent p.
Hypothesis Hends : sc_max sc = None -> S (ends p) = n.
Variable s0 : cst V.
Hypothesis Hs0 : ckpt_session F pkg sc ann p s0.
Local Notation w := (exec F (world_new F ann) p).
Variable cs : list nat.
Hypothesis Hon : on_tape (flat w) cs.
Let r (v : nat) : V := bv_rec (w_heap w v).

Lemma rec_blocks : forall b, In b (flat w) -> block_rec F r b.
Proof. pose proof (wi_rec F [] _ (world_inv F ann p Hp Hcons)) as K. rewrite Forall_forall in K. exact K. Qed.

Lemma session_hist : Hist sc n fwd back (flat w) r cs s0.
Proof.
  split; [exact (session_ready F sc n fwd Hcov Hn pkg ann p Hp Hcons Hends s0 Hs0 _)|].
  destruct (session_spec F pkg sc n fwd ann p s0 Hcov Hn Hp Hends Hs0) as [w' [m [-> [C [T R]]]]]. split.
  - intros v Hv. cbn in Hv. rewrite <- (proj1 (proj2 (skel_flags _ _ (tw_heap _ _ T v)))) in Hv.
    destruct (wi_clean F [] _ (world_inv F ann p Hp Hcons) v) as [_ [_ [_ K]]]. congruence.
  - intros [_ Hm]. destruct R as [[R _]|[D _]]; [|exact (done_rev sc n fwd back m D)]. exfalso. apply Hm. apply (rp_mode _ _ _ _ _ R).
Qed.

Lemma hist_keep : forall ops s, cs <> [] -> Hist sc n fwd back (flat w) r cs s -> Forall (on_controls cs) ops -> Forall (at_values (map r cs)) ops -> derivs_ok F s ops = true ->
  Hist sc n fwd back (flat w) r cs (cop_hist F s ops).
Proof.
  induction ops as [|o ops IH]; intros s Hne H H1 H2 H3; [exact H|]. inversion H1 as [|? ? A1 A2]; subst. inversion H2 as [|? ? B1 B2]; subst.
  cbn [derivs_ok] in H3. apply andb_true_iff in H3 as [D1 D2]. cbn [cop_hist]. apply IH; auto.
  destruct o as [|rf vals|rf x]; cbn in A1, B1; [contradiction| |].
  - subst vals. cbn [cop_run fst].
    exact (proj1 (call_hist F sc n fwd back Hcov Hn Hback (flat w) r cs (flat_raw F ann p Hp) rec_blocks rf s H A1)).
  - unfold ok in D1. cbn [cop_run fst snd] in *. destruct rf as [J cs' scale]. cbn in A1. subst cs'.
    destruct (snd (c_derivative F (RF J cs scale) x s)) as [l|] eqn:El; [|discriminate].
    assert (May : may_adjoint (cm_mode (c_man s)) = true).
    { destruct (may_adjoint (cm_mode (c_man s))) eqn:Em; [reflexivity|]. destruct (derivative_refused F (RF J cs scale) x s Em) as [h [e [E _]]]. rewrite E in El. discriminate. }
    refine (derivative_hist F sc n fwd back Hcov Hn Hback (flat w) r cs (flat_raw F ann p Hp) (wi_wf F [] _ (world_inv F ann p Hp Hcons)) rec_blocks Hon Hne (w_heap w) _ _ J scale x s l H El May).
    + intros v. apply (wi_clean F [] _ (world_inv F ann p Hp Hcons) v).
    + intros b d Hb Hd. apply (saved_rec F); [exact (world_inv F ann p Hp Hcons)|]. left. apply in_flat_map. eauto.
Qed.

Lemma cop_hist_app : forall a b s, cop_hist F s (a ++ b) = cop_hist F (cop_hist F s a) b.
Proof. induction a as [|o a IH]; intros b s; [reflexivity|]. cbn. apply IH. Qed.
Lemma derivs_ok_app : forall a b s, derivs_ok F s (a ++ b) = derivs_ok F s a && derivs_ok F (cop_hist F s a) b.
Proof. induction a as [|o a IH]; intros b s; [reflexivity|]. cbn. now rewrite IH, andb_assoc. Qed.

Lemma ckpt_derivative_recorded : forall ops J scale x, Forall (on_controls cs) ops -> Forall (at_values (map r cs)) ops -> derivs_ok F s0 ops = true ->
  evaluated_last ops ->
  snd (c_derivative F (RF J cs scale) x (cop_hist F s0 ops)) = snd (rf_derivative F (flat w) (RF J cs scale) x (w_heap w)).
Proof.
  intros ops J scale x H1 H2 H3 H4. destruct (list_eq_dec Nat.eq_dec cs []) as [E|Hne].
  { unfold c_derivative, rf_derivative. cbn [rf_ctrls]. rewrite E. reflexivity. }
  pose proof (hist_keep ops s0 Hne session_hist H1 H2 H3) as H.
  assert (May : may_adjoint (cm_mode (c_man (cop_hist F s0 ops))) = true).
  { destruct H4 as [->|[l' [rf [vals ->]]]].
    - cbn. destruct (session_spec F pkg sc n fwd ann p s0 Hcov Hn Hp Hends Hs0) as [w' [m [-> [_ [_ R]]]]]. cbn.
      destruct R as [[R _]|[D _]]; [rewrite (rp_mode _ _ _ _ _ R)|rewrite (dn_mode _ _ _ _ D)]; reflexivity.
    - apply Forall_app in H1 as [H1 H1']. apply Forall_app in H2 as [H2 H2']. rewrite derivs_ok_app in H3. apply andb_true_iff in H3 as [H3 _].
      inversion H1' as [|? ? A1 _]; subst. inversion H2' as [|? ? B1 _]; subst. cbn in A1, B1. subst vals. rewrite cop_hist_app. cbn [cop_hist cop_run fst].
      pose proof (hist_keep l' s0 Hne session_hist H1 H2 H3) as H'.
      destruct (call_hist F sc n fwd back Hcov Hn Hback (flat w) r cs (flat_raw F ann p Hp) rec_blocks rf _ H' A1) as [_ K]. cbv zeta in K. rewrite K. reflexivity. }
  refine (proj1 (derivative_equal F sc n fwd back Hcov Hn Hback (flat w) r cs (flat_raw F ann p Hp) (wi_wf F [] _ (world_inv F ann p Hp Hcons)) rec_blocks Hon Hne (w_heap w) _ _ J scale x _ H May)).
  - intros v. apply (wi_clean F [] _ (world_inv F ann p Hp Hcons) v).
  - intros b d Hb Hd. apply (saved_rec F); [exact (world_inv F ann p Hp Hcons)|]. left. apply in_flat_map. eauto.
Qed.
End Session.
