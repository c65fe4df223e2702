(** Derivatives through the checkpoint manager: the reverse sweep against the plain one. *)
From Coq Require Import List Arith ZArith Lia Bool.
From Verif Require Import Base Model BaseFacts Graph Record Spec RecordFacts Replay ReplayExec History Session Ckpt SpecCkpt CkptProtocol CkptRecord CkptStep CkptInv CkptTape CkptEval CkptCall.
Import ListNotations.

Section Erase.
Context {V : Type} (F : fops V).
Implicit Types (h : heap V).

(** ** Actions other than Reverse only touch stored values *)
Definition same_erase h h' : Prop := forall v, erase_ckpt (h' v) = erase_ckpt (h v).
Lemma same_erase_refl : forall h, same_erase h h.
Proof. intros h v. reflexivity. Qed.
Lemma same_erase_trans : forall a b c, same_erase a b -> same_erase b c -> same_erase a c.
Proof. intros a b c H1 H2 v. now rewrite H2. Qed.

Lemma drops_erase : forall l h, same_erase h (fold_left drop l h).
Proof. intros l h v. rewrite drop_all. destruct (mem v l); reflexivity. Qed.
Lemma restore_erase : forall (t : tstep V) h, same_erase h (ts_restore h t).
Proof.
  intros t. unfold ts_restore. induction (ts_ckpt t) as [|[v x] l IH]; intros h; [apply same_erase_refl|]. cbn [fold_left].
  eapply same_erase_trans; [|apply IH]. intros u. cbn [fst snd]. unfold upd. destruct (Nat.eqb u v); [|reflexivity].
  destruct x as [[y q]|]; apply put_ckpt_erase.
Qed.
Lemma forward_erase : forall n0 ics adj st func s k, same_erase (c_heap s) (c_heap (fst (forward_step F n0 ics adj st func s k))).
Proof.
  intros n0 ics adj st func s k. unfold forward_step. destruct (nth_error _ k) as [cur|]; [|apply same_erase_refl].
  destruct (iter_o (recompute_block F) (ts_blocks cur) (c_heap s)) as [h1 e] eqn:Eh.
  assert (H1 : same_erase (c_heap s) h1) by exact (recompute_all_erase F _ _ _ _ Eh).
  destruct e as [e|]; [exact H1|]. destruct (if is_work st then _ else _) as [cur1 [e1|]]; [exact H1|].
  destruct (match cm_total (c_man s) with Some n => _ | None => _ end) as [nx|]; [|exact H1].
  match goal with |- context[clear_state ?a ?b ?c ?d ?e ?f ?g ?h] => destruct (clear_state a b c d e f g h) as [h3 keep] eqn:Ek end. cbn [fst on_heap c_heap].
  eapply same_erase_trans; [|apply drops_erase]. eapply same_erase_trans; [exact H1|]. intros v. destruct (clear_state_spec _ _ _ _ _ _ _ _ _ _ Ek v) as [->|[_ ->]]; reflexivity.
Qed.
Lemma process_erase : forall func mk s a, match a with AReverse _ _ _ => False | _ => True end ->
  same_erase (c_heap s) (c_heap (fst (process_op F func mk s a))).
Proof.
  intros func mk s a Ha. destruct a as [n0 n1 ics adj st|n1 n0 clear|k st|k st| |]; cbn [process_op]; try contradiction; try apply same_erase_refl.
  - destruct (iter_o _ _ s) as [s' e] eqn:E. cbn [fst]. refine (iter_o_inv _ (fun x => same_erase (c_heap s) (c_heap x)) _ _ _ _ _ (same_erase_refl _) E).
    intros s1 x s2 e2 _ H1 E1. eapply same_erase_trans; [exact H1|]. pose proof (forward_erase n0 ics adj st func s1 x) as K. now rewrite E1 in K.
  - destruct (nth_error _ k) as [cur|]; [|apply same_erase_refl]. apply restore_erase.
  - destruct (nth_error _ k) as [cur|]; [|apply same_erase_refl]. apply restore_erase.
Qed.

(** The schedule position and the kept reverse actions are not touched by any action. *)
Lemma process_pos : forall func mk s a, cm_pos (c_man (fst (process_op F func mk s a))) = cm_pos (c_man s) /\ cm_rev (c_man (fst (process_op F func mk s a))) = cm_rev (c_man s).
Proof.
  assert (I : forall {A} (f : cst V -> A -> cst V * option exn) l s, (forall s x, cm_pos (c_man (fst (f s x))) = cm_pos (c_man s) /\ cm_rev (c_man (fst (f s x))) = cm_rev (c_man s)) ->
    cm_pos (c_man (fst (iter_o f l s))) = cm_pos (c_man s) /\ cm_rev (c_man (fst (iter_o f l s))) = cm_rev (c_man s)).
  { intros A f l s Hf. destruct (iter_o f l s) as [s' e] eqn:E. refine (iter_o_inv f (fun x => cm_pos (c_man x) = cm_pos (c_man s) /\ cm_rev (c_man x) = cm_rev (c_man s)) l s s' e _ (conj eq_refl eq_refl) E).
    intros s1 x s2 e2 _ [A1 A2] E1. destruct (Hf s1 x) as [B1 B2]. rewrite E1 in B1, B2. cbn in *. split; congruence. }
  intros func mk s a. destruct a as [n0 n1 ics adj st|n1 n0 clear|k st|k st| |]; cbn [process_op]; auto.
  - apply I. intros s1 k. unfold forward_step. destruct (nth_error _ k) as [cur|]; [|auto]. destruct (iter_o _ _ _) as [h1 [e|]]; [auto|].
    destruct (if is_work st then _ else _) as [cur1 [e1|]]; [auto|]. destruct (match cm_total (c_man s1) with Some n => _ | None => _ end) as [nx|]; [|auto].
    match goal with |- context[clear_state ?a ?b ?c ?d ?e ?f ?g ?h] => destruct (clear_state a b c d e f g h) as [h3 keep] end. auto.
  - apply I. intros s1 k. rewrite reverse_step_man. auto.
  - destruct (nth_error _ k); auto.
  - destruct (nth_error _ k); auto.
Qed.
End Erase.

Section Adj.
Context {V : Type} (F : fops V).
Implicit Types (h : heap V).
Variable n : nat.
Variable sk : list (list (block V) * list nat).
Variable cut : nat -> bool.
Hypothesis SO : StepsOK n sk.
Hypothesis Hwf : wf_tape (flat_map fst sk).

(** ** One reverse step *)
(** [P]: outputs of the steps already reversed. *)
Local Notation T := (vars_of (flat_map fst sk)).
Definition Rel (P : list nat) h hp : Prop :=
  (forall v, bv_mark (h v) = bv_mark (hp v)) /\ (forall v, ~ In v P /\ In v T \/ cut v = true -> bv_adj (h v) = bv_adj (hp v)).

Lemma Rel_erase : forall P h h' hp, same_erase h h' -> Rel P h hp -> Rel P h' hp.
Proof.
  intros P h h' hp E [H1 H2]. split; intros v; destruct (erase_fields _ _ (E v)) as [_ [_ [_ [_ [E1 E2]]]]]; rewrite ?E1, ?E2; auto.
Qed.

Lemma adj_block_sim : forall P h hp b, In b (flat_map fst sk) -> Rel P h hp -> (forall o, In o (b_outs b) -> ~ In o P) -> (forall d, In d (b_deps b) -> ~ In d P) ->
  (forall d, In d (b_deps b) -> saved h d = saved hp d) ->
  snd (adj_block F true h b) = snd (adj_block F true hp b) /\ Rel P (fst (adj_block F true h b)) (fst (adj_block F true hp b)).
Proof.
  intros P h hp b Hb R Ho Hd Hs. unfold adj_block.
  assert (To : forall o, In o (b_outs b) -> In o T) by (intros o Hin; apply in_or_app; right; apply in_flat_map; eauto).
  assert (E1 : map (fun o => bv_adj (h o)) (b_outs b) = map (fun o => bv_adj (hp o)) (b_outs b)) by (apply map_ext_in; intros o Hin; apply R; left; split; auto).
  assert (E2 : map (saved h) (b_deps b) = map (saved hp) (b_deps b)) by (apply map_ext_in; auto).
  assert (E3 : relevant h true (b_deps b) = relevant hp true (b_deps b)).
  { unfold relevant. apply filter_ext. intros [i v]. cbn. now rewrite (proj1 R). }
  rewrite E1, E2, E3. destruct (negb _); [auto|].
  apply (iter_o_sim _ _ (Rel P)); [|exact R]. intros h1 h2 [i v] Hin R1. cbn [fst snd].
  destruct (comp_adj F (b_kind b) _ _ i) as [[x|]|]; cbn [fst snd]; auto. split; [reflexivity|].
  destruct R1 as [R1 R2]. split; intros u; unfold upd; destruct (Nat.eqb_spec u v) as [->|]; auto.
  - cbn. apply R1.
  - intros Hu. cbn. f_equal. now apply R2.
Qed.

Lemma adj_list_sim : forall P l h hp, incl l (flat_map fst sk) -> Rel P h hp -> (forall b o, In b l -> In o (b_outs b) -> ~ In o P) -> (forall b d, In b l -> In d (b_deps b) -> ~ In d P) ->
  (forall b d, In b l -> In d (b_deps b) -> saved h d = saved hp d) ->
  snd (iter_o (adj_block F true) l h) = snd (iter_o (adj_block F true) l hp) /\
  Rel P (fst (iter_o (adj_block F true) l h)) (fst (iter_o (adj_block F true) l hp)).
Proof.
  intros P l h hp Hl R Ho Hd Hs.
  destruct (iter_o_sim (adj_block F true) (adj_block F true) (fun a b => Rel P a b /\ same_core h a /\ same_core hp b) l h hp) as [A [B _]].
  - intros a b x Hx [Rx [C1 C2]].
    destruct (adj_block_sim P a b x (Hl x Hx) Rx) as [S1 S2]; eauto.
    + intros d Hdd. rewrite (core_saved _ _ d (C1 d)), (core_saved _ _ d (C2 d)). eauto.
    + split; [exact S1|]. split; [exact S2|]. split; eapply same_core_trans; eauto; apply adj_block_core.
  - split; [exact R|]. split; apply same_core_refl.
  - auto.
Qed.

Lemma reverse_blocks_heap : forall l h (s : tstep V),
  fst (fst (iter_o (reverse_block F true) l (h, s))) = fst (iter_o (adj_block F true) l h) /\
  snd (iter_o (reverse_block F true) l (h, s)) = snd (iter_o (adj_block F true) l h).
Proof.
  induction l as [|b l IH]; intros h s; [auto|]. cbn [iter_o]. unfold reverse_block at 1 3. destruct (adj_block F true h b) as [h1 [e|]]; [auto|].
  destruct (ts_revised s); apply IH.
Qed.

Lemma reverse_outs : forall clear keep l h v,
  let h' := fold_left (reverse_out clear keep) l h in
  bv_mark (h' v) = bv_mark (h v) /\ bv_ctrl (h' v) = bv_ctrl (h v) /\ (~ In v l \/ bv_ctrl (h v) = true -> bv_adj (h' v) = bv_adj (h v)).
Proof.
  intros clear keep. induction l as [|o l IH]; intros h v; [cbn; auto|]. cbn [fold_left]. cbv zeta in *.
  destruct (IH (reverse_out clear keep h o) v) as [A [B C]]. rewrite A, B.
  assert (K : bv_mark (reverse_out clear keep h o v) = bv_mark (h v) /\ bv_ctrl (reverse_out clear keep h o v) = bv_ctrl (h v) /\ (v <> o \/ bv_ctrl (h v) = true -> bv_adj (reverse_out clear keep h o v) = bv_adj (h v))).
  { unfold reverse_out, drop, upd. destruct (bv_ctrl (h o)) eqn:Eo, (clear && negb (mem o keep)); destruct (Nat.eqb_spec v o) as [->|]; cbn; repeat split; auto; intros [X|X]; congruence. }
  destruct K as [K1 [K2 K3]]. split; [exact K1|]. split; [exact K2|]. intros Hv. rewrite C; [apply K3|]; rewrite ?K2; destruct Hv as [Hv|Hv]; auto; left; intros X; apply Hv; cbn; auto.
Qed.

Definition upto (m : nat) : list (block V) := flat_map (bks sk) (seq 0 m).
Lemma upto_S : forall m, upto (S m) = upto m ++ bks sk m.
Proof. intros m. unfold upto. rewrite seq_S, flat_map_app. cbn. now rewrite app_nil_r. Qed.
Lemma later_S : forall k, k < n -> later n sk k = outs_of (bks sk k) ++ later n sk (S k).
Proof. intros k H. unfold later. rewrite (from_cons n sk (so_len _ _ SO)) by exact H. apply outs_app. Qed.

Lemma step_outs_disj : forall k o, k < n -> In o (outs_of (bks sk k)) -> ~ In o (later n sk (S k)).
Proof.
  intros k o Hk Ho. destruct Hwf as [_ Hnd]. rewrite <- (from_all n sk (so_len _ _ SO)) in Hnd. destruct (from_suffix n sk (so_len _ _ SO) k) as [pre E]; [lia|].
  rewrite E, outs_app in Hnd. apply NoDup_app_r in Hnd. fold (later n sk k) in Hnd. rewrite later_S in Hnd by exact Hk. eapply NoDup_app_disj; eauto.
Qed.
Lemma step_deps_disj : forall k b d, k < n -> In b (bks sk k) -> In d (b_deps b) -> ~ In d (later n sk (S k)).
Proof.
  intros k b d Hk Hb Hd. destruct (so_dep _ _ SO k b d Hb Hd) as [K|K]; [|now apply step_outs_disj].
  intros X. apply (so_disj _ _ SO k d K). rewrite later_S by exact Hk. apply in_or_app. now right.
Qed.

Lemma reverse_step_sim : forall clear s hp k, k < n -> map tsk (t_steps (c_tape s)) = sk -> (forall v, bv_ctrl (c_heap s v) = cut v) ->
  Rel (later n sk (S k)) (c_heap s) hp ->
  (forall b d, In b (bks sk k) -> In d (b_deps b) -> saved (c_heap s) d = saved hp d) ->
  let pl := iter_o (adj_block F true) (rev (bks sk k)) hp in
  snd (reverse_step F clear true s k) = snd pl /\
  (snd pl = None -> Rel (later n sk k) (c_heap (fst (reverse_step F clear true s k))) (fst pl)).
Proof.
  intros clear s hp k Hk Hsk Hc R Hs pl. unfold reverse_step.
  assert (N : nth_error sk k = option_map tsk (nth_error (t_steps (c_tape s)) k)) by (rewrite <- Hsk; apply nth_error_map).
  destruct (nth_error (t_steps (c_tape s)) k) as [cur|] eqn:E.
  2:{ cbn in N. apply nth_error_None in N. rewrite (so_len _ _ SO) in N. lia. }
  cbn in N. assert (Eb : bks sk k = ts_blocks cur) by (unfold bks; now rewrite N).
  destruct (adj_list_sim (later n sk (S k)) (rev (bks sk k)) (c_heap s) hp) with (2 := R) as [A B].
  - intros b Hb. apply in_rev in Hb. now apply (bks_in sk k).
  - intros b o Hb Ho. apply in_rev in Hb. apply step_outs_disj; [exact Hk|]. apply in_flat_map. eauto.
  - intros b d Hb Hd. apply in_rev in Hb. eapply step_deps_disj; eauto.
  - intros b d Hb Hd. apply in_rev in Hb. eauto.
  - fold pl in A, B. rewrite Eb in A, B. destruct (reverse_blocks_heap (rev (ts_blocks cur)) (c_heap s) cur) as [H1 H2].
    pose proof (reverse_blocks F true (rev (ts_blocks cur)) (c_heap s, cur)) as Co.
    destruct (iter_o (reverse_block F true) (rev (ts_blocks cur)) (c_heap s, cur)) as [[h1 cur1] e]. cbn [fst snd] in *. subst h1 e.
    destruct (Co _ _ eq_refl) as [Co1 _]. cbn [fst] in Co1. rewrite A. destruct (snd pl) as [e|] eqn:Ep; [cbn; split; [reflexivity|discriminate]|].
    split; [reflexivity|]. intros _. cbn [fst put_step on_tape_ on_heap c_heap].
    set (h1 := fst (iter_o (adj_block F true) (rev (ts_blocks cur)) (c_heap s))) in *.
    assert (C1 : forall v, bv_ctrl (h1 v) = cut v).
    { intros v. rewrite <- Hc. specialize (Co1 v). unfold core, set_adj, set_tlm, set_hess, set_mark in Co1. injection Co1. intros. congruence. }
    rewrite later_S by exact Hk. rewrite Eb. fold (outs_of (ts_blocks cur)).
    split; intros v; destruct (reverse_outs clear (ts_state cur) (outs_of (ts_blocks cur)) h1 v) as [Q1 [Q2 Q3]].
    + rewrite Q1. apply B.
    + intros Hv. rewrite Q3.
      * apply B. destruct Hv as [[Hv Ht]|Hv]; [left; split; [intros X; apply Hv; apply in_or_app; now right|exact Ht]|now right].
      * rewrite C1. destruct Hv as [[Hv Ht]|Hv]; [left; intros X; apply Hv; apply in_or_app; now left|now right].
Qed.
End Adj.

(** * The reverse actions that are run *)
Section Loop.
Context {V : Type} (F : fops V).
Implicit Types (h : heap V) (s : cst V).
Variable sc : schedule.
Variable n : nat.
Variable fwd back : list action.
Variable sk : list (list (block V) * list nat).
Variable r : nat -> V.
Variable Fz : nat -> Prop.
Variable cut : nat -> bool.
Local Notation bs := (flat_map fst sk).
Local Notation EI := (EInv sc n fwd sk r Fz cut).
Hypothesis SO : StepsOK n sk.
Hypothesis Hraw : forall b, In b bs -> raw_result (b_kind b) = false.
Hypothesis Hfz : forall b, In b bs -> frozen F r Fz cut b.

(** The loop that asks the schedule for reverse actions runs exactly [back]. *)
Lemma loop_unfold : forall f mk s, cm_cur (c_man s) <> AEndReverse -> reverse_loop F (S f) mk s =
  match next_act (c_man s) with None => (s, Some EStopIter) | Some a => andthen (process_op F None mk (on_man (push_rev a) s) a) (reverse_loop F f mk) end.
Proof. intros f mk s H. cbn [reverse_loop]. destruct (cm_cur (c_man s)); try reflexivity. congruence. Qed.
Lemma loop_end : forall f mk s, cm_cur (c_man s) = AEndReverse -> reverse_loop F f mk s = (s, None).
Proof. intros f mk s H. destruct f; cbn [reverse_loop]; now rewrite H. Qed.
Lemma reverses_last : forall m acts, reverses n m acts -> exists l, acts = l ++ [AEndReverse] /\ ~ In AEndReverse l.
Proof.
  intros m acts H. induction H as [|? ? ? ? ? ? [l [-> IH]]|? ? ? ? ? ? ? ? [l [-> IH]]|? ? ? ? ? ? [l [-> IH]]|? ? ? ? ? ? [l [-> IH]]];
    [exists []; auto|..]; eexists (_ :: l); (split; [reflexivity|]); intros [X|X]; try discriminate; contradiction.
Qed.

Definition rpush s a := process_op F None true (on_man (push_rev a) s) a.
Lemma rpush_inv : forall s a, EI s -> EI (fst (rpush s a)).
Proof.
  intros s a H. apply (process_inv F sc n fwd sk r Fz cut Hraw Hfz (so_len _ _ SO)). apply EInv_man; [exact H|apply MFix_rev; apply (ei_man _ _ _ _ _ _ _ _ H)].
Qed.
Lemma loop_iter : forall l pre tl fuel s, ~ In AEndReverse l -> EI s -> sc_acts sc (Some n) = pre ++ (l ++ [AEndReverse]) ++ tl -> cm_pos (c_man s) = length pre ->
  cm_cur (c_man s) <> AEndReverse -> length l < fuel -> reverse_loop F fuel true s = iter_o rpush (l ++ [AEndReverse]) s.
Proof.
  induction l as [|a l IH]; intros pre tl fuel s Hl H Ea Ep Hc Hf; (destruct fuel as [|f]; [cbn in Hf; lia|]); rewrite loop_unfold by exact Hc; unfold next_act;
    rewrite (mf_sched _ _ _ _ (ei_man _ _ _ _ _ _ _ _ H)), (mf_max _ _ _ _ (ei_man _ _ _ _ _ _ _ _ H)), Ea, Ep, nth_error_app2, Nat.sub_diag by lia; cbn [nth_error app iter_o]; fold (rpush s).
  - change (process_op F None true (on_man (push_rev AEndReverse) s) AEndReverse) with (rpush s AEndReverse).
    assert (Hcur : cm_cur (c_man (fst (rpush s AEndReverse))) = AEndReverse) by reflexivity.
    destruct (rpush s AEndReverse) as [s1 [e|]]; cbn [andthen fst] in *; [reflexivity|]. now apply loop_end.
  - change (process_op F None true (on_man (push_rev a) s) a) with (rpush s a).
    destruct (process_op_man F None true (on_man (push_rev a) s) a) as [_ [Hcur _]]. destruct (process_pos F None true (on_man (push_rev a) s) a) as [Hpos _].
    pose proof (rpush_inv s a H) as I1. fold (rpush s a) in Hcur, Hpos. destruct (rpush s a) as [s1 [e|]]; cbn [andthen fst] in *; [reflexivity|].
    apply (IH (pre ++ [a]) tl).
    + intros X. apply Hl. now right.
    + exact I1.
    + rewrite Ea. rewrite <- (app_assoc pre). reflexivity.
    + rewrite Hpos, app_length. cbn. rewrite Ep. lia.
    + rewrite Hcur. cbn. intros ->. apply Hl. now left.
    + cbn in Hf. lia.
Qed.
Lemma rpush_rev : forall l s, snd (iter_o rpush l s) = None -> cm_rev (c_man (fst (iter_o rpush l s))) = cm_rev (c_man s) ++ l.
Proof.
  induction l as [|a l IH]; intros s H; [cbn; now rewrite app_nil_r|]. cbn [iter_o] in *. destruct (process_pos F None true (on_man (push_rev a) s) a) as [_ K]. fold (rpush s a) in K.
  destruct (rpush s a) as [s1 [e|]]; [discriminate|]. cbn [fst] in K. rewrite IH by exact H. rewrite K. cbn. now rewrite <- app_assoc.
Qed.
Lemma iter_rev : forall l s, cm_rev (c_man (fst (iter_o (process_op F None true) l s))) = cm_rev (c_man s).
Proof.
  intros l s. destruct (iter_o _ l s) as [s' e] eqn:E. refine (iter_o_inv _ (fun x => cm_rev (c_man x) = cm_rev (c_man s)) _ _ _ _ _ eq_refl E).
  intros s1 x s2 e2 _ H E1. destruct (process_pos F None true s1 x) as [_ K]. rewrite E1 in K. cbn in K. congruence.
Qed.

Definition RevOK (m : cman) : Prop := cm_rev m = [] /\ cm_pos m = length fwd /\ cm_cur m <> AEndReverse \/ cm_rev m = back.
Hypothesis Hback : reversing sc n fwd back.

(** The adjoint sweep runs exactly [back]. *)
Lemma adjoint_runs : forall s, EI s -> cm_mode (c_man s) = MEvaluated \/ cm_mode (c_man s) = MFinished -> RevOK (c_man s) ->
  exists g : action -> cman -> cman, (forall a m, MFix sc n fwd m -> MFix sc n fwd (g a m)) /\ (forall a m, cm_glob (g a m) = cm_glob m) /\
    let rs := iter_o (fun s a => process_op F None true (on_man (g a) s) a) back s in
    cm_evaluate_adj F 0 true s = andthen rs (fun s2 => (on_man (set_mode MEvalAdj) s2, None)) /\ (snd rs = None -> cm_rev (c_man (fst rs)) = back).
Proof.
  intros s H Hm HR. destruct Hback as [Hr Hacts]. destruct (reverses_last _ _ Hr) as [l [El Hl]].
  assert (Ec : cm_evaluate_adj F 0 true s = andthen (match cm_rev (c_man s) with [] => reverse_loop F (left_acts (c_man s)) true s | acts => iter_o (process_op F None true) acts s end)
                (fun s2 => (on_man (set_mode MEvalAdj) s2, None))).
  { unfold cm_evaluate_adj. cbn [Nat.eqb negb]. destruct Hm as [Hm|Hm]; rewrite Hm; cbn [andthen]; rewrite Hm; reflexivity. }
  rewrite Ec. clear Ec. destruct HR as [[H1 [H2 H3]]|H1].
  - exists push_rev. split; [intros a m K; now apply MFix_rev|]. split; [reflexivity|].
    rewrite H1. assert (Ea : exists tl, sc_acts sc (Some n) = fwd ++ (l ++ [AEndReverse]) ++ tl).
    { exists (skipn (length fwd + length back) (sc_acts sc (Some n))). rewrite <- El, app_assoc, <- Hacts. symmetry. apply firstn_skipn. }
    destruct Ea as [tl Ea]. rewrite (loop_iter l fwd tl); auto.
    2:{ unfold left_acts. rewrite (mf_sched _ _ _ _ (ei_man _ _ _ _ _ _ _ _ H)), (mf_max _ _ _ _ (ei_man _ _ _ _ _ _ _ _ H)), Ea, H2, !app_length. cbn. lia. }
    rewrite <- El. pose proof (rpush_rev back s) as P. change (fun s a => process_op F None true (on_man (push_rev a) s) a) with rpush. cbv zeta. split; [reflexivity|].
    intros X. rewrite P, H1 by exact X. reflexivity.
  - exists (fun _ m => m). split; [auto|]. split; [reflexivity|].
    rewrite H1. assert (En : match back with [] => reverse_loop F (left_acts (c_man s)) true s | _ => iter_o (process_op F None true) back s end = iter_o (process_op F None true) back s).
    { rewrite El. destruct l; reflexivity. }
    replace (match back with [] => reverse_loop F (left_acts (c_man s)) true s | a :: l0 => iter_o (process_op F None true) (a :: l0) s end) with (iter_o (process_op F None true) back s) by (destruct back; [rewrite <- En|]; reflexivity).
    pose proof (iter_rev back s) as P.
    assert (G : forall l s, iter_o (fun (s0 : cst V) (a : action) => process_op F None true (on_man (fun m => m) s0) a) l s = iter_o (process_op F None true) l s).
    { induction l0 as [|a l0 IH]; intros s0; [reflexivity|]. cbn [iter_o]. replace (on_man (fun m => m) s0) with s0 by (destruct s0; reflexivity). destruct (process_op F None true s0 a) as [s1 [e|]]; auto. }
    rewrite G. cbv zeta. split; [reflexivity|]. intros _. congruence.
Qed.
End Loop.

(** * At the recorded control values *)
Section AtRecorded.
Context {V : Type} (F : fops V).
Implicit Types (h : heap V) (s : cst V).
Variable sc : schedule.
Variable n : nat.
Variable fwd back : list action.
Variable sk : list (list (block V) * list nat).
Variable r : nat -> V.
Variable cut : nat -> bool.
Local Notation Fz := (fun _ : nat => True).
Local Notation bs := (flat_map fst sk).
Local Notation EI := (EInv sc n fwd sk r Fz cut).
Hypothesis SO : StepsOK n sk.
Hypothesis Hwf : wf_tape bs.
Hypothesis Hraw : forall b, In b bs -> raw_result (b_kind b) = false.
Hypothesis Hrec : forall b, In b bs -> block_rec F r b.

Lemma rec_frozen : forall b, In b bs -> frozen F r Fz cut b.
Proof. intros b Hb. right. right. auto. Qed.

Lemma rec_recompute : forall h b, In b bs -> HInv r Fz cut h -> snd (recompute_block F h b) = None.
Proof.
  intros h b Hb H. unfold recompute_block. destruct (existsb _ (b_outs b)); [reflexivity|].
  replace (map (saved h) (b_deps b)) with (map r (b_deps b)) by (apply map_ext; intros d; symmetry; exact (fz_saved _ _ _ _ d H I)).
  assert (G : forall l h, (forall i o, In (i, o) l -> nth_error (b_outs b) i = Some o) ->
    snd (iter_o (fun h' io => match comp_recompute F (b_kind b) (map r (b_deps b)) (fst io) with
       | Err e => (h', Some e) | Ok None => (h', None) | Ok (Some x) => (upd h' (snd io) (put_ckpt (Some x) (raw_result (b_kind b))), None) end) l h) = None).
  { induction l as [|[i o] l IH]; intros h0 Hl; [reflexivity|]. cbn [iter_o fst snd]. rewrite (Hrec b Hb i o (Hl i o (or_introl eq_refl))).
    apply IH. intros i' o' H'. apply Hl. now right. }
  apply G. intros i o Hi. now apply In_enum.
Qed.
Lemma rec_recompute_list : forall l h, incl l bs -> HInv r Fz cut h -> snd (iter_o (recompute_block F) l h) = None.
Proof.
  induction l as [|b l IH]; intros h Hl H; [reflexivity|]. cbn [iter_o].
  pose proof (rec_recompute h b (Hl b (or_introl eq_refl)) H) as K. destruct (recompute_block F h b) as [h1 e] eqn:E. cbn [snd] in K. subst e.
  apply IH; [intros x Hx; apply Hl; now right|]. refine (recompute_inv F sk r Fz cut Hraw rec_frozen h b h1 None (Hl b (or_introl eq_refl)) H E).
Qed.
Lemma rec_forward : forall n0 ics adj st func s k, EI s -> k < n -> snd (forward_step F n0 ics adj st func s k) = None.
Proof.
  intros n0 ics adj st func s k H Hk.
  pose proof (forward_spec F sc n fwd sk r Fz cut Hraw rec_frozen (so_len _ _ SO) n0 ics adj st func s k H Hk) as K.
  pose proof (rec_recompute_list (bks sk k) (c_heap s)) as L.
  destruct (iter_o (recompute_block F) (bks sk k) (c_heap s)) as [h1 e]. destruct K as [_ [K _]]. rewrite K. cbn [snd] in L. apply L.
  - intros b Hb. now apply (bks_in sk k).
  - apply (ei_heap _ _ _ _ _ _ _ _ H).
Qed.
Lemma rec_process : forall func mk s a, EI s -> match a with AReverse _ _ _ => False | ACopy k _ | AMove k _ => k < n | _ => True end ->
  snd (process_op F func mk s a) = None.
Proof.
  intros func mk s a H Ha.
  assert (N : forall k, k < n -> exists t, nth_error (t_steps (c_tape s)) k = Some t).
  { intros k Hk. pose proof (ei_sk _ _ _ _ _ _ _ _ H) as L. apply (f_equal (@length _)) in L. rewrite map_length, (so_len _ _ SO) in L.
    destruct (nth_error (t_steps (c_tape s)) k) as [t|] eqn:E; [eauto|]. apply nth_error_None in E. lia. }
  destruct a as [n0 n1 ics adj st|n1 n0 clear|k st|k st| |]; cbn [process_op]; try contradiction; try reflexivity.
  - assert (Hs : forall k, In k (fwd_steps n0 n1 (c_man s) (length (t_steps (c_tape s)))) -> k < n).
    { unfold fwd_steps. rewrite (mf_total _ _ _ _ (ei_man _ _ _ _ _ _ _ _ H)). intros k Hk. apply in_seq in Hk. destruct n1; lia. }
    remember (fwd_steps n0 n1 (c_man s) (length (t_steps (c_tape s)))) as l eqn:El. clear El. revert s H N Hs. induction l as [|k l IH]; intros s H N Hs; [reflexivity|]. cbn [iter_o].
    pose proof (rec_forward n0 ics adj st func s k H (Hs k (or_introl eq_refl))) as K.
    pose proof (forward_inv F sc n fwd sk r Fz cut Hraw rec_frozen (so_len _ _ SO) n0 ics adj st func s k H) as I.
    destruct (forward_step F n0 ics adj st func s k) as [s1 e]. cbn [fst snd] in *. subst e. apply IH; [exact I| |intros x Hx; apply Hs; now right].
    intros j Hj. pose proof (ei_sk _ _ _ _ _ _ _ _ I) as L. apply (f_equal (@length _)) in L. rewrite map_length, (so_len _ _ SO) in L.
    destruct (nth_error (t_steps (c_tape s1)) j) as [t|] eqn:E; [eauto|]. apply nth_error_None in E. lia.
  - destruct (N k Ha) as [t ->]. reflexivity.
  - destruct (N k Ha) as [t ->]. reflexivity.
Qed.

(** ** The reverse sweep *)
Local Notation RelP := (Rel sk cut).
Local Notation later := (later n sk).
Definition at_rec hp : Prop := forall b d, In b bs -> In d (b_deps b) -> saved hp d = r d.
Lemma at_rec_adj : forall l hp, at_rec hp -> at_rec (fst (iter_o (adj_block F true) l hp)).
Proof.
  intros l hp H b d Hb Hd. assert (C : same_core hp (fst (iter_o (adj_block F true) l hp))).
  { destruct (iter_o _ l hp) as [h1 e] eqn:E. refine (iter_o_inv _ (same_core hp) _ _ _ _ _ (same_core_refl _) E).
    intros h2 x h3 e3 _ H2 E2. eapply same_core_trans; [exact H2|]. pose proof (adj_block_core F true h2 x) as K. now rewrite E2 in K. }
  rewrite (core_saved _ _ d (C d)). eauto.
Qed.

Definition range (k m : nat) : list (block V) := flat_map (bks sk) (seq k (m - k)).
Lemma upto_range : forall k m, k <= m -> upto sk m = upto sk k ++ range k m.
Proof. intros k m H. unfold upto, range. rewrite <- flat_map_app. f_equal. replace m with (k + (m - k)) at 1 by lia. rewrite seq_app. reflexivity. Qed.

Lemma reverse_range : forall clear d k s hp, k + d <= n -> EI s -> RelP (later (k + d)) (c_heap s) hp -> at_rec hp ->
  let pl := iter_o (adj_block F true) (rev (range k (k + d))) hp in
  let rs := iter_o (reverse_step F clear true) (rev (seq k d)) s in
  EI (fst rs) /\ snd rs = snd pl /\ (snd pl = None -> RelP (later k) (c_heap (fst rs)) (fst pl)).
Proof.
  intros clear. induction d as [|d IH]; intros k s hp Hk H R A.
  - unfold range. rewrite Nat.add_0_r in *. rewrite Nat.sub_diag. cbn. auto.
  - cbv zeta. unfold range. replace (k + S d - k) with (S d) by lia. rewrite seq_S, flat_map_app, rev_app_distr, rev_app_distr. cbn [flat_map rev app]. rewrite app_nil_r.
    replace (k + S d) with (S (k + d)) in * by lia.
    destruct (reverse_step_sim F n sk cut SO Hwf clear s hp (k + d)) as [S1 S2]; [lia|apply (ei_sk _ _ _ _ _ _ _ _ H)|intros v; apply (hi_ctrl _ _ _ _ (ei_heap _ _ _ _ _ _ _ _ H))|exact R| |].
    { intros b x Hb Hx. rewrite (fz_saved _ _ _ _ _ (ei_heap _ _ _ _ _ _ _ _ H) I). symmetry. eapply A; eauto. now apply (bks_in sk (k + d)). }
    pose proof (reverse_inv F sc n fwd sk r Fz clear true s (k + d) cut H) as I1.
    rewrite iter_o_app. cbn [iter_o]. pose proof (at_rec_adj (rev (bks sk (k + d))) hp A) as A1.
    destruct (iter_o (adj_block F true) (rev (bks sk (k + d))) hp) as [hp1 e1]. cbn [fst snd] in *.
    destruct (reverse_step F clear true s (k + d)) as [s1 e2]. cbn [fst snd] in *. subst e2.
    destruct e1 as [e|]; cbn [andthen fst snd]; [split; [exact I1|split; [reflexivity|discriminate]]|].
    specialize (IH k s1 hp1 ltac:(lia) I1 (S2 eq_refl) A1). unfold range in IH. replace (k + d - k) with d in IH by lia. exact IH.
Qed.

Lemma EInv_same : forall s (g : cst V -> cst V), EI s -> c_heap (g s) = c_heap s -> c_tape (g s) = c_tape s -> MFix sc n fwd (c_man (g s)) -> EI (g s).
Proof. intros s g [a b c d e] H1 H2 H3. constructor; rewrite ?H1, ?H2; auto. Qed.

(** A run over actions that reverse the steps below [m], with the manager changed in between. *)
Lemma reverse_acts : forall (g : action -> cman -> cman), (forall a m, MFix sc n fwd m -> MFix sc n fwd (g a m)) ->
  forall m acts, reverses n m acts -> m <= n -> forall s hp, EI s -> RelP (later m) (c_heap s) hp -> at_rec hp ->
  let pl := iter_o (adj_block F true) (rev (upto sk m)) hp in
  let rs := iter_o (fun s a => process_op F None true (on_man (g a) s) a) acts s in
  EI (fst rs) /\ snd rs = snd pl /\ (snd pl = None -> RelP (later 0) (c_heap (fst rs)) (fst pl)).
Proof.
  intros g Hg m acts Hr. induction Hr as [|m k clear rest Hk Hr IH|m n0 n1 ics adj st rest Hr IH|m k st rest Hk Hr IH|m k st rest Hk Hr IH]; intros Hm s hp H R A; cbv zeta in *.
  - cbn. split; [|auto]. apply EInv_man; [|apply MFix_mode; apply Hg; apply (ei_man _ _ _ _ _ _ _ _ H)]. apply EInv_man; [exact H|apply Hg; apply (ei_man _ _ _ _ _ _ _ _ H)].
  - rewrite (upto_range k m Hk), rev_app_distr, iter_o_app. cbn [iter_o process_op].
    assert (Hg' : EI (on_man (g (AReverse m k clear)) s)) by (apply EInv_man; [exact H|apply Hg; apply (ei_man _ _ _ _ _ _ _ _ H)]).
    destruct (reverse_range clear (m - k) k (on_man (g (AReverse m k clear)) s) hp) as [I1 [S1 S2]]; [lia|exact Hg'|replace (k + (m - k)) with m by lia; exact R|exact A|].
    replace (k + (m - k)) with m in * by lia. pose proof (at_rec_adj (rev (range k m)) hp A) as A1.
    destruct (iter_o (reverse_step F clear true) (rev (seq k (m - k))) _) as [s1 e2]. destruct (iter_o (adj_block F true) (rev (range k m)) hp) as [hp1 e1]. cbn [fst snd] in *. subst e2.
    destruct e1 as [e|]; cbn [andthen fst snd]; [split; [exact I1|split; [reflexivity|discriminate]]|]. apply IH; [lia|exact I1|now apply S2|exact A1].
  - set (a := AForward n0 n1 ics adj st) in *. cbn [iter_o].
    assert (Hg' : EI (on_man (g a) s)) by (apply EInv_man; [exact H|apply Hg; apply (ei_man _ _ _ _ _ _ _ _ H)]).
    pose proof (process_inv F sc n fwd sk r Fz cut Hraw rec_frozen (so_len _ _ SO) None true _ a Hg') as I1.
    pose proof (rec_process None true _ a Hg' I) as N1. pose proof (process_erase F None true (on_man (g a) s) a I) as Er.
    destruct (process_op F None true (on_man (g a) s) a) as [s1 e]. cbn [fst snd] in *. subst e. apply IH; [lia|exact I1| |exact A].
    eapply Rel_erase; [exact Er|exact R].
  - set (a := ACopy k st) in *. cbn [iter_o].
    assert (Hg' : EI (on_man (g a) s)) by (apply EInv_man; [exact H|apply Hg; apply (ei_man _ _ _ _ _ _ _ _ H)]).
    pose proof (process_inv F sc n fwd sk r Fz cut Hraw rec_frozen (so_len _ _ SO) None true _ a Hg') as I1.
    pose proof (rec_process None true _ a Hg' Hk) as N1. pose proof (process_erase F None true (on_man (g a) s) a I) as Er.
    destruct (process_op F None true (on_man (g a) s) a) as [s1 e]. cbn [fst snd] in *. subst e. apply IH; [lia|exact I1| |exact A].
    eapply Rel_erase; [exact Er|exact R].
  - set (a := AMove k st) in *. cbn [iter_o].
    assert (Hg' : EI (on_man (g a) s)) by (apply EInv_man; [exact H|apply Hg; apply (ei_man _ _ _ _ _ _ _ _ H)]).
    pose proof (process_inv F sc n fwd sk r Fz cut Hraw rec_frozen (so_len _ _ SO) None true _ a Hg') as I1.
    pose proof (rec_process None true _ a Hg' Hk) as N1. pose proof (process_erase F None true (on_man (g a) s) a I) as Er.
    destruct (process_op F None true (on_man (g a) s) a) as [s1 e]. cbn [fst snd] in *. subst e. apply IH; [lia|exact I1| |exact A].
    eapply Rel_erase; [exact Er|exact R].
Qed.

Hypothesis Hback : reversing sc n fwd back.
Lemma adjoint_rec : forall s hp, EI s -> cm_mode (c_man s) = MEvaluated \/ cm_mode (c_man s) = MFinished -> RevOK fwd back (c_man s) -> RelP [] (c_heap s) hp -> at_rec hp ->
  let pl := evaluate_adj F bs 0 true hp in
  let rs := cm_evaluate_adj F 0 true s in
  snd rs = snd pl /\ (snd pl = None -> RelP (later 0) (c_heap (fst rs)) (fst pl) /\ cm_rev (c_man (fst rs)) = back).
Proof.
  intros s hp H Hm HR R A. cbv zeta. unfold evaluate_adj. cbn [skipn].
  assert (Eb : upto sk n = bs) by (unfold upto; rewrite <- (from_all n sk (so_len _ _ SO)); unfold from; now rewrite Nat.sub_0_r).
  assert (Ln : later n = []) by (unfold CkptEval.later, from; now rewrite Nat.sub_diag).
  destruct (adjoint_runs F sc n fwd back sk r Fz cut SO Hraw rec_frozen Hback s H Hm HR) as [g [Hg [_ [Ec Hrev]]]]. rewrite Ec. destruct Hback as [Hr _].
  destruct (reverse_acts g Hg n back Hr (le_n n) s hp H) as [I1 [S1 S2]]; [now rewrite Ln|exact A|]. rewrite Eb in *.
  destruct (iter_o (fun s a => process_op F None true (on_man (g a) s) a) back s) as [s1 e]. cbn [fst snd] in *. subst e.
  destruct (snd (iter_o (adj_block F true) (rev bs) hp)) as [e|]; cbn [andthen fst snd on_man c_heap c_man set_mode cm_rev]; (split; [reflexivity|]); [discriminate|].
  intros _. auto.
Qed.
End AtRecorded.
