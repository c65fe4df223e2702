(** Which calls a checkpoint manager accepts, and what a refused call leaves behind. *)
From Coq Require Import List Arith ZArith Lia Bool.
From Verif Require Import Base Model BaseFacts Graph Record History Ckpt SpecCkpt.
Import ListNotations.

Section Protocol.
Context {V : Type} (F : fops V).
Implicit Types (s : cst V).

Lemma enable_refused : forall pkg sc (w : world V), t_flat (w_tape w) <> [] ->
  cw_enable pkg sc w = (CW w None, Some ECheckpoint).
Proof.
  intros pkg sc w H. unfold cw_enable, enable. destruct (t_flat (w_tape w)); [now elim H|]. destruct w; reflexivity.
Qed.

Lemma end_refused : forall (cw : cworld V) m, cw_man cw = Some m -> cm_mode m <> MRecord ->
  cexec_stmt F cw (SEndStep) = (cw, Some ECheckpoint).
Proof.
  intros [w mm] m E H. cbn in E. subst mm. unfold cexec_stmt, cm_end_timestep. cbn [cw_man cw_w cw_cst c_man].
  destruct w. destruct (cm_mode m); [now elim H| reflexivity ..].
Qed.

(** ** Modes *)
Definition may_adjoint (m : mode) : bool := match m with MRecord | MFinished | MEvaluated => true | _ => false end.

Lemma adj_refused : forall s, may_adjoint (cm_mode (c_man s)) = false -> cm_evaluate_adj F 0 true s = (s, Some ECheckpoint).
Proof.
  intros s Hm. unfold cm_evaluate_adj. cbn [Nat.eqb negb].
  destruct (cm_mode (c_man s)) eqn:E; try discriminate; cbn [andthen]; now rewrite E.
Qed.

Lemma derivative_refused : forall (rf : rfun V) x s, may_adjoint (cm_mode (c_man s)) = false ->
  exists h e, c_derivative F rf x s = (CS h (c_tape s) (c_man s), Err e) /\
    (e = match rf_ctrls rf with [] => EValue | _ => ECheckpoint end) /\
    forall v, bv_ckpt (h v) = bv_ckpt (c_heap s v) /\ bv_out (h v) = bv_out (c_heap s v) /\ saved h v = saved (c_heap s) v.
Proof.
  intros rf x s Hm. unfold c_derivative. destruct (rf_ctrls rf) as [|c cs].
  { exists (c_heap s), EValue. repeat split. destruct s; reflexivity. }
  unfold c_marked_nodes, c_marked_controls. rewrite adj_refused by exact Hm.
  cbn [fst snd on_heap c_heap c_tape c_man]. eexists. exists ECheckpoint. split; [reflexivity|]. split; [reflexivity|].
  set (h1 := upd (reset_adj (t_flat (c_tape s)) (c_heap s)) (rf_J rf) (set_adj (Some (f_mul F x (rf_scale rf))))).
  assert (E : forall l f h v, (forall b : bvar V, bv_ckpt (f b) = bv_ckpt b /\ bv_out (f b) = bv_out b) ->
     bv_ckpt (upd_all h l f v) = bv_ckpt (h v) /\ bv_out (upd_all h l f v) = bv_out (h v)).
  { induction l as [|u l IH]; intros f h v Hf; [auto|]. cbn [upd_all]. destruct (IH f (upd h u f) v Hf) as [A B].
    rewrite A, B. unfold upd. destruct (Nat.eqb v u); auto. }
  intros v.
  assert (G : bv_ckpt (h1 v) = bv_ckpt (c_heap s v) /\ bv_out (h1 v) = bv_out (c_heap s v)).
  { assert (C : same_core (c_heap s) h1).
    { unfold h1. eapply same_core_trans; [apply (reset_with_core (set_adj None) (t_flat (c_tape s))); reflexivity|]. apply same_core_upd. reflexivity. }
    apply core_ckpt. apply C. }
  match goal with |- bv_ckpt (?h v) = _ /\ _ => assert (Q : bv_ckpt (h v) = bv_ckpt (h1 v) /\ bv_out (h v) = bv_out (h1 v)) end.
  { assert (T : forall a b c0 : bvar V, bv_ckpt a = bv_ckpt b /\ bv_out a = bv_out b -> bv_ckpt b = bv_ckpt c0 /\ bv_out b = bv_out c0 ->
      bv_ckpt a = bv_ckpt c0 /\ bv_out a = bv_out c0) by (intros ? ? ? [A1 A2] [B1 B2]; split; congruence).
    eapply T; [apply E; auto|]. eapply T; [apply E; auto|]. apply E. auto. }
  destruct Q as [Q1 Q2], G as [G1 G2]. rewrite Q1, Q2. repeat split; auto. unfold saved. now rewrite Q1, Q2, G1, G2.
Qed.

(** ** Histories *)
(** Forward actions only before the end of the forward run. *)
Definition fwd_only (a : action) : bool := match a with AForward _ _ _ _ _ => true | _ => false end.
Definition closed_fwd (m : cman) : Prop :=
  cm_mode m = MRecord \/ exists l, cm_fwd m = l ++ [AEndForward] /\ forallb fwd_only l = true.
Definition rec_fwd (m : cman) : Prop :=
  cm_mode m = MRecord -> exists l, cm_fwd m = l ++ [cm_cur m] /\ forallb fwd_only l = true.
Definition MInv (m : cman) : Prop := closed_fwd m /\ rec_fwd m.

Lemma iter_man : forall {A} (f : cst V -> A -> cst V * option exn) (R : cman -> cman -> Prop),
  (forall m, R m m) -> (forall a b c, R a b -> R b c -> R a c) ->
  (forall s x, R (c_man s) (c_man (fst (f s x)))) -> forall l s, R (c_man s) (c_man (fst (iter_o f l s))).
Proof.
  intros A f R Hr Ht Hf l s. destruct (iter_o f l s) as [s' e] eqn:E. cbn.
  refine (iter_o_inv f (fun x => R (c_man s) (c_man x)) l s s' e _ (Hr _) E).
  intros a x a' e' _ Ha Hx. eapply Ht; [exact Ha|]. specialize (Hf a x). now rewrite Hx in Hf.
Qed.

(** Everything but the list of forward actions and the position. *)
Lemma forward_step_man : forall n0 ics adj st func s step,
  let m := c_man s in let m' := c_man (fst (forward_step F n0 ics adj st func s step)) in
  cm_fwd m' = cm_fwd m /\ cm_mode m' = cm_mode m /\ cm_cur m' = cm_cur m.
Proof.
  intros n0 ics adj st func s step. cbv zeta. unfold forward_step.
  destruct (nth_error _ step) as [cur|]; [|auto].
  destruct (iter_o (recompute_block F) (ts_blocks cur) (c_heap s)) as [h1 [e|]]; [auto|].
  destruct (if is_work st then _ else _) as [cur1 [e1|]]; [auto|].
  match goal with |- context[match ?x with Some nx => _ | None => _ end] => destruct x as [nx|] end; [|auto].
  destruct (clear_state _ _ _ _ _ _ _ _) as [h3 k]. auto.
Qed.
Lemma reverse_step_man : forall clear mk s step, c_man (fst (reverse_step F clear mk s step)) = c_man s.
Proof.
  intros clear mk s step. unfold reverse_step. destruct (nth_error _ step) as [cur|]; [|auto].
  destruct (iter_o _ _ _) as [[h1 cur1] [e|]]; auto.
Qed.
Lemma process_op_man : forall func mk s a,
  let m := c_man s in let r := process_op F func mk s a in let m' := c_man (fst r) in
  cm_fwd m' = cm_fwd m /\ cm_cur m' = cm_cur m /\
  match a with
  | AEndForward => cm_mode m' = MEvaluated /\ snd r = None
  | AEndReverse => cm_mode m' <> MRecord
  | _ => cm_mode m' = cm_mode m
  end.
Proof.
  intros func mk s a. cbv zeta. destruct a; cbn [process_op].
  - pose proof (iter_man (forward_step F n0 ics adj st func) (fun m m' => cm_fwd m' = cm_fwd m /\ cm_mode m' = cm_mode m /\ cm_cur m' = cm_cur m)) as I.
    cbv beta in I. specialize (I ltac:(repeat split) ltac:(intros a b c [? [? ?]] [? [? ?]]; repeat split; congruence) ltac:(intros; apply forward_step_man)).
    specialize (I (fwd_steps n0 n1 (c_man s) (length (t_steps (c_tape s)))) s). tauto.
  - assert (E : c_man (fst (iter_o (reverse_step F clear mk) (rev (seq n0 (n1 - n0))) s)) = c_man s).
    { apply (iter_man (reverse_step F clear mk) (fun m m' => m' = m)); [auto|congruence|]. intros. apply reverse_step_man. }
    rewrite E. auto.
  - destruct (nth_error _ n); auto.
  - destruct (nth_error _ n); auto.
  - cbn. auto.
  - cbn. repeat split. destruct (sc_exhausted _ _); discriminate.
Qed.

Lemma recompute_man : forall func s, MInv (c_man s) -> cm_mode (c_man s) <> MRecord ->
  let r := cm_recompute F func s in
  cm_fwd (c_man (fst r)) = cm_fwd (c_man s) /\
  cm_mode (c_man (fst r)) = match snd r with None => MEvaluated | Some _ => MRecompute end.
Proof.
  intros func s [Hc _] Hm. cbv zeta. unfold cm_recompute.
  assert (K : match cm_mode (c_man s) with MRecord => end_taping s | _ => (s, None) end = (s, None)) by (destruct (cm_mode (c_man s)); congruence).
  rewrite K. cbn [andthen on_man c_man set_mode cm_fwd c_tape].
  destruct Hc as [Hc|[l [El Hl]]]; [congruence|].
  destruct (cm_fwd (c_man s)) as [|a0 r0] eqn:Ef; [destruct l; discriminate|].
  assert (G : forall l2 s2, cm_mode (c_man s2) = MRecompute -> cm_fwd (c_man s2) = cm_fwd (c_man s) -> forallb fwd_only l2 = true ->
     let f := fun (s : cst V) (a : action) => process_op F func false (on_man (set_cur a) s) a in
     cm_fwd (c_man (fst (iter_o f (l2 ++ [AEndForward]) s2))) = cm_fwd (c_man s) /\
     cm_mode (c_man (fst (iter_o f (l2 ++ [AEndForward]) s2))) = match snd (iter_o f (l2 ++ [AEndForward]) s2) with None => MEvaluated | Some _ => MRecompute end).
  { induction l2 as [|a l2 IH]; intros s2 M2 F2 H2 f.
    - cbn [app iter_o]. cbn. auto.
    - cbn [forallb] in H2. apply andb_true_iff in H2 as [Ha H2]. cbn [app iter_o].
      pose proof (process_op_man func false (on_man (set_cur a) s2) a) as P. cbv zeta in P. cbn [on_man c_man set_cur cm_fwd cm_mode] in P.
      destruct a; try discriminate. destruct P as [P1 [P2 P3]].
      unfold f at 1 3 5. cbn [on_man] in *.
      destruct (process_op F func false _ _) as [s3 [e|]] eqn:E3; cbn [fst snd] in *.
      + split; congruence.
      + apply IH; congruence. }
  destruct a0 as [n0 n1 ics adj st| | | | |]; cbn [c_man on_man set_mode cm_fwd cm_mode fst snd]; try (split; [congruence|reflexivity]).
  destruct (nth_error (t_steps (c_tape s)) n0) as [cur|]; cbn [fst snd]; [|cbn; split; [congruence|reflexivity]].
  assert (Ef' : cm_fwd (c_man s) = l ++ [AEndForward]) by congruence. rewrite El. rewrite Ef' in G.
  match goal with |- context[iter_o ?f (l ++ _) ?s2] => apply (G l s2) end; [reflexivity| |exact Hl]. cbn. exact Ef'.
Qed.

(** While recording: the forward actions taken so far end with the current one. *)
Lemma taping_store_man : forall n0 ics adj t s, let m := c_man s in let m' := c_man (fst (taping_store n0 ics adj t s)) in
  cm_fwd m' = cm_fwd m /\ cm_mode m' = cm_mode m /\ cm_cur m' = cm_cur m.
Proof.
  intros n0 ics adj t s. cbv zeta. unfold taping_store. destruct (nth_error _ (t - 1)) as [cur|]; [|auto].
  match goal with |- context[ts_checkpoint ?a ?b ?c ?d ?e] => destruct (ts_checkpoint a b c d e) as [cur1 [x|]] end; cbn; auto.
Qed.
Lemma process_taping_man : forall a t s, let m := c_man s in let r := process_taping a t s in let m' := c_man (fst r) in
  cm_fwd m' = cm_fwd m /\ cm_cur m' = cm_cur m /\ (cm_mode m' = cm_mode m \/ cm_mode m' = MEvaluated /\ a = AEndForward) /\
  (snd r = Ok false -> fwd_only a = true).
Proof.
  intros a t s. cbv zeta. destruct a; cbn [process_taping]; try (cbn; repeat split; auto; discriminate).
  - destruct (Nat.ltb t n0); [cbn; repeat split; auto; discriminate|].
    set (s1 := on_tape_ (set_eager adj) s).
    assert (E : c_man s1 = c_man s) by reflexivity.
    pose proof (taping_store_man n0 ics adj t s1) as T. cbv zeta in T. rewrite E in T.
    destruct (Nat.ltb n0 t && negb (is_work st)).
    + destruct (taping_store n0 ics adj t s1) as [s2 [e|]]; cbn [fst snd] in *.
      * destruct T as [T1 [T2 T3]]. repeat split; auto.
      * destruct T as [T1 [T2 T3]]. destruct (in_fwd t n0 n1 && lt_total t (c_man s2)); cbn [fst snd]; [destruct ics|]; cbn [c_man on_tape_]; repeat split; auto.
    + destruct (in_fwd t n0 n1 && lt_total t (c_man s1)); cbn [fst snd]; [destruct ics|]; cbn [c_man on_tape_]; repeat split; auto.
  - destruct (match cm_total (c_man s) with Some n => Nat.eqb t n | None => false end); cbn; repeat split; auto; discriminate.
Qed.

Lemma taping_loop_man : forall fuel t s, MInv (c_man s) -> cm_mode (c_man s) = MRecord ->
  MInv (c_man (fst (taping_loop fuel t s))) /\ (cm_mode (c_man (fst (taping_loop fuel t s))) = MRecord \/ cm_mode (c_man (fst (taping_loop fuel t s))) = MEvaluated).
Proof.
  assert (Step : forall a t s r, MInv (c_man s) -> cm_mode (c_man s) = MRecord -> cm_cur (c_man s) = a -> process_taping a t s = r ->
    MInv (c_man (fst r)) /\ (cm_mode (c_man (fst r)) = MRecord \/ cm_mode (c_man (fst r)) = MEvaluated /\ a = AEndForward)).
  { intros a t s r [Hc Hr] Hm Ha <-. destruct (process_taping_man a t s) as [P1 [P2 [P3 _]]]. rewrite Hm in P3.
    destruct (Hr Hm) as [l [El Hl]]. split; [split|tauto].
    - destruct P3 as [P3|[P3 P4]]; [now left|]. right. exists l. split; [|exact Hl]. rewrite P1, El. congruence.
    - intros M. exists l. split; [|exact Hl]. rewrite P1, P2. exact El. }
  assert (Push : forall a s, MInv (c_man s) -> cm_mode (c_man s) = MRecord -> fwd_only (cm_cur (c_man s)) = true -> MInv (push_fwd a (c_man s))).
  { intros a s [Hc Hr] Hm Hf. split; [now left|]. intros _. destruct (Hr Hm) as [l [El Hl]]. exists (l ++ [cm_cur (c_man s)]). cbn. split; [now rewrite El|].
    rewrite forallb_app, Hl. cbn. now rewrite Hf. }
  induction fuel as [|f IH]; intros t s Hi Hm; cbn [taping_loop].
  - destruct (Step _ t s _ Hi Hm eq_refl eq_refl) as [S1 S2].
    destruct (process_taping (cm_cur (c_man s)) t s) as [s1 [[|]|e]]; cbn [fst] in *.
    + tauto.
    + destruct (next_act (c_man s1)); cbn; tauto.
    + tauto.
  - destruct (Step _ t s _ Hi Hm eq_refl eq_refl) as [S1 S2].
    pose proof (process_taping_man (cm_cur (c_man s)) t s) as P. cbv zeta in P.
    destruct (process_taping (cm_cur (c_man s)) t s) as [s1 [[|]|e]]; cbn [fst snd] in *.
    + tauto.
    + destruct (next_act (c_man s1)) as [a|]; [|cbn; tauto].
      destruct P as [P1 [P2 [P3 P4]]]. specialize (P4 eq_refl).
      assert (M1 : cm_mode (c_man s1) = MRecord) by (destruct P3 as [P3|[P3 P5]]; [congruence|]; rewrite P5 in P4; discriminate).
      apply IH; [|exact M1]. apply Push; [exact S1|exact M1|congruence].
    + tauto.
Qed.
Lemma end_step_man : forall t s, MInv (c_man s) -> MInv (c_man (fst (cm_end_timestep t s))).
Proof.
  intros t s Hi. unfold cm_end_timestep. destruct (cm_mode (c_man s)) eqn:Hm; try exact Hi. now apply taping_loop_man.
Qed.
Lemma end_taping_loop_man : forall fuel t s, MInv (c_man s) -> MInv (c_man (fst (end_taping_loop fuel t s))) /\
  (snd (end_taping_loop fuel t s) = None -> cm_mode (c_man (fst (end_taping_loop fuel t s))) = MEvaluated).
Proof.
  induction fuel as [|f IH]; intros t s Hi.
  - cbn [end_taping_loop]. destruct (cm_mode (c_man s)) eqn:Hm; cbn; split; auto; discriminate.
  - pose proof (end_step_man t s Hi) as E. specialize (IH (S t) (fst (cm_end_timestep t s)) E).
    cbn [end_taping_loop]. destruct (cm_mode (c_man s)) eqn:Hm; try (cbn; split; [exact Hi|auto; fail]);
    destruct (cm_end_timestep t s) as [s1 [e|]]; cbn [fst snd] in *; try exact IH; split; auto; discriminate.
Qed.
Lemma end_taping_man : forall s, MInv (c_man s) -> cm_mode (c_man s) = MRecord ->
  MInv (c_man (fst (end_taping s))) /\ (snd (end_taping s) = None -> cm_mode (c_man (fst (end_taping s))) = MEvaluated).
Proof.
  intros s Hi Hm. unfold end_taping. destruct (cm_max (c_man s)) as [[|n]|].
  - cbn. split; [exact Hi|discriminate].
  - now apply end_taping_loop_man.
  - apply end_taping_loop_man. cbn. destruct Hi as [Hc Hr]. split; [now left|]. intros _. destruct (Hr Hm) as [l L]. now exists l.
Qed.

Lemma marked_man : forall ctrls s body, c_man (fst (c_marked_controls ctrls s body)) = c_man (fst (body (on_heap (fun h => upd_all h ctrls (set_ctrl true)) s))) /\
  snd (c_marked_controls ctrls s body) = snd (body (on_heap (fun h => upd_all h ctrls (set_ctrl true)) s)).
Proof. intros ctrls s body. unfold c_marked_controls. destruct (body _) as [s1 e]. auto. Qed.
Lemma marked_nodes_man : forall nodes s body, c_man (fst (c_marked_nodes nodes s body)) = c_man (fst (body (on_heap (fun h => upd_all h nodes (set_mark true)) s))) /\
  snd (c_marked_nodes nodes s body) = snd (body (on_heap (fun h => upd_all h nodes (set_mark true)) s)).
Proof. intros nodes s body. unfold c_marked_nodes. destruct (body _) as [s1 [e|]]; auto. Qed.

Lemma evaluate_adj_man : forall s, MInv (c_man s) ->
  let r := cm_evaluate_adj F 0 true s in
  MInv (c_man (fst r)) /\ (snd r = None -> cm_mode (c_man (fst r)) = MEvalAdj /\ may_adjoint (cm_mode (c_man s)) = true).
Proof.
  intros s Hi. cbv zeta. unfold cm_evaluate_adj. cbn [Nat.eqb negb].
  assert (A : let x := match cm_mode (c_man s) with MRecord => end_taping s | _ => (s, None) end in
    MInv (c_man (fst x)) /\ (snd x = None -> cm_mode (c_man (fst x)) <> MRecord) /\
    (snd x = None -> may_adjoint (cm_mode (c_man (fst x))) = true -> may_adjoint (cm_mode (c_man s)) = true)).
  { cbv zeta. destruct (cm_mode (c_man s)) eqn:Hm; try (cbn; rewrite Hm; repeat split; auto; try apply Hi; discriminate).
    destruct (end_taping_man s Hi Hm) as [E1 E2]. split; [exact E1|]. split; [intros N; rewrite (E2 N); discriminate|reflexivity]. }
  cbv zeta in A. destruct (match cm_mode (c_man s) with MRecord => end_taping s | _ => (s, None) end) as [s1 [e|]]; cbn [fst snd andthen] in *; [split; [tauto|discriminate]|].
  destruct A as [A1 [A2 A3]]. specialize (A2 eq_refl). specialize (A3 eq_refl).
  destruct A1 as [Ac Ar]. destruct Ac as [Ac|Ac]; [contradiction|].
  assert (Keep : forall m, cm_fwd m = cm_fwd (c_man s1) -> cm_mode m <> MRecord -> MInv m).
  { intros m M1 M2. split; [right; now rewrite M1|]. intros. congruence. }
  set (R := fun m m' => cm_fwd m' = cm_fwd m /\ (cm_mode m <> MRecord -> cm_mode m' <> MRecord)).
  assert (Rt : forall a b c, R a b -> R b c -> R a c) by (intros a b c [? ?] [? ?]; split; [congruence|tauto]).
  assert (Po : forall s a, R (c_man s) (c_man (fst (process_op F None true s a)))).
  { intros s2 a. destruct (process_op_man None true s2 a) as [P1 [P2 P3]]. split; [exact P1|]. intros M.
    destruct a; try congruence. destruct P3 as [P3 _]. congruence. }
  assert (Lp : forall fuel s, R (c_man s) (c_man (fst (reverse_loop F fuel true s)))).
  { induction fuel as [|f IH]; intros s2; cbn [reverse_loop].
    - assert (R (c_man s2) (c_man s2)) by (split; auto). destruct (cm_cur (c_man s2)); destruct (next_act (c_man s2)); auto.
    - assert (Rr : R (c_man s2) (c_man s2)) by (split; auto).
      assert (St : forall a, R (c_man s2) (c_man (fst (andthen (process_op F None true (on_man (push_rev a) s2) a) (reverse_loop F f true))))).
      { intros a. specialize (Po (on_man (push_rev a) s2) a). assert (R (c_man s2) (c_man (on_man (push_rev a) s2))) by (split; auto).
        destruct (process_op F None true (on_man (push_rev a) s2) a) as [s3 [e|]]; cbn [andthen fst] in *; eauto. }
      destruct (cm_cur (c_man s2)); destruct (next_act (c_man s2)); auto. }
  match goal with |- context[andthen ?x _] => assert (B : R (c_man s1) (c_man (fst x)) \/ may_adjoint (cm_mode (c_man s1)) = false) end.
  { left. destruct (cm_rev (c_man s1)) eqn:Er; [apply Lp|]. rewrite <- Er. apply (iter_man (process_op F None true) R); [split; auto|exact Rt|exact Po]. }
  destruct (cm_mode (c_man s1)) eqn:Hm; try contradiction; try (cbn [fst snd]; split; [now apply Keep; rewrite ?Hm|discriminate]).
  - match goal with |- context[andthen ?x _] => destruct x as [s2 [e|]] end; cbn [andthen fst snd] in *; (destruct B as [[B1 B2]|B]; [|discriminate]).
    + split; [apply Keep; [exact B1|apply B2; rewrite Hm; discriminate]|discriminate].
    + split; [apply Keep; [exact B1|discriminate]|]. intros _. split; [reflexivity|now apply A3].
  - match goal with |- context[andthen ?x _] => destruct x as [s2 [e|]] end; cbn [andthen fst snd] in *; (destruct B as [[B1 B2]|B]; [|discriminate]).
    + split; [apply Keep; [exact B1|apply B2; rewrite Hm; discriminate]|discriminate].
    + split; [apply Keep; [exact B1|discriminate]|]. intros _. split; [reflexivity|now apply A3].
Qed.

Lemma derivative_man : forall (rf : rfun V) x s, MInv (c_man s) ->
  MInv (c_man (fst (c_derivative F rf x s))) /\
  (forall l, snd (c_derivative F rf x s) = Ok l -> cm_mode (c_man (fst (c_derivative F rf x s))) = MEvalAdj /\ may_adjoint (cm_mode (c_man s)) = true).
Proof.
  intros rf x s Hi. unfold c_derivative. destruct (rf_ctrls rf) as [|c cs] eqn:Ec; [split; [exact Hi|discriminate]|].
  match goal with |- context[c_marked_nodes ?n ?a ?b] => destruct (marked_nodes_man n a b) as [M1 M2]; destruct (c_marked_nodes n a b) as [s2 e] end.
  cbn [fst snd] in M1, M2.
  match type of M1 with _ = c_man (fst (c_marked_controls ?c ?a ?b)) => destruct (marked_man c a b) as [N1 N2] end.
  rewrite N1 in M1. rewrite N2 in M2.
  match type of M1 with _ = c_man (fst (cm_evaluate_adj F 0 true ?a)) => pose proof (evaluate_adj_man a) as E end.
  cbn [on_heap c_man] in E. specialize (E Hi). cbv zeta in E. cbn [on_heap c_heap c_tape c_man] in *. rewrite <- M1, <- M2 in E. destruct E as [E1 E2].
  destruct e as [e|]; cbn [fst snd]; split; auto; discriminate.
Qed.

Lemma call_man : forall (rf : rfun V) vals s, MInv (c_man s) ->
  let r := c_call F rf vals s in
  MInv (c_man (fst r)) /\
  (forall x, snd r = Ok x -> cm_mode (c_man (fst r)) = MEvaluated) /\
  (forall e, snd r = Err e -> may_adjoint (cm_mode (c_man s)) = false -> may_adjoint (cm_mode (c_man (fst r))) = false) /\
  (forall e, snd r = Err e -> length vals = length (rf_ctrls rf) -> cm_mode (c_man s) <> MRecord -> cm_mode (c_man (fst r)) = MRecompute) /\
  (cm_mode (c_man s) <> MRecord -> cm_mode (c_man (fst r)) <> MRecord).
Proof.
  intros rf vals s Hi. cbv zeta. unfold c_call. destruct (Nat.eqb_spec (length vals) (length (rf_ctrls rf))) as [El|El]; cbn [negb].
  2:{ cbn [fst snd]. split; [exact Hi|]. split; [discriminate|]. split; [auto|]. split; [congruence|auto]. }
  match goal with |- context[c_marked_controls ?c ?a ?b] => destruct (marked_man c a b) as [N1 N2]; destruct (c_marked_controls c a b) as [s2 e] end.
  cbn [fst snd] in N1, N2. set (func := if truthy F _ then _ else _) in *. clearbody func.
  match type of N1 with _ = c_man (fst (cm_recompute F func ?a)) => set (s1 := a) in * end.
  assert (Es : c_man s1 = c_man s) by reflexivity. clearbody s1.
  assert (Big : MInv (c_man (fst (cm_recompute F func s1))) /\
    (snd (cm_recompute F func s1) = None -> cm_mode (c_man (fst (cm_recompute F func s1))) = MEvaluated) /\
    (cm_mode (c_man s) <> MRecord -> snd (cm_recompute F func s1) <> None -> cm_mode (c_man (fst (cm_recompute F func s1))) = MRecompute)).
  { assert (NR : forall s3, MInv (c_man s3) -> cm_mode (c_man s3) <> MRecord ->
      MInv (c_man (fst (cm_recompute F func s3))) /\ (snd (cm_recompute F func s3) = None -> cm_mode (c_man (fst (cm_recompute F func s3))) = MEvaluated) /\
      (snd (cm_recompute F func s3) <> None -> cm_mode (c_man (fst (cm_recompute F func s3))) = MRecompute)).
    { intros s3 I3 M3. destruct (recompute_man func s3 I3 M3) as [R1 R2]. cbv zeta in R1, R2.
      assert (Q : cm_mode (c_man (fst (cm_recompute F func s3))) <> MRecord) by (rewrite R2; destruct (snd (cm_recompute F func s3)); discriminate).
      split; [|split; intros N; rewrite R2; destruct (snd (cm_recompute F func s3)); congruence].
      split; [right|intros ?; contradiction]. rewrite R1. destruct I3 as [[I3|I3] _]; [contradiction|exact I3]. }
    destruct (mode_eqb (cm_mode (c_man s1)) MRecord) eqn:Hm.
    - assert (Hm' : cm_mode (c_man s1) = MRecord) by (destruct (cm_mode (c_man s1)); discriminate || reflexivity).
      destruct (end_taping_man s1 ltac:(now rewrite Es) Hm') as [E1 E2].
      assert (U : cm_recompute F func s1 = andthen (end_taping s1) (fun s3 => cm_recompute F func s3) \/ snd (end_taping s1) <> None /\ cm_recompute F func s1 = end_taping s1).
      { unfold cm_recompute at 1. rewrite Hm'. destruct (end_taping s1) as [s3 [e'|]] eqn:Ee; cbn [andthen fst snd] in *; [right; split; [discriminate|]|left].
        - unfold cm_recompute. now rewrite Hm', Ee.
        - unfold cm_recompute. rewrite (E2 eq_refl). reflexivity. }
      destruct U as [U|[U1 U2]].
      + rewrite U. destruct (end_taping s1) as [s3 [e'|]]; cbn [andthen fst snd] in *.
        * split; [exact E1|]. split; [discriminate|]. rewrite <- Es, Hm'. intros X; now elim X.
        * specialize (E2 eq_refl). destruct (NR s3 E1 ltac:(rewrite E2; discriminate)) as [A [B C]]. auto.
      + rewrite U2. split; [exact E1|]. split; [tauto|]. rewrite <- Es, Hm'. intros X; now elim X.
    - assert (Hm' : cm_mode (c_man s1) <> MRecord) by (intros X; rewrite X in Hm; discriminate).
      destruct (NR s1 ltac:(now rewrite Es) Hm') as [A [B C]]. auto. }
  rewrite <- N1, <- N2 in Big. destruct Big as [B1 [B2 B3]].
  destruct e as [e|]; cbn [fst snd].
  - split; [exact B1|]. split; [discriminate|]. split; [|split].
    + intros e' _ M. rewrite B3; [reflexivity| |discriminate]. intros X. rewrite X in M. discriminate.
    + intros e' _ _ M. apply B3; [exact M|discriminate].
    + intros M. rewrite B3; [discriminate|exact M|discriminate].
  - split; [exact B1|]. split; [auto|]. split; [discriminate|]. split; [discriminate|]. intros _. rewrite B2; [discriminate|reflexivity].
Qed.

(** ** The protocol over histories *)
Lemma cop_inv : forall o s, MInv (c_man s) -> MInv (c_man (fst (cop_run F s o))).
Proof.
  intros o s Hi. destruct o as [|rf vals|rf x]; cbn [cop_run fst].
  - now apply end_step_man.
  - now apply call_man.
  - now apply derivative_man.
Qed.
Lemma hist_inv : forall l s, MInv (c_man s) -> MInv (c_man (cop_hist F s l)).
Proof. induction l as [|o r IH]; intros s Hi; cbn; [exact Hi|]. apply IH. now apply cop_inv. Qed.

(** Recording once left is never re-entered. *)
Lemma left_record : forall o s, MInv (c_man s) -> cm_mode (c_man s) <> MRecord -> cm_mode (c_man (fst (cop_run F s o))) <> MRecord.
Proof.
  intros o s Hi Hm. destruct o as [|rf vals|rf x]; cbn [cop_run fst].
  - unfold cm_end_timestep. destruct (cm_mode (c_man s)) eqn:E; try contradiction; cbn; congruence.
  - now apply call_man.
  - destruct (may_adjoint (cm_mode (c_man s))) eqn:Ma.
    + unfold c_derivative. destruct (rf_ctrls rf) as [|c cs] eqn:Ec; [exact Hm|].
      match goal with |- context[c_marked_nodes ?n ?a ?b] => destruct (marked_nodes_man n a b) as [M1 M2]; destruct (c_marked_nodes n a b) as [s2 e] end.
      cbn [fst snd] in M1, M2.
      match type of M1 with _ = c_man (fst (c_marked_controls ?c ?a ?b)) => destruct (marked_man c a b) as [N1 N2] end.
      rewrite N1 in M1.
      assert (G : forall s0, MInv (c_man s0) -> cm_mode (c_man s0) <> MRecord -> cm_mode (c_man (fst (cm_evaluate_adj F 0 true s0))) <> MRecord).
      { intros s0 H0 H1. unfold cm_evaluate_adj. cbn [Nat.eqb negb].
        replace (match cm_mode (c_man s0) with MRecord => end_taping s0 | _ => (s0, None) end) with (s0, @None exn) by (destruct (cm_mode (c_man s0)); congruence).
        cbn [andthen].
        set (R := fun m m' : cman => cm_mode m <> MRecord -> cm_mode m' <> MRecord).
        assert (Po : forall s a, R (c_man s) (c_man (fst (process_op F None true s a)))).
        { intros s4 a M. destruct (process_op_man None true s4 a) as [P1 [P2 P3]]. destruct a; try congruence. destruct P3 as [P3 _]. congruence. }
        assert (Lp : forall fuel s, R (c_man s) (c_man (fst (reverse_loop F fuel true s)))).
        { induction fuel as [|f IH]; intros s4 M; cbn [reverse_loop].
          - destruct (cm_cur (c_man s4)); destruct (next_act (c_man s4)); auto.
          - assert (St : forall a, cm_mode (c_man (fst (andthen (process_op F None true (on_man (push_rev a) s4) a) (reverse_loop F f true)))) <> MRecord).
            { intros a. specialize (Po (on_man (push_rev a) s4) a M).
              destruct (process_op F None true (on_man (push_rev a) s4) a) as [s5 [e'|]]; cbn [andthen fst] in *; auto. now apply IH. }
            destruct (cm_cur (c_man s4)); destruct (next_act (c_man s4)); auto. }
        match goal with |- context[andthen ?x _] => assert (B : cm_mode (c_man (fst x)) <> MRecord) end.
        { destruct (cm_rev (c_man s0)) eqn:Er; [now apply Lp|]. rewrite <- Er.
          apply (iter_man (process_op F None true) R); [intros m X; exact X|intros ? ? ? X Y Z; auto|exact Po|exact H1]. }
        match goal with |- context[andthen ?x _] => destruct x as [s4 [e'|]] end; cbn [andthen fst] in *;
        destruct (cm_mode (c_man s0)) eqn:E0; cbn [fst snd on_man c_man set_mode cm_mode]; auto; try (rewrite E0; auto); discriminate. }
      destruct e as [e|]; cbn [fst]; rewrite M1; apply G; assumption.
    + destruct (derivative_refused rf x s Ma) as [h [e [E _]]]. rewrite E. exact Hm.
Qed.

(** Once out of recording, end_timestep is refused and changes nothing. *)
Lemma end_refused_forever : forall l s, MInv (c_man s) -> cm_mode (c_man s) <> MRecord ->
  cop_run F (cop_hist F s l) OEnd = (cop_hist F s l, Some ECheckpoint).
Proof.
  induction l as [|o r IH]; intros s Hi Hm; cbn [cop_hist].
  - cbn [cop_run]. unfold cm_end_timestep. destruct (cm_mode (c_man s)); congruence.
  - apply IH; [now apply cop_inv|]. now apply left_record.
Qed.

Lemma success_leaves_record : forall o s, MInv (c_man s) -> o <> OEnd -> ok (cop_run F s o) = true ->
  cm_mode (c_man (fst (cop_run F s o))) <> MRecord.
Proof.
  intros o s Hi Ho Hk. destruct o as [|rf vals|rf x]; [now elim Ho| |]; unfold ok in Hk; cbn [cop_run fst snd] in *.
  - destruct (call_man rf vals s Hi) as [_ [B _]]. destruct (snd (c_call F rf vals s)) as [y|e]; [|discriminate]. rewrite (B y eq_refl). discriminate.
  - destruct (derivative_man rf x s Hi) as [_ B]. destruct (snd (c_derivative F rf x s)) as [y|e]; [|discriminate]. destruct (B y eq_refl) as [B1 _]. rewrite B1. discriminate.
Qed.

(** A derivative is not accepted again before another evaluation succeeds. *)
Lemma spent_forever : forall l s, MInv (c_man s) -> may_adjoint (cm_mode (c_man s)) = false -> no_eval F s l = true ->
  may_adjoint (cm_mode (c_man (cop_hist F s l))) = false.
Proof.
  induction l as [|o r IH]; intros s Hi Hm Hn; cbn [cop_hist no_eval] in *; [exact Hm|].
  apply andb_true_iff in Hn as [H1 H2]. apply IH; [now apply cop_inv| |exact H2].
  destruct o as [|rf vals|rf x]; cbn [cop_run fst].
  - unfold cm_end_timestep. destruct (cm_mode (c_man s)) eqn:E; try discriminate; cbn [fst]; now rewrite E.
  - destruct (call_man rf vals s Hi) as [_ [_ [C _]]]. unfold ok in H1. cbn [cop_run snd] in H1.
    destruct (snd (c_call F rf vals s)) as [y|e]; [discriminate|]. now apply (C e).
  - destruct (derivative_refused rf x s Hm) as [h [e [E _]]]. rewrite E. exact Hm.
Qed.

(** The manager built by enable_checkpointing satisfies the invariant. *)
Lemma enable_inv : forall pkg sc (w : world V) cw m, cw_enable pkg sc w = (cw, None) -> cw_man cw = Some m -> MInv m.
Proof.
  intros pkg sc w cw m H Hm. unfold cw_enable, enable in H.
  destruct (t_flat (w_tape w)); [|discriminate]. destruct (sc_disk sc && negb pkg); [discriminate|].
  destruct (nth_error (sc_acts sc (sc_max sc)) 0) as [a|]; [|discriminate].
  match type of H with context[cm_end_timestep 0 ?s] => pose proof (end_step_man 0 s) as E; destruct (cm_end_timestep 0 s) as [s1 [e|]] end; [discriminate|].
  inversion H; subst cw. cbn in Hm. inversion Hm; subst m. apply E. split; [now left|]. intros _. exists []. cbn. auto.
Qed.

Lemma cexec_inv : forall p (cw : cworld V) m, cw_man cw = Some m -> MInv m ->
  exists m', cw_man (cexec F cw p) = Some m' /\ MInv m'.
Proof.
  induction p as [|c r IH]; intros cw m Hm Hi; [exists m; auto|].
  unfold cexec. cbn [fold_left]. fold (cexec F (fst (cexec_stmt F cw c)) r).
  assert (G : forall w1 : world V, exists m', cw_man (cexec F (CW w1 (cw_man cw)) r) = Some m' /\ MInv m') by (intros w1; apply (IH _ m); [exact Hm|exact Hi]).
  destruct c; cbn [cexec_stmt]; try (match goal with |- context[exec_stmt ?a ?b ?c] => destruct (exec_stmt a b c) as [w1 e] end; cbn [fst]; exact (G w1)).
  rewrite Hm. pose proof (end_step_man (S (Z.to_nat (latest_timestep (w_tape (cw_w cw))))) (cw_cst (cw_w cw) m) Hi) as E.
  destruct (cm_end_timestep _ _) as [s1 e]. cbn [fst] in *. apply (IH _ (c_man s1)); [reflexivity|exact E].
Qed.

(** ** From the start *)
Lemma session_inv : forall pkg sc ann p s, ckpt_session F pkg sc ann p s -> MInv (c_man s).
Proof.
  intros pkg sc ann p s [cw [m [A [B ->]]]]. cbn.
  assert (G : exists m0, cw_man cw = Some m0).
  { unfold cw_enable in A. destruct (enable pkg sc (w_heap (world_new F ann)) (w_tape (world_new F ann))) as [[h t] [m0|e]]; inversion A. cbn. eauto. }
  destruct G as [m0 G]. destruct (cexec_inv p cw m0 G (enable_inv _ _ _ _ _ A G)) as [m' [E1 E2]]. congruence.
Qed.
Lemma hist_app : forall l1 l2 s, cop_hist F s (l1 ++ l2) = cop_hist F (cop_hist F s l1) l2.
Proof. induction l1 as [|o r IH]; intros l2 s; cbn; auto. Qed.

Lemma end_protocol : forall pkg sc ann p s l1 o l2, ckpt_session F pkg sc ann p s ->
  o <> OEnd -> ok (cop_run F (cop_hist F s l1) o) = true ->
  let s' := cop_hist F s (l1 ++ o :: l2) in cop_run F s' OEnd = (s', Some ECheckpoint).
Proof.
  intros pkg sc ann p s l1 o l2 Hs Ho Hk. cbv zeta. rewrite hist_app. cbn [cop_hist].
  pose proof (hist_inv l1 s (session_inv _ _ _ _ _ Hs)) as I.
  apply end_refused_forever; [now apply cop_inv|]. now apply success_leaves_record.
Qed.


Lemma refused_run : forall rf x s, may_adjoint (cm_mode (c_man s)) = false ->
  exists h, cop_run F s (ODeriv rf x) = (CS h (c_tape s) (c_man s), Some (match rf_ctrls rf with [] => EValue | _ => ECheckpoint end)) /\
    forall v, bv_out (h v) = bv_out (c_heap s v) /\ bv_ckpt (h v) = bv_ckpt (c_heap s v) /\ saved h v = saved (c_heap s) v.
Proof.
  intros rf x s Hm. destruct (derivative_refused rf x s Hm) as [h [e [E [-> K]]]]. exists h. cbn [cop_run]. rewrite E. cbn [fst snd]. split; [reflexivity|].
  intros v. destruct (K v) as [A [B C]]. auto.
Qed.
Lemma derivative_protocol : forall pkg sc ann p s l1 o l2, ckpt_session F pkg sc ann p s ->
  spends F (cop_hist F s l1) o -> no_eval F (fst (cop_run F (cop_hist F s l1) o)) l2 = true ->
  let s' := cop_hist F s (l1 ++ o :: l2) in
  forall rf x, exists h, cop_run F s' (ODeriv rf x) = (CS h (c_tape s') (c_man s'), Some (match rf_ctrls rf with [] => EValue | _ => ECheckpoint end)) /\
    forall v, bv_out (h v) = bv_out (c_heap s' v) /\ bv_ckpt (h v) = bv_ckpt (c_heap s' v) /\ saved h v = saved (c_heap s') v.
Proof.
  intros pkg sc ann p s l1 o l2 Hs Ho Hn. cbv zeta. intros rf x. rewrite hist_app. cbn [cop_hist].
  pose proof (hist_inv l1 s (session_inv _ _ _ _ _ Hs)) as I. set (s1 := cop_hist F s l1) in *.
  apply refused_run. apply spent_forever; [now apply cop_inv| |exact Hn].
  destruct o as [|rf0 vals|rf0 x0]; cbn [spends] in Ho; [contradiction| |].
  - destruct Ho as [Hm [Hl Hk]]. destruct (call_man rf0 vals s1 I) as [_ [_ [_ [D _]]]]. cbn [cop_run fst snd] in *. unfold ok in Hk. cbn [snd] in Hk.
    destruct (snd (c_call F rf0 vals s1)) as [y|e]; [discriminate|]. rewrite (D e eq_refl Hl Hm). reflexivity.
  - destruct (derivative_man rf0 x0 s1 I) as [_ D]. cbn [cop_run fst snd] in *. unfold ok in Ho. cbn [snd] in Ho.
    destruct (snd (c_derivative F rf0 x0 s1)) as [y|e]; [|discriminate]. destruct (D y eq_refl) as [D1 _]. now rewrite D1.
Qed.
End Protocol.
