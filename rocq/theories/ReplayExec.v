(** Each statement preserves the recording invariant and the simulation with the specification;
    from this the replay theorem: evaluating a reduced functional is re-running the program. *)
From Coq Require Import List Arith ZArith Lia Bool.
From Verif Require Import Base Model BaseFacts Graph Record Spec RecordFacts Replay ReplayStep.
Import ListNotations.

Section Exec.
Context {V : Type} (F : fops V).
Implicit Types (w : world V) (h : heap V) (s : sst V) (ov : override V).

Definition old_refs (n : nat) w := forall v, In v (refs [] w) -> bv_obj (w_heap w v) < n.

Lemma old_refs_WInv : forall w, WInv F [] w -> old_refs (length (w_objs w)) w.
Proof.
  intros w W v Hv. destruct (wi_live F [] w W v Hv) as [_ [ob [A _]]]. now apply nth_error_some_lt in A.
Qed.
Lemma old_refs_evolves : forall n w w', WInv F [] w -> evolves w w' -> old_refs n w -> old_refs n w'.
Proof.
  intros n w w' W E H v Hv. unfold refs in Hv. rewrite (ev_flat _ _ E), (ev_ctrls _ _ E) in Hv.
  pose proof (ev_ghost _ _ E v (proj1 (wi_live F [] w W v Hv))) as G. unfold ghost in G.
  specialize (H v Hv). congruence.
Qed.

Lemma get_args_app : forall f s os args xs, get_args f s args = Some xs -> get_args f (push os s) args = Some xs.
Proof.
  intros f s os args xs H. apply get_args_spec in H. apply get_args_spec. eapply Forall2_impl'; [|exact H].
  intros o x [so [A B]]. exists so. split; [|exact B]. cbn. rewrite nth_error_app1; [exact A|]. now apply nth_error_some_lt in A.
Qed.

Lemma cur_inj : forall pend w os vs, WInv F pend w -> Forall2 (cur w) os vs -> NoDup os -> NoDup vs.
Proof.
  intros pend w os vs W H. induction H as [|o v l m Hc H IH]; intros Hn; [constructor|].
  inversion Hn as [|? ? Hnin Hn']; subst. constructor; [|auto].
  intros Hin. apply Hnin. clear - H Hin W Hc. induction H as [|a c l m Hca H IH]; [easy|].
  destruct Hin as [->|Hin]; [|right; auto]. left.
  rewrite <- (WInv_cur_obj F pend w a v W Hca). apply (WInv_cur_obj F pend w o v W Hc).
Qed.

Lemma Forall2_In_r : forall {A B} (P : A -> B -> Prop) l m b, Forall2 P l m -> In b m -> exists a, In a l /\ P a b.
Proof.
  intros A B P l m b H. induction H as [|x y l m Hp H IH]; intros Hin; [easy|].
  destruct Hin as [->|Hin]; [exists x; split; [now left|assumption]|]. destruct (IH Hin) as [a [Ha Hb]]. exists a. split; [now right|assumption].
Qed.

Lemma finish_call : forall ov w f s l b ys xs ps args func,
  WInv F [] w -> Sim F ov w (push_plain ov s ys) ->
  flat (with_tape f w) = l ++ [b] ->
  (flat w = l \/ flat w = l ++ [Blk (b_kind b) (b_deps b) [] (b_tag b)]) ->
  Forall2 (cur w) args (b_deps b) -> Forall (fun v => bv_ckpt (w_heap w v) <> None) (b_deps b) ->
  Forall2 (cur w) (seq (length (s_objs s)) (length ys)) (b_outs b) ->
  old_refs (length (s_objs s)) w ->
  get_args s_rec s args = Some xs -> get_args s_rep s args = Some ps ->
  func xs = Ok ys ->
  (forall i zs, i < length ys -> length zs = length (b_deps b) -> comp_recompute F (b_kind b) zs i = again_val (func zs) i) ->
  shaped b ->
  WInv F [] (with_tape f w) /\
  Sim F ov (with_tape f w) (after true ov (next_vers s (length ys)) ys (func ps)
                 (fun zs => push (sobjs_new ys zs) s) (fun e => push (sobjs_new ys ys) (raise e s))).
Proof.
  intros ov w f s l b ys xs ps args func W S Hf Hl Hd Hk Ho Hold Hxs Hps Hfx Hag Hsh.
  assert (Hargs : Forall (fun o => o < length (s_objs s)) args).
  { apply get_args_spec in Hxs. clear - Hxs. induction Hxs as [|o x l m [so [A B]] H IH]; constructor; auto. now apply nth_error_some_lt in A. }
  assert (Hoo : forall v, In v (b_outs b) -> current w v /\ length (s_objs s) <= bv_obj (w_heap w v)).
  { intros v Hv. destruct (Forall2_In_r _ _ _ v Ho Hv) as [o [Hi Hc]]. split; [exists o; exact Hc|].
    rewrite (WInv_cur_obj F [] w o v W Hc). apply in_seq in Hi. lia. }
  assert (Hdd : forall v, In v (b_deps b) -> current w v /\ bv_obj (w_heap w v) < length (s_objs s)).
  { intros v Hv. destruct (Forall2_In_r _ _ _ v Hd Hv) as [o [Hi Hc]]. split; [exists o; exact Hc|].
    rewrite (WInv_cur_obj F [] w o v W Hc). exact (proj1 (Forall_forall _ _) Hargs o Hi). }
  assert (Hnd : NoDup (b_outs b)) by (eapply cur_inj; eauto; apply seq_NoDup).
  assert (Hlen : length (b_outs b) = length ys).
  { pose proof (Forall2_len _ _ _ Ho) as L. rewrite seq_length in L. now symmetry. }
  assert (Hrec : map (recs (w_heap w)) (b_deps b) = xs).
  { eapply cur_rec; eauto. apply arg_vals_spec.
    pose proof (get_args_app s_rec s (sobjs_new ys (plain_reps ov s ys)) args xs Hxs) as H. apply get_args_spec in H.
    eapply Forall2_impl'; [|exact H]. intros o x [so [A B]].
    destruct (nth_error (w_objs w) o) as [ob|] eqn:E.
    - exists ob. split; [reflexivity|]. destruct (sm_obj F _ _ _ S _ _ _ E A). congruence.
    - apply nth_error_None in E. rewrite (sm_len F _ _ _ S) in E. apply nth_error_some_lt in A. unfold push_plain in E. lia. }
  assert (Hps1 : s_err s = None -> map (fst (genv F ov w)) (b_deps b) = ps).
  { intros Hn. eapply cur_rep; eauto. now apply get_args_app. }
  split.
  - eapply WInv_finish; eauto.
    + intros v Hv. destruct (Hoo v Hv) as [A B]. split; [exact A|]. intros K. specialize (Hold v K). lia.
    + intros v Hv. right. destruct (Hdd v Hv) as [A B]. split; [exact A|]. intros K. destruct (Hoo v K). lia.
    + intros v Hv. exact (proj1 (Forall_forall _ _) Hk v Hv).
    + intros i o Hi. assert (Hi' : i < length ys) by (apply nth_error_some_lt in Hi; lia).
      rewrite Hag by (auto; apply map_length). rewrite Hrec, Hfx. cbn.
      assert (Hc : cur w (length (s_objs s) + i) o).
      { clear - Ho Hi Hi'. pose proof (nth_seq (length ys) (length (s_objs s)) i Hi') as N. clear Hi'. revert N. generalize (length (s_objs s) + i). intros q N. revert i Hi N.
        induction Ho as [|a c l m Hc H IH]; intros [|i] Hi N; cbn in *; try discriminate; [congruence|]. eapply IH; eauto. }
      destruct (cur_ghost F [] w _ _ W Hc) as [ob [A [_ [_ B]]]].
      destruct (nth_error ys i) as [y|] eqn:Ey; [|apply nth_error_None in Ey; lia].
      pose proof (nth_push_new s ys (plain_reps ov s ys) i (plain_reps_length ov s ys)) as N. rewrite Ey in N.
      destruct (nth_error (plain_reps ov s ys) i) as [z|] eqn:Ez; [|apply nth_error_None in Ez; rewrite plain_reps_length in Ez; lia].
      destruct (sm_obj F _ _ _ S _ _ _ A N) as [E _]. unfold recs. cbn in E. congruence.
  - eapply (Sim_call F [] ov w (with_tape f w) s b ys ps (func ps)); eauto.
    + unfold genv. rewrite Hf. cbn [w_heap with_tape]. rewrite geval_snoc. destruct Hl as [E|E]; rewrite E; [reflexivity|].
      rewrite geval_snoc. destruct (geval F _ l _) as [e [x|]]; [reflexivity|]. cbn. reflexivity.
    + intros i Hi. apply Hag; [lia|]. apply get_args_spec in Hps. apply Forall2_len in Hps. apply Forall2_len in Hd. congruence.
Qed.

(** ** Statements *)
Definition good ov w s := WInv F [] w /\ Sim F ov w s.

Lemma good_new : forall ov w s x, good ov w s ->
  good ov (fst (new_obj w x)) (push [SObj x (prescribed ov (length (s_objs s), 0) x) 0] s).
Proof. intros ov w s x [W S]. split; [now apply WInv_new_obj|now apply Sim_new_obj]. Qed.

Lemma push_one : forall ov s y, push_plain ov s [y] = push [SObj y (prescribed ov (length (s_objs s), 0) y) 0] s.
Proof. reflexivity. Qed.

(** An outputless block over current dependencies. *)
Lemma good_outless : forall ov w s k args deps tag,
  good ov w s -> Forall2 (cur w) args deps -> Forall (fun v => bv_ckpt (w_heap w v) <> None) deps ->
  (match k with KUser _ => True | k => length deps = arity k end) ->
  good ov (with_tape (fun t => add_block t (Blk k deps [] tag)) w) s.
Proof.
  intros ov w s k args deps tag [W S] Hc Hk Hs.
  assert (Hf : flat (with_tape (fun t => add_block t (Blk k deps [] tag)) w) = flat w ++ [Blk k deps [] tag]).
  { unfold flat. cbn. apply flat_add_block. }
  split.
  - eapply (WInv_finish F [] w _ (flat w) (Blk k deps [] tag)); eauto; cbn; try easy.
    + constructor.
    + intros v Hv. right. split; [|easy]. destruct (Forall2_In_r _ _ _ v Hc Hv) as [o [_ H]]. exists o. exact H.
    + intros v Hv. exact (proj1 (Forall_forall _ _) Hk v Hv).
    + intros i o Hi. destruct i; discriminate.
    + unfold shaped. cbn. destruct k; auto.
  - apply (Sim_same F ov w); auto. eapply genv_no_outs; eauto.
Qed.

Lemma cur_lt_objs : forall w o v, cur w o v -> o < length (w_objs w).
Proof. intros w o v [ob [A _]]. now apply nth_error_some_lt in A. Qed.

Lemma old_refs_outless : forall n w k args deps tag, WInv F [] w ->
  old_refs n w -> Forall2 (cur w) args deps -> Forall (fun o => o < n) args ->
  old_refs n (with_tape (fun t => add_block t (Blk k deps [] tag)) w).
Proof.
  intros n w k args deps tag W Hold Hc Ha v Hv. unfold refs, flat in Hv. cbn [w_tape with_tape w_ctrls] in Hv. rewrite flat_add_block in Hv.
  apply in_app_iff in Hv as [Hv|Hv].
  - apply vars_snoc in Hv as [Hv|[Hv|Hv]]; [|cbn in Hv|easy].
    + apply Hold. unfold refs. apply in_or_app. now left.
    + destruct (Forall2_In_r _ _ _ v Hc Hv) as [o [Hi H]]. cbn. rewrite (WInv_cur_obj F [] w o v W H). exact (proj1 (Forall_forall _ _) Ha o Hi).
  - apply Hold. unfold refs. apply in_or_app. now right.
Qed.

Lemma flat_last_push : forall w v l b, flat w = l ++ [b] -> flat (with_tape (last_push_out v) w) = l ++ [push_out v b].
Proof. intros w v l b H. unfold flat in *. cbn. rewrite H. apply map_last_app. Qed.

Lemma get_one_out : forall w o v w1, get_bv w o = (w1, v) -> WInv F [] w -> o < length (w_objs w) ->
  WInv F [] (will_out w1 v) /\ evolves w (will_out w1 v) /\ cur (will_out w1 v) o v.
Proof.
  intros w o v w1 H W Ho. pose proof (get_bv_spec F [] w o W Ho) as G. rewrite H in G. destruct G as [W1 [E1 C1]].
  pose proof (will_out_touches w1 v) as T. pose proof (touches_evolves _ _ _ T) as ET.
  split; [eapply touches_WInv; eauto; exists o; exact C1|]. split; [eapply evolves_trans; eauto|]. eapply evolves_cur; eauto.
Qed.

Lemma Forall2_cur_evolves : forall w w' os vs, evolves w w' -> Forall2 (cur w) os vs -> Forall2 (cur w') os vs.
Proof. intros w w' os vs E H. eapply Forall2_impl'; [|exact H]. intros. eapply evolves_cur; eauto. Qed.
Lemma ckpt_evolves : forall w w' os vs, WInv F [] w -> evolves w w' -> Forall2 (cur w) os vs ->
  Forall (fun v => bv_ckpt (w_heap w v) <> None) vs -> Forall (fun v => bv_ckpt (w_heap w' v) <> None) vs.
Proof.
  intros w w' os vs W E H K. apply Forall_forall. intros v Hv. destruct (Forall2_In_r _ _ _ v H Hv) as [o [_ Hc]].
  apply (ev_ckpt _ _ E); [eapply WInv_cur_lt; eauto|exact (proj1 (Forall_forall _ _) K v Hv)].
Qed.
Lemma cur_unique : forall w os vs us, Forall2 (cur w) os vs -> Forall2 (cur w) os us -> vs = us.
Proof.
  intros w os vs us H. revert us. induction H as [|o v l m Hc H IH]; intros us Hu; inversion Hu; subst; [reflexivity|].
  f_equal; [eapply cur_fun; eauto|auto].
Qed.

Lemma again_one : forall k op args zs, sargs_ok k op args = true -> length zs = length args ->
  comp_recompute F k zs 0 = again_val (rmap (fun y => [y]) (sop F k zs)) 0.
Proof. intros k op args zs H L. destruct (op_value_sop F k op args zs H L) as [_ A]. apply A. Qed.

Lemma spec_call_ok : forall ov a func args s xs ps ys,
  get_args s_rec s args = Some xs -> get_args s_rep s args = Some ps -> func xs = Ok ys ->
  spec_call ov a func args s = after a ov (next_vers s (length ys)) ys (func ps)
      (fun zs => push (sobjs_new ys zs) s) (fun e => push (sobjs_new ys ys) (raise e s)).
Proof. intros ov a func args s xs ps ys A B C. unfold spec_call. rewrite A, B, C. reflexivity. Qed.

Lemma step_op : forall ov w s k args, good ov w s ->
  good ov (fst (exec_op F w k args)) (spec_stmt F ov s (SOp k args)).
Proof.
  intros ov w s k args G. pose proof G as [W S]. unfold exec_op. cbn [spec_stmt].
  rewrite <- sargs_operator. destruct (sargs_ok k true args) eqn:Hk; cbn [negb]; [|exact G].
  pose proof (args_match F ov w s args S) as M.
  destruct (arg_vals w args) as [xs|e] eqn:Ea; [|unfold spec_call; rewrite M; exact G].
  destruct M as [Mx [ps Mp]].
  assert (Lx : length xs = length args).
  { apply arg_vals_spec in Ea. apply Forall2_len in Ea. congruence. }
  destruct (op_value_sop F k true args xs Hk Lx) as [Ev _]. rewrite Ev.
  destruct (sop F k xs) as [y|e] eqn:Es; [|unfold spec_call; rewrite Mx, Mp, Es; exact G].
  rewrite (spec_call_ok ov (s_ann s) _ args s xs ps [y]); auto; [|now rewrite Es].
  pose proof (args_lt w args xs Ea) as Hlt.
  destruct (sargs_arity k true args Hk) as [Har Hbu].
  cbn [new_obj]. rewrite (sm_ann F ov w s S). destruct (s_ann s) eqn:Hann.
  2:{ unfold after. rewrite results_plain. exact (good_new ov w s y G). }
  pose proof (good_new ov w s y G) as [W1 S1]. unfold new_obj in W1, S1. cbn [fst] in W1, S1.
  set (w1 := with_objs (fun l => l ++ [Obj y None 0]) w) in *.
  assert (L1 : length (w_objs w1) = Datatypes.S (length (w_objs w))) by (unfold w1; cbn; rewrite app_length; cbn; lia).
  assert (O1 : old_refs (length (s_objs s)) w1).
  { rewrite <- (sm_len F ov w s S). intros v Hv. exact (old_refs_WInv w W v Hv). }
  assert (Hlt1 : Forall (fun o => o < length (w_objs w1)) args).
  { eapply Forall_impl; [|exact Hlt]. intros a Ha. rewrite L1. cbn beta in Ha. lia. }
  pose proof (get_bvs_spec F [] args w1 W1 Hlt1) as B. destruct (get_bvs w1 args) as [w2 terms]. destruct B as [W2 [E2 C2]].
  assert (Hlt2 : Forall (fun o => o < length (w_objs w2)) args).
  { rewrite (ev_len _ _ E2). exact Hlt1. }
  pose proof (add_deps_spec F [] args w2 W2 Hlt2) as B. destruct (add_deps w2 args) as [w3 deps]. destruct B as [W3 [E3 [C3 K3]]].
  assert (terms = deps) by (eapply cur_unique; [eapply Forall2_cur_evolves; [exact E3|exact C2]|exact C3]). subst terms.
  pose proof (Sim_evolves F [] ov w1 w2 _ W1 W2 E2 S1) as S2.
  pose proof (Sim_evolves F [] ov w2 w3 _ W2 W3 E3 S2) as S3.
  assert (Hld : length deps = arity k) by (apply Forall2_len in C3; congruence).
  assert (G4 : good ov (with_tape (fun t => add_block t (Blk k deps [] None)) w3) (push_plain ov s [y])).
  { apply (good_outless ov w3 _ k args deps None); [split; [exact W3|exact S3]|exact C3|exact K3|destruct k; auto]. }
  assert (O4 : old_refs (length (s_objs s)) (with_tape (fun t => add_block t (Blk k deps [] None)) w3)).
  { apply (old_refs_outless _ w3 k args deps None W3); [|exact C3|].
    - apply (old_refs_evolves _ w2); [exact W2|exact E3|]. apply (old_refs_evolves _ w1); assumption.
    - rewrite <- (sm_len F ov w s S). exact Hlt. }
  set (w4 := with_tape (fun t => add_block t (Blk k deps [] None)) w3) in *.
  destruct G4 as [W4 S4].
  assert (L4 : length (w_objs w4) = Datatypes.S (length (w_objs w))).
  { unfold w4. cbn. rewrite (ev_len _ _ E3), (ev_len _ _ E2). exact L1. }
  destruct (get_bv w4 (length (w_objs w))) as [w5 v] eqn:E5. cbn [fst].
  destruct (get_one_out w4 _ v w5 E5 W4 ltac:(lia)) as [W6 [E6 C6]].
  set (w6 := will_out w5 v) in *.
  assert (F4 : flat w4 = flat w3 ++ [Blk k deps [] None]) by (unfold w4, flat; cbn; apply flat_add_block).
  apply (finish_call ov w6 (last_push_out v) s (flat w3) (Blk k deps [v] None) [y] xs ps args (fun xs => rmap (fun y => [y]) (sop F k xs))); auto.
  - exact (Sim_evolves F [] ov w4 w6 _ W4 W6 E6 S4).
  - erewrite flat_last_push; [|rewrite (ev_flat _ _ E6); exact F4]. reflexivity.
  - right. rewrite (ev_flat _ _ E6). exact F4.
  - cbn [b_deps b_outs b_kind length seq]. apply (Forall2_cur_evolves w4); [exact E6|]. exact C3.
  - cbn [b_deps b_outs b_kind length seq]. eapply ckpt_evolves; [exact W4|exact E6|exact C3|exact K3].
  - cbn [b_deps b_outs b_kind length seq]. rewrite <- (sm_len F ov w s S). constructor; [exact C6|constructor].
  - exact (old_refs_evolves _ w4 w6 W4 E6 O4).
  - now rewrite Es.
  - cbn [b_deps b_outs b_kind length seq]. intros i zs Hi Hz. assert (i = 0) by lia. subst i. eapply again_one; eauto. congruence.
  - unfold shaped. cbn. destruct k; try discriminate; split; cbn; auto.
Qed.

Lemma step_fun : forall ov w s k args a, good ov w s ->
  good ov (fst (exec_fun F w k args a)) (spec_stmt F ov s (SFun k args a)).
Proof.
  intros ov w s k args a G. pose proof G as [W S]. unfold exec_fun. cbn [spec_stmt].
  rewrite <- sargs_function. destruct (sargs_ok k false args) eqn:Hk; cbn [negb]; [|exact G].
  pose proof (args_match F ov w s args S) as M.
  destruct (arg_vals w args) as [xs|e] eqn:Ea; [|unfold spec_call; rewrite M; exact G].
  destruct M as [Mx [ps Mp]].
  assert (Lx : length xs = length args).
  { apply arg_vals_spec in Ea. apply Forall2_len in Ea. congruence. }
  destruct (op_value_sop F k false args xs Hk Lx) as [Ev _]. rewrite Ev.
  pose proof (args_lt w args xs Ea) as Hlt.
  destruct (sargs_arity k false args Hk) as [Har Hbu].
  rewrite (sm_ann F ov w s S). destruct (s_ann s && a) eqn:Hann.
  2:{ destruct (sop F k xs) as [y|e] eqn:Es; [|unfold spec_call; rewrite Mx, Mp, Es; exact G].
      rewrite (spec_call_ok ov false _ args s xs ps [y]); auto; [|now rewrite Es].
      unfold after. rewrite results_plain. exact (good_new ov w s y G). }
  pose proof (add_deps_spec F [] args w W Hlt) as B. destruct (add_deps w args) as [w3 deps]. destruct B as [W3 [E3 [C3 K3]]].
  pose proof (Sim_evolves F [] ov w w3 _ W W3 E3 S) as S3.
  assert (Hld : length deps = arity k) by (apply Forall2_len in C3; congruence).
  pose proof (good_outless ov w3 s k args deps None (conj W3 S3) C3 K3 ltac:(destruct k; auto)) as G4.
  assert (O4 : old_refs (length (s_objs s)) (with_tape (fun t => add_block t (Blk k deps [] None)) w3)).
  { apply (old_refs_outless _ w3 k args deps None W3); [|exact C3|].
    - apply (old_refs_evolves _ w); [exact W|exact E3|]. rewrite <- (sm_len F ov w s S). now apply old_refs_WInv.
    - rewrite <- (sm_len F ov w s S). exact Hlt. }
  set (w4 := with_tape (fun t => add_block t (Blk k deps [] None)) w3) in *.
  destruct (sop F k xs) as [y|e] eqn:Es; [|cbn [fst]; unfold spec_call; rewrite Mx, Mp, Es; exact G4].
  rewrite (spec_call_ok ov true _ args s xs ps [y]); auto; [|now rewrite Es].
  pose proof (good_new ov w4 s y G4) as [W5 S5]. cbn [new_obj fst] in *.
  set (w5 := with_objs (fun l => l ++ [Obj y None 0]) w4) in *.
  assert (L4 : length (w_objs w4) = length (w_objs w)) by (unfold w4; cbn; apply (ev_len _ _ E3)).
  assert (L5 : length (w_objs w5) = Datatypes.S (length (w_objs w))) by (unfold w5; cbn [w_objs with_objs]; rewrite app_length, L4; cbn; lia).
  rewrite L4.
  destruct (get_bv w5 (length (w_objs w))) as [w5' v] eqn:E5. cbn [fst].
  destruct (get_one_out w5 _ v w5' E5 W5 ltac:(lia)) as [W6 [E6 C6]].
  set (w6 := will_out w5' v) in *.
  assert (F4 : flat w5 = flat w3 ++ [Blk k deps [] None]) by (unfold w5, w4, flat; cbn; apply flat_add_block).
  assert (Hcur5 : forall o u, cur w3 o u -> cur w5 o u).
  { intros o u [ob [A1 A2]]. exists ob. split; [|exact A2]. unfold w5, w4. cbn. rewrite nth_error_app1; [exact A1|]. now apply nth_error_some_lt in A1. }
  assert (C5 : Forall2 (cur w5) args deps) by (eapply Forall2_impl'; [|exact C3]; auto).
  apply (finish_call ov w6 (last_push_out v) s (flat w3) (Blk k deps [v] None) [y] xs ps args (fun xs => rmap (fun y => [y]) (sop F k xs))); auto.
  - exact (Sim_evolves F [] ov w5 w6 _ W5 W6 E6 S5).
  - erewrite flat_last_push; [|rewrite (ev_flat _ _ E6); exact F4]. reflexivity.
  - right. rewrite (ev_flat _ _ E6). exact F4.
  - cbn [b_deps b_outs b_kind length seq]. apply (Forall2_cur_evolves w5); assumption.
  - cbn [b_deps b_outs b_kind length seq]. eapply ckpt_evolves; [exact W5|exact E6|exact C5|exact K3].
  - cbn [b_deps b_outs b_kind length seq]. rewrite <- (sm_len F ov w s S). constructor; [exact C6|constructor].
  - eapply old_refs_evolves; [exact W5|exact E6|]. intros u Hu. exact (O4 u Hu).
  - now rewrite Es.
  - cbn [b_deps b_outs b_kind length seq]. intros i zs Hi Hz. assert (i = 0) by lia. subst i. eapply again_one; eauto. congruence.
  - unfold shaped. cbn. destruct k; try discriminate; split; cbn; auto.
Qed.

Lemma seq_new_none : forall w (ys : list V) l0 o, w_objs w = l0 ++ map (fun y => Obj y None 0) ys ->
  In o (seq (length l0) (length ys)) -> exists ob, nth_error (w_objs w) o = Some ob /\ o_bv ob = None.
Proof.
  intros w ys l0 o H Hin. apply in_seq in Hin. rewrite H. rewrite nth_error_app2 by lia.
  rewrite nth_error_map. destruct (nth_error ys (o - length l0)) as [y|] eqn:E; [|apply nth_error_None in E; lia].
  cbn. eauto.
Qed.

Lemma step_user : forall ov w s u func args a tag, good ov w s -> consistent_stmt (SUser u func args a tag) ->
  good ov (fst (exec_user w u func args a tag)) (spec_stmt F ov s (SUser u func args a tag)).
Proof.
  intros ov w s u func args a tag G Hcon. pose proof G as [W S]. unfold exec_user. cbn [spec_stmt]. cbn in Hcon.
  pose proof (args_match F ov w s args S) as M.
  destruct (arg_vals w args) as [xs|e] eqn:Ea; [|unfold spec_call; rewrite M; exact G].
  destruct M as [Mx [ps Mp]].
  pose proof (args_lt w args xs Ea) as Hlt.
  rewrite (sm_ann F ov w s S). destruct (s_ann s && a) eqn:Hann.
  2:{ destruct (func xs) as [ys|e] eqn:Es; [|unfold spec_call; rewrite Mx, Mp, Es; exact G].
      rewrite (spec_call_ok ov false _ args s xs ps ys); auto.
      unfold after. rewrite results_plain.
      pose proof (new_objs_spec F ys [] ov w s W S) as B. destruct (new_objs w ys) as [w2 os].
      destruct B as [W2 [S2 _]]. split; assumption. }
  pose proof (add_deps_spec F [] args w W Hlt) as B. destruct (add_deps w args) as [w1 deps]. destruct B as [W1 [E1 [C1 K1]]].
  pose proof (Sim_evolves F [] ov w w1 _ W W1 E1 S) as S1.
  destruct (func xs) as [ys|e] eqn:Es; [|unfold spec_call; rewrite Mx, Mp, Es; split; assumption].
  rewrite (spec_call_ok ov true _ args s xs ps ys); auto.
  pose proof (new_objs_spec F ys [] ov w1 s W1 S1) as B. destruct (new_objs w1 ys) as [w2 os].
  destruct B as [W2 [S2 [Hos [Hobj [Hh [Hnx [Htp [Han Hct]]]]]]]].
  assert (L1 : length (w_objs w1) = length (s_objs s)) by apply (sm_len F ov w1 s S1).
  rewrite L1 in Hos. subst os.
  pose proof (add_outs_spec F (seq (length (s_objs s)) (length ys)) [] w2 W2) as B.
  destruct (add_outs w2 (seq (length (s_objs s)) (length ys))) as [w3 vs].
  destruct B as [W3 [E3 [C3 [N3 F3]]]].
  { intros o Ho. rewrite <- L1 in Ho. eapply seq_new_none; eauto. }
  { apply seq_NoDup. }
  assert (C2 : Forall2 (cur w2) args deps).
  { eapply Forall2_impl'; [|exact C1]. intros o v [ob [A1 A2]]. exists ob. split; [|exact A2].
    rewrite Hobj, nth_error_app1; [exact A1|]. now apply nth_error_some_lt in A1. }
  assert (K2 : Forall (fun v => bv_ckpt (w_heap w2 v) <> None) deps) by (rewrite Hh; exact K1).
  assert (O2 : old_refs (length (s_objs s)) w2).
  { intros v Hv. unfold refs, flat in Hv. rewrite Htp, Hct in Hv. rewrite Hh.
    apply (old_refs_evolves _ w w1 W E1); [|exact Hv]. rewrite <- (sm_len F ov w s S). now apply old_refs_WInv. }
  cbn [fst].
  apply (finish_call ov w3 (fun t => add_block t (Blk (KUser u) deps vs tag)) s (flat w3) (Blk (KUser u) deps vs tag) ys xs ps args func); auto.
  - exact (Sim_evolves F [] ov w2 w3 _ W2 W3 E3 S2).
  - unfold flat. cbn. apply flat_add_block.
  - cbn [b_deps b_outs b_kind length seq]. eapply Forall2_cur_evolves; eauto.
  - cbn [b_deps b_outs b_kind length seq]. eapply ckpt_evolves; [exact W2|exact E3|exact C2|exact K2].
  - exact (old_refs_evolves _ w2 w3 W2 E3 O2).
  - cbn [b_deps b_outs b_kind length seq]. intros i zs Hi Hz. exact (Hcon zs i).
  - exact I.
Qed.

(** *** In-place changes *)
Lemma Sim_update : forall pend ov w s o x so, WInv F pend w -> Sim F ov w s -> nth_error (s_objs s) o = Some so ->
  Sim F ov (clear_bv (assign_obj w o x) o) (put o (SObj x (prescribed ov (o, S (s_gen so)) x) (S (s_gen so))) s).
Proof.
  intros pend ov w s o x so W S Hso.
  destruct (nth_error (w_objs w) o) as [ob|] eqn:E.
  2:{ apply nth_error_None in E. apply nth_error_some_lt in Hso. rewrite (sm_len F ov w s S) in E. lia. }
  unfold assign_obj. rewrite E. unfold clear_bv, with_objs, with_heap. cbn [w_objs].
  rewrite nth_list_set, Nat.eqb_refl, E. set (w' := World _ _ _ _ _ _).
  assert (Hg : forall v, ghost (w_heap w' v) = ghost (w_heap w v)).
  { intros v. unfold w'. cbn. destruct (Nat.eqb _ o); reflexivity. }
  destruct (genv_ext F pend ov w w' W eq_refl (fun v _ => Hg v)) as [G1 [G2 G3]].
  assert (Hobjs : forall i, nth_error (w_objs w') i = if Nat.eqb o i then Some (Obj x None (Datatypes.S (o_gen ob))) else nth_error (w_objs w) i).
  { intros i. unfold w'. cbn [w_objs]. rewrite !nth_list_set, Nat.eqb_refl, E. cbn. destruct (Nat.eqb o i); reflexivity. }
  destruct (sm_obj F ov w s S _ _ _ E Hso) as [Q1 Q2].
  pose proof S as [q1 q2 q3 q4 q5 q6].
  constructor.
  - unfold w', put. cbn. rewrite !length_list_set. exact q1.
  - intros i b so' H1 H2. rewrite Hobjs in H1. cbn in H2. rewrite nth_list_set, Hso in H2.
    destruct (Nat.eqb_spec o i) as [<-|Hne]; [|eauto]. inversion H1; inversion H2; subst. cbn. split; congruence.
  - exact q3.
  - cbn. rewrite q4. apply map_ext. intros v. symmetry. apply ghost_pair. apply Hg.
  - cbn. congruence.
  - intros Hn i b so' H1 H2. rewrite Hobjs in H1. cbn in H2, Hn. rewrite nth_list_set, Hso in H2.
    destruct (Nat.eqb_spec o i) as [<-|Hne].
    + inversion H1; inversion H2; subst. cbn. now rewrite Q2.
    + specialize (q6 Hn i b so' H1 H2). destruct (o_bv b) as [v|] eqn:Eb; [|exact q6].
      rewrite G2; [exact q6|]. eapply WInv_cur_lt; [exact W|exists b; eauto].
Qed.

Lemma list_set_twice : forall {A} (l : list A) i x y, list_set (list_set l i x) i y = list_set l i y.
Proof. intros A l. induction l as [|z r IH]; intros [|i] x y; cbn; auto. now rewrite IH. Qed.

Lemma add_outs_clear : forall w o, o < length (w_objs w) -> add_outs w [o] = add_outs (clear_bv w o) [o].
Proof.
  intros w o Ho. cbn. destruct (nth_error (w_objs w) o) as [ob|] eqn:E; [|apply nth_error_None in E; lia].
  unfold clear_bv. rewrite E. unfold create_bv, with_objs. cbn [w_objs]. rewrite nth_list_set, Nat.eqb_refl, E. cbn.
  rewrite list_set_twice. reflexivity.
Qed.

Lemma step_inpl : forall ov w s u func args o a tag, good ov w s -> consistent_stmt (SInpl u func args o a tag) ->
  s_ann s && a = true ->
  good ov (fst (exec_inpl w u func args o a tag)) (spec_stmt F ov s (SInpl u func args o a tag)).
Proof.
  intros ov w s u func args o a tag G Hcon Hann. pose proof G as [W S]. unfold exec_inpl. cbn [spec_stmt]. cbn in Hcon.
  pose proof (args_match F ov w s args S) as M.
  destruct (arg_vals w args) as [xs|e] eqn:Ea; [|unfold spec_inpl; rewrite M; exact G].
  destruct M as [Mx [ps Mp]].
  pose proof (args_lt w args xs Ea) as Hlt.
  unfold spec_inpl. rewrite Mx, Mp.
  destruct (nth_error (s_objs s) o) as [so|] eqn:Eso.
  2:{ destruct (nth_error (w_objs w) o) eqn:Ew; [|exact G].
      apply nth_error_None in Eso. apply nth_error_some_lt in Ew. rewrite (sm_len F ov w s S) in Ew. lia. }
  destruct (nth_error (w_objs w) o) as [ob|] eqn:Ew.
  2:{ apply nth_error_None in Ew. apply nth_error_some_lt in Eso. rewrite (sm_len F ov w s S) in Ew. lia. }
  rewrite (sm_ann F ov w s S), Hann.
  pose proof (add_deps_spec F [] args w W Hlt) as B. destruct (add_deps w args) as [w1 deps]. destruct B as [W1 [E1 [C1 K1]]].
  pose proof (Sim_evolves F [] ov w w1 _ W W1 E1 S) as S1.
  destruct (func xs) as [y|e] eqn:Es; [|split; assumption].
  assert (Ho1 : o < length (w_objs w1)) by (rewrite (ev_len _ _ E1); now apply nth_error_some_lt in Ew).
  assert (Ho2 : o < length (w_objs (assign_obj w1 o y))).
  { unfold assign_obj. destruct (nth_error (w_objs w1) o) eqn:En; [|assumption]. cbn. now rewrite length_list_set. }
  rewrite (add_outs_clear _ o Ho2).
  assert (W1d : WInv F deps w1).
  { apply (WInv_sub F [] deps w1 W1). intros v Hv. right. destruct (Forall2_In_r _ _ _ v C1 Hv) as [i [_ Hc]]. exists i. exact Hc. }
  pose proof (WInv_update F deps w1 o y W1d Ho1) as W2.
  pose proof (Sim_update deps ov w1 s o y so W1d S1 Eso) as S2.
  set (w2 := clear_bv (assign_obj w1 o y) o) in *.
  destruct (nth_error (w_objs w1) o) as [ob1|] eqn:En1; [|apply nth_error_None in En1; lia].
  assert (Hn2 : nth_error (w_objs w2) o = Some (Obj y None (Datatypes.S (o_gen ob1)))).
  { unfold w2, assign_obj. rewrite En1. unfold clear_bv, with_objs, with_heap. cbn [w_objs].
    rewrite nth_list_set, Nat.eqb_refl, En1. cbn. rewrite nth_list_set, Nat.eqb_refl, nth_list_set, Nat.eqb_refl, En1. reflexivity. }
  assert (Gh2 : forall v, ghost (w_heap w2 v) = ghost (w_heap w1 v) /\ bv_ckpt (w_heap w2 v) = bv_ckpt (w_heap w1 v)).
  { intros v. unfold w2, assign_obj. rewrite En1. unfold clear_bv, with_objs, with_heap. cbn [w_objs].
    rewrite nth_list_set, Nat.eqb_refl, En1. cbn. destruct (Nat.eqb _ o); split; reflexivity. }
  assert (Nx2 : w_next w2 = w_next w1 /\ flat w2 = flat w1).
  { unfold w2, assign_obj. rewrite En1. unfold clear_bv, with_objs, with_heap. cbn [w_objs].
    rewrite nth_list_set, Nat.eqb_refl, En1. split; reflexivity. }
  destruct Nx2 as [Nx2 Fl2].
  pose proof (add_outs_spec F [o] deps w2 W2) as B.
  destruct (add_outs w2 [o]) as [w3 vs].
  destruct B as [W3 [E3 [C3 [N3 F3]]]].
  { intros i [<-|[]]. eauto. }
  { constructor; [easy|constructor]. }
  inversion C3 as [|? v ? ? Cv Cn]; subst. inversion Cn; subst. inversion F3 as [|? ? Fv _]; subst.
  pose proof (Sim_evolves F deps ov w2 w3 _ W2 W3 E3 S2) as S3.
  assert (Hdlt : forall d, In d deps -> d < w_next w1).
  { intros d Hd. destruct (Forall2_In_r _ _ _ d C1 Hd) as [i [_ Hc]]. eapply WInv_cur_lt; eauto. }
  assert (Hgd : forall d, In d deps -> ghost (w_heap w3 d) = ghost (w_heap w1 d)).
  { intros d Hd. rewrite (ev_ghost _ _ E3) by (rewrite Nx2; auto). apply Gh2. }
  assert (Hlast : WInv F deps (with_tape (fun t => add_block t (Blk (KUser u) deps [v] tag)) w3)).
  { eapply (WInv_finish F deps w3 _ (flat w3) (Blk (KUser u) deps [v] tag)); cbn; auto.
    - unfold flat. cbn. apply flat_add_block.
    - intros v' [<-|[]]. split; [exists o; exact Cv|]. intros Hin. unfold refs in Hin.
      rewrite (ev_flat _ _ E3), (ev_ctrls _ _ E3) in Hin. pose proof (proj1 (wi_live F deps w2 W2 v Hin)). lia.
    - intros d Hd. apply (ev_ckpt _ _ E3); [rewrite Nx2; auto|]. destruct (Gh2 d) as [_ K]. rewrite K. exact (proj1 (Forall_forall _ _) K1 d Hd).
    - intros i v' Hi. destruct i as [|[|i]]; cbn in Hi; try discriminate. inversion Hi; subst v'. cbn. rewrite Hcon.
      replace (map (recs (w_heap w3)) deps) with xs.
      + rewrite Es. cbn. do 2 f_equal. destruct (cur_ghost F deps w3 o v W3 Cv) as [b [A [_ [_ D]]]].
        destruct (ev_objs _ _ E3 _ _ Hn2) as [b' [A' [Hv _]]]. unfold recs. rewrite D. cbn in Hv. congruence.
      + rewrite <- (cur_rec F [] w1 args deps xs W1 C1).
        * apply map_ext_in. intros d Hd. unfold recs. symmetry. apply ghost_ver. now apply Hgd.
        * apply arg_vals_spec. apply arg_vals_spec in Ea. eapply Forall2_impl'; [|exact Ea].
          intros i x [b [A D]]. destruct (ev_objs _ _ E1 _ _ A) as [b' [A' [D' _]]]. exists b'. split; congruence.
  }
  split.
  - cbn [fst]. apply (WInv_sub F deps [] _ Hlast). easy.
  - cbn [fst]. assert (Hsg : s_gen so = o_gen ob1) by (destruct (sm_obj F ov w1 s S1 _ _ _ En1 Eso); congruence).
    apply (Sim_inpl F deps ov w3 (with_tape (fun t => add_block t (Blk (KUser u) deps [v] tag)) w3) s (Blk (KUser u) deps [v] tag) o y (s_gen so) ps (func ps)); auto.
    + now apply nth_error_some_lt in Eso.
    + unfold genv, flat. cbn [w_tape with_tape w_heap]. rewrite flat_add_block, geval_snoc. reflexivity.
    + exists v. split; [exact Cv|reflexivity].
    + intros Hn. cbn [b_deps].
      destruct (genv_ext F [] ov w1 w2 W1 Fl2 (fun v0 _ => proj1 (Gh2 v0))) as [_ [Q1 _]].
      destruct (genv_ext F deps ov w2 w3 W2 (ev_flat _ _ E3) (ev_ghost _ _ E3)) as [_ [Q2 _]].
      rewrite <- (cur_rep F ov w1 s args deps ps S1 C1 Mp Hn). apply map_ext_in. intros d Hd.
      rewrite Q2 by (rewrite Nx2; auto). apply Q1. auto.
    + cbn. rewrite Hcon. destruct (func ps); reflexivity.
Qed.

(** *** All statements *)
Lemma referenced_refs : forall w v, referenced w v = false -> ~ In v (refs [] w).
Proof.
  intros w v H Hin. unfold referenced in H. apply orb_false_iff in H as [H H3]. apply orb_false_iff in H as [H1 H2].
  unfold refs in Hin. rewrite app_nil_r in Hin. apply in_app_iff in Hin as [Hin|Hin]; [|apply mem_In in Hin; congruence].
  assert (existsb (fun b => mem v (b_deps b) || mem v (b_outs b)) (t_flat (w_tape w)) = true); [|congruence].
  apply existsb_exists. unfold vars_of, deps_of, outs_of in Hin. rewrite in_app_iff, !in_flat_map in Hin.
  destruct Hin as [[b [Hb Hv]]|[b [Hb Hv]]]; exists b; (split; [exact Hb|]); apply orb_true_iff; [left|right]; now apply mem_In.
Qed.

Lemma step_stmt : forall ov w s c, good ov w s -> consistent_stmt c ->
  (match c with SInpl _ _ _ _ a _ => s_ann s && a = true | _ => True end) ->
  good ov (fst (exec_stmt F w c)) (spec_stmt F ov s c).
Proof.
  intros ov w s c G Hcon Hdis. pose proof G as [W S].
  destruct c; cbn [exec_stmt].
  - now apply good_new.
  - now apply step_op.
  - now apply step_fun.
  - now apply step_user.
  - now apply step_inpl.
  - cbn [spec_stmt]. destruct (nth_error (s_objs s) o) as [so|] eqn:Eso; destruct (nth_error (w_objs w) o) as [ob|] eqn:Ew.
    + split; [|now apply (Sim_update [])]. apply WInv_update; [exact W|]. now apply nth_error_some_lt in Ew.
    + apply nth_error_None in Ew. apply nth_error_some_lt in Eso. rewrite (sm_len F ov w s S) in Ew. lia.
    + apply nth_error_None in Eso. apply nth_error_some_lt in Ew. rewrite (sm_len F ov w s S) in Ew. lia.
    + exact G.
  - split; [destruct W; constructor; auto|]. destruct S as [q1 q2 q3 q4 q5 q6]. constructor; auto.
  - split; [destruct W; constructor; auto|]. destruct S as [q1 q2 q3 q4 q5 q6]. constructor; auto.
  - split; [destruct W; constructor; auto|]. destruct S as [q1 q2 q3 q4 q5 q6]. constructor; auto.
  - cbn [spec_stmt]. destruct (nth_error (w_objs w) o) as [ob|] eqn:Ew; [|exact G].
    destruct (o_bv ob) as [v|] eqn:Ev; [|exact G]. destruct (referenced w v) eqn:Er; [exact G|]. cbn [fst].
    apply referenced_refs in Er.
    assert (Hc : cur w o v) by (exists ob; auto).
    split; [now apply (WInv_clear F w o v)|].
    destruct (genv_ext F [] ov w (clear_bv w o) W) as [G1 [G2 G3]].
    { unfold clear_bv. rewrite Ew. reflexivity. }
    { intros. unfold clear_bv. rewrite Ew. reflexivity. }
    pose proof S as [q1 q2 q3 q4 q5 q6].
    assert (Hob : forall i b, nth_error (w_objs (clear_bv w o)) i = Some b ->
      (i = o /\ b = Obj (o_val ob) None (o_gen ob)) \/ (i <> o /\ nth_error (w_objs w) i = Some b)).
    { intros i b. unfold clear_bv. rewrite Ew. cbn. rewrite nth_list_set, Ew. destruct (Nat.eqb_spec o i) as [->|Hne].
      - intros H. inversion H. auto.
      - auto. }
    constructor.
    + unfold clear_bv. rewrite Ew. cbn. now rewrite length_list_set.
    + intros i b so H1 H2. destruct (Hob i b H1) as [[-> ->]|[Hne H]]; [exact (q2 _ _ _ Ew H2)|eauto].
    + unfold clear_bv. rewrite Ew. exact q3.
    + unfold clear_bv. rewrite Ew. exact q4.
    + congruence.
    + intros Hn i b so H1 H2. destruct (Hob i b H1) as [[-> ->]|[Hne H]].
      * cbn. pose proof (q6 Hn o ob so Ew H2) as R. rewrite Ev in R. rewrite <- R.
        unfold genv. rewrite geval_outside.
        -- unfold ov_env. destruct (cur_ghost F [] w o v W Hc) as [b' [B1 [_ [B2 B3]]]].
           assert (b' = ob) by congruence. subst. now rewrite B2, B3.
        -- intros K. apply Er. unfold refs, vars_of. rewrite !in_app_iff. tauto.
      * specialize (q6 Hn i b so H H2). destruct (o_bv b) as [v'|] eqn:Eb; [|exact q6].
        rewrite G2; [exact q6|]. eapply WInv_cur_lt; [exact W|exists b; eauto].
  - cbn [spec_stmt]. destruct (nth_error (s_objs s) o) as [so|] eqn:Eso; destruct (nth_error (w_objs w) o) as [ob|] eqn:Ew.
    + assert (Ho : o < length (w_objs w)) by now apply nth_error_some_lt in Ew.
      pose proof (get_bv_spec F [] w o W Ho) as B. destruct (get_bv w o) as [w1 v]. destruct B as [W1 [E1 C1]].
      pose proof (Sim_evolves F [] ov w w1 s W W1 E1 S) as S1. cbn [fst].
      split; [apply WInv_control; [exact W1|exists o; exact C1]|].
      destruct S1 as [q1 q2 q3 q4 q5 q6]. constructor; auto. cbn. rewrite map_app, q4. cbn. do 2 f_equal.
      destruct (cur_ghost F [] w1 o v W1 C1) as [b [B1 [_ [B2 B3]]]]. rewrite B2, B3.
      destruct (q2 _ _ _ B1 Eso) as [H1 H2]. now rewrite H1, H2.
    + apply nth_error_None in Ew. apply nth_error_some_lt in Eso. rewrite (sm_len F ov w s S) in Ew. lia.
    + apply nth_error_None in Eso. apply nth_error_some_lt in Ew. rewrite (sm_len F ov w s S) in Ew. lia.
    + exact G.
  - cbn [spec_stmt]. destruct (nth_error (w_objs w) o) as [ob|] eqn:Ew; [|exact G].
    pose proof (get_bv_spec F [] w o W (nth_error_some_lt _ _ _ Ew)) as B. destruct (get_bv w o) as [w1 v]. destruct B as [W1 [E1 C1]].
    split; [exact W1|]. exact (Sim_evolves F [] ov w w1 s W W1 E1 S).
Qed.

Lemma spec_ann : forall ov s c, s_ann (spec_stmt F ov s c) =
  match c with SPause => false | SContinue => true | _ => s_ann s end.
Proof.
  intros ov s c.
  assert (Hc : forall a func args, s_ann (spec_call ov a func args s) = s_ann s).
  { intros. unfold spec_call. repeat match goal with |- context[match ?x with _ => _ end] => destruct x end; reflexivity. }
  destruct c; cbn; auto.
  - destruct (sargs_ok k true args); auto.
  - destruct (sargs_ok k false args); auto.
  - unfold spec_inpl. repeat match goal with |- context[match ?x with _ => _ end] => destruct x end; reflexivity.
  - destruct (nth_error (s_objs s) o); reflexivity.
  - destruct (nth_error (s_objs s) o); reflexivity.
Qed.

Lemma exec_good : forall p ov w s, good ov w s -> consistent p -> disciplined (s_ann s) p = true ->
  good ov (exec F w p) (fold_left (spec_stmt F ov) p s).
Proof.
  induction p as [|c r IH]; intros ov w s G Hc Hd; [exact G|].
  inversion Hc; subst. cbn [fold_left].
  change (exec F w (c :: r)) with (exec F (fst (exec_stmt F w c)) r).
  apply IH; auto.
  - apply step_stmt; auto. destruct c; auto. cbn in Hd. apply andb_true_iff in Hd as [Hd _]. exact Hd.
  - rewrite spec_ann. destruct c; cbn in Hd; auto. apply andb_true_iff in Hd as [_ Hd]. exact Hd.
Qed.

Lemma good_init : forall ov ann, good ov (world_new F ann) (SSt [] ann None []).
Proof.
  intros ov ann. split; [apply WInv_new_world|]. constructor; cbn; auto.
  - intros o ob so H. destruct o; discriminate.
  - intros _ o ob so H. destruct o; discriminate.
Qed.

Lemma exec_sim : forall p ov ann, consistent p -> disciplined ann p = true ->
  good ov (exec F (world_new F ann) p) (spec_exec F ov ann p).
Proof. intros p ov ann Hc Hd. apply exec_good; auto. apply good_init. Qed.

End Exec.
