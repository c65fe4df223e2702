(** The recorded tape carries exactly the operations the specification lists. *)
From Coq Require Import List Arith ZArith Lia Bool.
From Verif Require Import Base Model BaseFacts Graph Record Spec RecordFacts Replay ReplayStep ReplayExec SpecTape Iso.
Import ListNotations.

Section TapeRecord.
Context {V : Type} (F : fops V).
Implicit Types (w : world V) (h : heap V) (s : sst V).

Definition pairof h (v : nat) : ver * V := (verb (h v), bv_rec (h v)).
Definition abs h (b : block V) : vblock V := VB (b_kind b) (map (pairof h) (b_deps b)) (map (pairof h) (b_outs b)).
Record GI w (g : list (vblock V)) : Prop := {
  gi_abs : map (abs (w_heap w)) (flat w) = g;
  gi_inert : Forall (fun b => b_outs b = [] -> is_over (b_kind b) = false) (flat w)
}.

Lemma abs_ext : forall h h' b, (forall v, In v (b_deps b) \/ In v (b_outs b) -> ghost (h' v) = ghost (h v)) -> abs h' b = abs h b.
Proof.
  intros h h' b H. unfold abs. f_equal; apply map_ext_in; intros v Hv; apply ghost_pair; apply H; auto.
Qed.
Lemma in_vars_of : forall (bs : list (block V)) b v, In b bs -> In v (b_deps b) \/ In v (b_outs b) -> In v (vars_of bs).
Proof.
  intros bs b v Hb [H|H]; unfold vars_of, deps_of, outs_of; apply in_or_app; [left|right]; apply in_flat_map; eauto.
Qed.

Definition keeps w w' := forall v, v < w_next w -> ghost (w_heap w' v) = ghost (w_heap w v).

Lemma GI_old : forall w w' g, WInv F [] w -> keeps w w' -> GI w g -> map (abs (w_heap w')) (flat w) = g.
Proof.
  intros w w' g W K [G _]. rewrite <- G. apply map_ext_in. intros b Hb.
  apply abs_ext. intros v Hv. apply K. apply (wi_live F [] w W). apply flat_refs. eapply in_vars_of; eauto.
Qed.
Lemma GI_same : forall w w' g, WInv F [] w -> keeps w w' -> flat w' = flat w -> GI w g -> GI w' g.
Proof.
  intros w w' g W K Fl G. constructor; rewrite Fl; [eapply GI_old; eauto|apply G].
Qed.
Lemma GI_heap : forall w w' g, w_heap w' = w_heap w -> flat w' = flat w -> GI w g -> GI w' g.
Proof. intros w w' g H Fl [A B]. constructor; rewrite Fl; [now rewrite H|exact B]. Qed.
Lemma GI_add : forall w w' g b vb, WInv F [] w -> keeps w w' -> flat w' = flat w ++ [b] ->
  (b_outs b = [] -> is_over (b_kind b) = false) ->
  abs (w_heap w') b = vb -> GI w g -> GI w' (g ++ [vb]).
Proof.
  intros w w' g b vb W K Fl Ho Hb G. constructor; rewrite Fl.
  - rewrite map_app. cbn. f_equal; [eapply GI_old; eauto|congruence].
  - apply Forall_app. split; [apply G|]. constructor; [exact Ho|constructor].
Qed.

Lemma pair_cur : forall pend ov w s os vs, WInv F pend w -> Sim F ov w s -> Forall2 (cur w) os vs ->
  map (pairof (w_heap w)) vs = vers_of s os.
Proof.
  intros pend ov w s os vs W S H. induction H as [|o v os vs Hc _ IH]; [reflexivity|]. cbn. rewrite IH.
  destruct (cur_ghost F pend w o v W Hc) as [ob [A [_ [B C]]]].
  destruct (nth_error (s_objs s) o) as [so|] eqn:E.
  - destruct (sm_obj F ov w s S _ _ _ A E) as [D1 D2]. cbn. unfold pairof. now rewrite B, C, D1, D2.
  - apply nth_error_None in E. apply nth_error_some_lt in A. rewrite (sm_len F ov w s S) in A. lia.
Qed.
Lemma vers_push : forall s os args, Forall (fun o => o < length (s_objs s)) args -> vers_of (push os s) args = vers_of s args.
Proof.
  intros s os args H. induction H as [|o r Ho _ IH]; [reflexivity|].
  unfold vers_of in *. cbn [flat_map]. rewrite IH. cbn [s_objs push]. now rewrite nth_error_app1.
Qed.
Lemma vers_seq : forall pre (ys zs : list V) ann err cs, length zs = length ys ->
  vers_of (SSt (pre ++ sobjs_new ys zs) ann err cs) (seq (length pre) (length ys)) =
  combine (map (fun i => (i, 0)) (seq (length pre) (length ys))) ys.
Proof.
  intros pre ys. revert pre. induction ys as [|y ys IH]; intros pre [|z zs] ann err cs L; try discriminate; [reflexivity|].
  unfold vers_of in *. cbn [length seq flat_map map combine s_objs].
  rewrite nth_error_app2, Nat.sub_diag by lia. cbn [sobjs_new combine map nth_error fst snd s_gen s_rec app]. f_equal.
  specialize (IH (pre ++ [SObj y z 0]) zs ann err cs ltac:(cbn in L; lia)).
  rewrite app_length in IH. cbn [length s_objs] in IH. rewrite Nat.add_1_r, <- app_assoc in IH. exact IH.
Qed.
Lemma vers_new : forall s ys, vers_of (push_plain no_override s ys) (seq (length (s_objs s)) (length ys)) = combine (next_vers s (length ys)) ys.
Proof.
  intros s ys. unfold push_plain, push, next_vers. apply vers_seq. unfold plain_reps, next_vers. rewrite map_length, combine_length, map_length, seq_length. lia.
Qed.

Lemma GI_call : forall w wm s f k args ys deps outs tag g, WInv F [] w -> WInv F [] wm ->
  Sim F no_override wm (push_plain no_override s ys) -> keeps w wm ->
  flat (with_tape f wm) = flat w ++ [Blk k deps outs tag] ->
  Forall2 (cur wm) args deps -> Forall2 (cur wm) (seq (length (s_objs s)) (length ys)) outs ->
  Forall (fun o => o < length (s_objs s)) args -> (ys = [] -> is_over k = false) ->
  GI w g -> GI (with_tape f wm) (g ++ [VB k (vers_of s args) (combine (next_vers s (length ys)) ys)]).
Proof.
  intros w wm s f k args ys deps outs tag g W Wm S K Fl Cd Co Ha Hn G.
  eapply GI_add; [exact W|exact K|exact Fl| | |exact G].
  - cbn. intros ->. apply Hn. apply Forall2_len in Co. rewrite seq_length in Co. now apply length_zero_iff_nil.
  - unfold abs. cbn [b_kind b_deps b_outs w_heap with_tape]. f_equal.
    + rewrite (pair_cur [] no_override wm _ args deps Wm S Cd). now apply vers_push.
    + rewrite (pair_cur [] no_override wm _ _ outs Wm S Co). apply vers_new.
Qed.

Lemma keeps_evolves : forall w w', evolves w w' -> keeps w w'.
Proof. intros w w' E v Hv. now apply (ev_ghost _ _ E). Qed.
Lemma keeps_trans : forall w1 w2 w3, keeps w1 w2 -> w_next w1 <= w_next w2 -> keeps w2 w3 -> keeps w1 w3.
Proof. intros w1 w2 w3 A L B v Hv. rewrite B by lia. now apply A. Qed.

Lemma args_slt : forall ov w s args, Sim F ov w s -> Forall (fun o => o < length (w_objs w)) args -> Forall (fun o => o < length (s_objs s)) args.
Proof. intros ov w s args S H. now rewrite <- (sm_len F ov w s S). Qed.

Lemma gi_op : forall w s g k args, good F no_override w s -> GI w g ->
  GI (fst (exec_op F w k args)) (g ++ tape_stmt F s (SOp k args)).
Proof.
  intros w s g k args [W S] G. unfold exec_op. cbn [tape_stmt].
  rewrite <- sargs_operator. destruct (sargs_ok k true args) eqn:Hk; cbn [negb]; [|rewrite app_nil_r; exact G].
  pose proof (args_match F no_override w s args S) as M. unfold tape_call.
  destruct (arg_vals w args) as [xs|e] eqn:Ea; [|rewrite M; destruct (s_ann s); rewrite app_nil_r; exact G].
  destruct M as [Mx [ps Mp]]. rewrite Mx.
  assert (Lx : length xs = length args).
  { apply arg_vals_spec in Ea. apply Forall2_len in Ea. congruence. }
  destruct (op_value_sop F k true args xs Hk Lx) as [Ev _]. rewrite Ev.
  pose proof (args_lt w args xs Ea) as Hlt.
  destruct (sop F k xs) as [y|e] eqn:Es; cbn [rmap]; [|destruct (s_ann s); rewrite app_nil_r; exact G].
  pose proof (good_new F no_override w s y (conj W S)) as [W1 S1]. cbn [new_obj fst] in *.
  rewrite (sm_ann F no_override w s S).
  set (w1 := with_objs (fun l => l ++ [Obj y None 0]) w) in *.
  destruct (s_ann s) eqn:Hann; [|rewrite app_nil_r; cbn [fst]; exact (GI_same w w1 g W (fun v _ => eq_refl) eq_refl G)].
  rewrite <- push_one in S1.
  assert (L1 : length (w_objs w1) = Datatypes.S (length (w_objs w))) by (unfold w1; cbn; rewrite app_length; cbn; lia).
  assert (Hlt1 : Forall (fun o => o < length (w_objs w1)) args).
  { eapply Forall_impl; [|exact Hlt]. intros a Ha. rewrite L1. cbn beta in Ha. lia. }
  pose proof (get_bvs_spec F [] args w1 W1 Hlt1) as B. destruct (get_bvs w1 args) as [w2 terms]. destruct B as [W2 [E2 C2]].
  assert (Hlt2 : Forall (fun o => o < length (w_objs w2)) args).
  { rewrite (ev_len _ _ E2). exact Hlt1. }
  pose proof (add_deps_spec F [] args w2 W2 Hlt2) as B. destruct (add_deps w2 args) as [w3 deps]. destruct B as [W3 [E3 [C3 K3]]].
  assert (terms = deps) by (eapply cur_unique; [eapply Forall2_cur_evolves; [exact E3|exact C2]|exact C3]). subst terms.
  pose proof (Sim_evolves F [] no_override w1 w2 _ W1 W2 E2 S1) as S2.
  pose proof (Sim_evolves F [] no_override w2 w3 _ W2 W3 E3 S2) as S3.
  assert (G4 : good F no_override (with_tape (fun t => add_block t (Blk k deps [] None)) w3) (push_plain no_override s [y])).
  { apply (good_outless F no_override w3 _ k args deps None); [split; [exact W3|exact S3]|exact C3|exact K3|].
    destruct (sargs_arity k true args Hk) as [Har Hbu]. assert (Hld : length deps = arity k) by (apply Forall2_len in C3; congruence). destruct k; auto. }
  set (w4 := with_tape (fun t => add_block t (Blk k deps [] None)) w3) in *.
  destruct G4 as [W4 S4].
  assert (L4 : length (w_objs w4) = Datatypes.S (length (w_objs w))).
  { unfold w4. cbn. rewrite (ev_len _ _ E3), (ev_len _ _ E2). exact L1. }
  destruct (get_bv w4 (length (w_objs w))) as [w5 v] eqn:E5. cbn [fst].
  destruct (get_one_out F w4 _ v w5 E5 W4 ltac:(lia)) as [W6 [E6 C6]].
  set (w6 := will_out w5 v) in *.
  assert (F4 : flat w4 = flat w3 ++ [Blk k deps [] None]) by (unfold w4, flat; cbn; apply flat_add_block).
  assert (F3 : flat w3 = flat w) by (rewrite (ev_flat _ _ E3), (ev_flat _ _ E2); reflexivity).
  refine (GI_call w w6 s (last_push_out v) k args [y] deps [v] None g W W6 _ _ _ _ _ (args_slt _ w s args S Hlt) _ G).
  - exact (Sim_evolves F [] no_override w4 w6 _ W4 W6 E6 S4).
  - apply (keeps_trans w w3).
    + apply (keeps_trans w w2); [exact (keeps_evolves _ _ E2)|exact (ev_next _ _ E2)|exact (keeps_evolves _ _ E3)].
    + pose proof (ev_next _ _ E2). pose proof (ev_next _ _ E3). cbn in *. lia.
    + exact (keeps_evolves _ _ E6).
  - erewrite flat_last_push; [|rewrite (ev_flat _ _ E6); exact F4]. rewrite F3. reflexivity.
  - apply (Forall2_cur_evolves w4); [exact E6|]. exact C3.
  - cbn [length seq]. rewrite <- (sm_len F no_override w s S). constructor; [exact C6|constructor].
  - discriminate.
Qed.

Lemma fun_not_over : forall (k : kind V) args, sargs_ok k false args = true -> is_over k = false.
Proof. intros k args H. destruct k; try reflexivity; destruct args as [|? [|? [|? ?]]]; discriminate. Qed.

Lemma gi_fun : forall w s g k args a, good F no_override w s -> GI w g ->
  GI (fst (exec_fun F w k args a)) (g ++ tape_stmt F s (SFun k args a)).
Proof.
  intros w s g k args a [W S] G. unfold exec_fun. cbn [tape_stmt].
  rewrite <- sargs_function. destruct (sargs_ok k false args) eqn:Hk; cbn [negb]; [|rewrite app_nil_r; exact G].
  pose proof (args_match F no_override w s args S) as M. unfold tape_call.
  destruct (arg_vals w args) as [xs|e] eqn:Ea; [|rewrite M; destruct (s_ann s && a); rewrite app_nil_r; exact G].
  destruct M as [Mx [ps Mp]]. rewrite Mx.
  assert (Lx : length xs = length args).
  { apply arg_vals_spec in Ea. apply Forall2_len in Ea. congruence. }
  destruct (op_value_sop F k false args xs Hk Lx) as [Ev _]. rewrite Ev.
  pose proof (args_lt w args xs Ea) as Hlt.
  destruct (sargs_arity k false args Hk) as [Har Hbu].
  rewrite (sm_ann F no_override w s S). destruct (s_ann s && a) eqn:Hann.
  2:{ rewrite app_nil_r. destruct (sop F k xs) as [y|e] eqn:Es; [|exact G].
      cbn [new_obj fst]. (apply (GI_heap w); [reflexivity|reflexivity|exact G]). }
  pose proof (add_deps_spec F [] args w W Hlt) as B. destruct (add_deps w args) as [w3 deps]. destruct B as [W3 [E3 [C3 K3]]].
  pose proof (Sim_evolves F [] no_override w w3 _ W W3 E3 S) as S3.
  assert (Hld : length deps = arity k) by (apply Forall2_len in C3; congruence).
  pose proof (good_outless F no_override w3 s k args deps None (conj W3 S3) C3 K3 ltac:(destruct k; auto)) as G4.
  set (w4 := with_tape (fun t => add_block t (Blk k deps [] None)) w3) in *.
  assert (F4' : flat w4 = flat w ++ [Blk k deps [] None]) by (rewrite <- (ev_flat _ _ E3); unfold w4, flat; cbn; apply flat_add_block).
  destruct (sop F k xs) as [y|e] eqn:Es; cbn [rmap].
  2:{ cbn [fst]. refine (GI_add w w4 g _ _ W (keeps_evolves _ _ E3) F4' (fun _ => fun_not_over k args Hk) _ G).
      unfold abs. cbn [b_kind b_deps b_outs map]. f_equal. exact (pair_cur [] no_override w3 s args deps W3 S3 C3). }
  pose proof (good_new F no_override w4 s y G4) as [W5 S5]. cbn [new_obj fst] in *.
  set (w5 := with_objs (fun l => l ++ [Obj y None 0]) w4) in *.
  assert (L4 : length (w_objs w4) = length (w_objs w)) by (unfold w4; cbn; apply (ev_len _ _ E3)).
  assert (L5 : length (w_objs w5) = Datatypes.S (length (w_objs w))) by (unfold w5; cbn [w_objs with_objs]; rewrite app_length, L4; cbn; lia).
  rewrite L4.
  destruct (get_bv w5 (length (w_objs w))) as [w5' v] eqn:E5. cbn [fst].
  destruct (get_one_out F w5 _ v w5' E5 W5 ltac:(lia)) as [W6 [E6 C6]].
  set (w6 := will_out w5' v) in *.
  assert (Hcur5 : forall o u, cur w3 o u -> cur w5 o u).
  { intros o u [ob [A1 A2]]. exists ob. split; [|exact A2]. unfold w5, w4. cbn. rewrite nth_error_app1; [exact A1|]. now apply nth_error_some_lt in A1. }
  assert (C5 : Forall2 (cur w5) args deps) by (eapply Forall2_impl'; [|exact C3]; auto).
  refine (GI_call w w6 s (last_push_out v) k args [y] deps [v] None g W W6 _ _ _ _ _ (args_slt _ w s args S Hlt) _ G).
  - exact (Sim_evolves F [] no_override w5 w6 _ W5 W6 E6 S5).
  - apply (keeps_trans w w5); [exact (keeps_evolves _ _ E3)|exact (ev_next _ _ E3)|exact (keeps_evolves _ _ E6)].
  - erewrite flat_last_push; [|rewrite (ev_flat _ _ E6); exact F4']. reflexivity.
  - apply (Forall2_cur_evolves w5); assumption.
  - cbn [length seq]. rewrite <- (sm_len F no_override w s S). constructor; [exact C6|constructor].
  - discriminate.
Qed.

Lemma gi_user : forall w s g u func args a tag, good F no_override w s -> GI w g ->
  GI (fst (exec_user w u func args a tag)) (g ++ tape_stmt F s (SUser u func args a tag)).
Proof.
  intros w s g u func args a tag [W S] G. unfold exec_user. cbn [tape_stmt].
  pose proof (args_match F no_override w s args S) as M. unfold tape_call.
  destruct (arg_vals w args) as [xs|e] eqn:Ea; [|rewrite M; destruct (s_ann s && a); rewrite app_nil_r; exact G].
  destruct M as [Mx [ps Mp]]. rewrite Mx.
  pose proof (args_lt w args xs Ea) as Hlt.
  rewrite (sm_ann F no_override w s S). destruct (s_ann s && a) eqn:Hann.
  2:{ rewrite app_nil_r. destruct (func xs) as [ys|e] eqn:Es; [|exact G].
      pose proof (new_objs_spec F ys [] no_override w s W S) as B. destruct (new_objs w ys) as [w2 os].
      destruct B as [W2 [S2 [Hos [Hobj [Hh [Hnx [Htp _]]]]]]]. cbn [fst].
      refine (GI_same w w2 g W _ _ G); [intros v _; now rewrite Hh|unfold flat; now rewrite Htp]. }
  pose proof (add_deps_spec F [] args w W Hlt) as B. destruct (add_deps w args) as [w1 deps]. destruct B as [W1 [E1 [C1 K1]]].
  pose proof (Sim_evolves F [] no_override w w1 _ W W1 E1 S) as S1.
  destruct (func xs) as [ys|e] eqn:Es.
  2:{ rewrite app_nil_r. cbn [fst]. exact (GI_same w w1 g W (keeps_evolves _ _ E1) (ev_flat _ _ E1) G). }
  pose proof (new_objs_spec F ys [] no_override w1 s W1 S1) as B. destruct (new_objs w1 ys) as [w2 os].
  destruct B as [W2 [S2 [Hos [Hobj [Hh [Hnx [Htp [Han Hct]]]]]]]].
  assert (L1 : length (w_objs w1) = length (s_objs s)) by apply (sm_len F no_override w1 s S1).
  rewrite L1 in Hos. subst os.
  pose proof (add_outs_spec F (seq (length (s_objs s)) (length ys)) [] w2 W2) as B.
  destruct (add_outs w2 (seq (length (s_objs s)) (length ys))) as [w3 vs].
  destruct B as [W3 [E3 [C3 [N3 F3]]]].
  { intros o Ho. rewrite <- L1 in Ho. eapply seq_new_none; eauto. }
  { apply seq_NoDup. }
  assert (C2 : Forall2 (cur w2) args deps).
  { eapply Forall2_impl'; [|exact C1]. intros o v [ob [A1 A2]]. exists ob. split; [|exact A2].
    rewrite Hobj, nth_error_app1; [exact A1|]. now apply nth_error_some_lt in A1. }
  cbn [fst].
  assert (K : keeps w w3).
  { apply (keeps_trans w w2); [|rewrite Hnx; exact (ev_next _ _ E1)|exact (keeps_evolves _ _ E3)].
    intros v Hv. rewrite Hh. exact (ev_ghost _ _ E1 v Hv). }
  assert (Fl : flat w3 = flat w).
  { rewrite (ev_flat _ _ E3). unfold flat at 1. rewrite Htp. exact (ev_flat _ _ E1). }
  assert (Fl' : flat (with_tape (fun t => add_block t (Blk (KUser u) deps vs tag)) w3) = flat w ++ [Blk (KUser u) deps vs tag]).
  { rewrite <- Fl. unfold flat. cbn. apply flat_add_block. }
  refine (GI_call w w3 s _ (KUser u) args ys deps vs tag g W W3 _ K Fl' _ C3 (args_slt _ w s args S Hlt) (fun _ => eq_refl) G).
  - exact (Sim_evolves F [] no_override w2 w3 _ W2 W3 E3 S2).
  - eapply Forall2_cur_evolves; eauto.
Qed.

Lemma gi_inpl : forall w s g u func args o a tag, good F no_override w s -> s_ann s && a = true -> GI w g ->
  GI (fst (exec_inpl w u func args o a tag)) (g ++ tape_stmt F s (SInpl u func args o a tag)).
Proof.
  intros w s g u func args o a tag [W S] Hann G. unfold exec_inpl. cbn [tape_stmt].
  pose proof (args_match F no_override w s args S) as M. unfold tape_inpl. rewrite Hann.
  destruct (arg_vals w args) as [xs|e] eqn:Ea; [|rewrite M; rewrite app_nil_r; exact G].
  destruct M as [Mx [ps Mp]]. rewrite Mx.
  pose proof (args_lt w args xs Ea) as Hlt.
  destruct (nth_error (s_objs s) o) as [so|] eqn:Eso.
  2:{ rewrite app_nil_r. destruct (nth_error (w_objs w) o) eqn:Ew; [|exact G].
      apply nth_error_None in Eso. apply nth_error_some_lt in Ew. rewrite (sm_len F no_override w s S) in Ew. lia. }
  destruct (nth_error (w_objs w) o) as [ob|] eqn:Ew.
  2:{ apply nth_error_None in Ew. apply nth_error_some_lt in Eso. rewrite (sm_len F no_override w s S) in Ew. lia. }
  rewrite (sm_ann F no_override w s S), Hann.
  pose proof (add_deps_spec F [] args w W Hlt) as B. destruct (add_deps w args) as [w1 deps]. destruct B as [W1 [E1 [C1 K1]]].
  pose proof (Sim_evolves F [] no_override w w1 _ W W1 E1 S) as S1.
  destruct (func xs) as [y|e] eqn:Es.
  2:{ rewrite app_nil_r. cbn [fst]. exact (GI_same w w1 g W (keeps_evolves _ _ E1) (ev_flat _ _ E1) G). }
  assert (Ho1 : o < length (w_objs w1)) by (rewrite (ev_len _ _ E1); now apply nth_error_some_lt in Ew).
  assert (Ho2 : o < length (w_objs (assign_obj w1 o y))).
  { unfold assign_obj. destruct (nth_error (w_objs w1) o) eqn:En; [|assumption]. cbn. now rewrite length_list_set. }
  rewrite (add_outs_clear _ o Ho2).
  assert (W1d : WInv F deps w1).
  { apply (WInv_sub F [] deps w1 W1). intros v Hv. right. destruct (Forall2_In_r _ _ _ v C1 Hv) as [i [_ Hc]]. exists i. exact Hc. }
  pose proof (WInv_update F deps w1 o y W1d Ho1) as W2.
  pose proof (Sim_update F deps no_override w1 s o y so W1d S1 Eso) as S2.
  set (w2 := clear_bv (assign_obj w1 o y) o) in *.
  destruct (nth_error (w_objs w1) o) as [ob1|] eqn:En1; [|apply nth_error_None in En1; lia].
  assert (Hn2 : nth_error (w_objs w2) o = Some (Obj y None (Datatypes.S (o_gen ob1)))).
  { unfold w2, assign_obj. rewrite En1. unfold clear_bv, with_objs, with_heap. cbn [w_objs].
    rewrite nth_list_set, Nat.eqb_refl, En1. cbn. rewrite nth_list_set, Nat.eqb_refl, nth_list_set, Nat.eqb_refl, En1. reflexivity. }
  assert (Gh2 : forall v, ghost (w_heap w2 v) = ghost (w_heap w1 v)).
  { intros v. unfold w2, assign_obj. rewrite En1. unfold clear_bv, with_objs, with_heap. cbn [w_objs].
    rewrite nth_list_set, Nat.eqb_refl, En1. cbn. destruct (Nat.eqb _ o); reflexivity. }
  assert (Nx2 : w_next w2 = w_next w1 /\ flat w2 = flat w1).
  { unfold w2, assign_obj. rewrite En1. unfold clear_bv, with_objs, with_heap. cbn [w_objs].
    rewrite nth_list_set, Nat.eqb_refl, En1. split; reflexivity. }
  destruct Nx2 as [Nx2 Fl2].
  pose proof (add_outs_spec F [o] deps w2 W2) as B.
  destruct (add_outs w2 [o]) as [w3 vs].
  destruct B as [W3 [E3 [C3 [N3 F3]]]].
  { intros i [<-|[]]. eauto. }
  { constructor; [easy|constructor]. }
  pose proof (Sim_evolves F deps no_override w2 w3 _ W2 W3 E3 S2) as S3.
  assert (Hdlt : forall d, In d deps -> d < w_next w1).
  { intros d Hd. destruct (Forall2_In_r _ _ _ d C1 Hd) as [i [_ Hc]]. eapply WInv_cur_lt; eauto. }
  assert (Hgd : forall d, d < w_next w1 -> ghost (w_heap w3 d) = ghost (w_heap w1 d)).
  { intros d Hd. rewrite (ev_ghost _ _ E3) by (rewrite Nx2; auto). apply Gh2. }
  cbn [fst].
  assert (K : keeps w w3).
  { apply (keeps_trans w w1); [exact (keeps_evolves _ _ E1)|exact (ev_next _ _ E1)|exact Hgd]. }
  refine (GI_add w (with_tape _ w3) g (Blk (KUser u) deps vs tag) _ W K _ _ _ G).
  - rewrite <- (ev_flat _ _ E1), <- Fl2, <- (ev_flat _ _ E3). unfold flat. cbn. apply flat_add_block.
  - reflexivity.
  - unfold abs. cbn [b_kind b_deps b_outs w_heap with_tape]. f_equal.
    + rewrite <- (pair_cur [] no_override w1 s args deps W1 S1 C1). apply map_ext_in. intros d Hd. apply ghost_pair. auto.
    + rewrite (pair_cur deps no_override w3 _ [o] vs W3 S3 C3). unfold vers_of, put. cbn. rewrite nth_list_set, Nat.eqb_refl, Eso. reflexivity.
Qed.

Lemma gi_stmt : forall w s g c, good F no_override w s ->
  (match c with SInpl _ _ _ _ a _ => s_ann s && a = true | _ => True end) ->
  GI w g -> GI (fst (exec_stmt F w c)) (g ++ tape_stmt F s c).
Proof.
  intros w s g c Gd Hd G. pose proof Gd as [W S]. destruct c; cbn [exec_stmt].
  - rewrite app_nil_r. (apply (GI_heap w); [reflexivity|reflexivity|exact G]).
  - now apply gi_op.
  - now apply gi_fun.
  - now apply gi_user.
  - now apply gi_inpl.
  - rewrite app_nil_r. destruct (nth_error (w_objs w) o) as [ob|] eqn:E; [|exact G]. cbn [fst].
    apply (GI_same w _ g W); [intros v _| |exact G]; unfold assign_obj; rewrite E; unfold clear_bv, with_objs, with_heap; cbn [w_objs];
      rewrite nth_list_set, Nat.eqb_refl, E; cbn; [destruct (Nat.eqb _ o); reflexivity|reflexivity].
  - rewrite app_nil_r. (apply (GI_heap w); [reflexivity|reflexivity|exact G]).
  - rewrite app_nil_r. (apply (GI_heap w); [reflexivity|reflexivity|exact G]).
  - rewrite app_nil_r. (apply (GI_heap w); [reflexivity|reflexivity|exact G]).
  - rewrite app_nil_r. destruct (nth_error (w_objs w) o) as [ob|] eqn:E; [|exact G]. destruct (o_bv ob); [|exact G]. destruct (referenced w _); [exact G|].
    cbn. apply (GI_same w _ g W); [intros v _| |exact G]; unfold clear_bv; rewrite E; reflexivity.
  - rewrite app_nil_r. destruct (nth_error (w_objs w) o) as [ob|] eqn:E; [|exact G].
    assert (Ho : o < length (w_objs w)) by now apply nth_error_some_lt in E.
    pose proof (get_bv_spec F [] w o W Ho) as B. destruct (get_bv w o) as [w1 v]. destruct B as [W1 [E1 C1]].
    cbn [fst]. apply (GI_heap w1); [reflexivity|reflexivity|]. exact (GI_same w w1 g W (keeps_evolves _ _ E1) (ev_flat _ _ E1) G).
  - rewrite app_nil_r. destruct (nth_error (w_objs w) o) as [ob|] eqn:E; [|exact G].
    pose proof (get_bv_spec F [] w o W (nth_error_some_lt _ _ _ E)) as B. destruct (get_bv w o) as [w1 v]. destruct B as [W1 [E1 C1]].
    exact (GI_same w w1 g W (keeps_evolves _ _ E1) (ev_flat _ _ E1) G).
Qed.

Lemma gi_exec : forall p w s g, good F no_override w s -> consistent p -> disciplined (s_ann s) p = true -> GI w g ->
  GI (exec F w p) (snd (fold_left (spec_step F) p (s, g))).
Proof.
  induction p as [|c r IH]; intros w s g Gd Hc Hd G; [exact G|]. inversion Hc; subst.
  change (exec F w (c :: r)) with (exec F (fst (exec_stmt F w c)) r). cbn [fold_left]. unfold spec_step at 2. cbn [fst snd].
  assert (D : match c with SInpl _ _ _ _ a _ => s_ann s && a = true | _ => True end).
  { destruct c; auto. cbn in Hd. apply andb_true_iff in Hd as [Hd _]. exact Hd. }
  apply IH; auto.
  - now apply step_stmt.
  - rewrite spec_ann. destruct c; cbn in Hd; auto. apply andb_true_iff in Hd as [_ Hd]. exact Hd.
  - now apply gi_stmt.
Qed.

Lemma GI_program : forall ann p, consistent p -> disciplined ann p = true -> GI (exec F (world_new F ann) p) (spec_tape F ann p).
Proof.
  intros ann p Hc Hd. apply gi_exec; auto.
  - exact (exec_sim F [] no_override ann ltac:(constructor) eq_refl).
  - constructor; [reflexivity|constructor].
Qed.
End TapeRecord.
