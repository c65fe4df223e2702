(** Path markings across call histories, and repeatability of derivatives. *)
From Coq Require Import List Arith ZArith Lia Bool.
From Verif Require Import Base Model BaseFacts Graph Record Spec RecordFacts Replay ReplayExec History Session Sweep SpecGraph.
Import ListNotations.

Section Keep.
Context {V : Type} (F : fops V) {T : Type} (E : bvar V -> T).
Implicit Types (h : heap V) (bs : list (block V)) (b : block V).
Definition keeps h h' := forall v, E (h' v) = E (h v).

Lemma keeps_refl : forall h, keeps h h.
Proof. intros h v. reflexivity. Qed.
Lemma keeps_trans : forall h1 h2 h3, keeps h1 h2 -> keeps h2 h3 -> keeps h1 h3.
Proof. intros h1 h2 h3 A B v. rewrite B. apply A. Qed.
Lemma keeps_upd : forall h v f, (forall x, E (f x) = E x) -> keeps h (upd h v f).
Proof. intros h v f Hf u. unfold upd. destruct (Nat.eqb u v); auto. Qed.
Lemma keeps_upd_all : forall l h f, (forall x, E (f x) = E x) -> keeps h (upd_all h l f).
Proof. induction l as [|u l IH]; intros h f Hf; [apply keeps_refl|]. cbn. eapply keeps_trans; [|apply IH; exact Hf]. now apply keeps_upd. Qed.
Lemma keeps_iter : forall {A} (f : heap V -> A -> heap V * option exn) l h,
  (forall h x, keeps h (fst (f h x))) -> keeps h (fst (iter_o f l h)).
Proof.
  intros A f l h Hf. destruct (iter_o f l h) as [h' e] eqn:Ei. cbn.
  refine (iter_o_inv f (keeps h) l h h' e _ (keeps_refl h) Ei).
  intros s x s' e' _ Hs Hx. eapply keeps_trans; [exact Hs|]. specialize (Hf s x). now rewrite Hx in Hf.
Qed.
Lemma keeps_reset : forall f bs h, (forall x, E (f x) = E x) -> keeps h (reset_with f bs h).
Proof.
  intros f bs h Hf. unfold reset_with. generalize (rev bs). intros l. revert h. induction l as [|b l IH]; intros h; [apply keeps_refl|].
  cbn [fold_left]. eapply keeps_trans; [|apply IH]. eapply keeps_trans; apply keeps_upd_all; exact Hf.
Qed.

Lemma keeps_marked_controls : forall ctrls h body, (forall c x, E (set_ctrl c x) = E x) -> (forall h, keeps h (fst (body h))) ->
  keeps h (fst (with_marked_controls ctrls h body)).
Proof.
  intros ctrls h body Hc Hb. unfold with_marked_controls. specialize (Hb (upd_all h ctrls (set_ctrl true))).
  destruct (body _) as [h2 e]. cbn [fst] in *.
  eapply keeps_trans; [|apply keeps_upd_all; auto]. eapply keeps_trans; [|exact Hb]. apply keeps_upd_all; auto.
Qed.

Lemma adj_sweep_keeps : (forall x y, E (set_adj y x) = E x) -> forall bs n m h, keeps h (fst (evaluate_adj F bs n m h)).
Proof.
  intros He bs n m h. apply keeps_iter. intros h0 b. unfold adj_block. destruct (negb _); [apply keeps_refl|].
  apply keeps_iter. intros h' iv. destruct (comp_adj _ _ _ _ _) as [[x|]|]; cbn; try apply keeps_refl.
  apply keeps_upd. intros; apply He.
Qed.

Ltac keep_step :=
  match goal with
  | |- keeps ?h (fst (?h, _)) => apply keeps_refl
  | |- keeps ?h ?h => apply keeps_refl
  | |- keeps ?h (upd ?h' _ _) => apply (keeps_trans h h'); [|apply keeps_upd; intros; unfold add_tlm, add_hess; auto]
  | |- context[match ?x with _ => _ end] => destruct x eqn:?
  | |- _ => progress cbn [fst]
  end.
Ltac heap_eqs :=
  repeat match goal with
  | H : (_, _) = (_, _) |- _ => inversion H; subst; clear H
  | H : context[match ?x with _ => _ end] |- _ => destruct x eqn:?; try discriminate
  end.

Lemma tlm_block_keeps : (forall x y, E (set_tlm y x) = E x) -> forall m h b, keeps h (fst (tlm_block F m h b)).
Proof.
  intros He m h b. unfold tlm_block.
  assert (B : keeps h (fst (tlm_block_base F m h b))).
  { unfold tlm_block_base. destruct (negb _); [apply keeps_refl|].
    apply keeps_iter. intros h' iv. destruct (comp_tlm _ _ _ _ _) as [[x|]|]; cbn; try apply keeps_refl.
    apply keeps_upd. intros; apply He. }
  destruct (b_kind b); auto; unfold tlm_sub, tlm_div, tlm_pow, with_out, with_term, andthen, with_val;
    repeat keep_step; heap_eqs; repeat keep_step.
Qed.
Lemma tlm_sweep_keeps : (forall x y, E (set_tlm y x) = E x) -> forall bs m h, keeps h (fst (evaluate_tlm F bs m h)).
Proof. intros He bs m h. apply keeps_iter. intros. now apply tlm_block_keeps. Qed.

Lemma hess_block_keeps : (forall x y, E (set_hess y x) = E x) -> forall m h b, keeps h (fst (hess_block F m h b)).
Proof.
  intros He m h b. unfold hess_block.
  assert (B : keeps h (fst (hess_block_base F m h b))).
  { unfold hess_block_base. destruct (negb _); [apply keeps_refl|].
    apply keeps_iter. intros h' iv. destruct (comp_hess _ _ _ _ _ _ _) as [[x|]|]; cbn; try apply keeps_refl.
    apply keeps_upd. intros; apply He. }
  destruct (b_kind b); auto; unfold hess_sub, hess_neg, hess_div, hess_pow, with_out, with_term, andthen, with_val;
    repeat keep_step; heap_eqs; repeat keep_step.
Qed.
Lemma hess_sweep_keeps : (forall x y, E (set_hess y x) = E x) -> forall bs m h, keeps h (fst (evaluate_hessian F bs m h)).
Proof. intros He bs m h. apply keeps_iter. intros. now apply hess_block_keeps. Qed.

End Keep.

Section Marks.
Context {V : Type} (F : fops V).
Implicit Types (h : heap V) (bs : list (block V)) (b : block V).

Definition is_ok {A} (r : res A) : bool := match r with Ok _ => true | Err _ => false end.
Definition no_mark h := forall v, bv_mark (h v) = false.
Definition api_ok bs h (a : api V) : bool := is_ok (snd (api_run F bs h a)).
Fixpoint all_ok bs h (l : list (api V)) : bool :=
  match l with [] => true | a :: r => api_ok bs h a && all_ok bs (fst (api_run F bs h a)) r end.

Lemma keeps_mark : forall h h', keeps (@bv_mark V) h h' -> no_mark h -> no_mark h'.
Proof. intros h h' K N v. rewrite K. apply N. Qed.

Lemma marked_nodes_clean : forall nodes h body, no_mark h -> (forall h, keeps (@bv_mark V) h (fst (body h))) ->
  snd (with_marked_nodes nodes h body) = None -> no_mark (fst (with_marked_nodes nodes h body)).
Proof.
  intros nodes h body N K. unfold with_marked_nodes. specialize (K (upd_all h nodes (set_mark true))).
  destruct (body _) as [h2 [e|]]; cbn [fst snd] in *; [discriminate|]. intros _ v.
  rewrite upd_all_spec by reflexivity. destruct (mem v nodes) eqn:Em; [reflexivity|].
  rewrite K, upd_all_spec by reflexivity. rewrite Em. apply N.
Qed.

Lemma grad_clean_marks : forall bs J ctrls a h, no_mark h -> is_ok (snd (compute_gradient F bs J ctrls a h)) = true ->
  no_mark (fst (compute_gradient F bs J ctrls a h)).
Proof.
  intros bs J ctrls a h N. unfold compute_gradient.
  set (h2 := upd (reset_adj bs h) J (set_adj (Some a))).
  assert (N2 : no_mark h2).
  { apply (keeps_mark h); [|exact N]. eapply keeps_trans; [|apply keeps_upd; reflexivity]. apply keeps_reset. reflexivity. }
  match goal with |- context[with_marked_nodes ?n ?h ?b] => pose proof (marked_nodes_clean n h b N2) as C; destruct (with_marked_nodes n h b) as [h3 [e|]] end;
    cbn [fst snd] in *; [discriminate|]. intros _. apply C; [|reflexivity].
  intros h'. apply keeps_marked_controls; [reflexivity|]. intros. now apply adj_sweep_keeps.
Qed.

Lemma hess_clean_marks : forall bs J ctrls d h, no_mark h -> is_ok (snd (compute_hessian F bs J ctrls d h)) = true ->
  no_mark (fst (compute_hessian F bs J ctrls d h)).
Proof.
  intros bs J ctrls d h N. unfold compute_hessian.
  assert (N1 : no_mark (reset_hess bs (reset_tlm bs h))).
  { apply (keeps_mark h); [|exact N]. eapply keeps_trans; apply keeps_reset; reflexivity. }
  assert (Kd : forall dots cs h0, keeps (@bv_mark V) h0 (fst (set_dots h0 cs dots))).
  { induction dots as [|x r IH]; intros [|c cs] h0; cbn [set_dots]; try apply keeps_refl.
    eapply keeps_trans; [|apply IH]. now apply keeps_upd. }
  set (h1 := reset_hess bs (reset_tlm bs h)) in *. specialize (Kd d ctrls h1).
  destruct (set_dots h1 ctrls d) as [h2 [e|]]; cbn [andthen fst snd] in *; [discriminate|].
  assert (N2 : no_mark h2) by now apply (keeps_mark h1).
  pose proof (marked_nodes_clean (find_relevant bs ctrls) h2 (evaluate_tlm F bs true) N2) as C.
  destruct (with_marked_nodes _ h2 _) as [h3 [e|]]; cbn [andthen fst snd] in *; [discriminate|].
  assert (N3 : no_mark (upd h3 J (set_hess (Some (f_zero F))))).
  { apply (keeps_mark h3); [now apply keeps_upd|]. apply C; [|reflexivity]. intros. now apply tlm_sweep_keeps. }
  pose proof (marked_nodes_clean (find_relevant bs ctrls) _ (evaluate_hessian F bs true) N3) as C2.
  destruct (with_marked_nodes _ (upd h3 J _) _) as [h5 [e|]]; cbn [fst snd] in *; [discriminate|]. intros _.
  apply C2; [|reflexivity]. intros. now apply hess_sweep_keeps.
Qed.

Lemma api_clean : forall bs h a, no_ctrl h -> no_mark h -> api_ok bs h a = true \/ is_call a = true -> no_mark (fst (api_run F bs h a)).
Proof.
  intros bs h a Nc N Ha. destruct a; cbn [api_run fst].
  - destruct (Nat.eq_dec (length vals) (length (rf_ctrls rf))) as [Hl|Hl].
    + destruct (rf_call_spec F bs rf vals h Nc Hl) as [_ [_ B]].
      destruct (rf_call F bs rf vals h) as [h' r]. cbn [fst] in *. intros v. specialize (B v).
      apply (f_equal (@bv_mark V)) in B. exact (eq_trans B (N v)).
    + rewrite rf_call_mismatch by exact Hl. exact N.
  - destruct Ha as [Ha|Ha]; [|discriminate]. unfold api_ok in Ha. cbn [api_run] in Ha. unfold rf_derivative in *.
    destruct (rf_ctrls rf); [exact N|]. now apply grad_clean_marks.
  - destruct Ha as [Ha|Ha]; [|discriminate]. unfold api_ok in Ha. cbn [api_run] in Ha. unfold rf_hessian in *.
    now apply hess_clean_marks.
  - unfold solve_adjoint. apply (keeps_mark h); [|exact N]. eapply keeps_trans; [|now apply adj_sweep_keeps].
    destruct is_control; [eapply keeps_trans; [|now apply keeps_upd]|]; now apply keeps_reset.
  - destruct Ha as [Ha|Ha]; [|discriminate]. unfold api_ok in Ha. cbn [api_run] in Ha.
    now apply grad_clean_marks.
  - apply (keeps_mark h); [|exact N]. eapply keeps_trans; [|now apply tlm_sweep_keeps].
    assert (G : forall l h0, keeps (@bv_mark V) h0 (fold_left (fun h' (vx : nat * option V) => upd h' (fst vx) (set_tlm (snd vx))) l h0)).
    { induction l as [|[v x] l IH]; intros h0; cbn; [apply keeps_refl|]. eapply keeps_trans; [|apply IH]. now apply keeps_upd. }
    apply G.
  - apply (keeps_mark h); [|exact N]. now apply adj_sweep_keeps.
  - apply (keeps_mark h); [|exact N]. now apply hess_sweep_keeps.
  - apply (keeps_mark h); [|exact N]. now apply keeps_upd.
  - apply (keeps_mark h); [|exact N]. now apply keeps_upd.
  - apply (keeps_mark h); [|exact N].
    eapply keeps_trans; [now apply (keeps_reset _ (set_adj None))|].
    eapply keeps_trans; [now apply (keeps_reset _ (set_tlm None))|]. now apply (keeps_reset _ (set_hess None)).
Qed.

Lemma hist_clean : forall bs l h, no_ctrl h -> no_mark h -> all_ok bs h l = true -> no_mark (run_hist F bs h l).
Proof.
  intros bs l. induction l as [|a l IH]; intros h Nc N Ha; [exact N|].
  cbn in Ha. apply andb_true_iff in Ha as [Ha1 Ha2].
  change (run_hist F bs h (a :: l)) with (run_hist F bs (fst (api_run F bs h a)) l).
  apply IH; [now apply api_no_ctrl|apply api_clean; auto|exact Ha2].
Qed.

Lemma hist_saved : forall bs l h, no_ctrl h -> forallb (fun a => negb (is_call a)) l = true -> forall v, saved (run_hist F bs h l) v = saved h v.
Proof.
  intros bs l. induction l as [|a l IH]; intros h Nc Ha v; [reflexivity|].
  cbn in Ha. apply andb_true_iff in Ha as [Ha1 Ha2]. apply negb_true_iff in Ha1.
  change (run_hist F bs h (a :: l)) with (run_hist F bs (fst (api_run F bs h a)) l).
  rewrite IH; [|now apply api_no_ctrl|exact Ha2]. now apply (sweep_values F bs h a Nc Ha1).
Qed.

(** ** Repeatability *)
Definition on_tape bs (ctrls : list nat) := forall c, In c ctrls -> In c (vars_of bs).

Lemma on_tape_check : forall bs ctrls, forallb (fun c => mem c (vars_of bs)) ctrls = true -> on_tape bs ctrls.
Proof. intros bs ctrls H c Hc. rewrite forallb_forall in H. apply mem_In. now apply H. Qed.
Lemma on_tape_fresh : forall bs J ctrls h, on_tape bs ctrls -> fresh_ctrls bs J ctrls h.
Proof. intros bs J ctrls h H c Hc. left. now apply H. Qed.

Lemma derivative_grad : forall bs rf a h, rf_ctrls rf <> [] ->
  rf_derivative F bs rf a h = compute_gradient F bs (rf_J rf) (rf_ctrls rf) (f_mul F a (rf_scale rf)) h.
Proof. intros bs rf a h H. unfold rf_derivative. destruct (rf_ctrls rf); [contradiction|reflexivity]. Qed.

(** Two successful derivatives at the same stored values agree; on a state without stale marks a
    derivative succeeds if it does in any state. *)
Lemma derivative_repeat : forall bs rf a h l1 l2 g1 g2, topo bs -> no_ctrl h -> on_tape bs (rf_ctrls rf) ->
  forallb (fun a => negb (is_call a)) l1 = true -> forallb (fun a => negb (is_call a)) l2 = true ->
  snd (rf_derivative F bs rf a (run_hist F bs h l1)) = Ok g1 ->
  snd (rf_derivative F bs rf a (run_hist F bs h l2)) = Ok g2 -> g1 = g2.
Proof.
  intros bs rf a h l1 l2 g1 g2 Ht Nc Ho C1 C2 G1 G2.
  assert (Hne : rf_ctrls rf <> []) by (intros K; unfold rf_derivative in G1; rewrite K in G1; discriminate).
  rewrite derivative_grad in G1, G2 by exact Hne.
  eapply (grad_repeat F bs (rf_J rf) (rf_ctrls rf)); try exact G1; try exact G2; auto; try (now apply hist_frame); try (now apply on_tape_fresh).
  intros v. now rewrite !hist_saved.
Qed.

Lemma derivative_clean : forall bs rf a h l1 l2, topo bs -> no_ctrl h -> no_mark h -> on_tape bs (rf_ctrls rf) ->
  forallb (fun a => negb (is_call a)) l1 = true -> forallb (fun a => negb (is_call a)) l2 = true ->
  all_ok bs h l1 = true -> all_ok bs h l2 = true ->
  snd (rf_derivative F bs rf a (run_hist F bs h l1)) = snd (rf_derivative F bs rf a (run_hist F bs h l2)).
Proof.
  intros bs rf a h l1 l2 Ht Nc Nm Ho C1 C2 A1 A2.
  unfold rf_derivative. destruct (rf_ctrls rf) as [|c cs] eqn:Ec; [reflexivity|]. rewrite <- Ec in *.
  apply grad_same_marks; try (now apply hist_frame).
  - intros v. now rewrite !hist_saved.
  - intros v. now rewrite !(hist_clean bs _ h Nc Nm).
  - intros c' Hc. left. now apply Ho.
Qed.

(** If it succeeds after some history (even with failures), it succeeds with the same result after a
    history without failures. *)
Lemma derivative_monotone : forall bs rf a h l1 l2 g, topo bs -> no_ctrl h -> no_mark h -> on_tape bs (rf_ctrls rf) ->
  forallb (fun a => negb (is_call a)) l1 = true -> forallb (fun a => negb (is_call a)) l2 = true ->
  all_ok bs h l2 = true ->
  snd (rf_derivative F bs rf a (run_hist F bs h l1)) = Ok g -> snd (rf_derivative F bs rf a (run_hist F bs h l2)) = Ok g.
Proof.
  intros bs rf a h l1 l2 g Ht Nc Nm Ho C1 C2 A2 G.
  assert (Hne : rf_ctrls rf <> []) by (intros K; unfold rf_derivative in G; rewrite K in G; discriminate).
  rewrite derivative_grad in * by exact Hne.
  eapply (grad_clean_ok F bs (rf_J rf) (rf_ctrls rf)); try exact G; auto; try (now apply hist_frame); try (now apply on_tape_fresh).
  - intros v. now rewrite !hist_saved.
  - now apply hist_clean.
Qed.

Lemma derivative_no_influence : forall bs rf a h l g i c, topo bs -> no_ctrl h ->
  ~ In (rf_J rf) (find_relevant bs [c]) -> In c (vars_of bs) ->
  snd (rf_derivative F bs rf a (run_hist F bs h l)) = Ok g -> nth_error (rf_ctrls rf) i = Some c -> nth_error g i = Some (f_zero F).
Proof.
  intros bs rf a h l g i c Ht Nc HJ Ho G Hi.
  assert (Hne : rf_ctrls rf <> []) by (intros K; unfold rf_derivative in G; rewrite K in G; discriminate).
  rewrite derivative_grad in G by exact Hne.
  eapply (grad_no_influence F bs (rf_J rf) (rf_ctrls rf) _ (run_hist F bs h l)); eauto. now apply hist_frame.
Qed.

(** ** The path marking is exactly the influence relation *)
Lemma find_relevant_influences : forall bs ctrls v, topo bs ->
  In v (find_relevant bs ctrls) <-> exists c, In c ctrls /\ influences bs c v.
Proof.
  intros bs ctrls v Ht. split.
  - intros H. apply (find_relevant_least bs ctrls (fun u => exists c, In c ctrls /\ influences bs c u)); auto.
    + intros u Hu. exists u. split; [exact Hu|constructor].
    + intros b d o Hb Hd [c [Hc Hi]] Ho. exists c. split; [exact Hc|]. eapply inf_step; eauto.
  - intros [c [Hc Hi]]. induction Hi as [|b d o Hb Hd Ho Hi IH]; [now apply find_relevant_incl|].
    eapply (find_relevant_upward bs ctrls); eauto.
Qed.

Lemma no_influence_zero : forall bs rf a h l g i c, topo bs -> no_ctrl h ->
  nth_error (rf_ctrls rf) i = Some c -> In c (vars_of bs) -> ~ influences bs c (rf_J rf) ->
  snd (rf_derivative F bs rf a (run_hist F bs h l)) = Ok g -> nth_error g i = Some (f_zero F).
Proof.
  intros bs rf a h l g i c Ht Nc Hi Ho HJ G. eapply (derivative_no_influence bs rf a h l g i c); eauto.
  intros K. apply find_relevant_influences in K as [c' [[<-|[]] K]]; auto.
Qed.

(** Recorded programs satisfy the assumptions made above. *)
Lemma recorded_clean : forall ann p j, consistent p -> disciplined ann p = true ->
  j < length (w_objs (exec F (world_new F ann) p)) ->
  let w := fst (recorded F ann p j) in
  wf_tape (t_flat (w_tape w)) /\ (forall b, In b (t_flat (w_tape w)) -> gives_value F b) /\
  (forall v, bv_ctrl (w_heap w v) = false) /\ (forall v, bv_mark (w_heap w v) = false) /\
  (forall v, bv_adj (w_heap w v) = None /\ bv_tlm (w_heap w v) = None /\ bv_hess (w_heap w v) = None).
Proof.
  intros ann p j Hc Hd Hj w. destruct (recorded_good F ann p j no_override Hc Hd Hj) as [[W _] [Hv _]]. fold w in W, Hv.
  split; [exact (wi_wf F [] w W)|]. split; [now apply Forall_forall|]. split; [exact (wi_ctrl F [] w W)|].
  split; intros v; destruct (wi_clean F [] w W v) as [A [B [C D]]]; auto.
Qed.

Lemma recorded_shaped : forall ann p j, consistent p -> disciplined ann p = true ->
  j < length (w_objs (exec F (world_new F ann) p)) -> Forall (@shaped V) (t_flat (w_tape (fst (recorded F ann p j)))).
Proof.
  intros ann p j Hc Hd Hj. destruct (recorded_good F ann p j no_override Hc Hd Hj) as [[W _] _]. exact (wi_shape F [] _ W).
Qed.

End Marks.
