(** Adjoint values of variables that no block reads or writes, across call histories: which histories
    leave no stale adjoint value behind. *)
From Coq Require Import List Arith ZArith Lia Bool.
From Verif Require Import Base Model BaseFacts Graph Record Spec RecordFacts Replay ReplayExec History Session Sweep SpecGraph Marks.
Import ListNotations.

Section Fresh.
Context {V : Type} (F : fops V).
Implicit Types (h : heap V) (bs : list (block V)) (l : list (api V)).

(** Calls of a history that store an adjoint value in a variable directly store it in one of the tape
    or in [J]: derivatives are of functionals on the tape, or of [J]. *)
Definition stores_adj (a : api V) : list nat :=
  match a with
  | ADeriv rf _ => [rf_J rf] | AGrad J _ _ => [J] | ASolve J _ _ => [J] | ASetAdj v _ => [v]
  | _ => []
  end.
Definition seeds_on bs (J : nat) l := forall a v, In a l -> In v (stores_adj a) -> In v (vars_of bs) \/ v = J.

Lemma adj_block_off : forall m h b v, ~ In v (b_deps b) -> bv_adj (fst (adj_block F m h b) v) = bv_adj (h v).
Proof.
  intros m h b v Hv. unfold adj_block. destruct (negb _); [reflexivity|].
  destruct (iter_o _ _ h) as [h' e] eqn:Ei. cbn [fst].
  refine (iter_o_inv _ (fun h' => bv_adj (h' v) = bv_adj (h v)) _ h h' e _ eq_refl Ei).
  intros s [i u] s' e' Hin Hs Hx. rewrite <- Hs.
  assert (Hu : u <> v).
  { intros ->. apply Hv. apply filter_In in Hin as [Hin _]. now apply (enum_snd_In _ _ Hin). }
  destruct (comp_adj _ _ _ _ _) as [[x|]|]; cbn in Hx; inversion Hx; subst; try reflexivity.
  unfold upd. destruct (Nat.eqb_spec v u); [congruence|reflexivity].
Qed.

Lemma adj_sweep_off : forall bs n m h v, ~ In v (vars_of bs) -> bv_adj (fst (evaluate_adj F bs n m h) v) = bv_adj (h v).
Proof.
  intros bs n m h v Hv. unfold evaluate_adj. destruct (iter_o _ _ h) as [h' e] eqn:Ei. cbn [fst].
  refine (iter_o_inv _ (fun h' => bv_adj (h' v) = bv_adj (h v)) _ h h' e _ eq_refl Ei).
  intros s b s' e' Hin Hs Hx. rewrite <- Hs.
  replace s' with (fst (adj_block F m s b)) by now rewrite Hx.
  apply adj_block_off. intros K. apply Hv. unfold vars_of. apply in_or_app. left. unfold deps_of. apply in_flat_map. exists b. split; [|exact K].
  apply in_rev in Hin. rewrite <- (firstn_skipn n bs). apply in_or_app. now right.
Qed.

Lemma reset_adj_off : forall bs h v, ~ In v (vars_of bs) -> bv_adj (reset_adj bs h v) = bv_adj (h v).
Proof.
  intros bs h v Hv. unfold reset_adj. rewrite reset_with_spec by reflexivity. apply mem_false in Hv. now rewrite Hv.
Qed.

Lemma marked_nodes_adj : forall nodes h body v, (forall h, bv_adj (fst (body h) v) = bv_adj (h v)) ->
  bv_adj (fst (with_marked_nodes nodes h body) v) = bv_adj (h v).
Proof.
  intros nodes h body v Hb. unfold with_marked_nodes.
  assert (A : forall h, bv_adj (upd_all h nodes (set_mark true) v) = bv_adj (h v)) by (intros h0; now apply (keeps_upd_all (@bv_adj V))).
  specialize (Hb (upd_all h nodes (set_mark true))). destruct (body _) as [h2 [e|]]; cbn [fst] in *; [congruence|].
  rewrite (keeps_upd_all (@bv_adj V)) by reflexivity. congruence.
Qed.

Lemma grad_off : forall bs J ctrls a h v, ~ In v (vars_of bs) -> v <> J ->
  bv_adj (fst (compute_gradient F bs J ctrls a h) v) = bv_adj (h v).
Proof.
  intros bs J ctrls a h v Hv HJ. unfold compute_gradient.
  assert (A : bv_adj (upd (reset_adj bs h) J (set_adj (Some a)) v) = bv_adj (h v)).
  { unfold upd. destruct (Nat.eqb_spec v J); [congruence|]. now apply reset_adj_off. }
  pose proof (marked_nodes_adj (find_relevant bs ctrls) (upd (reset_adj bs h) J (set_adj (Some a)))
    (fun h' => with_marked_controls ctrls h' (evaluate_adj F bs 0 true)) v) as B.
  destruct (with_marked_nodes _ _ _) as [h3 [e|]]; cbn [fst] in *; rewrite <- A; apply B; intros h'; unfold with_marked_controls;
  pose proof (adj_sweep_off bs 0 true (upd_all h' ctrls (set_ctrl true)) v Hv) as C;
  destruct (evaluate_adj _ _ _ _ _); cbn [fst] in *;
  rewrite (keeps_upd_all (@bv_adj V)) by reflexivity; rewrite C; now apply (keeps_upd_all (@bv_adj V)).
Qed.

Lemma hess_adj : forall bs J ctrls d h v, bv_adj (fst (compute_hessian F bs J ctrls d h) v) = bv_adj (h v).
Proof.
  intros bs J ctrls d h v. unfold compute_hessian.
  assert (N1 : bv_adj (reset_hess bs (reset_tlm bs h) v) = bv_adj (h v)).
  { unfold reset_hess, reset_tlm. rewrite !(keeps_reset (@bv_adj V)); reflexivity. }
  assert (Kd : forall dots cs h0, keeps (@bv_adj V) h0 (fst (set_dots h0 cs dots))).
  { induction dots as [|x r IH]; intros [|c cs] h0; cbn [set_dots]; try apply keeps_refl.
    eapply keeps_trans; [|apply IH]. now apply keeps_upd. }
  set (h1 := reset_hess bs (reset_tlm bs h)) in *. specialize (Kd d ctrls h1 v).
  destruct (set_dots h1 ctrls d) as [h2 [e|]]; cbn [andthen fst snd] in *; [congruence|].
  pose proof (marked_nodes_adj (find_relevant bs ctrls) h2 (evaluate_tlm F bs true) v) as C.
  assert (C1 : forall h, bv_adj (fst (evaluate_tlm F bs true h) v) = bv_adj (h v)) by (intros h0; now apply (tlm_sweep_keeps F (@bv_adj V))).
  specialize (C C1). clear C1.
  destruct (with_marked_nodes _ h2 _) as [h3 [e|]]; cbn [andthen fst snd] in *; [congruence|].
  pose proof (marked_nodes_adj (find_relevant bs ctrls) (upd h3 J (set_hess (Some (f_zero F)))) (evaluate_hessian F bs true) v) as C2.
  assert (C1 : forall h, bv_adj (fst (evaluate_hessian F bs true h) v) = bv_adj (h v)) by (intros h0; now apply (hess_sweep_keeps F (@bv_adj V))).
  specialize (C2 C1).
  assert (C3 : bv_adj (upd h3 J (set_hess (Some (f_zero F))) v) = bv_adj (h3 v)) by (now apply (keeps_upd (@bv_adj V))).
  destruct (with_marked_nodes _ (upd h3 J _) _) as [h5 [e|]]; cbn [fst snd] in *; congruence.
Qed.

Lemma api_adj_off : forall bs h a v, no_ctrl h -> ~ In v (vars_of bs) -> ~ In v (stores_adj a) ->
  bv_adj (fst (api_run F bs h a) v) = bv_adj (h v).
Proof.
  intros bs h a v Nc Hv Hs. destruct a; cbn [api_run fst stores_adj In] in *.
  - destruct (Nat.eq_dec (length vals) (length (rf_ctrls rf))) as [Hl|Hl].
    + destruct (rf_call_spec F bs rf vals h Nc Hl) as [_ [_ B]].
      destruct (rf_call F bs rf vals h) as [h' r]. cbn [fst] in *. specialize (B v).
      apply (f_equal (@bv_adj V)) in B. exact B.
    + now rewrite rf_call_mismatch by exact Hl.
  - unfold rf_derivative. destruct (rf_ctrls rf); [reflexivity|]. apply grad_off; [exact Hv|]. intros ->. auto.
  - unfold rf_hessian. apply hess_adj.
  - unfold solve_adjoint. rewrite adj_sweep_off by exact Hv. destruct is_control; [|now apply reset_adj_off].
    unfold upd. destruct (Nat.eqb_spec v J) as [->|]; [exfalso; auto|]. now apply reset_adj_off.
  - apply grad_off; [exact Hv|]. intros ->. auto.
  - rewrite (tlm_sweep_keeps F (@bv_adj V)) by reflexivity.
    assert (G : forall (l : list (nat * option V)) h0, keeps (@bv_adj V) h0 (fold_left (fun h' (vx : nat * option V) => upd h' (fst vx) (set_tlm (snd vx))) l h0)).
    { induction l as [|[u x] l IH]; intros h0; cbn; [apply keeps_refl|]. eapply keeps_trans; [|apply IH]. now apply keeps_upd. }
    apply G.
  - now apply adj_sweep_off.
  - now apply (hess_sweep_keeps F (@bv_adj V)).
  - unfold upd. destruct (Nat.eqb_spec v v0) as [->|]; [exfalso; auto|reflexivity].
  - now apply (keeps_upd (@bv_adj V)).
  - unfold reset_hess, reset_tlm. rewrite !(keeps_reset (@bv_adj V)) by reflexivity. now apply reset_adj_off.
Qed.

Lemma hist_adj_off : forall bs l h v, no_ctrl h -> ~ In v (vars_of bs) -> (forall a, In a l -> ~ In v (stores_adj a)) ->
  bv_adj (run_hist F bs h l v) = bv_adj (h v).
Proof.
  intros bs l. induction l as [|a l IH]; intros h v Nc Hv Hs; [reflexivity|].
  change (run_hist F bs h (a :: l)) with (run_hist F bs (fst (api_run F bs h a)) l).
  rewrite IH; [|now apply api_no_ctrl|exact Hv|intros; apply Hs; now right].
  apply api_adj_off; auto. apply Hs. now left.
Qed.

(** No control carries a stale adjoint value after such a history. *)
Lemma hist_fresh : forall bs J ctrls l h, no_ctrl h -> fresh_ctrls bs J ctrls h -> on_tape bs ctrls \/ seeds_on bs J l ->
  fresh_ctrls bs J ctrls (run_hist F bs h l).
Proof.
  intros bs J ctrls l h Nc Hf [Ho|Hs]; [now apply on_tape_fresh|].
  intros c Hc. destruct (in_dec Nat.eq_dec c (vars_of bs)) as [Hi|Hi]; [now left|].
  destruct (Nat.eq_dec c J) as [E|E]; [now right; left|]. right. right.
  destruct (Hf c Hc) as [K|[K|K]]; [contradiction|contradiction|].
  rewrite hist_adj_off; auto. intros a Ha Hst. destruct (Hs a c Ha Hst); contradiction.
Qed.

(** ** Repeatability with controls that need not be on the tape *)
Definition stays_fresh bs J ctrls h l := on_tape bs ctrls \/ fresh_ctrls bs J ctrls h /\ seeds_on bs J l.
Lemma stays_fresh_app : forall bs J ctrls h l1 l2, no_ctrl h -> stays_fresh bs J ctrls h (l1 ++ l2) ->
  fresh_ctrls bs J ctrls (run_hist F bs h l1) /\ fresh_ctrls bs J ctrls (run_hist F bs h l2).
Proof.
  intros bs J ctrls h l1 l2 Nc [Ho|[Hf Hs]]; [split; now apply on_tape_fresh|].
  split; apply hist_fresh; auto; right; intros a v Ha Hv; apply (Hs a v); auto; apply in_or_app; auto.
Qed.

Lemma derivative_repeat_fresh : forall bs rf a h l1 l2 g1 g2, topo bs -> no_ctrl h -> stays_fresh bs (rf_J rf) (rf_ctrls rf) h (l1 ++ l2) ->
  forallb (fun a => negb (is_call a)) l1 = true -> forallb (fun a => negb (is_call a)) l2 = true ->
  snd (rf_derivative F bs rf a (run_hist F bs h l1)) = Ok g1 ->
  snd (rf_derivative F bs rf a (run_hist F bs h l2)) = Ok g2 -> g1 = g2.
Proof.
  intros bs rf a h l1 l2 g1 g2 Ht Nc Ho C1 C2 G1 G2.
  destruct (stays_fresh_app _ _ _ _ _ _ Nc Ho) as [F1 F2].
  assert (Hne : rf_ctrls rf <> []) by (intros K; unfold rf_derivative in G1; rewrite K in G1; discriminate).
  rewrite derivative_grad in G1, G2 by exact Hne.
  eapply (grad_repeat F bs (rf_J rf) (rf_ctrls rf)); try exact G1; try exact G2; auto; try (now apply hist_frame).
  intros v. now rewrite !hist_saved.
Qed.

Lemma derivative_clean_fresh : forall bs rf a h l1 l2, topo bs -> no_ctrl h -> no_mark h -> stays_fresh bs (rf_J rf) (rf_ctrls rf) h (l1 ++ l2) ->
  forallb (fun a => negb (is_call a)) l1 = true -> forallb (fun a => negb (is_call a)) l2 = true ->
  all_ok F bs h l1 = true -> all_ok F bs h l2 = true ->
  snd (rf_derivative F bs rf a (run_hist F bs h l1)) = snd (rf_derivative F bs rf a (run_hist F bs h l2)).
Proof.
  intros bs rf a h l1 l2 Ht Nc Nm Ho C1 C2 A1 A2.
  destruct (stays_fresh_app _ _ _ _ _ _ Nc Ho) as [F1 F2].
  unfold rf_derivative. destruct (rf_ctrls rf) as [|c cs] eqn:Ec; [reflexivity|]. rewrite <- Ec in *.
  apply grad_same_marks; try (now apply hist_frame).
  - intros v. now rewrite !hist_saved.
  - intros v. now rewrite !(hist_clean F bs _ h Nc Nm).
  - intros c' Hc. destruct (F1 c' Hc) as [K|[K|K]]; auto. destruct (F2 c' Hc) as [K2|[K2|K2]]; auto. right. right. congruence.
Qed.

Lemma derivative_monotone_fresh : forall bs rf a h l1 l2 g, topo bs -> no_ctrl h -> no_mark h -> stays_fresh bs (rf_J rf) (rf_ctrls rf) h (l1 ++ l2) ->
  forallb (fun a => negb (is_call a)) l1 = true -> forallb (fun a => negb (is_call a)) l2 = true ->
  all_ok F bs h l2 = true ->
  snd (rf_derivative F bs rf a (run_hist F bs h l1)) = Ok g -> snd (rf_derivative F bs rf a (run_hist F bs h l2)) = Ok g.
Proof.
  intros bs rf a h l1 l2 g Ht Nc Nm Ho C1 C2 A2 G.
  destruct (stays_fresh_app _ _ _ _ _ _ Nc Ho) as [F1 F2].
  assert (Hne : rf_ctrls rf <> []) by (intros K; unfold rf_derivative in G; rewrite K in G; discriminate).
  rewrite derivative_grad in * by exact Hne.
  eapply (grad_clean_ok F bs (rf_J rf) (rf_ctrls rf)); try exact G; auto; try (now apply hist_frame).
  - intros v. now rewrite !hist_saved.
  - now apply hist_clean.
Qed.

Lemma recorded_fresh : forall ann p j J ctrls l, consistent p -> disciplined ann p = true ->
  j < length (w_objs (exec F (world_new F ann) p)) ->
  let w := fst (recorded F ann p j) in
  let bs := t_flat (w_tape w) in
  on_tape bs ctrls \/ seeds_on bs J l ->
  fresh_ctrls bs J ctrls (run_hist F bs (w_heap w) l).
Proof.
  intros ann p j J ctrls l Hc Hd Hj w bs Hs. destruct (recorded_clean F ann p j Hc Hd Hj) as [_ [_ [Nc [_ Z]]]]. fold w in Nc, Z.
  apply hist_fresh; auto. intros c _. right. right. apply Z.
Qed.

Lemma evaluated_fresh : forall ann p j J ctrls l1 rf m l2, consistent p -> disciplined ann p = true ->
  j < length (w_objs (exec F (world_new F ann) p)) ->
  let w := fst (recorded F ann p j) in
  let bs := t_flat (w_tape w) in
  on_tape bs ctrls \/ seeds_on bs J (l1 ++ l2) ->
  fresh_ctrls bs J ctrls (run_hist F bs (fst (rf_call F bs rf m (run_hist F bs (w_heap w) l1))) l2).
Proof.
  intros ann p j J ctrls l1 rf m l2 Hc Hd Hj w bs Hs.
  replace (run_hist F bs (fst (rf_call F bs rf m (run_hist F bs (w_heap w) l1))) l2) with (run_hist F bs (w_heap w) (l1 ++ ACall rf m :: l2)).
  - apply recorded_fresh; auto. destruct Hs as [Hs|Hs]; [now left|right]. intros a v Ha Hv.
    apply in_app_or in Ha as [Ha|[<-|Ha]]; [|destruct Hv|]; apply (Hs a v); auto; apply in_or_app; auto.
  - unfold run_hist. rewrite fold_left_app. cbn [fold_left api_run]. destruct (rf_call F bs rf m _). reflexivity.
Qed.
End Fresh.
