(** Call histories on a recorded tape: what API calls do to stored values, flags and markings. *)
From Coq Require Import List Arith ZArith Lia Bool.
From Verif Require Import Base Model BaseFacts Graph.
Import ListNotations.

Section History.
Context {V : Type} (F : fops V).
Implicit Types (h : heap V) (bs : list (block V)).

(** ** Sweeps touch adjoint/tangent/Hessian values and marks only *)
Definition core (b : bvar V) : bvar V := set_adj None (set_tlm None (set_hess None (set_mark false b))).
Definition same_core h h' := forall v, core (h' v) = core (h v).

Lemma same_core_refl : forall h, same_core h h.
Proof. intros h v. reflexivity. Qed.
Lemma same_core_trans : forall h1 h2 h3, same_core h1 h2 -> same_core h2 h3 -> same_core h1 h3.
Proof. intros h1 h2 h3 A B v. rewrite B. apply A. Qed.
Lemma same_core_upd : forall h v f, (forall b, core (f b) = core b) -> same_core h (upd h v f).
Proof. intros h v f Hf u. unfold upd. destruct (Nat.eqb u v); auto. Qed.
Lemma same_core_upd_all : forall l h f, (forall b, core (f b) = core b) -> same_core h (upd_all h l f).
Proof. intros l h f Hf u. apply (upd_all_erase _ core). exact Hf. Qed.

Lemma core_add_adj : forall x (b : bvar V), core (add_adj F x b) = core b.
Proof. reflexivity. Qed.
Lemma core_add_tlm : forall x (b : bvar V), core (add_tlm F x b) = core b.
Proof. reflexivity. Qed.
Lemma core_add_hess : forall x (b : bvar V), core (add_hess F x b) = core b.
Proof. reflexivity. Qed.
Lemma core_set_mark : forall m (b : bvar V), core (set_mark m b) = core b.
Proof. reflexivity. Qed.
Lemma core_set_adj : forall x (b : bvar V), core (set_adj x b) = core b.
Proof. reflexivity. Qed.
Lemma core_set_tlm : forall x (b : bvar V), core (set_tlm x b) = core b.
Proof. reflexivity. Qed.
Lemma core_set_hess : forall x (b : bvar V), core (set_hess x b) = core b.
Proof. reflexivity. Qed.

Lemma same_core_iter : forall {A} (f : heap V -> A -> heap V * option exn) l h,
  (forall h x, same_core h (fst (f h x))) -> same_core h (fst (iter_o f l h)).
Proof.
  intros A f l h Hf. destruct (iter_o f l h) as [h' e] eqn:E. cbn.
  refine (iter_o_inv f (same_core h) l h h' e _ (same_core_refl h) E).
  intros s x s' e' _ Hs Hx. eapply same_core_trans; [exact Hs|]. specialize (Hf s x). now rewrite Hx in Hf.
Qed.

Lemma adj_block_core : forall m h b, same_core h (fst (adj_block F m h b)).
Proof.
  intros m h b. unfold adj_block. destruct (negb _); [apply same_core_refl|].
  apply same_core_iter. intros h' iv. destruct (comp_adj _ _ _ _ _) as [[x|]|]; cbn; try apply same_core_refl.
  apply same_core_upd. apply core_add_adj.
Qed.

Ltac core_step :=
  match goal with
  | |- same_core ?h (fst (?h, _)) => apply same_core_refl
  | |- same_core ?h ?h => apply same_core_refl
  | |- same_core ?h (upd ?h' _ _) => apply (same_core_trans h h'); [|apply same_core_upd; reflexivity]
  | |- same_core _ (fst (with_out _ _ _)) => unfold with_out
  | |- same_core _ (fst (with_term _ _ _ _)) => unfold with_term
  | |- same_core _ (fst (with_val _ _ _)) => unfold with_val
  | |- same_core _ (fst (andthen _ _)) => unfold andthen
  | |- context[match ?x with _ => _ end] => destruct x eqn:?
  | |- _ => progress cbn [fst]
  end.

Ltac heap_eqs :=
  repeat match goal with
  | H : (_, _) = (_, _) |- _ => inversion H; subst; clear H
  | H : context[match ?x with _ => _ end] |- _ => destruct x eqn:?; try discriminate
  end.

Lemma tlm_sub_core : forall h b, same_core h (fst (tlm_sub F h b)).
Proof. intros h b. unfold tlm_sub. repeat core_step. Qed.
Lemma tlm_div_core : forall h b, same_core h (fst (tlm_div F h b)).
Proof. intros h b. unfold tlm_div. unfold with_out, with_term, andthen, with_val. repeat core_step; heap_eqs; repeat core_step. Qed.
Lemma tlm_pow_core : forall h b, same_core h (fst (tlm_pow F h b)).
Proof. intros h b. unfold tlm_pow. unfold with_out, with_term, andthen, with_val. repeat core_step; heap_eqs; repeat core_step. Qed.
Lemma tlm_block_core : forall m h b, same_core h (fst (tlm_block F m h b)).
Proof.
  intros m h b. unfold tlm_block.
  assert (B : same_core h (fst (tlm_block_base F m h b))).
  { unfold tlm_block_base. destruct (negb _); [apply same_core_refl|].
    apply same_core_iter. intros h' iv. destruct (comp_tlm _ _ _ _ _) as [[x|]|]; cbn; try apply same_core_refl.
    apply same_core_upd. apply core_add_tlm. }
  destruct (b_kind b); auto using tlm_sub_core, tlm_div_core, tlm_pow_core.
Qed.

Lemma hess_sub_core : forall h b, same_core h (fst (hess_sub F h b)).
Proof. intros h b. unfold hess_sub. unfold with_out, with_term. repeat core_step. Qed.
Lemma hess_neg_core : forall h b, same_core h (fst (hess_neg F h b)).
Proof. intros h b. unfold hess_neg. unfold with_out, with_term. repeat core_step. Qed.
Lemma hess_div_core : forall h b, same_core h (fst (hess_div F h b)).
Proof. intros h b. unfold hess_div. unfold with_out, with_term, with_val, andthen. repeat core_step; heap_eqs; repeat core_step. Qed.
Lemma hess_pow_core : forall h b, same_core h (fst (hess_pow F h b)).
Proof. intros h b. unfold hess_pow. unfold with_out, with_term, with_val, andthen. repeat core_step; heap_eqs; repeat core_step. Qed.
Lemma hess_block_core : forall m h b, same_core h (fst (hess_block F m h b)).
Proof.
  intros m h b. unfold hess_block.
  assert (B : same_core h (fst (hess_block_base F m h b))).
  { unfold hess_block_base. destruct (negb _); [apply same_core_refl|].
    apply same_core_iter. intros h' iv. destruct (comp_hess _ _ _ _ _ _ _) as [[x|]|]; cbn; try apply same_core_refl.
    apply same_core_upd. apply core_add_hess. }
  destruct (b_kind b); auto using hess_sub_core, hess_div_core, hess_pow_core, hess_neg_core.
Qed.

Lemma evaluate_adj_core : forall bs n m h, same_core h (fst (evaluate_adj F bs n m h)).
Proof. intros. apply same_core_iter. intros. apply adj_block_core. Qed.
Lemma evaluate_tlm_core : forall bs m h, same_core h (fst (evaluate_tlm F bs m h)).
Proof. intros. apply same_core_iter. intros. apply tlm_block_core. Qed.
Lemma evaluate_hessian_core : forall bs m h, same_core h (fst (evaluate_hessian F bs m h)).
Proof. intros. apply same_core_iter. intros. apply hess_block_core. Qed.

Lemma reset_with_core : forall f bs h, (forall b, f (f b) = f b) -> (forall b : bvar V, core (f b) = core b) ->
  same_core h (reset_with f bs h).
Proof. intros f bs h H1 H2 v. rewrite reset_with_spec by exact H1. destruct (mem v _); auto. Qed.

Lemma marked_nodes_core : forall nodes h body, (forall h, same_core h (fst (body h))) ->
  same_core h (fst (with_marked_nodes nodes h body)).
Proof.
  intros nodes h body Hb. unfold with_marked_nodes.
  pose proof (same_core_upd_all nodes h (set_mark true) (core_set_mark true)) as A.
  specialize (Hb (upd_all h nodes (set_mark true))). destruct (body _) as [h2 [e|]]; cbn in *.
  - eapply same_core_trans; eauto.
  - eapply same_core_trans; [eapply same_core_trans; eauto|]. apply same_core_upd_all. apply core_set_mark.
Qed.

(** Control flags are cleared again, whatever the body does. *)
Definition no_ctrl h := forall v, bv_ctrl (h v) = false.
Lemma core_ctrl : forall b b' : bvar V, core b = core b' -> bv_ctrl b = bv_ctrl b'.
Proof. intros b b' H. unfold core in H. cbn in H. injection H. auto. Qed.
Lemma core_ckpt : forall b b' : bvar V, core b = core b' -> bv_ckpt b = bv_ckpt b' /\ bv_out b = bv_out b'.
Proof. intros b b' H. unfold core in H. cbn in H. injection H. auto. Qed.
Lemma core_saved : forall h h' v, core (h' v) = core (h v) -> saved h' v = saved h v.
Proof. intros h h' v H. destruct (core_ckpt _ _ H) as [A B]. unfold saved. now rewrite A, B. Qed.

Lemma set_ctrl_idem : forall c (b : bvar V), set_ctrl c (set_ctrl c b) = set_ctrl c b.
Proof. reflexivity. Qed.
Lemma set_ctrl_same : forall b : bvar V, bv_ctrl b = false -> set_ctrl false b = b.
Proof. intros b H. destruct b. cbn in *. now subst. Qed.

(** A body that keeps flags: afterwards variables are as the body left them, without flags. *)
Lemma marked_controls_spec : forall ctrls h body,
  no_ctrl h ->
  (forall v, bv_ctrl (fst (body (upd_all h ctrls (set_ctrl true))) v) = mem v ctrls) ->
  let h1 := upd_all h ctrls (set_ctrl true) in
  snd (with_marked_controls ctrls h body) = snd (body h1) /\
  (forall v, fst (with_marked_controls ctrls h body) v = set_ctrl false (fst (body h1) v)).
Proof.
  intros ctrls h body Hn Hb h1. unfold with_marked_controls. fold h1. fold h1 in Hb.
  destruct (body h1) as [h2 e]. cbn [fst snd] in *. split; [reflexivity|].
  intros v. rewrite upd_all_spec by reflexivity.
  specialize (Hb v). destruct (mem v ctrls); [reflexivity|]. now rewrite set_ctrl_same.
Qed.
Lemma ctrl_flag : forall ctrls h v, no_ctrl h -> bv_ctrl (upd_all h ctrls (set_ctrl true) v) = mem v ctrls.
Proof.
  intros ctrls h v Hn. rewrite upd_all_spec by reflexivity. destruct (mem v ctrls); [reflexivity|apply Hn].
Qed.

Lemma marked_controls_core : forall ctrls h body, no_ctrl h -> (forall h, same_core h (fst (body h))) ->
  same_core h (fst (with_marked_controls ctrls h body)).
Proof.
  intros ctrls h body Hn Hb.
  destruct (marked_controls_spec ctrls h body Hn) as [_ S].
  { intros v. rewrite (core_ctrl _ _ (Hb _ v)). now apply ctrl_flag. }
  intros v. rewrite S. specialize (Hb (upd_all h ctrls (set_ctrl true)) v).
  transitivity (set_ctrl false (core (fst (body (upd_all h ctrls (set_ctrl true))) v))); [reflexivity|].
  rewrite Hb. rewrite upd_all_spec by reflexivity. pose proof (Hn v) as Hv.
  destruct (mem v ctrls); destruct (h v) eqn:E; cbn in *; now subst.
Qed.

(** ** API calls on a tape *)
(** A call on a recorded tape without checkpointing.  [ATlm]: the user sets tangent values of some
    variables and calls tape.evaluate_tlm(); [ASetAdj]: assigns adj_value of a variable;
    [AReset]: tape.reset_variables/reset_tlm_values/reset_hessian_values. *)
Inductive api : Type :=
| ACall (rf : rfun V) (vals : list V)
| ADeriv (rf : rfun V) (adj_input : V)
| AHess (rf : rfun V) (m_dot : list V)
| ASolve (J : nat) (is_control : bool) (adj_value : V)
| AGrad (J : nat) (ctrls : list nat) (adj_value : V)
| ATlm (seeds : list (nat * option V)) (markings : bool)
| AAdj (last_block : nat) (markings : bool)
| AHessian (markings : bool)
| ASetAdj (v : nat) (x : option V)
| ASetHess (v : nat) (x : option V)
| AReset.

Definition api_run bs h (a : api) : heap V * res (list V) :=
  let of_o (r : heap V * option exn) := (fst r, match snd r with None => Ok [] | Some e => Err e end) in
  match a with
  | ACall rf vals => let '(h', r) := rf_call F bs rf vals h in (h', rmap (fun x => [x]) r)
  | ADeriv rf a => rf_derivative F bs rf a h
  | AHess rf d => rf_hessian F bs rf d h
  | ASolve J c a => of_o (solve_adjoint F bs J c a h)
  | AGrad J cs a => compute_gradient F bs J cs a h
  | ATlm seeds m => of_o (evaluate_tlm F bs m (fold_left (fun h' vx => upd h' (fst vx) (set_tlm (snd vx))) seeds h))
  | AAdj n m => of_o (evaluate_adj F bs n m h)
  | AHessian m => of_o (evaluate_hessian F bs m h)
  | ASetAdj v x => (upd h v (set_adj x), Ok [])
  | ASetHess v x => (upd h v (set_hess x), Ok [])
  | AReset => (reset_hess bs (reset_tlm bs (reset_adj bs h)), Ok [])
  end.
Definition run_hist bs h (l : list api) : heap V := fold_left (fun h' a => fst (api_run bs h' a)) l h.

Definition is_call (a : api) : bool := match a with ACall _ _ => true | _ => false end.

Lemma grad_core : forall bs J ctrls a h, no_ctrl h -> same_core h (fst (compute_gradient F bs J ctrls a h)).
Proof.
  intros bs J ctrls a h Hn. unfold compute_gradient.
  set (h1 := reset_adj bs h). set (h2 := upd h1 J (set_adj (Some a))).
  assert (C2 : same_core h h2).
  { eapply same_core_trans; [apply (reset_with_core (set_adj None) bs h); reflexivity|]. apply same_core_upd. reflexivity. }
  assert (Hn2 : forall h', same_core h2 h' -> no_ctrl h').
  { intros h' Hs v. rewrite (core_ctrl _ _ (Hs v)), (core_ctrl _ _ (C2 v)). apply Hn. }
  assert (B : same_core h2 (fst (with_marked_nodes (find_relevant bs ctrls) h2 (fun h' => with_marked_controls ctrls h' (evaluate_adj F bs 0 true))))).
  { unfold with_marked_nodes.
    pose proof (same_core_upd_all (find_relevant bs ctrls) h2 (set_mark true) (core_set_mark true)) as A.
    pose proof (marked_controls_core ctrls _ (evaluate_adj F bs 0 true) (Hn2 _ A) (evaluate_adj_core bs 0 true)) as M.
    destruct (with_marked_controls ctrls _ _) as [h3 [e|]]; cbn [fst] in *.
    - eapply same_core_trans; eauto.
    - eapply same_core_trans; [eapply same_core_trans; eauto|]. apply same_core_upd_all. reflexivity. }
  destruct (with_marked_nodes _ h2 _) as [h3 [e|]]; cbn [fst] in *; eapply same_core_trans; eauto.
Qed.

Lemma set_dots_core : forall dots ctrls h, same_core h (fst (set_dots h ctrls dots)).
Proof.
  induction dots as [|d r IH]; intros [|c cs] h; cbn [set_dots]; try apply same_core_refl.
  eapply same_core_trans; [|apply IH]. apply same_core_upd. reflexivity.
Qed.

Lemma hess_core : forall bs J ctrls d h, same_core h (fst (compute_hessian F bs J ctrls d h)).
Proof.
  intros bs J ctrls d h. unfold compute_hessian.
  set (h1 := reset_hess bs (reset_tlm bs h)).
  assert (C1 : same_core h h1).
  { eapply same_core_trans; [apply (reset_with_core (set_tlm None) bs h); reflexivity|].
    apply (reset_with_core (set_hess None)); reflexivity. }
  match goal with |- context[andthen ?x ?y] => assert (C : same_core h1 (fst (andthen x y))) end.
  { pose proof (set_dots_core d ctrls h1) as A. destruct (set_dots h1 ctrls d) as [h2 [e|]]; cbn [andthen fst] in *; [exact A|].
    pose proof (marked_nodes_core (find_relevant bs ctrls) h2 (evaluate_tlm F bs true) (evaluate_tlm_core bs true)) as B.
    destruct (with_marked_nodes _ h2 _) as [h3 [e|]]; cbn [andthen fst] in *; [eapply same_core_trans; eauto|].
    eapply same_core_trans; [eapply same_core_trans; eauto|].
    eapply same_core_trans; [apply (same_core_upd h3 J (set_hess (Some (f_zero F)))); reflexivity|].
    apply marked_nodes_core. apply evaluate_hessian_core. }
  destruct (andthen _ _) as [h5 [e|]]; cbn [fst] in *; eapply same_core_trans; eauto.
Qed.

(** Every call except an evaluation leaves stored values, flags, ... alone. *)
Lemma api_core : forall bs h a, no_ctrl h -> is_call a = false -> same_core h (fst (api_run bs h a)).
Proof.
  intros bs h a Hn Ha. destruct a; try discriminate; cbn [api_run fst].
  - unfold rf_derivative. destruct (rf_ctrls rf); [apply same_core_refl|]. now apply grad_core.
  - apply hess_core.
  - unfold solve_adjoint. eapply same_core_trans; [|apply evaluate_adj_core].
    destruct is_control; [eapply same_core_trans; [|apply same_core_upd; reflexivity]|]; apply (reset_with_core (set_adj None)); reflexivity.
  - now apply grad_core.
  - eapply same_core_trans; [|apply evaluate_tlm_core].
    assert (G : forall l h0, same_core h h0 -> same_core h (fold_left (fun h' (vx : nat * option V) => upd h' (fst vx) (set_tlm (snd vx))) l h0)).
    { induction l as [|[v x] l IH]; intros h0 H; cbn; [exact H|]. apply IH. eapply same_core_trans; [exact H|]. apply same_core_upd. reflexivity. }
    apply G. apply same_core_refl.
  - apply evaluate_adj_core.
  - apply evaluate_hessian_core.
  - apply same_core_upd. reflexivity.
  - apply same_core_upd. reflexivity.
  - eapply same_core_trans; [apply (reset_with_core (set_adj None)); reflexivity|].
    eapply same_core_trans; [apply (reset_with_core (set_tlm None)); reflexivity|].
    apply (reset_with_core (set_hess None)); reflexivity.
Qed.

(** ** Evaluation *)
(** The value supplied for variable [v]; the last one wins. *)
Fixpoint supplied (ctrls : list nat) (vals : list V) (v : nat) : option V :=
  match ctrls, vals with
  | c :: cs, x :: xs => match supplied cs xs v with
                        | Some y => Some y
                        | None => if Nat.eqb v c then Some x else None
                        end
  | _, _ => None
  end.

Lemma supplied_some : forall ctrls vals v, length vals = length ctrls -> is_some (supplied ctrls vals v) = mem v ctrls.
Proof.
  induction ctrls as [|c cs IH]; intros [|x xs] v Hl; try discriminate; cbn [supplied]; [reflexivity|].
  change (mem v (c :: cs)) with (Nat.eqb v c || mem v cs). rewrite <- (IH xs v) by (cbn in Hl; lia).
  destruct (supplied cs xs v); cbn; [now rewrite orb_true_r|]. destruct (Nat.eqb v c); reflexivity.
Qed.

Lemma update_controls_spec : forall ctrls vals h v, no_ctrl h ->
  update_controls h ctrls vals v = match supplied ctrls vals v with Some x => set_ckpt (Some x) false (h v) | None => h v end.
Proof.
  induction ctrls as [|c cs IH]; intros [|x xs] h v Hn; cbn [update_controls supplied]; try reflexivity.
  assert (Hn' : no_ctrl (upd h c (put_ckpt (Some x) false))).
  { intros u. unfold upd, put_ckpt. destruct (Nat.eqb u c); [|apply Hn]. rewrite (Hn u). cbn. apply Hn. }
  rewrite IH by exact Hn'. unfold upd, put_ckpt.
  destruct (supplied cs xs v) as [y|]; destruct (Nat.eqb v c); rewrite ?(Hn v); reflexivity.
Qed.

Definition start_env h ctrls vals : nat -> V :=
  fun v => match supplied ctrls vals v with Some x => x | None => saved h v end.

Lemma set_ckpt_saved : forall h h' v x r, h' v = set_ckpt (Some x) r (h v) -> saved h' v = x.
Proof. intros h h' v x r H. unfold saved. now rewrite H. Qed.

Lemma rf_call_spec : forall bs rf vals h, no_ctrl h -> length vals = length (rf_ctrls rf) ->
  let g := geval F (fun v => mem v (rf_ctrls rf)) bs (start_env h (rf_ctrls rf) vals) in
  snd (rf_call F bs rf vals h) = match snd g with Some e => Err e | None => Ok (f_mul F (fst g (rf_J rf)) (rf_scale rf)) end /\
  (forall v, saved (fst (rf_call F bs rf vals h)) v = fst g v) /\
  (forall v, erase_ckpt (fst (rf_call F bs rf vals h) v) = erase_ckpt (h v)).
Proof.
  intros bs rf vals h Hn Hl g. unfold rf_call. rewrite Hl, Nat.eqb_refl. cbn [negb].
  set (h1 := update_controls h (rf_ctrls rf) vals).
  assert (H1 : forall v, h1 v = match supplied (rf_ctrls rf) vals v with Some x => set_ckpt (Some x) false (h v) | None => h v end).
  { intros v. apply update_controls_spec. exact Hn. }
  assert (Hn1 : no_ctrl h1).
  { intros v. rewrite H1. destruct (supplied _ _ v); apply Hn. }
  set (h1c := upd_all h1 (rf_ctrls rf) (set_ctrl true)).
  assert (Hc : forall v, bv_ctrl (h1c v) = mem v (rf_ctrls rf)) by (intros v; now apply ctrl_flag).
  assert (Hs : forall v, saved h1c v = start_env h (rf_ctrls rf) vals v).
  { intros v. unfold start_env, saved, h1c. rewrite upd_all_spec by reflexivity.
    destruct (mem v (rf_ctrls rf)); cbn; rewrite H1; destruct (supplied _ _ v); reflexivity. }
  destruct (recompute_all_geval F bs h1c _ _ Hc Hs) as [R1 R2].
  fold g in R1, R2.
  assert (Er : forall v, erase_ckpt (fst (recompute_all F bs h1c) v) = erase_ckpt (h1c v)).
  { intros v. eapply recompute_all_erase. apply surjective_pairing. }
  destruct (marked_controls_spec (rf_ctrls rf) h1 (recompute_all F bs) Hn1) as [M1 M2].
  { intros v. exact (eq_trans (erase_ckpt_ctrl _ _ (Er v)) (Hc v)). }
  fold h1c in M1, M2. destruct (with_marked_controls (rf_ctrls rf) h1 (recompute_all F bs)) as [h2 e]. cbn [fst snd] in M1, M2.
  assert (Sv : forall v, saved h2 v = fst g v).
  { intros v. rewrite <- R2. unfold saved. now rewrite M2. }
  assert (Ev : forall v, erase_ckpt (h2 v) = erase_ckpt (h v)).
  { intros v. rewrite M2. transitivity (set_ctrl false (erase_ckpt (fst (recompute_all F bs h1c) v))); [reflexivity|].
    rewrite Er. unfold h1c. rewrite upd_all_spec by reflexivity.
    assert (E1 : erase_ckpt (h1 v) = erase_ckpt (h v)) by (rewrite H1; destruct (supplied _ _ v); reflexivity).
    transitivity (set_ctrl false (erase_ckpt (h1 v))); [destruct (mem v _); reflexivity|].
    rewrite E1. unfold erase_ckpt, set_ctrl, set_ckpt. cbn. now rewrite (Hn v). }
  assert (Ee : e = snd g) by exact (eq_trans M1 R1). rewrite Ee. clear Ee M1 R1.
  destruct (snd g) as [x|]; cbn [fst snd]; split; auto. now rewrite Sv.
Qed.

Lemma rf_call_mismatch : forall bs rf vals h, length vals <> length (rf_ctrls rf) -> rf_call F bs rf vals h = (h, Err EValue).
Proof. intros bs rf vals h H. unfold rf_call. destruct (Nat.eqb_spec (length vals) (length (rf_ctrls rf))); [contradiction|reflexivity]. Qed.

(** ** Invariants over histories *)
(** Everything but stored forward values and the three sweep fields. *)
Definition frame (b : bvar V) := (bv_obj b, bv_gen b, bv_rec b, bv_out b, bv_ctrl b, bv_created b, bv_last b).

Lemma core_frame : forall b b', core b = core b' -> frame b = frame b'.
Proof. intros b b' H. unfold core in H. cbn in H. unfold frame. injection H. intros. subst. congruence. Qed.
Lemma erase_frame : forall b b' : bvar V, erase_ckpt b = erase_ckpt b' -> frame b = frame b'.
Proof. intros b b' H. unfold erase_ckpt, set_ckpt in H. unfold frame. injection H. intros. congruence. Qed.
Lemma frame_ctrl : forall b b', frame b = frame b' -> bv_ctrl b = bv_ctrl b'.
Proof. intros b b' H. unfold frame in H. congruence. Qed.

Lemma api_frame : forall bs h a, no_ctrl h -> forall v, frame (fst (api_run bs h a) v) = frame (h v).
Proof.
  intros bs h a Hn v. destruct (is_call a) eqn:E.
  - destruct a; try discriminate. cbn [api_run].
    destruct (Nat.eq_dec (length vals) (length (rf_ctrls rf))) as [Hl|Hl].
    + destruct (rf_call_spec bs rf vals h Hn Hl) as [_ [_ B]]. specialize (B v).
      destruct (rf_call F bs rf vals h) as [h' r]. cbn [fst] in *. now apply erase_frame.
    + rewrite rf_call_mismatch by exact Hl. reflexivity.
  - apply core_frame. now apply api_core.
Qed.

Lemma api_no_ctrl : forall bs h a, no_ctrl h -> no_ctrl (fst (api_run bs h a)).
Proof. intros bs h a Hn v. rewrite (frame_ctrl _ _ (api_frame bs h a Hn v)). apply Hn. Qed.

Lemma hist_frame : forall bs l h, no_ctrl h ->
  no_ctrl (run_hist bs h l) /\ forall v, frame (run_hist bs h l v) = frame (h v).
Proof.
  intros bs l. induction l as [|a l IH]; intros h Hn; [split; auto|].
  unfold run_hist. cbn [fold_left]. fold (run_hist bs (fst (api_run bs h a)) l).
  destruct (IH _ (api_no_ctrl bs h a Hn)) as [A B]. split; [exact A|].
  intros v. rewrite B. now apply api_frame.
Qed.

(** The most recent value supplied for a variable. *)
Definition supply1 (a : api) (v : nat) : option V :=
  match a with
  | ACall rf vals => if Nat.eqb (length vals) (length (rf_ctrls rf)) then supplied (rf_ctrls rf) vals v else None
  | _ => None
  end.
Definition latest (l : list api) (v : nat) : option V :=
  fold_left (fun acc a => match supply1 a v with Some x => Some x | None => acc end) l None.

Lemma api_leaf : forall bs h a v, no_ctrl h -> ~ In v (outs_of bs) ->
  saved (fst (api_run bs h a)) v = match supply1 a v with Some x => x | None => saved h v end.
Proof.
  intros bs h a v Hn Hv. destruct (is_call a) eqn:E.
  - destruct a; try discriminate. cbn [api_run supply1].
    destruct (Nat.eqb_spec (length vals) (length (rf_ctrls rf))) as [Hl|Hl].
    + destruct (rf_call_spec bs rf vals h Hn Hl) as [_ [B _]]. specialize (B v).
      destruct (rf_call F bs rf vals h) as [h' r]. cbn [fst] in *. rewrite B.
      rewrite geval_frame; [reflexivity|]. intros K. apply Hv. eapply computed_outs; eauto.
    + rewrite rf_call_mismatch by exact Hl. reflexivity.
  - rewrite (core_saved h) by now apply api_core. destruct a; try discriminate; reflexivity.
Qed.

Lemma latest_acc : forall l v (acc : option V),
  fold_left (fun acc a => match supply1 a v with Some x => Some x | None => acc end) l acc =
  match latest l v with Some x => Some x | None => acc end.
Proof.
  unfold latest. induction l as [|a l IH]; intros v acc; [reflexivity|]. cbn [fold_left].
  rewrite IH. symmetry. rewrite IH.
  destruct (fold_left _ l None); [reflexivity|]. destruct (supply1 a v); reflexivity.
Qed.
Lemma latest_cons : forall a l v,
  latest (a :: l) v = match latest l v with Some x => Some x | None => supply1 a v end.
Proof.
  intros a l v. transitivity (fold_left (fun acc a => match supply1 a v with Some x => Some x | None => acc end) l (supply1 a v)).
  - unfold latest. cbn [fold_left]. now destruct (supply1 a v).
  - apply latest_acc.
Qed.

Lemma hist_leaf : forall bs l h v, no_ctrl h -> ~ In v (outs_of bs) ->
  saved (run_hist bs h l) v = match latest l v with Some x => x | None => saved h v end.
Proof.
  intros bs l. induction l as [|a l IH]; intros h v Hn Hv; [reflexivity|].
  change (run_hist bs h (a :: l)) with (run_hist bs (fst (api_run bs h a)) l).
  rewrite (IH _ v (api_no_ctrl bs h a Hn) Hv), latest_cons, (api_leaf bs h a v Hn Hv).
  destruct (latest l v); reflexivity.
Qed.

(** ** What an evaluation depends on *)
(** Every block with a controlled output has only controlled outputs. *)
Definition closed (ctrls : list nat) bs : Prop :=
  forall b o, In b bs -> In o (b_outs b) -> In o ctrls -> forall o', In o' (b_outs b) -> In o' ctrls.

Lemma not_computed : forall ctrls bs v, closed ctrls bs ->
  ~ In v (computed (fun u => mem u ctrls) bs) -> ~ In v (outs_of bs) \/ In v ctrls.
Proof.
  intros ctrls bs v Hc Hn. destruct (in_dec Nat.eq_dec v (outs_of bs)) as [Ho|Ho]; [right|now left].
  unfold outs_of in Ho. apply in_flat_map in Ho as [b [Hb Hv]].
  destruct (existsb (fun u => mem u ctrls) (b_outs b)) eqn:E.
  - apply existsb_exists in E as [o [Ho Hm]]. apply mem_In in Hm. eapply Hc; eauto.
  - exfalso. apply Hn. unfold computed. apply in_flat_map. exists b. split; [exact Hb|]. now rewrite E.
Qed.

Lemma rf_call_leaves : forall bs rf vals h1 h2,
  topo bs -> (forall b, In b bs -> gives_value F b) -> closed (rf_ctrls rf) bs ->
  no_ctrl h1 -> no_ctrl h2 ->
  (forall v, ~ In v (outs_of bs) -> ~ In v (rf_ctrls rf) -> saved h1 v = saved h2 v) ->
  snd (rf_call F bs rf vals h1) = snd (rf_call F bs rf vals h2).
Proof.
  intros bs rf vals h1 h2 Ht Hg Hcl N1 N2 Hs.
  destruct (Nat.eq_dec (length vals) (length (rf_ctrls rf))) as [Hl|Hl].
  2:{ now rewrite !rf_call_mismatch. }
  destruct (rf_call_spec bs rf vals h1 N1 Hl) as [A1 _]. destruct (rf_call_spec bs rf vals h2 N2 Hl) as [A2 _].
  rewrite A1, A2.
  destruct (geval_local F (fun v => mem v (rf_ctrls rf)) bs (start_env h1 (rf_ctrls rf) vals) (start_env h2 (rf_ctrls rf) vals) Ht Hg) as [B1 B2].
  { intros v Hv. unfold start_env. pose proof (supplied_some (rf_ctrls rf) vals v Hl) as S.
    destruct (supplied (rf_ctrls rf) vals v); [reflexivity|]. cbn in S. symmetry in S. apply mem_false in S.
    destruct (not_computed (rf_ctrls rf) bs v Hcl Hv) as [K|K]; [auto|contradiction]. }
  rewrite <- B1. destruct (snd (geval F _ bs (start_env h1 _ _))) eqn:E; [reflexivity|]. now rewrite B2.
Qed.

(** Two histories that supplied the same most recent values for the leaves are equivalent. *)
Lemma rf_call_history : forall bs rf vals h l1 l2,
  topo bs -> (forall b, In b bs -> gives_value F b) -> closed (rf_ctrls rf) bs -> no_ctrl h ->
  (forall v, ~ In v (outs_of bs) -> ~ In v (rf_ctrls rf) -> latest l1 v = latest l2 v) ->
  snd (rf_call F bs rf vals (run_hist bs h l1)) = snd (rf_call F bs rf vals (run_hist bs h l2)).
Proof.
  intros bs rf vals h l1 l2 Ht Hg Hcl Hn He.
  apply rf_call_leaves; auto; try (now apply hist_frame).
  intros v Hv Hc. rewrite !hist_leaf by assumption. now rewrite He.
Qed.

(** Evaluation reads stored values only. *)
Lemma rf_call_same_saved : forall bs rf vals h1 h2, no_ctrl h1 -> no_ctrl h2 ->
  (forall v, saved h1 v = saved h2 v) ->
  snd (rf_call F bs rf vals h1) = snd (rf_call F bs rf vals h2) /\
  (forall v, saved (fst (rf_call F bs rf vals h1)) v = saved (fst (rf_call F bs rf vals h2)) v).
Proof.
  intros bs rf vals h1 h2 N1 N2 Hs.
  destruct (Nat.eq_dec (length vals) (length (rf_ctrls rf))) as [Hl|Hl].
  2:{ rewrite !rf_call_mismatch by exact Hl. auto. }
  destruct (rf_call_spec bs rf vals h1 N1 Hl) as [A1 [B1 _]]. destruct (rf_call_spec bs rf vals h2 N2 Hl) as [A2 [B2 _]].
  destruct (geval_ext F (fun v => mem v (rf_ctrls rf)) (fun v => mem v (rf_ctrls rf)) bs
     (start_env h1 (rf_ctrls rf) vals) (start_env h2 (rf_ctrls rf) vals)) as [C1 C2]; [reflexivity| |].
  { intros v. unfold start_env. destruct (supplied _ _ v); auto. }
  split.
  - rewrite A1, A2, C1. destruct (snd (geval F _ bs (start_env h2 _ _))); [reflexivity|]. now rewrite C2.
  - intros v. rewrite B1, B2. apply C2.
Qed.

(** Differentiating changes neither values nor later evaluations. *)
Lemma sweep_values : forall bs h a, no_ctrl h -> is_call a = false ->
  (forall v, saved (fst (api_run bs h a)) v = saved h v) /\
  (forall v, bv_ckpt (fst (api_run bs h a) v) = bv_ckpt (h v) /\ bv_out (fst (api_run bs h a) v) = bv_out (h v)) /\
  (forall rf vals, snd (rf_call F bs rf vals (fst (api_run bs h a))) = snd (rf_call F bs rf vals h)).
Proof.
  intros bs h a Hn Ha. pose proof (api_core bs h a Hn Ha) as C.
  split; [|split].
  - intros v. apply core_saved. apply C.
  - intros v. exact (core_ckpt _ _ (C v)).
  - intros rf vals. apply rf_call_same_saved; auto.
    + now apply api_no_ctrl.
    + intros v. apply core_saved. apply C.
Qed.

Lemma flags_never_leak : forall bs h l, (forall v, bv_ctrl (h v) = false) ->
  (forall v, bv_ctrl (run_hist bs h l v) = false) /\
  (forall v, ~ In v (outs_of bs) ->
     saved (run_hist bs h l) v = match latest l v with Some x => x | None => saved h v end).
Proof. intros bs h l Hn. split; [now apply hist_frame|]. intros. now apply hist_leaf. Qed.

End History.
Arguments api V : clear implicits.
