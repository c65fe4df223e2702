(** Evaluation through the checkpoint manager: what every action preserves, and the forward run against
    the plain one. *)
From Coq Require Import List Arith ZArith Lia Bool.
From Verif Require Import Base Model BaseFacts Graph Record Spec RecordFacts Replay ReplayExec History Session Ckpt SpecCkpt CkptProtocol CkptRecord CkptStep CkptInv CkptTape.
Import ListNotations.

Section Eval.
Context {V : Type} (F : fops V).
Implicit Types (h : heap V) (m : cman).

(** ** What stays the same after the recording *)
Definition tsk (s : tstep V) : list (block V) * list nat := (ts_blocks s, ts_state s).

Variable sc : schedule.
Variable n : nat.
Variable fwd : list action.
Variable sk : list (list (block V) * list nat).
Variable r : nat -> V.
(** Variables whose stored value, if there is one, is always the recorded one. *)
Variable Fz : nat -> Prop.

Record HInv (fl : nat -> bool) h : Prop := {
  hi_rec : forall v, bv_rec (h v) = r v;
  hi_out : forall v, bv_out (h v) = r v;
  hi_raw : forall v, bv_raw (h v) = false;
  hi_ctrl : forall v, bv_ctrl (h v) = fl v;
  hi_fz : forall v, Fz v -> bv_ckpt (h v) = None \/ bv_ckpt (h v) = Some (r v)
}.
Definition entry_fz (e : nat * option (V * bool)) : Prop :=
  snd e = None \/ exists x, snd e = Some (x, false) /\ (Fz (fst e) -> x = r (fst e)).
Definition DInv (l : list (tstep V)) : Prop := forall s e, In s l -> In e (ts_ckpt s) -> entry_fz e.
Record MFix m : Prop := {
  mf_sched : cm_sched m = sc;
  mf_total : cm_total m = Some n;
  mf_fwd : cm_fwd m = fwd;
  mf_max : cm_max m = Some n
}.
Record EInv (fl : nat -> bool) (s : cst V) : Prop := {
  ei_sk : map tsk (t_steps (c_tape s)) = sk;
  ei_flat : t_flat (c_tape s) = flat_map fst sk;
  ei_heap : HInv fl (c_heap s);
  ei_dict : DInv (t_steps (c_tape s));
  ei_man : MFix (c_man s)
}.

Lemma fz_saved : forall fl h v, HInv fl h -> Fz v -> saved h v = r v.
Proof. intros fl h v H Hv. unfold saved. destruct (hi_fz _ _ H v Hv) as [E|E]; rewrite E; [apply (hi_out _ _ H)|reflexivity]. Qed.

Lemma HInv_drop : forall fl h h', HInv fl h -> (forall v, h' v = h v \/ h' v = set_ckpt None false (h v)) -> HInv fl h'.
Proof.
  intros fl h h' [a b c d e] H. constructor; intros v; destruct (H v) as [E|E]; rewrite E; cbn; auto.
Qed.
Lemma HInv_core : forall fl h h', HInv fl h -> same_core h h' -> HInv fl h'.
Proof.
  intros fl h h' [a b c d e] H.
  assert (K : forall v, bv_rec (h' v) = bv_rec (h v) /\ bv_out (h' v) = bv_out (h v) /\ bv_raw (h' v) = bv_raw (h v) /\ bv_ctrl (h' v) = bv_ctrl (h v) /\ bv_ckpt (h' v) = bv_ckpt (h v)).
  { intros v. specialize (H v). unfold core, set_adj, set_tlm, set_hess, set_mark in H. injection H. intros. repeat split; assumption. }
  constructor; intros v; destruct (K v) as [K1 [K2 [K3 [K4 K5]]]]; rewrite ?K1, ?K2, ?K3, ?K4, ?K5; auto.
Qed.
Lemma put_ckpt_fields : forall x q (b : bvar V), bv_rec (put_ckpt x q b) = bv_rec b /\ bv_out (put_ckpt x q b) = bv_out b /\ bv_ctrl (put_ckpt x q b) = bv_ctrl b /\
  (bv_raw (put_ckpt x q b) = bv_raw b \/ bv_raw (put_ckpt x q b) = q) /\ (bv_ckpt (put_ckpt x q b) = bv_ckpt b \/ bv_ckpt (put_ckpt x q b) = x).
Proof. intros x q b. unfold put_ckpt. destruct (bv_ctrl b) eqn:E; cbn; auto 10. Qed.
Lemma HInv_put : forall fl h v x, HInv fl h -> (Fz v -> x = None \/ x = Some (r v)) -> HInv fl (upd h v (put_ckpt x false)).
Proof.
  intros fl h v x [a b c d e] H. constructor; intros u; unfold upd; destruct (Nat.eqb_spec u v) as [->|]; auto;
    destruct (put_ckpt_fields x false (h v)) as [K1 [K2 [K3 [K4 K5]]]]; rewrite ?K1, ?K2, ?K3; auto.
  - destruct K4 as [K4|K4]; rewrite K4; auto.
  - intros Hv. destruct K5 as [K5|K5]; rewrite K5; auto.
Qed.
Lemma HInv_restore : forall fl h (t : tstep V), HInv fl h -> (forall e, In e (ts_ckpt t) -> entry_fz e) -> HInv fl (ts_restore h t).
Proof.
  intros fl h t H Hd. unfold ts_restore. revert h H Hd. induction (ts_ckpt t) as [|[v x] l IH]; intros h H Hd; [exact H|]. cbn [fold_left fst snd].
  apply IH; [|intros e He; apply Hd; now right]. specialize (Hd (v, x) (or_introl eq_refl)). destruct Hd as [E|[y [E Hy]]]; cbn [fst snd] in *; subst x.
  - apply HInv_put; auto.
  - apply HInv_put; [exact H|]. intros Hv. right. now rewrite Hy.
Qed.

(** ** The blocks *)
Variable cut : nat -> bool.
Definition frozen (b : block V) : Prop :=
  existsb cut (b_outs b) = true \/ (forall o, In o (b_outs b) -> ~ Fz o) \/ ((forall d, In d (b_deps b) -> Fz d) /\ block_rec F r b).
Hypothesis Hraw : forall b, In b (flat_map fst sk) -> raw_result (b_kind b) = false.
Hypothesis Hfz : forall b, In b (flat_map fst sk) -> frozen b.

Lemma In_enum : forall {A} (l : list A) i x, In (i, x) (enum l) -> nth_error l i = Some x.
Proof.
  intros A l. unfold enum. assert (G : forall (l : list A) k i x, In (i, x) (enum_from k l) -> k <= i /\ nth_error l (i - k) = Some x).
  { induction l0 as [|y l0 IH]; intros k i x H; [destruct H|]. cbn in H. destruct H as [E|H]; [inversion E; subst; rewrite Nat.sub_diag; auto|].
    destruct (IH _ _ _ H) as [A1 A2]. split; [lia|]. replace (i - k) with (S (i - S k)) by lia. exact A2. }
  intros i x H. destruct (G l 0 i x H) as [_ K]. now rewrite Nat.sub_0_r in K.
Qed.

Lemma recompute_inv : forall h b h' e, In b (flat_map fst sk) -> HInv cut h -> recompute_block F h b = (h', e) -> HInv cut h'.
Proof.
  intros h b h' e Hb H E. unfold recompute_block in E.
  assert (Ec : existsb (fun o => bv_ctrl (h o)) (b_outs b) = existsb cut (b_outs b)).
  { clear - H. induction (b_outs b) as [|o l IH]; cbn; [reflexivity|]. now rewrite (hi_ctrl _ _ H), IH. }
  rewrite Ec in E. destruct (existsb cut (b_outs b)) eqn:Hc; [inversion E; now subst|].
  refine (iter_o_inv _ (HInv cut) _ _ _ _ _ H E). intros h1 [i o] h2 e2 Hi H1 E1. cbn [fst snd] in E1. rewrite (Hraw b Hb) in E1.
  destruct (comp_recompute F (b_kind b) (map (saved h) (b_deps b)) i) as [[x|]|] eqn:Ex; inversion E1; subst; auto.
  apply HInv_put; [exact H1|]. intros Ho. right. f_equal. apply In_enum in Hi.
  destruct (Hfz b Hb) as [K|[K|[K1 K2]]]; [congruence|exfalso; eapply K; eauto; eapply nth_error_In; eauto|].
  specialize (K2 i o Hi). replace (map r (b_deps b)) with (map (saved h) (b_deps b)) in K2 by (apply map_ext_in; intros d Hd; eapply fz_saved; eauto).
  congruence.
Qed.
Lemma recompute_list_inv : forall l h h' e, incl l (flat_map fst sk) -> HInv cut h -> iter_o (recompute_block F) l h = (h', e) -> HInv cut h'.
Proof.
  intros l h h' e Hl H E. refine (iter_o_inv _ (HInv cut) _ _ _ _ _ H E). intros h1 b h2 e2 Hi H1 E1. eapply recompute_inv; eauto.
Qed.

Lemma nth_sk : forall s fl k, EInv fl s -> nth_error sk k = option_map tsk (nth_error (t_steps (c_tape s)) k).
Proof. intros s fl k H. rewrite <- (ei_sk _ _ H). apply nth_error_map. Qed.
Lemma blocks_incl : forall s fl k t, EInv fl s -> nth_error (t_steps (c_tape s)) k = Some t -> incl (ts_blocks t) (flat_map fst sk).
Proof.
  intros s fl k t H E b Hb. pose proof (nth_sk s fl k H) as N. rewrite E in N. cbn in N. apply in_flat_map. exists (tsk t).
  split; [eapply nth_error_In; eauto|exact Hb].
Qed.

Lemma map_tsk_set : forall (l : list (tstep V)) i x y, nth_error l i = Some x -> tsk y = tsk x -> map tsk (list_set l i y) = map tsk l.
Proof.
  intros l. induction l as [|a l IH]; intros i x y E H; destruct i; cbn in *; try discriminate; [inversion E; subst; now rewrite H|].
  f_equal. eapply IH; eauto.
Qed.
Lemma DInv_set : forall l i y, DInv l -> (forall e, In e (ts_ckpt y) -> entry_fz e) -> DInv (list_set l i y).
Proof.
  intros l i y H Hy s e Hs He. apply In_nth_error in Hs as [j Hj]. rewrite nth_list_set in Hj. destruct (Nat.eqb_spec i j) as [Eq|].
  - destruct (nth_error l i); [inversion Hj; subst; auto|discriminate].
  - apply (H s e); [eapply nth_error_In; eauto|exact He].
Qed.

Lemma store_fz : forall fl h g st adj (t : tstep V), HInv fl h -> (forall e, In e (ts_ckpt t) -> entry_fz e) ->
  forall e, In e (ts_ckpt (after_store h g st adj t)) -> entry_fz e.
Proof.
  intros fl h g st adj t H Hd.
  assert (Ks : forall v x, x = keep_saved h v -> entry_fz (v, x)).
  { intros v x ->. right. exists (saved h v). split; [reflexivity|]. cbn. intros Hv. eapply fz_saved; eauto. }
  assert (Kg : forall v x, x = keep_state h g v -> entry_fz (v, x)).
  { intros v x ->. unfold keep_state. destruct (mem v g); [|now apply Ks]. destruct (bv_ckpt (h v)) as [y|] eqn:Ey; [right|now left].
    exists y. split; [reflexivity|]. cbn. intros Hv. destruct (hi_fz _ _ H v Hv) as [K|K]; congruence. }
  assert (D1 : forall e, In e (put_all (keep_state h g) (ts_state t) (ts_ckpt t)) -> entry_fz e).
  { intros [v x] He. apply put_all_In in He as [[A B]|A]; [now apply Kg|now apply Hd]. }
  assert (D2 : forall d, (forall e, In e d -> entry_fz e) -> forall e, In e (put_all (keep_saved h) (adj_set t) d) -> entry_fz e).
  { intros d Hdd [v x] He. apply put_all_In in He as [[A B]|A]; [now apply Ks|now apply Hdd]. }
  intros e He. cbn [after_store ts_ckpt] in He. destruct adj, st; [apply (D2 _ D1); exact He|apply (D2 _ Hd); exact He|now apply D1|now apply Hd].
Qed.

Definition stt (k : nat) : list nat := match nth_error sk k with Some x => snd x | None => [] end.
Definition bks (k : nat) : list (block V) := match nth_error sk k with Some x => fst x | None => [] end.

Hypothesis Hlen : length sk = n.

Lemma MFix_keep : forall m b, MFix m -> MFix (set_keep b m).
Proof. intros m b [? ? ? ?]. constructor; auto. Qed.

(** One step of a Forward action. *)
Lemma forward_full : forall n0 ics adj st func s k cur, EInv cut s -> k < n -> nth_error (t_steps (c_tape s)) k = Some cur ->
  let '(h1, e) := iter_o (recompute_block F) (bks k) (c_heap s) in
  let res := forward_step F n0 ics adj st func s k in
  EInv cut (fst res) /\ snd res = e /\
  (e = None -> (forall v, c_heap (fst res) v = h1 v \/
     (c_heap (fst res) v = set_ckpt None false (h1 v) /\ (In v (stt k) /\ ~ In v (cm_glob (c_man s)) \/ In v (outs_of (bks k))) /\ ~ In v (stt (S k)) /\ func <> Some v)) /\
     t_steps (c_tape (fst res)) = list_set (t_steps (c_tape s)) k (if is_work st then cur else after_store h1 (cm_glob (c_man s)) (ics && Nat.eqb k n0) adj cur)).
Proof.
  intros n0 ics adj st func s k cur H Hk Ec.
  pose proof (nth_sk s _ k H) as N. rewrite Ec in N. cbn in N. unfold bks, stt. rewrite N. cbn [fst snd tsk].
  destruct (iter_o (recompute_block F) (ts_blocks cur) (c_heap s)) as [h1 e] eqn:Eh. cbv zeta.
  pose proof (blocks_incl s _ k cur H Ec) as Hin. pose proof (recompute_list_inv _ _ _ _ Hin (ei_heap _ _ H) Eh) as H1.
  unfold forward_step. rewrite Ec, Eh. destruct e as [e|].
  { cbn [fst snd]. split; [|split; [reflexivity|discriminate]]. destruct H as [a b c d f]. constructor; auto. }
  assert (Hcur : forall e, In e (ts_ckpt cur) -> entry_fz e) by (intros e; apply (ei_dict _ _ H); eapply nth_error_In; eauto).
  set (cur1 := if is_work st then cur else after_store h1 (cm_glob (c_man s)) (ics && Nat.eqb k n0) adj cur).
  assert (Es : (if is_work st then (cur, None) else ts_checkpoint h1 (cm_glob (c_man s)) (ics && Nat.eqb k n0) adj cur) = (cur1, @None exn)).
  { unfold cur1. destruct (is_work st); [reflexivity|]. apply checkpoint_spec. apply (hi_raw _ _ H1). }
  rewrite Es. clear Es.
  assert (T1 : tsk cur1 = tsk cur) by (unfold cur1; destruct (is_work st); reflexivity).
  assert (D1 : forall e, In e (ts_ckpt cur1) -> entry_fz e) by (unfold cur1; destruct (is_work st); [exact Hcur|eapply store_fz; eauto]).
  rewrite (mf_total _ (ei_man _ _ H)).
  assert (Nx : exists nx, (if Nat.ltb k (n - 1) then nth_error (t_steps (c_tape s)) (S k) else Some ts_new) = Some nx /\
     ts_state nx = match nth_error sk (S k) with Some x => snd x | None => [] end).
  { destruct (Nat.ltb_spec k (n - 1)) as [L|L].
    - pose proof (nth_sk s _ (S k) H) as N'. destruct (nth_error (t_steps (c_tape s)) (S k)) as [nx|]; [|change (nth_error sk (S k) = None) in N'; apply nth_error_None in N'; lia].
      exists nx. rewrite N'. auto.
    - exists ts_new. split; [reflexivity|]. assert (K : nth_error sk (S k) = None) by (apply nth_error_None; lia). now rewrite K. }
  destruct Nx as [nx [-> Nst]]. rewrite <- Nst.
  set (keepl := ts_state nx ++ match func with Some J => [J] | None => [] end).
  match goal with |- context[clear_state ?a ?b ?c ?d ?e ?f ?g ?h] => destruct (clear_state a b c d e f g h) as [h3 keep] eqn:Ek end.
  cbn [fst snd on_heap on_man put_step on_tape_ c_heap c_tape c_man].
  set (kept := if adj && is_work st then ts_adjdeps cur1 ++ keepl else keepl).
  assert (Dr : forall v, fold_left drop (minus (flat_map (@b_outs V) (ts_blocks cur)) kept) h3 v = h1 v \/
     (fold_left drop (minus (flat_map (@b_outs V) (ts_blocks cur)) kept) h3 v = set_ckpt None false (h1 v) /\
      (In v (ts_state cur) /\ ~ In v (cm_glob (c_man s)) \/ In v (flat_map (@b_outs V) (ts_blocks cur))) /\ ~ In v keepl)).
  { intros v. rewrite drop_all. pose proof (clear_state_spec _ _ _ _ _ _ _ _ _ _ Ek v) as K.
    assert (Kv : h3 v = h1 v \/ (h3 v = set_ckpt None false (h1 v) /\ (In v (ts_state cur) /\ ~ In v (cm_glob (c_man s))) /\ ~ In v keepl)).
    { destruct K as [K|[K1 K2]]; [now left|right]. apply minus_In in K1 as [K1 K3]. split; [exact K2|]. split.
      - injection T1 as _ T2. rewrite <- T2. split; [exact K1|]. intros X. apply K3. apply in_or_app. now right.
      - intros X. apply K3. apply in_or_app. now left. }
    destruct (mem v (minus (flat_map (@b_outs V) (ts_blocks cur)) kept)) eqn:Em; [|destruct Kv as [Kv|[Kv [Kx Ky]]]; auto].
    apply mem_In in Em. apply minus_In in Em as [E1 E2].
    assert (Nk : ~ In v keepl) by (intros X; apply E2; unfold kept; destruct (adj && is_work st); [apply in_or_app; now right|exact X]).
    right. split; [destruct Kv as [->|[-> _]]; reflexivity|]. split; [now right|exact Nk]. }
  split; [|split; [reflexivity|]].
  - constructor; cbn [c_tape c_heap c_man set_steps t_steps t_flat].
    + rewrite <- (ei_sk _ _ H). eapply map_tsk_set; eauto.
    + apply (ei_flat _ _ H).
    + eapply HInv_drop; [exact H1|]. intros v. destruct (Dr v) as [K|[K _]]; auto.
    + apply DInv_set; [apply (ei_dict _ _ H)|exact D1].
    + apply MFix_keep. apply (ei_man _ _ H).
  - intros _. split; [|reflexivity]. intros v. destruct (Dr v) as [K|[K1 [K2 K3]]]; [now left|right]. split; [exact K1|]. split; [exact K2|].
    unfold keepl in K3. rewrite in_app_iff in K3. split; [tauto|]. intros ->. apply K3. right. now left.
Qed.

Lemma forward_spec : forall n0 ics adj st func s k, EInv cut s -> k < n ->
  let '(h1, e) := iter_o (recompute_block F) (bks k) (c_heap s) in
  let res := forward_step F n0 ics adj st func s k in
  EInv cut (fst res) /\ snd res = e /\
  (e = None -> forall v, c_heap (fst res) v = h1 v \/
     (c_heap (fst res) v = set_ckpt None false (h1 v) /\ (In v (stt k) \/ In v (outs_of (bks k))) /\ ~ In v (stt (S k)) /\ func <> Some v)).
Proof.
  intros n0 ics adj st func s k H Hk. pose proof (nth_sk s _ k H) as N. destruct (nth_error (t_steps (c_tape s)) k) as [cur|] eqn:Ec.
  2:{ cbn in N. apply nth_error_None in N. lia. }
  pose proof (forward_full n0 ics adj st func s k cur H Hk Ec) as K. destruct (iter_o (recompute_block F) (bks k) (c_heap s)) as [h1 e]. destruct K as [K1 [K2 K3]].
  split; [exact K1|]. split; [exact K2|]. intros E v. destruct (K3 E) as [K4 _]. destruct (K4 v) as [K|[A [B C]]]; [now left|right]. split; [exact A|]. split; [tauto|exact C].
Qed.

Lemma forward_inv : forall n0 ics adj st func s k, EInv cut s -> EInv cut (fst (forward_step F n0 ics adj st func s k)).
Proof.
  intros n0 ics adj st func s k H. destruct (Nat.lt_ge_cases k n) as [L|L].
  - pose proof (forward_spec n0 ics adj st func s k H L) as K. destruct (iter_o _ (bks k) _) as [h1 e]. apply K.
  - unfold forward_step. assert (E : nth_error (t_steps (c_tape s)) k = None).
    { apply nth_error_None. rewrite <- (map_length tsk), (ei_sk _ _ H). lia. }
    now rewrite E.
Qed.

Lemma EInv_heap : forall fl fl' s h, EInv fl s -> HInv fl' h -> EInv fl' (on_heap (fun _ => h) s).
Proof. intros fl fl' s h [a b c d e] H. constructor; auto. Qed.
Lemma EInv_man : forall fl s f, EInv fl s -> MFix (f (c_man s)) -> EInv fl (on_man f s).
Proof. intros fl s f [a b c d e] H. constructor; auto. Qed.
Lemma EInv_step : forall fl s k x y, EInv fl s -> nth_error (t_steps (c_tape s)) k = Some x -> tsk y = tsk x ->
  (forall e, In e (ts_ckpt y) -> entry_fz e) -> EInv fl (put_step k y s).
Proof.
  intros fl s k x y [a b c d e] E T D. constructor; auto; cbn.
  - rewrite <- a. eapply map_tsk_set; eauto.
  - now apply DInv_set.
Qed.
Lemma EInv_dict : forall fl s k x, EInv fl s -> nth_error (t_steps (c_tape s)) k = Some x -> forall e, In e (ts_ckpt x) -> entry_fz e.
Proof. intros fl s k x H E e He. apply (ei_dict _ _ H x e); [eapply nth_error_In; eauto|exact He]. Qed.

Lemma reverse_blocks : forall mk l hs hs' e, iter_o (reverse_block F mk) l hs = (hs', e) ->
  same_core (fst hs) (fst hs') /\ tsk (snd hs') = tsk (snd hs) /\ ts_ckpt (snd hs') = ts_ckpt (snd hs).
Proof.
  intros mk l hs hs' e E.
  refine (iter_o_inv _ (fun x => same_core (fst hs) (fst x) /\ tsk (snd x) = tsk (snd hs) /\ ts_ckpt (snd x) = ts_ckpt (snd hs)) _ _ _ _ _ _ E); [|split; [apply same_core_refl|auto]].
  intros [h1 s1] b [h2 s2] e2 _ [A [B C]] E1. cbn [fst snd] in *. unfold reverse_block in E1.
  pose proof (adj_block_core F mk h1 b) as K. destruct (adj_block F mk h1 b) as [h3 [x|]]; cbn [fst] in K.
  - inversion E1; subst. split; [eapply same_core_trans; eauto|auto].
  - destruct (ts_revised s1); inversion E1; subst; (split; [eapply same_core_trans; eauto|auto]).
Qed.

Lemma HInv_rout : forall clear keep fl h o, HInv fl h -> HInv fl (reverse_out clear keep h o).
Proof.
  intros clear keep fl h o H. unfold reverse_out.
  assert (A : HInv fl (upd h o (set_tlm None))) by (apply (HInv_core fl h); [exact H|apply same_core_upd; reflexivity]).
  set (h2 := if bv_ctrl (h o) then _ else _).
  assert (B : HInv fl h2).
  { unfold h2. destruct (bv_ctrl (h o)); [exact A|]. apply (HInv_core fl (upd h o (set_tlm None))); [exact A|].
    eapply same_core_trans; apply same_core_upd; reflexivity. }
  destruct (clear && negb (mem o keep)); [|exact B]. apply (HInv_drop fl h2); [exact B|]. intros v. unfold drop, upd. destruct (Nat.eqb v o); auto.
Qed.

Lemma reverse_inv : forall clear mk s k fl, EInv fl s -> EInv fl (fst (reverse_step F clear mk s k)).
Proof.
  intros clear mk s k fl H. unfold reverse_step. destruct (nth_error (t_steps (c_tape s)) k) as [cur|] eqn:E; [|exact H].
  destruct (iter_o _ _ (c_heap s, cur)) as [[h1 cur1] e] eqn:Ei. destruct (reverse_blocks _ _ _ _ _ Ei) as [A [B C]]. cbn [fst snd] in *.
  pose proof (HInv_core _ _ _ (ei_heap _ _ H) A) as H1.
  assert (D : forall y, ts_ckpt y = ts_ckpt cur -> forall e, In e (ts_ckpt y) -> entry_fz e) by (intros y -> e0; eapply EInv_dict; eauto).
  destruct e as [e|]; cbn [fst].
  - eapply EInv_step; [eapply EInv_heap; eauto|exact E|exact B|now apply D].
  - eapply EInv_step; [eapply EInv_heap; [exact H|]|exact E|exact B|now apply D].
    clear - H1. revert h1 H1. induction (flat_map (@b_outs V) (ts_blocks cur)) as [|o l IH]; intros h1 H1; cbn; [exact H1|]. apply IH. now apply HInv_rout.
Qed.

Lemma MFix_mode : forall m x, MFix m -> MFix (set_mode x m).
Proof. intros m x [? ? ? ?]. constructor; auto. Qed.
Lemma MFix_cur : forall m x, MFix m -> MFix (set_cur x m).
Proof. intros m x [? ? ? ?]. constructor; auto. Qed.
Lemma MFix_rev : forall m x, MFix m -> MFix (push_rev x m).
Proof. intros m x [? ? ? ?]. constructor; auto. Qed.

Lemma iter_inv : forall {A} (f : cst V -> A -> cst V * option exn) fl l s, (forall s x, EInv fl s -> EInv fl (fst (f s x))) ->
  EInv fl s -> EInv fl (fst (iter_o f l s)).
Proof.
  intros A f fl l s Hf H. destruct (iter_o f l s) as [s' e] eqn:E. refine (iter_o_inv f (EInv fl) l s s' e _ H E).
  intros s1 x s2 e2 _ H1 E1. specialize (Hf s1 x H1). now rewrite E1 in Hf.
Qed.

Lemma process_inv : forall func mk s a, EInv cut s -> EInv cut (fst (process_op F func mk s a)).
Proof.
  intros func mk s a H. destruct a; cbn [process_op].
  - apply iter_inv; [|exact H]. intros. now apply forward_inv.
  - apply iter_inv; [|exact H]. intros. now apply reverse_inv.
  - destruct (nth_error (t_steps (c_tape s)) n0) as [cur|] eqn:E; [|exact H]. cbn [fst].
    apply (EInv_heap cut cut s (ts_restore (c_heap s) cur) H). apply HInv_restore; [apply (ei_heap _ _ H)|eapply EInv_dict; eauto].
  - destruct (nth_error (t_steps (c_tape s)) n0) as [cur|] eqn:E; [|exact H]. cbn [fst].
    eapply EInv_step; [|exact E|reflexivity|intros e []].
    apply (EInv_heap cut cut s (ts_restore (c_heap s) cur) H). apply HInv_restore; [apply (ei_heap _ _ H)|eapply EInv_dict; eauto].
  - apply EInv_man; [exact H|]. apply MFix_mode. apply (ei_man _ _ H).
  - apply EInv_man; [exact H|]. apply MFix_mode. apply (ei_man _ _ H).
Qed.

Lemma recompute_pass_inv : forall func s, EInv cut s -> cm_mode (c_man s) <> MRecord -> EInv cut (fst (cm_recompute F func s)).
Proof.
  intros func s H Hm. unfold cm_recompute.
  replace (match cm_mode (c_man s) with MRecord => end_taping s | _ => (s, None) end) with (s, @None exn) by (destruct (cm_mode (c_man s)); congruence).
  cbn [andthen]. set (s2 := on_man (set_mode MRecompute) s).
  assert (H2 : EInv cut s2) by (apply EInv_man; [exact H|apply MFix_mode; apply (ei_man _ _ H)]).
  destruct (cm_fwd (c_man s2)) as [|[n0 n1 ics adj st| | | | |] acts]; try exact H2.
  destruct (nth_error (t_steps (c_tape s2)) n0) as [cur|] eqn:E; [|exact H2].
  apply iter_inv.
  - intros s3 a H3. apply process_inv. apply EInv_man; [exact H3|apply MFix_cur; apply (ei_man _ _ H3)].
  - apply (EInv_heap cut cut s2 (ts_restore (c_heap s2) cur) H2). apply HInv_restore; [apply (ei_heap _ _ H2)|eapply EInv_dict; eauto].
Qed.

Lemma reverse_loop_inv : forall fuel mk s, EInv cut s -> EInv cut (fst (reverse_loop F fuel mk s)).
Proof.
  assert (P : forall mk s a, EInv cut s -> EInv cut (fst (process_op F None mk (on_man (push_rev a) s) a))).
  { intros mk s a H. apply process_inv. apply EInv_man; [exact H|apply MFix_rev; apply (ei_man _ _ H)]. }
  induction fuel as [|f IH]; intros mk s H.
  - cbn [reverse_loop]. destruct (cm_cur (c_man s)); try exact H; destruct (next_act (c_man s)); exact H.
  - cbn [reverse_loop].
    assert (G : EInv cut (fst match next_act (c_man s) with None => (s, Some EStopIter) | Some a => andthen (process_op F None mk (on_man (push_rev a) s) a) (reverse_loop F f mk) end)).
    { destruct (next_act (c_man s)) as [a|]; [|exact H]. specialize (P mk s a H). destruct (process_op F None mk (on_man (push_rev a) s) a) as [s1 [e|]]; cbn [andthen fst] in *; auto. }
    destruct (cm_cur (c_man s)); exact G || exact H.
Qed.

Lemma adjoint_pass_inv : forall last mk s, EInv cut s -> cm_mode (c_man s) <> MRecord -> EInv cut (fst (cm_evaluate_adj F last mk s)).
Proof.
  intros last mk s H Hm. unfold cm_evaluate_adj. destruct (negb (Nat.eqb last 0)); [exact H|].
  replace (match cm_mode (c_man s) with MRecord => end_taping s | _ => (s, None) end) with (s, @None exn) by (destruct (cm_mode (c_man s)); congruence).
  cbn [andthen].
  assert (G : EInv cut (fst (andthen match cm_rev (c_man s) with [] => reverse_loop F (left_acts (c_man s)) mk s | acts => iter_o (process_op F None mk) acts s end
                (fun s2 => (on_man (set_mode MEvalAdj) s2, None))))).
  { assert (K : EInv cut (fst match cm_rev (c_man s) with [] => reverse_loop F (left_acts (c_man s)) mk s | acts => iter_o (process_op F None mk) acts s end)).
    { destruct (cm_rev (c_man s)) as [|a l]; [now apply reverse_loop_inv|]. apply iter_inv; [|exact H]. intros. now apply process_inv. }
    destruct (match cm_rev (c_man s) with [] => _ | _ => _ end) as [s1 [e|]]; cbn [andthen fst] in *; [exact K|].
    apply EInv_man; [exact K|apply MFix_mode; apply (ei_man _ _ K)]. }
  destruct (cm_mode (c_man s)); exact H || exact G.
Qed.

(** ** The forward run *)
Variable J : nat.
Definition from (k : nat) : list (block V) := flat_map bks (seq k (n - k)).
Definition later (k : nat) : list nat := outs_of (from k).

Hypothesis Hdep : forall k b d, In b (bks k) -> In d (b_deps b) -> In d (stt k) \/ In d (outs_of (bks k)).
Hypothesis Hstate : forall k v, In v (stt (S k)) -> In v (stt k) \/ In v (outs_of (bks k)).
Hypothesis Hdisj : forall k v, In v (stt k) -> ~ In v (later k).
Hypothesis Hwf : wf_tape (from 0).
Hypothesis Hval : forall b, In b (flat_map fst sk) -> gives_value F b.
Hypothesis Hcut : forall b o, In b (flat_map fst sk) -> existsb cut (b_outs b) = true -> In o (b_outs b) -> cut o = true \/ Fz o.
Hypothesis Hleaf : forall v, ~ In v (later 0) -> cut v = true \/ Fz v.

Definition live (k : nat) (v : nat) : Prop :=
  In v (stt k) \/ (v = J /\ ~ In J (later k)) \/ (cut v = true /\ In v (later k)).

Lemma from_cons : forall k, k < n -> from k = bks k ++ from (S k).
Proof. intros k H. unfold from. replace (n - k) with (S (n - S k)) by lia. reflexivity. Qed.
Lemma from_end : forall k, n <= k -> from k = [].
Proof. intros k H. unfold from. now replace (n - k) with 0 by lia. Qed.
Lemma from_all : from 0 = flat_map fst sk.
Proof.
  unfold from, bks. rewrite Nat.sub_0_r, <- Hlen. clear.
  assert (G : forall l pre, flat_map (fun k => match nth_error (pre ++ l) k with Some x => fst x | None => [] end) (seq (length pre) (length l)) = flat_map (@fst (list (block V)) (list nat)) l).
  { induction l as [|x l IH]; intros pre; [reflexivity|]. cbn [length seq flat_map]. rewrite nth_error_app2, Nat.sub_diag by lia. cbn [nth_error]. f_equal.
    specialize (IH (pre ++ [x])). rewrite <- app_assoc, app_length in IH. cbn in IH. now rewrite Nat.add_1_r in IH. }
  exact (G sk []).
Qed.
Lemma from_suffix : forall k, k <= n -> exists pre, from 0 = pre ++ from k.
Proof.
  induction k as [|k IH]; intros H; [exists []; reflexivity|]. destruct IH as [pre E]; [lia|]. exists (pre ++ bks k).
  rewrite E, (from_cons k), app_assoc by lia. reflexivity.
Qed.
Lemma topo_app : forall (a b : list (block V)), topo (a ++ b) -> topo b.
Proof. induction a as [|x a IH]; intros b H; [exact H|]. apply IH. apply H. Qed.
Lemma outs_app : forall (a b : list (block V)), outs_of (a ++ b) = outs_of a ++ outs_of b.
Proof. intros. apply flat_map_app. Qed.
Lemma NoDup_app_disj : forall (a b : list nat) v, NoDup (a ++ b) -> In v a -> ~ In v b.
Proof.
  induction a as [|x a IH]; intros b v H Ha Hb; [destruct Ha|]. inversion H as [|? ? H1 H2]; subst. destruct Ha as [->|Ha]; [|eapply IH; eauto].
  apply H1. apply in_or_app. now right.
Qed.
Lemma NoDup_app_r : forall (a b : list nat), NoDup (a ++ b) -> NoDup b.
Proof. induction a as [|x a IH]; intros b H; [exact H|]. inversion H; subst. auto. Qed.
Lemma bks_in : forall k b, In b (bks k) -> In b (flat_map fst sk).
Proof.
  intros k b H. unfold bks in H. destruct (nth_error sk k) as [x|] eqn:E; [|destruct H]. apply in_flat_map. exists x. split; [eapply nth_error_In; eauto|exact H].
Qed.

Lemma step_agree : forall k, k < n -> forall l2 l1 h e, bks k = l1 ++ l2 -> HInv cut h ->
  (forall v, live k v \/ Fz v \/ In v (outs_of l1) -> saved h v = e v) ->
  snd (iter_o (recompute_block F) l2 h) = snd (geval F cut l2 e) /\
  (snd (geval F cut l2 e) = None -> forall v, live k v \/ Fz v \/ In v (outs_of (bks k)) ->
     saved (fst (iter_o (recompute_block F) l2 h)) v = fst (geval F cut l2 e) v).
Proof.
  intros k Hk. induction l2 as [|b l2 IH]; intros l1 h e E H A.
  - rewrite app_nil_r in E. rewrite <- E in A. split; [reflexivity|]. intros _. exact A.
  - assert (Hb : In b (bks k)) by (rewrite E; apply in_or_app; right; now left). pose proof (bks_in k b Hb) as Hb'.
    set (Sx := fun v => live k v \/ Fz v \/ In v (outs_of l1)).
    destruct (recompute_block_geval F h (saved h) cut b (hi_ctrl _ _ H) (fun _ => eq_refl)) as [R1 [R2 R3]].
    assert (Dp : forall d, In d (b_deps b) -> Sx d).
    { intros d Hd. destruct (Hdep k b d Hb Hd) as [K|K]; [left; left; exact K|]. right. right. rewrite E, outs_app in K. apply in_app_iff in K as [K|K]; [exact K|exfalso].
      destruct (from_suffix k) as [pre Ep]; [lia|]. destruct Hwf as [Ht _]. rewrite Ep, (from_cons k Hk), E in Ht. apply topo_app in Ht. rewrite <- app_assoc in Ht. apply topo_app in Ht.
      destruct Ht as [Ht _]. apply (Ht d Hd). change (In d (outs_of ((b :: l2) ++ from (S k)))). rewrite outs_app. apply in_or_app. now left. }
    destruct (geval_block_local F cut b (saved h) e Sx (Hval b Hb') Dp A) as [L1 [L2 L3]].
    unfold geval. cbn [iter_o].
    pose proof (recompute_inv h b) as Ri. destruct (recompute_block F h b) as [h1 x1] eqn:E1. specialize (Ri h1 x1 Hb' H eq_refl).
    destruct (geval_block F cut e b) as [e1 y1] eqn:E2. cbn [fst snd] in *. rewrite L1 in R1. subst x1.
    destruct y1 as [y|]; [cbn; split; [reflexivity|discriminate]|].
    destruct (IH (l1 ++ [b]) h1 e1) as [I1 I2].
    + rewrite E, <- app_assoc. reflexivity.
    + exact Ri.
    + intros v Hv. rewrite R2.
      assert (Q : Sx v \/ In v (b_outs b)).
      { destruct Hv as [Hv|[Hv|Hv]]; [left; now left|left; right; now left|]. rewrite outs_app in Hv. apply in_app_iff in Hv as [Hv|Hv]; [left; right; now right|]. right. cbn in Hv. now rewrite app_nil_r in Hv. }
      destruct (existsb cut (b_outs b)) eqn:Hc; [|destruct Q as [Q|Q]; [now apply L2|now apply L3]].
      apply L2. destruct Q as [Q|Q]; [exact Q|]. destruct (Hcut b v Hb' Hc Q) as [K|K]; [left; right; right|right; now left].
      split; [exact K|]. unfold later. rewrite (from_cons k Hk), outs_app. apply in_or_app. left. apply in_flat_map. exists b. auto.
    + split; [exact I1|exact I2].
Qed.

Definition agree (k : nat) h (e : nat -> V) : Prop := forall v, live k v \/ Fz v -> saved h v = e v.

Lemma forward_agree : forall n0 ics adj st s e k, k < n -> EInv cut s -> agree k (c_heap s) e ->
  let res := forward_step F n0 ics adj st (Some J) s k in let g := geval F cut (bks k) e in
  EInv cut (fst res) /\ snd res = snd g /\ (snd g = None -> agree (S k) (c_heap (fst res)) (fst g)).
Proof.
  intros n0 ics adj st s e k Hk H A. cbv zeta. pose proof (forward_spec n0 ics adj st (Some J) s k H Hk) as P.
  destruct (step_agree k Hk (bks k) [] (c_heap s) e eq_refl (ei_heap _ _ H)) as [S1 S2].
  { intros v [K|[K|[]]]; apply A; auto. }
  destruct (iter_o (recompute_block F) (bks k) (c_heap s)) as [h1 x1] eqn:E1. cbn [fst snd] in *. destruct P as [P1 [P2 P3]].
  split; [exact P1|]. split; [congruence|]. intros N v Hv. specialize (S2 N). rewrite S1, N in P3. specialize (P3 eq_refl v).
  assert (G : forall hh, (hh = h1 v \/ (hh = set_ckpt None false (h1 v) /\ Fz v)) -> c_heap (fst (forward_step F n0 ics adj st (Some J) s k)) v = hh ->
     (live k v \/ Fz v \/ In v (outs_of (bks k))) -> saved (c_heap (fst (forward_step F n0 ics adj st (Some J) s k))) v = fst (geval F cut (bks k) e) v).
  { intros hh [K|[K Kf]] Eh L.
    - rewrite <- S2 by exact L. unfold saved. now rewrite Eh, K.
    - rewrite <- S2 by exact L. rewrite (fz_saved cut _ v (ei_heap _ _ P1) Kf). symmetry. refine (fz_saved cut h1 v _ Kf).
      refine (recompute_list_inv _ _ _ _ _ (ei_heap _ _ H) E1). intros b Hb. eapply bks_in; eauto. }
  destruct Hv as [Hv|Hv].
  2:{ destruct P3 as [P3|[P3 _]]; (eapply G; [|exact P3|auto]); auto. }
  assert (Keep : ~ ((In v (stt k) \/ In v (outs_of (bks k))) /\ ~ In v (stt (S k)) /\ Some J <> Some v)).
  { intros [K1 [K2 K3]]. destruct Hv as [Hv|[[-> _]|[_ Hv]]]; [contradiction|now apply K3|].
    destruct K1 as [K1|K1].
    - apply (Hdisj k v K1). unfold later. rewrite (from_cons k Hk), outs_app. apply in_or_app. now right.
    - destruct Hwf as [_ Hnd]. destruct (from_suffix k) as [pre Ep]; [lia|]. rewrite Ep, (from_cons k Hk), !outs_app in Hnd. apply NoDup_app_r in Hnd.
      exact (NoDup_app_disj _ _ v Hnd K1 Hv). }
  destruct P3 as [P3|[P3 K]]; [|now elim Keep].
  eapply G; [now left|exact P3|].
  destruct Hv as [Hv|[[-> Hv]|[Hv1 Hv2]]].
  - destruct (Hstate k v Hv) as [K|K]; [left; now left|right; now right].
  - destruct (in_dec Nat.eq_dec J (outs_of (bks k))) as [K|K]; [right; now right|]. left. right. left. split; [reflexivity|].
    unfold later. rewrite (from_cons k Hk), outs_app, in_app_iff. tauto.
  - left. right. right. split; [exact Hv1|]. unfold later. rewrite (from_cons k Hk), outs_app. apply in_or_app. now right.
Qed.

Lemma geval_app : forall c (a b : list (block V)) e, geval F c (a ++ b) e = andthen (geval F c a e) (geval F c b).
Proof. intros. apply iter_o_app. Qed.

Lemma run_agree : forall n0 ics adj st j k s e, k + j <= n -> EInv cut s -> agree k (c_heap s) e ->
  let res := iter_o (forward_step F n0 ics adj st (Some J)) (seq k j) s in let g := geval F cut (flat_map bks (seq k j)) e in
  EInv cut (fst res) /\ snd res = snd g /\ (snd g = None -> agree (k + j) (c_heap (fst res)) (fst g)).
Proof.
  intros n0 ics adj st. induction j as [|j IH]; intros k s e Hk H A; cbv zeta.
  - cbn. rewrite Nat.add_0_r. auto.
  - cbn [seq flat_map iter_o]. rewrite geval_app. destruct (forward_agree n0 ics adj st s e k) as [S1 [S2 S3]]; [lia|exact H|exact A|].
    destruct (forward_step F n0 ics adj st (Some J) s k) as [s1 x1]. destruct (geval F cut (bks k) e) as [e1 y1]. cbn [fst snd] in *. subst x1.
    destruct y1 as [y|]; cbn [andthen fst snd]; [split; [exact S1|split; [reflexivity|discriminate]]|].
    specialize (IH (S k) s1 e1). rewrite Nat.add_succ_comm in IH. apply IH; [lia|exact S1|now apply S3].
Qed.

Lemma covers_agree : forall k acts, covers n k acts -> forall s e, EInv cut s -> agree k (c_heap s) e ->
  let res := iter_o (fun s a => process_op F (Some J) false (on_man (set_cur a) s) a) acts s in let g := geval F cut (from k) e in
  EInv cut (fst res) /\ snd res = snd g /\ (snd g = None -> saved (c_heap (fst res)) J = fst g J).
Proof.
  intros k acts Hc. induction Hc as [|k n1 ics adj st rest Hk Hb Hr IH]; intros s e H A; cbv zeta.
  - cbn [iter_o process_op]. rewrite from_end by lia. cbn. split; [|split; [reflexivity|]].
    + apply EInv_man; [apply EInv_man; [exact H|apply MFix_cur; apply (ei_man _ _ H)]|]. apply MFix_mode, MFix_cur. apply (ei_man _ _ H).
    + intros _. apply A. left. right. left. split; [reflexivity|]. unfold later. rewrite from_end by lia. intros [].
  - cbn [iter_o process_op]. set (s0 := on_man (set_cur (AForward k n1 ics adj st)) s).
    assert (H0 : EInv cut s0) by (apply EInv_man; [exact H|apply MFix_cur; apply (ei_man _ _ H)]).
    set (q := match n1 with Some b => Nat.min b n | None => n end) in *.
    assert (Fs : fwd_steps k n1 (c_man s0) (length (t_steps (c_tape s0))) = seq k (q - k)).
    { unfold fwd_steps. rewrite (mf_total _ (ei_man _ _ H0)). unfold q. destruct n1; reflexivity. }
    rewrite Fs. assert (Hq : k <= q <= n) by (unfold q; destruct n1; lia).
    destruct (run_agree k ics adj st (q - k) k s0 e) as [R1 [R2 R3]]; [lia|exact H0|exact A|].
    assert (Ef : from k = flat_map bks (seq k (q - k)) ++ from q).
    { unfold from. rewrite <- flat_map_app. f_equal. replace (n - k) with ((q - k) + (n - q)) by lia. rewrite seq_app. f_equal. f_equal. lia. }
    rewrite Ef, geval_app.
    destruct (iter_o _ (seq k (q - k)) s0) as [s1 x1]. destruct (geval F cut (flat_map bks (seq k (q - k))) e) as [e1 y1]. cbn [fst snd] in *. subst x1.
    destruct y1 as [y|]; cbn [andthen fst snd]; [split; [exact R1|split; [reflexivity|discriminate]]|].
    apply IH; [exact R1|]. replace q with (k + (q - k)) by lia. now apply R3.
Qed.

Hypothesis Hn : 1 <= n.
Hypothesis Hfwd : covers n 0 fwd.

Lemma restore_ctrl : forall fl h (t : tstep V) v, HInv fl h -> fl v = true -> ts_restore h t v = h v.
Proof.
  intros fl h t v H Hv. apply (restore_any (fun b => b = h v)); [reflexivity|]. intros x b _ ->. apply put_entry_ctrl. now rewrite (hi_ctrl _ _ H).
Qed.

Lemma recompute_agree : forall s e, EInv cut s -> cm_mode (c_man s) <> MRecord ->
  (forall v, cut v = true -> saved (c_heap s) v = e v) -> (forall v, Fz v -> e v = r v) ->
  let res := cm_recompute F (Some J) s in let g := geval F cut (from 0) e in
  EInv cut (fst res) /\ snd res = snd g /\ (snd g = None -> saved (c_heap (fst res)) J = fst g J).
Proof.
  intros s e H Hm Hc He. cbv zeta. unfold cm_recompute.
  replace (match cm_mode (c_man s) with MRecord => end_taping s | _ => (s, None) end) with (s, @None exn) by (destruct (cm_mode (c_man s)); congruence).
  cbn [andthen]. set (s2 := on_man (set_mode MRecompute) s).
  assert (H2 : EInv cut s2) by (apply EInv_man; [exact H|apply MFix_mode; apply (ei_man _ _ H)]).
  rewrite (mf_fwd _ (ei_man _ _ H2)).
  assert (Fw : exists n1 ics adj st acts, fwd = AForward 0 n1 ics adj st :: acts) by (destruct Hfwd; [lia|eauto 10]).
  destruct Fw as [n1 [ics [adj [st [acts Ef]]]]].
  destruct (nth_error (t_steps (c_tape s2)) 0) as [cur|] eqn:Ec.
  2:{ apply nth_error_None in Ec. assert (L : length (map tsk (t_steps (c_tape s2))) = n) by now rewrite (ei_sk _ _ H2). rewrite map_length in L. lia. }
  set (body := iter_o (fun s a => process_op F (Some J) false (on_man (set_cur a) s) a) fwd (on_heap (fun h => ts_restore h cur) s2)).
  match goal with |- EInv cut (fst ?x) /\ _ => replace x with body by (unfold body; rewrite Ef, Ec; reflexivity) end.
  unfold body.
  assert (H3 : HInv cut (ts_restore (c_heap s2) cur)) by (apply HInv_restore; [apply (ei_heap _ _ H2)|eapply EInv_dict; eauto]).
  apply (covers_agree 0 fwd Hfwd); [apply (EInv_heap cut cut s2 _ H2 H3)|].
  cbn [on_heap c_heap]. intros v Hv.
  assert (Q : cut v = true \/ Fz v).
  { destruct Hv as [[Hv|[[-> Hv]|[Hv _]]]|Hv]; auto. }
  destruct Q as [Q|Q]; [|rewrite (He v Q); eapply fz_saved; eauto].
  rewrite <- (Hc v Q). unfold saved. now rewrite (restore_ctrl cut) by (auto; apply (ei_heap _ _ H2)).
Qed.
End Eval.
