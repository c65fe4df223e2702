(** Placeholders: evaluations and derivatives against the plain tape (C27). *)
From Coq Require Import List Arith Bool Lia.
From Verif Require Import Base Model BaseFacts Graph Record Spec RecordFacts Replay ReplayStep ReplayExec History Session Sweep Place SpecPlace.
Import ListNotations.

Section Place.
Context {V : Type} (F : fops V) (lk : nat -> option nat).
Implicit Types (h : heap V) (b : block V) (bs : list (block V)).

(** Without links this is the plain model. *)
Lemma p_plain_block : (forall v, lk v = None) -> forall h b, p_recompute_block F lk h b = recompute_block F h b /\
  forall m, p_adj_block F lk m h b = adj_block F m h b.
Proof.
  intros H h b. assert (E : map (psaved lk h) (b_deps b) = map (saved h) (b_deps b)) by (apply map_ext; intros v; unfold psaved; now rewrite H).
  split; [unfold p_recompute_block, recompute_block|intros m; unfold p_adj_block, adj_block]; rewrite E; reflexivity.
Qed.

(** ** Evaluation *)
(** Graph evaluation with placeholders reading [prev]. *)
Lemma p_recompute_geval : forall bs h e cut (prev : nat -> V), (forall v, bv_ctrl (h v) = cut v) ->
  (forall p l, lk p = Some l -> ~ In p (outs_of bs)) -> links_later lk bs ->
  (forall v, lk v = None -> saved h v = e v) -> (forall p l, lk p = Some l -> e p = prev l) ->
  (forall p l, lk p = Some l -> In p (deps_of bs) -> saved h l = prev l) ->
  snd (iter_o (p_recompute_block F lk) bs h) = snd (geval F cut bs e) /\
  (forall v, lk v = None -> saved (fst (iter_o (p_recompute_block F lk) bs h)) v = fst (geval F cut bs e) v) /\
  (forall v, bv_ctrl (fst (iter_o (p_recompute_block F lk) bs h) v) = cut v) /\
  (forall v, erase_ckpt (fst (iter_o (p_recompute_block F lk) bs h) v) = erase_ckpt (h v)).
Proof.
  induction bs as [|b bs IH]; intros h e cut prev Hc Hp Hl Hs He Hr; [cbn; auto|].
  unfold geval. cbn [iter_o]. fold (geval F cut bs).
  assert (B : snd (p_recompute_block F lk h b) = snd (geval_block F cut e b) /\
              (forall v, lk v = None -> saved (fst (p_recompute_block F lk h b)) v = fst (geval_block F cut e b) v) /\
              (forall v, ~ In v (b_outs b) -> fst (p_recompute_block F lk h b) v = h v) /\
              (forall v, bv_ctrl (fst (p_recompute_block F lk h b) v) = cut v) /\
              (forall v, erase_ckpt (fst (p_recompute_block F lk h b) v) = erase_ckpt (h v))).
  { unfold p_recompute_block, geval_block.
    replace (existsb (fun o => bv_ctrl (h o)) (b_outs b)) with (existsb cut (b_outs b)).
    2:{ clear - Hc. induction (b_outs b) as [|o r IH]; cbn; [reflexivity|]. now rewrite Hc, IH. }
    destruct (existsb cut (b_outs b)) eqn:Hcut; [cbn; auto|].
    assert (Ei : map (psaved lk h) (b_deps b) = map e (b_deps b)).
    { apply map_ext_in. intros v Hv. unfold psaved. destruct (lk v) as [l|] eqn:E; [|now apply Hs].
      rewrite (He v l E). apply (Hr v l E). unfold deps_of. cbn. apply in_or_app. now left. }
    rewrite Ei. set (inputs := map e (b_deps b)).
    assert (Hno : forall o, In o (b_outs b) -> cut o = false).
    { intros o Ho. destruct (cut o) eqn:Hx; [|reflexivity]. assert (existsb cut (b_outs b) = true) by (apply existsb_exists; eauto). congruence. }
    set (f := fun h' (io : nat * nat) => match comp_recompute F (b_kind b) inputs (fst io) with
              | Err e0 => (h', Some e0) | Ok None => (h', None)
              | Ok (Some x) => (upd h' (snd io) (put_ckpt (Some x) (raw_result (b_kind b))), None) end).
    set (g := fun e' (io : nat * nat) => match comp_recompute F (b_kind b) inputs (fst io) with
              | Err x => (e', Some x) | Ok None => (e', None) | Ok (Some x) => (eset e' (snd io) x, None) end).
    destruct (iter_o_sim f g (fun h1 e1 => (forall v, lk v = None -> saved h1 v = e1 v) /\ (forall v, ~ In v (b_outs b) -> h1 v = h v) /\
                 (forall v, bv_ctrl (h1 v) = cut v) /\ (forall v, erase_ckpt (h1 v) = erase_ckpt (h v))) (enum (b_outs b)) h e) as [S1 S2].
    - intros h1 e1 [i o] Hin [R1 [R2 [R3 R4]]]. unfold f, g. cbn [fst snd].
      destruct (comp_recompute F (b_kind b) inputs i) as [[x|]|]; cbn; auto.
      split; [reflexivity|]. apply enum_snd_In in Hin. cbn in Hin. split; [|split; [|split]].
      + intros v Hv. unfold eset. destruct (Nat.eqb_spec v o) as [->|Hne].
        * apply saved_ckpt. rewrite upd_same. unfold put_ckpt. rewrite R3, Hno by assumption. reflexivity.
        * rewrite saved_upd_other by assumption. now apply R1.
      + intros v Hv. rewrite upd_other; [now apply R2|]. intros ->. contradiction.
      + intros v. unfold upd. destruct (Nat.eqb v o); [|apply R3]. unfold put_ckpt. rewrite <- R3. destruct (bv_ctrl (h1 v)) eqn:Hx; cbn; now rewrite ?Hx.
      + intros v. unfold upd. destruct (Nat.eqb v o); [|apply R4]. rewrite put_ckpt_erase. apply R4.
    - auto.
    - destruct S2 as [S2 [S3 [S4 S5]]]. auto. }
  destruct B as [B1 [B2 [B3 [B4 B5]]]].
  pose proof (geval_block_frame F cut b e) as G.
  destruct (p_recompute_block F lk h b) as [h1 [x|]], (geval_block F cut e b) as [e1 [y|]]; cbn [fst snd] in *; try discriminate B1; [auto|].
  destruct (IH h1 e1 cut prev B4) as [I1 [I2 [I3 I4]]].
  - intros p l E K. apply (Hp p l E). unfold outs_of in *. cbn. apply in_or_app. now right.
  - intros pre b' post p l E1 E2 K. apply (Hl (b :: pre) b' post p l); [now rewrite E1|exact E2|exact K].
  - exact B2.
  - intros p l E. rewrite G; [now apply He|]. intros K. apply (Hp p l E). unfold outs_of. cbn. apply in_or_app. now left.
  - intros p l E K. assert (~ In l (b_outs b)) by (apply (Hl [] b bs p l eq_refl E K)).
    unfold saved. rewrite (B3 l) by assumption. apply (Hr p l E). unfold deps_of in *. cbn. apply in_or_app. now right.
  - split; [exact I1|]. split; [exact I2|]. split; [exact I3|]. intros v. now rewrite I4.
Qed.

Lemma p_call_spec : forall bs rf vals h, no_ctrl h -> length vals = length (rf_ctrls rf) -> lk (rf_J rf) = None ->
  links_ok lk bs (rf_ctrls rf) -> links_later lk bs ->
  let g := geval F (fun v => mem v (rf_ctrls rf)) bs (given (rf_ctrls rf) vals (fed lk (saved h))) in
  snd (p_call F lk bs rf vals h) = match snd g with Some e => Err e | None => Ok (f_mul F (fst g (rf_J rf)) (rf_scale rf)) end /\
  (forall v, lk v = None -> saved (fst (p_call F lk bs rf vals h)) v = fst g v) /\
  (forall v, erase_ckpt (fst (p_call F lk bs rf vals h) v) = erase_ckpt (h v)) /\
  no_ctrl (fst (p_call F lk bs rf vals h)).
Proof.
  intros bs rf vals h Hn Hl HJ Hok Hlat g. unfold p_call. rewrite Hl, Nat.eqb_refl. cbn [negb].
  set (h1 := update_controls h (rf_ctrls rf) vals).
  assert (H1 : forall v, h1 v = match supplied (rf_ctrls rf) vals v with Some x => set_ckpt (Some x) false (h v) | None => h v end).
  { intros v. apply update_controls_spec. exact Hn. }
  assert (Hn1 : no_ctrl h1).
  { intros v. rewrite H1. destruct (supplied _ _ v); apply Hn. }
  assert (Hsup : forall v, ~ In v (rf_ctrls rf) -> supplied (rf_ctrls rf) vals v = None).
  { intros v Hv. pose proof (supplied_some (rf_ctrls rf) vals v Hl) as Q. rewrite (proj2 (mem_false _ _) Hv) in Q. destruct (supplied _ _ v); [discriminate|reflexivity]. }
  set (h1c := upd_all h1 (rf_ctrls rf) (set_ctrl true)).
  assert (Hc : forall v, bv_ctrl (h1c v) = mem v (rf_ctrls rf)) by (intros v; now apply ctrl_flag).
  assert (Hs : forall v, saved h1c v = given (rf_ctrls rf) vals (saved h) v).
  { intros v. unfold given, saved, h1c. rewrite upd_all_spec by reflexivity. destruct (mem v (rf_ctrls rf)); cbn; rewrite H1; destruct (supplied _ _ v); reflexivity. }
  destruct (p_recompute_geval bs h1c (given (rf_ctrls rf) vals (fed lk (saved h))) _ (saved h) Hc) as [R1 [R2 [R3 R4]]].
  - intros p l E. apply (Hok p l E).
  - exact Hlat.
  - intros v Hv. rewrite Hs. unfold given, fed. now rewrite Hv.
  - intros p l E. unfold given, fed. rewrite E, Hsup; [reflexivity|]. apply (Hok p l E).
  - intros p l E _. rewrite Hs. unfold given. rewrite Hsup; [reflexivity|]. apply (Hok p l E).
  - fold g in R1, R2.
    destruct (marked_controls_spec (rf_ctrls rf) h1 (iter_o (p_recompute_block F lk) bs) Hn1) as [M1 M2].
    { exact R3. }
    fold h1c in M1, M2. destruct (with_marked_controls (rf_ctrls rf) h1 (iter_o (p_recompute_block F lk) bs)) as [h2 e]. cbn [fst snd] in M1, M2.
    assert (Sv : forall v, lk v = None -> saved h2 v = fst g v).
    { intros v Hv. rewrite <- R2 by exact Hv. unfold saved. now rewrite M2. }
    assert (Ev : forall v, erase_ckpt (h2 v) = erase_ckpt (h v)).
    { intros v. rewrite M2. transitivity (set_ctrl false (erase_ckpt (fst (iter_o (p_recompute_block F lk) bs h1c) v))); [reflexivity|].
      rewrite R4. unfold h1c. rewrite upd_all_spec by reflexivity.
      assert (E1 : erase_ckpt (h1 v) = erase_ckpt (h v)) by (rewrite H1; destruct (supplied _ _ v); reflexivity).
      transitivity (set_ctrl false (erase_ckpt (h1 v))); [destruct (mem v _); reflexivity|].
      rewrite E1. unfold erase_ckpt, set_ctrl, set_ckpt. cbn. now rewrite (Hn v). }
    assert (Nv : no_ctrl h2) by (intros v; rewrite (erase_ckpt_ctrl _ _ (Ev v)); apply Hn).
    assert (Ee : e = snd g) by exact (eq_trans M1 R1). rewrite Ee. clear Ee M1 R1.
    destruct (snd g) as [x|]; cbn [fst snd]; split; auto. unfold psaved. rewrite HJ. now rewrite Sv.
Qed.

Lemma fed_agree : forall bs cs (e1 e2 : nat -> V), links_ok lk bs cs -> (forall v, lk v = None -> e1 v = e2 v) -> env_eq (fed lk e1) (fed lk e2).
Proof. intros bs cs e1 e2 Hok H v. unfold fed. destruct (lk v) as [l|] eqn:E; [|auto]. apply H. apply (Hok v l E). Qed.
Lemma given_ext : forall cs xs (e1 e2 : nat -> V), env_eq e1 e2 -> env_eq (given cs xs e1) (given cs xs e2).
Proof. intros cs xs e1 e2 H v. unfold given. destruct (supplied cs xs v); auto. Qed.

(** Any number of evaluations. *)
Lemma p_calls_spec : forall bs rf, lk (rf_J rf) = None -> links_ok lk bs (rf_ctrls rf) -> links_later lk bs ->
  forall l h e, no_ctrl h -> Forall (fun xs => length xs = length (rf_ctrls rf)) l -> (forall v, lk v = None -> saved h v = e v) ->
  snd (p_calls F lk bs rf l h) = fed_runs F lk bs rf e l.
Proof.
  intros bs rf HJ Hok Hlat. induction l as [|xs l IH]; intros h e Hn Hl He; [reflexivity|]. inversion Hl as [|? ? L1 L2]; subst. cbn [p_calls fed_runs].
  destruct (p_call_spec bs rf xs h Hn L1 HJ Hok Hlat) as [A [B [_ C]]].
  destruct (geval_ext F (fun v => mem v (rf_ctrls rf)) (fun v => mem v (rf_ctrls rf)) bs (given (rf_ctrls rf) xs (fed lk (saved h)))
     (given (rf_ctrls rf) xs (fed lk e)) (fun v => eq_refl) (given_ext _ _ _ _ (fed_agree _ _ _ _ Hok He))) as [E1 E2].
  destruct (geval F _ bs (given (rf_ctrls rf) xs (fed lk (saved h)))) as [e1 x1], (geval F _ bs (given (rf_ctrls rf) xs (fed lk e))) as [e2 x2].
  cbn [fst snd] in *. subst x2. destruct (p_call F lk bs rf xs h) as [h1 r]. cbn [fst snd] in *. subst r.
  destruct x1 as [x|]; [reflexivity|]. specialize (IH h1 e2 C L2). destruct (p_calls F lk bs rf l h1) as [h2 ys]. cbn [snd] in *.
  rewrite IH; [now rewrite E2|]. intros v Hv. rewrite B by exact Hv. apply E2.
Qed.

(** ** The derivative *)
(** Cells that agree up to the stored value; the values are [s] and [fed lk s]. *)
Definition twin (s : nat -> V) (h1 h2 : heap V) : Prop :=
  (forall v, erase_ckpt (h1 v) = erase_ckpt (h2 v)) /\ (forall v, saved h1 v = s v) /\ (forall v, saved h2 v = fed lk s v).
(** A change that is blind to the stored value. *)
Definition blind (f : bvar V -> bvar V) : Prop :=
  (forall x, erase_ckpt (f x) = f (erase_ckpt x)) /\ (forall x, bv_ckpt (f x) = bv_ckpt x) /\ (forall x, bv_out (f x) = bv_out x).
Lemma blind_saved : forall f h v u, blind f -> saved (upd h v f) u = saved h u.
Proof. intros f h v u [_ [A B]]. unfold saved, upd. destruct (Nat.eqb u v); [|reflexivity]. now rewrite A, B. Qed.
Lemma twin_upd : forall s h1 h2 v f, blind f -> twin s h1 h2 -> twin s (upd h1 v f) (upd h2 v f).
Proof.
  intros s h1 h2 v f Hf [A [B C]]. split; [|split; intros u; rewrite blind_saved by exact Hf; auto].
  intros u. unfold upd. destruct (Nat.eqb u v); [|auto]. rewrite !(proj1 Hf). now rewrite A.
Qed.
Lemma twin_upd_all : forall s l h1 h2 f, blind f -> twin s h1 h2 -> twin s (upd_all h1 l f) (upd_all h2 l f).
Proof. intros s l h1 h2 f Hf. revert h1 h2. induction l as [|v l IH]; intros h1 h2 T; [exact T|]. cbn. apply IH. now apply twin_upd. Qed.
Lemma twin_reset : forall s bs h1 h2 f, blind f -> twin s h1 h2 -> twin s (reset_with f bs h1) (reset_with f bs h2).
Proof.
  intros s bs h1 h2 f Hf. unfold reset_with. revert h1 h2. induction (rev bs) as [|b l IH]; intros h1 h2 T; [exact T|]. cbn. apply IH.
  apply twin_upd_all; [exact Hf|]. now apply twin_upd_all.
Qed.
Lemma blind_set_adj : forall x, blind (set_adj x). Proof. intros x. repeat split. Qed.
Lemma blind_add_adj : forall x, blind (add_adj F x). Proof. intros x. repeat split. Qed.
Lemma blind_mark : forall x, blind (set_mark x). Proof. intros x. repeat split. Qed.
Lemma blind_ctrl : forall x, blind (set_ctrl x). Proof. intros x. repeat split. Qed.
Lemma twin_adj : forall s h1 h2 v, twin s h1 h2 -> bv_adj (h1 v) = bv_adj (h2 v).
Proof. intros s h1 h2 v [A _]. exact (f_equal (@bv_adj V) (A v)). Qed.
Lemma twin_mark : forall s h1 h2 v, twin s h1 h2 -> bv_mark (h1 v) = bv_mark (h2 v).
Proof. intros s h1 h2 v [A _]. exact (f_equal (@bv_mark V) (A v)). Qed.
Lemma twin_saved : forall s h1 h2 v, twin s h1 h2 -> psaved lk h1 v = saved h2 v.
Proof. intros s h1 h2 v [_ [B C]]. rewrite C. unfold psaved, fed. destruct (lk v); apply B. Qed.

Lemma twin_block : forall s m b h1 h2, twin s h1 h2 ->
  snd (p_adj_block F lk m h1 b) = snd (adj_block F m h2 b) /\ twin s (fst (p_adj_block F lk m h1 b)) (fst (adj_block F m h2 b)).
Proof.
  intros s m b h1 h2 T. unfold p_adj_block, adj_block.
  replace (map (fun o => bv_adj (h1 o)) (b_outs b)) with (map (fun o => bv_adj (h2 o)) (b_outs b)) by (apply map_ext; intros v; symmetry; eapply twin_adj; eauto).
  replace (map (psaved lk h1) (b_deps b)) with (map (saved h2) (b_deps b)) by (apply map_ext; intros v; symmetry; eapply twin_saved; eauto).
  replace (relevant h1 m (b_deps b)) with (relevant h2 m (b_deps b)).
  2:{ unfold relevant. apply filter_ext. intros iv. now rewrite (twin_mark _ _ _ (snd iv) T). }
  destruct (negb _); [auto|]. apply (iter_o_sim _ _ (twin s)); [|exact T]. intros g1 g2 iv _ G.
  destruct (comp_adj F _ _ _ _) as [[x|]|]; cbn; auto. split; [reflexivity|]. apply twin_upd; [apply blind_add_adj|exact G].
Qed.

Lemma twin_gradient : forall s bs J cs a h1 h2, twin s h1 h2 -> snd (p_gradient F lk bs J cs a h1) = snd (compute_gradient F bs J cs a h2).
Proof.
  intros s bs J cs a h1 h2 T. unfold p_gradient, compute_gradient, with_marked_nodes, with_marked_controls, evaluate_adj. cbn [skipn].
  set (g1 := upd_all (upd_all (upd (reset_adj bs h1) J (set_adj (Some a))) (find_relevant bs cs) (set_mark true)) cs (set_ctrl true)).
  set (g2 := upd_all (upd_all (upd (reset_adj bs h2) J (set_adj (Some a))) (find_relevant bs cs) (set_mark true)) cs (set_ctrl true)).
  assert (G : twin s g1 g2).
  { apply twin_upd_all; [apply blind_ctrl|]. apply twin_upd_all; [apply blind_mark|]. apply twin_upd; [apply blind_set_adj|].
    apply twin_reset; [apply blind_set_adj|exact T]. }
  destruct (iter_o_sim (p_adj_block F lk true) (adj_block F true) (twin s) (rev bs) g1 g2) as [A B]; [|exact G|].
  { intros k1 k2 b _ K. now apply twin_block. }
  destruct (iter_o (p_adj_block F lk true) (rev bs) g1) as [k1 x1], (iter_o (adj_block F true) (rev bs) g2) as [k2 x2]. cbn [fst snd] in *. subst x2.
  destruct x1 as [x|]; [reflexivity|]. cbn [snd]. f_equal. apply map_ext. intros c. unfold get_derivative.
  erewrite twin_adj; [reflexivity|]. apply twin_upd_all; [apply blind_mark|]. apply twin_upd_all; [apply blind_ctrl|]. exact B.
Qed.

(** The tape with every placeholder replaced by an ordinary variable holding the linked value. *)
Definition feed h : heap V := fun v => match lk v with Some l => set_ckpt (Some (saved h l)) (bv_raw (h l)) (h v) | None => h v end.
Lemma feed_twin : forall h, twin (saved h) h (feed h).
Proof.
  intros h. split; [|split]; intros v; [| reflexivity|]; unfold feed.
  - destruct (lk v); reflexivity.
  - unfold saved at 1, fed. destruct (lk v) as [l|]; reflexivity.
Qed.
Lemma p_derivative_feed : forall bs rf a h, snd (p_derivative F lk bs rf a h) = snd (rf_derivative F bs rf a (feed h)).
Proof.
  intros bs rf a h. unfold p_derivative, rf_derivative. destruct (rf_ctrls rf) as [|c cs] eqn:E; [reflexivity|].
  eapply twin_gradient. apply feed_twin.
Qed.

(** One evaluation against the plain tape. *)
Lemma feed_saved : forall h v, saved (feed h) v = fed lk (saved h) v.
Proof. intros h v. apply (feed_twin h). Qed.
Lemma feed_no_ctrl : forall h, no_ctrl h -> no_ctrl (feed h).
Proof. intros h H v. unfold feed. destruct (lk v); apply H. Qed.
Lemma p_call_feed : forall bs rf vals h, no_ctrl h -> length vals = length (rf_ctrls rf) -> lk (rf_J rf) = None ->
  links_ok lk bs (rf_ctrls rf) -> links_later lk bs ->
  snd (p_call F lk bs rf vals h) = snd (rf_call F bs rf vals (feed h)) /\
  (forall v, lk v = None -> saved (fst (p_call F lk bs rf vals h)) v = saved (fst (rf_call F bs rf vals (feed h))) v).
Proof.
  intros bs rf vals h Hn Hl HJ Hok Hlat.
  destruct (p_call_spec bs rf vals h Hn Hl HJ Hok Hlat) as [A [B _]].
  destruct (rf_call_spec F bs rf vals (feed h) (feed_no_ctrl h Hn) Hl) as [A' [B' _]].
  destruct (geval_ext F (fun v => mem v (rf_ctrls rf)) (fun v => mem v (rf_ctrls rf)) bs (given (rf_ctrls rf) vals (fed lk (saved h)))
     (start_env (feed h) (rf_ctrls rf) vals) (fun v => eq_refl)) as [E1 E2].
  { intros v. unfold given, start_env. now rewrite feed_saved. }
  rewrite A, A', E1, E2. split; [reflexivity|]. intros v Hv. rewrite B, B' by exact Hv. apply E2.
Qed.

(** When the last evaluation left the linked values as they were, the derivative is that of the plain tape. *)
Lemma p_derivative_settled : forall bs rf vals a h, no_ctrl h -> length vals = length (rf_ctrls rf) -> lk (rf_J rf) = None ->
  links_ok lk bs (rf_ctrls rf) -> links_later lk bs ->
  (forall p l, lk p = Some l -> saved (fst (p_call F lk bs rf vals h)) l = saved h l) ->
  (forall c, In c (rf_ctrls rf) -> In c (vars_of bs) \/ c = rf_J rf) ->
  snd (p_derivative F lk bs rf a (fst (p_call F lk bs rf vals h))) = snd (rf_derivative F bs rf a (fst (rf_call F bs rf vals (feed h)))).
Proof.
  intros bs rf vals a h Hn Hl HJ Hok Hlat Hset Hcs.
  destruct (p_call_spec bs rf vals h Hn Hl HJ Hok Hlat) as [_ [_ [Ee Nc]]].
  destruct (p_call_feed bs rf vals h Hn Hl HJ Hok Hlat) as [_ Sv].
  pose proof (feed_no_ctrl h Hn) as Nf.
  destruct (rf_call_spec F bs rf vals (feed h) Nf Hl) as [_ [Sf Ef]].
  rewrite p_derivative_feed. set (h1 := fst (p_call F lk bs rf vals h)) in *. set (h2 := fst (rf_call F bs rf vals (feed h))) in *.
  unfold rf_derivative. destruct (rf_ctrls rf) as [|c cs] eqn:E; [reflexivity|].
  assert (Em : forall v, erase_ckpt (feed h1 v) = erase_ckpt (h2 v)).
  { intros v. rewrite Ef. unfold feed. destruct (lk v); cbn; [|apply Ee]. exact (Ee v). }
  apply grad_same_marks.
  - now apply feed_no_ctrl.
  - intros v. rewrite (erase_ckpt_ctrl _ _ (Ef v)). apply Nf.
  - intros v. rewrite feed_saved. unfold fed. destruct (lk v) as [l|] eqn:L; [|now apply Sv].
    rewrite (Hset v l L), Sf. rewrite geval_frame.
    + unfold start_env. pose proof (supplied_some (c :: cs) vals v Hl) as Q. destruct (Hok v l L) as [_ [K _]].
      rewrite (proj2 (mem_false _ _) K) in Q. destruct (supplied _ _ v); [discriminate|]. rewrite feed_saved. unfold fed. now rewrite L.
    + intros K. apply (proj1 (Hok v l L)). eapply computed_outs; eauto.
  - intros v. exact (f_equal (@bv_mark V) (Em v)).
  - intros v Hv. destruct (Hcs v Hv) as [K|K]; auto.
Qed.
End Place.

(** ** Recorded programs *)
Section Program.
Context {V : Type} (F : fops V).

Lemma geval_cut_outs : forall (bs : list (block V)) cut1 cut2 e, (forall v, In v (outs_of bs) -> cut1 v = cut2 v) ->
  geval F cut1 bs e = geval F cut2 bs e.
Proof.
  induction bs as [|b bs IH]; intros cut1 cut2 e H; [reflexivity|]. unfold geval. cbn [iter_o]. fold (geval F cut1 bs). fold (geval F cut2 bs).
  assert (E : geval_block F cut1 e b = geval_block F cut2 e b).
  { unfold geval_block. replace (existsb cut1 (b_outs b)) with (existsb cut2 (b_outs b)); [reflexivity|].
    assert (K : forall v, In v (b_outs b) -> cut1 v = cut2 v) by (intros v Hv; apply H; unfold outs_of; cbn; apply in_or_app; now left).
    clear - K. induction (b_outs b) as [|o r IHr]; [reflexivity|]. cbn. rewrite K by now left. f_equal. apply IHr. intros v Hv. apply K. now right. }
  rewrite E. destruct (geval_block F cut2 e b) as [e1 [x|]]; [reflexivity|]. apply IH. intros v Hv. apply H. unfold outs_of in *. cbn. apply in_or_app. now right.
Qed.
Lemma supplied_snoc : forall cs pv (xs : list V) y u, length xs = length cs -> ~ In pv cs ->
  supplied (cs ++ [pv]) (xs ++ [y]) u = if Nat.eqb u pv then Some y else supplied cs xs u.
Proof.
  induction cs as [|c cs IH]; intros pv [|x xs] y u Hl Hn; try discriminate; [reflexivity|]. cbn [app supplied].
  rewrite IH; [|now inversion Hl|intros K; apply Hn; now right]. destruct (Nat.eqb_spec u pv); [reflexivity|reflexivity].
Qed.

Lemma recorded_saved : forall ann p j x, consistent p -> disciplined ann p = true -> recorded_value F ann p j = Some x ->
  saved (w_heap (fst (recorded F ann p j))) (snd (recorded F ann p j)) = x /\ j < length (w_objs (exec F (world_new F ann) p)).
Proof.
  intros ann p j x Hc Hd Hx.
  unfold recorded_value in Hx. destruct (nth_error (s_objs (spec_exec F no_override ann p)) j) as [so|] eqn:Es; [|discriminate].
  cbn in Hx. inversion Hx; subst x.
  assert (Hj : j < length (w_objs (exec F (world_new F ann) p))).
  { destruct (exec_sim F p no_override ann Hc Hd) as [_ S]. rewrite (sm_len F _ _ _ S). now apply nth_error_some_lt in Es. }
  split; [|exact Hj].
  destruct (recorded_good F ann p j no_override Hc Hd Hj) as [[W S] [Hv C]].
  rewrite (saved_rec F); [|exact W|right; exists j; exact C]. pose proof C as [ob [B1 B2]].
  destruct (sm_obj F _ _ _ S j ob so B1 Es) as [E _]. rewrite <- E.
  destruct (wi_cur F [] _ W j ob _ B1 B2) as [_ [G _]]. unfold ghost in G. congruence.
Qed.

(** The placeholder [pv] linked to [v]. *)
Definition link1 (pv v : nat) : nat -> option nat := fun u => if Nat.eqb u pv then Some v else None.

Lemma p_calls_program : forall ann p j cs pv x one l, consistent p -> disciplined ann p = true -> recorded_value F ann p j = Some x ->
  let w := fst (recorded F ann p j) in
  let v := snd (recorded F ann p j) in
  w_ctrls w = cs ++ [pv] -> ~ In pv cs -> ~ In pv (outs_of (flat w)) -> pv <> v -> ~ In v cs -> closed (w_ctrls w) (flat w) ->
  links_later (link1 pv v) (flat w) -> (forall y, f_mul F y one = y) -> Forall (fun xs => length xs = length cs) l ->
  snd (p_calls F (link1 pv v) (flat w) (RF v cs one) l (w_heap w)) = feedback F ann p j x l.
Proof.
  intros ann p j cs pv x one l Hc Hd Hx w v Ew Hpc Hpo Hpv Hvc Hcl Hlat Hone.
  destruct (recorded_saved ann p j x Hc Hd Hx) as [Sx Hj]. fold w v in Sx.
  destruct (recorded_good F ann p j no_override Hc Hd Hj) as [[W _] _]. fold w in W.
  assert (N0 : no_ctrl (w_heap w)) by (intros u; apply (wi_ctrl F [] w W)).
  assert (Hok : links_ok (link1 pv v) (flat w) cs).
  { intros q r E. unfold link1 in *. destruct (Nat.eqb_spec q pv) as [->|]; [|discriminate]. injection E as <-.
    destruct (Nat.eqb_spec v pv) as [K|]; [now symmetry in K|]. auto. }
  assert (Lv : link1 pv v v = None) by (unfold link1; destruct (Nat.eqb_spec v pv) as [K|]; [now symmetry in K|reflexivity]).
  assert (Main : forall l hist h prev, calls_controls w hist -> no_ctrl h -> saved h v = prev ->
    (forall u, u <> pv -> saved h u = saved (run_hist F (flat w) (w_heap w) hist) u) -> Forall (fun xs => length xs = length cs) l ->
    snd (p_calls F (link1 pv v) (flat w) (RF v cs one) l h) = feedback F ann p j prev l).
  { clear l. induction l as [|xs l IH]; intros hist h prev Hh Hn Hp Hs Hl; [reflexivity|]. inversion Hl as [|? ? L1 L2]; subst prev. cbn [p_calls feedback].
    set (hp := run_hist F (flat w) (w_heap w) hist) in *. set (rf2 := RF v (w_ctrls w) one).
    assert (L1' : length (xs ++ [saved h v]) = length (w_ctrls w)) by (rewrite Ew, !app_length, L1; reflexivity).
    pose proof (rf_call_rerun F ann p j (xs ++ [saved h v]) one hist Hc Hd Hj L1' Hh (or_intror Hcl)) as R. fold w v hp rf2 in R.
    destruct (hist_frame F (flat w) hist (w_heap w) N0) as [Np _]. fold hp in Np.
    destruct (rf_call_spec F (flat w) rf2 (xs ++ [saved h v]) hp Np L1') as [A' [B' _]].
    destruct (p_call_spec F (link1 pv v) (flat w) (RF v cs one) xs h Hn L1 Lv Hok Hlat) as [A [B [_ C]]]. cbn [rf_ctrls rf_J rf_scale] in A, B.
    destruct (geval_ext F (fun u => mem u cs) (fun u => mem u cs) (flat w) (given cs xs (fed (link1 pv v) (saved h)))
       (start_env hp (w_ctrls w) (xs ++ [saved h v])) (fun u => eq_refl)) as [E1 E2].
    { intros u. unfold given, start_env. rewrite Ew, supplied_snoc by assumption. unfold fed, link1. destruct (Nat.eqb_spec u pv) as [->|Hu].
      - pose proof (supplied_some cs xs pv L1) as Q. rewrite (proj2 (mem_false _ _) Hpc) in Q. destruct (supplied cs xs pv); [discriminate|reflexivity].
      - destruct (supplied cs xs u); [reflexivity|]. now apply Hs. }
    rewrite (geval_cut_outs (flat w) (fun u => mem u cs) (fun u => mem u (w_ctrls w)) (start_env hp (w_ctrls w) (xs ++ [saved h v]))) in E1, E2.
    2,3: intros u Hu; rewrite Ew; unfold mem; rewrite existsb_app; cbn; destruct (Nat.eqb_spec u pv) as [->|]; [contradiction|now rewrite !orb_false_r].
    cbn [rf_ctrls rf_J rf_scale rf2] in A', B'.
    assert (Er : snd (p_call F (link1 pv v) (flat w) (RF v cs one) xs h) = spec_rerun F ann p (xs ++ [saved h v]) j).
    { transitivity (snd (rf_call F (flat w) rf2 (xs ++ [saved h v]) hp)).
      - rewrite A, A', E1, E2. reflexivity.
      - rewrite R. destruct (spec_rerun F ann p (xs ++ [saved h v]) j); cbn; [now rewrite Hone|reflexivity]. }
    pose proof A as A0. rewrite Er in A0. clear A.
    destruct (p_call F (link1 pv v) (flat w) (RF v cs one) xs h) as [h1 r]. cbn [fst snd] in *. subst r.
    destruct (spec_rerun F ann p (xs ++ [saved h v]) j) as [y|e]; [|reflexivity].
    specialize (IH (hist ++ [ACall rf2 (xs ++ [saved h v])]) h1 y).
    destruct (p_calls F (link1 pv v) (flat w) (RF v cs one) l h1) as [h2 ys]. cbn [snd] in *. rewrite IH; auto.
    - intros rf' vals' K c Hcc. apply in_app_or in K as [K|[K|[]]]; [now apply (Hh rf' vals')|]. injection K as <- _. exact Hcc.
    - rewrite (B v Lv). destruct (snd (geval F (fun u => mem u cs) (flat w) (given cs xs (fed (link1 pv v) (saved h))))); [discriminate|].
      injection A0 as ->. now rewrite Hone.
    - intros u Hu. unfold run_hist. rewrite fold_left_app. fold (run_hist F (flat w) (w_heap w) hist). fold hp. cbn [fold_left api_run].
      specialize (B' u). destruct (rf_call F (flat w) rf2 (xs ++ [saved h v]) hp) as [h3 r3]. cbn [fst] in *. rewrite B'.
      rewrite B; [apply E2|]. unfold link1. destruct (Nat.eqb_spec u pv); [contradiction|reflexivity]. }
  intros Hl. apply (Main l [] (w_heap w) x); auto. intros rf vals [].
Qed.
End Program.
