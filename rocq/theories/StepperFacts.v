(** Facts about loops over tape.timestepper (C44). *)
From Coq Require Import List Arith ZArith Bool Lia.
From Verif Require Import Base Model BaseFacts Record Surgery Optimize TapeFacts Ckpt Stepper SpecStepper Instances.
Import ListNotations.

Section Grows.
Context {V : Type} (F : fops V).
Notation splits := (list (list (block V))).

(** The blocks [new] went into the last time step, which may have been created for them. *)
Inductive grows : splits -> splits -> list (block V) -> Prop :=
| gr_none : grows [] [] []
| gr_first new : grows [] [new] new
| gr_last ls l new : grows (ls ++ [l]) (ls ++ [l ++ new]) new.

Lemma grows_refl : forall ls, grows ls ls [].
Proof.
  intros ls. destruct ls as [|x r]; [constructor|]. destruct (@exists_last _ (x :: r)) as [l [y E]]; [discriminate|]. rewrite E.
  pose proof (gr_last l y []) as G. now rewrite app_nil_r in G.
Qed.
Lemma grows_trans : forall a b c n m, grows a b n -> grows b c m -> grows a c (n ++ m).
Proof.
  intros a b c n m H K. inversion H as [|new|ls l new]; subst; clear H.
  - exact K.
  - inversion K as [E|new E|ls l new E]; subst.
    destruct ls as [|q ls]; [cbn in E; injection E as ->; constructor|destruct ls; discriminate E].
  - inversion K as [E|new' E|ls' l' new' E]; subst.
    + destruct ls; discriminate.
    + destruct ls; discriminate.
    + apply app_inj_tail in E as [-> ->]. rewrite <- app_assoc. constructor.
Qed.
Lemma grows_concat : forall a b n, grows a b n -> concat b = concat a ++ n.
Proof. intros a b n H. inversion H; subst; cbn; rewrite ?app_nil_r; [reflexivity|reflexivity|]. rewrite !concat_app. cbn. now rewrite !app_nil_r, app_assoc. Qed.
Lemma grows_final : forall a b n, grows a b n -> a <> [] \/ n <> [] -> b = removelast a ++ [last a [] ++ n].
Proof.
  intros a b n H K. inversion H; subst; [|reflexivity|].
  - destruct K; congruence.
  - now rewrite removelast_last, last_last.
Qed.
Lemma grows_some : forall ls, grows ls (some_step ls) [].
Proof. intros ls. unfold some_step. destruct ls; [constructor|]. apply grows_refl. Qed.
Lemma grows_push : forall ls b, grows ls (push_last b ls) [b].
Proof.
  intros ls b. unfold push_last. destruct (rev ls) as [|l r] eqn:E; apply (f_equal (@rev _)) in E; rewrite rev_involutive in E; subst; [constructor|]. cbn. constructor.
Qed.

Definition tgrow (t t' : tape V) : Prop := exists n, grows (split_of t) (split_of t') n.
Lemma tgrow_refl : forall t, tgrow t t.
Proof. intros t. exists []. apply grows_refl. Qed.
Lemma tgrow_trans : forall a b c, tgrow a b -> tgrow b c -> tgrow a c.
Proof. intros a b c [n H] [m K]. exists (n ++ m). eapply grows_trans; eauto. Qed.
Lemma tgrow_top : forall t o, o <> TEnd -> tgrow t (run_top t o).
Proof.
  intros t o H. unfold tgrow. rewrite run_top_split. destruct o; cbn [split_step]; [|congruence| |]; eauto using grows_push, grows_some.
Qed.
Lemma tgrow_push : forall t b v z, tgrow t (last_push_out v (run_top (add_block t b) (TAdjdep v z))).
Proof.
  intros t b v z. set (t1 := run_top (add_block t b) (TAdjdep v z)).
  assert (E : split_of t1 = push_last b (split_of t)).
  { unfold t1. rewrite run_top_split. change (add_block t b) with (run_top t (TAdd b)). rewrite run_top_split. cbn [split_step]. unfold push_last.
    destruct (rev (split_of t)) as [|x r]; [reflexivity|]. destruct (rev r); reflexivity. }
  destruct (@exists_last _ (t_steps t1)) as [ss [s Es]].
  { intros K. unfold split_of in E at 1. rewrite K in E. cbn in E. unfold push_last in E. destruct (rev (split_of t)) as [|x r]; [discriminate E|]. destruct (rev r); discriminate E. }
  assert (E2 : split_of (last_push_out v t1) = map (@ts_blocks V) ss ++ [map_last (push_out v) (ts_blocks s)]).
  { unfold last_push_out, split_of. cbn [t_steps]. rewrite Es, map_last_app, map_app. reflexivity. }
  unfold split_of in E at 1. rewrite Es, map_app in E. cbn [map] in E. unfold tgrow. rewrite E2. exists [push_out v b].
  unfold push_last in E. destruct (rev (split_of t)) as [|l r] eqn:Er; apply (f_equal (@rev _)) in Er; rewrite rev_involutive in Er; rewrite Er; cbn [rev].
  - destruct ss as [|q ss]; [|destruct ss; discriminate E]. injection E as ->. constructor.
  - apply app_inj_tail in E as [-> ->]. rewrite map_last_app. constructor.
Qed.

Definition wgrow (w w' : world V) := tgrow (w_tape w) (w_tape w').
Lemma wgrow_eq : forall w w' : world V, w_tape w' = w_tape w -> wgrow w w'.
Proof. intros w w' H. unfold wgrow. rewrite H. apply tgrow_refl. Qed.
Lemma add_deps_grow : forall os (w : world V), wgrow w (fst (add_deps w os)).
Proof.
  induction os as [|o os IH]; intros w; [apply tgrow_refl|]. cbn [add_deps]. unfold add_dep. pose proof (get_bv_tape w o) as K.
  destruct (get_bv w o) as [w1 v]. cbn [fst] in K. specialize (IH (will_dep w1 v)). destruct (add_deps (will_dep w1 v) os). cbn [fst] in *.
  eapply tgrow_trans; [|exact IH]. destruct (will_dep_tape w1 v) as [z ->]. rewrite K. apply tgrow_top. discriminate.
Qed.
Lemma add_outs_grow : forall os (w : world V), wgrow w (fst (add_outs w os)).
Proof.
  induction os as [|o os IH]; intros w; [apply tgrow_refl|]. cbn [add_outs]. pose proof (create_bv_tape w o) as K.
  destruct (create_bv w o) as [w1 v]. cbn [fst] in K. specialize (IH (will_out w1 v)). destruct (add_outs (will_out w1 v) os). cbn [fst] in *.
  eapply tgrow_trans; [|exact IH]. destruct (will_out_tape w1 v) as [z ->]. rewrite K. apply tgrow_top. discriminate.
Qed.
Lemma push_grow : forall (w : world V) b v w', w_tape w' = w_tape (with_tape (fun t => add_block t b) w) ->
  wgrow w (with_tape (last_push_out v) (will_out w' v)).
Proof.
  intros w b v w' E. unfold wgrow. cbn [with_tape w_tape]. destruct (will_out_tape w' v) as [z Ez]. rewrite Ez, E. cbn [with_tape w_tape]. apply tgrow_push.
Qed.
Lemma add_grow : forall (t : tape V) b, tgrow t (add_block t b).
Proof. intros t b. apply (tgrow_top t (TAdd b)). discriminate. Qed.

Lemma exec_stmt_grow : forall (w : world V) s, s <> SEndStep -> wgrow w (fst (exec_stmt F w s)).
Proof.
  intros w s Hs. pose proof (tgrow_refl (w_tape w)) as H. destruct s; cbn [exec_stmt]; try congruence.
  - exact H.
  - unfold exec_op. destruct (negb _); [exact H|]. destruct (arg_vals w args) as [xs|]; [|exact H]. destruct (op_value F k xs) as [y|]; [|exact H].
    cbn [new_obj]. set (w1 := with_objs _ w). destruct (w_ann w); [|exact H].
    pose proof (get_bvs_tape args w1) as K1. destruct (get_bvs w1 args) as [w2 terms]. cbn [fst] in K1.
    pose proof (add_deps_grow args w2) as K3. unfold wgrow in K3. rewrite K1 in K3. cbn [w_tape w1 with_objs] in K3.
    destruct (add_deps w2 args) as [w3 ds]. cbn [fst] in K3. set (b := Blk k terms [] None).
    pose proof (get_bv_tape (with_tape (fun t => add_block t b) w3) (length (w_objs w))) as K4.
    destruct (get_bv _ (length (w_objs w))) as [w5 v]. cbn [fst] in K4 |- *. eapply tgrow_trans; [exact K3|]. exact (push_grow w3 b v w5 K4).
  - unfold exec_fun. destruct (negb _); [exact H|]. destruct (arg_vals w args) as [xs|]; [|exact H].
    pose proof (add_deps_grow args w) as K3. destruct (w_ann w && annotate).
    + destruct (add_deps w args) as [w3 ds]. cbn [fst] in K3. set (b := Blk k ds [] None).
      destruct (op_value F k xs) as [y|]; [|eapply tgrow_trans; [exact K3|apply add_grow]].
      cbn [new_obj]. set (w4 := with_objs _ _).
      pose proof (get_bv_tape w4 (length (w_objs (with_tape (fun t => add_block t b) w3)))) as K4.
      destruct (get_bv w4 _) as [w5 v]. cbn [fst] in K4 |- *. eapply tgrow_trans; [exact K3|]. exact (push_grow w3 b v w5 K4).
    + destruct (op_value F k xs); exact H.
  - unfold exec_user. destruct (arg_vals w args) as [xs|]; [|exact H]. pose proof (add_deps_grow args w) as K3.
    destruct (w_ann w && annotate).
    + destruct (add_deps w args) as [w1 ds]. cbn [fst] in K3. destruct (func xs) as [ys|]; [|exact K3].
      pose proof (new_objs_tape ys w1) as K4. destruct (new_objs w1 ys) as [w2 os]. cbn [fst] in K4.
      pose proof (add_outs_grow os w2) as K6. unfold wgrow in K6. rewrite K4 in K6.
      destruct (add_outs w2 os) as [w3 vs]. cbn [fst] in K6 |- *. eapply tgrow_trans; [exact K3|]. eapply tgrow_trans; [exact K6|]. apply add_grow.
    + destruct (func xs) as [ys|]; [|exact H]. pose proof (new_objs_tape ys w) as K4. destruct (new_objs w ys). cbn in *. now apply wgrow_eq.
  - unfold exec_inpl. destruct (arg_vals w args) as [xs|]; [|exact H]. destruct (nth_error (w_objs w) o); [|exact H].
    pose proof (add_deps_grow args w) as K3.
    assert (A : forall w' : world V, forall y, w_tape (assign_obj w' o y) = w_tape w') by (intros w' y; unfold assign_obj; destruct (nth_error (w_objs w') o); reflexivity).
    destruct (w_ann w && annotate).
    + destruct (add_deps w args) as [w1 ds]. cbn [fst] in K3. destruct (func xs) as [y|]; [|exact K3].
      pose proof (add_outs_grow [o] (assign_obj w1 o y)) as K6. unfold wgrow in K6. rewrite A in K6.
      destruct (add_outs (assign_obj w1 o y) [o]) as [w3 vs]. cbn [fst] in K6 |- *. eapply tgrow_trans; [exact K3|]. eapply tgrow_trans; [exact K6|]. apply add_grow.
    + destruct (func xs) as [y|]; [|exact H]. cbn [fst]. apply wgrow_eq. apply A.
  - destruct (nth_error (w_objs w) o) eqn:E; [|exact H]. cbn [fst]. apply wgrow_eq. unfold clear_bv, assign_obj. rewrite E. cbn.
    match goal with |- context[match ?x with _ => _ end] => destruct x end; reflexivity.
  - exact H.
  - exact H.
  - destruct (nth_error (w_objs w) o) as [ob|] eqn:E; [|exact H]. destruct (o_bv ob); [|exact H]. destruct (referenced w n); [exact H|].
    cbn [fst]. unfold clear_bv. rewrite E. exact H.
  - destruct (nth_error (w_objs w) o); [|exact H]. pose proof (get_bv_tape w o) as K. destruct (get_bv w o). cbn in *. apply wgrow_eq. exact K.
  - destruct (nth_error (w_objs w) o); [|exact H]. pose proof (get_bv_tape w o) as K. destruct (get_bv w o). cbn in *. apply wgrow_eq. exact K.
Qed.

Lemma list_set_blocks : forall (l : list (tstep V)) i x y, nth_error l i = Some y -> ts_blocks x = ts_blocks y ->
  map (@ts_blocks V) (list_set l i x) = map (@ts_blocks V) l.
Proof.
  induction l as [|z l IH]; intros i x y H E; [reflexivity|]. destruct i; cbn in *; [injection H as ->; now rewrite E|]. f_equal. eapply IH; eauto.
Qed.
Lemma put_blocks : forall v x (s : tstep V), ts_blocks (ts_put v x s) = ts_blocks s.
Proof. reflexivity. Qed.
Lemma ts_checkpoint_blocks : forall h g a b (s : tstep V), ts_blocks (fst (ts_checkpoint h g a b s)) = ts_blocks s.
Proof.
  intros h g a b s. unfold ts_checkpoint.
  assert (S1 : forall v (s : tstep V), ts_blocks (fst (store_saved h s v)) = ts_blocks s) by (intros v s0; unfold store_saved; repeat match goal with |- context[match ?x with _ => _ end] => destruct x end; reflexivity).
  assert (S2 : forall v (s : tstep V), ts_blocks (fst (store_state h g s v)) = ts_blocks s) by (intros v s0; unfold store_state; destruct (mem v g); [|apply S1]; repeat match goal with |- context[match ?x with _ => _ end] => destruct x end; reflexivity).
  assert (L : forall (f : tstep V -> nat -> tstep V * option exn) l s, (forall v s, ts_blocks (fst (f s v)) = ts_blocks s) -> ts_blocks (fst (iter_o f l s)) = ts_blocks s).
  { intros f l. induction l as [|v l IH]; intros s0 Hf; [reflexivity|]. cbn. pose proof (Hf v s0) as K. destruct (f s0 v) as [s1 [e|]]; cbn in *; [exact K|]. rewrite IH by exact Hf. exact K. }
  assert (A1 : ts_blocks (fst (if a then iter_o (store_state h g) (ts_state s) s else (s, None))) = ts_blocks s) by (destruct a; [apply L, S2|reflexivity]).
  destruct (if a then iter_o (store_state h g) (ts_state s) s else (s, None)) as [s1 [e|]]; cbn [andthen fst] in *; [exact A1|].
  destruct b; [|exact A1]. rewrite L by exact S1. exact A1.
Qed.

Definition same_flat (s s' : cst V) (extra : splits) : Prop :=
  split_of (c_tape s') = split_of (c_tape s) ++ extra /\ t_flat (c_tape s') = t_flat (c_tape s) /\
  cm_total (c_man s') = cm_total (c_man s).

Lemma taping_store_blocks : forall n0 ics adj t (s : cst V), same_flat s (fst (taping_store n0 ics adj t s)) [].
Proof.
  intros n0 ics adj t s. unfold taping_store. destruct (nth_error (t_steps (c_tape s)) (t - 1)) as [cur|] eqn:E.
  2:{ unfold same_flat. cbn. rewrite app_nil_r. auto. }
  match goal with |- context[ts_checkpoint ?h ?g ?a ?b ?c] => pose proof (ts_checkpoint_blocks h g a b c) as K; destruct (ts_checkpoint h g a b c) as [cur1 e] end.
  cbn [fst] in K.
  assert (Q : forall (s0 : cst V), t_steps (c_tape s0) = t_steps (c_tape s) -> split_of (c_tape (put_step (t - 1) cur1 s0)) = split_of (c_tape s) ++ []).
  { intros s0 E0. unfold put_step, on_tape_, split_of, set_steps. cbn [c_tape t_steps]. rewrite app_nil_r, E0. eapply list_set_blocks; eauto. }
  destruct e as [e|]; unfold same_flat; cbn [fst on_heap c_tape c_man]; (split; [apply Q; reflexivity|split; reflexivity]).
Qed.
(** ** Ending a time step *)
Definition ctotal (cw : cworld V) : option nat := match cw_man cw with None => None | Some m => cm_total m end.
Definition cbl (cw : cworld V) : splits := split_of (w_tape (cw_w cw)).
Definition cflat (cw : cworld V) : list (block V) := t_flat (w_tape (cw_w cw)).
Definition step_result (s s' : cst V) (t : nat) (good : bool) : Prop :=
  exists extra, same_flat s s' extra /\ (extra = [] \/ good = true /\ extra = [[]]) /\ (good = true -> cm_total (c_man s) <> Some t -> extra = [[]]).
Lemma process_taping_blocks : forall a t (s : cst V),
  step_result s (fst (process_taping a t s)) t (match snd (process_taping a t s) with Ok b => b | _ => false end).
Proof.
  assert (R : forall (s : cst V) t, step_result s s t false) by (intros s t; exists []; unfold same_flat; rewrite app_nil_r; repeat split; auto; discriminate).
  intros a t s. unfold process_taping. destruct a as [n0 n1 ics adj st| | | | | ]; try apply R.
  - destruct (Nat.ltb t n0); [apply R|]. set (s1 := on_tape_ (set_eager adj) s).
    assert (K : same_flat s (fst (if Nat.ltb n0 t && negb (is_work st) then taping_store n0 ics adj t s1 else (s1, None))) []).
    { destruct (Nat.ltb n0 t && negb (is_work st)); [exact (taping_store_blocks n0 ics adj t s1)|]. unfold same_flat. cbn. rewrite app_nil_r. auto. }
    destruct (if Nat.ltb n0 t && negb (is_work st) then taping_store n0 ics adj t s1 else (s1, None)) as [s2 [e|]]; cbn [fst] in K; [exists []; repeat split; auto; try apply K; discriminate|].
    destruct (in_fwd t n0 n1 && lt_total t (c_man s2)); [|exists []; repeat split; auto; try apply K; discriminate].
    destruct K as [K1 [K2 K3]]. rewrite app_nil_r in K1. exists [[]].
    destruct ics; cbn [fst snd]; (split; [|auto]); unfold same_flat; cbn; (split; [|split; assumption]);
      unfold split_of in *; cbn; rewrite map_app, K1; reflexivity.
  - destruct (cm_total (c_man s)) as [n|] eqn:En; [|apply R]. destruct (Nat.eqb_spec t n); [|apply R]. subst n.
    exists []. unfold same_flat. cbn. rewrite app_nil_r. split; [auto|]. split; [auto|]. intros _ K. congruence.
Qed.
Lemma taping_loop_blocks : forall fuel t (s : cst V),
  step_result s (fst (taping_loop fuel t s)) t (negb (is_some (snd (taping_loop fuel t s)))).
Proof.
  induction fuel as [|fuel IH]; intros t s; cbn [taping_loop]; pose proof (process_taping_blocks (cm_cur (c_man s)) t s) as K;
    destruct (process_taping (cm_cur (c_man s)) t s) as [s1 [[]|e]]; cbn [fst snd] in *; try exact K.
  - destruct (next_act (c_man s1)); exact K.
  - destruct (next_act (c_man s1)) as [a|]; [|exact K]. destruct K as [x1 [[K1 [K2 K3]] [K4 K5]]].
    assert (x1 = []) by (destruct K4 as [K4|[K4 _]]; [exact K4|discriminate K4]). subst x1. rewrite app_nil_r in K1.
    destruct (IH t (on_man (push_fwd a) s1)) as [x2 [[L1 [L2 L3]] [L4 L5]]]. cbn [on_man c_tape c_man push_fwd cm_total] in *.
    exists x2. unfold same_flat. rewrite L1, L2, L3, K1, K2, K3. split; [auto|]. split; [exact L4|]. now rewrite K3 in L5.
Qed.

(** Ending a time step opens an empty one, unless the number of steps announced by the schedule is reached. *)
Lemma end_step : forall cw : cworld V, let r := cexec_stmt F cw SEndStep in
  exists extra, cbl (fst r) = cbl cw ++ extra /\ cflat (fst r) = cflat cw /\ ctotal (fst r) = ctotal cw /\
    (extra = [] \/ snd r = None /\ extra = [[]]) /\
    (snd r = None -> cw_man cw = None \/ (cbl cw <> [] /\ ctotal cw <> Some (length (cbl cw))) -> extra = [[]]) /\
    (cw_man cw = None -> cw_man (fst r) = None /\ snd r = None).
Proof.
  intros cw r. subst r. unfold cexec_stmt, ctotal. destruct (cw_man cw) as [m|] eqn:Em.
  - set (t := S _). unfold cm_end_timestep. cbn [cw_cst c_man].
    assert (T : cbl cw <> [] -> t = length (cbl cw)).
    { intros Hn. unfold t, latest_timestep, cbl, split_of in *. rewrite map_length. destruct (t_steps (w_tape (cw_w cw))); [cbn in Hn; congruence|]. cbn [length]. lia. }
    assert (R : exists extra : splits, cbl cw = cbl cw ++ extra /\ (extra = [] \/ Some ECheckpoint = None /\ extra = [[]]) /\
              (Some ECheckpoint = None -> Some m = None \/ cbl cw <> [] /\ cm_total m <> Some (length (cbl cw)) -> extra = [[]])).
    { exists []. rewrite app_nil_r. split; [reflexivity|]. split; [auto|discriminate]. }
    destruct R as [x [R1 [R2 R3]]].
    destruct (cm_mode m) eqn:Ek; try (exists x; repeat split; auto; discriminate).
    pose proof (taping_loop_blocks (left_acts m) t (cw_cst (cw_w cw) m)) as K.
    destruct (taping_loop (left_acts m) t (cw_cst (cw_w cw) m)) as [s1 e]. cbn [fst snd] in *.
    destruct K as [y [[K1 [K2 K3]] [K4 K5]]]. exists y. unfold cbl, cflat. cbn in *. repeat split; auto; try discriminate.
    + destruct K4 as [K4|[K4 K6]]; [auto|]. right. split; [|exact K6]. destruct e; [discriminate K4|reflexivity].
    + intros -> [H|[Hn Ht]]; [discriminate|]. apply K5; [reflexivity|]. rewrite (T Hn). exact Ht.
  - exists [[]]. unfold cbl, cflat, split_of. cbn. rewrite map_app. repeat split; auto.
Qed.


(** ** Statements of the body *)
Definition ccoh (cw : cworld V) := coherent (w_tape (cw_w cw)).
Lemma plain_stmt : forall cw s, s <> SEndStep ->
  (exists n, grows (cbl cw) (cbl (fst (cexec_stmt F cw s))) n) /\ cw_man (fst (cexec_stmt F cw s)) = cw_man cw /\
  (ccoh cw -> ccoh (fst (cexec_stmt F cw s))).
Proof.
  intros cw s Hs. pose proof (exec_stmt_grow (cw_w cw) s Hs) as G. pose proof (exec_stmt_coh F (cw_w cw) s) as C.
  unfold cexec_stmt. destruct s; try congruence; destruct (exec_stmt F (cw_w cw) _) as [w1 e]; cbn [fst cw_w cw_man] in *; auto.
Qed.
Lemma plain_stmts : forall p cw, (forall s, In s p -> s <> SEndStep) ->
  (exists n, grows (cbl cw) (cbl (fst (iter_o (cexec_stmt F) p cw))) n) /\ cw_man (fst (iter_o (cexec_stmt F) p cw)) = cw_man cw /\
  (ccoh cw -> ccoh (fst (iter_o (cexec_stmt F) p cw))).
Proof.
  induction p as [|s p IH]; intros cw Hp; [split; [exists []; apply grows_refl|auto]|]. cbn [iter_o].
  destruct (plain_stmt cw s (Hp s (or_introl eq_refl))) as [[n G] [M C]]. destruct (cexec_stmt F cw s) as [cw1 [e|]]; cbn [fst] in *; [eauto|].
  destruct (IH cw1 (fun q Hq => Hp q (or_intror Hq))) as [[m G2] [M2 C2]]. split; [|split; [congruence|auto]]. exists (n ++ m). eapply grows_trans; eauto.
Qed.

Definition fresh_blocks (cw cw' : cworld V) : list (block V) := skipn (length (cflat cw)) (cflat cw').
Lemma run_body_grows : forall p cw cw' o, (forall s, In s (fst p) -> s <> SEndStep) -> ccoh cw -> run_body F p cw = (cw', o) ->
  grows (cbl cw) (cbl cw') (fresh_blocks cw cw') /\ cflat cw' = cflat cw ++ fresh_blocks cw cw' /\ cw_man cw' = cw_man cw /\ ccoh cw'.
Proof.
  intros p cw cw' o Hp Hc H. unfold run_body in H. destruct (plain_stmts (fst p) cw Hp) as [[n G] [M C]]. specialize (C Hc).
  destruct (iter_o (cexec_stmt F) (fst p) cw) as [cw1 e]. cbn [fst] in *. assert (E : cw' = cw1) by (destruct e; congruence). subst cw1.
  assert (Fl : cflat cw' = cflat cw ++ n).
  { unfold cflat. rewrite C, Hc. exact (grows_concat _ _ _ G). }
  assert (Fr : fresh_blocks cw cw' = n) by (unfold fresh_blocks; rewrite Fl, skipn_app, skipn_all2, Nat.sub_diag by lia; reflexivity).
  rewrite Fr. auto.
Qed.
End Grows.

Section Loop.
Context {V A : Type} (F : fops V) (body : body_fun V A).
Hypothesis Hbody : forall k x u s, In s (fst (body k x u)) -> s <> SEndStep.
Implicit Types (cw : cworld V) (log : list (entry V A)).

Definition e_item (e : entry V A) : A := fst (fst e).
Definition e_new (e : entry V A) : list (block V) := fresh_blocks (snd (fst e)) (snd e).

(** What the log of a loop that starts at iteration [k] says, wherever the blocks went. *)
Definition log_ok (k : nat) (items : list A) log (out : outcome) : Prop :=
  map e_item log = firstn (length log) items /\
  (forall j x u u', nth_error log j = Some (x, u, u') ->
     fst (run_body F (body (k + j) x u) u) = u' /\ (S j < length log -> snd (run_body F (body (k + j) x u) u) = Continue)) /\
  (out = Left -> exists j x u u', nth_error log j = Some (x, u, u') /\ S j = length log /\ snd (run_body F (body (k + j) x u) u) = Break) /\
  (forall j x u u', nth_error log j = Some (x, u, u') -> S j = length log -> ends (snd (run_body F (body (k + j) x u) u)) out).

Lemma log_ok_nil : forall k items out, out <> Left -> log_ok k items [] out.
Proof. intros k items out H. split; [reflexivity|]. split; [intros [] ? ? ? E; discriminate E|]. split; [congruence|]. intros [] ? ? ? E; discriminate E. Qed.
Lemma log_ok_one : forall k x items u u' r out, run_body F (body k x u) u = (u', r) -> r <> Continue -> (out = Left -> r = Break) -> ends r out ->
  log_ok k (x :: items) [(x, u, u')] out.
Proof.
  intros k x items u u' r out H Hr Ho He. split; [reflexivity|]. split; [|split].
  - intros [|[|j]] y v v' E; cbn in E; try discriminate E. injection E as <- <- <-. rewrite Nat.add_0_r, H. split; [reflexivity|]. cbn. lia.
  - intros El. exists 0, x, u, u'. rewrite Nat.add_0_r, H. cbn. auto.
  - intros [|[|j]] y v v' E; cbn in E; try discriminate E. injection E as <- <- <-. rewrite Nat.add_0_r, H. intros _. exact He.
Qed.
Lemma log_ok_cons : forall k x items u u' log out, run_body F (body k x u) u = (u', Continue) -> log_ok (S k) items log out -> (log = [] -> out <> Left) ->
  log_ok k (x :: items) ((x, u, u') :: log) out.
Proof.
  intros k x items u u' log out H [A1 [A2 [A3 A4]]] Hn. split; [cbn; now rewrite A1|]. split; [|split].
  - intros [|j] y v v' E; cbn in E.
    + injection E as <- <- <-. rewrite Nat.add_0_r, H. auto.
    + replace (k + S j) with (S k + j) by lia. destruct (A2 j y v v' E) as [B1 B2]. split; [exact B1|]. cbn. intros Hj. apply B2. lia.
  - intros El. destruct (A3 El) as [j [y [v [v' [B1 [B2 B3]]]]]]. exists (S j), y, v, v'. replace (k + S j) with (S k + j) by lia. cbn. auto.
  - intros [|j] y v v' E Hl; cbn in E.
    + injection E as <- <- <-. rewrite Nat.add_0_r, H. cbn in Hl. destruct log; [exact (Hn eq_refl) | discriminate].
    + replace (k + S j) with (S k + j) by lia. apply (A4 j y v v' E). cbn in Hl. lia.
Qed.
Lemma log_ok_left : forall k items log out, log_ok k items log out -> log = [] -> out <> Left.
Proof. intros k items log out [_ [_ [A3 _]]] -> ->. destruct (A3 eq_refl) as [j [x [u [u' [E _]]]]]. destruct j; discriminate E. Qed.

(** After the first iteration. *)
Definition room cw (n : nat) : Prop := cw_man cw = None \/ (cbl cw <> [] /\ forall tot, ctotal cw = Some tot -> length (cbl cw) + n <= tot).

Lemma end_coh : forall cw, ccoh cw -> ccoh (fst (cexec_stmt F cw SEndStep)).
Proof.
  intros cw H. destruct (end_step F cw) as [x [E1 [E2 [_ [E3 _]]]]]. unfold ccoh, coherent, cbl, cflat in *. rewrite E1, E2, concat_app, H.
  destruct E3 as [->|[_ ->]]; cbn; now rewrite app_nil_r.
Qed.

Lemma loop_rest : forall items e fuel k cw, length items < fuel -> ccoh cw ->
  exists cw' log out, for_loop F fuel k (Stepper (Iterator items e) false) cw body = Some (cw', log, out) /\
    log_ok k items log out /\
    (cw_man cw = None -> out = Finished -> length log = length items) /\
    Forall (fun en => cflat (snd en) = cflat (snd (fst en)) ++ e_new en) log /\
    (room cw (length items) -> cbl cw' = cbl cw ++ map e_new log).
Proof.
  induction items as [|x items IH]; intros e fuel k cw Hf Hc; (destruct fuel as [|fuel]; [cbn in Hf; lia|]); cbn [for_loop sp_next it_next sp_it sp_first].
  - destruct e as [[]|]; (eexists _, [], _; split; [reflexivity|]; split; [apply log_ok_nil; discriminate|]; split; [intros _ K; try discriminate K; reflexivity|]; split; [constructor|]; intros _; cbn; now rewrite app_nil_r).
  - cbn [sp_next it_next sp_it sp_first]. unfold sp_next. cbn [it_next sp_it sp_first].
    destruct (end_step F cw) as [ex [E1 [E2 [E3 [E4 [E5 E6]]]]]]. pose proof (end_coh cw Hc) as Hc1.
    destruct (cexec_stmt F cw SEndStep) as [cw1 [er|]]; cbn [fst snd] in *.
    { assert (ex = []) by (destruct E4 as [E4|[E4 _]]; [exact E4|discriminate E4]). subst ex.
      destruct er; (eexists _, [], _; split; [reflexivity|]; split; [apply log_ok_nil; discriminate|]; split; [intros Km K; try discriminate K; destruct (E6 Km) as [_ K']; discriminate K'|]; split; [constructor|]; intros _; exact E1). }
    destruct (run_body F (body k x cw1) cw1) as [cw2 r] eqn:Er.
    destruct (run_body_grows F _ _ _ _ (Hbody k x cw1) Hc1 Er) as [G [Fl [M Hc2]]].
    assert (Q : room cw (length (x :: items)) -> cbl cw2 = cbl cw ++ [fresh_blocks cw1 cw2]).
    { intros R. assert (ex = [[]]).
      { apply E5; [reflexivity|]. destruct R as [R|[R1 R2]]; [auto|]. right. split; [exact R1|]. intros K. specialize (R2 _ K). cbn in R2. lia. }
      subst ex. rewrite (grows_final _ _ _ G) by (left; rewrite E1; destruct (cbl cw); discriminate). rewrite E1, removelast_last, last_last. reflexivity. }
    destruct r as [| |er].
    + destruct (IH e fuel (S k) cw2 ltac:(cbn in Hf; lia) Hc2) as [cw' [log [out [I1 [I2 [I3 [I4 I5]]]]]]]. rewrite I1.
      exists cw', ((x, cw1, cw2) :: log), out. split; [reflexivity|]. split; [apply log_ok_cons; [assumption | assumption | exact (log_ok_left _ _ _ _ I2)]|]. split; [|split].
      * intros Km Ko. cbn. f_equal. apply I3; [|exact Ko]. rewrite M. apply (E6 Km).
      * constructor; assumption.
      * intros R. rewrite I5. { rewrite (Q R), <- app_assoc. reflexivity. }
        destruct R as [R|[R1 R2]]; [left; rewrite M; apply (E6 R)|]. right. rewrite (Q (or_intror (conj R1 R2))). split; [destruct (cbl cw); discriminate|].
        intros tot Ht. rewrite app_length. cbn [length]. specialize (R2 tot). cbn [length] in R2. unfold ctotal in *. rewrite M in Ht. rewrite E3 in Ht. specialize (R2 Ht). lia.
    + exists cw2, [(x, cw1, cw2)], Left. split; [reflexivity|]. split; [eapply log_ok_one; eauto; (discriminate || reflexivity)|]. split; [discriminate|]. split; [constructor; auto|]. exact Q.
    + exists cw2, [(x, cw1, cw2)], (Raised er). split; [reflexivity|]. split; [eapply log_ok_one; eauto; (discriminate || reflexivity)|]. split; [discriminate|]. split; [constructor; auto|]. exact Q.
Qed.

(** The whole loop. *)
Lemma loop_all : forall items e fuel cw, length items < fuel -> ccoh cw ->
  exists cw' log out, for_loop F fuel 0 (Stepper (Iterator items e) true) cw body = Some (cw', log, out) /\
    log_ok 0 items log out /\
    (cw_man cw = None -> out = Finished -> length log = length items) /\
    Forall (fun en => cflat (snd en) = cflat (snd (fst en)) ++ e_new en) log /\
    (log = [] -> cw' = cw) /\
    ((forall tot, ctotal cw = Some tot -> max 1 (length (cbl cw)) + length items <= S tot) ->
     cbl cw <> [] \/ hd [] (map e_new log) <> [] -> log <> [] ->
     cbl cw' = removelast (cbl cw) ++ (last (cbl cw) [] ++ hd [] (map e_new log)) :: tl (map e_new log)).
Proof.
  intros items e fuel cw Hf Hc. destruct fuel as [|fuel]; [lia|]. destruct items as [|x items]; cbn [for_loop]; unfold sp_next; cbn [it_next sp_it sp_first].
  - destruct e as [[]|]; (eexists _, [], _; split; [reflexivity|]; split; [apply log_ok_nil; discriminate|]; split; [intros _ K; try discriminate K; reflexivity|]; split; [constructor|]; split; [auto|congruence]).
  - destruct (run_body F (body 0 x cw) cw) as [cw2 r] eqn:Er.
    destruct (run_body_grows F _ _ _ _ (Hbody 0 x cw) Hc Er) as [G [Fl [M Hc2]]]. pose proof (grows_final _ _ _ G) as Q.
    destruct r as [| |er].
    + destruct (loop_rest items e fuel 1 cw2 ltac:(cbn in Hf; lia) Hc2) as [cw' [log [out [I1 [I2 [I3 [I4 I5]]]]]]]. rewrite I1.
      exists cw', ((x, cw, cw2) :: log), out. split; [reflexivity|]. split; [apply log_ok_cons; [assumption | assumption | exact (log_ok_left _ _ _ _ I2)]|]. split; [|split; [|split; [discriminate|]]].
      * intros Km Ko. cbn. f_equal. apply I3; [|exact Ko]. congruence.
      * constructor; assumption.
      * intros R N _. cbn [map hd tl] in *. change (e_new (x, cw, cw2)) with (fresh_blocks cw cw2) in *. specialize (Q N).
        rewrite I5; [rewrite Q, <- app_assoc; reflexivity|].
        unfold room. rewrite M. destruct (cw_man cw) as [m|] eqn:Em; [|auto]. right. rewrite Q. split; [destruct (removelast (cbl cw)); discriminate|].
        intros tot Ht. unfold ctotal in *. rewrite M, Em in *. specialize (R tot Ht). rewrite app_length. cbn [length] in *.
        destruct (cbl cw) as [|q ql] eqn:Eq; [cbn in *; lia|]. assert (L : S (length (removelast (cbl cw))) = length (cbl cw)).
        { rewrite (app_removelast_last [] (l := cbl cw)) at 2 by congruence. rewrite app_length. cbn. lia. }
        rewrite Eq in L. lia.
    + exists cw2, [(x, cw, cw2)], Left. split; [reflexivity|]. split; [eapply log_ok_one; eauto; (discriminate || reflexivity)|]. split; [discriminate|]. split; [constructor; auto|]. split; [discriminate|]. intros _ N _. exact (Q N).
    + exists cw2, [(x, cw, cw2)], (Raised er). split; [reflexivity|]. split; [eapply log_ok_one; eauto; (discriminate || reflexivity)|]. split; [discriminate|]. split; [constructor; auto|]. split; [discriminate|]. intros _ N _. exact (Q N).
Qed.

(** Iterables with a __next__ behind the progress bar. *)
Lemma step_loop_ok : forall b (it : iterable A) cw, b = GeneratorBar \/ (exists l e, it = Iterator l e) -> ccoh cw ->
  exists cw' log out, step_loop F b it cw body = Some (cw', log, out) /\
    log_ok 0 (items_of it) log out /\
    (cw_man cw = None -> out = Finished -> length log = length (items_of it)) /\
    Forall (fun en => cflat (snd en) = cflat (snd (fst en)) ++ e_new en) log /\
    (log = [] -> cw' = cw) /\
    ((forall tot, ctotal cw = Some tot -> max 1 (length (cbl cw)) + length (items_of it) <= S tot) ->
     cbl cw <> [] \/ hd [] (map e_new log) <> [] -> log <> [] ->
     cbl cw' = removelast (cbl cw) ++ (last (cbl cw) [] ++ hd [] (map e_new log)) :: tl (map e_new log)).
Proof.
  intros b it cw H Hc. unfold step_loop, timestepper.
  assert (E : exists e, bar_iter b it = Iterator (items_of it) e) by (destruct H as [->|[l [e ->]]]; [destruct it; cbn; eauto|destruct b; cbn; eauto]).
  destruct E as [e ->]. apply loop_all; [lia|exact Hc].
Qed.
End Loop.

Lemma run_performs : forall (V : Type) (F : fops V) p (cw : cworld V), performs F p cw (fst (run_body F p cw)) (snd (run_body F p cw)).
Proof.
  intros V F p cw. unfold run_body, performs. destruct (iter_o (cexec_stmt F) (fst p) cw) as [cw1 [e|]]; [right; exists e | left]; auto.
Qed.

Theorem step_loop_spec : forall (V A : Type) (F : fops V) (b : bar) (it : iterable A) (cw : cworld V) (body : body_fun V A),
  b = GeneratorBar \/ (exists l e, it = Iterator l e) ->
  (forall k x u s, In s (fst (body k x u)) -> s <> SEndStep) ->
  consistent cw ->
  exists cw' log out, step_loop F b it cw body = Some (cw', log, out) /\
    map item log = firstn (length log) (items_of it) /\
    (cw_man cw = None -> out = Finished -> map item log = items_of it) /\
    (forall k e, nth_error log k = Some e -> exists l,
       performs F (body k (item e) (before e)) (before e) (after e) l /\ (S k < length log -> l = Continue) /\ (S k = length log -> ends l out) /\
       blocks_of (after e) = blocks_of (before e) ++ work e) /\
    (out = Left -> exists k e, nth_error log k = Some e /\ S k = length log /\ performs F (body k (item e) (before e)) (before e) (after e) Break) /\
    (log = [] -> cw' = cw) /\
    ((forall n, announced cw = Some n -> max 1 (length (steps_of cw)) + length (items_of it) <= S n) ->
     steps_of cw <> [] \/ hd [] (map work log) <> [] -> log <> [] ->
     steps_of cw' = removelast (steps_of cw) ++ (last (steps_of cw) [] ++ hd [] (map work log)) :: tl (map work log)).
Proof.
  intros V A F b it cw body Hit Hbody Hc. destruct (step_loop_ok F body Hbody b it cw Hit Hc) as [cw' [log [out [E1 [[L1 [L2 [L3 L4]]] [E2 [E3 [E4 E5]]]]]]]].
  exists cw', log, out. split; [exact E1|]. split; [exact L1|]. split; [|split; [|split; [|split; [exact E4|exact E5]]]].
  - intros Km Ko. change (map item log) with (map e_item log). rewrite L1, (E2 Km Ko). apply firstn_all.
  - intros k [[x u] u'] He. destruct (L2 k x u u' He) as [A1 A2]. exists (snd (run_body F (body k x u) u)). unfold item, before, after. cbn [fst snd].
    split; [rewrite <- A1; apply run_performs|]. split; [exact A2|]. split; [exact (L4 k x u u' He)|]. rewrite Forall_forall in E3. exact (E3 _ (nth_error_In _ _ He)).
  - intros Ko. destruct (L3 Ko) as [j [x [u [u' [B1 [B2 B3]]]]]]. exists j, (x, u, u'). split; [exact B1|]. split; [exact B2|]. unfold item, before, after. cbn [fst snd]. rewrite <- (proj1 (L2 _ _ _ _ B1)), <- B3. apply run_performs.
Qed.
Theorem step_loop_fresh : forall (V A : Type) (F : fops V) (b : bar) (it : iterable A) (w : world V) (body : body_fun V A) cw' log out,
  b = GeneratorBar \/ (exists l e, it = Iterator l e) ->
  (forall k x u s, In s (fst (body k x u)) -> s <> SEndStep) ->
  w_tape w = tape_new -> step_loop F b it (CW w None) body = Some (cw', log, out) -> hd [] (map work log) <> [] ->
  steps_of cw' = map work log.
Proof.
  intros V A F b it w body cw' log out Hit Hbody Hw H Hn.
  assert (S0 : steps_of (CW w None) = []) by (unfold steps_of; cbn; now rewrite Hw).
  destruct (step_loop_spec V A F b it (CW w None) body Hit Hbody) as [c [l [o [E [_ [_ [_ [_ [_ K]]]]]]]]].
  { unfold consistent. rewrite S0. unfold blocks_of. cbn. now rewrite Hw. }
  rewrite H in E. injection E as <- <- <-. rewrite S0 in K. rewrite K; [|discriminate|auto|].
  - cbn. destruct (map work log); [cbn in Hn; congruence|reflexivity].
  - intros ->. cbn in Hn. congruence.
Qed.
Theorem sequence_raises : forall (V A : Type) (F : fops V) (l : list A) (cw : cworld V) (body : body_fun V A),
  step_loop F NullBar (Sequence l) cw body = Some (cw, [], Raised EType).
Proof. reflexivity. Qed.

(** Witnesses. *)
Definition late : body_fun Z Z := fun k x _ => (if Nat.eqb k 0 then [SNew x] else [SOp KMul [0; 0]], Continue).
Lemma empty_start_example : exists (it : iterable Z) (body : body_fun Z Z) cw' log,
  (forall k x u s, In s (fst (body k x u)) -> s <> SEndStep) /\
  step_loop ZF NullBar it (CW (world_new ZF true) None) body = Some (cw', log, Finished) /\
  length log = 3 /\ map (@length _) (map work log) = [0; 1; 1] /\ map (@length _) (steps_of cw') = [1; 1].
Proof.
  exists (Iterator [1; 2; 3]%Z None), late.
  assert (K : match step_loop ZF NullBar (Iterator [1; 2; 3]%Z None) (CW (world_new ZF true) None) late with
              | Some (cw', log, Finished) => length log = 3 /\ map (@length _) (map work log) = [0; 1; 1] /\ map (@length _) (steps_of cw') = [1; 1]
              | _ => False end) by (vm_compute; auto).
  destruct (step_loop ZF NullBar (Iterator [1; 2; 3]%Z None) (CW (world_new ZF true) None) late) as [[[cw' log] []]|]; try contradiction K.
  exists cw', log. split; [|auto]. intros k x u s. unfold late. destruct (Nat.eqb k 0); intros [<-|[]]; discriminate.
Qed.
Definition squares : body_fun Z Z := fun k x _ => ([SOp KMul [k; k]], Continue).
Lemma long_loop_example : exists sc (it : iterable Z) (body : body_fun Z Z) cw cw' log,
  (forall k x u s, In s (fst (body k x u)) -> s <> SEndStep) /\
  cw_enable false sc (exec ZF (world_new ZF true) [SNew 5%Z]) = (cw, None) /\
  step_loop ZF NullBar it cw body = Some (cw', log, Finished) /\
  length log = 3 /\ map (@length _) (map work log) = [1; 1; 1] /\ map (@length _) (steps_of cw') = [1; 2].
Proof.
  exists (Sched (Some 2) (fun _ => [AForward 0 (Some 2) true false RAM; AEndForward]) false false (fun p => Nat.eqb p 2)), (Iterator [1; 2; 3]%Z None), squares.
  set (w := exec ZF (world_new ZF true) [SNew 5%Z]). set (sc := Sched _ _ _ _ _).
  assert (K0 : snd (cw_enable false sc w) = None) by (vm_compute; reflexivity).
  assert (K : match step_loop ZF NullBar (Iterator [1; 2; 3]%Z None) (fst (cw_enable false sc w)) squares with
              | Some (cw', log, Finished) => length log = 3 /\ map (@length _) (map work log) = [1; 1; 1] /\ map (@length _) (steps_of cw') = [1; 2]
              | _ => False end) by (vm_compute; auto).
  destruct (cw_enable false sc w) as [cw e]. cbn [fst snd] in *. subst e.
  destruct (step_loop ZF NullBar (Iterator [1; 2; 3]%Z None) cw squares) as [[[cw' log] []]|] eqn:Q; try contradiction K.
  exists cw, cw', log. split; [intros k x u s [<-|[]]; discriminate|auto].
Qed.
Definition sq_body : body_fun Z Z := fun k x _ =>
  ([SNew x; SOp KMul [0; S (2 * k)]], if Nat.eqb k 2 then Break else Continue).
Definition start : cworld Z := CW (exec ZF (world_new ZF true) [SNew 5%Z]) None.
Lemma demo_check : exists cw' log, step_loop ZF NullBar (Iterator [7; 8; 9; 10]%Z None) start sq_body = Some (cw', log, Left) /\
  map item log = [7; 8; 9]%Z /\ map (@length _) (steps_of cw') = [1; 1; 1].
Proof.
  assert (K : match step_loop ZF NullBar (Iterator [7; 8; 9; 10]%Z None) start sq_body with
              | Some (cw', log, Left) => map item log = [7; 8; 9]%Z /\ map (@length _) (steps_of cw') = [1; 1; 1]
              | _ => False end) by (vm_compute; auto).
  destruct (step_loop ZF NullBar (Iterator [7; 8; 9; 10]%Z None) start sq_body) as [[[cw' log] []]|]; try contradiction K.
  exists cw', log. auto.
Qed.
