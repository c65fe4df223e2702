(** Recording on a cleared tape. *)
From Coq Require Import List Arith ZArith Lia Bool.
From Verif Require Import Base Model BaseFacts Graph Record Spec RecordFacts Replay ReplayStep ReplayExec History Session Surgery RFull SpecClear.
Import ListNotations.

Section Clear.
Context {V : Type} (F : fops V).
Implicit Types (w : world V) (h : heap V) (s : sst V) (ov : override V).

Definition cleared w : world V := hrun1 F w HClear.
Definition held w : list (V * nat) := map (fun ob => (o_val ob, o_gen ob)) (w_objs w).

Lemma clear_effect : forall w,
  t_flat (w_tape (cleared w)) = [] /\ t_steps (w_tape (cleared w)) = [] /\ t_count (w_tape (cleared w)) = 0 /\
  w_objs (cleared w) = w_objs w /\ w_ann (cleared w) = w_ann w /\ w_ctrls (cleared w) = w_ctrls w /\
  (forall v, In v (vars_of (t_flat (w_tape w))) -> bv_adj (w_heap (cleared w) v) = None) /\
  (forall v, saved (w_heap (cleared w)) v = saved (w_heap w) v).
Proof.
  intros w. repeat (split; [reflexivity|]). split.
  - intros v Hv. cbn. unfold reset_adj. rewrite reset_with_spec by reflexivity. rewrite (proj2 (mem_In _ _) Hv). reflexivity.
  - intros v. cbn. unfold saved, reset_adj. rewrite reset_with_spec by reflexivity. now destruct (mem v _).
Qed.

(** ** The specification does not read the list of controls *)
Definition later (c : list (ver * V)) s s' := s_objs s = s_objs s' /\ s_ann s = s_ann s' /\ s_err s = s_err s' /\ s_ctrls s = c ++ s_ctrls s'.
Lemma later_get : forall c f s s' args, later c s s' -> get_args f s args = get_args f s' args.
Proof. intros c f s s' args [H _]. unfold get_args. now rewrite H. Qed.
Lemma later_stmt : forall c ov s s' t, later c s s' -> later c (spec_stmt F ov s t) (spec_stmt F ov s' t).
Proof.
  intros c ov s s' t L. pose proof L as [A [B [C D]]].
  assert (P : forall os, later c (push os s) (push os s')) by (intros os; unfold later, push; cbn; rewrite A; auto).
  assert (R : forall e, later c (raise e s) (raise e s')) by (intros e; unfold later, raise; cbn; rewrite C; auto).
  assert (PR : forall e os, later c (push os (raise e s)) (push os (raise e s'))) by (intros e os; unfold later, push, raise; cbn; rewrite A, C; auto).
  assert (T : forall o x, later c (put o x s) (put o x s')) by (intros o x; unfold later, put; cbn; rewrite A; auto).
  assert (TR : forall o x e, later c (put o x (raise e s)) (put o x (raise e s'))) by (intros o x e; unfold later, put, raise; cbn; rewrite A, C; auto).
  assert (K : forall a func args, later c (spec_call ov a func args s) (spec_call ov a func args s')).
  { intros a func args. unfold spec_call. rewrite !(later_get c _ s s' args L). destruct (get_args s_rec s' args); [|exact L].
    destruct (get_args s_rep s' args); [|exact L]. destruct (func l); [|exact L]. unfold next_vers. rewrite A.
    destruct (results _ _ _ _ _); auto. }
  destruct t; cbn [spec_stmt]; auto.
  - rewrite A. apply P.
  - rewrite B. destruct (sargs_ok k true args); auto.
  - rewrite B. destruct (sargs_ok k false args); auto.
  - rewrite B. apply K.
  - unfold spec_inpl. rewrite B, !(later_get c _ s s' args L), A. destruct (get_args s_rec s' args); [|exact L].
    destruct (get_args s_rep s' args); [|exact L]. destruct (nth_error (s_objs s') o); [|exact L]. destruct (func l); [|exact L].
    destruct (results _ _ _ _ _) as [[|z [|? ?]]|]; auto.
  - rewrite A. destruct (nth_error (s_objs s') o); auto.
  - unfold later. cbn. auto.
  - unfold later. cbn. auto.
  - rewrite A. destruct (nth_error (s_objs s') o); auto. unfold later. cbn. rewrite D, <- app_assoc. auto.
Qed.
Lemma later_run : forall c ov p s s', later c s s' -> later c (fold_left (spec_stmt F ov) p s) (fold_left (spec_stmt F ov) p s').
Proof. intros c ov p. induction p as [|t p IH]; intros s s' L; [exact L|]. cbn. apply IH. now apply later_stmt. Qed.

(** ** A world with an empty tape whose stored values are the recorded ones *)
Definition keeps ov w : sst V :=
  let s := holding ov (held w) (w_ann w) in
  SSt (s_objs s) (s_ann s) (s_err s) (map (fun v => (verb (w_heap w v), bv_rec (w_heap w v))) (w_ctrls w)).

Lemma nth_enum : forall {A} (l : list A) i, nth_error (enum l) i = option_map (pair i) (nth_error l i).
Proof.
  intros A l i. unfold enum. enough (G : forall k, nth_error (enum_from k l) i = option_map (pair (k + i)) (nth_error l i)) by exact (G 0).
  revert i. induction l as [|x r IH]; intros i k; [destruct i; reflexivity|].
  destruct i as [|i]; cbn; [now rewrite Nat.add_0_r|]. rewrite IH. now rewrite Nat.add_succ_r.
Qed.
Lemma nth_holding : forall ov w i, nth_error (s_objs (holding ov (held w) (w_ann w))) i =
  option_map (fun ob => SObj (o_val ob) (prescribed ov (i, o_gen ob) (o_val ob)) (o_gen ob)) (nth_error (w_objs w) i).
Proof.
  intros ov w i. unfold holding, held. cbn. rewrite nth_error_map, nth_enum, nth_error_map.
  destruct (nth_error (w_objs w) i); reflexivity.
Qed.

Lemma keeps_sim : forall ov w, WInv F [] w -> flat w = [] -> Sim F ov w (keeps ov w).
Proof.
  intros ov w W E. constructor.
  - unfold keeps, holding, held. cbn. now rewrite map_length, <- (map_length snd), enum_snd, map_length.
  - intros o ob so A B. unfold keeps in B. cbn [s_objs] in B. rewrite nth_holding, A in B. cbn in B. injection B as <-. auto.
  - reflexivity.
  - reflexivity.
  - unfold genv. rewrite E. reflexivity.
  - intros _ o ob so A B. unfold keeps in B. cbn [s_objs] in B. rewrite nth_holding, A in B. cbn in B. injection B as <-.
    destruct (o_bv ob) as [v|] eqn:Eb; [|reflexivity]. unfold genv. rewrite E. cbn. unfold ov_env.
    destruct (wi_cur F [] w W o ob v A Eb) as [_ [G _]]. unfold ghost in G. injection G as G1 G2 G3. unfold verb. now rewrite G1, G2, G3.
Qed.

Lemma clear_inv : forall w, WInv F [] w -> WInv F [] (cleared w).
Proof.
  intros w W.
  assert (Hh : forall v, w_heap (cleared w) v = w_heap w v).
  { intros v. cbn. unfold reset_adj. rewrite reset_with_spec by reflexivity. destruct (mem v _); [|reflexivity].
    destruct (wi_clean F [] w W v) as [A _]. unfold set_adj. destruct (w_heap w v). cbn in *. now rewrite A. }
  assert (Hr : forall v, In v (refs [] (cleared w)) -> In v (refs [] w)).
  { intros v H. unfold refs in *. cbn in H. rewrite !in_app_iff in *. tauto. }
  assert (Hl : forall v, live [] (cleared w) v -> live [] w v).
  { intros v [H|H]; [left; auto|right; exact H]. }
  constructor.
  - intros o ob v A B. rewrite Hh. exact (wi_cur F [] w W o ob v A B).
  - intros v H. rewrite Hh. exact (wi_live F [] w W v (Hr v H)).
  - intros v1 v2 A B. rewrite !Hh. apply (wi_uniq F [] w W); auto.
  - intros o ob v A B C. rewrite Hh. apply (wi_none F [] w W o ob v A B (Hr v C)).
  - intros v x A. rewrite Hh. exact (wi_ckpt F [] w W v x (Hl v A)).
  - intros v [].
  - intros v. rewrite Hh. apply (wi_ctrl F [] w W).
  - intros v. rewrite Hh. apply (wi_clean F [] w W).
  - split; [exact I|constructor].
  - constructor.
  - constructor.
Qed.

(** ** Reduced functionals on a program recorded from such a world *)
Lemma run_good : forall w p, WInv F [] w -> flat w = [] -> consistent p -> disciplined (w_ann w) p = true ->
  forall ov, good F ov (exec F w p) (fold_left (spec_stmt F ov) p (keeps ov w)).
Proof.
  intros w p W E Hc Hd ov. apply exec_good; auto. split; [exact W|]. now apply keeps_sim.
Qed.
Lemma values_run : forall p w, values_ok F w -> consistent p -> values_ok F (exec F w p).
Proof.
  induction p as [|c r IH]; intros w H Hc; [exact H|]. inversion Hc; subst. cbn. apply IH; auto. now apply values_stmt.
Qed.

Definition on_cleared w p (j : nat) : world V * nat := get_bv (exec F w p) j.

Lemma cleared_call : forall w p j vals scale,
  WInv F [] w -> flat w = [] -> consistent p -> disciplined (w_ann w) p = true -> j < length (w_objs (exec F w p)) ->
  let w1 := fst (on_cleared w p j) in
  let cs := skipn (length (w_ctrls w)) (w_ctrls w1) in
  length vals = length cs ->
  snd (rf_call F (flat w1) (RF (snd (on_cleared w p j)) cs scale) vals (w_heap w1)) =
  rmap (fun x => f_mul F x scale) (rerun_from F (held w) (w_ann w) p vals j).
Proof.
  intros w p j vals scale W E Hc Hd Hj w1 cs Hl.
  assert (G : forall ov, good F ov w1 (fold_left (spec_stmt F ov) p (keeps ov w)) /\ values_ok F w1 /\ cur w1 j (snd (on_cleared w p j))).
  { intros ov. destruct (run_good w p W E Hc Hd ov) as [W2 S2]. subst w1. unfold on_cleared in *.
    assert (HV : values_ok F (exec F w p)) by (apply values_run; [unfold values_ok; rewrite E; constructor|exact Hc]).
    pose proof (get_bv_spec F [] _ j W2 Hj) as B. pose proof (flat_get_bv (exec F w p) j) as Q.
    destruct (get_bv (exec F w p) j) as [w1 v]. cbn [fst snd] in *. destruct B as [B1 [B2 B3]]. split; [|split].
    - split; [exact B1|]. exact (Sim_evolves F [] ov _ w1 _ W2 B1 B2 S2).
    - unfold values_ok. rewrite Q. exact HV.
    - exact B3. }
  pose proof (fun ov => later_run (map (fun v => (verb (w_heap w v), bv_rec (w_heap w v))) (w_ctrls w)) ov p (keeps ov w) (holding ov (held w) (w_ann w))) as L.
  assert (L0 : forall ov, later (map (fun v => (verb (w_heap w v), bv_rec (w_heap w v))) (w_ctrls w)) (keeps ov w) (holding ov (held w) (w_ann w))).
  { intros ov. unfold later, keeps. cbn. now rewrite app_nil_r. }
  assert (Ev : map (fun c => verb (w_heap w1 c)) cs = map fst (s_ctrls (run_from F no_override (held w) (w_ann w) p))).
  { destruct (G no_override) as [[_ S] _]. destruct (L no_override (L0 _)) as [_ [_ [_ L4]]].
    pose proof (sm_ctrls F _ _ _ S) as Q. rewrite L4 in Q. unfold run_from.
    apply (f_equal (skipn (length (w_ctrls w)))) in Q. rewrite skipn_app, skipn_all2, map_length, Nat.sub_diag in Q by (rewrite map_length; lia).
    cbn in Q. rewrite Q, skipn_map, map_map. reflexivity. }
  pose proof (call_history_good F w1 (fun ov => fold_left (spec_stmt F ov) p (keeps ov w)) j (snd (on_cleared w p j)) cs vals scale []
    (fun ov => proj1 (G ov)) (proj1 (proj2 (G no_override))) (proj2 (proj2 (G no_override)))) as H.
  cbn [run_hist fold_left] in H. rewrite H; auto.
  - rewrite Ev. unfold rerun_from.
    assert (Eo : hist_override F w1 [] = no_override).
    { unfold hist_override, leaf_supplies. cbn.
      assert (Z : forall l : list nat, filter (fun c => negb (mem c (outs_of (flat w1))) && false) l = []) by (induction l; cbn; [reflexivity|now rewrite andb_false_r]).
      cbn [latest]. rewrite Z. reflexivity. }
    rewrite Eo. set (ov := prescribe _ vals no_override). unfold rerun_value, run_from.
    destruct (L ov (L0 ov)) as [L1 [_ [L3 _]]]. rewrite L1, L3. reflexivity.
  - intros c Hi. unfold cs in Hi. rewrite <- (firstn_skipn (length (w_ctrls w)) (w_ctrls w1)). apply in_or_app. now right.
  - intros rf vs [].
Qed.

(** ** Recording, clearing, recording, ... *)
Definition phases (ann : bool) (ps : list (list (stmt V))) : world V := fold_left (fun w p => cleared (exec F w p)) ps (world_new F ann).

Lemma disciplined_app : forall (p q : list (stmt V)) a, disciplined a (p ++ q) = true -> disciplined a p = true.
Proof.
  induction p as [|c p IH]; intros q a H; [reflexivity|].
  destruct c; cbn in *; eauto. apply andb_true_iff in H as [A B]. apply andb_true_iff. split; eauto.
Qed.
Definition ann_after (a : bool) (p : list (stmt V)) : bool :=
  fold_left (fun a c => match c with SPause => false | SContinue => true | _ => a end) p a.
Lemma disciplined_rest : forall (p q : list (stmt V)) a, disciplined a (p ++ q) = true -> disciplined (ann_after a p) q = true.
Proof.
  induction p as [|c p IH]; intros q a H; [exact H|].
  destruct c; cbn in *; try (now apply IH). apply andb_true_iff in H as [_ B]. now apply IH.
Qed.
Lemma ann_spec : forall p ov s, s_ann (fold_left (spec_stmt F ov) p s) = ann_after (s_ann s) p.
Proof. induction p as [|c p IH]; intros ov s; [reflexivity|]. cbn. rewrite IH, spec_ann. destruct c; reflexivity. Qed.

Lemma phases_inv : forall ps ann p, Forall consistent ps -> disciplined ann (concat ps ++ p) = true ->
  WInv F [] (phases ann ps) /\ flat (phases ann ps) = [] /\ disciplined (w_ann (phases ann ps)) p = true.
Proof.
  intros ps ann p. unfold phases.
  assert (G : forall w, WInv F [] w -> flat w = [] -> w_ann w = ann -> Forall consistent ps -> disciplined ann (concat ps ++ p) = true ->
    let w' := fold_left (fun w p => cleared (exec F w p)) ps w in WInv F [] w' /\ flat w' = [] /\ disciplined (w_ann w') p = true).
  { revert ann. induction ps as [|q ps IH]; intros ann w W E Ea Hc Hd.
    - cbn in *. rewrite Ea. auto.
    - inversion Hc; subst. cbn [concat] in Hd. rewrite <- app_assoc in Hd. cbn [fold_left].
      destruct (run_good w q W E H1 (disciplined_app _ _ _ Hd) no_override) as [W2 S2].
      apply (IH (w_ann (exec F w q))); auto.
      + now apply clear_inv.
      + rewrite (sm_ann F _ _ _ S2), ann_spec. cbn. now apply disciplined_rest. }
  intros Hc Hd. apply G; auto. apply WInv_new_world.
Qed.

Lemma recorded_after_clear : forall ann ps p j vals scale,
  Forall consistent ps -> consistent p -> disciplined ann (concat ps ++ p) = true ->
  let w0 := phases ann ps in
  j < length (w_objs (exec F w0 p)) ->
  let w := fst (on_cleared w0 p j) in
  let cs := skipn (length (w_ctrls w0)) (w_ctrls w) in
  length vals = length cs ->
  snd (rf_call F (t_flat (w_tape w)) (RF (snd (on_cleared w0 p j)) cs scale) vals (w_heap w)) =
  rmap (fun x => f_mul F x scale) (rerun_from F (held w0) (w_ann w0) p vals j).
Proof.
  intros ann ps p j vals scale Hps Hp Hd w0 Hj w cs Hl.
  destruct (phases_inv ps ann p Hps Hd) as [W [E D]].
  exact (cleared_call w0 p j vals scale W E Hp D Hj Hl).
Qed.
End Clear.
