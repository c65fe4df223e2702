(** Python expressions over AdjFloats: what is recorded is a program of statements, and re-running it is evaluating the
    expression with the new numbers. *)
From Coq Require Import List Arith ZArith Lia Bool.
From Verif Require Import Base Model BaseFacts Graph Record Spec RecordFacts Replay ReplayStep ReplayExec History Session SpecTape SpecPlain Observe PyExp SpecPy.
Import ListNotations.

Section PyFacts.
Context {V : Type} (F : fops V) (P : pyops V).
Hypothesis add_comm : forall a b, f_add F a b = f_add F b a.
Hypothesis mul_comm : forall a b, f_mul F a b = f_mul F b a.
Implicit Types (w : world V) (s : sst V) (ov : override V).

Definition simple (c : stmt V) : bool := match c with SNew _ | SOp _ _ => true | SFun _ _ a => a | _ => false end.
Definition is_obj (x : pval V) : bool := match x with PObj _ => true | _ => false end.
(** The value of a Python value in a world, in the re-run. *)
Definition wval w (x : pval V) v : Prop := match x with PNum _ u => u = v | PObj o => nth_error (vals w) o = Some v end.
Definition rep s (x : pval V) v : Prop := match x with PNum _ u => u = v | PObj o => exists so, nth_error (s_objs s) o = Some so /\ s_rep so = v end.
Definition spec_run ov s q : sst V := fold_left (spec_stmt F ov) q s.

(** ** The specification on simple statements *)
Lemma call_objs : forall ov a func args s, exists more, s_objs (spec_call ov a func args s) = s_objs s ++ more.
Proof.
  intros. unfold spec_call. destruct (get_args s_rec s args); [|exists []; now rewrite app_nil_r]. destruct (get_args s_rep s args); [|exists []; now rewrite app_nil_r].
  destruct (func l); [|exists []; now rewrite app_nil_r]. destruct (results _ _ _ _ _); eexists; reflexivity.
Qed.
Lemma call_keeps : forall ov a func args s, s_ann (spec_call ov a func args s) = s_ann s /\ s_ctrls (spec_call ov a func args s) = s_ctrls s /\
  forall e, s_err s = Some e -> s_err (spec_call ov a func args s) = Some e.
Proof.
  intros. unfold spec_call. destruct (get_args s_rec s args); [|easy]. destruct (get_args s_rep s args); [|easy].
  destruct (func l); [|easy]. destruct (results _ _ _ _ _); cbn; [easy|]. repeat split. intros e0 ->. reflexivity.
Qed.
Lemma run_keeps : forall ov q s, forallb simple q = true -> s_ann (spec_run ov s q) = s_ann s /\ s_ctrls (spec_run ov s q) = s_ctrls s /\
  (forall e, s_err s = Some e -> s_err (spec_run ov s q) = Some e) /\ exists more, s_objs (spec_run ov s q) = s_objs s ++ more.
Proof.
  intros ov q. induction q as [|c r IH]; intros s H; cbn [spec_run fold_left].
  - repeat split; auto. exists []. now rewrite app_nil_r.
  - cbn in H. apply andb_true_iff in H as [Hc Hr].
    assert (A : s_ann (spec_stmt F ov s c) = s_ann s /\ s_ctrls (spec_stmt F ov s c) = s_ctrls s /\
      (forall e, s_err s = Some e -> s_err (spec_stmt F ov s c) = Some e) /\ exists more, s_objs (spec_stmt F ov s c) = s_objs s ++ more).
    { destruct c; try discriminate; cbn [spec_stmt].
      - repeat split; auto. cbn. eauto.
      - destruct (sargs_ok k true args); [|repeat split; auto; exists []; now rewrite app_nil_r].
        destruct (call_keeps ov (s_ann s) (fun xs => rmap (fun y => [y]) (sop F k xs)) args s) as [A1 [A2 A3]]. repeat split; auto. apply call_objs.
      - destruct (sargs_ok k false args); [|repeat split; auto; exists []; now rewrite app_nil_r].
        destruct (call_keeps ov (s_ann s && annotate) (fun xs => rmap (fun y => [y]) (sop F k xs)) args s) as [A1 [A2 A3]]. repeat split; auto. apply call_objs. }
    destruct A as [A1 [A2 [A3 [m A4]]]]. destruct (IH (spec_stmt F ov s c) Hr) as [B1 [B2 [B3 [m' B4]]]]. fold (spec_run ov (spec_stmt F ov s c) r).
    repeat split; [congruence|congruence|auto|]. exists (m ++ m'). rewrite B4, A4. now rewrite <- app_assoc.
Qed.
Lemma run_app : forall ov q r s, spec_run ov s (q ++ r) = spec_run ov (spec_run ov s q) r.
Proof. intros. apply fold_left_app. Qed.
Lemma run_svals : forall ov q s w, svals s = vals w -> svals (spec_run ov s q) = vals (exec F w q).
Proof.
  intros ov q. induction q as [|c r IH]; intros s w H; [exact H|]. cbn [spec_run fold_left]. apply IH.
  pose proof (exec_plain F w c) as E. destruct (plain F (vals w) c) as [l e] eqn:Ep. injection E as E1 E2. rewrite E1.
  rewrite <- H in Ep. exact (proj1 (spec_plain F ov s c l e Ep)).
Qed.
Lemma ann_get_bv : forall w o, w_ann (fst (get_bv w o)) = w_ann w.
Proof. intros w o. unfold get_bv, create_bv. destruct (nth_error _ _) as [ob|]; [destruct (o_bv ob)|]; reflexivity. Qed.
Lemma ann_will_dep : forall w v, w_ann (will_dep w v) = w_ann w.
Proof. intros. unfold will_dep, with_heap, with_tape. cbn. destruct (match t_latest _ with None => true | Some _ => _ end); reflexivity. Qed.
Lemma ann_will_out : forall w v, w_ann (will_out w v) = w_ann w.
Proof. intros. unfold will_out, with_heap, with_tape. cbn. destruct (t_eager _); reflexivity. Qed.
Lemma ann_get_bvs : forall os w, w_ann (fst (get_bvs w os)) = w_ann w.
Proof.
  induction os as [|o r IH]; intros w; [reflexivity|]. cbn [get_bvs]. pose proof (ann_get_bv w o) as A. destruct (get_bv w o) as [w1 v].
  specialize (IH w1). destruct (get_bvs w1 r). cbn [fst] in *. congruence.
Qed.
Lemma ann_add_deps : forall os w, w_ann (fst (add_deps w os)) = w_ann w.
Proof.
  induction os as [|o r IH]; intros w; [reflexivity|]. cbn [add_deps]. unfold add_dep. pose proof (ann_get_bv w o) as A. destruct (get_bv w o) as [w1 v].
  specialize (IH (will_dep w1 v)). destruct (add_deps (will_dep w1 v) r). cbn [fst] in *. rewrite IH, ann_will_dep. exact A.
Qed.
Lemma simple_ann : forall w c, simple c = true -> w_ann (fst (exec_stmt F w c)) = w_ann w.
Proof.
  intros w c H. destruct c; try discriminate; cbn [exec_stmt].
  - reflexivity.
  - unfold exec_op. destruct (negb _); [reflexivity|]. destruct (arg_vals w args) as [xs|]; [|reflexivity]. destruct (op_value F k xs) as [y|]; [|reflexivity].
    cbn [new_obj]. set (w1 := with_objs _ w). destruct (w_ann w) eqn:Ea; [|exact Ea].
    pose proof (ann_get_bvs args w1) as A. destruct (get_bvs w1 args) as [w2 ts]. pose proof (ann_add_deps args w2) as B. destruct (add_deps w2 args) as [w3 ds].
    set (w4 := with_tape _ w3). pose proof (ann_get_bv w4 (length (w_objs w))) as C. destruct (get_bv w4 _) as [w5 v]. cbn [fst] in *.
    change (w_ann (will_out w5 v) = true). rewrite ann_will_out, C. change (w_ann w3 = true). rewrite B, A. exact Ea.
  - unfold exec_fun. destruct (negb _); [reflexivity|]. destruct (arg_vals w args) as [xs|]; [|reflexivity]. cbn in H. subst annotate.
    destruct (w_ann w) eqn:Ea; cbn [andb].
    + pose proof (ann_add_deps args w) as B. destruct (add_deps w args) as [w' deps]. cbn [fst] in B. set (w1 := with_tape _ w').
      destruct (op_value F k xs) as [y|]; [|cbn; congruence]. cbn [new_obj]. set (w2 := with_objs _ w1).
      pose proof (ann_get_bv w2 (length (w_objs w1))) as C. destruct (get_bv w2 _) as [w3 v]. cbn [fst] in *.
      change (w_ann (will_out w3 v) = true). rewrite ann_will_out, C. change (w_ann w' = true). congruence.
    + destruct (op_value F k xs); cbn; exact Ea.
Qed.
Lemma ann_exec : forall q w, forallb simple q = true -> w_ann (exec F w q) = w_ann w.
Proof.
  induction q as [|c r IH]; intros w H; [reflexivity|]. cbn in H. apply andb_true_iff in H as [Hc Hr].
  change (exec F w (c :: r)) with (exec F (fst (exec_stmt F w c)) r). rewrite IH by exact Hr. now apply simple_ann.
Qed.

Lemma rep_ext : forall s s' more x v, s_objs s' = s_objs s ++ more -> rep s x v -> rep s' x v.
Proof.
  intros s s' more x v E H. destruct x; cbn in *; [exact H|]. destruct H as [so [H1 H2]]. exists so. split; [|exact H2].
  rewrite E, nth_error_app1; [exact H1|]. apply nth_error_Some. congruence.
Qed.
Lemma rep_run : forall ov q s x v, forallb simple q = true -> rep s x v -> rep (spec_run ov s q) x v.
Proof. intros ov q s x v Hq H. destruct (run_keeps ov q s Hq) as [_ [_ [_ [m E]]]]. exact (rep_ext s _ m x v E H). Qed.

(** The statement that applies an operation to objects. *)
Definition op_stmt (op : bool) (k : kind V) args : stmt V := if op then SOp k args else SFun k args true.
Lemma op_step : forall ov s op k args xs ps y, sargs_ok k op args = true -> s_ann s = true ->
  look (svals s) args = Some xs -> get_args s_rep s args = Some ps -> sop F k xs = Ok y -> ov (length (svals s), 0) = None ->
  spec_stmt F ov s (op_stmt op k args) = match sop F k ps with Ok z => push [SObj y z 0] s | Err e => push [SObj y y 0] (raise e s) end.
Proof.
  intros ov s op k args xs ps y Ha Hann Hx Hp Hy Ho. rewrite look_args in Hx. unfold svals in Ho. rewrite map_length in Ho.
  assert (E : spec_stmt F ov s (op_stmt op k args) = spec_call ov true (fun xs => rmap (fun y => [y]) (sop F k xs)) args s).
  { destruct op; cbn [op_stmt spec_stmt]; rewrite Ha, Hann; reflexivity. }
  rewrite E. unfold spec_call. rewrite Hx, Hp, Hy. cbn [rmap length next_vers seq map]. unfold results. cbn [andb existsb fst negb]. unfold next_vers. cbn [seq map existsb length]. rewrite Ho. cbn.
  destruct (sop F k ps); reflexivity.
Qed.
Lemma annotated_exec : forall w k args xs y, sargs_ok k true args = true -> look (vals w) args = Some xs -> sop F k xs = Ok y ->
  annotated w k args y = fst (exec_stmt F w (SOp k args)).
Proof.
  intros w k args xs y Ha Hx Hy. cbn [exec_stmt]. unfold exec_op. rewrite (sargs_operator k args) in Ha. rewrite Ha. cbn [negb].
  rewrite arg_vals_look, Hx. rewrite <- (sargs_operator k args) in Ha. destruct (op_value_sop F k true args xs Ha (look_len _ _ _ Hx)) as [-> _]. rewrite Hy.
  unfold annotated. destruct (new_obj w y) as [w1 o]. destruct (w_ann w); [|reflexivity].
  destruct (get_bvs w1 args) as [w2 ts]. destruct (add_deps w2 args) as [w3 ?]. destruct (get_bv _ o) as [w5 v]. reflexivity.
Qed.

Lemma look_one : forall l a (u : V), nth_error l a = Some u -> look l [a] = Some [u].
Proof. intros l a u H. cbn. now rewrite H. Qed.
Lemma look_two : forall l a b (u v : V), nth_error l a = Some u -> nth_error l b = Some v -> look l [a; b] = Some [u; v].
Proof. intros l a b u v H1 H2. cbn. now rewrite H1, H2. Qed.
Lemma gets : forall s os, Forall (fun o => o < length (s_objs s)) os -> exists ps, get_args s_rep s os = Some ps.
Proof.
  intros s os H. induction H as [|o r Ho Hr [ps IH]]; [exists []; reflexivity|]. cbn. fold (get_args (@s_rep V) s r). rewrite IH.
  destruct (nth_error (s_objs s) o) eqn:E; [eauto|]. apply nth_error_None in E. lia.
Qed.

(** ** What an evaluation step does *)
(** [steps w w' s2 q]: the world moves by the statements [q]; in the re-run no exception or the one of [r], and [x] has the value. *)
Definition moves w w' q : Prop := forallb simple q = true /\ exec F w q = w'.
Definition fresh ov w w' : Prop := forall i, length (vals w) <= i -> i < length (vals w') -> ov (i, 0) = None.
Definition outcome s (x : pval V) (r : res V) : Prop := match r with Ok v => s_err s = None /\ rep s x v | Err e => s_err s = Some e end.


(** One operation on objects that exist. *)
Lemma op_moves : forall w op k args xs y, sargs_ok k op args = true -> w_ann w = true -> look (vals w) args = Some xs -> sop F k xs = Ok y ->
  let w' := fst (exec_stmt F w (op_stmt op k args)) in
  snd (exec_stmt F w (op_stmt op k args)) = None /\ vals w' = vals w ++ [y] /\ moves w w' [op_stmt op k args] /\
  forall ov s ps, svals s = vals w -> s_ann s = true -> s_err s = None -> ov (length (vals w), 0) = None -> get_args s_rep s args = Some ps ->
    outcome (spec_run ov s [op_stmt op k args]) (PObj (length (vals w))) (sop F k ps).
Proof.
  intros w op k args xs y Ha Hann Hx Hy w'.
  pose proof (exec_plain F w (op_stmt op k args)) as E. fold w' in E.
  assert (Ep : plain F (vals w) (op_stmt op k args) = (vals w ++ [y], None)).
  { destruct op; cbn [op_stmt plain]; rewrite Ha; unfold plain_call; rewrite Hx, Hy; reflexivity. }
  rewrite Ep in E. injection E as E1 E2. split; [exact E2|]. split; [exact E1|]. split; [split; [destruct op; reflexivity|reflexivity]|].
  intros ov s ps Hs Hsa He Ho Hps. cbn [spec_run fold_left]. rewrite (op_step ov s op k args xs ps y Ha Hsa) by (congruence).
  assert (L : length (s_objs s) = length (vals w)) by (rewrite <- Hs; unfold svals; now rewrite map_length).
  destruct (sop F k ps) as [z|e]; cbn.
  - split; [exact He|]. exists (SObj y z 0). split; [|reflexivity]. rewrite <- L, nth_error_app2, Nat.sub_diag by lia. reflexivity.
  - now rewrite He.
Qed.


Lemma grow1 : forall w c, simple c = true -> exists more, vals (fst (exec_stmt F w c)) = vals w ++ more.
Proof.
  intros w c H. pose proof (exec_plain F w c) as E. apply (f_equal fst) in E. cbn [fst] in E. rewrite <- E || rewrite E.
  destruct c; try discriminate; cbn [plain].
  - eexists; reflexivity.
  - destruct (sargs_ok k true args); [|exists []; cbn; now rewrite app_nil_r]. unfold plain_call. destruct (look (vals w) args); [|exists []; cbn; now rewrite app_nil_r].
    destruct (rmap _ _); [eexists; reflexivity|exists []; cbn; now rewrite app_nil_r].
  - destruct (sargs_ok k false args); [|exists []; cbn; now rewrite app_nil_r]. unfold plain_call. destruct (look (vals w) args); [|exists []; cbn; now rewrite app_nil_r].
    destruct (rmap _ _); [eexists; reflexivity|exists []; cbn; now rewrite app_nil_r].
Qed.
Lemma grow : forall q w, forallb simple q = true -> exists more, vals (exec F w q) = vals w ++ more.
Proof.
  induction q as [|c r IH]; intros w H; [exists []; cbn; now rewrite app_nil_r|]. cbn in H. apply andb_true_iff in H as [Hc Hr].
  destruct (grow1 w c Hc) as [m E]. destruct (IH (fst (exec_stmt F w c)) Hr) as [m' E']. exists (m ++ m').
  change (exec F w (c :: r)) with (exec F (fst (exec_stmt F w c)) r). rewrite E', E. now rewrite <- app_assoc.
Qed.
Lemma moves_wval : forall w w' q x v, moves w w' q -> wval w x v -> wval w' x v.
Proof.
  intros w w' q x v [Hq <-] H. destruct (grow q w Hq) as [m E]. destruct x; cbn in *; [exact H|]. rewrite E, nth_error_app1; [exact H|].
  apply nth_error_Some. congruence.
Qed.
Lemma moves_len : forall w w' q, moves w w' q -> length (vals w) <= length (vals w').
Proof. intros w w' q [Hq <-]. destruct (grow q w Hq) as [m E]. rewrite E, app_length. lia. Qed.
Lemma moves_nil : forall w, moves w w [].
Proof. intros. split; reflexivity. Qed.
Lemma moves_app : forall w w1 w2 q r, moves w w1 q -> moves w1 w2 r -> moves w w2 (q ++ r).
Proof. intros w w1 w2 q r [H1 E1] [H2 E2]. split; [now rewrite forallb_app, H1, H2|]. rewrite exec_app. congruence. Qed.
Lemma moves_ann : forall w w' q, moves w w' q -> w_ann w' = w_ann w.
Proof. intros w w' q [Hq <-]. now apply ann_exec. Qed.

(** [on w s]: the re-run has reached the world [w] without an exception. *)
Definition on w s : Prop := svals s = vals w /\ s_ann s = true /\ s_err s = None.
Lemma on_run : forall ov w w' q s, moves w w' q -> on w s -> s_err (spec_run ov s q) = None -> on w' (spec_run ov s q).
Proof.
  intros ov w w' q s [Hq <-] [H1 [H2 H3]] He. repeat split; [now apply run_svals| |exact He]. destruct (run_keeps ov q s Hq) as [-> _]. exact H2.
Qed.
Lemma fresh_l : forall ov w w1 w2 q r, moves w w1 q -> moves w1 w2 r -> fresh ov w w2 -> fresh ov w w1.
Proof. intros ov w w1 w2 q r M1 M2 H i L1 L2. apply H; [exact L1|]. pose proof (moves_len _ _ _ M2). lia. Qed.
Lemma fresh_r : forall ov w w1 w2 q r, moves w w1 q -> moves w1 w2 r -> fresh ov w w2 -> fresh ov w1 w2.
Proof. intros ov w w1 w2 q r M1 M2 H i L1 L2. apply H; [|exact L2]. pose proof (moves_len _ _ _ M1). lia. Qed.

(** A step of the evaluation: [rv] the number computed, [b] whether it is recorded, [spec s r]: [r] is the number computed
    from the values of the re-run. *)
Definition step w (out : world V * res (pval V)) (rv : res V) (b : bool) (spec : sst V -> res V -> Prop) : Prop :=
  exists q, moves w (fst out) q /\
  match rv with
  | Err e => snd out = Err e
  | Ok v => exists x, snd out = Ok x /\ wval (fst out) x v /\ is_obj x = b /\
      forall ov s r, on w s -> fresh ov w (fst out) -> spec s r -> outcome (spec_run ov s q) x r
  end.

Lemma new_vals : forall w u, vals (fst (new_obj w u)) = vals w ++ [u].
Proof. intros. unfold vals. cbn. now rewrite map_app. Qed.
Lemma new_snd : forall w u, snd (new_obj w u) = length (vals w).
Proof. intros. unfold vals. cbn. now rewrite map_length. Qed.
Lemma slen : forall s w, svals s = vals w -> length (s_objs s) = length (vals w).
Proof. intros s w H. rewrite <- H. unfold svals. now rewrite map_length. Qed.
Lemma to_adj_step : forall w y b, wval w y b ->
  exists q, moves w (fst (to_adj w y)) q /\ nth_error (vals (fst (to_adj w y))) (snd (to_adj w y)) = Some b /\
  forall ov s, on w s -> fresh ov w (fst (to_adj w y)) ->
    s_err (spec_run ov s q) = None /\ forall b', rep s y b' -> rep (spec_run ov s q) (PObj (snd (to_adj w y))) b'.
Proof.
  intros w [i u|o] b H; unfold to_adj.
  - exists [SNew u]. cbn in H. subst u. split; [split; reflexivity|]. rewrite new_snd, new_vals.
    split; [rewrite nth_error_app2, Nat.sub_diag by lia; reflexivity|].
    intros ov s [Hs [_ He]] Hf. split; [exact He|]. intros b' Hb. cbn in Hb. subst b'. pose proof (slen s w Hs) as L'.
    eexists. cbn. rewrite nth_error_app2, L', Nat.sub_diag by lia. split; [reflexivity|]. cbn. unfold prescribed. rewrite Hf; [reflexivity|lia|].
    rewrite new_vals, app_length. cbn. lia.
  - exists []. split; [apply moves_nil|]. split; [exact H|]. intros ov s [Hs [_ He]] Hf. split; [exact He|auto].
Qed.

(** The recorded operation on objects. *)
Lemma annot_step : forall w k args xs r, sargs_ok k true args = true -> w_ann w = true -> look (vals w) args = Some xs -> sop F k xs = Ok r ->
  step w (annotated w k args r, Ok (PObj (length (w_objs w)))) (Ok r) true
    (fun s z => exists ps, get_args s_rep s args = Some ps /\ z = sop F k ps).
Proof.
  intros w k args xs r Ha Hann Hx Hr. rewrite (annotated_exec w k args xs r Ha Hx Hr).
  destruct (op_moves w true k args xs r Ha Hann Hx Hr) as [E1 [E2 [E3 E4]]]. cbn [op_stmt] in *.
  assert (L : length (w_objs w) = length (vals w)) by (unfold vals; now rewrite map_length).
  exists [SOp k args]. split; [exact E3|]. exists (PObj (length (w_objs w))). split; [reflexivity|]. rewrite L. split; [|split; [reflexivity|]].
  - unfold wval. cbn [fst]. rewrite E2, nth_error_app2, Nat.sub_diag by lia. reflexivity.
  - intros ov s z [H1 [H2 H3]] Hf [ps [Hps ->]]. apply E4; try assumption. apply Hf; [lia|]. cbn [fst]. rewrite E2, app_length. cbn. lia.
Qed.

(** A step after statements that create operands. *)
Lemma step_after : forall w w1 q0 out rv b (spec spec1 : sst V -> res V -> Prop), moves w w1 q0 -> step w1 out rv b spec1 ->
  (forall ov s r, on w s -> fresh ov w w1 -> spec s r -> s_err (spec_run ov s q0) = None /\ spec1 (spec_run ov s q0) r) ->
  step w out rv b spec.
Proof.
  intros w w1 q0 out rv b spec spec1 M [q [Mq H]] HS. exists (q0 ++ q). split; [exact (moves_app _ _ _ _ _ M Mq)|].
  destruct rv as [v|e]; [|exact H]. destruct H as [x [H1 [H2 [H3 H4]]]]. exists x. repeat split; [exact H1|exact H2|exact H3|].
  intros ov s r Hon Hf Hsp. rewrite run_app. destruct (HS ov s r Hon (fresh_l _ _ _ _ _ _ M Mq Hf) Hsp) as [He Hs1].
  apply H4; [exact (on_run ov _ _ _ _ M Hon He)|exact (fresh_r _ _ _ _ _ _ M Mq Hf)|exact Hs1].
Qed.

Lemma get_two : forall s p c a b, rep s (PObj p) a -> rep s (PObj c) b -> get_args s_rep s [p; c] = Some [a; b].
Proof. intros s p c a b [so [E <-]] [so' [E' <-]]. unfold get_args. cbn. rewrite E, E'. reflexivity. Qed.
Lemma get_one : forall s p a, rep s (PObj p) a -> get_args s_rep s [p] = Some [a].
Proof. intros s p a [so [E <-]]. unfold get_args. cbn. rewrite E. reflexivity. Qed.

Lemma op_kind_sop : forall o k a b, op_kind o = Some k -> bin_val F P o a b = sop F k [a; b] /\ forall p c, sargs_ok k true [p; c] = true.
Proof. intros o k a b H. destruct o; cbn in H; try discriminate; injection H as <-; split; reflexivity. Qed.

Lemma py_val_wval : forall w x v, wval w x v -> py_val w x = Ok v.
Proof.
  intros w [i u|o] v H; cbn in *; [now subst|]. unfold vals in H. rewrite nth_error_map in H. destruct (nth_error (w_objs w) o); [|discriminate]. cbn in H. congruence.
Qed.

(** Two recorded operands, one of them perhaps created for the occasion. *)
Lemma annot_two : forall w k x y a b r (swap : bool), w_ann w = true -> wval w x a -> wval w y b -> is_obj x = true ->
  (forall p c, sargs_ok k true [p; c] = true) -> sop F k (if swap then [b; a] else [a; b]) = Ok r ->
  step w (let '(w1, c) := to_adj w y in match x with PObj ox => (annotated w1 k (if swap then [c; ox] else [ox; c]) r, Ok (PObj (length (w_objs w1)))) | _ => (w, Err EType) end)
    (Ok r) true (fun s z => exists a' b', rep s x a' /\ rep s y b' /\ z = sop F k (if swap then [b'; a'] else [a'; b'])).
Proof.
  intros w k x y a b r swap Hann Hx Hy Hob Hk Hr. destruct x as [|ox]; [discriminate|].
  destruct (to_adj_step w y b Hy) as [q [M [Hc HS]]]. destruct (to_adj w y) as [w1 c]. cbn [fst snd] in *.
  pose proof (moves_wval _ _ _ _ _ M Hx) as Hx1. cbn [wval] in Hx1.
  assert (HL : look (vals w1) (if swap then [c; ox] else [ox; c]) = Some (if swap then [b; a] else [a; b])).
  { destruct swap; now apply look_two. }
  eapply step_after; [exact M|eapply annot_step; [destruct swap; apply Hk|rewrite (moves_ann _ _ _ M); exact Hann|exact HL|exact Hr]|].
  intros ov s z Hon Hf [a' [b' [Ha [Hb ->]]]]. destruct (HS ov s Hon Hf) as [He Hr']. split; [exact He|].
  pose proof (rep_run ov q s _ _ (proj1 M) Ha) as Ha1. specialize (Hr' b' Hb).
  destruct swap; eexists; (split; [apply get_two; eassumption|reflexivity]).
Qed.

Definition bin_recorded (o : bop) (i j : bool) : bool := match o with BAdd | BSub | BMul => i || j | BDiv | BPow => i | _ => false end.
Definition bin_supported (o : bop) (i j : bool) : bool :=
  match o with BAdd | BSub | BMul => true | BDiv | BPow => i || negb j | _ => negb i && negb j end.

Lemma step_number : forall w v x (spec : sst V -> res V -> Prop), is_obj x = false -> wval w x v -> (forall s r, spec s r -> r = Ok v) ->
  step w (w, Ok x) (Ok v) false spec.
Proof.
  intros w v x spec Hx Hv HS. exists []. split; [apply moves_nil|]. exists x. repeat split; auto. intros ov s r [_ [_ He]] _ Hs. rewrite (HS s r Hs). cbn. split; [exact He|].
  destruct x; [exact Hv|discriminate].
Qed.

Lemma bin_step : forall w o x y a b, w_ann w = true -> wval w x a -> wval w y b -> bin_supported o (is_obj x) (is_obj y) = true ->
  step w (py_bin F P w o x y) (bin_val F P o a b) (bin_recorded o (is_obj x) (is_obj y))
    (fun s z => exists a' b', rep s x a' /\ rep s y b' /\ z = bin_val F P o a' b').
Proof.
  intros w o x y a b Hann Hx Hy Hs. unfold py_bin. rewrite (py_val_wval w x a Hx), (py_val_wval w y b Hy).
  destruct (bin_val F P o a b) as [r|e] eqn:Er; [|exists []; split; [apply moves_nil|reflexivity]].
  destruct x as [i u|ox]; destruct y as [j v|oy].
  - cbn in Hx, Hy. subst u v. replace (bin_recorded o _ _) with false by (destruct o; reflexivity).
    apply step_number; [reflexivity|reflexivity|]. intros s z [a' [b' [Ha [Hb ->]]]]. cbn in Ha, Hb. now subst.
  - assert (HH : forall k sw, (forall p c, sargs_ok k true [p; c] = true) -> sop F k (if sw : bool then [a; b] else [b; a]) = Ok r ->
      (forall a' b', sop F k (if sw then [a'; b'] else [b'; a']) = bin_val F P o a' b') ->
      step w (let '(w1, c) := to_adj w (PNum i u) in (annotated w1 k (if sw then [c; oy] else [oy; c]) r, Ok (PObj (length (w_objs w1)))))
        (Ok r) true (fun s z => exists a' b', rep s (PNum i u) a' /\ rep s (PObj oy) b' /\ z = bin_val F P o a' b')).
    { intros k sw Hk Hr He. destruct (annot_two w k (PObj oy) (PNum i u) b a r sw Hann Hy Hx eq_refl Hk Hr) as [q [M [z [E1 [E2 [E3 E4]]]]]].
      exists q. split; [exact M|]. exists z. repeat split; auto. intros ov s r' Hon Hf [a' [b' [Ha [Hb ->]]]]. apply E4; [exact Hon|exact Hf|].
      exists b', a'. split; [exact Hb|]. split; [exact Ha|]. now rewrite <- He. }
    destruct o; cbn in Hs; try discriminate; cbn [bin_recorded is_obj orb]; cbn in Er.
    + apply (HH KAdd false); [reflexivity|cbn; rewrite add_comm; exact Er|intros; cbn; now rewrite add_comm].
    + apply (HH KSub true); [reflexivity|exact Er|reflexivity].
    + apply (HH KMul false); [reflexivity|cbn; rewrite mul_comm; exact Er|intros; cbn; now rewrite mul_comm].
  - destruct (op_kind o) as [k|] eqn:Ek; [|destruct o; discriminate]. destruct (op_kind_sop o k a b Ek) as [E Hk]. rewrite E in Er.
    destruct (annot_two w k (PObj ox) (PNum j v) a b r false Hann Hx Hy eq_refl Hk Er) as [q [M [z [E1 [E2 [E3 E4]]]]]].
    exists q. split; [exact M|]. exists z. split; [exact E1|split; [exact E2|split; [rewrite E3; destruct o; try discriminate; reflexivity|]]]. intros ov s r' Hon Hf [a' [b' [Ha [Hb ->]]]]. apply E4; [exact Hon|exact Hf|].
    exists a', b'. repeat split; auto. apply op_kind_sop; exact Ek.
  - destruct (op_kind o) as [k|] eqn:Ek; [|destruct o; discriminate]. destruct (op_kind_sop o k a b Ek) as [E Hk]. rewrite E in Er.
    destruct (annot_two w k (PObj ox) (PObj oy) a b r false Hann Hx Hy eq_refl Hk Er) as [q [M [z [E1 [E2 [E3 E4]]]]]].
    exists q. split; [exact M|]. exists z. split; [exact E1|split; [exact E2|split; [rewrite E3; destruct o; try discriminate; reflexivity|]]]. intros ov s r' Hon Hf [a' [b' [Ha [Hb ->]]]]. apply E4; [exact Hon|exact Hf|].
    exists a', b'. repeat split; auto. apply op_kind_sop; exact Ek.
Qed.

Lemma un_step : forall w o x a, w_ann w = true -> wval w x a -> (match o with UNeg => true | _ => negb (is_obj x) end) = true ->
  step w (py_un F P w o x) (Ok (un_val F P o a)) (match o with UNeg => is_obj x | _ => false end)
    (fun s z => exists a', rep s x a' /\ z = Ok (un_val F P o a')).
Proof.
  intros w o x a Hann Hx Hs. unfold py_un. rewrite (py_val_wval w x a Hx). destruct x as [i u|ox].
  - cbn in Hx. subst u. replace (match o with UNeg => _ | _ => _ end) with false by (destruct o; reflexivity).
    apply step_number; [reflexivity|reflexivity|]. intros s z [a' [Ha ->]]. cbn in Ha. now subst.
  - destruct o; try discriminate. cbn [is_obj].
    destruct (annot_step w KNeg [ox] [a] (f_neg F a) eq_refl Hann (look_one _ _ _ Hx) eq_refl) as [q [M [z [E1 [E2 [E3 E4]]]]]].
    exists q. split; [exact M|]. exists z. repeat split; auto. intros ov s r' Hon Hf [a' [Ha ->]]. apply E4; [exact Hon|exact Hf|].
    exists [a']. split; [now apply get_one|reflexivity].
Qed.


(** exp, log, min, max on objects. *)
Lemma fn_step : forall w k args xs, sargs_ok k false args = true -> w_ann w = true -> look (vals w) args = Some xs ->
  step w (let '(w2, e) := exec_fun F w k args true in (w2, match e with Some x => Err x | None => Ok (PObj (length (w_objs w))) end)) (sop F k xs) true
    (fun s z => exists ps, get_args s_rep s args = Some ps /\ z = sop F k ps).
Proof.
  intros w k args xs Ha Hann Hx.
  pose proof (exec_plain F w (op_stmt false k args)) as E. cbn [op_stmt exec_stmt plain] in E. rewrite Ha in E. unfold plain_call in E. rewrite Hx in E.
  assert (M : moves w (fst (exec_fun F w k args true)) [SFun k args true]) by (split; reflexivity).
  destruct (sop F k xs) as [r|e] eqn:Er; cbn [rmap] in E.
  - destruct (op_moves w false k args xs r Ha Hann Hx Er) as [E1 [E2 [E3 E4]]]. cbn [op_stmt exec_stmt] in *.
    destruct (exec_fun F w k args true) as [w2 e]. cbn [fst snd] in *. subst e.
    assert (L : length (w_objs w) = length (vals w)) by (unfold vals; now rewrite map_length).
    exists [SFun k args true]. split; [exact M|]. exists (PObj (length (w_objs w))). split; [reflexivity|]. rewrite L. split; [|split; [reflexivity|]].
    + unfold wval. cbn [fst]. rewrite E2, nth_error_app2, Nat.sub_diag by lia. reflexivity.
    + intros ov s z [H1 [H2 H3]] Hf [ps [Hps ->]]. apply E4; try assumption. apply Hf; [lia|]. cbn [fst]. rewrite E2, app_length. cbn. lia.
  - destruct (exec_fun F w k args true) as [w2 e2]. cbn [fst snd] in *. injection E as E1 E2. subst e2.
    exists [SFun k args true]. split; [exact M|]. reflexivity.
Qed.

Definition float_ok (x : pval V) : bool := match x with PNum true _ => false | _ => true end.
Lemma overloaded_adj : forall w x, float_ok x = true -> overloaded w x = (fst (to_adj w x), Some (snd (to_adj w x))).
Proof. intros w [[|] v|o] H; try discriminate; reflexivity. Qed.

Lemma fun1_step : forall w k x a, (forall p, sargs_ok k false [p] = true) -> w_ann w = true -> wval w x a -> float_ok x = true ->
  step w (py_fun F w k [x]) (sop F k [a]) true (fun s z => exists a', rep s x a' /\ z = sop F k [a']).
Proof.
  intros w k x a Hk Hann Hx Hf. unfold py_fun. cbn [mapM bind overload_all]. rewrite (py_val_wval w x a Hx), Hann, (overloaded_adj w x Hf). cbn [bind all_some option_map].
  destruct (to_adj_step w x a Hx) as [q [M [Hc HS]]]. destruct (to_adj w x) as [w1 c]. cbn [fst snd] in *.
  eapply step_after; [exact M|eapply fn_step; [apply Hk|rewrite (moves_ann _ _ _ M); exact Hann|now apply look_one]|].
  intros ov s z Hon Hfr [a' [Ha ->]]. destruct (HS ov s Hon Hfr) as [He Hr]. split; [exact He|]. exists [a']. split; [|reflexivity]. apply get_one. now apply Hr.
Qed.
Lemma fun2_step : forall w k x y a b, (forall p p', sargs_ok k false [p; p'] = true) -> w_ann w = true -> wval w x a -> wval w y b -> float_ok x = true -> float_ok y = true ->
  step w (py_fun F w k [x; y]) (sop F k [a; b]) true (fun s z => exists a' b', rep s x a' /\ rep s y b' /\ z = sop F k [a'; b']).
Proof.
  intros w k x y a b Hk Hann Hx Hy Hfx Hfy. unfold py_fun. cbn [mapM bind overload_all]. rewrite (py_val_wval w x a Hx), (py_val_wval w y b Hy), Hann, (overloaded_adj w x Hfx).
  cbn [bind]. destruct (to_adj_step w x a Hx) as [q [M [Hc HS]]]. destruct (to_adj w x) as [w1 c]. cbn [fst snd] in *. rewrite (overloaded_adj w1 y Hfy). cbn [all_some option_map].
  pose proof (moves_wval _ _ _ _ _ M Hy) as Hy1.
  destruct (to_adj_step w1 y b Hy1) as [q' [M' [Hc' HS']]]. destruct (to_adj w1 y) as [w2 c']. cbn [fst snd] in *.
  pose proof (moves_wval _ _ _ (PObj c) _ M' Hc) as Hc1.
  eapply step_after; [exact (moves_app _ _ _ _ _ M M')|eapply fn_step; [apply Hk|rewrite (moves_ann _ _ _ M'), (moves_ann _ _ _ M); exact Hann|now apply look_two]|].
  intros ov s z Hon Hfr [a' [b' [Ha [Hb ->]]]]. destruct (HS ov s Hon (fresh_l _ _ _ _ _ _ M M' Hfr)) as [He Hr].
  rewrite run_app. destruct (HS' ov (spec_run ov s q) (on_run ov _ _ _ _ M Hon He) (fresh_r _ _ _ _ _ _ M M' Hfr)) as [He' Hr']. split; [exact He'|].
  exists [a'; b']. split; [|reflexivity]. apply get_two; [apply rep_run; [exact (proj1 M')|now apply Hr]|apply Hr'; apply rep_run; [exact (proj1 M)|exact Hb]].
Qed.

(** ** Composition *)
Definition later s s' : Prop := forall (y : pval V) v, rep s y v -> rep s' y v.
Lemma step_bind : forall w out rv b1 spec1 (f : world V -> pval V -> world V * res (pval V)) (g : V -> res V) b2 (spec2 : pval V -> sst V -> res V -> Prop),
  step w out rv b1 spec1 ->
  (forall w1 x v q, out = (w1, Ok x) -> rv = Ok v -> moves w w1 q -> wval w1 x v -> is_obj x = b1 -> step w1 (f w1 x) (g v) b2 (spec2 x)) ->
  step w (match out with (w1, Ok x) => f w1 x | (w1, Err e) => (w1, Err e) end) (do v <- rv; g v) b2
    (fun s r => exists r1, spec1 s r1 /\ match r1 with Err e => r = Err e | Ok a => forall x s', later s s' -> rep s' x a -> is_obj x = b1 -> snd out = Ok x -> spec2 x s' r end).
Proof.
  intros w [w1 r1] rv b1 spec1 f g b2 spec2 [q [M H]] HS. cbn [fst snd] in *. destruct rv as [v|e]; cbn [bind].
  - destruct H as [x [-> [Hx [Hb Hsp]]]]. destruct (HS w1 x v q eq_refl eq_refl M Hx Hb) as [q2 [M2 H2]]. exists (q ++ q2). split; [exact (moves_app _ _ _ _ _ M M2)|].
    destruct (g v) as [v2|e2]; [|exact H2]. destruct H2 as [y [E1 [E2 [E3 E4]]]]. exists y. repeat split; auto.
    intros ov s r Hon Hf [r1 [Hs1 Hs2]]. rewrite run_app. specialize (Hsp ov s r1 Hon (fresh_l _ _ _ _ _ _ M M2 Hf) Hs1). destruct r1 as [a|er]; cbn in Hsp.
    + destruct Hsp as [He Hr]. apply E4; [exact (on_run ov _ _ _ _ M Hon He)|exact (fresh_r _ _ _ _ _ _ M M2 Hf)|].
      apply Hs2; auto. intros y0 v0. apply rep_run. exact (proj1 M).
    + subst r. cbn. destruct (run_keeps ov q2 (spec_run ov s q) (proj1 M2)) as [_ [_ [K _]]]. now apply K.
  - subst r1. exists q. split; [exact M|reflexivity].
Qed.
Lemma step_weaken : forall w out rv b (spec spec' : sst V -> res V -> Prop), (forall s r, spec' s r -> spec s r) -> step w out rv b spec -> step w out rv b spec'.
Proof.
  intros w out rv b spec spec' HH [q [M H]]. exists q. split; [exact M|]. destruct rv; [|exact H]. destruct H as [x [E1 [E2 [E3 E4]]]]. exists x. repeat split; auto.
Qed.

Definition ev_spec env e s r : Prop := exists renv, Forall2 (rep s) env renv /\ r = number F P renv e.
Lemma later_env : forall s s' env renv, later s s' -> Forall2 (rep s) env renv -> Forall2 (rep s') env renv.
Proof. intros s s' env renv H HF. induction HF; constructor; auto. Qed.
Lemma moves_env : forall w w' q env venv, moves w w' q -> Forall2 (wval w) env venv -> Forall2 (wval w') env venv.
Proof. intros w w' q env venv M H. induction H; constructor; auto. eapply moves_wval; eauto. Qed.
Lemma Forall2_nth : forall (A B : Type) (R : A -> B -> Prop) l m i a, Forall2 R l m -> nth_error l i = Some a -> exists b, nth_error m i = Some b /\ R a b.
Proof.
  intros A B R l m i a H. revert i. induction H; intros [|i] E; try discriminate; cbn in E; [injection E as ->; eexists; split; [reflexivity|eassumption]|]. now apply IHForall2.
Qed.

Lemma float_bin : forall w o x y w1 z, py_bin F P w o x y = (w1, Ok z) -> o = BDiv \/ float_ok x = true \/ float_ok y = true -> float_ok z = true.
Proof.
  intros w o x y w1 z E H. unfold py_bin in E. destruct (py_val w x) as [a|]; [|discriminate]. destruct (py_val w y) as [b|]; [|discriminate].
  destruct (bin_val F P o a b) as [r|]; [|discriminate]. destruct x as [i a'|ox]; destruct y as [j b'|oy].
  - injection E as _ <-. cbn. unfold int_res. destruct i, j; try reflexivity. destruct H as [ -> |[H|H]]; [reflexivity|discriminate H|discriminate H].
  - destruct o; cbn in E; injection E as _ <-; reflexivity.
  - destruct o; cbn in E; injection E as _ <-; reflexivity.
  - destruct o; cbn in E; injection E as _ <-; reflexivity.
Qed.
Lemma float_fun : forall w k xs w1 z, py_fun F w k xs = (w1, Ok z) -> float_ok z = true.
Proof.
  intros w k xs w1 z E. unfold py_fun in E. destruct (mapM (py_val w) xs) as [vs|]; [|discriminate]. destruct (w_ann w).
  - destruct (overload_all w xs) as [w2 os]. destruct (all_some os) as [args|]; [|discriminate]. destruct (exec_fun F w2 k args true) as [w3 [x|]]; [discriminate|]. now injection E as _ <-.
  - destruct (op_value F k vs) as [y|]; [|discriminate]. now injection E as _ <-.
Qed.
Lemma float_eval : forall e env w w1 x, py_eval F P env w e = (w1, Ok x) -> float_form e = true -> float_ok x = true.
Proof.
  induction e as [i v|i|o a IHa b IHb|o a IHa|f a IHa|f a IHa b IHb]; intros env w w1 x E H; cbn [py_eval] in E.
  - injection E as _ <-. cbn in H. destruct i; [discriminate H|reflexivity].
  - discriminate H.
  - destruct (py_eval F P env w a) as [w2 [xa|]] eqn:Ea; [|discriminate]. destruct (py_eval F P env w2 b) as [w3 [xb|]] eqn:Eb; [|discriminate].
    apply (float_bin _ _ _ _ _ _ E). destruct o; cbn in H; auto; apply orb_true_iff in H as [H|H]; right; [left; eapply IHa; eauto|right; eapply IHb; eauto|..];
      first [left; eapply IHa; now eauto|right; eapply IHb; now eauto].
  - destruct (py_eval F P env w a) as [w2 [xa|]] eqn:Ea; [|discriminate]. specialize (IHa _ _ _ _ Ea H). unfold py_un in E. destruct (py_val w2 xa) as [va|]; [|discriminate].
    destruct xa as [[|] u|ox]; [discriminate IHa|now injection E as _ <-|destruct o; now injection E as _ <-].
  - destruct (py_eval F P env w a) as [w2 [xa|]] eqn:Ea; [|discriminate]. exact (float_fun _ _ _ _ _ E).
  - destruct (py_eval F P env w a) as [w2 [xa|]] eqn:Ea; [|discriminate]. destruct (py_eval F P env w2 b) as [w3 [xb|]] eqn:Eb; [|discriminate]. exact (float_fun _ _ _ _ _ E).
Qed.
Lemma float_ok_of : forall env w e w1 x b, py_eval F P env w e = (w1, Ok x) -> is_obj x = b -> b || float_form e = true -> float_ok x = true.
Proof.
  intros env w e w1 x b E Hb H. apply orb_true_iff in H as [H|H]; [|exact (float_eval _ _ _ _ _ E H)]. destruct x as [i v|o]; [|reflexivity]. cbn in Hb. now subst b.
Qed.

Theorem eval_step : forall e env venv w, w_ann w = true -> Forall2 (wval w) env venv -> supported (map is_obj env) e = true ->
  step w (py_eval F P env w e) (number F P venv e) (recorded_float (map is_obj env) e) (ev_spec env e).
Proof.
  induction e as [i v|i|o a IHa b IHb|o a IHa|f a IHa|f a IHa b IHb]; intros env venv w Hann Henv Hs; cbn [py_eval number].
  - apply step_number; [reflexivity|reflexivity|]. intros s r [renv [_ ->]]. reflexivity.
  - cbn in Hs. apply Nat.ltb_lt in Hs. rewrite map_length in Hs. destruct (nth_error env i) as [x|] eqn:Ei; [|apply nth_error_None in Ei; lia].
    destruct (Forall2_nth _ _ _ _ _ _ _ Henv Ei) as [v [Ev Hv]]. rewrite Ev. exists []. split; [apply moves_nil|]. exists x. repeat split; auto.
    + cbn. symmetry. apply nth_error_nth. rewrite nth_error_map, Ei. reflexivity.
    + intros ov s r [_ [_ He]] _ [renv [Hr ->]]. destruct (Forall2_nth _ _ _ _ _ _ _ Hr Ei) as [u [Eu Hu]]. cbn. rewrite Eu. cbn. split; auto.
  - cbn in Hs. apply andb_true_iff in Hs as [Hs Ho]. apply andb_true_iff in Hs as [Hsa Hsb].
    eapply step_weaken; [|eapply step_bind with (spec2 := fun x s r => exists a', rep s x a' /\ exists renv, Forall2 (rep s) env renv /\ r = (do y <- number F P renv b; bin_val F P o a' y)); [exact (IHa env venv w Hann Henv Hsa)|]].
    + intros s r [renv [Hr ->]]. exists (number F P renv a). split; [exists renv; auto|]. cbn [number]. destruct (number F P renv a) as [a'|e]; [|reflexivity].
      intros x s' Hl Hx _ _. exists a'. split; [exact Hx|]. exists renv. split; [exact (later_env _ _ _ _ Hl Hr)|reflexivity].
    + intros w1 x v q Eo Ev M Hx Hb.
      eapply step_weaken; [|eapply step_bind with (spec2 := fun y s r => exists a' b', rep s x a' /\ rep s y b' /\ r = bin_val F P o a' b');
        [refine (IHb env venv w1 _ (moves_env _ _ _ _ _ M Henv) Hsb); now rewrite (moves_ann _ _ _ M)|]].
      * intros s r [a' [Ha [renv [Hr ->]]]]. exists (number F P renv b). split; [exists renv; auto|]. destruct (number F P renv b) as [b'|e]; [|reflexivity].
        intros y s' Hl Hy _ _. exists a', b'. auto.
      * intros w2 y v2 q2 Eo2 Ev2 M2 Hy Hb2.
        replace (recorded_float (map is_obj env) (PBin o a b)) with (bin_recorded o (is_obj x) (is_obj y)) by (rewrite Hb, Hb2; destruct o; reflexivity).
        apply bin_step; [now rewrite (moves_ann _ _ _ M2), (moves_ann _ _ _ M)|exact (moves_wval _ _ _ _ _ M2 Hx)|exact Hy|].
        rewrite Hb, Hb2. destruct o; exact Ho.
  - cbn in Hs. apply andb_true_iff in Hs as [Hsa Ho].
    eapply step_weaken; [|eapply step_bind with (spec2 := fun x s r => exists a', rep s x a' /\ r = Ok (un_val F P o a')); [exact (IHa env venv w Hann Henv Hsa)|]].
    + intros s r [renv [Hr ->]]. exists (number F P renv a). split; [exists renv; auto|]. cbn [number]. destruct (number F P renv a) as [a'|e]; [|reflexivity].
      intros x s' Hl Hx _ _. exists a'. auto.
    + intros w1 x v q Eo Ev M Hx Hb.
      replace (recorded_float (map is_obj env) (PUn o a)) with (match o with UNeg => is_obj x | _ => false end) by (rewrite Hb; destruct o; reflexivity).
      apply un_step; [now rewrite (moves_ann _ _ _ M)|exact Hx|]. rewrite Hb. destruct o; exact Ho.
  - cbn in Hs. apply andb_true_iff in Hs as [Hsa Ho].
    replace (match f with FExp => do x <- number F P venv a; sop F KExp [x] | FLog => do x <- number F P venv a; sop F KLog [x] end)
      with (do x <- number F P venv a; sop F (kind1 f) [x]) by (destruct f; reflexivity).
    eapply step_weaken; [|eapply step_bind with (spec2 := fun x s r => exists a', rep s x a' /\ r = sop F (kind1 f) [a']); [exact (IHa env venv w Hann Henv Hsa)|]].
    + intros s r [renv [Hr ->]]. exists (number F P renv a). split; [exists renv; auto|]. cbn [number]. destruct f; (destruct (number F P renv a) as [a'|e]; [|reflexivity]);
      intros x s' Hl Hx _ _; exists a'; auto.
    + intros w1 x v q Eo Ev M Hx Hb. cbn [recorded_float].
      apply fun1_step; [destruct f; reflexivity|now rewrite (moves_ann _ _ _ M)|exact Hx|]. eapply float_ok_of; eauto.
  - cbn in Hs. apply andb_true_iff in Hs as [Hs Hfb]. apply andb_true_iff in Hs as [Hs Hfa]. apply andb_true_iff in Hs as [Hsa Hsb].
    replace (match f with FMin => do x <- number F P venv a; do y <- number F P venv b; sop F KMin [x; y] | FMax => do x <- number F P venv a; do y <- number F P venv b; sop F KMax [x; y] end)
      with (do x <- number F P venv a; do y <- number F P venv b; sop F (kind2 f) [x; y]) by (destruct f; reflexivity).
    eapply step_weaken; [|eapply step_bind with (spec2 := fun x s r => exists a', rep s x a' /\ exists renv, Forall2 (rep s) env renv /\ r = (do y <- number F P renv b; sop F (kind2 f) [a'; y])); [exact (IHa env venv w Hann Henv Hsa)|]].
    + intros s r [renv [Hr ->]]. exists (number F P renv a). split; [exists renv; auto|]. cbn [number]. destruct f; (destruct (number F P renv a) as [a'|e]; [|reflexivity]);
      intros x s' Hl Hx _ _; exists a'; (split; [exact Hx|]); exists renv; (split; [exact (later_env _ _ _ _ Hl Hr)|reflexivity]).
    + intros w1 x v q Eo Ev M Hx Hb.
      eapply step_weaken; [|eapply step_bind with (spec2 := fun y s r => exists a' b', rep s x a' /\ rep s y b' /\ r = sop F (kind2 f) [a'; b']);
        [refine (IHb env venv w1 _ (moves_env _ _ _ _ _ M Henv) Hsb); now rewrite (moves_ann _ _ _ M)|]].
      * intros s r [a' [Ha [renv [Hr ->]]]]. exists (number F P renv b). split; [exists renv; auto|]. destruct (number F P renv b) as [b'|e]; [|reflexivity].
        intros y s' Hl Hy _ _. exists a', b'. auto.
      * intros w2 y v2 q2 Eo2 Ev2 M2 Hy Hb2. cbn [recorded_float].
        apply fun2_step; [destruct f; reflexivity|now rewrite (moves_ann _ _ _ M2), (moves_ann _ _ _ M)|exact (moves_wval _ _ _ _ _ M2 Hx)|exact Hy|eapply float_ok_of; eauto|eapply float_ok_of; eauto].
Qed.

End PyFacts.
