(** Values do not depend on annotation; failed statements and collections are unobservable; updates
    create versions; unannotated results are constants. *)
From Coq Require Import List Arith ZArith Lia Bool.
From Verif Require Import Base Model BaseFacts Graph Record Spec RecordFacts Replay ReplayStep ReplayExec History Session
  SpecTape SpecPlain Iso TapeRecord IsoRecord.
Import ListNotations.

Section Observe.
Context {V : Type} (F : fops V).
Implicit Types (w : world V) (h : heap V) (s : sst V).

(** ** Values (any world) *)
Definition vals w : list V := map o_val (w_objs w).
Lemma map_list_set : forall {A B} (f : A -> B) l i x, map f (list_set l i x) = list_set (map f l) i (f x).
Proof. intros A B f l. induction l as [|y r IH]; intros [|i] x; cbn; auto. now rewrite IH. Qed.
Lemma list_set_same : forall {A} (l : list A) i x, nth_error l i = Some x -> list_set l i x = l.
Proof. intros A l. induction l as [|y r IH]; intros [|i] x H; cbn in *; try discriminate; auto; [congruence|]. now rewrite IH. Qed.
Lemma vals_create : forall w o, vals (fst (create_bv w o)) = vals w.
Proof.
  intros w o. unfold create_bv. destruct (nth_error (w_objs w) o) as [ob|] eqn:E; [|reflexivity]. cbn. unfold vals. cbn.
  rewrite map_list_set. cbn. apply list_set_same. now rewrite nth_error_map, E.
Qed.
Lemma vals_get_bv : forall w o, vals (fst (get_bv w o)) = vals w.
Proof.
  intros w o. unfold get_bv. destruct (nth_error (w_objs w) o) as [ob|] eqn:E; [|reflexivity].
  destruct (o_bv ob); [reflexivity|]. apply vals_create.
Qed.
Lemma vals_will_dep : forall w v, vals (will_dep w v) = vals w.
Proof. intros w v. unfold vals, will_dep, with_heap, with_tape, add_to_state. cbn. destruct (match t_latest _ with None => true | Some _ => _ end); reflexivity. Qed.
Lemma vals_will_out : forall w v, vals (will_out w v) = vals w.
Proof. intros w v. unfold vals, will_out, with_heap, with_tape, add_to_adjdeps. cbn. destruct (t_eager (w_tape w)); reflexivity. Qed.
Lemma vals_get_bvs : forall os w, vals (fst (get_bvs w os)) = vals w.
Proof.
  induction os as [|o r IH]; intros w; [reflexivity|]. cbn [get_bvs].
  pose proof (vals_get_bv w o) as A. destruct (get_bv w o) as [w1 v]. specialize (IH w1).
  destruct (get_bvs w1 r). cbn [fst] in *. congruence.
Qed.
Lemma vals_add_deps : forall os w, vals (fst (add_deps w os)) = vals w.
Proof.
  induction os as [|o r IH]; intros w; [reflexivity|]. cbn [add_deps]. unfold add_dep.
  pose proof (vals_get_bv w o) as A. destruct (get_bv w o) as [w1 v]. pose proof (vals_will_dep w1 v) as B. specialize (IH (will_dep w1 v)).
  destruct (add_deps (will_dep w1 v) r). cbn [fst] in *. congruence.
Qed.
Lemma vals_add_outs : forall os w, vals (fst (add_outs w os)) = vals w.
Proof.
  induction os as [|o r IH]; intros w; [reflexivity|]. cbn [add_outs].
  pose proof (vals_create w o) as A.
  destruct (create_bv w o) as [w1 v]. pose proof (vals_will_out w1 v) as B. specialize (IH (will_out w1 v)).
  destruct (add_outs (will_out w1 v) r). cbn [fst] in *. congruence.
Qed.
Lemma vals_new_objs : forall ys w, vals (fst (new_objs w ys)) = vals w ++ ys.
Proof.
  induction ys as [|y r IH]; intros w; [cbn; now rewrite app_nil_r|]. cbn [new_objs]. unfold new_obj. cbn.
  specialize (IH (with_objs (fun l => l ++ [Obj y None 0]) w)). destruct (new_objs _ r). cbn [fst] in *. rewrite IH.
  unfold vals. cbn. rewrite map_app. cbn. now rewrite <- app_assoc.
Qed.
Lemma arg_vals_look : forall w args, arg_vals w args = match look (vals w) args with Some xs => Ok xs | None => Err EAttr end.
Proof.
  intros w args. unfold arg_vals. induction args as [|o r IH]; [reflexivity|]. cbn. unfold vals. rewrite nth_error_map. fold (vals w).
  destruct (nth_error (w_objs w) o) as [ob|]; cbn; [|reflexivity]. rewrite IH. destruct (look (vals w) r); reflexivity.
Qed.
Lemma vals_nth : forall w o, nth_error (vals w) o = option_map o_val (nth_error (w_objs w) o).
Proof. intros. unfold vals. apply nth_error_map. Qed.
Lemma vals_assign : forall w o x, nth_error (w_objs w) o <> None -> vals (assign_obj w o x) = list_set (vals w) o x.
Proof.
  intros w o x H. unfold assign_obj. destruct (nth_error (w_objs w) o); [|congruence]. unfold vals. cbn. apply map_list_set.
Qed.
Lemma vals_clear : forall w o, vals (clear_bv w o) = vals w.
Proof.
  intros w o. unfold clear_bv. destruct (nth_error (w_objs w) o) as [ob|] eqn:E; [|reflexivity]. unfold vals. cbn.
  rewrite map_list_set. cbn. apply list_set_same. now rewrite nth_error_map, E.
Qed.
Lemma look_len : forall l args (xs : list V), look l args = Some xs -> length xs = length args.
Proof.
  intros l args. induction args as [|o r IH]; intros xs H; cbn in H; [inversion H; reflexivity|].
  destruct (nth_error l o); [|discriminate]. destruct (look l r) eqn:E; [|discriminate]. inversion H. cbn. now rewrite (IH _ eq_refl).
Qed.

Lemma exec_plain : forall w c, (vals (fst (exec_stmt F w c)), snd (exec_stmt F w c)) = plain F (vals w) c.
Proof.
  intros w c. destruct c; cbn [exec_stmt plain].
  - cbn. unfold vals. cbn. now rewrite map_app.
  - unfold exec_op. rewrite sargs_operator. unfold plain_call. destruct (is_operator k && Nat.eqb (length args) (arity k)) eqn:Hk; cbn [negb]; [|reflexivity].
    rewrite <- sargs_operator in Hk. rewrite arg_vals_look. destruct (look (vals w) args) as [xs|] eqn:El; [|reflexivity].
    destruct (op_value_sop F k true args xs Hk (look_len _ _ _ El)) as [-> _]. destruct (sop F k xs) as [y|e]; cbn [rmap]; [|reflexivity].
    cbn [new_obj]. set (w1 := with_objs _ w). assert (E1 : vals w1 = vals w ++ [y]) by (unfold w1, vals; cbn; now rewrite map_app).
    destruct (w_ann w); [|cbn [fst snd]; now rewrite E1].
    pose proof (vals_get_bvs args w1) as A. destruct (get_bvs w1 args) as [w2 ts].
    pose proof (vals_add_deps args w2) as B. destruct (add_deps w2 args) as [w3 ds]. cbn [fst] in *.
    set (w4 := with_tape _ w3). assert (E4 : vals w4 = vals w3) by reflexivity.
    pose proof (vals_get_bv w4 (length (w_objs w))) as C. destruct (get_bv w4 _) as [w5 v]. cbn [fst snd] in *.
    f_equal. change (vals (will_out w5 v) = vals w ++ [y]). rewrite vals_will_out. congruence.
  - unfold exec_fun. rewrite sargs_function. unfold plain_call. destruct (is_function k && Nat.eqb (length args) (arity k)) eqn:Hk; cbn [negb]; [|reflexivity].
    rewrite <- sargs_function in Hk. rewrite arg_vals_look. destruct (look (vals w) args) as [xs|] eqn:El; [|reflexivity].
    destruct (op_value_sop F k false args xs Hk (look_len _ _ _ El)) as [-> _].
    match goal with |- context[new_obj ?x _] => set (w1 := x) end.
    assert (E1 : vals w1 = vals w).
    { unfold w1. destruct (w_ann w && annotate); [|reflexivity]. pose proof (vals_add_deps args w) as B. destruct (add_deps w args). exact B. }
    destruct (sop F k xs) as [y|e]; cbn [rmap fst snd]; [|now rewrite E1].
    cbn [new_obj]. set (w2 := with_objs _ w1). assert (E2 : vals w2 = vals w ++ [y]) by (unfold w2, vals; cbn; rewrite map_app; fold (vals w1); now rewrite E1).
    destruct (w_ann w && annotate); [|cbn [fst snd]; now rewrite E2].
    pose proof (vals_get_bv w2 (length (w_objs w1))) as C. destruct (get_bv w2 _) as [w5 v]. cbn [fst snd] in *.
    f_equal. change (vals (will_out w5 v) = vals w ++ [y]). rewrite vals_will_out. congruence.
  - unfold exec_user, plain_call. rewrite arg_vals_look. destruct (look (vals w) args) as [xs|] eqn:El; [|reflexivity].
    set (r := if w_ann w && annotate then add_deps w args else (w, [])).
    assert (E1 : vals (fst r) = vals w) by (unfold r; destruct (w_ann w && annotate); [apply vals_add_deps|reflexivity]).
    destruct r as [w1 deps]. cbn [fst] in E1. destruct (func xs) as [ys|e]; cbn [fst snd]; [|now rewrite E1].
    pose proof (vals_new_objs ys w1) as E2. destruct (new_objs w1 ys) as [w2 os]. cbn [fst] in E2.
    destruct (w_ann w && annotate); [|cbn [fst snd]; congruence].
    pose proof (vals_add_outs os w2) as E3. destruct (add_outs w2 os) as [w3 vs]. cbn [fst snd] in *. f_equal. change (vals w3 = vals w ++ ys). congruence.
  - unfold exec_inpl. rewrite arg_vals_look. destruct (look (vals w) args) as [xs|] eqn:El; [|reflexivity].
    rewrite vals_nth. destruct (nth_error (w_objs w) o) as [ob|] eqn:En; cbn [option_map]; [|reflexivity].
    set (r := if w_ann w && annotate then add_deps w args else (w, [])).
    assert (E1 : vals (fst r) = vals w) by (unfold r; destruct (w_ann w && annotate); [apply vals_add_deps|reflexivity]).
    destruct r as [w1 deps]. cbn [fst] in E1. destruct (func xs) as [y|e]; cbn [fst snd]; [|now rewrite E1].
    assert (Hn : nth_error (w_objs w1) o <> None).
    { intros K. pose proof (vals_nth w1 o) as Q. rewrite E1, vals_nth, En, K in Q. discriminate. }
    pose proof (vals_assign w1 o y Hn) as E2. rewrite E1 in E2.
    destruct (w_ann w && annotate); [|cbn [fst snd]; congruence].
    pose proof (vals_add_outs [o] (assign_obj w1 o y)) as E3. destruct (add_outs (assign_obj w1 o y) [o]) as [w3 vs]. cbn [fst snd] in *.
    f_equal. change (vals w3 = list_set (vals w) o y). congruence.
  - rewrite vals_nth. destruct (nth_error (w_objs w) o) eqn:En; cbn [option_map fst snd]; [|reflexivity]. rewrite vals_clear, vals_assign; congruence.
  - reflexivity.
  - reflexivity.
  - reflexivity.
  - destruct (nth_error (w_objs w) o) as [ob|]; [|reflexivity]. destruct (o_bv ob); [|reflexivity]. destruct (referenced w _); [reflexivity|].
    cbn [fst snd]. now rewrite vals_clear.
  - rewrite vals_nth. destruct (nth_error (w_objs w) o); cbn [option_map]; [|reflexivity].
    pose proof (vals_get_bv w o) as A. destruct (get_bv w o) as [w1 v]. cbn [fst snd] in *. f_equal. exact A.
  - rewrite vals_nth. destruct (nth_error (w_objs w) o); cbn [option_map fst snd]; [|reflexivity]. now rewrite vals_get_bv.
Qed.
Lemma exec_vals : forall p w, vals (exec F w p) = plain_run F (vals w) p.
Proof.
  induction p as [|c r IH]; intros w; [reflexivity|].
  change (exec F w (c :: r)) with (exec F (fst (exec_stmt F w c)) r). rewrite IH.
  pose proof (exec_plain w c) as E. cbn [plain_run fold_left]. rewrite <- E. reflexivity.
Qed.
Lemma plain_unswitched : forall p l, plain_run F l (unswitched p) = plain_run F l p.
Proof.
  induction p as [|c r IH]; intros l; [reflexivity|]. destruct c; cbn [unswitched]; cbn [plain_run fold_left]; try apply IH.
Qed.

(** ** Nothing recorded while off *)
Definition ann_of (ann : bool) (c : stmt V) : bool :=
  match c with SFun _ _ a | SUser _ _ _ a _ | SInpl _ _ _ _ a _ => ann && a | SOp _ _ => ann | _ => false end.

Lemma off_frame : forall w c, ann_of (w_ann w) c = false -> (match c with SEndStep => False | _ => True end) -> w_tape (fst (exec_stmt F w c)) = w_tape w.
Proof.
  intros w c H Hne. destruct c; cbn [exec_stmt]; cbn [ann_of] in H; try reflexivity; try contradiction.
  - unfold exec_op. rewrite H. destruct (negb _); [reflexivity|]. destruct (arg_vals w args); [|reflexivity]. destruct (op_value F k _); reflexivity.
  - unfold exec_fun. rewrite H. destruct (negb _); [reflexivity|]. destruct (arg_vals w args); [|reflexivity]. destruct (op_value F k _); reflexivity.
  - unfold exec_user. rewrite H. destruct (arg_vals w args); [|reflexivity]. destruct (func _) as [ys|]; [|reflexivity].
    assert (E : forall ys w, w_tape (fst (new_objs w ys)) = w_tape w).
    { clear. induction ys as [|y r IH]; intros w; [reflexivity|]. cbn [new_objs]. unfold new_obj. cbn. specialize (IH (with_objs (fun l => l ++ [Obj y None 0]) w)).
      destruct (new_objs _ r). exact IH. }
    specialize (E ys w). destruct (new_objs w ys). exact E.
  - unfold exec_inpl. rewrite H. destruct (arg_vals w args); [|reflexivity]. destruct (nth_error (w_objs w) o) eqn:En; [|reflexivity].
    destruct (func _) as [y|]; [|reflexivity]. cbn. unfold assign_obj. now rewrite En.
  - destruct (nth_error (w_objs w) o) eqn:En; [|reflexivity]. cbn. unfold assign_obj. rewrite En. unfold clear_bv. cbn. rewrite nth_list_set, Nat.eqb_refl, En. reflexivity.
  - destruct (nth_error (w_objs w) o) as [ob|] eqn:En; [|reflexivity]. destruct (o_bv ob); [|reflexivity]. destruct (referenced w _); [reflexivity|]. cbn. unfold clear_bv. now rewrite En.
  - destruct (nth_error (w_objs w) o) as [ob|] eqn:En; [|reflexivity]. unfold get_bv. rewrite En. destruct (o_bv ob); [reflexivity|]. unfold create_bv. rewrite En. reflexivity.
  - destruct (nth_error (w_objs w) o) as [ob|] eqn:En; [|reflexivity]. unfold get_bv. rewrite En. destruct (o_bv ob); [reflexivity|]. unfold create_bv. rewrite En. reflexivity.
Qed.

(** Unannotated results are constants: the call could be replaced by the creation of its results. *)
Lemma new_objs_exec : forall ys w, fst (new_objs w ys) = exec F w (map SNew ys).
Proof.
  induction ys as [|y r IH]; intros w; [reflexivity|]. cbn [new_objs map]. unfold new_obj at 1.
  change (exec F w (SNew y :: map SNew r)) with (exec F (fst (new_obj w y)) (map SNew r)). rewrite <- IH. cbn [new_obj fst].
  destruct (new_objs _ r). reflexivity.
Qed.
Definition new_results (l : list V) (c : stmt V) : list V := skipn (length l) (fst (plain F l c)).
Lemma skipn_app0 : forall {A} (l m : list A), skipn (length l) (l ++ m) = m.
Proof. induction l; cbn; auto. Qed.
Lemma constant_exec : forall w c, unannotated (w_ann w) c = true -> fst (exec_stmt F w c) = exec F w (map SNew (new_results (vals w) c)).
Proof.
  intros w c H. unfold new_results. destruct c; cbn [unannotated] in H; try discriminate; apply negb_true_iff in H; cbn [exec_stmt plain].
  - unfold exec_op. rewrite sargs_operator. unfold plain_call. destruct (is_operator k && Nat.eqb (length args) (arity k)) eqn:Hk; cbn [negb]; [|now rewrite skipn_all].
    rewrite <- sargs_operator in Hk. rewrite arg_vals_look. destruct (look (vals w) args) as [xs|] eqn:El; [|now rewrite skipn_all].
    destruct (op_value_sop F k true args xs Hk (look_len _ _ _ El)) as [-> _]. destruct (sop F k xs) as [y|e]; cbn [rmap fst]; [|now rewrite skipn_all].
    rewrite H, skipn_app0. reflexivity.
  - unfold exec_fun. rewrite sargs_function. unfold plain_call. destruct (is_function k && Nat.eqb (length args) (arity k)) eqn:Hk; cbn [negb]; [|now rewrite skipn_all].
    rewrite <- sargs_function in Hk. rewrite arg_vals_look. destruct (look (vals w) args) as [xs|] eqn:El; [|now rewrite skipn_all].
    destruct (op_value_sop F k false args xs Hk (look_len _ _ _ El)) as [-> _]. rewrite H. destruct (sop F k xs) as [y|e]; cbn [rmap fst]; [|now rewrite skipn_all].
    rewrite skipn_app0. reflexivity.
  - unfold exec_user, plain_call. rewrite H, arg_vals_look. destruct (look (vals w) args) as [xs|] eqn:El; [|now rewrite skipn_all].
    destruct (func xs) as [ys|e]; cbn [fst]; [|now rewrite skipn_all]. rewrite skipn_app0, <- new_objs_exec. destruct (new_objs w ys). reflexivity.
Qed.
Lemma exec_app : forall p q w, exec F w (p ++ q) = exec F (exec F w p) q.
Proof. intros. apply fold_left_app. Qed.
Lemma constant_program : forall p c q w, unannotated (w_ann (exec F w p)) c = true ->
  exec F w (p ++ c :: q) = exec F w (p ++ map SNew (new_results (plain_run F (vals w) p) c) ++ q).
Proof.
  intros p c q w H. rewrite !exec_app. change (exec F (exec F w p) (c :: q)) with (exec F (fst (exec_stmt F (exec F w p) c)) q).
  rewrite (constant_exec _ _ H), exec_vals. reflexivity.
Qed.

(** ** Plain running against the specification *)
Definition svals s : list V := map s_rec (s_objs s).
Lemma look_args : forall s args, look (svals s) args = get_args s_rec s args.
Proof.
  intros s args. induction args as [|o r IH]; [reflexivity|]. cbn. unfold svals at 1. rewrite nth_error_map.
  destruct (nth_error (s_objs s) o); cbn; [|reflexivity]. rewrite IH. reflexivity.
Qed.
Lemma get_args_rep : forall s args xs, get_args s_rec s args = Some xs -> exists ps, get_args s_rep s args = Some ps.
Proof.
  intros s args. induction args as [|o r IH]; intros xs H; cbn in *; [eauto|].
  destruct (nth_error (s_objs s) o); [|discriminate]. destruct (get_args s_rec s r) eqn:E; unfold get_args in E; rewrite E in H; [|discriminate].
  destruct (IH _ eq_refl) as [ps Hp]. unfold get_args in Hp. rewrite Hp. eauto.
Qed.
Lemma svals_new : forall s ys (zs : list V) e, length zs = length ys -> svals (push (sobjs_new ys zs) (match e with Some x => raise x s | None => s end)) = svals s ++ ys.
Proof.
  intros s ys zs e L. unfold svals, push. replace (s_objs match e with Some x => raise x s | None => s end) with (s_objs s) by (destruct e; reflexivity).
  cbn. rewrite map_app. f_equal. unfold sobjs_new. rewrite map_map. cbn. revert zs L. induction ys as [|y r IH]; intros [|z zs] L; try discriminate; [reflexivity|].
  cbn. f_equal. apply IH. cbn in L. lia.
Qed.
Lemma results_len : forall ov a vs (ys : list V) again zs, length vs = length ys -> results ov a vs ys again = Ok zs -> length zs = length ys.
Proof.
  intros ov a vs ys again zs L H. unfold results in H. destruct (a && _ && _).
  - destruct again as [zs0|]; [|discriminate]. destruct (Nat.ltb_spec (length zs0) (length ys)); [discriminate|]. inversion H. rewrite firstn_length. lia.
  - inversion H. rewrite map_length, combine_length. lia.
Qed.
Lemma next_vers_len : forall s n, length (next_vers s n) = n.
Proof. intros. unfold next_vers. now rewrite map_length, seq_length. Qed.

Lemma call_plain : forall ov a func args s l' e, plain_call (svals s) func args = (l', e) ->
  svals (spec_call ov a func args s) = l' /\ (e <> None -> spec_call ov a func args s = s).
Proof.
  intros ov a func args s l' e H. unfold plain_call in H. rewrite look_args in H. unfold spec_call.
  destruct (get_args s_rec s args) as [xs|] eqn:E; [|inversion H; auto]. destruct (get_args_rep s args xs E) as [ps ->].
  destruct (func xs) as [ys|x]; [|inversion H; auto]. inversion H; subst. split; [|congruence].
  destruct (results ov a (next_vers s (length ys)) ys (func ps)) as [zs|x] eqn:Er.
  - apply results_len in Er; [|apply next_vers_len]. exact (svals_new s ys zs None Er).
  - exact (svals_new s ys ys (Some x) eq_refl).
Qed.
Lemma svals_nth : forall s o, nth_error (svals s) o = option_map s_rec (nth_error (s_objs s) o).
Proof. intros. unfold svals. apply nth_error_map. Qed.

Lemma spec_plain : forall ov s c l' e, plain F (svals s) c = (l', e) ->
  svals (spec_stmt F ov s c) = l' /\ (e <> None -> spec_stmt F ov s c = s).
Proof.
  intros ov s c l' e H. destruct c; cbn [plain spec_stmt] in *.
  - inversion H; subst. split; [|congruence]. unfold svals. cbn. now rewrite map_app.
  - destruct (sargs_ok k true args); [|inversion H; subst; auto]. now apply call_plain.
  - destruct (sargs_ok k false args); [|inversion H; subst; auto]. now apply call_plain.
  - now apply call_plain.
  - rewrite look_args, svals_nth in H. unfold spec_inpl. destruct (get_args s_rec s args) as [xs|] eqn:E; [|inversion H; subst; auto].
    destruct (get_args_rep s args xs E) as [ps ->]. destruct (nth_error (s_objs s) o) as [so|] eqn:Eo; cbn in H; [|inversion H; subst; auto].
    destruct (func xs) as [y|x]; [|inversion H; subst; auto]. inversion H; subst. split; [|congruence].
    destruct (results ov (s_ann s && annotate) [(o, Datatypes.S (s_gen so))] [y] _) as [zs|x] eqn:Er.
    + apply results_len in Er; [|reflexivity]. destruct zs as [|z [|? ?]]; try discriminate. unfold svals, put. cbn. now rewrite map_list_set.
    + unfold svals, put. cbn. now rewrite map_list_set.
  - rewrite svals_nth in H. destruct (nth_error (s_objs s) o) as [so|]; cbn in H; inversion H; subst; [|auto].
    split; [|congruence]. unfold svals, put. cbn. now rewrite map_list_set.
  - inversion H; subst; auto. split; [reflexivity|congruence].
  - inversion H; subst; auto. split; [reflexivity|congruence].
  - inversion H; subst; auto.
  - inversion H; subst; auto.
  - rewrite svals_nth in H. destruct (nth_error (s_objs s) o) as [so|]; cbn in H; inversion H; subst; [|auto].
    split; [reflexivity|congruence].
  - rewrite svals_nth in H. destruct (nth_error (s_objs s) o) as [so|]; cbn in H; inversion H; subst; auto.
Qed.

Lemma tape_failed : forall s c l' e, plain F (svals s) c = (l', Some e) -> filter has_results (tape_stmt F s c) = [].
Proof.
  assert (Hcall : forall a early k func args s l' e, plain_call (svals s) func args = (l', Some e) -> filter has_results (tape_call a early k func args s) = []).
  { intros a early k func args s l' e H. unfold plain_call in H. rewrite look_args in H. unfold tape_call.
    destruct a; [|reflexivity]. destruct (get_args s_rec s args); [|reflexivity]. destruct (func l); [discriminate|]. destruct early; reflexivity. }
  intros s c l' e H. destruct c; cbn [plain tape_stmt] in *; try reflexivity.
  - destruct (sargs_ok k true args); [|reflexivity]. eapply Hcall; eauto.
  - destruct (sargs_ok k false args); [|reflexivity]. eapply Hcall; eauto.
  - eapply Hcall; eauto.
  - rewrite look_args, svals_nth in H. unfold tape_inpl. destruct (s_ann s && annotate); [|reflexivity].
    destruct (get_args s_rec s args); [|reflexivity]. destruct (nth_error (s_objs s) o); [|reflexivity]. cbn in H.
    destruct (func l); [discriminate|reflexivity].
Qed.

(** *** Failed statements *)
Lemma mentions_app : forall (g1 g2 : list (vblock V)) v, mentions (g1 ++ g2) v <-> mentions g1 v \/ mentions g2 v.
Proof.
  intros g1 g2 v. unfold mentions. split.
  - intros [b [x [H1 H2]]]. apply in_app_iff in H1 as [H1|H1]; [left|right]; eauto.
  - intros [[b [x [H1 H2]]]|[b [x [H1 H2]]]]; exists b, x; (split; [apply in_or_app; auto|auto]).
Qed.
Lemma step_eq : forall s g c, spec_step F (s, g) c = (spec_stmt F no_override s c, g ++ tape_stmt F s c).
Proof. reflexivity. Qed.
Lemma survivors_fold : forall p s g g', filter has_results g = filter has_results g' -> (forall v, mentions g' v -> mentions g v) ->
  let r := fold_left (spec_step F) p (s, g) in
  let r' := fold_left (spec_step F) (survivors F (svals s) p) (s, g') in
  fst r = fst r' /\ filter has_results (snd r) = filter has_results (snd r') /\ (forall v, mentions (snd r') v -> mentions (snd r) v).
Proof.
  induction p as [|c p IH]; intros s g g' Hg Hm; [cbn; auto|].
  cbn [survivors]. destruct (plain F (svals s) c) as [l' e] eqn:E. destruct (spec_plain no_override s c l' e E) as [Es Ef].
  cbn [fold_left]. rewrite ?step_eq. cbn [fst snd]. destruct e as [e|].
  - specialize (Ef ltac:(discriminate)). rewrite Ef. rewrite Ef in Es. subst l'. apply IH.
    + rewrite filter_app, (tape_failed s c _ e E), app_nil_r. exact Hg.
    + intros v Hv. apply mentions_app. left. auto.
  - cbn [fold_left]. rewrite ?step_eq. cbn [fst snd]. rewrite <- Es. apply IH.
    + rewrite !filter_app. congruence.
    + intros v Hv. apply mentions_app. apply mentions_app in Hv as [Hv|Hv]; auto.
Qed.
Lemma fold_spec_fst : forall p s g, fst (fold_left (spec_step F) p (s, g)) = fold_left (spec_stmt F no_override) p s.
Proof. induction p as [|c p IH]; intros s g; [reflexivity|]. cbn [fold_left]. rewrite ?step_eq. cbn [fst snd]. apply IH. Qed.
Lemma fold_spec_snd : forall p s g, snd (fold_left (spec_step F) p (s, g)) = g ++ snd (fold_left (spec_step F) p (s, [])).
Proof.
  induction p as [|c p IH]; intros s g; [cbn; now rewrite app_nil_r|]. cbn [fold_left]. rewrite ?step_eq. cbn [fst snd].
  rewrite IH, (IH _ (tape_stmt F s c)). now rewrite app_assoc.
Qed.
Lemma disciplined_survivors : forall p ann l, disciplined ann p = true -> disciplined ann (survivors F l p) = true.
Proof.
  induction p as [|c p IH]; intros ann l H; [reflexivity|]. cbn [survivors].
  destruct (plain F l c) as [l' [e|]] eqn:E.
  - apply IH. destruct c; cbn in H, E; auto; try discriminate. apply andb_true_iff in H as [_ H]. exact H.
  - destruct c; cbn in H |- *; auto. apply andb_true_iff in H as [H1 H2]. rewrite H1. cbn. auto.
Qed.
Lemma consistent_survivors : forall p l, consistent p -> consistent (survivors F l p).
Proof.
  induction p as [|c p IH]; intros l H; [constructor|]. inversion H; subst. cbn [survivors].
  destruct (plain F l c) as [l' [e|]]; [apply IH; auto|constructor; [auto|]]. apply IH; auto.
Qed.

Lemma failures_unobservable : forall ann p js, consistent p -> disciplined ann p = true ->
  let s := spec_exec F no_override ann p in
  Forall (fun j => j < length (plain_run F [] p)) js ->
  (forall v, In v (map fst (vers_of s js) ++ map fst (s_ctrls s)) ->
     mentions (spec_tape F ann p) v -> mentions (spec_tape F ann (survivors F [] p)) v) ->
  forall l, observe F (session F ann p js) l = observe F (session F ann (survivors F [] p) js) l.
Proof.
  intros ann p js Hc Hd s Hj Hm l.
  destruct (survivors_fold p (SSt [] ann None []) [] [] eq_refl (fun v H => H)) as [A [B C]]. cbn [svals s_objs map] in A, B, C.
  rewrite !fold_spec_fst in A. change (spec_exec F no_override ann p = spec_exec F no_override ann (survivors F [] p)) in A.
  assert (Hlen : length (plain_run F [] p) = length (s_objs s)).
  { assert (E : svals s = plain_run F [] p); [|rewrite <- E; unfold svals; now rewrite map_length].
    unfold s, spec_exec. clear. change (plain_run F [] p) with (plain_run F (svals (SSt [] ann None [])) p).
    generalize (SSt (@nil (sobj V)) ann None []) as s0. induction p as [|c p IH]; intros s0; [reflexivity|]. cbn [fold_left plain_run].
    rewrite IH. destruct (plain F (svals s0) c) as [l' e] eqn:E. destruct (spec_plain no_override s0 c l' e E) as [-> _]. reflexivity. }
  rewrite Hlen in Hj.
  apply observe_equiv; auto.
  - now apply consistent_survivors.
  - now apply disciplined_survivors.
  - rewrite <- A. exact Hj.
  - now rewrite <- A.
  - now rewrite <- A.
  - intros v Hv. split; [apply Hm; exact Hv|apply C].
Qed.

(** *** Collections *)
Lemma gc_fold : forall p s g, fold_left (spec_step F) p (s, g) = fold_left (spec_step F) (no_gc p) (s, g).
Proof.
  induction p as [|c p IH]; intros s g; [reflexivity|]. unfold no_gc. cbn [filter]. destruct (not_gc c) eqn:E; cbn [fold_left]; [apply IH|].
  destruct c; try discriminate. rewrite ?step_eq. cbn. rewrite app_nil_r. apply IH.
Qed.
Lemma gc_plain : forall p l, plain_run F l (no_gc p) = plain_run F l p.
Proof.
  induction p as [|c p IH]; intros l; [reflexivity|]. unfold no_gc. cbn [filter]. destruct (not_gc c) eqn:E; cbn [plain_run fold_left]; [apply IH|].
  destruct c; try discriminate. apply IH.
Qed.
Lemma plain_len : forall ann p, length (s_objs (spec_exec F no_override ann p)) = length (plain_run F [] p).
Proof.
  intros ann p. assert (E : svals (spec_exec F no_override ann p) = plain_run F [] p); [|rewrite <- E; unfold svals; now rewrite map_length].
  unfold spec_exec. change (plain_run F [] p) with (plain_run F (svals (SSt [] ann None [])) p).
  generalize (SSt (@nil (sobj V)) ann None []) as s0. induction p as [|c p IH]; intros s0; [reflexivity|]. cbn [fold_left plain_run].
  rewrite IH. destruct (plain F (svals s0) c) as [l' e] eqn:E. destruct (spec_plain no_override s0 c l' e E) as [-> _]. reflexivity.
Qed.
Lemma gc_unobservable : forall ann p q js, consistent p -> consistent q -> disciplined ann p = true -> disciplined ann q = true ->
  no_gc p = no_gc q -> Forall (fun j => j < length (plain_run F [] p)) js ->
  vals (exec F (world_new F ann) p) = vals (exec F (world_new F ann) q) /\
  forall l, observe F (session F ann p js) l = observe F (session F ann q js) l.
Proof.
  intros ann p q js Cp Cq Dp Dq E Hj. split.
  - rewrite !exec_vals, <- (gc_plain p), <- (gc_plain q). now rewrite E.
  - assert (Ef : fold_left (spec_step F) p (SSt [] ann None [], []) = fold_left (spec_step F) q (SSt [] ann None [], [])) by (rewrite (gc_fold p), (gc_fold q); now rewrite E).
    assert (A : spec_exec F no_override ann p = spec_exec F no_override ann q).
    { unfold spec_exec. now rewrite <- !(fold_spec_fst _ _ []), Ef. }
    assert (B : spec_tape F ann p = spec_tape F ann q) by (unfold spec_tape; now rewrite Ef).
    intros l. apply observe_equiv; auto; rewrite <- ?A, <- ?B; auto; try (rewrite plain_len; exact Hj). tauto.
Qed.

(** *** Updates *)
Lemma flat_map_ext_in : forall {A B} (f g : A -> list B) l, (forall x, In x l -> f x = g x) -> flat_map f l = flat_map g l.
Proof. intros A B f g l H. induction l as [|x l IH]; [reflexivity|]. cbn. rewrite (H x) by now left. f_equal. apply IH. intros; apply H; now right. Qed.
Definition updates (us : list (nat * V)) : list (stmt V) := map (fun ox => SUpdate (fst ox) (snd ox)) us.
Lemma updates_fold : forall us s g, (let r := fold_left (spec_step F) (updates us) (s, g) in
  snd r = g /\ s_ctrls (fst r) = s_ctrls s /\ length (s_objs (fst r)) = length (s_objs s) /\
  forall js, (forall j, In j js -> ~ In j (map fst us)) -> vers_of (fst r) js = vers_of s js).
Proof.
  induction us as [|[o x] us IH]; intros s g; cbn [updates map fold_left fst snd]; [repeat split; auto|].
  rewrite ?step_eq. cbn [fst snd spec_stmt tape_stmt]. rewrite app_nil_r.
  set (s1 := match nth_error (s_objs s) o with None => s | Some b => _ end).
  assert (H1 : s_ctrls s1 = s_ctrls s /\ length (s_objs s1) = length (s_objs s) /\ forall js, ~ In o js -> vers_of s1 js = vers_of s js).
  { unfold s1. destruct (nth_error (s_objs s) o) as [so|] eqn:E; [|auto]. cbn. rewrite length_list_set. repeat split; auto.
    intros js Hn. unfold vers_of. apply flat_map_ext_in. intros j Hj. cbn. rewrite nth_list_set. destruct (Nat.eqb_spec o j) as [->|]; [contradiction|reflexivity]. }
  destruct H1 as [H1 [H2 H3]]. destruct (IH s1 g) as [A [B [C D]]]. unfold updates in *. repeat split; [exact A|congruence|congruence|].
  intros js Hn. rewrite D, H3; auto; [intros K; apply (Hn o K); now left|intros j Hj K; apply (Hn j Hj); now right].
Qed.
Lemma disciplined_updates : forall us ann p, disciplined ann (p ++ updates us) = disciplined ann p.
Proof.
  intros us ann p. revert ann. induction p as [|c p IH]; intros ann; cbn.
  - induction us as [|u us IH]; cbn; auto.
  - destruct c; auto. now rewrite IH.
Qed.
Lemma old_operations : forall ann p us js, consistent p -> disciplined ann p = true ->
  Forall (fun j => j < length (plain_run F [] p)) js -> (forall j, In j js -> ~ In j (map fst us)) ->
  forall l, observe F (session F ann (p ++ updates us) js) l = observe F (session F ann p js) l.
Proof.
  intros ann p us js Hc Hd Hj Hn l.
  destruct (updates_fold us (spec_exec F no_override ann p) (spec_tape F ann p)) as [A [B [C D]]].
  assert (Es : spec_exec F no_override ann (p ++ updates us) = fst (fold_left (spec_step F) (updates us) (spec_exec F no_override ann p, spec_tape F ann p))).
  { rewrite fold_spec_fst. unfold spec_exec. apply fold_left_app. }
  assert (Et : spec_tape F ann (p ++ updates us) = spec_tape F ann p).
  { rewrite <- A. unfold spec_tape at 1. rewrite fold_left_app. f_equal. f_equal. unfold spec_tape, spec_exec. rewrite <- (fold_spec_fst p _ []).
    apply surjective_pairing. }
  apply observe_equiv; auto; rewrite ?Es, ?Et; auto.
  - apply Forall_app. split; [exact Hc|]. apply Forall_forall. intros c H. apply in_map_iff in H as [? [<- _]]. exact I.
  - now rewrite disciplined_updates.
  - rewrite C, plain_len. exact Hj.
  - rewrite plain_len. exact Hj.
  - tauto.
Qed.

Lemma spec_keeps_obj : forall s c o b, modifies o c = false -> nth_error (s_objs s) o = Some b ->
  exists b', nth_error (s_objs (spec_stmt F no_override s c)) o = Some b' /\ s_gen b' = s_gen b /\ s_rec b' = s_rec b /\ s_rep b' = s_rep b.
Proof.
  intros s c o b Hm Ho.
  assert (Hpush : forall os s1, s_objs s1 = s_objs s -> exists b', nth_error (s_objs (push os s1)) o = Some b' /\ s_gen b' = s_gen b /\ s_rec b' = s_rec b /\ s_rep b' = s_rep b).
  { intros os s1 E. exists b. split; [|auto]. cbn. rewrite E, nth_error_app1; [exact Ho|]. now apply nth_error_some_lt in Ho. }
  assert (Hcall : forall a func args, exists b', nth_error (s_objs (spec_call no_override a func args s)) o = Some b' /\ s_gen b' = s_gen b /\ s_rec b' = s_rec b /\ s_rep b' = s_rep b).
  { intros a func args. unfold spec_call. destruct (get_args s_rec s args); [|eauto]. destruct (get_args s_rep s args); [|eauto].
    destruct (func l); [|eauto]. destruct (results _ _ _ _ _); apply Hpush; reflexivity. }
  destruct c; cbn [spec_stmt modifies] in *; eauto.
  - destruct (sargs_ok k true args); eauto.
  - destruct (sargs_ok k false args); eauto.
  - unfold spec_inpl. destruct (get_args s_rec s args); [|eauto]. destruct (get_args s_rep s args); [|eauto]. destruct (nth_error (s_objs s) o0) eqn:E0; [|eauto].
    destruct (func l); [|eauto].
    assert (Hput : forall x s1, s_objs s1 = s_objs s -> nth_error (s_objs (put o0 x s1)) o = Some b).
    { intros x s1 E. cbn. rewrite E, nth_list_set. destruct (Nat.eqb_spec o0 o) as [->|]; [rewrite Nat.eqb_refl in Hm; discriminate|exact Ho]. }
    destruct (results _ _ _ _ _) as [[|z [|? ?]]|]; eauto.
    + exists b. split; [apply Hput; reflexivity|auto].
    + exists b. split; [apply Hput; reflexivity|auto].
  - destruct (nth_error (s_objs s) o0); [|eauto]. exists b. split; [|auto]. cbn. rewrite nth_list_set.
    destruct (Nat.eqb_spec o0 o) as [->|]; [rewrite Nat.eqb_refl in Hm; discriminate|exact Ho].
  - destruct (nth_error (s_objs s) o0); eauto.
Qed.

(** Every operation recorded from now on until the next assignment reads the current version. *)
Lemma later_reads : forall p s o b, nth_error (s_objs s) o = Some b -> Forall (fun c => modifies o c = false) p ->
  forall vb d, In vb (snd (fold_left (spec_step F) p (s, []))) -> In d (vb_deps vb) -> fst (fst d) = o -> d = ((o, s_gen b), s_rec b).
Proof.
  assert (Hvers : forall s o b args d, nth_error (s_objs s) o = Some b -> In d (vers_of s args) -> fst (fst d) = o -> d = ((o, s_gen b), s_rec b)).
  { intros s o b args d Ho Hd E. unfold vers_of in Hd. apply in_flat_map in Hd as [i [_ Hd]]. destruct (nth_error (s_objs s) i) as [b'|] eqn:Ei; [|contradiction].
    destruct Hd as [<-|[]]. cbn in E. subst i. congruence. }
  assert (Hst : forall s c vb, In vb (tape_stmt F s c) -> exists args, vb_deps vb = vers_of s args).
  { assert (Hcall : forall s a early k func args vb, In vb (tape_call a early k func args s) -> exists args, vb_deps vb = vers_of s args).
    { intros s a early k func args vb H. unfold tape_call in H. destruct a; [|contradiction]. destruct (get_args s_rec s args); [|contradiction].
      destruct (func l); [|destruct early; [|contradiction]]; destruct H as [<-|[]]; cbn; eauto. }
    intros s c vb H. destruct c; cbn [tape_stmt] in H; try contradiction.
    - destruct (sargs_ok k true args); [eauto|contradiction].
    - destruct (sargs_ok k false args); [eauto|contradiction].
    - eauto.
    - unfold tape_inpl in H. destruct (s_ann s && annotate); [|contradiction]. destruct (get_args s_rec s args); [|contradiction].
      destruct (nth_error (s_objs s) o); [|contradiction]. destruct (func l); [|contradiction]. destruct H as [<-|[]]. cbn. eauto. }
  induction p as [|c p IH]; intros s o b Ho Hm vb d Hvb Hd E; [contradiction|]. inversion Hm as [|? ? Hc Hp]; subst.
  cbn [fold_left] in Hvb. rewrite step_eq in Hvb. cbn [fst snd app] in Hvb. rewrite fold_spec_snd in Hvb.
  destruct (spec_keeps_obj s c _ b Hc Ho) as [b' [B1 [B2 [B3 B4]]]].
  apply in_app_iff in Hvb as [Hvb|Hvb].
  - destruct (Hst s c vb Hvb) as [args Ed]. rewrite Ed in Hd. eapply Hvers; eauto.
  - rewrite <- B2, <- B3. eapply IH; eauto.
Qed.

(** What an operation on the tape would read in a replay, and what it produced. *)
Definition reads w (b : block V) : list (ver * V) := map (fun v => (verb (w_heap w v), saved (w_heap w) v)) (b_deps b).
Lemma tape_reads : forall ann p, consistent p -> disciplined ann p = true ->
  map (reads (exec F (world_new F ann) p)) (flat (exec F (world_new F ann) p)) = map vb_deps (spec_tape F ann p).
Proof.
  intros ann p Hc Hd. destruct (exec_sim F p no_override ann Hc Hd) as [W _]. pose proof (GI_program F ann p Hc Hd) as G.
  set (w := exec F (world_new F ann) p) in *. rewrite <- (gi_abs _ _ G), map_map. apply map_ext_in. intros b Hb. cbn.
  unfold reads. apply map_ext_in. intros v Hv. unfold pairof. f_equal. apply (saved_rec F w v W). left. unfold deps_of. apply in_flat_map. eauto.
Qed.

Lemma update_versions : forall ann p1 o x p2, consistent (p1 ++ SUpdate o x :: p2) -> disciplined ann (p1 ++ SUpdate o x :: p2) = true ->
  o < length (plain_run F [] p1) -> Forall (fun c => modifies o c = false) p2 ->
  let before := map (reads (exec F (world_new F ann) p1)) (flat (exec F (world_new F ann) p1)) in
  exists after g, map (reads (exec F (world_new F ann) (p1 ++ SUpdate o x :: p2))) (flat (exec F (world_new F ann) (p1 ++ SUpdate o x :: p2))) = before ++ after /\
    (forall r d, In r before -> In d r -> fst (fst d) = o -> snd (fst d) <= g) /\
    (forall r d, In r after -> In d r -> fst (fst d) = o -> d = ((o, Datatypes.S g), x)).
Proof.
  intros ann p1 o x p2 Hc Hd Ho Hm before.
  assert (Hc1 : consistent p1) by (apply Forall_app in Hc; apply Hc).
  assert (Hd1 : disciplined ann p1 = true).
  { clear - Hd. revert ann Hd. induction p1 as [|c r IH]; intros ann H; [reflexivity|]. cbn in *. destruct c; auto.
    apply andb_true_iff in H as [H1 H2]. rewrite H1. cbn. auto. }
  unfold before. rewrite !tape_reads by assumption.
  set (s := spec_exec F no_override ann p1).
  assert (Hn : nth_error (s_objs s) o <> None) by (apply nth_error_Some; unfold s; rewrite plain_len; exact Ho).
  destruct (nth_error (s_objs s) o) as [b|] eqn:Eb; [|congruence].
  set (s1 := put o (SObj x x (Datatypes.S (s_gen b))) s).
  assert (Es1 : spec_stmt F no_override s (SUpdate o x) = s1) by (cbn; now rewrite Eb).
  assert (Et : spec_tape F ann (p1 ++ SUpdate o x :: p2) = spec_tape F ann p1 ++ snd (fold_left (spec_step F) p2 (s1, []))).
  { unfold spec_tape. rewrite fold_left_app. cbn [fold_left]. rewrite (surjective_pairing (fold_left (spec_step F) p1 _)), step_eq, fold_spec_fst. fold (spec_exec F no_override ann p1). fold s.
    rewrite Es1. cbn [tape_stmt]. rewrite app_nil_r. apply fold_spec_snd. }
  exists (map vb_deps (snd (fold_left (spec_step F) p2 (s1, [])))), (s_gen b).
  split; [rewrite Et; apply map_app|]. split.
  - intros r d Hr Hdr E.
    pose proof (tape_reads ann p1 Hc1 Hd1) as T. rewrite <- T in Hr. apply in_map_iff in Hr as [bl [<- Hbl]]. unfold reads in Hdr.
    apply in_map_iff in Hdr as [v [<- Hv]]. cbn in E |- *.
    destruct (exec_sim F p1 no_override ann Hc1 Hd1) as [W S].
    destruct (wi_live F [] _ W v) as [_ [ob [A B]]].
    { apply flat_refs. eapply in_vars_of; eauto. }
    rewrite E in A. destruct (sm_obj F _ _ _ S _ _ _ A Eb) as [_ Q]. lia.
  - intros r d Hr Hdr E. apply in_map_iff in Hr as [vb [<- Hvb]].
    refine (later_reads p2 s1 o (SObj x x (Datatypes.S (s_gen b))) _ Hm vb d Hvb Hdr E).
    unfold s1. cbn. now rewrite nth_list_set, Nat.eqb_refl, Eb.
Qed.

(** ** Statements used by the property files *)
Lemma vals_new : forall ann, vals (world_new F ann) = [].
Proof. reflexivity. Qed.
Lemma switches_values : forall ann p,
  vals (exec F (world_new F ann) p) = plain_run F [] p /\
  vals (exec F (world_new F ann) p) = vals (exec F (world_new F true) (unswitched p)).
Proof. intros ann p. rewrite !exec_vals, !vals_new, plain_unswitched. split; reflexivity. Qed.
Lemma switches_exceptions : forall ann p c,
  snd (exec_stmt F (exec F (world_new F ann) p) c) = snd (plain F (plain_run F [] p) c).
Proof.
  intros ann p c. pose proof (exec_plain (exec F (world_new F ann) p) c) as H. rewrite exec_vals, vals_new in H. rewrite <- H. reflexivity.
Qed.
Lemma constant_session : forall ann p c q js, unannotated (w_ann (exec F (world_new F ann) p)) c = true ->
  let results := skipn (length (plain_run F [] p)) (fst (plain F (plain_run F [] p) c)) in
  session F ann (p ++ c :: q) js = session F ann (p ++ map SNew results ++ q) js.
Proof.
  intros ann p c q js H results. unfold session. rewrite (constant_program p c q _ H), vals_new. reflexivity.
Qed.
Lemma plain_raise : forall l c l' e, plain F l c = (l', Some e) -> l' = l.
Proof.
  assert (C : forall (l : list V) func args l' e, plain_call l func args = (l', Some e) -> l' = l).
  { intros l func args l' e H. unfold plain_call in H. destruct (look l args); [|congruence]. destruct (func l0); congruence. }
  intros l c l' e H. destruct c; cbn [plain] in H; try congruence; eauto.
  - destruct (sargs_ok k true args); [eauto|congruence].
  - destruct (sargs_ok k false args); [eauto|congruence].
  - destruct (look l args); [|congruence]. destruct (nth_error l o); [|congruence]. destruct (func l0); congruence.
  - destruct (nth_error l o); congruence.
  - destruct (nth_error l o); congruence.
  - destruct (nth_error l o); congruence.
Qed.
Lemma survivors_values : forall ann p, vals (exec F (world_new F ann) p) = vals (exec F (world_new F ann) (survivors F [] p)).
Proof.
  intros ann p. rewrite !exec_vals, vals_new. generalize (@nil V) as l. induction p as [|c p IH]; intros l; [reflexivity|].
  cbn [plain_run fold_left survivors]. destruct (plain F l c) as [l' [e|]] eqn:E.
  - cbn [fst]. rewrite (plain_raise l c l' e E). apply IH.
  - cbn [plain_run fold_left]. rewrite E. apply IH.
Qed.
Lemma tape_records : forall ann p, consistent p -> disciplined ann p = true ->
  map (abs (w_heap (exec F (world_new F ann) p))) (flat (exec F (world_new F ann) p)) = spec_tape F ann p.
Proof. intros ann p Hc Hd. exact (gi_abs _ _ (GI_program F ann p Hc Hd)). Qed.
End Observe.
