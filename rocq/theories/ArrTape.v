(** What a recorded array program has on its tape, and the values of its block variables. *)
From Coq Require Import List Arith ZArith Lia Bool.
From Verif Require Import Base Model BaseFacts Graph Record RecordFacts Spec SpecPlain SpecTape Replay ReplayExec TapeRecord Observe Session History Sweep SpecGraph Marks Calculus PyExp PyFacts PyProg Arrays SpecArr ArrFacts ArrFlat.
Import ListNotations.

Section Tape.
Context {V : Type} (F : fops V).
Notation AF := (AF F).

Definition at_ (env : list (aval V)) (a : nat) : ver * aval V := ((a, 0), nth a env (Num (f_zero F))).
(** The block of statement [s] that assigns to variable [i]; [env] are the values of all variables. *)
Definition blk_of (env : list (aval V)) (i : nat) (s : astmt V) : list (vblock (aval V)) :=
  match s with
  | ALit _ => []
  | AItem a it => [VB (KUser (slice_block F it)) [at_ env a] [at_ env i]]
  | AOp k args | AFun k args => [VB (akind k) (map (at_ env) args) [at_ env i]]
  end.
Fixpoint tape_from (env : list (aval V)) (i : nat) (es : list (astmt V)) : list (vblock (aval V)) :=
  match es with [] => [] | s :: r => blk_of env i s ++ tape_from env (S i) r end.

Lemma avalues_prefix : forall es env0 env, avalues F env0 es = Ok env -> exists rest, env = env0 ++ rest /\ length rest = length es.
Proof.
  induction es as [|s r IH]; intros env0 env H; cbn in H; [injection H as <-; exists []; now rewrite app_nil_r|]. destruct (avalue F env0 s) as [x|]; [|discriminate]. cbn in H.
  destruct (IH _ _ H) as [rest [-> L]]. exists (x :: rest). rewrite <- app_assoc. cbn. auto.
Qed.
Lemma at_app : forall env rest a, a < length env -> at_ (env ++ rest) a = at_ env a.
Proof. intros env rest a H. unfold at_. now rewrite app_nth1. Qed.
Definition new (s : sst (aval V)) : Prop := Forall (fun o => s_gen o = 0) (s_objs s).
Lemma vers_at : forall s args, new s -> Forall (fun a => a < length (s_objs s)) args -> vers_of s args = map (at_ (svals s)) args.
Proof.
  intros s args Hn H. induction H as [|a r Ha Hr IH]; [reflexivity|]. cbn. unfold vers_of in IH. cbn in IH. rewrite IH. destruct (nth_error (s_objs s) a) as [o|] eqn:E; [|apply nth_error_None in E; lia].
  cbn. f_equal. unfold at_, svals. unfold new in Hn. rewrite Forall_forall in Hn. rewrite (Hn o) by (eapply nth_error_In; eauto). f_equal.
  symmetry. apply nth_error_nth. now rewrite nth_error_map, E.
Qed.
Lemma holds_lt : forall tys b i, holds tys b i = true -> i < length tys.
Proof. intros tys b i H. unfold holds in H. apply nth_error_Some. destruct (nth_error tys i); discriminate. Qed.
Lemma holds_all : forall (env : list (aval V)) b args, forallb (holds (map is_arr env) b) args = true -> Forall (fun a => a < length env) args.
Proof. intros env b args H. rewrite forallb_forall in H. apply Forall_forall. intros a Ha. specialize (H a Ha). apply holds_lt in H. now rewrite map_length in H. Qed.
Lemma svals_length : forall s : sst (aval V), length (svals s) = length (s_objs s).
Proof. intros s. unfold svals. apply map_length. Qed.

Lemma call_tape : forall early k func args (s : sst (aval V)) xs y, new s -> Forall (fun a => a < length (s_objs s)) args -> get_args s_rec s args = Some xs -> func xs = Ok [y] ->
  tape_call true early k func args s = [VB k (map (at_ (svals s)) args) [((length (s_objs s), 0), y)]].
Proof. intros early k func args s xs y Hn Hr Hx Hy. unfold tape_call. rewrite Hx, Hy. rewrite vers_at by assumption. reflexivity. Qed.
Lemma tape_step : forall (s : sst (aval V)) st t x, atype (map is_arr (svals s)) st = Some t -> new s -> s_ann s = true -> avalue F (svals s) st = Ok x ->
  tape_stmt AF s (to_stmt F st) = blk_of (svals s ++ [x]) (length (svals s)) st.
Proof.
  intros s st t x Ht Hn Ha Hx. assert (E0 : at_ (svals s ++ [x]) (length (svals s)) = ((length (s_objs s), 0), x)).
  { unfold at_. rewrite app_nth2, Nat.sub_diag by lia. cbn. now rewrite svals_length. }
  assert (EA : forall args, Forall (fun a => a < length (s_objs s)) args -> map (at_ (svals s ++ [x])) args = map (at_ (svals s)) args).
  { intros args H. apply map_ext_in. intros a Hin. rewrite Forall_forall in H. apply at_app. rewrite svals_length. now apply H. }
  destruct st as [y|a it|k args|k args]; cbn [to_stmt tape_stmt blk_of atype avalue] in *; rewrite ?E0.
  - reflexivity.
  - destruct (holds (map is_arr (svals s)) true a) eqn:E; [|discriminate]. pose proof (holds_lt _ _ _ E) as L. rewrite map_length, svals_length in L. destruct (args_arr _ _ E) as [l El].
    unfold lookup in Hx. rewrite El in Hx. cbn [bind] in Hx. rewrite Ha. cbn [andb].
    rewrite (call_tape false _ (item_fun it) [a] s [Arr l] x Hn); [cbn [map]; now rewrite at_app by (rewrite svals_length; exact L)|now repeat constructor| |].
    + rewrite <- look_args. now apply look_one.
    + unfold item_fun. now rewrite (getitem_pick F), Hx.
  - destruct (operator k args && forallb (holds (map is_arr (svals s)) false) args) eqn:E; [|discriminate]. apply andb_true_iff in E as [E1 E]. pose proof (holds_all _ _ _ E) as L. rewrite svals_length in L.
    destruct (args_num _ _ E) as [vs [E2 E3]]. rewrite E3 in Hx. cbn [bind] in Hx. rewrite numbers_of in Hx. cbn [bind] in Hx.
    rewrite <- operator_ok, E1, Ha. rewrite (call_tape false _ _ args s (map Num vs) x Hn L); [now rewrite EA|now rewrite <- look_args|]. rewrite sop_num. destruct (sop F k vs); [|discriminate]. cbn in *. congruence.
  - destruct (function k args && forallb (holds (map is_arr (svals s)) false) args) eqn:E; [|discriminate]. apply andb_true_iff in E as [E1 E]. pose proof (holds_all _ _ _ E) as L. rewrite svals_length in L.
    destruct (args_num _ _ E) as [vs [E2 E3]]. rewrite E3 in Hx. cbn [bind] in Hx. rewrite numbers_of in Hx. cbn [bind] in Hx.
    rewrite <- function_ok, E1, Ha. cbn [andb]. rewrite (call_tape true _ _ args s (map Num vs) x Hn L); [now rewrite EA|now rewrite <- look_args|]. rewrite sop_num. destruct (sop F k vs); [|discriminate]. cbn in *. congruence.
Qed.
Lemma blk_app : forall env rest i st t, atype (map is_arr env) st = Some t -> i <= length env -> blk_of ((env ++ rest)) i st = blk_of (env ++ firstn 1 rest) i st.
Proof.
  intros env rest i st t Ht Hi. assert (EA : forall a, a <= length env -> at_ (env ++ rest) a = at_ (env ++ firstn 1 rest) a).
  { intros a Ha. unfold at_. f_equal. destruct (Nat.eq_dec a (length env)) as [->|]; [|rewrite !app_nth1 by lia; reflexivity]. rewrite !app_nth2 by lia. rewrite Nat.sub_diag. destruct rest; reflexivity. }
  assert (EM : forall args, Forall (fun a => a < length env) args -> map (at_ (env ++ rest)) args = map (at_ (env ++ firstn 1 rest)) args).
  { intros args H. apply map_ext_in. intros a Hin. rewrite Forall_forall in H. apply EA. specialize (H a Hin). lia. }
  destruct st as [y|a it|k args|k args]; cbn [blk_of atype] in *.
  - reflexivity.
  - destruct (holds (map is_arr env) true a) eqn:E; [|discriminate]. apply holds_lt in E. rewrite map_length in E. rewrite !EA by lia. reflexivity.
  - destruct (operator k args && _) eqn:E; [|discriminate]. apply andb_true_iff in E as [_ E]. rewrite EA, EM by (try exact (holds_all _ _ _ E); lia). reflexivity.
  - destruct (function k args && _) eqn:E; [|discriminate]. apply andb_true_iff in E as [_ E]. rewrite EA, EM by (try exact (holds_all _ _ _ E); lia). reflexivity.
Qed.
Lemma new_stmt : forall (s : sst (aval V)) st, new s -> new (spec_stmt AF no_override s (to_stmt F st)).
Proof.
  assert (P : forall (s : sst (aval V)) l, new s -> Forall (fun o => s_gen o = 0) l -> new (push l s)) by (intros s l H1 H2; unfold new, push; cbn; apply Forall_app; auto).
  assert (Q : forall ys zs : list (aval V), Forall (fun o => s_gen o = 0) (sobjs_new ys zs)).
  { intros ys zs. unfold sobjs_new. apply Forall_forall. intros o Ho. apply in_map_iff in Ho as [[y z] [<- _]]. reflexivity. }
  assert (C : forall a func args (s : sst (aval V)), new s -> new (spec_call no_override a func args s)).
  { intros a func args s H. unfold spec_call. destruct (get_args s_rec s args); [|exact H]. destruct (get_args s_rep s args); [|exact H]. destruct (func l); [|exact H]. destruct (results _ _ _ _ _); apply P; auto. }
  intros s [x|a it|k args|k args] H; cbn [to_stmt spec_stmt]; auto.
  - destruct (sargs_ok _ _ _); auto.
  - destruct (sargs_ok _ _ _); auto.
Qed.
Lemma tape_run : forall es (s : sst (aval V)) g tys env, atypes (map is_arr (svals s)) es = Some tys -> new s -> s_ann s = true -> s_err s = None -> map s_rep (s_objs s) = svals s ->
  avalues F (svals s) es = Ok env -> snd (fold_left (spec_step AF) (map (to_stmt F) es) (s, g)) = g ++ tape_from env (length (svals s)) es /\ new (fst (fold_left (spec_step AF) (map (to_stmt F) es) (s, g))).
Proof.
  induction es as [|st r IH]; intros s g tys env Ht Hn Ha He Hr Hv; cbn [map fold_left tape_from]; [rewrite app_nil_r; auto|].
  cbn [atypes] in Ht. destruct (atype (map is_arr (svals s)) st) as [t|] eqn:Et; [|discriminate]. cbn [avalues] in Hv. destruct (avalue F (svals s) st) as [x|] eqn:Ex; [|discriminate]. cbn [bind] in Hv.
  unfold spec_step at 2 4. cbn [fst snd]. rewrite (tape_step s st t x Et Hn Ha Ex).
  destruct (spec_value_step F no_override s st t x Et) as [_ S]; auto; [now rewrite Hr|]. cbv zeta in S. rewrite Hr, Ex in S. destruct S as [S1 [S2 [S3 S4]]].
  pose proof (new_stmt s st Hn) as Hn'. set (s1 := spec_stmt AF no_override s (to_stmt F st)) in *.
  pose proof (avalue_kind F _ _ _ _ Et Ex) as K. specialize (IH s1 (g ++ blk_of (svals s ++ [x]) (length (svals s)) st) tys env). rewrite S1 in IH.
  destruct (IH) as [I1 I2]; auto; [rewrite map_app; cbn; now rewrite K|]. split; [|exact I2]. rewrite I1, <- app_assoc. f_equal. rewrite app_length. cbn [length]. rewrite Nat.add_1_r. f_equal.
  destruct (avalues_prefix _ _ _ Hv) as [rest [-> _]]. rewrite <- app_assoc. symmetry. exact (blk_app (svals s) ([x] ++ rest) (length (svals s)) st t Et (le_n _)).
Qed.
Lemma declare_tape : forall (xs : list (aval V)) k s g, new s -> let r := fold_left (spec_step AF) (declare k xs) (s, g) in
  snd r = g /\ new (fst r) /\ fst r = fold_left (spec_stmt AF no_override) (declare k xs) s.
Proof.
  induction xs as [|x r IH]; intros k s g Hn; cbn [declare fold_left]; [cbn; auto|]. cbv zeta in *.
  assert (E : spec_step AF (spec_step AF (s, g) (SNew x)) (SControl k) = (spec_stmt AF no_override (spec_stmt AF no_override s (SNew x)) (SControl k), g)).
  { unfold spec_step. cbn [fst snd tape_stmt]. rewrite !app_nil_r. reflexivity. }
  rewrite E. apply IH. cbn [spec_stmt].
  assert (Q : new (push [SObj x (prescribed no_override (length (s_objs s), 0) x) 0] s)) by (unfold new, push; cbn; apply Forall_app; split; [exact Hn|repeat constructor]).
  destruct (nth_error (s_objs (push _ s)) k); exact Q.
Qed.

(** ** The recorded world *)
Definition program (xs : list (aval V)) (es : list (astmt V)) : list (stmt (aval V)) := declare 0 xs ++ map (to_stmt F) es.
Lemma arr_spec_tape : forall xs es tys env, atypes (map is_arr xs) es = Some tys -> avalues F xs es = Ok env ->
  spec_tape AF true (program xs es) = tape_from env (length xs) es /\ new (spec_exec AF no_override true (program xs es)).
Proof.
  intros xs es tys env Ht Hv. unfold spec_tape, program. rewrite fold_left_app. assert (N0 : new (SSt (V := aval V) [] true None [])) by constructor.
  destruct (declare_tape xs 0 (SSt [] true None []) [] N0) as [D1 [D2 D3]]. set (sg := fold_left _ (declare 0 xs) _) in *. destruct sg as [s0 g0]. cbn [fst snd] in D1, D2, D3. subst g0.
  destruct (declare_ctrls AF no_override xs) as [A [B [C _]]]. pose proof (declare_svals AF no_override xs) as S. unfold spec_exec in A, B, C, S. rewrite <- D3 in A, B, C, S.
  assert (R : map s_rep (s_objs s0) = svals s0) by (unfold svals; rewrite C, !map_map; reflexivity).
  destruct (tape_run es s0 [] tys env) as [G1 G2]; auto; try now rewrite S. rewrite G1, S. split; [reflexivity|].
  assert (FF : forall p s g, fst (fold_left (spec_step AF) p (s, g)) = fold_left (spec_stmt AF no_override) p s).
  { induction p as [|c r IH]; intros s g; [reflexivity|]. cbn [fold_left]. unfold spec_step at 2. cbn [fst snd]. apply IH. }
  unfold spec_exec. rewrite fold_left_app, <- D3. now rewrite FF in G2.
Qed.

Section World.
Variables (xs : list (aval V)) (es : list (astmt V)) (tys : list bool) (env : list (aval V)) (j : nat).
Hypothesis Ht : atypes (map is_arr xs) es = Some tys.
Hypothesis Hv : avalues F xs es = Ok env.
Hypothesis Hj : j < length env.
Notation p := (program xs es).
Notation w := (fst (recorded AF true p j)).
Lemma arr_good : forall ov, good AF ov w (spec_exec AF ov true p) /\ values_ok AF w /\ cur w j (snd (recorded AF true p j)).
Proof.
  intros ov. destruct (arr_rerun F xs es tys env j Ht Hv Hj) as [Hc [Hd [_ [_ [Ho _]]]]]. exact (recorded_good AF true p j ov Hc Hd Ho).
Qed.
Lemma arr_gen : forall o ob, nth_error (w_objs w) o = Some ob -> o_gen ob = 0.
Proof.
  intros o ob E. destruct (arr_good no_override) as [[W S] _]. destruct (arr_spec_tape xs es tys env Ht Hv) as [_ N].
  destruct (nth_error (s_objs (spec_exec AF no_override true p)) o) as [so|] eqn:Es.
  - destruct (sm_obj AF _ _ _ S o ob so E Es) as [_ G]. rewrite G. unfold new in N. rewrite Forall_forall in N. apply N. eapply nth_error_In; eauto.
  - exfalso. apply nth_error_None in Es. rewrite <- (sm_len AF _ _ _ S) in Es. apply nth_error_some_lt in E. lia.
Qed.
Lemma arr_vals : vals w = env.
Proof.
  destruct (arr_rerun F xs es tys env j Ht Hv Hj) as [_ [_ [_ [Ev _]]]]. fold p in Ev. unfold recorded. now rewrite vals_get_bv.
Qed.
Lemma arr_ctrls : w_ctrls w = seq 0 (length xs).
Proof. exact (proj1 (proj2 (proj2 (proj2 (proj2 (proj2 (arr_rerun F xs es tys env j Ht Hv Hj))))))). Qed.
Lemma arr_tape : map (abs (w_heap w)) (flat w) = tape_from env (length xs) es.
Proof.
  destruct (arr_rerun F xs es tys env j Ht Hv Hj) as [Hc [Hd [_ [_ [Ho _]]]]]. fold p in Hc, Hd, Ho. destruct (arr_spec_tape xs es tys env Ht Hv) as [<- _].
  pose proof (GI_program AF true p Hc Hd) as G. destruct (exec_sim AF p no_override true Hc Hd) as [W _].
  pose proof (get_bv_spec AF [] _ j W Ho) as B. pose proof (flat_get_bv (exec AF (world_new AF true) p) j) as Fl. unfold recorded. destruct (get_bv (exec AF (world_new AF true) p) j) as [w1 v1]. destruct B as [_ [B _]]. cbn [fst] in *.
  exact (gi_abs _ _ (GI_same AF _ _ _ W (keeps_evolves _ _ B) Fl G)).
Qed.
Lemma arr_cur : forall a u, cur w a u -> verb (w_heap w u) = (a, 0) /\ nth_error env a = Some (bv_rec (w_heap w u)).
Proof.
  intros a u [ob [E1 E2]]. destruct (arr_good no_override) as [[W _] _]. destruct (wi_cur AF [] w W a ob u E1 E2) as [_ [G _]]. pose proof (arr_gen a ob E1) as G0. unfold ghost in G. unfold verb.
  injection G as -> -> ->. rewrite G0. split; [reflexivity|]. rewrite <- arr_vals. unfold vals. now rewrite nth_error_map, E1.
Qed.
Lemma arr_live : forall u, In u (refs [] w) -> exists a, cur w a u.
Proof.
  intros u Hu. destruct (arr_good no_override) as [[W _] _]. destruct (wi_live AF [] w W u Hu) as [_ [ob [E1 E2]]]. pose proof (arr_gen _ _ E1) as G0. rewrite G0 in E2.
  set (a := bv_obj (w_heap w u)) in *. assert (Ev : verb (w_heap w u) = (a, o_gen ob)) by (unfold verb; fold a; f_equal; lia).
  destruct (o_bv ob) as [v|] eqn:Eb; [|exfalso; exact (wi_none AF [] w W a ob u E1 Eb Hu Ev)]. assert (C : cur w a v) by (exists ob; auto). exists a.
  destruct (arr_cur a v C) as [Cv _]. replace u with v; [exact C|]. apply (wi_uniq AF [] w W); [right; exists a; exact C|left; exact Hu|congruence].
Qed.
Lemma arr_value : forall a u m sc l, cur w a u -> map is_arr m = map is_arr xs -> calls_controls w l ->
  snd (rf_call AF (flat w) (RF u (w_ctrls w) sc) m (run_hist AF (flat w) (w_heap w) l)) = rmap (fun y => f_mul AF y sc) (avariable F m es a).
Proof.
  intros a u m sc l C Hm Hcc. destruct (arr_cur a u C) as [_ Ea]. apply nth_error_some_lt in Ea.
  destruct (arr_rerun F xs es tys env a Ht Hv Ea) as [Hc [Hd [_ [_ [Ho [_ [_ [_ Hre]]]]]]]]. fold p in Hc, Hd, Ho, Hre. rewrite <- (Hre m Hm).
  destruct (arr_rerun F xs es tys env j Ht Hv Hj) as [_ [_ [_ [_ [Ho' [_ [_ [HQ _]]]]]]]]. fold p in Ho', HQ.
  rewrite (call_history_good AF w (fun ov => spec_exec AF ov true p) a u (w_ctrls w) m sc l (fun ov => proj1 (arr_good ov)) (proj1 (proj2 (arr_good no_override))) C); auto.
  - rewrite spec_rerun_value, (spec_ctrls AF true p j Hc Hd Ho'). f_equal. apply spec_value_ext. apply prescribe_agree; [rewrite map_length, arr_ctrls, seq_length, <- (map_length is_arr m), Hm, map_length; reflexivity|].
    intros z. destruct (hist_override AF w l z) eqn:E; [left|right; reflexivity]. apply (hist_override_in AF w l). congruence.
  - rewrite arr_ctrls, seq_length, <- (map_length is_arr m), Hm, map_length. reflexivity.
  - right. intros b o1 Hb Ho1 Hin. exfalso. rewrite arr_ctrls in Hin. apply (arr_leaves _ _ _ (HQ (fun _ => True) (fun _ _ _ _ => I)) o1 Hin). unfold outs_of. apply in_flat_map. exists b. auto.
Qed.

(** ** Statements and blocks *)
Lemma arr_refs : forall b v, In b (flat w) -> In v (b_deps b ++ b_outs b) -> In v (refs [] w).
Proof.
  intros b v Hb Hx. unfold refs. apply in_app_iff. left. unfold vars_of. apply in_app_iff. apply in_app_iff in Hx as [Hx|Hx]; [left|right]; apply in_flat_map; exists b; auto.
Qed.
Lemma cur_fun : forall a u1 u2, cur w a u1 -> cur w a u2 -> u1 = u2.
Proof. intros a u1 u2 [o1 [A1 B1]] [o2 [A2 B2]]. congruence. Qed.
Lemma arr_pairs : forall args ds, (forall d, In d ds -> In d (refs [] w)) -> map (pairof (w_heap w)) ds = map (at_ env) args -> Forall2 (cur w) args ds.
Proof.
  induction args as [|a r IH]; intros [|d ds] Hr E; try discriminate; [constructor|]. cbn [map] in E. injection E as E1 E2 _ E3. constructor.
  - destruct (arr_live d (Hr d (or_introl eq_refl))) as [a' C]. destruct (arr_cur a' d C) as [Cv _]. unfold verb in Cv, E1. congruence.
  - apply IH; [|exact E3]. intros d' Hd'. apply Hr. now right.
Qed.
(** Each block comes from one statement, which reads and assigns the variables the block has. *)
Definition made (i : nat) (s : astmt V) (b : block (aval V)) : Prop :=
  match s with
  | ALit _ => False
  | AItem a it => b_kind b = KUser (slice_block F it) /\ Forall2 (cur w) [a] (b_deps b) /\ Forall2 (cur w) [i] (b_outs b)
  | AOp k args | AFun k args => b_kind b = akind k /\ Forall2 (cur w) args (b_deps b) /\ Forall2 (cur w) [i] (b_outs b)
  end.
Lemma tape_from_in : forall es' i vb, In vb (tape_from env i es') -> exists es1 s es2, es' = es1 ++ s :: es2 /\ In vb (blk_of env (i + length es1) s).
Proof.
  induction es' as [|s r IH]; intros i vb H; [destruct H|]. cbn [tape_from] in H. apply in_app_iff in H as [H|H].
  - exists [], s, r. cbn. rewrite Nat.add_0_r. auto.
  - destruct (IH _ _ H) as [es1 [s' [es2 [-> H2]]]]. exists (s :: es1), s', es2. cbn. rewrite Nat.add_succ_r. auto.
Qed.
Lemma tape_from_mid : forall es1 s es2 i vb, In vb (blk_of env (i + length es1) s) -> In vb (tape_from env i (es1 ++ s :: es2)).
Proof.
  induction es1 as [|s0 r IH]; intros s es2 i vb H; cbn in *; apply in_app_iff; [left; now rewrite Nat.add_0_r in H|right]. apply IH. now rewrite Nat.add_succ_r in H.
Qed.
Lemma abs_made : forall b i s, In b (flat w) -> In (abs (w_heap w) b) (blk_of env i s) -> made i s b.
Proof.
  intros b i s Hb H. assert (Hr : forall d, In d (b_deps b) -> In d (refs [] w)) by (intros d Hd; apply (arr_refs b); auto; apply in_app_iff; auto).
  assert (Ho : forall d, In d (b_outs b) -> In d (refs [] w)) by (intros d Hd; apply (arr_refs b); auto; apply in_app_iff; auto).
  destruct s as [x|a it|k args|k args]; cbn [blk_of] in H; [destruct H| | |]; destruct H as [H|[]]; unfold abs in H; injection H as E1 E2 E3; cbn [made];
    (split; [congruence|split; apply arr_pairs; auto]).
Qed.
Lemma arr_made : forall b, In b (flat w) -> exists es1 s es2, es = es1 ++ s :: es2 /\ made (length xs + length es1) s b.
Proof.
  intros b Hb. assert (H : In (abs (w_heap w) b) (tape_from env (length xs) es)) by (rewrite <- arr_tape; now apply in_map).
  destruct (tape_from_in _ _ _ H) as [es1 [s [es2 [E H2]]]]. exists es1, s, es2. split; [exact E|]. now apply abs_made.
Qed.
Lemma made_deps : forall i s b, made i s b -> Forall2 (cur w) (reads s) (b_deps b).
Proof. intros i [x|a it|k args|k args] b H; cbn in *; [destruct H| | |]; tauto. Qed.
Lemma made_outs : forall i s b, made i s b -> Forall2 (cur w) [i] (b_outs b).
Proof. intros i [x|a it|k args|k args] b H; cbn [made] in *; [destruct H| | |]; tauto. Qed.
(** A variable that is read is a dependency of some block. *)
Lemma arr_read : forall s a, In s es -> In a (reads s) -> exists u, cur w a u /\ In u (deps_of (flat w)).
Proof.
  intros s a Hs Ha. apply in_split in Hs as [es1 [es2 E]]. assert (Q : exists vb, In vb (blk_of env (length xs + length es1) s)) by (destruct s as [x|a' it|k args|k args]; cbn [blk_of reads] in *; [destruct Ha| | |]; eexists; left; reflexivity).
  destruct Q as [vb Q]. assert (H : In vb (map (abs (w_heap w)) (flat w))) by (rewrite arr_tape, E; now apply tape_from_mid). apply in_map_iff in H as [b [<- Hb]].
  pose proof (made_deps _ _ _ (abs_made b _ _ Hb Q)) as M. assert (G : forall l ds, Forall2 (cur w) l ds -> In a l -> exists u, cur w a u /\ In u ds).
  { induction 1 as [|z d l ds Hd Hl IH]; intros Hin; [destruct Hin|]. destruct Hin as [->|Hin]; [exists d; split; [exact Hd|now left]|]. destruct (IH Hin) as [u [A B]]. exists u. split; [exact A|now right]. }
  destruct (G _ _ M Ha) as [u [A B]]. exists u. split; [exact A|]. apply in_flat_map. exists b. auto.
Qed.
(** Control [i] is variable [i]. *)
Lemma arr_controls : Forall2 (cur w) (seq 0 (length xs)) (w_ctrls w).
Proof.
  destruct (arr_good no_override) as [[W S] _]. assert (HC : map fst (s_ctrls (spec_exec AF no_override true p)) = map (fun i => (i, 0)) (seq 0 (length xs))).
  { unfold program, spec_exec. rewrite fold_left_app. destruct (declare_ctrls AF no_override xs) as [A [B [C D]]]. pose proof (declare_svals AF no_override xs) as Sv. unfold spec_exec in A, B, C, D, Sv. set (s0 := fold_left _ (declare 0 xs) _) in *.
    assert (R : map s_rep (s_objs s0) = xs) by (rewrite C, map_map; cbn; apply map_snd_combine).
    pose proof (spec_values F es no_override s0 tys env) as G. rewrite Sv, R in G. cbv zeta in G. specialize (G Ht eq_refl B A (fun _ _ => eq_refl) Hv). rewrite Hv in G.
    destruct G as [_ [_ [_ G]]]. unfold spec_run in G. rewrite G. exact D. }
  rewrite (sm_ctrls AF _ _ _ S), map_map in HC. cbn [fst] in HC.
  assert (Hr : forall c, In c (w_ctrls w) -> In c (refs [] w)) by (intros c Hc; unfold refs; rewrite !in_app_iff; auto).
  revert HC Hr. generalize (w_ctrls w) (seq 0 (length xs)). induction l as [|c r IH]; intros [|i l'] E Hr; try discriminate; [constructor|]. cbn [map] in E. injection E as E1 E2 E3. constructor.
  - destruct (arr_live c (Hr c (or_introl eq_refl))) as [a' C]. destruct (arr_cur a' c C) as [Cv _]. unfold verb in Cv. congruence.
  - apply IH; [exact E3|]. intros c' Hc. apply Hr. now right.
Qed.
Lemma arr_on_tape : used (length xs) j es -> forall c, In c (w_ctrls w) -> In c (vars_of (flat w)) \/ c = snd (recorded AF true p j).
Proof.
  intros Hu c Hc. assert (G : forall l cs, Forall2 (cur w) l cs -> In c cs -> exists i, In i l /\ cur w i c).
  { induction 1 as [|z d l ds Hd Hl IH]; intros Hin; [destruct Hin|]. destruct Hin as [->|Hin]; [exists z; split; [now left|exact Hd]|]. destruct (IH Hin) as [u [A B]]. exists u. split; [now right|exact B]. }
  destruct (G _ _ arr_controls Hc) as [i [Hi C]]. apply in_seq in Hi. destruct (Hu i ltac:(lia)) as [->|[s [Hs Ha]]].
  - right. exact (cur_fun _ _ _ C (proj2 (proj2 (arr_good no_override)))).
  - left. destruct (arr_read s i Hs Ha) as [u [A B]]. rewrite (cur_fun _ _ _ C A). apply in_app_iff. now left.
Qed.
Lemma arr_no_out : forall o, In o (outs_of (flat w)) -> ~ In o (w_ctrls w).
Proof.
  destruct (arr_rerun F xs es tys env j Ht Hv Hj) as [_ [_ [_ [_ [_ [_ [_ [HQ _]]]]]]]]. fold p in HQ. intros o Ho Hin. rewrite arr_ctrls in Hin.
  exact (arr_leaves _ _ _ (HQ (fun _ => True) (fun _ _ _ _ => I)) o Hin Ho).
Qed.

(** ** Other values of the controls *)
Lemma lookup_app : forall (l r : list (aval V)) a x, lookup l a = Ok x -> lookup (l ++ r) a = Ok x.
Proof. intros l r a x H. unfold lookup in *. destruct (nth_error l a) eqn:E; [|discriminate]. now rewrite nth_error_app1, E by (apply nth_error_Some; congruence). Qed.
Lemma lookups_app : forall (l r : list (aval V)) args ys, mapM (lookup l) args = Ok ys -> mapM (lookup (l ++ r)) args = Ok ys.
Proof.
  intros l r. induction args as [|a args IH]; intros ys H; [exact H|]. cbn in *. destruct (lookup l a) as [x|] eqn:E; [|discriminate]. rewrite (lookup_app _ r _ _ E). cbn in *.
  destruct (mapM (lookup l) args) as [zs|]; [|discriminate]. now rewrite (IH zs eq_refl).
Qed.
Lemma avalue_app : forall (l r : list (aval V)) s x, avalue F l s = Ok x -> avalue F (l ++ r) s = Ok x.
Proof.
  intros l r [y|a it|k args|k args] x H; cbn in *; auto.
  - destruct (lookup l a) eqn:E; [|discriminate]. now rewrite (lookup_app _ r _ _ E).
  - destruct (mapM (lookup l) args) eqn:E; [|discriminate]. now rewrite (lookups_app _ r _ _ E).
  - destruct (mapM (lookup l) args) eqn:E; [|discriminate]. now rewrite (lookups_app _ r _ _ E).
Qed.
Lemma holds_app : forall l r b i, holds l b i = true -> holds (l ++ r) b i = true.
Proof. intros l r b i H. unfold holds in *. destruct (nth_error l i) eqn:E; [|discriminate]. now rewrite nth_error_app1, E by (apply nth_error_Some; congruence). Qed.
Lemma all_holds_app : forall l r b args, forallb (holds l b) args = true -> forallb (holds (l ++ r) b) args = true.
Proof. intros l r b args H. rewrite forallb_forall in *. intros i Hi. apply holds_app. auto. Qed.
Lemma atype_app : forall l r (s : astmt V) t, atype l s = Some t -> atype (l ++ r) s = Some t.
Proof.
  intros l r [y|a it|k args|k args] t H; cbn [atype] in *; auto.
  - destruct (holds l true a) eqn:E; [|discriminate]. now rewrite (holds_app _ r _ _ E).
  - destruct (operator k args && _) eqn:E; [|discriminate]. apply andb_true_iff in E as [E1 E]. now rewrite E1, (all_holds_app _ r _ _ E).
  - destruct (function k args && _) eqn:E; [|discriminate]. apply andb_true_iff in E as [E1 E]. now rewrite E1, (all_holds_app _ r _ _ E).
Qed.
Lemma stmt_at : forall es1 s es2 m tys' envm, avalues F m (es1 ++ s :: es2) = Ok envm -> atypes (map is_arr m) (es1 ++ s :: es2) = Some tys' ->
  exists x t, avalue F envm s = Ok x /\ nth_error envm (length m + length es1) = Some x /\ atype (map is_arr envm) s = Some t.
Proof.
  induction es1 as [|s0 r IH]; intros s es2 m tys' envm Hm Hy; cbn [app avalues atypes] in Hm, Hy.
  - destruct (avalue F m s) as [x|] eqn:E; [|discriminate]. cbn in Hm. destruct (atype (map is_arr m) s) as [t|] eqn:Et; [|discriminate]. destruct (avalues_prefix _ _ _ Hm) as [rest [-> _]].
    exists x, t. rewrite <- app_assoc. split; [now apply avalue_app|]. split; [cbn; now rewrite Nat.add_0_r, nth_error_app2, Nat.sub_diag by lia|]. rewrite map_app. now apply atype_app.
  - destruct (avalue F m s0) as [x0|] eqn:E; [|discriminate]. cbn in Hm. destruct (atype (map is_arr m) s0) as [t0|] eqn:Et; [|discriminate].
    destruct (IH s es2 (m ++ [x0]) tys' envm Hm) as [x [t [A [B C]]]]; [rewrite map_app; cbn; now rewrite (avalue_kind F _ _ _ _ Et E)|]. exists x, t. split; [exact A|]. split; [|exact C].
    rewrite app_length in B. cbn in *. now rewrite <- B, <- Nat.add_assoc.
Qed.

Section At.
Variables (m envm : list (aval V)) (e : nat -> aval V).
Hypothesis Hm : map is_arr m = map is_arr xs.
Hypothesis Hvm : avalues F m es = Ok envm.
Hypothesis He : forall a u, cur w a u -> nth_error envm a = Some (e u).
Lemma at_stmt : forall es1 s es2, es = es1 ++ s :: es2 -> exists x t, avalue F envm s = Ok x /\ nth_error envm (length xs + length es1) = Some x /\ atype (map is_arr envm) s = Some t.
Proof.
  intros es1 s es2 E. pose proof Hvm as Hvm'. rewrite E in Hvm'. assert (L : length xs = length m) by (rewrite <- (map_length is_arr xs), <- Hm, map_length; reflexivity). rewrite L.
  apply (stmt_at es1 s es2 m tys envm Hvm'). now rewrite Hm, <- E.
Qed.
Lemma at_args : forall args ds, Forall2 (cur w) args ds -> mapM (lookup envm) args = Ok (map e ds).
Proof. intros args ds H. induction H as [|a d args ds Hd Hr IH]; [reflexivity|]. cbn. unfold lookup at 1. rewrite (He a d Hd). cbn. now rewrite IH. Qed.
Lemma at_nums : forall args ds, Forall2 (cur w) args ds -> forallb (holds (map is_arr envm) false) args = true -> Forall (fun d => is_arr (e d) = false) ds.
Proof.
  intros args ds H. induction H as [|a d args ds Hd Hr IH]; intros K; [constructor|]. cbn in K. apply andb_true_iff in K as [K1 K2]. constructor; [|now apply IH].
  unfold holds in K1. rewrite nth_error_map, (He a d Hd) in K1. cbn in K1. now apply eqb_prop in K1.
Qed.
Lemma numbers_num : forall ds ns, mapM number_of (map e ds) = Ok ns -> map e ds = map Num ns.
Proof.
  induction ds as [|d ds IH]; intros ns H; cbn in H; [injection H as <-; reflexivity|]. destruct (e d) as [x|l] eqn:E; [|discriminate]. cbn in H. destruct (mapM number_of (map e ds)) as [ns'|]; [|discriminate].
  cbn in H. injection H as <-. cbn. now rewrite E, (IH ns' eq_refl).
Qed.
Lemma sop_recompute : forall k args vs y, operator k args || function k args = true -> length vs = length args -> sop F k vs = Ok y -> comp_recompute F k vs 0 = Ok (Some y) /\ arity k = length args /\ (forall u, k <> KUser u).
Proof.
  intros k args vs y Ho Hl Hs.
  destruct k; destruct args as [|a1 [|a2 [|a3 r]]]; try discriminate Ho; destruct vs as [|x1 [|x2 [|x3 r']]]; try discriminate Hl; cbn in *; rewrite ?Hs; cbn; try (injection Hs as <-); repeat split; try reflexivity; try discriminate.
Qed.
Lemma scalar_flat : forall k args b i x, operator k args || function k args = true -> b_kind b = akind k -> Forall2 (cur w) args (b_deps b) -> Forall2 (cur w) [i] (b_outs b) ->
  forallb (holds (map is_arr envm) false) args = true -> nth_error envm i = Some x -> (do ys <- mapM (lookup envm) args; do vs <- mapM number_of ys; rmap Num (sop F k vs)) = Ok x -> exists b', flat_block F e b b'.
Proof.
  intros k args [kd ds os tag] i x Hk Ek Hd Ho Hn Hi Hx. cbn [b_kind b_deps b_outs] in *. subst kd. inversion Ho as [|? o ? os' Co Cn]; subst. inversion Cn; subst. clear Ho Cn.
  rewrite (at_args _ _ Hd) in Hx. cbn [bind] in Hx. destruct (mapM number_of (map e ds)) as [vs|] eqn:En; [|discriminate]. cbn [bind] in Hx. destruct (sop F k vs) as [y|] eqn:Es; [|discriminate]. injection Hx as <-.
  apply numbers_num in En. assert (Ld : length args = length ds) by (clear -Hd; induction Hd; cbn; congruence). assert (Lv : length vs = length args) by (rewrite <- (map_length Num vs), <- En, map_length; congruence).
  destruct (sop_recompute k args vs y Hk Lv Es) as [R [Ar Nu]]. rewrite (He i o Co) in Hi. injection Hi as Eo.
  eexists. apply FB_scalar; [exact Nu|constructor; [now rewrite Eo|exact (at_nums _ _ Hd Hn)]|congruence|]. rewrite En, recompute_num by exact Nu. rewrite R. cbn. now rewrite Eo.
Qed.
Lemma block_flat : unrepeated es envm -> forall b, In b (flat w) -> exists b', flat_block F e b b'.
Proof.
  intros Hu b Hb. destruct (arr_made b Hb) as [es1 [s [es2 [E M]]]]. destruct (at_stmt es1 s es2 E) as [x [t [A [B C]]]]. assert (Is : In s es) by (rewrite E; apply in_app_iff; right; now left).
  destruct s as [y|a it|k args|k args]; cbn [made atype] in *; [destruct M| | |]; destruct M as [M1 [M2 M3]].
  - destruct b as [kd ds os tag]. cbn [b_kind b_deps b_outs] in *. subst kd. inversion M2 as [|? d ? ds' Cd Cn]; subst. inversion Cn; subst. inversion M3 as [|? o ? os' Co Cn']; subst. inversion Cn'; subst.
    rewrite (He _ o Co) in B. injection B as <-. destruct (holds (map is_arr envm) true a) eqn:Eh; [|discriminate]. destruct (args_arr _ _ Eh) as [l El]. cbn [avalue] in A. unfold lookup in A. rewrite El in A. cbn [bind] in A.
    pose proof A as A'. rewrite (He a d Cd) in El. injection El as El. destruct (picks it (length l)) as [ps|] eqn:Ep; [|exfalso; unfold pick in A; rewrite Ep in A; discriminate].
    eexists. eapply FB_slice; [exact El|exact Ep| |exact A]. apply (picks_nodup it (length l)); [|exact Ep]. apply (Hu a it l Is). rewrite <- El. now apply He.
  - destruct (operator k args && forallb (holds (map is_arr envm) false) args) eqn:Eh; [|discriminate]. apply andb_true_iff in Eh as [E1 E2]. eapply (scalar_flat k args b); eauto. now rewrite E1.
  - destruct (function k args && forallb (holds (map is_arr envm) false) args) eqn:Eh; [|discriminate]. apply andb_true_iff in Eh as [E1 E2]. eapply (scalar_flat k args b); eauto. rewrite E1. apply orb_true_r.
Qed.
Lemma arr_flat : unrepeated es envm -> exists bs', Forall2 (flat_block F e) (flat w) bs'.
Proof.
  intros Hu. pose proof (block_flat Hu) as H. revert H. generalize (flat w). induction l as [|b r IH]; intros H; [exists []; constructor|].
  destruct (H b (or_introl eq_refl)) as [b' Hb]. destruct IH as [r' Hr]; [intros b0 H0; apply H; now right|]. exists (b' :: r'). now constructor.
Qed.
End At.
End World.
End Tape.
