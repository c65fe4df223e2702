(** Gradients of recorded array programs over the reals. *)
From Coq Require Import List Arith ZArith Lia Bool Reals Lra.
From Coquelicot Require Import Coquelicot.
From Verif Require Import Base Model BaseFacts Graph Record RecordFacts Spec Replay Session Observe History Sweep SpecGraph Marks FreshAdj Dual RealInst Calculus Gradient PyExp Arrays SpecArr SpecArrR ArrFacts ArrFlat ArrGradR ArrTape.
Import ListNotations.
Open Scope R_scope.

Lemma times_one : forall x : aval R, lift2 Rmult x (Num 1) = x.
Proof. intros [x|l]; cbn; f_equal; [apply Rmult_1_r|]. induction l as [|y r IH]; cbn; [reflexivity|]. now rewrite Rmult_1_r, IH. Qed.

Section Prog.
Variables (xs : list (aval R)) (es : list (astmt R)) (tys : list bool) (env : list (aval R)) (j : nat).
Hypothesis Ht : atypes (map is_arr xs) es = Some tys.
Hypothesis Hv : avalues RO xs es = Ok env.
Hypothesis Hj : nth_error tys j = Some false.
Notation p := (program RO xs es).
Notation w := (fst (recorded (AF RO) true p j)).
Notation J := (snd (recorded (AF RO) true p j)).
Notation bs := (flat w).
Notation rf sc := (RF J (w_ctrls w) (Num sc)).

Lemma kinds : forall es' m tys' envm, atypes (map is_arr m) es' = Some tys' -> avalues RO m es' = Ok envm -> map is_arr envm = tys'.
Proof.
  induction es' as [|s r IH]; intros m tys' envm Hy Hm; cbn in Hy, Hm; [congruence|]. destruct (atype (map is_arr m) s) as [t|] eqn:E; [|discriminate]. destruct (avalue RO m s) as [x|] eqn:Ex; [|discriminate]. cbn in Hm.
  apply (IH (m ++ [x])); [|exact Hm]. rewrite map_app. cbn. now rewrite (avalue_kind RO _ _ _ _ E Ex).
Qed.
Lemma inside : (j < length env)%nat.
Proof. rewrite <- (map_length is_arr env), (kinds _ _ _ _ Ht Hv). apply nth_error_Some. congruence. Qed.

(** ** Conditions on statements give conditions on blocks *)
Section At.
Variables (m envm : list (aval R)) (e : nat -> aval R).
Hypothesis Hm : map is_arr m = map is_arr xs.
Hypothesis Hvm : avalues RO m es = Ok envm.
Hypothesis He : forall a u, cur w a u -> nth_error envm a = Some (e u).
Lemma not_literal : forall b d, literal (length xs) es b -> cur w b d -> ~ influenced bs (w_ctrls w) d.
Proof.
  intros b d [Lb [x Ex]] C [c [Hc Hi]]. destruct Hi as [|bl d' o Hb Hd Ho _].
  - assert (G : forall l cs, Forall2 (cur w) l cs -> In c cs -> exists i, In i l /\ cur w i c).
    { induction 1 as [|z q l ds Hd Hl IH]; intros Hin; [destruct Hin|]. destruct Hin as [->|Hin]; [exists z; split; [now left|exact Hd]|]. destruct (IH Hin) as [u [A B]]. exists u. split; [now right|exact B]. }
    destruct (G _ _ (arr_controls RO xs es tys env j Ht Hv inside) Hc) as [i [Hi Ci]]. apply in_seq in Hi.
    destruct (arr_cur RO xs es tys env j Ht Hv inside _ _ C) as [V1 _]. destruct (arr_cur RO xs es tys env j Ht Hv inside _ _ Ci) as [V2 _]. rewrite V1 in V2. injection V2 as V2. lia.
  - destruct (arr_made RO xs es tys env j Ht Hv inside bl Hb) as [es1 [s [es2 [E M]]]]. pose proof (made_outs RO xs es j _ _ _ M) as Mo. assert (Ex' : nth_error (es1 ++ s :: es2) (b - length xs) = Some (ALit x)) by now rewrite <- E. clear Ex E.
    inversion Mo as [|? o' ? os Co Cn Eo Eb]; subst. inversion Cn; subst. rewrite <- Eb in Ho. destruct Ho as [->|[]].
    destruct (arr_cur RO xs es tys env j Ht Hv inside _ _ C) as [V1 _]. destruct (arr_cur RO xs es tys env j Ht Hv inside _ _ Co) as [V2 _]. rewrite V1 in V2. injection V2 as V2. subst b.
    replace (length xs + length es1 - length xs)%nat with (length es1) in Ex' by lia. rewrite nth_error_app2, Nat.sub_diag in Ex' by lia. cbn in Ex'. injection Ex' as ->. exact M.
Qed.
Lemma at_smooth : gentle (length xs) es envm -> asmooth_at bs (w_ctrls w) e.
Proof.
  intros [Gp Gm] b d Hb _ _. destruct (arr_made RO xs es tys env j Ht Hv inside b Hb) as [es1 [s [es2 [E M]]]].
  assert (Is : In s es) by (rewrite E; apply in_app_iff; right; now left). destruct (at_stmt RO xs es tys env j Ht inside m envm Hm Hvm es1 s es2 E) as [x [t [_ [_ Hty]]]].
  clear E. destruct s as [y|a it|k args|k args]; cbn [made atype] in *; [destruct M| | |]; destruct M as [M1 [M2 _]]; unfold asmooth_block; rewrite M1.
  - exact I.
  - destruct (operator k args && _) eqn:Eo; [|discriminate]. apply andb_true_iff in Eo as [Eo _].
    destruct k; cbn [akind]; try exact I; destruct args as [|a1 [|a2 [|a3 r]]]; try discriminate Eo. inversion M2 as [|? d1 ? ds C1 M3]; subst. inversion M3 as [|? d2 ? ds2 C2 M4]; subst. inversion M4; subst.
    destruct (e d1) as [u|] eqn:E1; [|exact I]. destruct (e d2) as [v|] eqn:E2; [|exact I].
    destruct (Gp a1 a2 u v Is) as [K|[K1 K2]]; [rewrite <- E1; now apply He|rewrite <- E2; now apply He|now left|right]. split; [exact (not_literal a2 d2 K1 C2)|exact K2].
  - destruct (function k args && _) eqn:Eo; [|discriminate]. apply andb_true_iff in Eo as [Eo _].
    destruct k; cbn [akind]; try exact I; destruct args as [|a1 [|a2 [|a3 r]]]; try discriminate Eo; inversion M2 as [|? d1 ? ds C1 M3]; subst; inversion M3 as [|? d2 ? ds2 C2 M4]; subst; inversion M4; subst;
    destruct (e d1) as [u|] eqn:E1; try exact I; destruct (e d2) as [v|] eqn:E2; try exact I; (eapply Gm; [exact Is|auto|rewrite <- E1; now apply He|rewrite <- E2; now apply He]).
Qed.
Lemma at_controls : map e (w_ctrls w) = m.
Proof.
  pose proof (arr_controls RO xs es tys env j Ht Hv inside) as H. destruct (avalues_prefix RO _ _ _ Hvm) as [rest [Er _]].
  assert (L : length xs = length m) by (rewrite <- (map_length is_arr xs), <- Hm, map_length; reflexivity). rewrite L in H.
  assert (G : forall l cs k, Forall2 (cur w) l cs -> l = seq k (length cs) -> (forall i, (i < length cs)%nat -> nth_error m (k + i) = nth_error envm (k + i)) -> map e cs = firstn (length cs) (skipn k m)).
  { induction l as [|i l IH]; intros cs k F2 El Q; inversion F2 as [|? c ? cs' C1 C2]; subst; [reflexivity|]. cbn [length seq] in El. injection El as -> El. cbn [map length].
    pose proof (Q 0%nat ltac:(cbn; lia)) as Q0. rewrite Nat.add_0_r, (He _ _ C1) in Q0. destruct (skipn k m) as [|z zs] eqn:Es.
    - exfalso. assert (Lk : (length m <= k)%nat) by (pose proof (skipn_length k m) as Z; rewrite Es in Z; cbn in Z; lia). apply nth_error_None in Lk. congruence.
    - assert (Ez : nth_error m k = Some z) by (rewrite <- (firstn_skipn k m) at 1; rewrite nth_error_app2 by (rewrite firstn_length; lia); rewrite firstn_length, Nat.min_l by (pose proof (skipn_length k m) as Z; rewrite Es in Z; cbn in Z; lia); now rewrite Es, Nat.sub_diag).
      cbn [firstn]. f_equal; [congruence|]. rewrite (IH cs' (S k) C2 El); [|intros i Hi; specialize (Q (S i) ltac:(cbn; lia)); now rewrite Nat.add_succ_r in Q].
      f_equal. clear -Es. revert m Es. induction k as [|k IH]; intros m Es; [cbn in Es; subst m; reflexivity|]. destruct m; [discriminate|]. cbn in Es |- *. exact (IH _ Es). }
  assert (Lc : length (w_ctrls w) = length m) by (clear -H; rewrite <- (seq_length (length m) 0); symmetry; induction H; cbn; congruence).
  rewrite (G _ _ 0%nat H); [rewrite Lc; cbn [skipn]; apply firstn_all|now rewrite Lc|]. intros i Hi. rewrite Er. cbn [Nat.add]. symmetry. apply nth_error_app1. now rewrite <- Lc.
Qed.

Variables (sc : R) (l : list (api (aval R))).
Notation h := (run_hist (AF RO) bs (w_heap w) l).
Hypothesis Hcc : calls_controls w l.
Hypothesis Hs : forall v, In v (deps_of bs) \/ v = J -> saved h v = e v.
Hypothesis Hu : unrepeated es envm.
Hypothesis Hg : gentle (length xs) es envm.
Hypothesis Hused : used (length xs) j es \/ seeds_on bs J l.
Lemma at_clean : no_ctrl h.
Proof. apply hist_frame. destruct (arr_good RO xs es tys env j Ht Hv inside no_override) as [[W _] _]. intros v. apply (wi_ctrl _ _ _ W). Qed.
Lemma at_fresh : fresh_ctrls bs J (w_ctrls w) h.
Proof.
  destruct Hused as [K|K].
  - intros c Hc. destruct (arr_on_tape RO xs es tys env j Ht Hv inside K c Hc); auto.
  - destruct (arr_good RO xs es tys env j Ht Hv inside no_override) as [[W _] _]. apply hist_fresh; [intros v; apply (wi_ctrl _ _ _ W)| |now right].
    intros c _. right. right. apply (wi_clean _ _ _ W c).
Qed.
Lemma at_J : is_arr (e J) = false.
Proof.
  pose proof (He _ _ (proj2 (proj2 (arr_good RO xs es tys env j Ht Hv inside no_override)))) as HJ.
  assert (K : map is_arr envm = tys) by (eapply kinds; [rewrite Hm; exact Ht|exact Hvm]). rewrite <- K, nth_error_map, HJ in Hj. now injection Hj.
Qed.
Lemma at_gradient : forall d g, Forall2 direction m d -> snd (rf_derivative (AF RO) bs (rf sc) (Num 1) h) = Ok g ->
  Forall2 (fun x y => direction x y \/ y = Num 0) m g /\
  exists y : R -> R, locally 0 (fun s => avariable RO (moves m d s) es j = Ok (Num (y s))) /\ is_derive (fun s => y s * sc) 0 (apairs g d).
Proof.
  intros d g Hd G. destruct (arr_flat RO xs es tys env j Ht Hv inside m envm e Hm Hvm He Hu) as [bs' Hf].
  destruct (arr_good RO xs es tys env j Ht Hv inside no_override) as [[W _] [_ CJ]].
  destruct (arr_exact bs bs' J (w_ctrls w) sc h e d g) as [A [f [B C]]]; auto.
  - exact (wi_wf _ _ _ W).
  - rewrite (arr_ctrls RO xs es tys env j Ht Hv inside). apply seq_NoDup.
  - exact (arr_no_out RO xs es tys env j Ht Hv inside).
  - exact at_clean.
  - exact at_fresh.
  - exact at_J.
  - now apply at_smooth.
  - now rewrite at_controls.
  - split.
    + assert (Q : forall cs gs, Forall2 (fun c x => alike (e c) x \/ x = Num 0) cs gs -> Forall2 (fun x y => direction x y \/ y = Num 0) (map e cs) gs).
      { intros cs gs H. induction H as [|c x cs gs Hx Hr IH]; cbn; constructor; auto. destruct Hx as [[K1 K2]|K]; [left|now right]. destruct (e c), x; try discriminate; cbn in *; auto. }
      rewrite <- at_controls. now apply Q.
    + rewrite at_controls in B. assert (Mk : forall s, map is_arr (moves m d s) = map is_arr xs).
      { intros s. rewrite <- Hm. clear -Hd. induction Hd as [|x y m d Hx Hr IH]; [reflexivity|]. cbn. rewrite IH. f_equal. destruct x, y; cbn in *; try contradiction; reflexivity. }
      exists (fun s => match avariable RO (moves m d s) es j with Ok (Num y) => y | _ => 0 end).
      assert (P : forall s, snd (rf_call (AF RO) bs (rf sc) (moves m d s) h) = Ok (Num (f s)) -> exists y, avariable RO (moves m d s) es j = Ok (Num y) /\ y * sc = f s).
      { intros s K. rewrite (arr_value RO xs es tys env j Ht Hv inside j J (moves m d s) (Num sc) l CJ (Mk s) Hcc) in K. destruct (avariable RO (moves m d s) es j) as [[y|q]|]; [|discriminate K|discriminate K]. exists y. split; [reflexivity|]. cbn in K. now injection K. }
      split.
      * revert B. apply filter_imp. intros s K. destruct (P s K) as [y [-> _]]. reflexivity.
      * apply (is_derive_ext_loc f); [|exact C]. revert B. apply filter_imp. intros s K. destruct (P s K) as [y [-> <-]]. reflexivity.
Qed.
Lemma at_runs : xs <> [] -> all_ok (AF RO) bs (w_heap w) l = true -> exists g, snd (rf_derivative (AF RO) bs (rf sc) (Num 1) h) = Ok g.
Proof.
  intros Hne Hok. destruct (arr_flat RO xs es tys env j Ht Hv inside m envm e Hm Hvm He Hu) as [bs' Hf].
  destruct (arr_good RO xs es tys env j Ht Hv inside no_override) as [[W _] [_ CJ]]. apply (arr_runs bs bs' J (w_ctrls w) sc h e); auto.
  - exact (wi_wf _ _ _ W).
  - exact (arr_no_out RO xs es tys env j Ht Hv inside).
  - exact at_clean.
  - apply hist_clean; [intros v; apply (wi_ctrl _ _ _ W)| |exact Hok]. intros v. apply (wi_clean _ _ _ W v).
  - rewrite (arr_ctrls RO xs es tys env j Ht Hv inside). destruct xs; [contradiction|discriminate].
  - exact at_fresh.
  - exact at_J.
  - now apply at_smooth.
Qed.
End At.

(** ** Where the values come from *)
Lemma recorded_values : forall a u, cur w a u -> nth_error env a = Some (recs (w_heap w) u).
Proof. intros a u C. exact (proj2 (arr_cur RO xs es tys env j Ht Hv inside a u C)). Qed.
Lemma evaluated_values : forall m envm sc l1, map is_arr m = map is_arr xs -> avalues RO m es = Ok envm -> calls_controls w l1 ->
  forall a u, cur w a u -> nth_error envm a = Some (saved (fst (rf_call (AF RO) bs (rf sc) m (run_hist (AF RO) bs (w_heap w) l1))) u).
Proof.
  intros m envm sc l1 Hm Hvm Hcc a u C. set (h1 := run_hist (AF RO) bs (w_heap w) l1). assert (N1 : no_ctrl h1) by apply at_clean.
  assert (Lc : length m = length (w_ctrls w)) by (rewrite (arr_ctrls RO xs es tys env j Ht Hv inside), seq_length, <- (map_length is_arr m), Hm, map_length; reflexivity).
  destruct (rf_call_spec (AF RO) bs (rf sc) m h1 N1 Lc) as [_ [B _]]. rewrite B. clear B. cbn [rf_ctrls].
  pose proof (arr_value RO xs es tys env j Ht Hv inside a u m (Num 1) l1 C Hm Hcc) as K. fold h1 in K.
  destruct (rf_call_spec (AF RO) bs (RF u (w_ctrls w) (Num 1)) m h1 N1 Lc) as [A _]. cbn [rf_ctrls rf_J rf_scale] in A. rewrite A in K. clear A. unfold avariable in K. rewrite Hvm in K. cbn [bind] in K. unfold lookup in K.
  assert (La : (a < length envm)%nat).
  { pose proof (recorded_values a u C) as E. destruct (avalues_prefix RO _ _ _ Hvm) as [r1 [-> L1]]. destruct (avalues_prefix RO _ _ _ Hv) as [r2 [E2 L2]]. apply nth_error_some_lt in E. rewrite E2 in E. rewrite app_length in *. rewrite Lc, (arr_ctrls RO xs es tys env j Ht Hv inside), seq_length. lia. }
  destruct (nth_error envm a) as [y|] eqn:Ey; [|apply nth_error_None in Ey; lia]. destruct (snd (geval (AF RO) _ bs _)); [discriminate K|]. cbn [rmap] in K. injection K as K.
  change (f_mul (AF RO)) with (lift2 Rmult) in K. rewrite !times_one in K. now rewrite K.
Qed.
Lemma run_hist_app : forall (bs0 : list (block (aval R))) h l1 l2, run_hist (AF RO) bs0 h (l1 ++ l2) = run_hist (AF RO) bs0 (run_hist (AF RO) bs0 h l1) l2.
Proof. intros. unfold run_hist. apply fold_left_app. Qed.
Definition quiet (l : list (api (aval R))) : Prop := forallb (fun a => negb (is_call a)) l = true.
Lemma quiet_calls : forall l, quiet l -> calls_controls w l.
Proof. intros l H rf0 vals Hin. unfold quiet in H. rewrite forallb_forall in H. specialize (H _ Hin). discriminate. Qed.
Lemma evaluated_history : forall m sc l1 l2, run_hist (AF RO) bs (fst (rf_call (AF RO) bs (rf sc) m (run_hist (AF RO) bs (w_heap w) l1))) l2 = run_hist (AF RO) bs (w_heap w) (l1 ++ ACall (rf sc) m :: l2).
Proof.
  intros m sc l1 l2. rewrite run_hist_app. generalize (run_hist (AF RO) bs (w_heap w) l1). intros h1. generalize bs (rf sc). intros bs0 rf0. unfold run_hist. cbn [fold_left]. f_equal. unfold api_run. destruct (rf_call (AF RO) bs0 rf0 m h1). reflexivity.
Qed.
Lemma evaluated_calls : forall m sc l1 l2, calls_controls w l1 -> quiet l2 -> calls_controls w (l1 ++ ACall (rf sc) m :: l2).
Proof.
  intros m sc l1 l2 H1 H2 rf0 vals Hin c Hc. apply in_app_iff in Hin as [Hin|[Hin|Hin]]; [eapply H1; eauto| |eapply (quiet_calls _ H2); eauto]. injection Hin as <- _. exact Hc.
Qed.

Theorem gradient_recorded : forall sc l d g, quiet l -> unrepeated es env -> gentle (length xs) es env -> used (length xs) j es \/ seeds_on bs J l -> Forall2 direction xs d ->
  snd (rf_derivative (AF RO) bs (rf sc) (Num 1) (run_hist (AF RO) bs (w_heap w) l)) = Ok g ->
  Forall2 (fun x y => direction x y \/ y = Num 0) xs g /\
  exists y : R -> R, locally 0 (fun s => avariable RO (moves xs d s) es j = Ok (Num (y s))) /\ is_derive (fun s => y s * sc) 0 (apairs g d).
Proof.
  intros sc l d g Hl Hu Hg Hus Hd G. apply (at_gradient xs env (recs (w_heap w)) eq_refl Hv recorded_values sc l); auto; [now apply quiet_calls|].
  destruct (arr_good RO xs es tys env j Ht Hv inside no_override) as [[W _] [_ CJ]].
  intros v Hx. rewrite hist_saved; [|intros z; apply (wi_ctrl _ _ _ W)|exact Hl]. apply (saved_rec (AF RO) w v W). destruct Hx as [Hx| ->]; [now left|right; exists j; exact CJ].
Qed.
Theorem gradient_recorded_runs : forall sc l, quiet l -> unrepeated es env -> gentle (length xs) es env -> used (length xs) j es \/ seeds_on bs J l -> xs <> [] -> all_ok (AF RO) bs (w_heap w) l = true ->
  exists g, snd (rf_derivative (AF RO) bs (rf sc) (Num 1) (run_hist (AF RO) bs (w_heap w) l)) = Ok g.
Proof.
  intros sc l Hl Hu Hg Hus Hne Hok. apply (at_runs xs env (recs (w_heap w)) eq_refl Hv recorded_values sc l); auto; [now apply quiet_calls|].
  destruct (arr_good RO xs es tys env j Ht Hv inside no_override) as [[W _] [_ CJ]].
  intros v Hx. rewrite hist_saved; [|intros z; apply (wi_ctrl _ _ _ W)|exact Hl]. apply (saved_rec (AF RO) w v W). destruct Hx as [Hx| ->]; [now left|right; exists j; exact CJ].
Qed.
Lemma evaluated_seeds : forall m sc l1 l2, seeds_on bs J (l1 ++ l2) -> seeds_on bs J (l1 ++ ACall (rf sc) m :: l2).
Proof. intros m sc l1 l2 K a v Ha Hx. apply in_app_or in Ha as [Ha|[<-|Ha]]; [|destruct Hx|]; apply (K a v); auto; apply in_or_app; auto. Qed.
Theorem gradient_evaluated : forall sc l1 m envm l2 d g, calls_controls w l1 -> quiet l2 -> map is_arr m = map is_arr xs -> avalues RO m es = Ok envm ->
  unrepeated es envm -> gentle (length xs) es envm -> used (length xs) j es \/ seeds_on bs J (l1 ++ l2) -> Forall2 direction m d ->
  snd (rf_derivative (AF RO) bs (rf sc) (Num 1) (run_hist (AF RO) bs (fst (rf_call (AF RO) bs (rf sc) m (run_hist (AF RO) bs (w_heap w) l1))) l2)) = Ok g ->
  Forall2 (fun x y => direction x y \/ y = Num 0) m g /\
  exists y : R -> R, locally 0 (fun s => avariable RO (moves m d s) es j = Ok (Num (y s))) /\ is_derive (fun s => y s * sc) 0 (apairs g d).
Proof.
  intros sc l1 m envm l2 d g Hc1 Hl2 Hm Hvm Hu Hg Hus Hd G. rewrite evaluated_history in G.
  apply (at_gradient m envm _ Hm Hvm (evaluated_values m envm sc l1 Hm Hvm Hc1) sc (l1 ++ ACall (rf sc) m :: l2)); auto; [now apply evaluated_calls| |destruct Hus as [K|K]; [now left|right; exact (evaluated_seeds m sc l1 l2 K)]].
  intros v _. rewrite <- evaluated_history. apply hist_saved; [|exact Hl2].
  change (no_ctrl (run_hist (AF RO) bs (fst (rf_call (AF RO) bs (rf sc) m (run_hist (AF RO) bs (w_heap w) l1))) [])). rewrite evaluated_history. apply at_clean.
Qed.
Theorem gradient_evaluated_runs : forall sc l1 m envm l2, calls_controls w l1 -> quiet l2 -> map is_arr m = map is_arr xs -> avalues RO m es = Ok envm ->
  unrepeated es envm -> gentle (length xs) es envm -> used (length xs) j es \/ seeds_on bs J (l1 ++ l2) -> xs <> [] -> all_ok (AF RO) bs (w_heap w) (l1 ++ ACall (rf sc) m :: l2) = true ->
  exists g, snd (rf_derivative (AF RO) bs (rf sc) (Num 1) (run_hist (AF RO) bs (fst (rf_call (AF RO) bs (rf sc) m (run_hist (AF RO) bs (w_heap w) l1))) l2)) = Ok g.
Proof.
  intros sc l1 m envm l2 Hc1 Hl2 Hm Hvm Hu Hg Hus Hne Hok. rewrite evaluated_history.
  apply (at_runs m envm _ Hm Hvm (evaluated_values m envm sc l1 Hm Hvm Hc1) sc (l1 ++ ACall (rf sc) m :: l2)); auto; [now apply evaluated_calls| |destruct Hus as [K|K]; [now left|right; exact (evaluated_seeds m sc l1 l2 K)]].
  intros v _. rewrite <- evaluated_history. apply hist_saved; [|exact Hl2].
  change (no_ctrl (run_hist (AF RO) bs (fst (rf_call (AF RO) bs (rf sc) m (run_hist (AF RO) bs (w_heap w) l1))) [])). rewrite evaluated_history. apply at_clean.
Qed.
End Prog.

(** ** Programs *)
Lemma run_program : forall xs es tys env j, atypes (map is_arr xs) es = Some tys -> avalues RO xs es = Ok env -> nth_error tys j = Some false ->
  get_bv (fst (arun RO true xs es)) j = recorded (AF RO) true (program RO xs es) j.
Proof.
  intros xs es tys env j Ht Hv Hj. destruct (arr_rerun RO xs es tys env j Ht Hv (inside xs es tys env j Ht Hv Hj)) as [_ [_ [Ew _]]]. rewrite Ew. reflexivity.
Qed.
Theorem arr_gradient : forall xs es tys env j sc, atypes (map is_arr xs) es = Some tys -> avalues RO xs es = Ok env -> nth_error tys j = Some false -> xs <> [] ->
  unrepeated es env -> gentle (length xs) es env ->
  let w := fst (get_bv (fst (arun RO true xs es)) j) in
  let rf := RF (snd (get_bv (fst (arun RO true xs es)) j)) (w_ctrls w) (Num sc) in
  exists g, snd (rf_derivative (AF RO) (t_flat (w_tape w)) rf (Num 1) (w_heap w)) = Ok g /\ Forall2 (fun x y => direction x y \/ y = Num 0) xs g /\
    forall d, Forall2 direction xs d ->
    exists y : R -> R, locally 0 (fun s => avariable RO (moves xs d s) es j = Ok (Num (y s))) /\ is_derive (fun s => y s * sc) 0 (apairs g d).
Proof.
  intros xs es tys env j sc Ht Hv Hj Hne Hu Hg. assert (Hus : forall bs J, seeds_on bs J (@nil (api (aval R)))) by (intros ? ? ? ? []). cbv zeta. rewrite (run_program xs es tys env j Ht Hv Hj).
  destruct (gradient_recorded_runs xs es tys env j Ht Hv Hj sc [] eq_refl Hu Hg (or_intror (Hus _ _)) Hne eq_refl) as [g G]. exists g. split; [exact G|].
  assert (D : Forall2 direction xs xs) by (clear; induction xs as [|[x|l] r IH]; constructor; auto; cbn; auto).
  split; [exact (proj1 (gradient_recorded xs es tys env j Ht Hv Hj sc [] xs g eq_refl Hu Hg (or_intror (Hus _ _)) D G))|].
  intros d Hd. exact (proj2 (gradient_recorded xs es tys env j Ht Hv Hj sc [] d g eq_refl Hu Hg (or_intror (Hus _ _)) Hd G)).
Qed.
Theorem arr_gradient_evaluated : forall xs es tys env j sc l1 m envm l2 d g, atypes (map is_arr xs) es = Some tys -> avalues RO xs es = Ok env -> nth_error tys j = Some false ->
  map is_arr m = map is_arr xs -> avalues RO m es = Ok envm -> unrepeated es envm -> gentle (length xs) es envm -> Forall2 direction m d ->
  let w := fst (get_bv (fst (arun RO true xs es)) j) in
  let rf := RF (snd (get_bv (fst (arun RO true xs es)) j)) (w_ctrls w) (Num sc) in
  let bs := t_flat (w_tape w) in
  let h := run_hist (AF RO) bs (fst (rf_call (AF RO) bs rf m (run_hist (AF RO) bs (w_heap w) l1))) l2 in
  used (length xs) j es \/ seeds_on bs (rf_J rf) (l1 ++ l2) -> calls_controls w l1 -> forallb (fun a => negb (is_call a)) l2 = true ->
  snd (rf_derivative (AF RO) bs rf (Num 1) h) = Ok g ->
  Forall2 (fun x y => direction x y \/ y = Num 0) m g /\
  exists y : R -> R, locally 0 (fun s => avariable RO (moves m d s) es j = Ok (Num (y s))) /\ is_derive (fun s => y s * sc) 0 (apairs g d).
Proof.
  intros xs es tys env j sc l1 m envm l2 d g Ht Hv Hj Hm Hvm Hu Hg Hd. cbv zeta. rewrite (run_program xs es tys env j Ht Hv Hj). intros Hus Hc Hl G.
  exact (gradient_evaluated xs es tys env j Ht Hv Hj sc l1 m envm l2 d g Hc Hl Hm Hvm Hu Hg Hus Hd G).
Qed.
Theorem arr_gradient_returns : forall xs es tys env j sc l1 m envm l2, atypes (map is_arr xs) es = Some tys -> avalues RO xs es = Ok env -> nth_error tys j = Some false -> xs <> [] ->
  map is_arr m = map is_arr xs -> avalues RO m es = Ok envm -> unrepeated es envm -> gentle (length xs) es envm ->
  let w := fst (get_bv (fst (arun RO true xs es)) j) in
  let rf := RF (snd (get_bv (fst (arun RO true xs es)) j)) (w_ctrls w) (Num sc) in
  let bs := t_flat (w_tape w) in
  let h := run_hist (AF RO) bs (fst (rf_call (AF RO) bs rf m (run_hist (AF RO) bs (w_heap w) l1))) l2 in
  used (length xs) j es \/ seeds_on bs (rf_J rf) (l1 ++ l2) -> calls_controls w l1 -> forallb (fun a => negb (is_call a)) l2 = true -> all_ok (AF RO) bs (w_heap w) (l1 ++ ACall rf m :: l2) = true ->
  exists g, snd (rf_derivative (AF RO) bs rf (Num 1) h) = Ok g.
Proof.
  intros xs es tys env j sc l1 m envm l2 Ht Hv Hj Hne Hm Hvm Hu Hg. cbv zeta. rewrite (run_program xs es tys env j Ht Hv Hj). intros Hus Hc Hl Hok.
  exact (gradient_evaluated_runs xs es tys env j Ht Hv Hj sc l1 m envm l2 Hc Hl Hm Hvm Hu Hg Hus Hne Hok).
Qed.
