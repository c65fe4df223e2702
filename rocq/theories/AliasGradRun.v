(** Runs with derivatives on a tape of arrays in memory. *)
From Coq Require Import List Arith ZArith Bool Lia.
From Verif Require Import Base Model Record BaseFacts Spec RecordFacts Graph History Marks FreshAdj Session PyExp SpecArr Arrays ArrFacts ArrTape Alias SpecAlias AliasFacts AliasGrad SpecAliasGrad AliasGradFacts.
Import ListNotations.

Section GradRun.
Context {V : Type} (F : fops V).
Notation AF := (AF F).
Notation deref := (deref F).

(** ** Floats stay floats and arrays stay arrays *)
Lemma recompute_num : forall k xs i y, Forall (fun z => is_arr z = false) xs -> comp_recompute AF (akind k) xs i = Ok (Some y) -> is_arr y = false.
Proof.
  intros k xs i y H E. assert (Hn : forall j z, nth_res xs j = Ok z -> exists u, z = Num u).
  { intros j z K. unfold nth_res in K. destruct (nth_error xs j) as [z'|] eqn:Ej; [|discriminate]. injection K as <-. apply nth_error_In in Ej. rewrite Forall_forall in H. specialize (H _ Ej). destruct z'; [eauto|discriminate]. }
  destruct k; cbn [akind comp_recompute] in E;
  repeat match type of E with
  | context [nth_res xs ?j] => destruct (nth_res xs j) as [z|] eqn:?Ez; cbn [bind] in E; [destruct (Hn _ _ Ez) as [? ->]; clear Ez|discriminate E]
  end; try discriminate E; try (injection E as <-; reflexivity); cbn in E.
  - destruct (f_div F x x0); [|discriminate]. cbn in E. injection E as <-. reflexivity.
  - destruct (f_pow F x x0); [|discriminate]. cbn in E. injection E as <-. reflexivity.
  - destruct (f_exp F x); [|discriminate]. cbn in E. injection E as <-. reflexivity.
  - destruct (f_log F x); [|discriminate]. cbn in E. injection E as <-. reflexivity.
  - injection E as <-. unfold py_min. destruct (f_lt AF (Num x0) (Num x)); reflexivity.
  - injection E as <-. unfold py_max. destruct (f_lt AF (Num x) (Num x0)); reflexivity.
Qed.
Lemma getitem_kind : forall it l (y : aval V), getitem it (Arr l) = Ok y -> is_arr y = negb (is_int it).
Proof.
  intros it l y E. cbn in E. destruct (picks it (length l)) as [ps|]; [|discriminate]. cbn in E. destruct (mapM (nth_res l) ps) as [ys|]; [|discriminate]. cbn in E.
  destruct (is_int it); [destruct ys; [discriminate|]|]; injection E as <-; reflexivity.
Qed.
Lemma geval_typed : forall T rbs bs, Forall2 (same_block F) rbs bs -> Forall (typed_block T) rbs -> forall cut e, (forall v, is_arr (e v) = T v) -> forall v, is_arr (fst (geval AF cut bs e) v) = T v.
Proof.
  intros T rbs bs H. induction H as [|rb b rbs bs Hb _ IH]; intros Ht cut e He v; [apply He|]. inversion Ht as [|? ? Ht1 Ht2]; subst. unfold geval in *. cbn [iter_o].
  assert (G : forall u, is_arr (fst (geval_block AF cut e b) u) = T u).
  { intros u. unfold geval_block. destruct (existsb cut (b_outs b)); [apply He|]. destruct rb as [it d o|k ds o]; destruct Hb as [-> [-> ->]]; cbn [map enum enum_from iter_o fst snd].
    - destruct Ht1 as [T1 T2]. cbn [comp_recompute slice_block u_recompute]. rewrite <- He in T1. destruct (e d) as [x|l]; [discriminate|]. destruct (getitem it (Arr l)) as [y|] eqn:Eg; cbn [bind Nat.eqb fst]; [|apply He].
      unfold eset. destruct (Nat.eqb_spec u o) as [->|]; [|apply He]. rewrite T2. eapply getitem_kind. exact Eg.
    - destruct Ht1 as [T1 T2]. destruct (comp_recompute AF (akind k) (map e ds) 0) as [[y|]|x] eqn:Ek; cbn [fst]; try apply He.
      unfold eset. destruct (Nat.eqb_spec u o) as [->|]; [|apply He]. rewrite T2. eapply recompute_num; [|exact Ek]. apply Forall_forall. intros z Kz. apply in_map_iff in Kz as [d [<- Kd]]. rewrite He.
      rewrite Forall_forall in T1. auto. }
  destruct (geval_block AF cut e b) as [e1 [x|]]; [apply G|]. apply IH; auto.
Qed.
Lemma supplied_typed : forall (T : nat -> bool) cs (xs : list (aval V)) v x, map is_arr xs = map T cs -> supplied cs xs v = Some x -> is_arr x = T v.
Proof.
  intros T. induction cs as [|c cs IH]; intros [|y xs] v x E H; try discriminate. cbn in E, H. injection E as E1 E2. destruct (supplied cs xs v) as [z|] eqn:Es; [injection H as <-; eauto|].
  destruct (Nat.eqb_spec v c) as [->|]; [injection H as <-; exact E1|discriminate].
Qed.

(** ** One step *)
Definition gapi (gs : gstate V) (ev : gevent V) : list (api (aval V)) :=
  match ev with GUse ev => api_of F (g_user gs) ev | GDeriv J cs sc a => [ADeriv (RF J cs (Num sc)) (Num a)] end.
Record related (T : nat -> bool) (rbs : list (rblk V)) (gs : gstate V) (h : heap (aval V)) : Prop := {
  re_ctrl : no_ctrl h;
  re_sound : sound (g_user gs);
  re_apart : apart (g_user gs);
  re_agrees : agrees F (u_tape (g_user gs)) h;
  re_typed : forall v, is_arr (saved h v) = T v;
  re_settled : settled F rbs (r_mem (u_tape (g_user gs))) (r_ref (u_tape (g_user gs))) (g_adj gs) (g_mark gs) h }.
Lemma stored_saved : forall (us : ustate V) h v, agrees F (u_tape us) h -> stored F us v = saved h v.
Proof. intros us h v G. apply G. Qed.

Lemma gstep_ok : forall T rbs bs, Forall2 (same_block F) rbs bs -> Forall (typed_block T) rbs -> forall cs gs h ev, related T rbs gs h -> gwell_behaved F cs rbs (g_user gs) ev ->
  let gs' := fst (gstep F rbs gs ev) in
  related T rbs gs' (run_hist AF bs h (gapi gs ev)) /\ (writes ev = false -> kept (g_user gs) (g_user gs')) /\ (exists more, u_vars (g_user gs') = u_vars (g_user gs) ++ more) /\
  (snd (gstep F rbs gs ev) = None -> all_ok AF bs h (gapi gs ev) = true) /\
  (forall J cs' sc a, ev = GDeriv J cs' sc a -> (forall v, stored F (g_user gs') v = stored F (g_user gs) v) /\
     match snd (rf_derivative AF bs (RF J cs' (Num sc)) (Num a) h) with
     | Ok g => snd (gstep F rbs gs ev) = None /\ exists rs, u_vars (g_user gs') = u_vars (g_user gs) ++ map (fun r => (true, r)) rs /\ map (deref (r_mem (u_tape (g_user gs')))) rs = g
     | Err e => snd (gstep F rbs gs ev) = Some e
     end).
Proof.
  intros T rbs bs Hb Ht cs gs h ev R W. pose proof R as [Rc Rs Ra Rg Rt Rd]. cbv zeta. destruct ev as [ev|J cs' sc a].
  - cbn [gstep gapi writes]. destruct W as [W Su]. destruct (step_ok F rbs bs Hb cs (g_user gs) h ev Rc Rs Ra Rg W) as [S1 [S2 [S3 [S4 [S5 _]]]]].
    destruct (estep F rbs (g_user gs) ev) as [us' e] eqn:Ee. cbn [fst snd] in *.
    destruct (hist_frame AF bs (api_of F (g_user gs) ev) h Rc) as [Hn' _].
    assert (Frame : (forall v, bv_mark (run_hist AF bs h (api_of F (g_user gs) ev) v) = bv_mark (h v)) /\ (forall v, bv_adj (run_hist AF bs h (api_of F (g_user gs) ev) v) = bv_adj (h v)) /\
      (forall v, is_arr (saved (run_hist AF bs h (api_of F (g_user gs) ev)) v) = T v)).
    { destruct ev; try (cbn; auto). destruct (mapM (var_ref (g_user gs)) us) as [args|] eqn:Ea; [|cbn; auto]. cbn. set (vals := map (deref (r_mem (u_tape (g_user gs)))) args). set (rf := RF J ctrls (Num scale)).
      destruct (Nat.eq_dec (length vals) (length (rf_ctrls rf))) as [El|Hne].
      - destruct (rf_call_spec AF bs rf vals h Rc El) as [_ [C2 C3]]. destruct (rf_call AF bs rf vals h) as [h' rr]. cbn [fst] in *. split; [intros v|split; intros v].
        + specialize (C3 v). apply (f_equal (@bv_mark _)) in C3. exact C3.
        + specialize (C3 v). apply (f_equal (@bv_adj _)) in C3. exact C3.
        + rewrite C2. eapply geval_typed; [exact Hb|exact Ht|]. intros u. unfold start_env. destruct (supplied (rf_ctrls rf) vals u) as [x|] eqn:Es; [|apply Rt].
          eapply supplied_typed; [|exact Es]. unfold vals in *. cbn [rf rf_ctrls] in *. rewrite map_length in El. rewrite (Su args Ea El). apply map_ext. intros c. rewrite (stored_saved _ h c Rg). apply Rt.
      - rewrite rf_call_mismatch by exact Hne. cbn. auto. }
    destruct Frame as [F1 [F2 F3]]. split; [|split; [|split; [exact S4|split; [|discriminate]]]].
    + constructor; cbn [g_user g_adj g_mark]; auto. destruct Rd as [D1 [_ D3]]. split; [intros v; now rewrite F1|]. split; [exact S3|]. intros v Hv. destruct (D3 v Hv) as [D4 D5]. split; [|exact D5]. rewrite F2, <- D4.
      destruct (g_adj gs v) as [[x|b ps]|] eqn:Eg; [reflexivity|destruct (D5 b ps eq_refl)|reflexivity].
    + intros Hw. apply S5. intros u i x ->. discriminate.
    + intros ->. destruct ev; try reflexivity. cbn [estep api_of] in *. destruct (mapM (var_ref (g_user gs)) us) as [args|] eqn:Ea; [|reflexivity].
      destruct (rcall_sim F rbs bs Hb J ctrls scale args (u_tape (g_user gs)) h Rc Rg (proj1 Rs) (vars_lie (g_user gs) us args Rs Ea)) as [C1 _].
      destruct (rcall F rbs J ctrls scale args (u_tape (g_user gs))) as [s y]. cbn [fst snd] in C1. cbn [all_ok]. unfold api_ok, api_run. destruct (rf_call AF bs _ _ h) as [h' rr]. cbn [fst snd] in *.
      destruct y as [y|]; [|discriminate]. cbn in C1. subst rr. reflexivity.
  - cbn [gstep gapi writes]. set (us := g_user gs) in *. set (m := r_mem (u_tape us)). set (ref := r_ref (u_tape us)).
    destruct (derivative_sim F rbs bs Hb T Ht m ref (g_adj gs) (g_mark gs) h J cs' sc a (proj1 Rs) Rt Rd) as [D1 [D2 [D3 D4]]].
    set (l := [ADeriv (RF J cs' (Num sc)) (Num a)]). assert (El : run_hist AF bs h l = fst (rf_derivative AF bs (RF J cs' (Num sc)) (Num a) h)) by reflexivity.
    destruct (hist_frame AF bs l h Rc) as [Hn' _]. rewrite El in *. assert (Aok : all_ok AF bs h l = is_ok (snd (rf_derivative AF bs (RF J cs' (Num sc)) (Num a) h))) by (cbn; unfold api_ok; cbn; apply andb_true_r).
    destruct (rderivative F rbs ref J cs' sc a (DSt m (g_adj gs) (g_mark gs))) as [s y]. destruct (rf_derivative AF bs (RF J cs' (Num sc)) (Num a) h) as [h' y'] eqn:Erf. cbn [fst snd g_user u_tape u_vars r_mem r_ref g_adj g_mark] in *. rewrite Aok.
    set (vars := match y with Ok rs => map (fun r => (true, r)) rs | Err _ => [] end). destruct D1 as [t Dm].
    assert (Hv : forall own r, In (own, r) vars -> own = true /\ lies (d_mem s) r /\ forall b ps, r = RArr b ps -> length m <= b).
    { intros own r K. unfold vars in K. destruct y as [rs|]; [|destruct K]. apply in_map_iff in K as [q [E Kq]]. injection E as <- <-. split; [reflexivity|]. exact (D4 rs q eq_refl Kq). }
    assert (Hsv : forall v, saved h' v = saved h v).
    { intros v. destruct D3 as [_ [K _]]. rewrite <- K, Dm, deref_app by apply Rs. apply Rg. }
    destruct Rs as [Rs1 Rs2]. rewrite Forall_forall in Rs2. split; [|split; [|split; [|split]]].
    + constructor; cbn [g_user u_tape u_vars r_mem r_ref g_adj g_mark].
      * exact Hn'.
      * split; cbn [u_tape u_vars r_mem r_ref]; [intros v; rewrite Dm; apply lies_app, Rs1|]. apply Forall_forall. intros [own r] K. cbn. apply in_app_iff in K as [K|K]; [rewrite Dm; apply lies_app; exact (Rs2 _ K)|]. exact (proj1 (proj2 (Hv own r K))).
      * intros r K. cbn [u_tape u_vars r_mem r_ref] in *. apply in_app_iff in K as [K|K].
        -- destruct (Ra r K) as [A1 A2]. split; [exact A1|]. intros r' K'. apply in_app_iff in K' as [K'|K']; [exact (A2 r' K')|]. destruct (Hv _ _ K') as [E _]. discriminate.
        -- destruct (Hv _ _ K) as [_ [_ Q]]. split.
           ++ intros v [b [ps [ps' [E1 E2]]]]. specialize (Q b ps' E2). specialize (Rs1 v). fold ref in Rs1. rewrite E1 in Rs1. destruct Rs1 as [Rs1 _]. fold m in Rs1. lia.
           ++ intros r' K' [b [ps [ps' [E1 E2]]]]. specialize (Q b ps' E2). apply in_app_iff in K' as [K'|K']; [|destruct (Hv _ _ K') as [E _]; discriminate]. specialize (Rs2 _ K'). cbn in Rs2. rewrite E1 in Rs2. destruct Rs2 as [Rs2 _]. fold m in Rs2. lia.
      * intros v. cbn [u_tape r_mem r_ref]. exact (proj1 (proj2 D3) v).
      * intros v. rewrite Hsv. apply Rt.
      * exact D3.
    + intros _. exists t. exact Dm.
    + eauto.
    + rewrite <- D2. destruct y; [reflexivity|discriminate].
    + intros J0 cs0 sc0 a0 E. injection E as <- <- <- <-. split; [intros v; unfold stored; cbn [u_tape r_mem r_ref]; fold ref m; rewrite Dm; apply deref_app, Rs1|].
      rewrite Erf. cbn [snd]. rewrite <- D2. destruct y as [rs|e]; cbn [rmap]; [|reflexivity]. split; [reflexivity|]. exists rs. auto.
Qed.

Fixpoint gapis (rbs : list (rblk V)) (gs : gstate V) (evs : list (gevent V)) : list (api (aval V)) :=
  match evs with [] => [] | ev :: r => gapi gs ev ++ gapis rbs (fst (gstep F rbs gs ev)) r end.
Lemma gapis_app : forall rbs evs1 evs2 gs, gapis rbs gs (evs1 ++ evs2) = gapis rbs gs evs1 ++ gapis rbs (grun F rbs gs evs1) evs2.
Proof. intros rbs. induction evs1 as [|ev r IH]; intros evs2 gs; [reflexivity|]. cbn [app gapis]. rewrite IH, app_assoc. reflexivity. Qed.
Lemma all_ok_app : forall bs l1 l2 h, all_ok AF bs h (l1 ++ l2) = all_ok AF bs h l1 && all_ok AF bs (run_hist AF bs h l1) l2.
Proof. intros bs. induction l1 as [|a r IH]; intros l2 h; [reflexivity|]. cbn [app all_ok]. rewrite IH, andb_assoc. reflexivity. Qed.
Lemma run_hist_app : forall bs l1 l2 h, run_hist AF bs h (l1 ++ l2) = run_hist AF bs (run_hist AF bs h l1) l2.
Proof. intros. unfold run_hist. apply fold_left_app. Qed.
Lemma gbehaves_app : forall cs rbs evs1 evs2 gs, gbehaves F cs rbs gs (evs1 ++ evs2) <-> gbehaves F cs rbs gs evs1 /\ gbehaves F cs rbs (grun F rbs gs evs1) evs2.
Proof. intros cs rbs. induction evs1 as [|ev r IH]; intros evs2 gs; cbn [app gbehaves]; [cbn; tauto|]. rewrite IH. cbn. tauto. Qed.
Lemma grun_app : forall rbs evs1 evs2 gs, grun F rbs gs (evs1 ++ evs2) = grun F rbs (grun F rbs gs evs1) evs2.
Proof. intros. unfold grun. apply fold_left_app. Qed.
Lemma grun_ok : forall T rbs bs, Forall2 (same_block F) rbs bs -> Forall (typed_block T) rbs -> forall cs evs gs h, related T rbs gs h -> gbehaves F cs rbs gs evs ->
  related T rbs (grun F rbs gs evs) (run_hist AF bs h (gapis rbs gs evs)) /\ (returned F rbs gs evs = true -> all_ok AF bs h (gapis rbs gs evs) = true) /\
  (exists more, u_vars (g_user (grun F rbs gs evs)) = u_vars (g_user gs) ++ more).
Proof.
  intros T rbs bs Hb Ht cs. induction evs as [|ev evs IH]; intros gs h R B; [cbn; split; [exact R|]; split; [reflexivity|exists []; now rewrite app_nil_r]|].
  destruct B as [W B]. destruct (gstep_ok T rbs bs Hb Ht cs gs h ev R W) as [R1 [_ [[more E] [O _]]]]. destruct (IH _ _ R1 B) as [R2 [O2 [more2 E2]]].
  change (grun F rbs gs (ev :: evs)) with (grun F rbs (fst (gstep F rbs gs ev)) evs). cbn [gapis returned]. rewrite run_hist_app. split; [exact R2|]. split.
  - rewrite all_ok_app. intros K. apply andb_true_iff in K as [K1 K2]. rewrite O by (destruct (snd (gstep F rbs gs ev)); [discriminate|reflexivity]). now rewrite O2.
  - rewrite E2, E, <- app_assoc. eauto.
Qed.
Lemma gapis_calls : forall cs rbs evs gs rf vals, gbehaves F cs rbs gs evs -> In (ACall rf vals) (gapis rbs gs evs) -> incl (rf_ctrls rf) cs.
Proof.
  intros cs rbs. induction evs as [|ev evs IH]; intros gs rf vals B H; [destruct H|]. destruct B as [W B]. cbn [gapis] in H. apply in_app_iff in H as [H|H]; [|eauto].
  destruct ev as [ev|J cs' sc a]; cbn [gapi] in H; [|destruct H as [H|[]]; discriminate]. destruct ev; try destruct H. cbn [api_of] in H. destruct (mapM (var_ref (g_user gs)) us); [|destruct H].
  destruct H as [H|[]]. injection H as <- _. exact (proj1 (proj1 W)).
Qed.
Lemma gapis_quiet : forall rbs evs gs, forallb (fun ev => negb (evaluates ev)) evs = true -> forallb (fun a => negb (is_call a)) (gapis rbs gs evs) = true.
Proof.
  intros rbs. induction evs as [|ev evs IH]; intros gs H; [reflexivity|]. cbn [forallb] in H. apply andb_true_iff in H as [H1 H2]. cbn [gapis]. rewrite forallb_app, IH by exact H2. rewrite andb_true_r.
  destruct ev as [ev|J cs' sc a]; [|reflexivity]. destruct ev; try reflexivity. discriminate.
Qed.
Lemma gapis_seeds : forall rbs evs gs a v, In a (gapis rbs gs evs) -> In v (stores_adj a) -> exists cs sc x, In (GDeriv v cs sc x) evs.
Proof.
  intros rbs. induction evs as [|ev evs IH]; intros gs a v H Hv; [destruct H|]. cbn [gapis] in H. apply in_app_iff in H as [H|H]; [|destruct (IH _ _ _ H Hv) as [cs [sc [x K]]]; exists cs, sc, x; now right].
  destruct ev as [ev|J cs' sc x]; cbn [gapi] in H.
  - destruct ev; try destruct H. cbn [api_of] in H. destruct (mapM (var_ref (g_user gs)) us); [|destruct H]. destruct H as [<-|[]]. destruct Hv.
  - destruct H as [<-|[]]. destruct Hv as [<-|[]]. exists cs', sc, x. now left.
Qed.

(** ** Recorded programs *)
Section Prog.
Variables (xs : list (aval V)) (es : list (astmt V)) (tys : list bool) (env : list (aval V)) (j : nat).
Hypothesis Ht : atypes (map is_arr xs) es = Some tys.
Hypothesis Hv : avalues F xs es = Ok env.
Hypothesis Hj : j < length env.
Let w := fst (get_bv (fst (arun F true xs es)) j).
Lemma prog_world : get_bv (fst (arun F true xs es)) j = recorded AF true (program F xs es) j.
Proof. destruct (arr_rerun F xs es tys env j Ht Hv Hj) as [_ [_ [Ew _]]]. rewrite Ew. reflexivity. Qed.
Lemma prog_saved : forall a u, cur w a u -> nth_error env a = Some (saved (w_heap w) u).
Proof.
  intros a u C. destruct (arr_good F xs es tys env j Ht Hv Hj no_override) as [[W _] _]. unfold w in *. rewrite prog_world in *. rewrite (proj2 (arr_cur F xs es tys env j Ht Hv Hj a u C)). f_equal.
  destruct C as [ob [E1 E2]]. destruct (wi_cur AF [] _ W a ob u E1 E2) as [L [G O]]. unfold saved. destruct (bv_ckpt _) as [x|] eqn:Ec; [symmetry; apply (wi_ckpt AF [] _ W u x); [right; exists a, ob; auto|exact Ec]|].
  unfold ghost in G. injection G as _ _ G. rewrite O. exact G.
Qed.
Lemma prog_typed : forall rbs, Forall2 (same_block F) rbs (t_flat (w_tape w)) -> Forall (typed_block (fun v => is_arr (saved (w_heap w) v))) rbs.
Proof.
  intros rbs Hb. assert (H : forall b, In b (t_flat (w_tape w)) -> exists es1 s es2, es = es1 ++ s :: es2 /\ made F xs es j (length xs + length es1) s b).
  { intros b Kb. apply (arr_made F xs es tys env j Ht Hv Hj). unfold w in Kb. rewrite prog_world in Kb. exact Kb. }
  assert (Ec : forall a u, cur (fst (recorded AF true (program F xs es) j)) a u -> cur w a u) by (intros a u C; unfold w; rewrite prog_world; exact C).
  induction Hb as [|rb b rbs bs Hb _ IH]; [constructor|]. constructor; [|apply IH; intros b' K; apply H; now right].
  destruct (H b (or_introl eq_refl)) as [es1 [s [es2 [E M]]]]. destruct (stmt_at F env j Hj es1 s es2 xs tys env) as [x [t [A1 [A2 A3]]]]; [now rewrite <- E|now rewrite <- E|]. clear E.
  assert (Ty : forall a b0, holds (map is_arr env) b0 a = true -> forall u, cur w a u -> is_arr (saved (w_heap w) u) = b0).
  { intros a b0 K u C. apply prog_saved in C. unfold holds in K. rewrite nth_error_map, C in K. cbn in K. now apply eqb_prop in K. }
  assert (Tx : is_arr x = t) by (eapply avalue_kind; eauto).
  assert (Op : forall k args, b_kind b = akind k -> Forall2 (cur (fst (recorded AF true (program F xs es) j))) args (b_deps b) -> Forall2 (cur (fst (recorded AF true (program F xs es) j))) [length xs + length es1] (b_outs b) ->
     forallb (holds (map is_arr env) false) args = true -> t = false -> typed_block (fun v => is_arr (saved (w_heap w) v)) rb).
  { intros k args M1 M2 M3 K Kt. inversion M3 as [|? o ? ? Mo Mn E1 E2]; inversion Mn; subst. destruct rb as [it d o'|k' ds o']; destruct Hb as [B1 [B2 B3]].
    - rewrite M1 in B1; apply (f_equal (fun k0 => match k0 with KUser u => u_recompute u [] 0 | _ => Err EType end)) in B1; destruct k; discriminate B1.
    - cbn. assert (o' = o) by congruence. subst o'. split.
      + subst ds. rewrite forallb_forall in K. clear -M2 K Ty Ec. induction M2 as [|a d args ds C _ IH]; constructor; [apply (Ty a); [apply K; now left|auto]|]. apply IH. intros a' Ka. apply K. now right.
      + apply Ec, prog_saved in Mo. rewrite A2 in Mo. injection Mo as <-. exact Kt. }
  destruct s as [y|a it|k args|k args]; cbn [made] in M; [destruct M| | |]; destruct M as [M1 [M2 M3]]; cbn [atype] in A3.
  - destruct (holds (map is_arr env) true a) eqn:Eh; [|discriminate]. injection A3 as A3. inversion M3 as [|? o ? ? Mo Mn E1 E2]; inversion Mn; subst. inversion M2 as [|? d ? ? Md Mm E3 E4]; inversion Mm; subst.
    destruct rb as [it' d' o'|k ds o']; destruct Hb as [B1 [B2 B3]].
    + rewrite M1 in B1. assert (d' = d) by congruence. assert (o' = o) by congruence. subst d' o'. cbn. split; [exact (Ty a true Eh d (Ec _ _ Md))|]. apply Ec, prog_saved in Mo. rewrite A2 in Mo. injection Mo as <-.
      assert (Ei : is_int it' = is_int it); [|rewrite Ei; congruence].
      apply (f_equal (fun k => match k with KUser u => u_recompute u | _ => fun _ _ => Err EType end)) in B1. cbn [avalue] in A1. unfold lookup in A1. destruct (nth_error env a) as [la|] eqn:Ea; [|discriminate]. cbn [bind] in A1.
      apply (f_equal (fun f => f [la] 0)) in B1. cbn [slice_block u_recompute Nat.eqb] in B1. rewrite <- (getitem_pick F) in A1. rewrite A1 in B1. cbn [bind] in B1.
      destruct (getitem it' la) as [x'|] eqn:Eg; [|discriminate]. cbn [bind] in B1. injection B1 as <-. destruct la as [z|la]; [discriminate|]. apply getitem_kind in A1, Eg. destruct (is_int it), (is_int it'); cbn in *; congruence.
    + rewrite M1 in B1; apply (f_equal (fun k0 => match k0 with KUser u => u_recompute u [] 0 | _ => Err EType end)) in B1; destruct k; discriminate B1.
  - destruct (operator k args && forallb (holds (map is_arr env) false) args) eqn:Eh; [|discriminate]. injection A3 as A3. apply andb_true_iff in Eh as [_ Eh]. eapply Op; eauto.
  - destruct (function k args && forallb (holds (map is_arr env) false) args) eqn:Eh; [|discriminate]. injection A3 as A3. apply andb_true_iff in Eh as [_ Eh]. eapply Op; eauto.
Qed.

Lemma prog_start : forall rbs gs, Forall2 (same_block F) rbs (t_flat (w_tape w)) -> sound (g_user gs) -> apart (g_user gs) -> agrees F (u_tape (g_user gs)) (w_heap w) -> untouched gs ->
  related (fun v => is_arr (saved (w_heap w) v)) rbs gs (w_heap w).
Proof.
  intros rbs gs Hb S A G [U1 U2]. destruct (arr_good F xs es tys env j Ht Hv Hj no_override) as [[W _] _].
  assert (Ew : w = fst (recorded AF true (program F xs es) j)) by (unfold w; now rewrite prog_world). rewrite <- Ew in W.
  constructor; auto; [intros v; apply (wi_ctrl AF [] _ W)|]. split; [intros v; rewrite U2; symmetry; apply (wi_clean AF [] _ W)|]. split; [exact G|].
  intros v _. rewrite U1. split; [symmetry; apply (wi_clean AF [] _ W)|discriminate].
Qed.
End Prog.

(** Nothing the user has is changed by anything but their own writing; derivatives change no stored value. *)
Theorem alias_frame : forall xs es tys env j, atypes (map is_arr xs) es = Some tys -> avalues F xs es = Ok env -> j < length env ->
  let w := fst (get_bv (fst (arun F true xs es)) j) in
  forall rbs, Forall2 (same_block F) rbs (t_flat (w_tape w)) ->
  forall gs0 evs ev, sound (g_user gs0) -> apart (g_user gs0) -> agrees F (u_tape (g_user gs0)) (w_heap w) -> untouched gs0 -> gbehaves F (w_ctrls w) rbs gs0 (evs ++ [ev]) ->
  let gs := grun F rbs gs0 evs in
  let gs' := fst (gstep F rbs gs ev) in
  (writes ev = false -> forall u, u < length (u_vars (g_user gs)) -> seen F (g_user gs') u = seen F (g_user gs) u) /\
  (forall J cs sc a v, ev = GDeriv J cs sc a -> stored F (g_user gs') v = stored F (g_user gs) v) /\
  apart (g_user gs').
Proof.
  intros xs es tys env j Ht Hv Hj w rbs Hb gs0 evs ev S A G U B gs gs'. apply gbehaves_app in B as [B1 [B2 _]]. pose proof (prog_typed xs es tys env j Ht Hv Hj rbs Hb) as Hty.
  pose proof (prog_start xs es tys env j Ht Hv Hj rbs gs0 Hb S A G U) as R0. destruct (grun_ok _ rbs _ Hb Hty (w_ctrls w) evs gs0 _ R0 B1) as [R1 _].
  destruct (gstep_ok _ rbs _ Hb Hty (w_ctrls w) _ _ ev R1 B2) as [R2 [K [[more E] [_ D]]]]. fold gs in K, E, D. fold gs in R2. fold gs' in K, E, R2. split; [|split].
  - intros Hw u Hu. eapply kept_seen; eauto. apply (re_sound _ _ _ _ R1).
  - intros J cs sc a v ->. exact (proj1 (D J cs sc a eq_refl) v).
  - apply (re_apart _ _ _ _ R2).
Qed.
End GradRun.
