(** Two programs with the same objects, controls and recorded operations cannot be told apart
    through the API. *)
From Coq Require Import List Arith ZArith Lia Bool.
From Verif Require Import Base Model BaseFacts Graph Record Spec RecordFacts Replay ReplayStep ReplayExec History Session
  SpecTape Iso TapeRecord.
Import ListNotations.

Section IsoRecord.
Context {V : Type} (F : fops V).
Implicit Types (w : world V) (h : heap V) (s : sst V).

(** ** API calls in the user's terms: functionals are the objects [js], controls are numbered in
    the order they were made. *)
Inductive qvar : Type := QF (i : nat) | QC (i : nat).
Inductive query : Type :=
| QCall (j : nat) (cs : list nat) (scale : V) (xs : list V)
| QDeriv (j : nat) (cs : list nat) (scale a : V)
| QHess (j : nat) (cs : list nat) (scale : V) (d : list V)
| QSolve (j : nat) (compute : bool) (a : V)
| QGrad (j : nat) (cs : list nat) (a : V)
| QTlm (vs : list qvar) (xs : list (option V)) (m : bool)
| QAdj (m : bool) | QHessian (m : bool)
| QSetAdj (v : qvar) (x : option V) | QSetHess (v : qvar) (x : option V) | QReset.

Definition session (ann : bool) (p : list (stmt V)) (js : list nat) : world V * list nat :=
  get_bvs (exec F (world_new F ann) p) js.
Definition var_of (s : world V * list nat) (q : qvar) : option nat :=
  match q with QF i => nth_error (snd s) i | QC i => nth_error (w_ctrls (fst s)) i end.
Fixpoint all_some {A} (l : list (option A)) : option (list A) :=
  match l with
  | [] => Some []
  | Some x :: r => option_map (cons x) (all_some r)
  | None :: _ => None
  end.
Definition vars_q (s : world V * list nat) (l : list qvar) : option (list nat) := all_some (map (var_of s) l).
Definition with_j (s : world V * list nat) (j : nat) (f : nat -> api V) : option (api V) := option_map f (var_of s (QF j)).
Definition with_jc (s : world V * list nat) (j : nat) (cs : list nat) (f : nat -> list nat -> api V) : option (api V) :=
  match var_of s (QF j), vars_q s (map QC cs) with Some J, Some Cs => Some (f J Cs) | _, _ => None end.
Definition resolve (s : world V * list nat) (q : query) : option (api V) :=
  match q with
  | QCall j cs scale xs => with_jc s j cs (fun J Cs => ACall (RF J Cs scale) xs)
  | QDeriv j cs scale a => with_jc s j cs (fun J Cs => ADeriv (RF J Cs scale) a)
  | QHess j cs scale d => with_jc s j cs (fun J Cs => AHess (RF J Cs scale) d)
  | QSolve j c a => with_j s j (fun J => ASolve J c a)
  | QGrad j cs a => with_jc s j cs (fun J Cs => AGrad J Cs a)
  | QTlm vs xs m => option_map (fun us => ATlm (combine us xs) m) (vars_q s vs)
  | QAdj m => Some (AAdj 0 m)
  | QHessian m => Some (AHessian m)
  | QSetAdj v x => option_map (fun u => ASetAdj u x) (var_of s v)
  | QSetHess v x => option_map (fun u => ASetHess u x) (var_of s v)
  | QReset => Some AReset
  end.
(** The results of a sequence of calls, [None] if a call names something that does not exist. *)
Definition observe (s : world V * list nat) (l : list query) : option (list (res (list V))) :=
  option_map (outcomes F (flat (fst s)) (w_heap (fst s))) (all_some (map (resolve s) l)).

(** ** Two recorded worlds *)
Section Two.
Context (w w' : world V) (s s' : sst V) (g g' : list (vblock V)) (js Js Js' : list nat).
Hypothesis W : WInv F [] w.
Hypothesis W' : WInv F [] w'.
Hypothesis S0 : Sim F no_override w s.
Hypothesis S1 : Sim F no_override w' s'.
Hypothesis G : GI w g.
Hypothesis G' : GI w' g'.
Hypothesis Hg : filter has_results g = filter has_results g'.
Hypothesis HJ : Forall2 (cur w) js Js.
Hypothesis HJ' : Forall2 (cur w') js Js'.
Hypothesis Hjv : vers_of s js = vers_of s' js.
Hypothesis Hct : s_ctrls s = s_ctrls s'.

Definition eff (b : block V) : bool := match b_outs b with [] => false | _ => true end.
Definition R2 (v v' : nat) : Prop := live [] w v /\ live [] w' v' /\ verb (w_heap w v) = verb (w_heap w' v') /\
  (In v (vars_of (flat w)) <-> In v' (vars_of (flat w'))).
Definition Pd2 (v : nat) : Prop := In v (deps_of (filter eff (flat w))) \/ In v Js.

Lemma Js_pairs : map (pairof (w_heap w)) Js = map (pairof (w_heap w')) Js'.
Proof.
  rewrite (pair_cur F [] no_override w s js Js W S0 HJ), (pair_cur F [] no_override w' s' js Js' W' S1 HJ'). exact Hjv.
Qed.
Lemma Js_current : forall v, In v Js -> current w v.
Proof. intros v H. destruct (Forall2_In_r _ _ _ v HJ H) as [o [_ Hc]]. exists o. exact Hc. Qed.
Lemma Js_current' : forall v, In v Js' -> current w' v.
Proof. intros v H. destruct (Forall2_In_r _ _ _ v HJ' H) as [o [_ Hc]]. exists o. exact Hc. Qed.

Lemma R2_bij : forall u u' v v', R2 u u' -> R2 v v' -> (u = v <-> u' = v').
Proof.
  intros u u' v v' [A1 [A2 [A3 _]]] [B1 [B2 [B3 _]]]. split; intros ->.
  - apply (wi_uniq F [] w' W'); auto. congruence.
  - apply (wi_uniq F [] w W); auto. congruence.
Qed.

Lemma live_vars : forall w0 v, In v (vars_of (flat w0)) -> live [] w0 v.
Proof. intros w0 v H. left. now apply flat_refs. Qed.

Lemma vars_mentions : forall w0 g0 v, WInv F [] w0 -> GI w0 g0 -> live [] w0 v -> (In v (vars_of (flat w0)) <-> mentions g0 (verb (w_heap w0 v))).
Proof.
  intros w0 g0 v W0 G0 Hl. split.
  - intros H. unfold vars_of, deps_of, outs_of in H. rewrite in_app_iff, !in_flat_map in H.
    assert (H' : exists b, In b (flat w0) /\ In v (b_deps b ++ b_outs b)).
    { destruct H as [[b [A B]]|[b [A B]]]; exists b; (split; [exact A|]); apply in_or_app; auto. }
    destruct H' as [b [A B]]. exists (abs (w_heap w0) b), (bv_rec (w_heap w0 v)). split.
    + rewrite <- (gi_abs _ _ G0). now apply in_map.
    + unfold abs. cbn. rewrite <- map_app. apply (in_map (pairof (w_heap w0)) _ _ B).
  - intros [vb [x [A B]]]. rewrite <- (gi_abs _ _ G0) in A. apply in_map_iff in A as [b [<- A]].
    unfold abs in B. cbn in B. rewrite <- map_app in B. apply in_map_iff in B as [u [E B]]. unfold pairof in E.
    injection E as E1 E2 E3.
    assert (Hu : In u (vars_of (flat w0))) by (eapply in_vars_of; [exact A|]; apply in_app_iff in B; tauto).
    assert (u = v); [|congruence]. apply (wi_uniq F [] w0 W0); auto; [now apply live_vars|]. unfold verb. congruence.
Qed.

Lemma eff_abs : forall h b, has_results (abs h b) = eff b.
Proof. intros h b. unfold has_results, eff, abs. cbn. destruct (b_outs b); reflexivity. Qed.

Lemma pairs_R : forall (P : nat -> Prop) l l', map (pairof (w_heap w)) l = map (pairof (w_heap w')) l' ->
  (forall v, In v l -> In v (vars_of (flat w)) /\ P v) -> (forall v, In v l' -> In v (vars_of (flat w'))) -> Forall2 (fun v v' => R2 v v' /\ P v) l l'.
Proof.
  intros P l. induction l as [|v l IH]; intros [|v' l'] E Hl Hl'; try discriminate; [constructor|].
  injection E as E1 E2 E3 E4. constructor.
  - destruct (Hl v (or_introl eq_refl)) as [Hv Hp]. pose proof (Hl' v' (or_introl eq_refl)) as Hv'.
    split; [|exact Hp]. repeat split; auto using live_vars. unfold verb. congruence.
  - apply IH; auto; intros u Hu; [apply Hl|apply Hl']; now right.
Qed.

Lemma blk_two : forall b b', In b (flat w) -> In b' (flat w') -> eff b = true -> abs (w_heap w) b = abs (w_heap w') b' -> blk R2 Pd2 b b'.
Proof.
  intros b b' Hb Hb' He E. unfold abs in E. injection E as E1 E2 E3. constructor; [exact E1| |].
  - apply pairs_R; [exact E2| |].
    + intros v Hv. split; [eapply in_vars_of; eauto|]. left. unfold deps_of. apply in_flat_map. exists b. split; [|exact Hv]. apply filter_In. auto.
    + intros v Hv. eapply in_vars_of; eauto.
  - apply deps_R with (Pd := fun _ => True). apply pairs_R; [exact E3| |].
    + intros v Hv. split; [eapply in_vars_of; eauto|exact I].
    + intros v Hv. eapply in_vars_of; eauto.
Qed.

Lemma inert_of : forall w0 g0 b, GI w0 g0 -> In b (flat w0) -> eff b = false -> inert b.
Proof.
  intros w0 g0 b G0 Hb He. unfold eff in He. split; [destruct (b_outs b); congruence|].
  apply (proj1 (Forall_forall _ _) (gi_inert _ _ G0) b Hb). destruct (b_outs b); congruence.
Qed.

Lemma brels_two : forall l l', (forall b, In b l -> In b (flat w)) -> (forall b, In b l' -> In b (flat w')) ->
  filter has_results (map (abs (w_heap w)) l) = filter has_results (map (abs (w_heap w')) l') -> brels R2 Pd2 l l'.
Proof.
  induction l as [|b l IH]; intros l' Hl.
  - induction l' as [|b' l' IH']; intros Hl' E; [constructor|]. cbn in E. rewrite eff_abs in E. destruct (eff b') eqn:Eb; [discriminate|].
    apply br_right; [apply (inert_of w' g'); auto; apply Hl'; now left|]. apply IH'; auto. intros; apply Hl'; now right.
  - cbn [map filter]. rewrite eff_abs. destruct (eff b) eqn:Eb.
    2:{ intros Hl' E. apply br_left; [apply (inert_of w g); auto; apply Hl; now left|]. apply IH; auto. intros; apply Hl; now right. }
    induction l' as [|b' l' IH']; intros Hl' E; [discriminate|]. cbn [map filter] in E. rewrite eff_abs in E. destruct (eff b') eqn:Eb'.
    + inversion E as [[E1 E2 E3 E4]]. apply br_cons.
      * apply blk_two; [apply Hl; now left|apply Hl'; now left|exact Eb|]. unfold abs. congruence.
      * apply IH; [intros; apply Hl; now right|intros; apply Hl'; now right|exact E4].
    + apply br_right; [apply (inert_of w' g'); auto; apply Hl'; now left|]. apply IH'; auto. intros; apply Hl'; now right.
Qed.

Lemma flats_two : brels R2 Pd2 (flat w) (flat w').
Proof. apply brels_two; auto. rewrite (gi_abs _ _ G), (gi_abs _ _ G'). exact Hg. Qed.

Lemma hrel_two : hrel R2 Pd2 (w_heap w) (w_heap w').
Proof.
  intros v v' [L [L' [Ev Ei]]].
  destruct (wi_clean F [] w W v) as [A1 [A2 [A3 A4]]], (wi_clean F [] w' W' v') as [B1 [B2 [B3 B4]]].
  pose proof (wi_ctrl F [] w W v) as A5. pose proof (wi_ctrl F [] w' W' v') as B5.
  split; [|repeat split; congruence].
  intros [Hd|Hd].
  - unfold deps_of in Hd. apply in_flat_map in Hd as [b [Hb Hd]]. apply filter_In in Hb as [Hb He].
    assert (Hm : In (abs (w_heap w) b) (filter has_results g)).
    { apply filter_In. rewrite eff_abs. split; [|exact He]. rewrite <- (gi_abs _ _ G). now apply in_map. }
    rewrite Hg in Hm. apply filter_In in Hm as [Hm _]. rewrite <- (gi_abs _ _ G') in Hm. apply in_map_iff in Hm as [b' [E Hb']].
    unfold abs in E. injection E as E1 E2 E3.
    assert (Hp : In (pairof (w_heap w) v) (map (pairof (w_heap w')) (b_deps b'))) by (rewrite E2; now apply in_map).
    apply in_map_iff in Hp as [u [Eu Hu]]. unfold pairof in Eu. injection Eu as U1 U2 U3.
    assert (Hud : In u (deps_of (flat w'))) by (unfold deps_of; apply in_flat_map; eauto).
    assert (u = v').
    { apply (wi_uniq F [] w' W'); auto; [apply live_vars; unfold vars_of; apply in_or_app; now left|]. rewrite <- Ev. unfold verb. congruence. }
    subst u.
    change (saved (w_heap w) v = saved (w_heap w') v').
    rewrite (saved_rec F w v W), (saved_rec F w' v' W'); auto. left. unfold deps_of. apply in_flat_map. eauto.
  - assert (Hp : In (pairof (w_heap w) v) (map (pairof (w_heap w')) Js')) by (rewrite <- Js_pairs; now apply in_map).
    apply in_map_iff in Hp as [u [Eu Hu]]. unfold pairof in Eu. injection Eu as U1 U2 U3.
    assert (u = v').
    { apply (wi_uniq F [] w' W'); auto; [right; now apply Js_current'|]. rewrite <- Ev. unfold verb. congruence. }
    subst u. change (saved (w_heap w) v = saved (w_heap w') v').
    rewrite (saved_rec F w v W), (saved_rec F w' v' W'); auto; right; [now apply Js_current'|now apply Js_current].
Qed.

(** Functionals and controls. *)
Hypothesis Hm : forall v, In v (map fst (vers_of s js) ++ map fst (s_ctrls s)) -> (mentions g v <-> mentions g' v).

Lemma R2_intro : forall v v', live [] w v -> live [] w' v' -> verb (w_heap w v) = verb (w_heap w' v') ->
  In (verb (w_heap w v)) (map fst (vers_of s js) ++ map fst (s_ctrls s)) -> R2 v v'.
Proof.
  intros v v' L L' E Hin. repeat split; auto; intros K.
  - apply (vars_mentions w' g' v' W' G' L'). rewrite <- E. apply Hm; [exact Hin|]. now apply (vars_mentions w g v W G L).
  - apply (vars_mentions w g v W G L). apply Hm; [exact Hin|]. rewrite E. now apply (vars_mentions w' g' v' W' G' L').
Qed.

Definition orel2 (Q : nat -> nat -> Prop) (x y : option nat) : Prop :=
  match x, y with Some a, Some b => Q a b | None, None => True | _, _ => False end.
Lemma nth_F2 : forall (Q : nat -> nat -> Prop) l l' i, Forall2 Q l l' -> orel2 Q (nth_error l i) (nth_error l' i).
Proof. intros Q l l' i H. revert i. induction H; intros [|i]; cbn; auto. Qed.

Lemma Js_R : Forall2 (fun v v' => R2 v v' /\ Pd2 v) Js Js'.
Proof.
  pose proof Js_pairs as E. pose proof (pair_cur F [] no_override w s js Js W S0 HJ) as E0.
  assert (Hgen : forall l l', (forall v, In v l -> In v Js) -> (forall v, In v l' -> In v Js') ->
    map (pairof (w_heap w)) l = map (pairof (w_heap w')) l' -> Forall2 (fun v v' => R2 v v' /\ Pd2 v) l l').
  2:{ apply Hgen; auto. }
  induction l as [|v l IH]; intros [|v' l'] Hl Hl' El; try discriminate; [constructor|]. cbn [map] in El. inversion El as [[E1 E2 E3 E4]].
  constructor.
  - split; [|right; apply Hl; now left].
    apply R2_intro; [right; apply Js_current, Hl; now left|right; apply Js_current', Hl'; now left|unfold verb; congruence|].
    apply in_or_app. left. rewrite <- E0, map_map. cbn. apply (in_map (fun x => verb (w_heap w x))). apply Hl. now left.
  - apply IH; auto; intros; [apply Hl|apply Hl']; now right.
Qed.

Lemma ctrl_live : forall w0 v, In v (w_ctrls w0) -> live [] w0 v.
Proof. intros w0 v H. left. unfold refs. rewrite !in_app_iff. tauto. Qed.

Lemma ctrls_R : Forall2 R2 (w_ctrls w) (w_ctrls w').
Proof.
  pose proof (sm_ctrls F _ w s S0) as E. pose proof (sm_ctrls F _ w' s' S1) as E'.
  assert (Hgen : forall l l', (forall v, In v l -> In v (w_ctrls w)) -> (forall v, In v l' -> In v (w_ctrls w')) ->
    map (fun v => (verb (w_heap w v), bv_rec (w_heap w v))) l = map (fun v => (verb (w_heap w' v), bv_rec (w_heap w' v))) l' -> Forall2 R2 l l').
  2:{ apply Hgen; auto. congruence. }
  induction l as [|v l IH]; intros [|v' l'] Hl Hl' El; try discriminate; [constructor|]. cbn [map] in El. inversion El as [[E1 E2 E3 E4]].
  constructor.
  - apply R2_intro; [apply ctrl_live; apply Hl; now left|apply ctrl_live; apply Hl'; now left|unfold verb; congruence|].
    apply in_or_app. right. rewrite E, map_map. cbn. apply (in_map (fun x => verb (w_heap w x))). apply Hl. now left.
  - apply IH; auto; intros; [apply Hl|apply Hl']; now right.
Qed.

Lemma var_R : forall q, orel2 R2 (var_of (w, Js) q) (var_of (w', Js') q).
Proof.
  intros [i|i]; cbn; apply nth_F2; [|exact ctrls_R]. eapply Forall2_impl'; [|exact Js_R]. cbn. tauto.
Qed.
Lemma vars_R : forall qs, match vars_q (w, Js) qs, vars_q (w', Js') qs with Some l, Some l' => Forall2 R2 l l' | None, None => True | _, _ => False end.
Proof.
  induction qs as [|q qs IH]; cbn; [constructor|]. fold (vars_q (w, Js) qs) (vars_q (w', Js') qs). pose proof (var_R q) as Hq.
  unfold vars_q in *. destruct (var_of (w, Js) q), (var_of (w', Js') q); cbn in Hq; try contradiction; auto.
  cbn. destruct (all_some (map (var_of (w, Js)) qs)), (all_some (map (var_of (w', Js')) qs)); cbn; try contradiction; auto.
Qed.

Lemma resolve_R : forall q, match resolve (w, Js) q, resolve (w', Js') q with
  Some a, Some a' => arel R2 Pd2 a a' | None, None => True | _, _ => False end.
Proof.
  assert (Hjc : forall j cs f f', (forall J J' Cs Cs', R2 J J' -> Pd2 J -> Forall2 R2 Cs Cs' -> arel R2 Pd2 (f J Cs) (f' J' Cs')) ->
    match with_jc (w, Js) j cs f, with_jc (w', Js') j cs f' with Some a, Some a' => arel R2 Pd2 a a' | None, None => True | _, _ => False end).
  { intros j cs f f' H. unfold with_jc. pose proof (nth_F2 _ _ _ j Js_R) as Hj. pose proof (vars_R (map QC cs)) as Hc.
    cbn [var_of snd]. destruct (nth_error Js j), (nth_error Js' j); cbn in Hj; try contradiction; auto.
    destruct (vars_q (w, Js) (map QC cs)), (vars_q (w', Js') (map QC cs)); try contradiction; auto. destruct Hj. auto. }
  assert (Hq : forall q (f f' : nat -> api V), (forall J J', R2 J J' -> arel R2 Pd2 (f J) (f' J')) ->
    match option_map f (var_of (w, Js) q), option_map f' (var_of (w', Js') q) with Some a, Some a' => arel R2 Pd2 a a' | None, None => True | _, _ => False end).
  { intros q f f' H. pose proof (var_R q) as Hj. destruct (var_of (w, Js) q), (var_of (w', Js') q); cbn in Hj |- *; try contradiction; auto. }
  intros [j cs sc xs|j cs sc a|j cs sc d|j c a|j cs a|vs xs m|m|m|v x|v x|]; cbn [resolve].
  - apply Hjc. intros. now constructor.
  - apply Hjc. intros. now constructor.
  - apply Hjc. intros. now constructor.
  - apply (Hq (QF j)). intros. now constructor.
  - apply Hjc. intros. now constructor.
  - pose proof (vars_R vs) as Hv. destruct (vars_q (w, Js) vs), (vars_q (w', Js') vs); cbn; try contradiction; auto. now constructor.
  - constructor.
  - constructor.
  - apply Hq. intros. now constructor.
  - apply Hq. intros. now constructor.
  - constructor.
Qed.

Lemma observe_R : forall l, observe (w, Js) l = observe (w', Js') l.
Proof.
  intros l. unfold observe. cbn [fst].
  assert (H : match all_some (map (resolve (w, Js)) l), all_some (map (resolve (w', Js')) l) with
    Some a, Some a' => Forall2 (arel R2 Pd2) a a' | None, None => True | _, _ => False end).
  { induction l as [|q l IH]; cbn; [constructor|]. pose proof (resolve_R q) as Hq.
    destruct (resolve (w, Js) q), (resolve (w', Js') q); try contradiction; auto.
    destruct (all_some (map (resolve (w, Js)) l)), (all_some (map (resolve (w', Js')) l)); cbn; try contradiction; auto. }
  destruct (all_some (map (resolve (w, Js)) l)), (all_some (map (resolve (w', Js')) l)); try contradiction; [|reflexivity].
  cbn. f_equal. apply (outcomes_rel F R2 Pd2 R2_bij (flat w) (flat w') flats_two).
  - intros v v' [_ [_ [_ K]]]. exact K.
  - exact H.
  - exact hrel_two.
Qed.
End Two.

(** ** Programs *)
Lemma observe_equiv : forall ann ann' p p' js, consistent p -> consistent p' -> disciplined ann p = true -> disciplined ann' p' = true ->
  let s := spec_exec F no_override ann p in
  let s' := spec_exec F no_override ann' p' in
  Forall (fun j => j < length (s_objs s)) js -> Forall (fun j => j < length (s_objs s')) js ->
  vers_of s js = vers_of s' js -> s_ctrls s = s_ctrls s' ->
  filter has_results (spec_tape F ann p) = filter has_results (spec_tape F ann' p') ->
  (forall v, In v (map fst (vers_of s js) ++ map fst (s_ctrls s)) -> (mentions (spec_tape F ann p) v <-> mentions (spec_tape F ann' p') v)) ->
  forall l, observe (session ann p js) l = observe (session ann' p' js) l.
Proof.
  intros ann ann' p p' js Hc Hc' Hd Hd' s s' Hj Hj' Hv Hct Eg Hm l. unfold session.
  destruct (exec_sim F p no_override ann Hc Hd) as [W0 S0]. destruct (exec_sim F p' no_override ann' Hc' Hd') as [W0' S0'].
  pose proof (GI_program F ann p Hc Hd) as G0. pose proof (GI_program F ann' p' Hc' Hd') as G0'.
  fold s in S0. fold s' in S0'.
  assert (Hl : Forall (fun o => o < length (w_objs (exec F (world_new F ann) p))) js) by (rewrite (sm_len F _ _ s S0); exact Hj).
  assert (Hl' : Forall (fun o => o < length (w_objs (exec F (world_new F ann') p'))) js) by (rewrite (sm_len F _ _ s' S0'); exact Hj').
  pose proof (get_bvs_spec F [] js _ W0 Hl) as B. pose proof (get_bvs_spec F [] js _ W0' Hl') as B'.
  destruct (get_bvs (exec F (world_new F ann) p) js) as [w Js]. destruct (get_bvs (exec F (world_new F ann') p') js) as [w' Js'].
  destruct B as [W [E C]], B' as [W' [E' C']].
  refine (observe_R w w' s s' (spec_tape F ann p) (spec_tape F ann' p') js Js Js' W W' _ _ _ _ Eg C C' Hv Hct Hm l).
  - exact (Sim_evolves F [] _ _ _ _ W0 W E S0).
  - exact (Sim_evolves F [] _ _ _ _ W0' W' E' S0').
  - exact (GI_same F _ _ _ W0 (keeps_evolves _ _ E) (ev_flat _ _ E) G0).
  - exact (GI_same F _ _ _ W0' (keeps_evolves _ _ E') (ev_flat _ _ E') G0').
Qed.
End IsoRecord.
Arguments query V : clear implicits.
