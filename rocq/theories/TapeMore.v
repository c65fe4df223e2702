(** Tags, snapshots and refused optimisations: C14, C21, C25. *)
From Coq Require Import List Arith ZArith Bool Lia.
From Verif Require Import Base Model BaseFacts Graph Record Spec History Session Sweep SpecGraph Marks Surgery Optimize OptimizeRun TapeFacts.
Import ListNotations.

Section Tags.
Context {V : Type}.
Implicit Types (t : tape V) (b : block V) (bs : list (block V)).

Definition tag_step (tags : list nat) b := match b_tag b with Some g => if mem g tags then tags else tags ++ [g] | None => tags end.
Definition tagged bs (g : nat) := exists b, In b bs /\ b_tag b = Some g.

Lemma tags_in : forall bs tags g, In g (fold_left tag_step bs tags) <-> In g tags \/ tagged bs g.
Proof.
  induction bs as [|b r IH]; intros tags g; cbn [fold_left].
  - split; [now left|]. intros [H|[b [[] _]]]. exact H.
  - rewrite IH. unfold tag_step. split.
    + intros [H|[b' [H1 H2]]]; [|right; exists b'; split; [now right|exact H2]].
      destruct (b_tag b) as [g'|] eqn:E; [|now left]. destruct (mem g' tags); [now left|].
      apply in_app_iff in H as [H|[<-|[]]]; [now left|]. right. exists b. split; [now left|exact E].
    + intros [H|[b' [[<-|H1] H2]]].
      * left. destruct (b_tag b) as [g'|]; [|exact H]. destruct (mem g' tags); [exact H|apply in_or_app; now left].
      * left. rewrite H2. destruct (mem g tags) eqn:E; [now apply mem_In|apply in_or_app; right; now left].
      * right. exists b'. auto.
Qed.
Lemma tags_nodup : forall bs tags, NoDup tags -> NoDup (fold_left tag_step bs tags).
Proof.
  induction bs as [|b r IH]; intros tags H; [exact H|]. cbn. apply IH. unfold tag_step.
  destruct (b_tag b) as [g|]; [|exact H]. destruct (mem g tags) eqn:E; [exact H|]. apply mem_false in E.
  apply NoDup_rev in H. rewrite <- (rev_involutive (tags ++ [g])). apply NoDup_rev. rewrite rev_app_distr. cbn. constructor; [|exact H].
  intros K. apply E. now apply in_rev.
Qed.
(** A listed tag is preceded exactly by the tags met before its first block. *)
Lemma tags_order : forall bs tags l1 g l2, fold_left tag_step bs tags = l1 ++ g :: l2 -> ~ In g tags -> NoDup (l1 ++ g :: l2) ->
  exists bs1 b bs2, bs = bs1 ++ b :: bs2 /\ b_tag b = Some g /\ ~ tagged bs1 g /\ (forall g', In g' l1 <-> In g' tags \/ tagged bs1 g').
Proof.
  induction bs as [|b r IH]; intros tags l1 g l2 E Hg Hn.
  - cbn in E. subst tags. exfalso. apply Hg. apply in_or_app. right. now left.
  - cbn [fold_left] in E.
    destruct (in_dec Nat.eq_dec g (tag_step tags b)) as [Hi|Hi].
    + assert (Hb : b_tag b = Some g /\ tag_step tags b = tags ++ [g]).
      { unfold tag_step in *. destruct (b_tag b) as [g'|]; [|contradiction]. destruct (mem g' tags); [contradiction|].
        apply in_app_iff in Hi as [Hi|[<-|[]]]; [contradiction|auto]. }
      destruct Hb as [Hb Hs]. exists [], b, r. split; [reflexivity|]. split; [exact Hb|]. split; [intros [x [[] _]]|].
      assert (P : exists more, fold_left tag_step r (tag_step tags b) = tag_step tags b ++ more).
      { clear. generalize (tag_step tags b). induction r as [|c r IH]; intros l; [exists []; now rewrite app_nil_r|].
        cbn. unfold tag_step at 2. destruct (b_tag c) as [g|]; [destruct (mem g l)|]; [apply IH| |apply IH].
        destruct (IH (l ++ [g])) as [m ->]. exists (g :: m). now rewrite <- app_assoc. }
      destruct P as [more P]. rewrite P, Hs, <- app_assoc in E. cbn in E.
      assert (l1 = tags).
      { clear - E Hg Hn. revert l1 E Hn. induction tags as [|x tags IH]; intros [|y l1] E Hn; cbn in *.
        - reflexivity.
        - injection E as <- _. exfalso. inversion Hn as [|? ? K _]; subst. apply K. apply in_or_app. right. now left.
        - injection E as <- _. exfalso. apply Hg. now left.
        - injection E as <- E. f_equal. apply IH; [tauto|exact E|now inversion Hn]. }
      subst l1. intros g'. split; [now left|]. intros [K|[x [[] _]]]. exact K.
    + destruct (IH _ _ _ _ E Hi Hn) as [bs1 [b0 [bs2 [A [B [C D]]]]]].
      exists (b :: bs1), b0, bs2. split; [now rewrite A|]. split; [exact B|].
      assert (T : forall g', In g' (tag_step tags b) <-> In g' tags \/ b_tag b = Some g').
      { intros g'. pose proof (tags_in [b] tags g') as K. cbn [fold_left] in K. rewrite K. split; intros [H|H]; auto.
        - right. destruct H as [x [[<-|[]] H]]. exact H.
        - right. exists b. split; [now left|exact H]. }
      assert (T' : forall g', tagged (b :: bs1) g' <-> b_tag b = Some g' \/ tagged bs1 g').
      { intros g'. split.
        - intros [x [[<-|Hx] Ht]]; [now left|right; exists x; auto].
        - intros [H|[x [Hx Ht]]]; [exists b; split; [now left|exact H]|exists x; split; [now right|exact Ht]]. }
      split.
      * rewrite T'. intros [K|K]; [|contradiction]. apply Hi. apply T. now right.
      * intros g'. rewrite D, T, T'. tauto.
Qed.

Lemma tags_listed : forall t, NoDup (get_tags t) /\ (forall g, In g (get_tags t) <-> exists b, In b (t_flat t) /\ b_tag b = Some g).
Proof.
  intros t. split; [apply (tags_nodup (t_flat t) []); constructor|]. intros g. pose proof (tags_in (t_flat t) [] g) as K.
  change (fold_left tag_step (t_flat t) []) with (get_tags t) in K. rewrite K. unfold tagged. cbn. tauto.
Qed.
Lemma tags_first : forall t l1 l2 g, get_tags t = l1 ++ g :: l2 ->
  exists bs1 b bs2, t_flat t = bs1 ++ b :: bs2 /\ b_tag b = Some g /\ ~ (exists b', In b' bs1 /\ b_tag b' = Some g) /\
    (forall g', In g' l1 <-> exists b', In b' bs1 /\ b_tag b' = Some g').
Proof.
  intros t l1 l2 g E. pose proof (proj1 (tags_listed t)) as N. rewrite E in N.
  destruct (tags_order (t_flat t) [] l1 g l2 E (fun x => x) N) as [bs1 [b [bs2 [A [B [C D]]]]]]. exists bs1, b, bs2.
  split; [exact A|]. split; [exact B|]. split; [exact C|]. intros g'. rewrite D. unfold tagged. cbn. tauto.
Qed.
Lemma tag_eqb_iff : forall b g, tag_eqb (b_tag b) (Some g) = true <-> b_tag b = Some g.
Proof. intros b g. unfold tag_eqb. destruct (b_tag b); [rewrite Nat.eqb_eq|]; split; congruence. Qed.
Lemma blocks_of_tag : forall t g, get_blocks None t = t_flat t /\
  (forall b, In b (get_blocks (Some g) t) <-> In b (t_flat t) /\ b_tag b = Some g) /\ exists sel, get_blocks (Some g) t = filter sel (t_flat t).
Proof.
  intros t g. split; [reflexivity|]. split; [|eexists; reflexivity]. intros b. cbn [get_blocks]. now rewrite filter_In, tag_eqb_iff.
Qed.
Lemma tags_partition : forall t b, In b (t_flat t) -> b_tag b <> None ->
  exists g, In g (get_tags t) /\ In b (get_blocks (Some g) t) /\ forall g', In g' (get_tags t) -> In b (get_blocks (Some g') t) -> g' = g.
Proof.
  intros t b Hb Hn. destruct (b_tag b) as [g|] eqn:E; [|congruence]. exists g.
  split; [apply tags_listed; eauto|]. split; [now apply blocks_of_tag|]. intros g' _ H. apply blocks_of_tag in H as [_ H]. congruence.
Qed.
End Tags.

Section Snap.
Context {V : Type} (F : fops V).
Implicit Types (t : tape V) (h : heap V) (bs : list (block V)).

Lemma restore_spec : forall (vs : list nat) h h' v,
  bv_out (restore_block_vars (map (fun u => (u, (bv_ckpt (h u), bv_raw (h u)))) vs) h' v) = bv_out (h' v) /\
  bv_ckpt (restore_block_vars (map (fun u => (u, (bv_ckpt (h u), bv_raw (h u)))) vs) h' v) = (if mem v vs then bv_ckpt (h v) else bv_ckpt (h' v)) /\
  set_ckpt None false (restore_block_vars (map (fun u => (u, (bv_ckpt (h u), bv_raw (h u)))) vs) h' v) = set_ckpt None false (h' v).
Proof.
  intros vs h h' v. revert h'. induction vs as [|u vs IH]; intros h'; [auto|].
  unfold restore_block_vars in *. cbn [map fold_left fst snd].
  destruct (IH (upd h' u (set_ckpt (bv_ckpt (h u)) (bv_raw (h u))))) as [A [B C]]. rewrite A, B, C. clear A B C IH.
  unfold upd. change (mem v (u :: vs)) with (Nat.eqb v u || mem v vs). destruct (Nat.eqb_spec v u) as [->|Hn].
  - cbn [orb]. destruct (mem u vs); auto.
  - cbn [orb]. auto.
Qed.

Definition within (ctrls : list nat) (a : api V) : Prop := match a with ACall rf _ => incl (rf_ctrls rf) ctrls | _ => True end.
Lemma call_touches : forall bs rf vals h v, no_ctrl h -> ~ In v (outs_of bs) -> ~ In v (rf_ctrls rf) ->
  saved (fst (rf_call F bs rf vals h)) v = saved h v.
Proof.
  intros bs rf vals h v Nc Ho Hc. destruct (Nat.eq_dec (length vals) (length (rf_ctrls rf))) as [Hl|Hl].
  - destruct (rf_call_spec F bs rf vals h Nc Hl) as [_ [B _]]. rewrite B, geval_frame.
    + unfold start_env. now rewrite supplied_none.
    + intros K. apply Ho. eapply computed_outs; eauto.
  - now rewrite rf_call_mismatch.
Qed.
Lemma hist_touches : forall bs ctrls l h v, no_ctrl h -> Forall (within ctrls) l -> ~ In v (outs_of bs) -> ~ In v ctrls ->
  saved (run_hist F bs h l) v = saved h v.
Proof.
  intros bs ctrls l. induction l as [|a l IH]; intros h v Nc Hl Ho Hc; [reflexivity|]. inversion Hl as [|? ? Ha Hl']; subst.
  unfold run_hist. cbn [fold_left]. fold (run_hist F bs (fst (api_run F bs h a)) l). rewrite IH; auto; [|now apply api_no_ctrl].
  destruct (is_call a) eqn:Ei.
  - destruct a; try discriminate Ei. cbn [api_run]. pose proof (call_touches bs rf vals h v Nc Ho) as C.
    destruct (rf_call F bs rf vals h). apply C. intros K. apply Hc. now apply Ha.
  - pose proof (hist_saved F bs [a] h Nc) as Q. cbn [forallb] in Q. rewrite Ei in Q. exact (Q eq_refl v).
Qed.

Lemma snapshot_saved : forall t ctrls l h, no_ctrl h -> Forall (within ctrls) l ->
  let h' := run_hist F (t_flat t) h l in
  let h'' := restore_block_vars (checkpoint_block_vars ctrls None t h) h' in
  no_ctrl h'' /\ (forall v, saved h'' v = saved h v).
Proof.
  intros t ctrls l h Nc Hl h' h''. destruct (hist_frame F (t_flat t) l h Nc) as [Nc' Fr]. fold h' in Nc', Fr. split.
  - intros v. destruct (restore_spec (snapshot_vars ctrls None t) h h' v) as [_ [_ C]].
    exact (eq_trans (f_equal (@bv_ctrl V) C) (Nc' v)).
  - intros v. destruct (restore_spec (snapshot_vars ctrls None t) h h' v) as [A [B _]].
    assert (Eo : bv_out (h' v) = bv_out (h v)) by (pose proof (Fr v) as K; unfold frame in K; congruence).
    unfold h'', saved. unfold checkpoint_block_vars. rewrite A, B, Eo. destruct (mem v (snapshot_vars ctrls None t)) eqn:Em; [reflexivity|].
    apply mem_false in Em. unfold snapshot_vars in Em. cbn [get_blocks] in Em. rewrite in_app_iff in Em.
    pose proof (hist_touches (t_flat t) ctrls l h v Nc Hl) as K. unfold saved in K. fold h' in K. rewrite Eo in K. apply K; unfold outs_of; tauto.
Qed.
(** Values of tagged blocks only. *)
Lemma snapshot_tag_saved : forall t ctrls tag l h, no_ctrl h -> 
  let h' := run_hist F (t_flat t) h l in
  let h'' := restore_block_vars (checkpoint_block_vars ctrls tag t h) h' in
  forall v, In v (flat_map (@b_outs V) (get_blocks tag t)) \/ In v ctrls -> saved h'' v = saved h v.
Proof.
  intros t ctrls tag l h Nc h' h'' v Hv. destruct (hist_frame F (t_flat t) l h Nc) as [_ Fr]. fold h' in Fr.
  destruct (restore_spec (snapshot_vars ctrls tag t) h h' v) as [A [B _]].
  assert (Eo : bv_out (h' v) = bv_out (h v)) by (pose proof (Fr v) as K; unfold frame in K; congruence).
  unfold h'', saved, checkpoint_block_vars. rewrite A, B, Eo. 
  rewrite (proj2 (mem_In v (snapshot_vars ctrls tag t))); [reflexivity|]. unfold snapshot_vars. apply in_or_app. tauto.
Qed.

Lemma call_saved' : forall bs rf m h1 h2, no_ctrl h1 -> no_ctrl h2 -> (forall v, saved h1 v = saved h2 v) ->
  snd (rf_call F bs rf m h1) = snd (rf_call F bs rf m h2).
Proof.
  intros bs rf m h1 h2 N1 N2 H. destruct (Nat.eq_dec (length m) (length (rf_ctrls rf))) as [Hl|Hl].
  2:{ now rewrite !rf_call_mismatch. }
  destruct (rf_call_spec F bs rf m h1 N1 Hl) as [A1 _]. destruct (rf_call_spec F bs rf m h2 N2 Hl) as [A2 _].
  rewrite A1, A2.
  destruct (geval_ext F (fun v => mem v (rf_ctrls rf)) (fun v => mem v (rf_ctrls rf)) bs (start_env h1 (rf_ctrls rf) m) (start_env h2 (rf_ctrls rf) m)) as [C B].
  { reflexivity. } { intros v. unfold start_env. now rewrite H. }
  rewrite C. destruct (snd (geval F _ bs (start_env h2 (rf_ctrls rf) m))); [reflexivity|]. now rewrite B.
Qed.

Fixpoint sweeps_ok bs h (l : list (api V)) : bool :=
  match l with [] => true | a :: r => (is_call a || api_ok F bs h a) && sweeps_ok bs (fst (api_run F bs h a)) r end.
Lemma sweeps_clean : forall bs l h, no_ctrl h -> no_mark h -> sweeps_ok bs h l = true -> no_mark (run_hist F bs h l).
Proof.
  intros bs l. induction l as [|a l IH]; intros h Nc Nm H; [exact Nm|]. cbn [sweeps_ok] in H. apply andb_true_iff in H as [H H'].
  unfold run_hist. cbn [fold_left]. apply IH; auto; [now apply api_no_ctrl|]. apply api_clean; auto. apply orb_true_iff in H. tauto.
Qed.

Lemma snapshot_derivative : forall t ctrls l h rf a, topo (t_flat t) -> no_ctrl h -> no_mark h -> Forall (within ctrls) l ->
  sweeps_ok (t_flat t) h l = true -> on_tape (t_flat t) (rf_ctrls rf) ->
  let h'' := restore_block_vars (checkpoint_block_vars ctrls None t h) (run_hist F (t_flat t) h l) in
  snd (rf_derivative F (t_flat t) rf a h'') = snd (rf_derivative F (t_flat t) rf a h).
Proof.
  intros t ctrls l h rf a Ht Nc Nm Hl Hs Ho h''. destruct (snapshot_saved t ctrls l h Nc Hl) as [N2 E]. fold h'' in N2, E.
  unfold rf_derivative. destruct (rf_ctrls rf) as [|c cs] eqn:Ec; [reflexivity|]. rewrite <- Ec in *.
  apply grad_same_marks; auto.
  - intros v. rewrite Nm. destruct (restore_spec (snapshot_vars ctrls None t) h (run_hist F (t_flat t) h l) v) as [_ [_ C]].
    exact (eq_trans (f_equal (@bv_mark V) C) (sweeps_clean (t_flat t) l h Nc Nm Hs v)).
Qed.
(** With failed sweeps in between: if the derivative returns both times it returns the same. *)
Lemma snapshot_derivative_any : forall t ctrls l h rf a g1 g2, topo (t_flat t) -> no_ctrl h -> Forall (within ctrls) l ->
  on_tape (t_flat t) (rf_ctrls rf) ->
  let h'' := restore_block_vars (checkpoint_block_vars ctrls None t h) (run_hist F (t_flat t) h l) in
  snd (rf_derivative F (t_flat t) rf a h'') = Ok g1 -> snd (rf_derivative F (t_flat t) rf a h) = Ok g2 -> g1 = g2.
Proof.
  intros t ctrls l h rf a g1 g2 Ht Nc Hl Ho h'' G1 G2. destruct (snapshot_saved t ctrls l h Nc Hl) as [N2 E]. fold h'' in N2, E.
  assert (Hne : rf_ctrls rf <> []) by (intros K; unfold rf_derivative in G1; rewrite K in G1; discriminate).
  rewrite derivative_grad in G1, G2 by exact Hne.
  eapply (grad_repeat F (t_flat t) (rf_J rf) (rf_ctrls rf)); try exact G1; try exact G2; auto; now apply on_tape_fresh.
Qed.
End Snap.

Section Refuse.
Context {V : Type}.
Implicit Types (t : tape V).

(** Some operation a control influences produces a control. *)
Definition control_from_control (bs : list (block V)) (ctrls : list nat) : Prop :=
  exists b c d o, In b bs /\ In c ctrls /\ influences bs c d /\ In d (b_deps b) /\ In o (b_outs b) /\ In o ctrls.
Lemma clash_iff : forall bs ctrls, topo bs -> (clash bs ctrls <-> control_from_control bs ctrls).
Proof.
  intros bs ctrls Ht. split.
  - intros [b [o [Hb [Hd [Ho Hc]]]]]. apply (depends_iff bs ctrls b Ht) in Hd as [c [d [A [B C]]]]. exists b, c, d, o. repeat (split; [assumption|]). assumption.
  - intros K. destruct K as (x & c & d & o & Hb & Hc & Hi & Hd & Ho & Hoc). exists x, o. split; [exact Hb|]. split; [|auto]. apply (depends_iff bs ctrls x Ht). eauto.
Qed.
Lemma refused_unchanged : forall ctrls t t' e, optimize_for_controls ctrls t = (t', Some e) -> t' = t.
Proof. intros ctrls t t' e. unfold optimize_for_controls. destruct (opt_ctrl_steps _ _); congruence. Qed.
Lemma optimize_unchanged : forall ctrls funs t t' e, optimize ctrls funs t = (t', Some e) -> t' = t.
Proof.
  intros ctrls funs t t' e. unfold optimize. destruct (optimize_for_controls ctrls t) as [t1 [x|]] eqn:E; [|discriminate].
  intros H. injection H as <- ->. exact (refused_unchanged _ _ _ _ E).
Qed.
Lemma refused_iff : forall ctrls t, coherent t -> wf_tape (t_flat t) ->
  (snd (optimize_for_controls ctrls t) = Some ERuntime <-> control_from_control (t_flat t) ctrls) /\
  (snd (optimize_for_controls ctrls t) = None <-> ~ control_from_control (t_flat t) ctrls).
Proof.
  intros ctrls t Hc [Ht Hn]. apply coherent_in_step in Hc. unfold in_step in Hc. pose proof (clash_iff (t_flat t) ctrls Ht) as K. rewrite Hc in *.
  unfold optimize_for_controls. destruct (opt_ctrl_steps_spec (t_steps t) ctrls Ht Hn) as [[A [out [E _]]]|[A E]]; rewrite E; cbn [snd]; rewrite <- K.
  - split; split; try discriminate; auto. intros; contradiction.
  - split; split; try discriminate; auto. intros; contradiction.
Qed.
End Refuse.

Section Tape.
Context {V : Type} (F : fops V).
Implicit Types (t : tape V).
Lemma tops_order : forall t (l : list (top V)), t_flat t = concat (map (@ts_blocks V) (t_steps t)) ->
  t_flat (run_tops t l) = concat (map (@ts_blocks V) (t_steps (run_tops t l))) /\
  t_flat (run_tops t l) = t_flat t ++ flat_map (fun o => match o with TAdd b => [b] | _ => [] end) l.
Proof. intros t l H. destruct (run_tops_spec l t) as [_ [A B]]. split; [exact (B H)|exact A]. Qed.

Lemma optimize_keeps : forall ctrls J t t', t_flat t = concat (map (@ts_blocks V) (t_steps t)) -> wf_tape (t_flat t) -> optimize ctrls [J] t = (t', None) ->
  exists keep : block V -> bool,
    (forall b, In b (t_flat t) -> (keep b = true <->
       (exists c d, In c ctrls /\ influences (t_flat t) c d /\ In d (b_deps b)) /\ (exists o, In o (b_outs b) /\ influences (t_flat t) o J))) /\
    t_flat t' = filter keep (t_flat t) /\
    map (@ts_blocks V) (t_steps t') = map (filter keep) (map (@ts_blocks V) (t_steps t)).
Proof.
  intros ctrls J t t' Hc Hw H. exists (kept (t_flat t) ctrls J). split; [intros b Hb; apply kept_iff; [apply Hw|exact Hb]|].
  apply coherent_in_step in Hc. destruct (optimize_spec ctrls J t Hc Hw) as [[_ [t2 [E [_ [A B]]]]]|[_ E]]; rewrite E in H; [|discriminate H].
  injection H as <-. split; [exact A|]. rewrite B, map_map. reflexivity.
Qed.
Lemma optimize_keeps_state : forall ctrls J (t t' : tape V), t_flat t = concat (map (@ts_blocks V) (t_steps t)) -> wf_tape (t_flat t) -> optimize ctrls [J] t = (t', None) ->
  exists keep : nat -> bool, (forall v, keep v = true <-> influences (t_flat t') v J) /\ map (@ts_state V) (t_steps t') = map (filter keep) (map (@ts_state V) (t_steps t)).
Proof.
  intros ctrls J t t' Hc Hw H. apply coherent_in_step in Hc. destruct (optimize_state ctrls J t t' Hc Hw H) as [keep [A B]]. exists keep. split; [exact B|]. now rewrite map_map.
Qed.
Lemma optimize_same_results : forall (rf : rfun V) t t' (h : heap V) (l : list (api V)),
  t_flat t = concat (map (@ts_blocks V) (t_steps t)) -> wf_tape (t_flat t) -> (forall b, In b (t_flat t) -> gives_value F b) ->
  no_ctrl h -> no_mark h -> at_rest F (t_flat t) (rf_ctrls rf) (rf_J rf) h -> rf_optimize rf t = (t', None) ->
  fresh_ctrls (t_flat t') (rf_J rf) (rf_ctrls rf) h -> Forall (through rf) l -> all_ok F (t_flat t) h l = true ->
  outcomes F (t_flat t') h l = outcomes F (t_flat t) h l.
Proof.
  intros rf t t' h l Hc Hw Hg Nc Nm Hr Ho Hf Hl Ha. unfold rf_optimize in Ho. apply coherent_in_step in Hc.
  destruct (optimize_spec (rf_ctrls rf) (rf_J rf) t Hc Hw) as [[_ [t2 [E [_ [A B]]]]]|[_ E]]; rewrite E in Ho; [|discriminate Ho].
  injection Ho as <-. rewrite A in *. apply optimized_session; auto.
Qed.
End Tape.

Section Rec.
Context {V : Type} (F : fops V).
Lemma recorded_hist_at_rest : forall ann p j ctrls (l : list (api V)),
  consistent p -> disciplined ann p = true -> j < length (w_objs (exec F (world_new F ann) p)) ->
  let w := fst (recorded F ann p j) in
  let bs := t_flat (w_tape w) in
  Forall (tame bs ctrls) l -> calls_ok F bs (w_heap w) l = true ->
  at_rest F bs ctrls (snd (recorded F ann p j)) (run_hist F bs (w_heap w) l).
Proof.
  intros ann p j ctrls l Hc Hd Hj w bs Hl Ho. destruct (recorded_clean F ann p j Hc Hd Hj) as [A [B [C _]]].
  apply hist_at_rest; auto. exact (recorded_at_rest F ann p j Hc Hd Hj ctrls).
Qed.
End Rec.
