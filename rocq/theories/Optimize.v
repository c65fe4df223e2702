(** Optimising a tape: what is kept, and why values and derivatives do not change (C13, C14). *)
From Coq Require Import List Arith Bool Lia.
From Verif Require Import Base Model BaseFacts Graph Record History Sweep SpecGraph Marks Surgery.
Import ListNotations.

Section Optimize.
Context {V : Type} (F : fops V).
Implicit Types (h : heap V) (bs : list (block V)) (b : block V).

(** ** Which blocks are kept *)
Definition depends bs (ctrls : list nat) b : bool := existsb (fun d => mem d (find_relevant bs ctrls)) (b_deps b).
Definition keepc bs ctrls := filter (depends bs ctrls) bs.

Lemma add_nodes_spec : forall outs nodes,
  (NoDup outs /\ (forall o, In o outs -> ~ In o nodes) /\ exists n, add_nodes outs nodes = Ok n /\ forall v, In v n <-> In v outs \/ In v nodes) \/
  (add_nodes outs nodes = Err ERuntime /\ (~ NoDup outs \/ exists o, In o outs /\ In o nodes)).
Proof.
  induction outs as [|o r IH]; intros nodes.
  - left. split; [constructor|]. split; [easy|]. exists nodes. split; [reflexivity|]. intros v. cbn. tauto.
  - cbn [add_nodes]. destruct (mem o nodes) eqn:E.
    + right. split; [reflexivity|]. right. exists o. split; [now left|]. now apply mem_In.
    + apply mem_false in E. destruct (IH (o :: nodes)) as [[A [B [n [C D]]]]|[A B]].
      * left. split; [|split].
        -- constructor; [|exact A]. intros K. apply (B o K). now left.
        -- intros v [<-|Hv]; [exact E|]. intros K. apply (B v Hv). now right.
        -- exists n. split; [exact C|]. intros v. rewrite D. cbn. tauto.
      * right. split; [exact A|]. destruct B as [B|[v [B1 [<-|B2]]]].
        -- left. intros K. apply B. now inversion K.
        -- left. intros K. inversion K. contradiction.
        -- right. exists v. split; [now right|exact B2].
Qed.

(** The nodes after the loop are the variables a control influences. *)
Lemma find_relevant_ext : forall bs c c', (forall v, In v c <-> In v c') -> forall v, In v (find_relevant bs c) <-> In v (find_relevant bs c').
Proof.
  induction bs as [|b r IH]; intros c c' H v; [apply H|]. cbn. apply IH. intros u.
  assert (E : existsb (fun d => mem d c) (b_deps b) = existsb (fun d => mem d c') (b_deps b)).
  { apply eq_true_iff_eq. rewrite !existsb_exists. split; intros [d [Hd Hm]]; exists d; (split; [exact Hd|]); apply mem_In; apply mem_In in Hm; apply H; exact Hm. }
  rewrite E. destruct (existsb (fun d => mem d c') (b_deps b)); [|apply H]. rewrite !in_app_iff. now rewrite H.
Qed.

Lemma dep_now : forall bs1 b bs2 c d, topo (b :: bs2) -> In d (b_deps b) -> (In d (find_relevant (bs1 ++ b :: bs2) c) <-> In d (find_relevant bs1 c)).
Proof.
  intros bs1 b bs2 c d [Ht _] Hd. rewrite find_relevant_app. split; intros H.
  - apply find_relevant_cases in H as [H|H]; [exact H|]. exfalso. exact (Ht d Hd H).
  - now apply find_relevant_incl.
Qed.



Lemma topo_app_l : forall bs1 bs2, topo (bs1 ++ bs2) -> topo bs1.
Proof.
  induction bs1 as [|b r IH]; intros bs2 H; [exact I|]. destruct H as [H1 H2]. split; [|exact (IH bs2 H2)].
  intros d Hd K. apply (H1 d Hd). cbn in *. unfold outs_of in *. rewrite flat_map_app, !in_app_iff in *. tauto.
Qed.
Lemma topo_app_r : forall bs1 bs2, topo (bs1 ++ bs2) -> topo bs2.
Proof. induction bs1 as [|b r IH]; intros bs2 H; [exact H|]. apply IH. apply H. Qed.
Lemma outs_of_app : forall bs1 bs2, outs_of (bs1 ++ bs2) = outs_of bs1 ++ outs_of bs2.
Proof. intros. apply flat_map_app. Qed.
Lemma nodup_app_l : forall (l m : list nat), NoDup (l ++ m) -> NoDup l.
Proof. induction l as [|x l IH]; intros m H; [constructor|]. inversion H; subst. constructor; [|eauto]. intros K. apply H2. apply in_app_iff. now left. Qed.
Lemma nodup_app_r : forall (l m : list nat), NoDup (l ++ m) -> NoDup m.
Proof. induction l as [|x l IH]; intros m H; [exact H|]. inversion H. auto. Qed.
Lemma nodup_app_disj : forall (l m : list nat) x, NoDup (l ++ m) -> In x l -> ~ In x m.
Proof.
  induction l as [|y l IH]; intros m x Hn Hx K; [exact Hx|]. cbn in Hn. inversion Hn as [|? ? Hy Hn']; subst.
  destruct Hx as [->|Hx]; [apply Hy; apply in_app_iff; now right|]. exact (IH m x Hn' Hx K).
Qed.

Lemma mem_ext : forall l l' v, (In v l <-> In v l') -> mem v l = mem v l'.
Proof. intros. apply eq_true_iff_eq. now rewrite !mem_In. Qed.
Lemma existsb_ext_in : forall {A} (f g : A -> bool) l, (forall x, In x l -> f x = g x) -> existsb f l = existsb g l.
Proof. intros A f g l H. induction l as [|x l IH]; [reflexivity|]. cbn. rewrite (H x) by now left. rewrite IH; [reflexivity|]. intros; apply H; now right. Qed.

(** Dependence is decided by the operations up to the block. *)
Lemma depends_prefix : forall bs1 bs2 c b, topo (bs1 ++ bs2) -> In b bs1 -> depends (bs1 ++ bs2) c b = depends bs1 c b.
Proof.
  intros bs1 bs2 c b Ht Hb. unfold depends. apply existsb_ext_in. intros d Hd. apply mem_ext. rewrite find_relevant_app. split; intros H.
  - apply find_relevant_cases in H as [H|H]; [exact H|]. exfalso. apply in_split in Hb as [l1 [l2 ->]].
    rewrite <- app_assoc in Ht. apply topo_app_r in Ht. destruct Ht as [Ht _]. apply (Ht d Hd).
    cbn. unfold outs_of. rewrite flat_map_app, !in_app_iff. right. right. exact H.
  - now apply find_relevant_incl.
Qed.
Lemma depends_suffix : forall bs1 bs2 c c' b, (forall v, In v c' <-> In v (find_relevant bs1 c)) -> depends (bs1 ++ bs2) c b = depends bs2 c' b.
Proof.
  intros bs1 bs2 c c' b H. unfold depends. apply existsb_ext_in. intros d _. apply mem_ext. rewrite find_relevant_app.
  apply find_relevant_ext. intros v. symmetry. apply H.
Qed.

(** A control is computed from a control. *)
Definition clash bs (ctrls : list nat) : Prop := exists b o, In b bs /\ depends bs ctrls b = true /\ In o (b_outs b) /\ In o ctrls.

Lemma opt_ctrl_blocks_spec : forall bs nodes, topo bs -> NoDup (outs_of bs) ->
  (~ clash bs nodes /\ exists n, opt_ctrl_blocks bs nodes = Ok (n, keepc bs nodes) /\ forall v, In v n <-> In v (find_relevant bs nodes)) \/
  (clash bs nodes /\ opt_ctrl_blocks bs nodes = Err ERuntime).
Proof.
  induction bs as [|b r IH]; intros nodes Ht Hn.
  - left. split; [intros [b [o [[] _]]]|]. exists nodes. split; [reflexivity|]. intros v. reflexivity.
  - assert (Hd : depends (b :: r) nodes b = existsb (fun d => mem d nodes) (b_deps b)).
    { change (b :: r) with ([b] ++ r). rewrite depends_prefix by (exact Ht || now left). unfold depends. apply existsb_ext_in. intros d Hd.
      apply mem_ext. exact (dep_now [] b [] nodes d (topo_app_l [b] r Ht) Hd). }
    assert (Hn' : NoDup (b_outs b ++ outs_of r)) by exact Hn.
    destruct Ht as [Ht1 Ht2]. cbn [opt_ctrl_blocks]. unfold keepc. cbn [filter]. rewrite Hd.
    destruct (existsb (fun d => mem d nodes) (b_deps b)) eqn:Ex.
    + destruct (add_nodes_spec (b_outs b) nodes) as [[A [B [n1 [C D]]]]|[A B]].
      * rewrite C.
        assert (S1 : forall v, In v n1 <-> In v (find_relevant [b] nodes)).
        { intros v. rewrite D. cbn. rewrite Ex, in_app_iff. reflexivity. }
        assert (S2 : forall b', depends (b :: r) nodes b' = depends r n1 b') by (intros b'; exact (depends_suffix [b] r nodes n1 b' S1)).
        destruct (IH n1 Ht2 (nodup_app_r _ _ Hn')) as [[K [n [E G]]]|[K E]]; rewrite E.
        -- left. split.
           ++ intros [b' [o [[<-|Hb] [Hdep [Ho Hc]]]]]; [exact (B o Ho Hc)|]. apply K. exists b', o. rewrite <- S2. rewrite D. tauto.
           ++ exists n. split; [f_equal; f_equal; f_equal; apply filter_ext; intros; symmetry; apply S2|].
              intros v. rewrite G. change (b :: r) with ([b] ++ r). rewrite find_relevant_app. apply find_relevant_ext. exact S1.
        -- right. split; [|reflexivity]. destruct K as [b' [o [Hb [Hdep [Ho Hc]]]]]. exists b', o. rewrite S2.
           repeat split; auto; [now right|]. apply D in Hc as [Hc|Hc]; [|exact Hc]. exfalso.
           apply (nodup_app_disj _ _ o Hn' Hc). unfold outs_of. apply in_flat_map. eauto.
      * rewrite A. right. split; [|reflexivity]. destruct B as [B|[o [B1 B2]]]; [exfalso; apply B; exact (nodup_app_l _ _ Hn')|].
        exists b, o. repeat split; auto; [now left].
    + assert (S1 : forall v, In v nodes <-> In v (find_relevant [b] nodes)).
      { intros v. cbn. rewrite Ex. reflexivity. }
      assert (S2 : forall b', depends (b :: r) nodes b' = depends r nodes b') by (intros b'; exact (depends_suffix [b] r nodes nodes b' S1)).
      destruct (IH nodes Ht2 (nodup_app_r _ _ Hn')) as [[K [n [E G]]]|[K E]]; rewrite E.
      * left. split.
        -- intros [b' [o [[<-|Hb] [Hdep [Ho Hc]]]]]; [congruence|]. apply K. exists b', o. rewrite <- S2. tauto.
        -- exists n. split; [f_equal; f_equal; apply filter_ext; intros; symmetry; apply S2|].
           intros v. rewrite G. change (b :: r) with ([b] ++ r). rewrite find_relevant_app. apply find_relevant_ext. exact S1.
      * right. split; [|reflexivity]. destruct K as [b' [o [Hb K]]]. exists b', o. rewrite S2. split; [now right|exact K].
Qed.

Lemma opt_ctrl_blocks_app : forall bs1 bs2 n,
  opt_ctrl_blocks (bs1 ++ bs2) n =
  match opt_ctrl_blocks bs1 n with
  | Err e => Err e
  | Ok (n1, k1) => match opt_ctrl_blocks bs2 n1 with Err e => Err e | Ok (n2, k2) => Ok (n2, k1 ++ k2) end
  end.
Proof.
  induction bs1 as [|b r IH]; intros bs2 n; [cbn; now destruct (opt_ctrl_blocks bs2 n) as [[? ?]|]|].
  cbn [app opt_ctrl_blocks]. destruct (existsb _ _); [|apply IH].
  destruct (add_nodes (b_outs b) n) as [n1|]; [|reflexivity]. rewrite IH.
  destruct (opt_ctrl_blocks r n1) as [[n2 k]|]; [|reflexivity]. now destruct (opt_ctrl_blocks bs2 n2) as [[? ?]|].
Qed.

Definition flat_steps (steps : list (tstep V)) := flat_map (@ts_blocks V) steps.

Lemma opt_ctrl_steps_spec : forall steps nodes, topo (flat_steps steps) -> NoDup (outs_of (flat_steps steps)) ->
  (~ clash (flat_steps steps) nodes /\ exists out, opt_ctrl_steps steps nodes = Ok out /\
     map (@ts_blocks V) out = map (fun s => filter (depends (flat_steps steps) nodes) (ts_blocks s)) steps /\
     map (@ts_state V) out = map (@ts_state V) steps) \/
  (clash (flat_steps steps) nodes /\ opt_ctrl_steps steps nodes = Err ERuntime).
Proof.
  induction steps as [|s r IH]; intros nodes Ht Hn.
  - left. split; [intros [b [o [[] _]]]|]. exists []. auto.
  - cbn [flat_steps flat_map] in *. fold (flat_steps r) in *. rewrite outs_of_app in Hn.
    pose proof (topo_app_l _ _ Ht) as Ht1. pose proof (topo_app_r _ _ Ht) as Ht2.
    cbn [opt_ctrl_steps]. destruct (opt_ctrl_blocks_spec (ts_blocks s) nodes Ht1 (nodup_app_l _ _ Hn)) as [[K [n [E G]]]|[K E]]; rewrite E.
    + assert (S2 : forall b', depends (ts_blocks s ++ flat_steps r) nodes b' = depends (flat_steps r) n b') by (intros b'; exact (depends_suffix _ _ _ _ _ G)).
      assert (K1 : forall b o, In b (ts_blocks s) -> depends (ts_blocks s ++ flat_steps r) nodes b = true -> In o (b_outs b) -> In o nodes -> False).
      { intros b o Hb Hd Ho Hc. apply K. exists b, o. rewrite depends_prefix in Hd by assumption. auto. }
      destruct (IH n Ht2 (nodup_app_r _ _ Hn)) as [[K' [out [E' [G1 G2]]]]|[K' E']]; rewrite E'.
      * left. split.
        -- intros [b [o [Hb [Hd [Ho Hc]]]]]. apply in_app_iff in Hb as [Hb|Hb]; [exact (K1 b o Hb Hd Ho Hc)|].
           apply K'. exists b, o. rewrite <- S2. repeat split; auto. apply G. now apply find_relevant_incl.
        -- eexists. split; [reflexivity|]. cbn [map ts_blocks ts_state]. rewrite G1, G2. split; [|reflexivity]. f_equal.
           ++ unfold keepc. apply filter_ext_in. intros b Hb. symmetry. now apply depends_prefix.
           ++ apply map_ext. intros s'. apply filter_ext. intros b. symmetry. apply S2.
      * right. split; [|reflexivity]. destruct K' as [b [o [Hb [Hd [Ho Hc]]]]]. exists b, o. rewrite S2.
        repeat split; auto; [apply in_app_iff; now right|]. apply G in Hc. apply find_relevant_cases in Hc as [Hc|Hc]; [exact Hc|].
        exfalso. apply (nodup_app_disj _ _ o Hn Hc). unfold outs_of. apply in_flat_map. eauto.
    + right. split; [|reflexivity]. destruct K as [b [o [Hb [Hd K]]]]. exists b, o. rewrite depends_prefix by assumption.
      split; [apply in_app_iff; now left|auto].
Qed.


(** ** optimize_for_functionals *)
Definition live bs (R : list nat) : list nat := fst (opt_fun_blocks bs R).
Definition contributes bs (R : list nat) b : bool := existsb (fun o => mem o (live bs R)) (b_outs b).
Definition keepf bs R := filter (contributes bs R) bs.

Lemma live_cons : forall b r R, live (b :: r) R = if existsb (fun o => mem o (live r R)) (b_outs b) then b_deps b ++ live r R else live r R.
Proof. intros b r R. unfold live. cbn [opt_fun_blocks]. destruct (opt_fun_blocks r R) as [ret k]. cbn [fst]. now destruct (existsb _ _). Qed.
Lemma live_app : forall bs1 bs2 R, live (bs1 ++ bs2) R = live bs1 (live bs2 R).
Proof. induction bs1 as [|b r IH]; intros bs2 R; [reflexivity|]. cbn [app]. now rewrite !live_cons, IH. Qed.
Lemma live_cases : forall bs R v, In v (live bs R) -> In v (deps_of bs) \/ In v R.
Proof.
  induction bs as [|b r IH]; intros R v H; [now right|]. rewrite live_cons in H. unfold deps_of. cbn [flat_map]. rewrite in_app_iff.
  destruct (existsb _ _); [apply in_app_iff in H as [H|H]; [tauto|]|]; apply IH in H as [H|H]; tauto.
Qed.
Lemma live_incl : forall bs R v, In v R -> In v (live bs R).
Proof. induction bs as [|b r IH]; intros R v H; [exact H|]. rewrite live_cons. destruct (existsb _ _); [apply in_app_iff; right|]; auto. Qed.
Lemma live_app_out : forall bs1 bs2 R o, topo (bs1 ++ bs2) -> In o (outs_of bs2) -> (In o (live (bs1 ++ bs2) R) <-> In o (live bs2 R)).
Proof.
  induction bs1 as [|b r IH]; intros bs2 R o Ht Ho; [reflexivity|].
  cbn [app]. rewrite live_cons. destruct Ht as [Ht1 Ht2].
  assert (~ In o (b_deps b)).
  { intros K. apply (Ht1 o K). cbn. unfold outs_of. rewrite in_app_iff, flat_map_app, in_app_iff. tauto. }
  destruct (existsb _ _); [rewrite in_app_iff|]; rewrite (IH bs2 R o Ht2 Ho); tauto.
Qed.
Lemma contributes_app : forall bs1 bs2 R b, topo (bs1 ++ bs2) -> In b bs2 -> contributes (bs1 ++ bs2) R b = contributes bs2 R b.
Proof.
  intros bs1 bs2 R b Ht Hb. unfold contributes. apply existsb_ext_in. intros o Ho. apply mem_ext. apply live_app_out; [exact Ht|].
  apply in_flat_map. eauto.
Qed.
Lemma opt_fun_blocks_keepf : forall bs R, topo bs -> snd (opt_fun_blocks bs R) = keepf bs R.
Proof.
  induction bs as [|b r IH]; intros R Ht; [reflexivity|]. cbn [opt_fun_blocks].
  assert (Hb : contributes (b :: r) R b = existsb (fun o => mem o (live r R)) (b_outs b)).
  { unfold contributes. apply existsb_ext_in. intros o Ho. apply mem_ext. rewrite live_cons. destruct (existsb _ _); [|reflexivity].
    rewrite in_app_iff. split; [|tauto]. intros [K|K]; [|exact K]. exfalso. apply (proj1 Ht o K). cbn. apply in_app_iff. now left. }
  assert (Hr : keepf r R = filter (contributes (b :: r) R) r).
  { unfold keepf. apply filter_ext_in. intros b' Hb'. symmetry. exact (contributes_app [b] r R b' Ht Hb'). }
  specialize (IH R (proj2 Ht)). unfold keepf at 1. cbn [filter]. rewrite Hb, <- Hr, <- IH. unfold live.
  destruct (opt_fun_blocks r R) as [ret k]. cbn [fst snd]. destruct (existsb (fun o => mem o ret) (b_outs b)); reflexivity.
Qed.

(** Backward closure. *)
Definition downward bs (L : nat -> Prop) := forall b d o, In b bs -> In d (b_deps b) -> In o (b_outs b) -> L o -> L d.
Lemma live_downward : forall bs R, topo bs -> downward bs (fun v => In v (live bs R)).
Proof.
  intros bs R Ht b d o Hb Hd Ho Hl. apply in_split in Hb as [l1 [l2 ->]].
  assert (K : In o (live (b :: l2) R)).
  { apply (live_app_out l1 (b :: l2) R o Ht); [|exact Hl]. cbn. apply in_app_iff. now left. }
  rewrite live_app. apply live_incl. rewrite live_cons in K |- *.
  destruct (existsb (fun o => mem o (live l2 R)) (b_outs b)) eqn:E; [apply in_app_iff; now left|].
  exfalso. rewrite (proj2 (existsb_exists _ _) (ex_intro _ o (conj Ho (proj2 (mem_In _ _) K)))) in E. discriminate E.
Qed.
Lemma influences_trans : forall bs (u v w : nat), influences bs u v -> influences bs v w -> influences bs u w.
Proof. intros bs u v w H1 H2. induction H2 as [|x d o Hx Hd Ho H2 IH]; [exact H1|]. eapply inf_step; eauto. Qed.
Lemma influences_incl : forall bs bs' (u v : nat), (forall x, In x bs -> In x bs') -> influences bs u v -> influences bs' u v.
Proof. intros bs bs' u v H Hi. induction Hi as [|x d o Hx Hd Ho Hi IH]; [constructor|]. eapply inf_step; eauto. Qed.
Lemma live_influences : forall bs R v, topo bs -> (In v (live bs R) <-> exists j, In j R /\ influences bs v j).
Proof.
  intros bs R v Ht. split.
  - revert v. induction bs as [|b r IH]; intros v H; [exists v; split; [exact H|constructor]|].
    specialize (IH (proj2 Ht)).
    assert (IH' : forall v, In v (live r R) -> exists j, In j R /\ influences (b :: r) v j).
    { intros u Hu. destruct (IH u Hu) as [j [Hj Hi]]. exists j. split; [exact Hj|]. eapply influences_incl; [|exact Hi]. intros; now right. }
    rewrite live_cons in H. destruct (existsb _ _) eqn:E; [|auto]. apply in_app_iff in H as [H|H]; [|auto].
    apply existsb_exists in E as [o [Ho Hm]]. apply mem_In in Hm. destruct (IH' o Hm) as [j [Hj Hi]].
    exists j. split; [exact Hj|]. eapply influences_trans; [|exact Hi]. eapply inf_step; [left; reflexivity|exact H|exact Ho|constructor].
  - intros [j [Hj Hi]]. apply (live_incl bs) in Hj. revert Hj. induction Hi as [|b d o Hb Hd Ho Hi IH]; intros Hj; [exact Hj|].
    apply IH. eapply (live_downward bs R); eauto.
Qed.

Lemma opt_fun_steps_spec : forall steps R, topo (flat_steps steps) ->
  fst (opt_fun_steps steps R) = live (flat_steps steps) R /\
  snd (opt_fun_steps steps R) = map (fun s => filter (contributes (flat_steps steps) R) (ts_blocks s)) steps.
Proof.
  induction steps as [|s r IH]; intros R Ht; [split; reflexivity|].
  cbn [flat_steps flat_map] in *. fold (flat_steps r) in *.
  destruct (IH R (topo_app_r _ _ Ht)) as [A B]. cbn [opt_fun_steps].
  destruct (opt_fun_steps r R) as [ret1 out]. cbn [fst snd] in A, B. subst.
  pose proof (opt_fun_blocks_keepf (ts_blocks s) (live (flat_steps r) R) (topo_app_l _ _ Ht)) as K.
  rewrite live_app. unfold live at 2. destruct (opt_fun_blocks (ts_blocks s) (live (flat_steps r) R)) as [ret2 kept]. cbn [fst snd] in *.
  split; [reflexivity|]. cbn [map]. f_equal.
  - rewrite K. unfold keepf. apply filter_ext_in. intros b Hb. unfold contributes. apply existsb_ext_in. intros o _. now rewrite live_app.
  - apply map_ext_in. intros s' Hs. apply filter_ext_in. intros b Hb. symmetry. apply contributes_app; [exact Ht|].
    unfold flat_steps. apply in_flat_map. eauto.
Qed.


(** ** The optimised tape *)
Definition kept bs (ctrls : list nat) (J : nat) b : bool := depends bs ctrls b && contributes (keepc bs ctrls) [J] b.
Definition opt_blocks bs ctrls J := filter (kept bs ctrls J) bs.

Lemma topo_filter : forall f bs, topo bs -> topo (filter f bs).
Proof.
  intros f. induction bs as [|b r IH]; intros Ht; [exact I|]. destruct Ht as [H1 H2].
  assert (Ho : forall l d, In d (outs_of (filter f l)) -> In d (outs_of l)).
  { intros l d. unfold outs_of. rewrite !in_flat_map. intros [x [Hx Hd]]. apply filter_In in Hx as [Hx _]. eauto. }
  cbn [filter]. destruct (f b); [|auto]. split; [|auto]. intros d Hd K. apply (H1 d Hd). cbn in *. rewrite in_app_iff in *. destruct K as [K|K]; [now left|].
  right. exact (Ho r d K).
Qed.
Lemma outs_filter : forall f bs d, In d (outs_of (filter f bs)) -> In d (outs_of bs).
Proof. intros f bs d. unfold outs_of. rewrite !in_flat_map. intros [x [Hx Hd]]. apply filter_In in Hx as [Hx _]. eauto. Qed.
Lemma nodup_filter_outs : forall f bs, NoDup (outs_of bs) -> NoDup (outs_of (filter f bs)).
Proof.
  intros f. induction bs as [|b r IH]; intros H; [constructor|]. cbn in H. cbn [filter]. pose proof (nodup_app_r _ _ H) as Hr.
  destruct (f b); [|auto]. cbn. apply IH in Hr. fold (outs_of (filter f r)).
  assert (D : forall x, In x (b_outs b) -> ~ In x (outs_of (filter f r))).
  { intros x Hx K. apply outs_filter in K. exact (nodup_app_disj _ _ x H Hx K). }
  clear IH. pose proof (nodup_app_l _ _ H) as Hb. clear H. induction (b_outs b) as [|x l IHl]; [exact Hr|]. inversion Hb; subst. cbn. constructor.
  - rewrite in_app_iff. intros [K|K]; [contradiction|]. apply (D x); [now left|exact K].
  - apply IHl; [|assumption]. intros y Hy. apply D. now right.
Qed.

Lemma filter_filter : forall {A} (f g : A -> bool) l, filter g (filter f l) = filter (fun x => f x && g x) l.
Proof. intros A f g l. induction l as [|x l IH]; [reflexivity|]. cbn. destruct (f x); cbn; [|exact IH]. now rewrite IH. Qed.
Lemma flat_map_filter : forall (f : block V -> bool) (steps out : list (tstep V)),
  map (@ts_blocks V) out = map (fun s => filter f (ts_blocks s)) steps -> flat_steps out = filter f (flat_steps steps).
Proof.
  intros f. induction steps as [|s r IH]; intros [|s' out] H; try discriminate H; [reflexivity|]. cbn [map] in H. injection H as H1 H2.
  cbn [flat_steps flat_map]. rewrite filter_app, H1. f_equal. now apply IH.
Qed.

(** Tape lists in step with each other (C19). *)
Definition in_step (t : tape V) := t_flat t = flat_steps (t_steps t).

Lemma optimize_spec : forall ctrls J (t : tape V), in_step t -> wf_tape (t_flat t) ->
  (~ clash (t_flat t) ctrls /\ exists t', optimize ctrls [J] t = (t', None) /\ in_step t' /\
     t_flat t' = opt_blocks (t_flat t) ctrls J /\
     map (@ts_blocks V) (t_steps t') = map (fun s => filter (kept (t_flat t) ctrls J) (ts_blocks s)) (t_steps t)) \/
  (clash (t_flat t) ctrls /\ optimize ctrls [J] t = (t, Some ERuntime)).
Proof.
  intros ctrls J t Hi [Ht Hn]. unfold optimize, optimize_for_controls. rewrite Hi in *.
  destruct (opt_ctrl_steps_spec (t_steps t) ctrls Ht Hn) as [[K [out [E [G1 G2]]]]|[K E]]; rewrite E; [left|right; auto].
  split; [exact K|]. set (t1 := replace_steps out t).
  assert (F1 : flat_steps out = keepc (flat_steps (t_steps t)) ctrls) by exact (flat_map_filter _ _ _ G1).
  assert (T1 : topo (flat_steps out)) by (rewrite F1; now apply topo_filter).
  destruct (opt_fun_steps_spec out [J] T1) as [_ B].
  unfold optimize_for_functionals. change (t_steps t1) with out.
  destruct (opt_fun_steps out [J]) as [ret kp]. cbn [snd] in B. subst kp.
  set (steps' := map _ (combine out _)).
  assert (G3 : map (@ts_blocks V) steps' = map (fun s => filter (contributes (flat_steps out) [J]) (ts_blocks s)) out).
  { unfold steps'. rewrite map_map. cbn [ts_blocks]. generalize (contributes (flat_steps out) [J]). intros f. clear.
    induction out as [|s r IH]; [reflexivity|]. cbn. now rewrite IH. }
  assert (G4 : map (@ts_blocks V) steps' = map (fun s => filter (kept (flat_steps (t_steps t)) ctrls J) (ts_blocks s)) (t_steps t)).
  { rewrite G3, F1. unfold kept. set (f := depends (flat_steps (t_steps t)) ctrls) in *. set (g := contributes (keepc _ ctrls) [J]).
    rewrite <- (map_map (@ts_blocks V) (filter g) out), G1, map_map. apply map_ext. intros s. apply filter_filter. }
  eexists. split; [reflexivity|]. split; [reflexivity|]. split; [|exact G4].
  cbn. fold (flat_steps steps'). rewrite (flat_map_filter _ _ _ G4). reflexivity.
Qed.

(** The checkpointable state keeps the variables the functional depends on in the optimised tape. *)
Lemma live_keepf : forall bs R v, topo bs -> (exists j, In j R /\ influences bs v j) <-> (exists j, In j R /\ influences (keepf bs R) v j).
Proof.
  intros bs R v Ht. split; intros [j [Hj Hi]]; exists j; (split; [exact Hj|]).
  - apply (live_incl bs) in Hj. induction Hi as [|b d o Hb Hd Ho Hi IH]; [constructor|].
    eapply inf_step; [|exact Hd|exact Ho|apply IH; eapply (live_downward bs R); eauto]. apply filter_In. split; [exact Hb|].
    unfold contributes. apply existsb_exists. exists o. split; [exact Ho|]. now apply mem_In.
  - eapply influences_incl; [|exact Hi]. intros x Hx. now apply filter_In in Hx.
Qed.
Lemma optimize_state : forall ctrls J (t t' : tape V), in_step t -> wf_tape (t_flat t) -> optimize ctrls [J] t = (t', None) ->
  exists keep, map (@ts_state V) (t_steps t') = map (fun s => filter keep (ts_state s)) (t_steps t) /\ forall v, keep v = true <-> influences (t_flat t') v J.
Proof.
  intros ctrls J t t' Hi [Ht Hn] E0. destruct (optimize_spec ctrls J t Hi (conj Ht Hn)) as [[_ [t2 [E1 [_ [Ef _]]]]]|[_ E1]]; [|congruence].
  assert (t2 = t') by congruence. subst t2. clear E1. unfold optimize, optimize_for_controls in E0. rewrite Hi in Ht, Hn.
  destruct (opt_ctrl_steps_spec (t_steps t) ctrls Ht Hn) as [[_ [out [E [G1 G2]]]]|[_ E]]; rewrite E in E0; [|discriminate]. injection E0 as <-.
  assert (F1 : flat_steps out = keepc (flat_steps (t_steps t)) ctrls) by exact (flat_map_filter _ _ _ G1).
  assert (T1 : topo (flat_steps out)) by (rewrite F1; now apply topo_filter).
  destruct (opt_fun_steps_spec out [J] T1) as [A B]. exists (fun v => mem v (live (flat_steps out) [J])). split.
  - unfold optimize_for_functionals. cbn [replace_steps t_steps]. destruct (opt_fun_steps out [J]) as [ret kp]. cbn [fst snd] in A, B. subst. cbn [replace_steps t_steps].
    rewrite map_map. cbn [ts_state]. rewrite <- (map_map (@ts_state V) (filter _) (t_steps t)), <- G2, map_map. generalize (contributes (flat_steps out) [J]), (live (flat_steps out) [J]). intros f l. clear.
    induction out as [|s r IH]; [reflexivity|]. cbn. now rewrite IH.
  - intros v. rewrite mem_In, (live_influences _ _ _ T1), (live_keepf _ _ _ T1). rewrite Ef. unfold opt_blocks, kept. rewrite <- filter_filter. rewrite Hi. fold (keepc (flat_steps (t_steps t)) ctrls). rewrite <- F1.
    fold (keepf (flat_steps out) [J]). split; [intros [j [[<-|[]] K]]; exact K|intros K; exists J; split; [now left|exact K]].
Qed.

(** The kept blocks are those on a path from a control to the functional. *)
Lemma depends_iff : forall bs ctrls b, topo bs -> (depends bs ctrls b = true <-> exists c d, In c ctrls /\ influences bs c d /\ In d (b_deps b)).
Proof.
  intros bs ctrls b Ht. unfold depends. rewrite existsb_exists. split.
  - intros [d [Hd Hm]]. apply mem_In, (find_relevant_influences bs ctrls d Ht) in Hm as [c [Hc Hi]]. eauto.
  - intros [c [d [Hc [Hi Hd]]]]. exists d. split; [exact Hd|]. apply mem_In, (find_relevant_influences bs ctrls d Ht). eauto.
Qed.
Lemma kept_iff : forall bs ctrls J b, topo bs -> In b bs ->
  (kept bs ctrls J b = true <->
   (exists c d, In c ctrls /\ influences bs c d /\ In d (b_deps b)) /\ (exists o, In o (b_outs b) /\ influences bs o J)).
Proof.
  intros bs ctrls J b Ht Hb. unfold kept. rewrite andb_true_iff, (depends_iff bs ctrls b Ht). split; intros [A B]; (split; [exact A|]).
  - unfold contributes in B. apply existsb_exists in B as [o [Ho Hm]]. apply mem_In, live_influences in Hm as [j [[<-|[]] Hi]]; [|now apply topo_filter].
    exists o. split; [exact Ho|]. eapply influences_incl; [|exact Hi]. intros x Hx. now apply filter_In in Hx.
  - destruct B as [o [Ho Hi]]. unfold contributes. apply existsb_exists. exists o. split; [exact Ho|].
    apply mem_In, live_influences; [now apply topo_filter|]. exists J. split; [now left|].
    destruct A as [c [d [Hc [Hcd Hd]]]].
    assert (Hco : influences bs c o) by (eapply inf_step; eauto).
    induction Hi as [|b' d' o' Hb' Hd' Ho' Hi IH]; [constructor|].
    eapply inf_step; [|exact Hd'|exact Ho'|exact IH]. apply filter_In. split; [exact Hb'|].
    apply (depends_iff bs ctrls b' Ht). exists c, d'. split; [exact Hc|]. split; [|exact Hd']. eapply influences_trans; eauto.
Qed.

(** ** Values *)
(** Values that no control influences agree with the operations that produced them (as far as they are read). *)
Definition steady bs (ctrls : list nat) (J : nat) (e : nat -> V) : Prop :=
  forall b, In b bs -> (forall o, In o (b_outs b) -> ~ In o ctrls) -> depends bs ctrls b = false ->
  forall k o, nth_error (b_outs b) k = Some o -> In o (deps_of bs) \/ o = J ->
    comp_recompute F (b_kind b) (map e (b_deps b)) k = Ok (Some (e o)) \/ comp_recompute F (b_kind b) (map e (b_deps b)) k = Ok None.


Lemma producer_unique' : forall bs b b' o, NoDup (outs_of bs) -> In b bs -> In b' bs -> In o (b_outs b) -> In o (b_outs b') -> b = b'.
Proof.
  induction bs as [|x r IH]; intros b b' o Hn Hb Hb' Ho Ho'; [destruct Hb|].
  assert (D : forall y, In o (b_outs x) -> In y r -> In o (b_outs y) -> False).
  { intros y K Hy Ky. apply (nodup_app_disj _ _ _ Hn K). apply in_flat_map. eauto. }
  destruct Hb as [<-|Hb], Hb' as [<-|Hb']; [reflexivity|exfalso; eauto|exfalso; eauto|].
  exact (IH b b' o (nodup_app_r _ _ Hn) Hb Hb' Ho Ho').
Qed.
Lemma independent_out : forall bs ctrls b o, wf_tape bs -> In b bs -> In o (b_outs b) -> ~ In o ctrls -> depends bs ctrls b = false ->
  ~ In o (find_relevant bs ctrls).
Proof.
  intros bs ctrls b o [Ht Hn] Hb Ho Hc Hd K. apply (find_relevant_influences bs ctrls o Ht) in K as [c [Hcc Hi]].
  destruct Hi as [|b' d o' Hb' Hd' Ho' Hi]; [contradiction|]. rewrite <- (producer_unique' bs b b' o' Hn Hb Hb' Ho Ho') in Hd'.
  rewrite (proj2 (depends_iff bs ctrls b Ht)) in Hd; [discriminate Hd|]. eauto.
Qed.
Lemma independent_dep : forall bs ctrls b d, depends bs ctrls b = false -> In d (b_deps b) -> ~ In d (find_relevant bs ctrls).
Proof.
  intros bs ctrls b d H Hd K. unfold depends in H.
  rewrite (proj2 (existsb_exists _ _) (ex_intro _ d (conj Hd (proj2 (mem_In _ _) K)))) in H. discriminate H.
Qed.
Lemma not_cut' : forall (outs ctrls : list nat), existsb (fun v => mem v ctrls) outs = false -> forall o, In o outs -> ~ In o ctrls.
Proof.
  intros outs ctrls H o Ho K. apply mem_In in K.
  rewrite (proj2 (existsb_exists _ outs) (ex_intro _ o (conj Ho K))) in H. discriminate H.
Qed.

Lemma steady_ext : forall bs ctrls J e1 e2, wf_tape bs -> (forall v, ~ In v (find_relevant bs ctrls) -> e1 v = e2 v) ->
  steady bs ctrls J e1 -> steady bs ctrls J e2.
Proof.
  intros bs ctrls J e1 e2 Hw He H b Hb Hc Hd k o Hk Ho. specialize (H b Hb Hc Hd k o Hk Ho).
  rewrite <- (He o).
  - replace (map e2 (b_deps b)) with (map e1 (b_deps b)); [exact H|]. apply map_ext_in. intros d Hdd. apply He. exact (independent_dep bs ctrls b d Hd Hdd).
  - apply nth_error_In in Hk. exact (independent_out bs ctrls b o Hw Hb Hk (Hc o Hk) Hd).
Qed.

Lemma dce_ctrl : forall bs ctrls J e0, wf_tape bs -> (forall b, In b bs -> gives_value F b) -> steady bs ctrls J e0 ->
  let cut := fun v => mem v ctrls in
  snd (geval F cut bs e0) = None ->
  snd (geval F cut (keepc bs ctrls) e0) = None /\
  (forall v, In v (deps_of bs) \/ v = J -> fst (geval F cut bs e0) v = fst (geval F cut (keepc bs ctrls) e0) v).
Proof.
  intros bs ctrls J e0 Hw Hg Hst cut. unfold keepc.
  set (Sp := fun v => In v (deps_of bs) \/ v = J). set (N := find_relevant bs ctrls).
  assert (G : forall l e1 e2, (forall b, In b l -> In b bs) -> (forall v, Sp v -> e1 v = e2 v) -> (forall v, Sp v -> ~ In v N -> e1 v = e0 v) ->
    snd (geval F cut l e1) = None ->
    snd (geval F cut (filter (depends bs ctrls) l) e2) = None /\
    (forall v, Sp v -> fst (geval F cut l e1) v = fst (geval F cut (filter (depends bs ctrls) l) e2) v)).
  2:{ intros Hs. apply (G bs e0 e0); auto. }
  induction l as [|b l IH]; intros e1 e2 Hl He H0 Hs; [split; auto|].
  assert (Hb : In b bs) by (apply Hl; now left).
  assert (Hdp : forall d, In d (b_deps b) -> Sp d) by (intros d Hd; left; apply in_flat_map; eauto).
  assert (Hob : NoDup (b_outs b)).
  { destruct Hw as [_ Hn]. apply in_split in Hb as [l1 [l2 ->]]. rewrite outs_of_app in Hn. apply nodup_app_r in Hn. exact (nodup_app_l _ _ Hn). }
  cbn [geval iter_o filter] in *. fold (geval F cut l) in *. destruct (geval_block F cut e1 b) as [e1' x1] eqn:E1.
  destruct x1; [discriminate Hs|]. change (iter_o (geval_block F cut) l e1') with (geval F cut l e1') in *.
  destruct (depends bs ctrls b) eqn:Hd.
  - destruct (geval_block_local F cut b e1 e2 Sp (Hg b Hb) Hdp He) as [A [B _]]. rewrite E1 in A, B. cbn [fst snd] in A, B.
    cbn [geval iter_o]. destruct (geval_block F cut e2 b) as [e2' x2] eqn:E2. cbn [fst snd] in A, B. subst x2.
    apply (IH e1' e2'); auto; [intros; apply Hl; now right|].
    intros v Hv Hnv. destruct (in_dec Nat.eq_dec v (b_outs b)) as [Hi|Hi].
    + exfalso. apply Hnv. apply (find_relevant_influences bs ctrls v (proj1 Hw)).
      apply (depends_iff bs ctrls b (proj1 Hw)) in Hd as [c [d [Hc [Hcd Hdd]]]]. exists c. split; [exact Hc|]. eapply inf_step; eauto.
    + replace e1' with (fst (geval_block F cut e1 b)) by now rewrite E1. rewrite geval_block_frame by exact Hi. auto.
  - assert (Ee : forall v, Sp v -> e1' v = e1 v).
    { intros v Hv. destruct (existsb cut (b_outs b)) eqn:Hc.
      { rewrite geval_block_cut_frame in E1 by exact Hc. now injection E1 as <-. }
      destruct (in_dec Nat.eq_dec v (b_outs b)) as [Hi|Hi].
      2:{ replace e1' with (fst (geval_block F cut e1 b)) by now rewrite E1. now rewrite geval_block_frame. }
      pose proof (not_cut' _ _ Hc) as Hnc. apply In_nth_error in Hi as [k Hk].
      pose proof (geval_block_outs F cut b e1 e1' Hob (Hg b Hb) Hc E1 k v Hk) as Hr.
      replace (map e1 (b_deps b)) with (map e0 (b_deps b)) in Hr.
      2:{ apply map_ext_in. intros d Hdd. symmetry. apply H0; [auto|]. exact (independent_dep bs ctrls b d Hd Hdd). }
      destruct (Hst b Hb Hnc Hd k v Hk Hv) as [K|K]; [|exfalso; exact (Hg b Hb _ _ K)].
      rewrite K in Hr. injection Hr as <-. symmetry. apply H0; [exact Hv|]. apply nth_error_In in Hk.
      exact (independent_out bs ctrls b v Hw Hb Hk (Hnc v Hk) Hd). }
    apply (IH e1' e2); auto; [intros; apply Hl; now right|intros; rewrite Ee by assumption; auto|intros; rewrite Ee by assumption; auto].
Qed.

Lemma dce_fun : forall bs R cut e0, topo bs -> (forall b, In b bs -> gives_value F b) ->
  snd (geval F cut bs e0) = None ->
  snd (geval F cut (keepf bs R) e0) = None /\
  (forall v, In v (live bs R) -> fst (geval F cut bs e0) v = fst (geval F cut (keepf bs R) e0) v).
Proof.
  intros bs R cut e0 Ht Hg. unfold keepf. set (L := fun v => In v (live bs R)).
  assert (G : forall l e1 e2, (forall b, In b l -> In b bs) -> (forall v, L v -> e1 v = e2 v) -> snd (geval F cut l e1) = None ->
    snd (geval F cut (filter (contributes bs R) l) e2) = None /\
    (forall v, L v -> fst (geval F cut l e1) v = fst (geval F cut (filter (contributes bs R) l) e2) v)).
  2:{ intros Hs. apply (G bs e0 e0); auto. }
  induction l as [|b l IH]; intros e1 e2 Hl He Hs; [split; auto|].
  assert (Hb : In b bs) by (apply Hl; now left).
  cbn [geval iter_o filter] in *. destruct (geval_block F cut e1 b) as [e1' x1] eqn:E1.
  destruct x1; [discriminate Hs|]. change (iter_o (geval_block F cut) l e1') with (geval F cut l e1') in *.
  destruct (contributes bs R b) eqn:Hd.
  - apply existsb_exists in Hd as [o [Ho Hm]]. apply mem_In in Hm.
    assert (Hdp : forall d, In d (b_deps b) -> L d) by (intros d Hd; exact (live_downward bs R Ht b d o Hb Hd Ho Hm)).
    destruct (geval_block_local F cut b e1 e2 L (Hg b Hb) Hdp He) as [A [B _]]. rewrite E1 in A, B. cbn [fst snd] in A, B.
    cbn [geval iter_o]. destruct (geval_block F cut e2 b) as [e2' x2] eqn:E2. cbn [fst snd] in A, B. subst x2.
    apply (IH e1' e2'); auto. intros; apply Hl; now right.
  - apply (IH e1' e2); auto; [intros; apply Hl; now right|]. intros v Hv.
    replace e1' with (fst (geval_block F cut e1 b)) by now rewrite E1. rewrite geval_block_frame; [auto|].
    intros K. unfold contributes in Hd. rewrite (proj2 (existsb_exists _ _) (ex_intro _ v (conj K (proj2 (mem_In _ _) Hv)))) in Hd. discriminate Hd.
Qed.

Lemma opt_blocks_two : forall bs ctrls J, opt_blocks bs ctrls J = keepf (keepc bs ctrls) [J].
Proof. intros. unfold opt_blocks, keepf, keepc. now rewrite filter_filter. Qed.

(** Evaluation on the optimised tape. *)
Lemma dce_value : forall bs ctrls J e0, wf_tape bs -> (forall b, In b bs -> gives_value F b) -> steady bs ctrls J e0 ->
  let cut := fun v => mem v ctrls in
  snd (geval F cut bs e0) = None ->
  snd (geval F cut (opt_blocks bs ctrls J) e0) = None /\
  (forall v, In v (deps_of (opt_blocks bs ctrls J)) \/ v = J -> fst (geval F cut bs e0) v = fst (geval F cut (opt_blocks bs ctrls J) e0) v).
Proof.
  intros bs ctrls J e0 Hw Hg Hst cut Hs. destruct (dce_ctrl bs ctrls J e0 Hw Hg Hst Hs) as [A B]. fold cut in A, B.
  assert (Hg' : forall b, In b (keepc bs ctrls) -> gives_value F b) by (intros b Hb; apply filter_In in Hb as [Hb _]; auto).
  pose proof (topo_filter (depends bs ctrls) bs (proj1 Hw)) as Ht. fold (keepc bs ctrls) in Ht.
  destruct (dce_fun (keepc bs ctrls) [J] cut e0 Ht Hg' A) as [C D]. rewrite opt_blocks_two. split; [exact C|].
  intros v Hv. rewrite <- D.
  - apply B. destruct Hv as [Hv|Hv]; [left|now right]. unfold deps_of in *. apply in_flat_map in Hv as [b [Hb Hv]]. apply in_flat_map.
    exists b. split; [|exact Hv]. apply filter_In in Hb as [Hb _]. now apply filter_In in Hb as [Hb _].
  - destruct Hv as [Hv| ->]; [|apply live_incl; now left]. unfold deps_of in Hv. apply in_flat_map in Hv as [b [Hb Hv]].
    apply filter_In in Hb as [Hb Hc]. unfold contributes in Hc. apply existsb_exists in Hc as [o [Ho Hm]]. apply mem_In in Hm.
    exact (live_downward _ _ Ht b v o Hb Hv Ho Hm).
Qed.

Lemma supplied_none : forall ctrls vals v, ~ In v ctrls -> supplied (V := V) ctrls vals v = None.
Proof.
  induction ctrls as [|c cs IH]; intros [|x xs] v Hv; cbn; try reflexivity. rewrite IH by (intros K; apply Hv; now right).
  rewrite (proj2 (Nat.eqb_neq v c)); [reflexivity|]. intros ->. apply Hv. now left.
Qed.
Lemma steady_start : forall bs ctrls J h vals, wf_tape bs -> steady bs ctrls J (saved h) -> steady bs ctrls J (start_env h ctrls vals).
Proof.
  intros bs ctrls J h vals Hw. apply (steady_ext bs ctrls J _ _ Hw). intros v Hv. unfold start_env. rewrite supplied_none; [reflexivity|].
  intros K. apply Hv. now apply find_relevant_incl.
Qed.

(** rf(values) on the optimised tape. *)
Lemma opt_call : forall bs rf vals h y, wf_tape bs -> (forall b, In b bs -> gives_value F b) -> no_ctrl h ->
  steady bs (rf_ctrls rf) (rf_J rf) (saved h) ->
  snd (rf_call F bs rf vals h) = Ok y ->
  let bs' := opt_blocks bs (rf_ctrls rf) (rf_J rf) in
  snd (rf_call F bs' rf vals h) = Ok y /\
  (forall v, In v (deps_of bs') \/ v = rf_J rf -> saved (fst (rf_call F bs rf vals h)) v = saved (fst (rf_call F bs' rf vals h)) v).
Proof.
  intros bs rf vals h y Hw Hg Nc Hst Hy bs'.
  destruct (Nat.eq_dec (length vals) (length (rf_ctrls rf))) as [Hl|Hl].
  2:{ rewrite rf_call_mismatch in Hy by exact Hl. discriminate Hy. }
  destruct (rf_call_spec F bs rf vals h Nc Hl) as [A1 [B1 _]]. destruct (rf_call_spec F bs' rf vals h Nc Hl) as [A2 [B2 _]].
  pose proof (dce_value bs (rf_ctrls rf) (rf_J rf) (start_env h (rf_ctrls rf) vals) Hw Hg (steady_start _ _ _ h vals Hw Hst)) as D.
  rewrite A1 in Hy. destruct (snd (geval F _ bs _)) eqn:E; [discriminate Hy|]. destruct (D E) as [D1 D2]. fold bs' in D1, D2.
  split.
  - rewrite A2, D1. rewrite <- D2 by now right. exact Hy.
  - intros v Hv. rewrite B1, B2. auto.
Qed.

(** ** Derivatives *)
Lemma padj_filter : forall mk1 mk2 e1 e2 bs (f : block V -> bool) (L : nat -> Prop) a1 a2,
  (forall b, In b bs -> f b = false -> (forall d, In d (b_deps b) -> mk1 d = false) \/ (forall o, In o (b_outs b) -> ~ L o)) ->
  (forall b, In b bs -> f b = true -> forall d, In d (b_deps b) -> mk1 d = mk2 d /\ e1 d = e2 d /\ L d) ->
  (forall v, a1 v <> None -> L v) -> aeq a1 a2 ->
  snd (padj F mk1 e1 bs a1) = snd (padj F mk2 e2 (filter f bs) a2) /\ aeq (fst (padj F mk1 e1 bs a1)) (fst (padj F mk2 e2 (filter f bs) a2)).
Proof.
  intros mk1 mk2 e1 e2 bs f L a1 a2 Hf Ht Ha Hq. unfold padj. 
  assert (Er : rev (filter f bs) = filter f (rev bs)).
  { clear. induction bs as [|b r IH]; [reflexivity|]. cbn [filter rev]. rewrite filter_app. cbn [filter]. destruct (f b); cbn [rev]; rewrite IH; [reflexivity|now rewrite app_nil_r]. }
  rewrite Er. clear Er.
  assert (Hf' : forall b, In b (rev bs) -> f b = false -> (forall d, In d (b_deps b) -> mk1 d = false) \/ (forall o, In o (b_outs b) -> ~ L o)) by (intros b Hb; apply Hf; now apply in_rev).
  assert (Ht' : forall b, In b (rev bs) -> f b = true -> forall d, In d (b_deps b) -> mk1 d = mk2 d /\ e1 d = e2 d /\ L d) by (intros b Hb; apply Ht; now apply in_rev).
  clear Hf Ht. revert a1 a2 Ha Hq. induction (rev bs) as [|b l IH]; intros a1 a2 Ha Hq; [split; [reflexivity|exact Hq]|].
  specialize (IH (fun b Hb => Hf' b (or_intror Hb)) (fun b Hb => Ht' b (or_intror Hb))).
  cbn [filter iter_o]. destruct (f b) eqn:Ef.
  - specialize (Ht' b (or_introl eq_refl) Ef). clear Hf'. cbn [iter_o].
    assert (Eb : snd (padj_block F mk1 e1 a1 b) = snd (padj_block F mk2 e2 a2 b) /\ aeq (fst (padj_block F mk1 e1 a1 b)) (fst (padj_block F mk2 e2 a2 b))).
    { unfold padj_block. replace (map a2 (b_outs b)) with (map a1 (b_outs b)) by (apply map_ext; apply Hq).
      destruct (negb _); [split; [reflexivity|exact Hq]|].
      replace (map e2 (b_deps b)) with (map e1 (b_deps b)) by (apply map_ext_in; intros d Hd; apply (Ht' d Hd)).
      replace (marked mk2 (b_deps b)) with (marked mk1 (b_deps b)).
      2:{ unfold marked. apply filter_ext_in. intros iv Hiv. apply enum_snd_In in Hiv. apply (Ht' _ Hiv). }
      apply (iter_o_sim _ _ aeq); [|exact Hq]. intros x1 x2 iv _ R. unfold padj_step.
      destruct (comp_adj _ _ _ _ _) as [[x|]|]; cbn; auto. split; [reflexivity|]. intros v. unfold aadd. now rewrite (R v). }
    assert (Hb : forall v, fst (padj_block F mk1 e1 a1 b) v <> None -> L v).
    { intros v Hv. destruct (in_dec Nat.eq_dec v (b_deps b)) as [K|K]; [apply (Ht' v K)|]. apply Ha. rewrite padj_block_frame in Hv; auto. }
    destruct (padj_block F mk1 e1 a1 b) as [a1' x1], (padj_block F mk2 e2 a2 b) as [a2' x2]. cbn [fst snd] in *.
    destruct Eb as [<- Eq]. destruct x1; [split; [reflexivity|exact Eq]|]. now apply IH.
  - assert (Eb : padj_block F mk1 e1 a1 b = (a1, None)).
    { unfold padj_block. destruct (Hf' b (or_introl eq_refl) Ef) as [K|K].
      - replace (marked mk1 (b_deps b)) with (@nil (nat * nat)); [now destruct (negb _)|]. symmetry. unfold marked.
        assert (G : forall l, (forall iv, In iv l -> In (snd iv) (b_deps b)) -> filter (fun iv : nat * nat => mk1 (snd iv)) l = []).
        { clear - K. induction l as [|iv l IH]; intros H; [reflexivity|]. cbn. rewrite (K (snd iv)) by (apply H; now left). apply IH. intros; apply H; now right. }
        apply G. intros iv. apply enum_snd_In.
      - replace (existsb is_some (map a1 (b_outs b))) with false; [reflexivity|]. symmetry.
        destruct (existsb is_some (map a1 (b_outs b))) eqn:Ex; [|reflexivity]. exfalso. apply existsb_exists in Ex as [y [Hy Hi]].
        apply in_map_iff in Hy as [o [Ho Hin]]. apply (K o Hin). apply Ha. rewrite Ho. now destruct y. }
    rewrite Eb. now apply IH.
Qed.

(** Relevance of the variables read by kept blocks is the same on the optimised tape. *)
Lemma kept_relevant : forall bs ctrls J v, topo bs -> (v = J \/ In v (deps_of (opt_blocks bs ctrls J))) ->
  (In v (find_relevant bs ctrls) <-> In v (find_relevant (opt_blocks bs ctrls J) ctrls)).
Proof.
  intros bs ctrls J v Ht Hv. pose proof (topo_filter (kept bs ctrls J) bs Ht) as Ht'. fold (opt_blocks bs ctrls J) in Ht'.
  rewrite (find_relevant_influences bs ctrls v Ht), (find_relevant_influences _ ctrls v Ht').
  assert (HJ : influences bs v J).
  { destruct Hv as [->|Hv]; [constructor|]. unfold deps_of in Hv. apply in_flat_map in Hv as [b [Hb Hv]]. apply filter_In in Hb as [Hb Hk].
    apply (kept_iff bs ctrls J b Ht Hb) in Hk as [_ [o [Ho Hi]]]. eapply influences_trans; [|exact Hi].
    eapply inf_step; [exact Hb|exact Hv|exact Ho|constructor]. }
  clear Hv. split; intros [c [Hc Hi]]; exists c; (split; [exact Hc|]).
  - revert HJ. induction Hi as [|b d o Hb Hd Ho Hi IH]; intros HJ; [constructor|].
    eapply inf_step; [|exact Hd|exact Ho|apply IH; eapply influences_trans; [|exact HJ]; eapply inf_step; [exact Hb|exact Hd|exact Ho|constructor]].
    apply filter_In. split; [exact Hb|]. apply (kept_iff bs ctrls J b Ht Hb). split; [exists c, d; auto|exists o; auto].
  - eapply influences_incl; [|exact Hi]. intros x Hx. now apply filter_In in Hx.
Qed.

Lemma opt_gradient : forall bs J ctrls adj h1 h2 g, topo bs -> no_ctrl h1 -> no_ctrl h2 ->
  let bs' := opt_blocks bs ctrls J in
  (forall v, In v (deps_of bs') -> saved h1 v = saved h2 v) ->
  (forall v, bv_mark (h2 v) = false) ->
  fresh_ctrls bs J ctrls h1 -> fresh_ctrls bs' J ctrls h2 ->
  snd (compute_gradient F bs J ctrls adj h1) = Ok g -> snd (compute_gradient F bs' J ctrls adj h2) = Ok g.
Proof.
  intros bs J ctrls adj h1 h2 g Ht N1 N2 bs' Hs Hm F1 F2 G.
  pose proof (topo_filter (kept bs ctrls J) bs Ht) as Ht'. fold (opt_blocks bs ctrls J) in Ht'. fold bs' in Ht'.
  destruct (grad_spec F bs J ctrls adj h1 N1) as [A1 _]. destruct (grad_spec F bs' J ctrls adj h2 N2) as [A2 _].
  rewrite A1 in G. rewrite A2. clear A1 A2. destruct (snd (padj F _ (saved h1) bs _)) eqn:E1; [discriminate G|].
  destruct (padj_nodes F bs J ctrls adj h1 Ht F1 E1) as [B1 B2].
  set (a0 := fun v => if Nat.eqb v J then Some adj else None) in *.
  set (mk1 := fun v => mem v (find_relevant bs ctrls)) in *. set (mk2 := fun v => mem v (find_relevant bs' ctrls)).
  destruct (padj_filter mk1 mk2 (saved h1) (saved h2) bs (kept bs ctrls J) (fun v => influences bs v J) a0 a0) as [C1 C2].
  - intros b Hb Hk. destruct (depends bs ctrls b) eqn:Hd.
    + right. intros o Ho Hi. rewrite (proj2 (kept_iff bs ctrls J b Ht Hb)) in Hk; [discriminate Hk|].
      split; [now apply depends_iff|eauto].
    + left. intros d Hdd. apply mem_false. exact (independent_dep bs ctrls b d Hd Hdd).
  - intros b Hb Hk d Hd. assert (Hdk : In d (deps_of bs')) by (apply in_flat_map; exists b; split; [now apply filter_In|exact Hd]).
    split; [|split; [auto|]].
    + apply mem_ext. apply kept_relevant; [exact Ht|now right].
    + apply (kept_iff bs ctrls J b Ht Hb) in Hk as [_ [o [Ho Hi]]]. eapply influences_trans; [|exact Hi].
      eapply inf_step; [exact Hb|exact Hd|exact Ho|constructor].
  - intros v Hv. unfold a0 in Hv. destruct (Nat.eqb v J) eqn:Ev; [apply Nat.eqb_eq in Ev; rewrite Ev; constructor|congruence].
  - intros v; reflexivity.
  - change (filter (kept bs ctrls J) bs) with bs' in C1, C2. rewrite B1 in C1.
    destruct (padj_agree F mk2 (fun v => bv_mark (h2 v) || mem v (find_relevant bs' ctrls)) (saved h2) (saved h2) bs' a0 (start_adj bs' J adj h2)
      (fun v => In v (vars_of bs') \/ In v ctrls)) as [D1 D2].
    + intros v Hv. left. unfold vars_of. apply in_or_app. now right.
    + intros v. now rewrite Hm.
    + reflexivity.
    + intros v Hv. unfold a0, start_adj. destruct (Nat.eqb_spec v J); [reflexivity|].
      destruct (mem v (vars_of bs')) eqn:Em; [reflexivity|]. apply mem_false in Em. destruct Hv as [Hv|Hv]; [contradiction|].
      destruct (F2 v Hv) as [K|[K|K]]; [contradiction|contradiction|now rewrite K].
    + rewrite <- D1, <- C1. rewrite <- G. f_equal. apply map_ext_in. intros c Hc. unfold grad_of.
      rewrite <- D2 by now right. rewrite <- (C2 c), <- B2; [reflexivity|]. now apply find_relevant_incl.
Qed.
End Optimize.
