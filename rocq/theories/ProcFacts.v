(** Facts about the process-level model. *)
From Coq Require Import List Arith Bool Lia.
From Verif Require Import Base Proc.
Import ListNotations.

Section ProcFacts.
Variable defs : nat -> code.

(** Objects not created yet have an empty stack. *)
Definition wf (s : pst) := forall k, p_next s <= k -> p_stk s k = [].

Lemma fold_say : forall vs s, let s' := fold_left (fun s v => say (Cleared v) s) vs s in
  p_ann s' = p_ann s /\ p_stk s' = p_stk s /\ p_mod s' = p_mod s /\ p_next s' = p_next s /\ p_work s' = p_work s /\
  p_ntape s' = p_ntape s /\ p_old s' = p_old s /\ p_log s' = rev (map Cleared vs) ++ p_log s.
Proof.
  induction vs as [|v vs IH]; intros s; cbn; [tauto|].
  destruct (IH (say (Cleared v) s)) as [A [B [C [D [E [G [I J]]]]]]]. cbn in *.
  rewrite A, B, C, D, E, G, I, J. repeat (split; [reflexivity|]). now rewrite <- app_assoc.
Qed.

Lemma stop_exit_spec : forall k s b l, p_stk s k = b :: l -> let s' := stop_exit k s in
  p_ann s' = b /\ p_stk s' k = l /\ (forall j, j <> k -> p_stk s' j = p_stk s j) /\ p_next s' = p_next s /\
  p_work s' = p_work s /\ p_ntape s' = p_ntape s /\ p_old s' = p_old s /\
  exists vs, p_log s' = map Cleared vs ++ p_log s.
Proof.
  intros k s b l H s'. subst s'. unfold stop_exit. rewrite H.
  assert (K : let s' := set_ann b (set_stk k l s) in p_ann s' = b /\ p_stk s' k = l /\ (forall j, j <> k -> p_stk s' j = p_stk s j)
     /\ p_next s' = p_next s /\ p_work s' = p_work s /\ p_ntape s' = p_ntape s /\ p_old s' = p_old s /\ exists vs, p_log s' = map Cleared vs ++ p_log s).
  { cbn. rewrite Nat.eqb_refl. split; [reflexivity|]. split; [reflexivity|]. split.
    - intros j Hj. apply Nat.eqb_neq in Hj. now rewrite Hj.
    - repeat (split; [reflexivity|]). now exists []. }
  destruct (p_mod s k) as [vs|]; [|exact K].
  destruct (fold_say vs (set_ann b (set_stk k l s))) as [A [B [C [D [E [G [I J]]]]]]].
  cbn zeta in *. rewrite A, B, D, E, G, I, J. cbn zeta in K.
  destruct K as [K1 [K2 [K3 [K4 [K5 [K6 [K7 _]]]]]]].
  repeat (split; [assumption|]). exists (rev vs). cbn. now rewrite map_rev.
Qed.

Lemma stop_enter_spec : forall k s s1, stop_enter k s = (s1, None) ->
  k < p_next s /\ p_ann s1 = false /\ p_stk s1 k = p_ann s :: p_stk s k /\ (forall j, j <> k -> p_stk s1 j = p_stk s j) /\
  p_next s1 = p_next s /\ p_work s1 = p_work s /\ p_ntape s1 = p_ntape s /\ p_old s1 = p_old s /\ p_log s1 = p_log s.
Proof.
  intros k s s1 H. unfold stop_enter in H. destruct (Nat.leb_spec (p_next s) k) as [|Lk]; [discriminate H|]. split; [exact Lk|].
  assert (E : s1 = set_ann false (set_stk k (p_ann s :: p_stk s k) s)).
  { destruct (p_mod s k) as [[|? ?]|], (p_stk s k) as [|? ?]; try discriminate H; now injection H as <-. }
  subst. cbn. rewrite Nat.eqb_refl. repeat (split; [reflexivity|]). split; [|tauto].
  intros j Hj. apply Nat.eqb_neq in Hj. now rewrite Hj.
Qed.
Lemma stop_enter_err : forall k s s1 e, stop_enter k s = (s1, Some e) -> s1 = s.
Proof.
  intros k s s1 e H. unfold stop_enter in H. destruct (p_next s <=? k); [now injection H|].
  destruct (p_mod s k) as [[|? ?]|], (p_stk s k) as [|? ?]; try discriminate H; now injection H.
Qed.

(** Every run leaves all stacks as they were. *)
Lemma run_balanced : forall n s c s' o, wf s -> run defs n s c = Some (s', o) ->
  (forall k, p_stk s' k = p_stk s k) /\ p_next s <= p_next s' /\ p_ntape s <= p_ntape s' /\ exists l, p_log s' = l ++ p_log s.
Proof.
  assert (NIL : forall s : pst, exists l, p_log s = l ++ p_log s) by (intro; now exists []).
  induction n as [|n IH]; intros s c s' o W H; [discriminate H|].
  assert (WF : forall s1, (forall k, p_stk s1 k = p_stk s k) -> p_next s <= p_next s1 -> wf s1).
  { intros s1 A B k Hk. rewrite A. apply W. lia. }
  assert (TR : forall s1 a, run defs n s1 a = Some (s', o) -> (forall k, p_stk s1 k = p_stk s k) -> p_next s <= p_next s1 -> p_ntape s <= p_ntape s1 ->
     (exists l, p_log s1 = l ++ p_log s) ->
     (forall k, p_stk s' k = p_stk s k) /\ p_next s <= p_next s' /\ p_ntape s <= p_ntape s' /\ exists l, p_log s' = l ++ p_log s).
  { intros s1 a R A B B' [l L]. destruct (IH s1 a s' o (WF s1 A B) R) as [C [D [D' [m M]]]].
    split; [intro k; rewrite C; apply A|]. split; [lia|]. split; [lia|]. exists (m ++ l). rewrite M, L. now rewrite app_assoc. }
  cbn [run] in H. destruct c as [|e|a b|a b| |a b| |kw| | |k c|m|m c|f| |k|k c|c].
  - injection H as <- <-. auto.
  - injection H as <- <-. auto.
  - destruct (run defs n s a) as [[s1 [e|]]|] eqn:R; [|destruct (IH s a s1 None W R) as [A [B [B' L]]]; now apply (TR s1 b)|discriminate H].
    injection H as <- <-. now apply (IH s a s1 (Some e) W).
  - destruct (run defs n s a) as [[s1 [e|]]|] eqn:R; [destruct (IH s a s1 (Some e) W R) as [A [B [B' L]]]; now apply (TR s1 b)| |discriminate H].
    injection H as <- <-. now apply (IH s a s1 None W).
  - injection H as <- <-. cbn. repeat (split; [auto|]). now exists [Ask (p_ann s)].
  - apply (TR _ _ H); cbn; auto. now exists [Ask (p_ann s)].
  - injection H as <- <-. unfold op. destruct (p_ann s && true); cbn; repeat (split; [auto|]); [now exists [Rec (p_work s)]|apply NIL].
  - injection H as <- <-. unfold op. destruct (p_ann s && kw); cbn; repeat (split; [auto|]); [now exists [Rec (p_work s)]|apply NIL].
  - injection H as <- <-. cbn. auto.
  - injection H as <- <-. cbn. auto.
  - destruct (stop_enter k s) as [s1 [e|]] eqn:E.
    + injection H as <- <-. apply stop_enter_err in E. subst. auto.
    + apply stop_enter_spec in E. destruct E as [Lk [E1 [E2 [E3 [E4 [E5 [E6 [E7 E8]]]]]]]].
      destruct (run defs n s1 c) as [[s2 o2]|] eqn:R; [|discriminate H]. injection H as <- <-.
      assert (W1 : wf s1) by (intros j Hj; rewrite E4 in Hj; rewrite E3 by lia; apply W; exact Hj).
      destruct (IH s1 c s2 o2 W1 R) as [A [B [B' [l L]]]].
      destruct (stop_exit_spec k s2 (p_ann s) (p_stk s k)) as [X1 [X2 [X3 [X4 [X5 [X6 [X7 [vs X8]]]]]]]]; [now rewrite A|].
      split; [|split; [lia|split; [lia|]]].
      * intro j. destruct (Nat.eq_dec j k) as [->|Nj]; [exact X2|]. rewrite X3, A, E3 by assumption. reflexivity.
      * exists (map Cleared vs ++ l). rewrite X8, L, E8. now rewrite app_assoc.
  - injection H as <- <-. cbn. split; [|split; [lia|split; [lia|apply NIL]]].
    intro k. destruct (k =? p_next s) eqn:Ek; [|reflexivity]. apply Nat.eqb_eq in Ek. subst. symmetry. apply W. lia.
  - apply (TR _ _ H); cbn; auto. intro k. destruct (k =? p_next s) eqn:Ek; [|reflexivity]. apply Nat.eqb_eq in Ek. subst. symmetry. apply W. lia.
  - apply (TR _ _ H); auto.
  - injection H as <- <-. cbn. auto.
  - injection H as <- <-. cbn. auto.
  - destruct (run defs n s c) as [[s2 o2]|] eqn:R; [|discriminate H]. injection H as <- <-. cbn. now apply (IH s c s2 o2).
  - match type of H with match run _ _ ?s1 _ with _ => _ end = _ => destruct (run defs n s1 c) as [[s2 o2]|] eqn:R; [|discriminate H];
      destruct (IH s1 c s2 o2) as [A [B [B' L]]]; [exact W|exact R|] end.
    injection H as <- <-. cbn in *. repeat (split; [auto; lia|]). exact L.
Qed.

Lemma run_wf : forall n s c s' o, wf s -> run defs n s c = Some (s', o) -> wf s'.
Proof. intros n s c s' o W H k Hk. destruct (run_balanced n s c s' o W H) as [A [B _]]. rewrite A. apply W. lia. Qed.

(** A [with stop_annotating] block, or a decorated call, restores the switch whatever happens inside. *)
Lemma with_restores : forall n s k c s' o, wf s -> run defs n s (With k c) = Some (s', o) -> p_ann s' = p_ann s.
Proof.
  intros [|n] s k c s' o W H; [discriminate H|]. cbn [run] in H. destruct (stop_enter k s) as [s1 [e|]] eqn:E.
  - injection H as <- <-. apply stop_enter_err in E. now subst.
  - apply stop_enter_spec in E. destruct E as [Lk [E1 [E2 [E3 [E4 [E5 [E6 [E7 E8]]]]]]]].
    destruct (run defs n s1 c) as [[s2 o2]|] eqn:R; [|discriminate H]. injection H as <- <-.
    assert (W1 : wf s1) by (intros j Hj; rewrite E4 in Hj; rewrite E3 by lia; apply W; exact Hj).
    destruct (run_balanced n s1 c s2 o2 W1 R) as [A _].
    now destruct (stop_exit_spec k s2 (p_ann s) (p_stk s k)) as [X1 _]; [now rewrite A|].
Qed.
Lemma wf_new : forall m s, wf s -> wf (new_stop m s).
Proof. intros m s W k Hk. cbn in *. destruct (k =? p_next s) eqn:E; [reflexivity|]. apply W. lia. Qed.
Lemma withnew_restores : forall n s m c s' o, wf s -> run defs n s (WithNew m c) = Some (s', o) -> p_ann s' = p_ann s.
Proof.
  intros [|n] s m c s' o W H; [discriminate H|]. cbn [run] in H.
  apply (with_restores n (new_stop m s) (p_next s) c s' o (wf_new m s W) H).
Qed.

(** Programs without pause_annotation()/continue_annotation(): *)
Fixpoint no_switch (c : code) : bool :=
  match c with
  | Pause | Continue => false
  | Seq a b | Try a b | IfAnn a b => no_switch a && no_switch b
  | With _ c | WithNew _ c | TWith _ c | TScope c => no_switch c
  | _ => true
  end.
(** Programs without continue_annotation() *)
Fixpoint no_continue (c : code) : bool :=
  match c with
  | Continue => false
  | Seq a b | Try a b | IfAnn a b => no_continue a && no_continue b
  | With _ c | WithNew _ c | TWith _ c | TScope c => no_continue c
  | _ => true
  end.

Lemma switch_restored : (forall f, no_switch (defs f) = true) ->
  forall n s c s' o, wf s -> no_switch c = true -> run defs n s c = Some (s', o) -> p_ann s' = p_ann s.
Proof.
  intros D. induction n as [|n IH]; intros s c s' o W N H; [discriminate H|].
  destruct c as [|e|a b|a b| |a b| |kw| | |k c|m|m c|f| |k|k c|c]; cbn [no_switch] in N; try discriminate N.
  all: try (apply andb_true_iff in N; destruct N as [N1 N2]).
  - cbn in H. now injection H as <- <-.
  - cbn in H. now injection H as <- <-.
  - cbn [run] in H. destruct (run defs n s a) as [[s1 [e|]]|] eqn:R; [| |discriminate H].
    + injection H as <- <-. now apply (IH s a s1 (Some e)).
    + rewrite (IH s1 b s' o (run_wf _ _ _ _ _ W R) N2 H). now apply (IH s a s1 None).
  - cbn [run] in H. destruct (run defs n s a) as [[s1 [e|]]|] eqn:R; [| |discriminate H].
    + rewrite (IH s1 b s' o (run_wf _ _ _ _ _ W R) N2 H). now apply (IH s a s1 (Some e)).
    + injection H as <- <-. now apply (IH s a s1 None).
  - cbn in H. now injection H as <- <-.
  - cbn [run] in H. apply (IH (say (Ask (p_ann s)) s) _ s' o W) in H; [exact H|]. destruct (p_ann s); assumption.
  - cbn in H. injection H as <- <-. unfold op. now destruct (p_ann s && true).
  - cbn in H. injection H as <- <-. unfold op. now destruct (p_ann s && kw).
  - now apply (with_restores _ _ _ _ _ _ W H).
  - cbn in H. now injection H as <- <-.
  - now apply (withnew_restores _ _ _ _ _ _ W H).
  - cbn [run] in H. now apply (IH s (defs f) s' o).
  - cbn in H. now injection H as <- <-.
  - cbn in H. now injection H as <- <-.
  - cbn [run] in H. destruct (run defs n s c) as [[s2 o2]|] eqn:R; [|discriminate H]. injection H as <- <-. cbn.
    now apply (IH s c s2 o2).
  - cbn [run] in H. match type of H with match run _ _ ?s1 _ with _ => _ end = _ => destruct (run defs n s1 c) as [[s2 o2]|] eqn:R; [|discriminate H];
      pose proof (IH s1 c s2 o2 W N R) as K end. injection H as <- <-. cbn in *. exact K.
Qed.

Definition silent (e : pevent) : Prop := match e with Rec _ => False | Ask b => b = false | Cleared _ => True end.

Lemma off_inside : (forall f, no_continue (defs f) = true) ->
  forall n s c s' o, wf s -> no_continue c = true -> p_ann s = false -> run defs n s c = Some (s', o) ->
  p_ann s' = false /\ exists l, p_log s' = l ++ p_log s /\ Forall silent l.
Proof.
  intros D.
  assert (NIL : forall s : pst, p_ann s = false -> p_ann s = false /\ exists l, p_log s = l ++ p_log s /\ Forall silent l).
  { intros s A. split; [exact A|]. exists []. split; [reflexivity|constructor]. }
  induction n as [|n IH]; intros s c s' o W N A H; [discriminate H|].
  assert (TR : forall s1 a, run defs n s1 a = Some (s', o) -> no_continue a = true -> wf s1 -> p_ann s1 = false ->
     (exists l, p_log s1 = l ++ p_log s /\ Forall silent l) -> p_ann s' = false /\ exists l, p_log s' = l ++ p_log s /\ Forall silent l).
  { intros s1 a R Na W1 A1 [l [L1 L2]]. destruct (IH s1 a s' o W1 Na A1 R) as [B [m [M1 M2]]]. split; [exact B|].
    exists (m ++ l). split; [rewrite M1, L1; now rewrite app_assoc|now apply Forall_app]. }
  destruct c as [|e|a b|a b| |a b| |kw| | |k c|m|m c|f| |k|k c|c]; cbn [no_continue] in N; try discriminate N; cbn [run] in H.
  all: try (apply andb_true_iff in N; destruct N as [N1 N2]).
  - injection H as <- <-. auto.
  - injection H as <- <-. auto.
  - destruct (run defs n s a) as [[s1 [e|]]|] eqn:R; [| |discriminate H].
    + injection H as <- <-. now apply (IH s a s1 (Some e)).
    + destruct (IH s a s1 None W N1 A R). apply (TR s1 b); auto. now apply (run_wf n s a s1 None).
  - destruct (run defs n s a) as [[s1 [e|]]|] eqn:R; [| |discriminate H].
    + destruct (IH s a s1 (Some e) W N1 A R). apply (TR s1 b); auto. now apply (run_wf n s a s1 (Some e)).
    + injection H as <- <-. now apply (IH s a s1 None).
  - injection H as <- <-. cbn. split; [exact A|]. exists [Ask (p_ann s)]. split; [reflexivity|]. constructor; [exact A|constructor].
  - rewrite A in H. apply (TR _ _ H); auto. exists [Ask false]. split; [reflexivity|]. constructor; [reflexivity|constructor].
  - injection H as <- <-. unfold op. rewrite A. cbn. auto.
  - injection H as <- <-. unfold op. rewrite A. cbn. auto.
  - injection H as <- <-. cbn. split; [reflexivity|]. exists []. split; [reflexivity|constructor].
  - destruct (stop_enter k s) as [s1 [e|]] eqn:E.
    + injection H as <- <-. apply stop_enter_err in E. subst. auto.
    + apply stop_enter_spec in E. destruct E as [Lk [E1 [E2 [E3 [E4 [E5 [E6 [E7 E8]]]]]]]].
      destruct (run defs n s1 c) as [[s2 o2]|] eqn:R; [|discriminate H]. injection H as <- <-.
      assert (W1 : wf s1) by (intros j Hj; rewrite E4 in Hj; rewrite E3 by lia; apply W; exact Hj).
      destruct (run_balanced n s1 c s2 o2 W1 R) as [B _].
      destruct (IH s1 c s2 o2 W1 N E1 R) as [_ [l [L1 L2]]].
      destruct (stop_exit_spec k s2 (p_ann s) (p_stk s k)) as [X1 [_ [_ [_ [_ [_ [_ [vs X8]]]]]]]]; [now rewrite B|].
      split; [congruence|]. exists (map Cleared vs ++ l). split; [rewrite X8, L1, E8; now rewrite app_assoc|].
      apply Forall_app. split; [|exact L2]. apply Forall_forall. intros x Hx. apply in_map_iff in Hx. destruct Hx as [v [<- _]]. exact I.
  - injection H as <- <-. cbn. auto.
  - apply (TR _ _ H); auto; [now apply wf_new|]. exists []. split; [reflexivity|constructor].
  - apply (TR _ _ H); auto. exists []. split; [reflexivity|constructor].
  - injection H as <- <-. cbn. split; [exact A|]. exists []. split; [reflexivity|constructor].
  - injection H as <- <-. cbn. split; [exact A|]. exists []. split; [reflexivity|constructor].
  - destruct (run defs n s c) as [[s2 o2]|] eqn:R; [|discriminate H]. injection H as <- <-. cbn. now apply (IH s c s2 o2).
  - match type of H with match run _ _ ?s1 _ with _ => _ end = _ => destruct (run defs n s1 c) as [[s2 o2]|] eqn:R; [|discriminate H];
      pose proof (IH s1 c s2 o2 W N A R) as K end. injection H as <- <-. cbn in *. exact K.
Qed.

(** Inside a with-block nothing is recorded, every query answers False, and the switch comes back. *)
Lemma with_silent : (forall f, no_continue (defs f) = true) ->
  forall n s k c s' o, wf s -> no_continue c = true -> run defs n s (With k c) = Some (s', o) ->
  p_ann s' = p_ann s /\ exists l, p_log s' = l ++ p_log s /\ Forall silent l.
Proof.
  intros D n s k c s' o W N H. split; [now apply (with_restores n s k c s' o)|].
  destruct n as [|n]; [discriminate H|]. cbn [run] in H. destruct (stop_enter k s) as [s1 [e|]] eqn:E.
  - injection H as <- <-. apply stop_enter_err in E. subst. exists []. split; [reflexivity|constructor].
  - apply stop_enter_spec in E. destruct E as [Lk [E1 [E2 [E3 [E4 [E5 [E6 [E7 E8]]]]]]]].
    destruct (run defs n s1 c) as [[s2 o2]|] eqn:R; [|discriminate H]. injection H as <- <-.
    assert (W1 : wf s1) by (intros j Hj; rewrite E4 in Hj; rewrite E3 by lia; apply W; exact Hj).
    destruct (run_balanced n s1 c s2 o2 W1 R) as [B _].
    destruct (off_inside D n s1 c s2 o2 W1 N E1 R) as [_ [l [L1 L2]]].
    destruct (stop_exit_spec k s2 (p_ann s) (p_stk s k)) as [X1 [_ [_ [_ [_ [_ [_ [vs X8]]]]]]]]; [now rewrite B|].
    exists (map Cleared vs ++ l). split; [rewrite X8, L1, E8; now rewrite app_assoc|].
    apply Forall_app. split; [|exact L2]. apply Forall_forall. intros x Hx. apply in_map_iff in Hx. destruct Hx as [v [<- _]]. exact I.
Qed.
Lemma withnew_silent : (forall f, no_continue (defs f) = true) ->
  forall n s m c s' o, wf s -> no_continue c = true -> run defs n s (WithNew m c) = Some (s', o) ->
  p_ann s' = p_ann s /\ exists l, p_log s' = l ++ p_log s /\ Forall silent l.
Proof.
  intros D [|n] s m c s' o W N H; [discriminate H|]. cbn [run] in H.
  apply (with_silent D n (new_stop m s) (p_next s) c s' o (wf_new m s W) N H).
Qed.

Definition quiet (c : code) := forall n s s' o, wf s -> run defs n s c = Some (s', o) ->
  p_ann s' = p_ann s /\ exists l, p_log s' = l ++ p_log s /\ Forall silent l.
Definition mute (c : code) := forall n s s' o, wf s -> run defs n s c = Some (s', o) ->
  p_ann s' = p_ann s /\ exists l, p_log s' = l ++ p_log s /\ forall t, ~ In (Rec t) l.
Lemma quiet_mute : forall c, quiet c -> mute c.
Proof.
  intros c Q n s s' o W H. destruct (Q n s s' o W H) as [A [l [B C]]]. split; [exact A|]. exists l. split; [exact B|].
  intros t K. rewrite Forall_forall in C. exact (C _ K).
Qed.
Lemma mute_seqs : forall l, Forall mute l -> mute (seqs l).
Proof.
  induction l as [|c l IH]; intros F n s s' o W H.
  - destruct n; [discriminate H|]. cbn in H. injection H as <- <-. split; [reflexivity|]. exists []. split; [reflexivity|intros t []].
  - inversion F; subst. cbn [seqs] in H. destruct n; [discriminate H|]. cbn [run] in H.
    destruct (run defs n s c) as [[s1 [e|]]|] eqn:R; [| |discriminate H].
    + injection H as <- <-. now apply (H2 n s s1 (Some e)).
    + destruct (H2 n s s1 None W R) as [A [m [B C]]].
      destruct (IH H3 n s1 s' o (run_wf _ _ _ _ _ W R) H) as [A' [m' [B' C']]].
      split; [congruence|]. exists (m' ++ m). split; [rewrite B', B; now rewrite app_assoc|].
      intros t K. apply in_app_iff in K. destruct K as [K|K]; [exact (C' t K)|exact (C t K)].
Qed.
Lemma no_continue_seqs : forall l, no_continue (seqs l) = forallb no_continue l.
Proof. induction l as [|c l IH]; [reflexivity|]. cbn. now rewrite IH. Qed.

Lemma call_quiet : (forall f, no_continue (defs f) = true) -> forall checks pre post recs,
  forallb no_continue (checks :: pre :: post :: recs) = true -> quiet (call_code checks pre post recs).
Proof.
  intros D checks pre post recs N n s s' o W H. refine (with_silent D n s 0 _ s' o W _ H).
  rewrite no_continue_seqs. cbn in *. rewrite no_continue_seqs.
  destruct (no_continue checks), (no_continue pre), (no_continue post), (forallb no_continue recs); cbn in *; congruence.
Qed.
Lemma hessian_quiet : (forall f, no_continue (defs f) = true) -> forall pre post tlms hess,
  forallb no_continue (pre :: post :: tlms ++ hess) = true -> quiet (hessian_code pre post tlms hess).
Proof.
  intros D pre post tlms hess N n s s' o W H. refine (with_silent D n s 0 _ s' o W _ H).
  rewrite no_continue_seqs. cbn in *. rewrite !no_continue_seqs. rewrite forallb_app in N.
  destruct (no_continue pre), (no_continue post), (forallb no_continue tlms), (forallb no_continue hess); cbn in *; congruence.
Qed.
Lemma adj_no_continue : forall comps, forallb no_continue comps = true -> forallb no_continue (adj_code comps) = true.
Proof. induction comps as [|c l IH]; intro H; [reflexivity|]. cbn in *. apply andb_true_iff in H. destruct H as [-> H]. now apply IH. Qed.
Lemma derivative_mute : (forall f, no_continue (defs f) = true) -> forall pre post comps,
  forallb no_continue comps = true -> mute pre -> mute post -> mute (derivative_code pre post comps).
Proof.
  intros D pre post comps N M1 M2. apply mute_seqs.
  apply Forall_cons; [exact M1|]. apply Forall_cons; [|apply Forall_cons; [|apply Forall_cons; [exact M2|apply Forall_nil]]].
  - apply quiet_mute. intros n s s' o W H. now apply (withnew_silent D n s None Op s' o W).
  - apply quiet_mute. intros n s s' o W H. refine (withnew_silent D n s None _ s' o W _ H).
    rewrite no_continue_seqs. now apply adj_no_continue.
Qed.
Lemma tape_adj_mute : (forall f, no_continue (defs f) = true) -> forall comps,
  forallb no_continue comps = true -> mute (tape_adj_code comps).
Proof.
  intros D comps N. apply mute_seqs. unfold adj_code. induction comps as [|c l IH]; cbn in *; constructor.
  - apply andb_true_iff in N. destruct N as [N1 N2]. apply quiet_mute. intros n s s' o W H. now apply (with_silent D n s 0 c s' o W).
  - apply andb_true_iff in N. now apply IH.
Qed.

(** ** Working tape *)
(** only scoped changes of the working tape *)
Fixpoint scoped (c : code) : bool :=
  match c with
  | TSet | TMake _ | TWith _ _ => false
  | Seq a b | Try a b | IfAnn a b => scoped a && scoped b
  | With _ c | WithNew _ c | TScope c => scoped c
  | _ => true
  end.
Fixpoint no_tape (c : code) : bool :=
  match c with
  | TSet | TMake _ | TWith _ _ | TScope _ => false
  | Seq a b | Try a b | IfAnn a b => no_tape a && no_tape b
  | With _ c | WithNew _ c => no_tape c
  | _ => true
  end.
Lemma tscope_restores : forall n s c s' o, run defs n s (TScope c) = Some (s', o) -> p_work s' = p_work s.
Proof.
  intros [|n] s c s' o H; [discriminate H|]. cbn [run] in H.
  match type of H with match ?r with _ => _ end = _ => destruct r as [[s2 o2]|] end; [|discriminate H].
  now injection H as <- <-.
Qed.

Lemma stop_enter_tape : forall k s s1 o, stop_enter k s = (s1, o) -> p_work s1 = p_work s /\ p_ntape s1 = p_ntape s /\ p_log s1 = p_log s.
Proof.
  intros k s s1 o H. destruct o as [e|]; [apply stop_enter_err in H; now subst|].
  apply stop_enter_spec in H. tauto.
Qed.
Lemma stop_exit_tape : forall k s, p_work (stop_exit k s) = p_work s /\ p_ntape (stop_exit k s) = p_ntape s /\
  exists vs, p_log (stop_exit k s) = map Cleared vs ++ p_log s.
Proof.
  intros k s. destruct (p_stk s k) as [|b l] eqn:E.
  - unfold stop_exit. rewrite E. split; [reflexivity|]. split; [reflexivity|]. now exists [].
  - destruct (stop_exit_spec k s b l E) as [_ [_ [_ [_ [A [B [_ C]]]]]]]. auto.
Qed.

(** Scoped programs: records go to the tape that was working on entry or to tapes made inside; the
    working tape is re-established. *)
Lemma scoped_run : (forall f, scoped (defs f) = true) ->
  forall n s c s' o, scoped c = true -> run defs n s c = Some (s', o) ->
  p_work s' = p_work s /\ p_ntape s <= p_ntape s' /\
  exists l, p_log s' = l ++ p_log s /\ forall t, In (Rec t) l -> t = p_work s \/ p_ntape s <= t < p_ntape s'.
Proof.
  intros D.
  assert (NIL : forall s : pst, exists l, p_log s = l ++ p_log s /\ forall t, In (Rec t) l -> t = p_work s \/ p_ntape s <= t < p_ntape s).
  { intros s. exists []. split; [reflexivity|intros t []]. }
  assert (CL : forall vs t, ~ In (Rec t) (map Cleared vs)).
  { intros vs t K. apply in_map_iff in K. destruct K as [v [K _]]. discriminate K. }
  induction n as [|n IH]; intros s c s' o N H; [discriminate H|].
  assert (TR : forall s1 a, run defs n s1 a = Some (s', o) -> scoped a = true -> p_work s1 = p_work s -> p_ntape s <= p_ntape s1 ->
     (exists l, p_log s1 = l ++ p_log s /\ forall t, In (Rec t) l -> t = p_work s \/ p_ntape s <= t < p_ntape s1) ->
     p_work s' = p_work s /\ p_ntape s <= p_ntape s' /\
     exists l, p_log s' = l ++ p_log s /\ forall t, In (Rec t) l -> t = p_work s \/ p_ntape s <= t < p_ntape s').
  { intros s1 a R Na A B [l [L1 L2]]. destruct (IH s1 a s' o Na R) as [C [C' [m [M1 M2]]]].
    split; [congruence|]. split; [lia|]. exists (m ++ l). split; [rewrite M1, L1; now rewrite app_assoc|].
    intros t K. apply in_app_iff in K. destruct K as [K|K].
    - destruct (M2 t K); [left; congruence|right; lia].
    - destruct (L2 t K); [now left|right; lia]. }
  destruct c as [|e|a b|a b| |a b| |kw| | |k c|m|m c|f| |k|k c|c]; cbn [scoped] in N; try discriminate N; cbn [run] in H.
  all: try (apply andb_true_iff in N; destruct N as [N1 N2]).
  - injection H as <- <-. auto.
  - injection H as <- <-. auto.
  - destruct (run defs n s a) as [[s1 [e|]]|] eqn:R; [| |discriminate H].
    + injection H as <- <-. now apply (IH s a s1 (Some e)).
    + destruct (IH s a s1 None N1 R) as [A [B L]]. now apply (TR s1 b).
  - destruct (run defs n s a) as [[s1 [e|]]|] eqn:R; [| |discriminate H].
    + destruct (IH s a s1 (Some e) N1 R) as [A [B L]]. now apply (TR s1 b).
    + injection H as <- <-. now apply (IH s a s1 None).
  - injection H as <- <-. cbn. split; [reflexivity|]. split; [lia|]. exists [Ask (p_ann s)]. split; [reflexivity|].
    intros t [K|[]]; discriminate K.
  - apply (TR _ _ H); auto; [destruct (p_ann s); assumption|]. exists [Ask (p_ann s)]. split; [reflexivity|].
    intros t [K|[]]; discriminate K.
  - injection H as <- <-. unfold op. destruct (p_ann s && true); cbn; [|auto]. split; [reflexivity|]. split; [lia|].
    exists [Rec (p_work s)]. split; [reflexivity|]. intros t [K|[]]. left. congruence.
  - injection H as <- <-. unfold op. destruct (p_ann s && kw); cbn; [|auto]. split; [reflexivity|]. split; [lia|].
    exists [Rec (p_work s)]. split; [reflexivity|]. intros t [K|[]]. left. congruence.
  - injection H as <- <-. cbn. auto.
  - injection H as <- <-. cbn. auto.
  - destruct (stop_enter k s) as [s1 [e|]] eqn:E; destruct (stop_enter_tape k s s1 _ E) as [A [B C]].
    + injection H as <- <-. rewrite A, B, C. auto.
    + destruct (run defs n s1 c) as [[s2 o2]|] eqn:R; [|discriminate H]. injection H as <- <-.
      destruct (IH s1 c s2 o2 N R) as [P [Q [l [L1 L2]]]]. destruct (stop_exit_tape k s2) as [X1 [X2 [vs X3]]].
      rewrite X1, X2, X3, P, A, L1, C. split; [reflexivity|]. split; [lia|].
      exists (map Cleared vs ++ l). split; [now rewrite app_assoc|]. intros t K. apply in_app_iff in K.
      destruct K as [K|K]; [destruct (CL vs t K)|]. destruct (L2 t K); [left; congruence|right; lia].
  - injection H as <- <-. cbn. auto.
  - apply (TR _ _ H); auto. exact (NIL s).
  - apply (TR _ _ H); auto.
  - match type of H with match run _ _ ?s1 _ with _ => _ end = _ => destruct (run defs n s1 c) as [[s2 o2]|] eqn:R; [|discriminate H];
      destruct (IH s1 c s2 o2 N R) as [P [Q [l [L1 L2]]]] end. injection H as <- <-. cbn in *.
    split; [reflexivity|]. split; [lia|]. exists l. split; [exact L1|]. intros t K. destruct (L2 t K); right; lia.
Qed.

Lemma no_tape_run : (forall f, no_tape (defs f) = true) ->
  forall n s c s' o, no_tape c = true -> run defs n s c = Some (s', o) ->
  p_work s' = p_work s /\ p_ntape s' = p_ntape s /\ exists l, p_log s' = l ++ p_log s /\ forall t, In (Rec t) l -> t = p_work s.
Proof.
  intros D.
  assert (NIL : forall s : pst, exists l, p_log s = l ++ p_log s /\ forall t, In (Rec t) l -> t = p_work s).
  { intros s. exists []. split; [reflexivity|intros t []]. }
  assert (CL : forall vs t, ~ In (Rec t) (map Cleared vs)).
  { intros vs t K. apply in_map_iff in K. destruct K as [v [K _]]. discriminate K. }
  induction n as [|n IH]; intros s c s' o N H; [discriminate H|].
  assert (TR : forall s1 a, run defs n s1 a = Some (s', o) -> no_tape a = true -> p_work s1 = p_work s -> p_ntape s1 = p_ntape s ->
     (exists l, p_log s1 = l ++ p_log s /\ forall t, In (Rec t) l -> t = p_work s) ->
     p_work s' = p_work s /\ p_ntape s' = p_ntape s /\ exists l, p_log s' = l ++ p_log s /\ forall t, In (Rec t) l -> t = p_work s).
  { intros s1 a R Na A B [l [L1 L2]]. destruct (IH s1 a s' o Na R) as [C [C' [m [M1 M2]]]].
    split; [congruence|]. split; [congruence|]. exists (m ++ l). split; [rewrite M1, L1; now rewrite app_assoc|].
    intros t K. apply in_app_iff in K. destruct K as [K|K]; [rewrite (M2 t K); exact A|now apply L2]. }
  destruct c as [|e|a b|a b| |a b| |kw| | |k c|m|m c|f| |k|k c|c]; cbn [no_tape] in N; try discriminate N; cbn [run] in H.
  all: try (apply andb_true_iff in N; destruct N as [N1 N2]).
  - injection H as <- <-. auto.
  - injection H as <- <-. auto.
  - destruct (run defs n s a) as [[s1 [e|]]|] eqn:R; [| |discriminate H].
    + injection H as <- <-. now apply (IH s a s1 (Some e)).
    + destruct (IH s a s1 None N1 R) as [A [B L]]. now apply (TR s1 b).
  - destruct (run defs n s a) as [[s1 [e|]]|] eqn:R; [| |discriminate H].
    + destruct (IH s a s1 (Some e) N1 R) as [A [B L]]. now apply (TR s1 b).
    + injection H as <- <-. now apply (IH s a s1 None).
  - injection H as <- <-. cbn. split; [reflexivity|]. split; [reflexivity|]. exists [Ask (p_ann s)]. split; [reflexivity|].
    intros t [K|[]]; discriminate K.
  - apply (TR _ _ H); auto; [destruct (p_ann s); assumption|]. exists [Ask (p_ann s)]. split; [reflexivity|].
    intros t [K|[]]; discriminate K.
  - injection H as <- <-. unfold op. destruct (p_ann s && true); cbn; [|auto]. split; [reflexivity|]. split; [reflexivity|].
    exists [Rec (p_work s)]. split; [reflexivity|]. intros t [K|[]]. congruence.
  - injection H as <- <-. unfold op. destruct (p_ann s && kw); cbn; [|auto]. split; [reflexivity|]. split; [reflexivity|].
    exists [Rec (p_work s)]. split; [reflexivity|]. intros t [K|[]]. congruence.
  - injection H as <- <-. cbn. auto.
  - injection H as <- <-. cbn. auto.
  - destruct (stop_enter k s) as [s1 [e|]] eqn:E; destruct (stop_enter_tape k s s1 _ E) as [A [B C]].
    + injection H as <- <-. rewrite A, B, C. auto.
    + destruct (run defs n s1 c) as [[s2 o2]|] eqn:R; [|discriminate H]. injection H as <- <-.
      destruct (IH s1 c s2 o2 N R) as [P [Q [l [L1 L2]]]]. destruct (stop_exit_tape k s2) as [X1 [X2 [vs X3]]].
      rewrite X1, X2, X3, P, Q, A, B, L1, C. split; [reflexivity|]. split; [reflexivity|].
      exists (map Cleared vs ++ l). split; [now rewrite app_assoc|]. intros t K. apply in_app_iff in K.
      destruct K as [K|K]; [destruct (CL vs t K)|]. rewrite (L2 t K). exact A.
  - injection H as <- <-. cbn. auto.
  - apply (TR _ _ H); auto. exact (NIL s).
  - apply (TR _ _ H); auto.
Qed.
End ProcFacts.

Lemma tscope_spec : forall defs n s c s' o, run defs n s (TScope c) = Some (s', o) ->
  p_work s' = p_work s /\
  ((forall f, scoped (defs f) = true) -> scoped c = true ->
     exists l, p_log s' = l ++ p_log s /\ forall t, In (Rec t) l -> p_ntape s <= t) /\
  ((forall f, no_tape (defs f) = true) -> no_tape c = true ->
     exists l, p_log s' = l ++ p_log s /\ forall t, In (Rec t) l -> t = p_ntape s).
Proof.
  intros defs n s c s' o H. split; [now apply tscope_restores in H|].
  destruct n as [|n]; [discriminate H|]. cbn [run] in H.
  match type of H with match run _ _ ?s1 _ with _ => _ end = _ => destruct (run defs n s1 c) as [[s2 o2]|] eqn:R; [|discriminate H] end.
  injection H as <- <-. split; intros D N.
  - destruct (scoped_run defs D n _ c s2 o2 N R) as [_ [_ [l [L1 L2]]]]. exists l. split; [exact L1|].
    intros t K. destruct (L2 t K) as [->|K']; cbn in *; lia.
  - destruct (no_tape_run defs D n _ c s2 o2 N R) as [_ [_ [l [L1 L2]]]]. exists l. split; [exact L1|].
    intros t K. now rewrite (L2 t K).
Qed.

Lemma wf_process : forall ann, wf (process ann).
Proof. intros ann k _. reflexivity. Qed.
Lemma process_reachable : forall defs ann n c s o, run defs n (process ann) c = Some (s, o) -> wf s.
Proof. intros defs ann n c s o H. exact (run_wf defs n _ c s o (wf_process ann) H). Qed.
Lemma switch_and_stacks : forall defs, (forall f, no_switch (defs f) = true) -> forall n s c s' o, wf s -> no_switch c = true ->
  run defs n s c = Some (s', o) -> p_ann s' = p_ann s /\ forall k, p_stk s' k = p_stk s k.
Proof.
  intros defs D n s c s' o W N H. split; [now apply (switch_restored defs D n s c s' o)|].
  now destruct (run_balanced defs n s c s' o W H).
Qed.
Lemma with_off_inside : forall defs, (forall f, no_continue (defs f) = true) -> forall n s k c s' o, wf s -> no_continue c = true ->
  run defs n s (With k c) = Some (s', o) ->
  exists l, p_log s' = l ++ p_log s /\ (forall b, In (Ask b) l -> b = false) /\ (forall t, ~ In (Rec t) l).
Proof.
  intros defs D n s k c s' o W N H. destruct (with_silent defs D n s k c s' o W N H) as [_ [l [A B]]]. rewrite Forall_forall in B.
  exists l. split; [exact A|]. split; [intros b Hb; exact (B _ Hb)|intros t Ht; exact (B _ Ht)].
Qed.
Lemma call_mute : forall defs, (forall f, no_continue (defs f) = true) -> forall checks pre post recs,
  forallb no_continue (checks :: pre :: post :: recs) = true -> mute defs (call_code checks pre post recs).
Proof. intros. apply quiet_mute. now apply call_quiet. Qed.
Lemma hessian_mute : forall defs, (forall f, no_continue (defs f) = true) -> forall pre post tlms hess,
  forallb no_continue (pre :: post :: tlms ++ hess) = true -> mute defs (hessian_code pre post tlms hess).
Proof. intros. apply quiet_mute. now apply hessian_quiet. Qed.
Lemma skip_mute : forall defs, mute defs Skip.
Proof.
  intros defs [|n] s s' o W H; [discriminate H|]. injection H as <- <-. split; [reflexivity|]. exists []. split; [reflexivity|intros t []].
Qed.
Lemma derivative_plain_mute : forall defs, (forall f, no_continue (defs f) = true) -> forall comps,
  forallb no_continue comps = true -> mute defs (derivative_code Skip Skip comps).
Proof. intros. apply derivative_mute; auto; apply skip_mute. Qed.

(** rf(values) and the process: whatever blocks and callbacks do inside with-blocks, and wherever they raise. *)
Lemma call_process : forall defs checks pre post recs n s s' o, wf s ->
  run defs n s (call_code checks pre post recs) = Some (s', o) ->
  p_ann s' = p_ann s /\ (forall k, p_stk s' k = p_stk s k) /\
  ((forall f, scoped (defs f) = true) -> forallb scoped (checks :: pre :: post :: recs) = true -> p_work s' = p_work s).
Proof.
  intros defs checks pre post recs n s s' o W H. split; [exact (with_restores defs n s 0 _ s' o W H)|].
  split; [now destruct (run_balanced defs n s _ s' o W H)|]. intros D N. cbn in N.
  repeat (apply andb_true_iff in N; destruct N as [? N]).
  apply (scoped_run defs D n s _ s' o) in H; [tauto|]. unfold call_code. cbn.
  rewrite H0, H1, H2. cbn. rewrite andb_true_r. clear - N. induction recs as [|c r IH]; [reflexivity|]. cbn in *. apply andb_true_iff in N as [A B]. rewrite A. now apply IH.
Qed.

(** Undecorated sweeps of single blocks *)
Definition mixes (cur : option pyt) (val : pyt) : nat := match cur, val with Some Adj, _ | Some Plain, Adj => 1 | _, _ => 0 end.
Lemma block_sweeps : forall (defs : nat -> code) (n : nat) (s : pst) (hin h0 h1 : option pyt), p_ann s = true ->
  exists s1 s2,
    run defs (4 + n) s (sub_hess_code hin h0 h1) = Some (s1, None) /\
    p_log s1 = repeat (Rec (p_work s)) (match hin with None => 0 | Some t => mixes h0 t + mixes h1 Plain end) ++ p_log s /\ p_ann s1 = true /\
    run defs (4 + n) s (neg_hess_code hin h0) = Some (s2, None) /\
    p_log s2 = repeat (Rec (p_work s)) (match hin with None => 0 | Some _ => mixes h0 Plain end) ++ p_log s /\ p_ann s2 = true.
Proof.
  intros defs n s hin h0 h1 H. destruct hin as [[|]|], h0 as [[|]|], h1 as [[|]|]; cbn; unfold op; cbn; rewrite ?H; cbn; rewrite ?H; do 2 eexists; repeat split; cbn; rewrite ?H; cbn; reflexivity.
Qed.
