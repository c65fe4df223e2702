(** Recording with a manager whose Forward actions all store: the variables used in every step stay in the
    manager's set of global dependencies. *)
From Coq Require Import List Arith ZArith Lia Bool.
From Verif Require Import Base Model BaseFacts Graph Record Spec RecordFacts Replay ReplayExec History Session Ckpt SpecCkpt CkptProtocol CkptRecord CkptStep CkptInv CkptTape.
Import ListNotations.

(** ** A statement changes only the last step's blocks and no dictionary *)
Section Frame.
Context {V : Type} (F : fops V).
Implicit Types (t : tape V) (w : world V).

Definition tg t t' : Prop := t_steps t <> [] ->
  t_steps t' <> [] /\ map (@ts_ckpt V) (t_steps t') = map (@ts_ckpt V) (t_steps t) /\
  removelast (map (@ts_blocks V) (t_steps t')) = removelast (map (@ts_blocks V) (t_steps t)) /\
  incl (outs_of (t_flat t)) (outs_of (t_flat t')).
Lemma tg_refl : forall t, tg t t.
Proof. intros t H. repeat split; auto. apply incl_refl. Qed.
Lemma tg_trans : forall a b c, tg a b -> tg b c -> tg a c.
Proof.
  intros a b c H1 H2 Ha. destruct (H1 Ha) as [A1 [A2 [A3 A4]]]. destruct (H2 A1) as [B1 [B2 [B3 B4]]].
  split; [exact B1|]. split; [congruence|]. split; [congruence|]. eapply incl_tran; eauto.
Qed.
Lemma tg_eq : forall t t', t' = t -> tg t t'.
Proof. intros t t' ->. apply tg_refl. Qed.
Lemma map_map_from : forall {A B} (g : A -> B) (f : A -> A) (l : list A) k, (forall x, g (f x) = g x) -> map g (map_from k f l) = map g l.
Proof. intros A B g f l. induction l as [|x l IH]; intros k H; [reflexivity|]. cbn. destruct k; cbn; rewrite ?H, IH by exact H; reflexivity. Qed.
Lemma map_from_nil : forall {A} (f : A -> A) (l : list A) k, l <> [] -> map_from k f l <> [].
Proof. intros A f [|x l] k H; [congruence|]. destruct k; discriminate. Qed.
Lemma ensure_id : forall t, t_steps t <> [] -> ensure_step t = t.
Proof. intros t H. unfold ensure_step. destruct (t_steps t); [congruence|reflexivity]. Qed.
Lemma tg_state : forall t v l, tg t (add_to_state t v l).
Proof.
  intros t v l H. unfold add_to_state. rewrite ensure_id by exact H. cbn. split; [now apply map_from_nil|].
  rewrite !map_map_from by reflexivity. repeat split; auto. apply incl_refl.
Qed.
Lemma tg_adjdeps : forall t v l, tg t (add_to_adjdeps t v l).
Proof.
  intros t v l H. unfold add_to_adjdeps. rewrite ensure_id by exact H. cbn. split; [now apply map_from_nil|].
  rewrite !map_map_from by reflexivity. repeat split; auto. apply incl_refl.
Qed.
Lemma map_map_last : forall {A B} (g : A -> B) (f : A -> A) (l : list A), (forall x, g (f x) = g x) -> map g (map_last f l) = map g l.
Proof. intros A B g f l H. induction l as [|x l IH]; [reflexivity|]. destruct l as [|y l]; cbn in *; [now rewrite H|]. now rewrite IH. Qed.
Lemma removelast_map_last : forall {A B} (g : A -> B) (f : A -> A) (l : list A), removelast (map g (map_last f l)) = removelast (map g l).
Proof.
  intros A B g f l. induction l as [|x l IH]; [reflexivity|]. destruct l as [|y l]; [reflexivity|].
  change (map_last f (x :: y :: l)) with (x :: map_last f (y :: l)). cbn [map] in *.
  assert (N : map g (map_last f (y :: l)) <> []) by (destruct l; discriminate).
  destruct (map g (map_last f (y :: l))) as [|z q]; [congruence|]. cbn [removelast] in *. now rewrite IH.
Qed.
Lemma map_last_nil : forall {A} (f : A -> A) (l : list A), l <> [] -> map_last f l <> [].
Proof. intros A f [|x [|y l]] H; [congruence|discriminate|discriminate]. Qed.
Lemma tg_add_block : forall t b, tg t (add_block t b).
Proof.
  intros t b H. unfold add_block. rewrite ensure_id by exact H. cbn. split; [now apply map_last_nil|].
  rewrite map_map_last by reflexivity. rewrite removelast_map_last. repeat split; auto.
  intros v Hv. unfold outs_of. rewrite flat_map_app. apply in_or_app. now left.
Qed.
Lemma outs_map_last : forall v (l : list (block V)), incl (outs_of l) (outs_of (map_last (push_out v) l)).
Proof.
  intros v l. induction l as [|b l IH]; [apply incl_refl|]. destruct l as [|c l].
  - intros u Hu. cbn in *. rewrite app_nil_r in *. apply in_or_app. now left.
  - intros u Hu. change (map_last (push_out v) (b :: c :: l)) with (b :: map_last (push_out v) (c :: l)).
    unfold outs_of in *. cbn [flat_map] in *. apply in_app_iff in Hu as [Hu|Hu]; apply in_or_app; [now left|right]. now apply IH.
Qed.
Lemma tg_last_push : forall v t, tg t (last_push_out v t).
Proof.
  intros v t H. cbn. split; [now apply map_last_nil|]. rewrite map_map_last by reflexivity. rewrite removelast_map_last. repeat split; auto. apply outs_map_last.
Qed.

Definition wg w w' : Prop := tg (w_tape w) (w_tape w').
Lemma wg_trans : forall a b c, wg a b -> wg b c -> wg a c.
Proof. intros a b c. apply tg_trans. Qed.
Lemma wg_create : forall w o, wg w (fst (create_bv w o)).
Proof. intros w o. unfold create_bv. destruct (nth_error (w_objs w) o); apply tg_refl. Qed.
Lemma wg_get : forall w o, wg w (fst (get_bv w o)).
Proof. intros w o. unfold get_bv. destruct (nth_error (w_objs w) o) as [ob|]; [|apply tg_refl]. destruct (o_bv ob); [apply tg_refl|apply wg_create]. Qed.
Lemma wg_will_dep : forall w v, wg w (will_dep w v).
Proof.
  intros w v. unfold wg, will_dep. cbn [with_heap with_tape w_tape].
  destruct (match t_latest _ with None => true | Some _ => _ end); cbn [with_heap w_tape]; apply tg_state.
Qed.
Lemma wg_will_out : forall w v, wg w (will_out w v).
Proof. intros w v. unfold wg, will_out. cbn [with_heap with_tape w_tape]. destruct (t_eager _); cbn [with_heap w_tape]; apply tg_adjdeps. Qed.
Lemma wg_add_deps : forall os w, wg w (fst (add_deps w os)).
Proof.
  induction os as [|o r IH]; intros w; [apply tg_refl|]. cbn [add_deps]. unfold add_dep.
  pose proof (wg_get w o) as A. destruct (get_bv w o) as [w1 v]. cbn [fst] in A.
  specialize (IH (will_dep w1 v)). destruct (add_deps (will_dep w1 v) r) as [w2 vs]. cbn [fst] in *.
  eapply wg_trans; [exact A|]. eapply wg_trans; [apply wg_will_dep|exact IH].
Qed.
Lemma wg_get_bvs : forall os w, wg w (fst (get_bvs w os)).
Proof.
  induction os as [|o r IH]; intros w; [apply tg_refl|]. cbn [get_bvs].
  pose proof (wg_get w o) as A. destruct (get_bv w o) as [w1 v]. cbn [fst] in A.
  specialize (IH w1). destruct (get_bvs w1 r) as [w2 vs]. cbn [fst] in *. eapply wg_trans; eauto.
Qed.
Lemma wg_add_outs : forall os w, wg w (fst (add_outs w os)).
Proof.
  induction os as [|o r IH]; intros w; [apply tg_refl|]. cbn [add_outs].
  pose proof (wg_create w o) as A. destruct (create_bv w o) as [w1 v]. cbn [fst] in A.
  specialize (IH (will_out w1 v)). destruct (add_outs (will_out w1 v) r) as [w2 vs]. cbn [fst] in *.
  eapply wg_trans; [exact A|]. eapply wg_trans; [apply wg_will_out|exact IH].
Qed.
Lemma wg_new_objs : forall ys w, wg w (fst (new_objs w ys)).
Proof.
  induction ys as [|y r IH]; intros w; [apply tg_refl|]. cbn [new_objs new_obj]. cbv beta iota zeta.
  match goal with |- context[new_objs ?x r] => pose proof (IH x) as A; destruct (new_objs x r) end. exact A.
Qed.
Lemma wg_block : forall w b, wg w (with_tape (fun t => add_block t b) w).
Proof. intros w b. apply tg_add_block. Qed.
Lemma wg_push : forall w v, wg w (with_tape (last_push_out v) w).
Proof. intros w v. apply tg_last_push. Qed.

Lemma wg_stmt : forall w c, pure_stmt c = true -> c <> SEndStep -> wg w (fst (exec_stmt F w c)).
Proof.
  intros w c Hc Hd. destruct c; cbn [exec_stmt]; try discriminate; try (now elim Hd); try apply tg_refl.
  - unfold exec_op. destruct (negb _); [apply tg_refl|]. destruct (arg_vals w args) as [xs|]; [|apply tg_refl]. destruct (op_value F k xs) as [y|]; [|apply tg_refl].
    cbn [new_obj]. set (w1 := with_objs _ w). destruct (w_ann w); [|apply tg_refl].
    assert (A0 : wg w w1) by apply tg_refl. pose proof (wg_get_bvs args w1) as A. destruct (get_bvs w1 args) as [w2 ts].
    pose proof (wg_add_deps args w2) as B. destruct (add_deps w2 args) as [w3 ds]. cbn [fst] in *.
    pose proof (wg_block w3 (Blk k ts [] None)) as C. set (w4 := with_tape _ w3) in *. pose proof (wg_get w4 (length (w_objs w))) as D.
    destruct (get_bv w4 _) as [w5 v]. cbn [fst] in *.
    repeat (eapply wg_trans; [eassumption|]). eapply wg_trans; [apply wg_will_out|apply wg_push].
  - unfold exec_fun. destruct (negb _); [apply tg_refl|]. destruct (arg_vals w args) as [xs|]; [|apply tg_refl].
    match goal with |- context[new_obj ?x _] => set (w1 := x) end.
    assert (A : wg w w1).
    { unfold w1. destruct (w_ann w && annotate); [|apply tg_refl]. pose proof (wg_add_deps args w) as B. destruct (add_deps w args) as [w3 ds]. cbn [fst] in B.
      eapply wg_trans; [exact B|apply wg_block]. }
    destruct (op_value F k xs); [|exact A]. cbn [new_obj]. set (w2 := with_objs _ w1). assert (A2 : wg w w2) by exact A.
    destruct (w_ann w && annotate); [|exact A]. pose proof (wg_get w2 (length (w_objs w1))) as D. destruct (get_bv w2 _) as [w5 v]. cbn [fst] in *.
    eapply wg_trans; [exact A2|]. eapply wg_trans; [exact D|]. eapply wg_trans; [apply wg_will_out|apply wg_push].
  - unfold exec_user. destruct (arg_vals w args) as [xs|]; [|apply tg_refl].
    set (r := if w_ann w && annotate then add_deps w args else (w, [])).
    assert (B : wg w (fst r)) by (unfold r; destruct (w_ann w && annotate); [apply wg_add_deps|apply tg_refl]).
    destruct r as [w1 deps]. cbn [fst] in *. destruct (func xs) as [ys|]; [|exact B].
    pose proof (wg_new_objs ys w1) as C. destruct (new_objs w1 ys) as [w2 os]. cbn [fst] in *. pose proof (wg_trans _ _ _ B C) as BC.
    destruct (w_ann w && annotate); [|exact BC]. pose proof (wg_add_outs os w2) as D. destruct (add_outs w2 os) as [w3 vs]. cbn [fst] in *.
    eapply wg_trans; [exact BC|]. eapply wg_trans; [exact D|apply wg_block].
  - destruct (nth_error (w_objs w) o); [|apply tg_refl]. pose proof (wg_get w o) as A. destruct (get_bv w o) as [w1 v]. exact A.
  - destruct (nth_error (w_objs w) o); [|apply tg_refl]. apply wg_get.
Qed.
End Frame.

(** ** The end of a step *)
Section Glob.
Context {V : Type} (F : fops V).
Implicit Types (s : cst V) (t : tstep V) (w : world V).

Definition keyed (l : list (tstep V)) : Prop := Forall (fun t => NoDup (map fst (ts_ckpt t))) l.
Lemma keyed_set : forall l i x, keyed l -> NoDup (map fst (ts_ckpt x)) -> keyed (list_set l i x).
Proof. intros l i x H Hx. revert i. induction H as [|y l Hy Hl IH]; intros i; [destruct i; constructor|]. destruct i; cbn; constructor; auto. apply IH. Qed.
Lemma keyed_nth : forall l i x, keyed l -> nth_error l i = Some x -> NoDup (map fst (ts_ckpt x)).
Proof. intros l i x H E. unfold keyed in H. rewrite Forall_forall in H. apply H. eapply nth_error_In; eauto. Qed.
Lemma store_saved_core : forall h t v, let t' := fst (store_saved h t v) in
  ts_blocks t' = ts_blocks t /\ ts_state t' = ts_state t /\ ts_adjdeps t' = ts_adjdeps t /\ ts_revised t' = ts_revised t /\ (NoDup (map fst (ts_ckpt t)) -> NoDup (map fst (ts_ckpt t'))).
Proof. intros h t v. unfold store_saved. destruct (_ && _); cbn; repeat split; auto. apply dput_nodup. Qed.
Lemma checkpoint_core : forall h g st adj t, let t' := fst (ts_checkpoint h g st adj t) in
  ts_blocks t' = ts_blocks t /\ ts_state t' = ts_state t /\ ts_adjdeps t' = ts_adjdeps t /\ ts_revised t' = ts_revised t /\ (NoDup (map fst (ts_ckpt t)) -> NoDup (map fst (ts_ckpt t'))).
Proof.
  intros h g st adj t. cbv zeta.
  set (P := fun t' : tstep V => ts_blocks t' = ts_blocks t /\ ts_state t' = ts_state t /\ ts_adjdeps t' = ts_adjdeps t /\ ts_revised t' = ts_revised t /\ (NoDup (map fst (ts_ckpt t)) -> NoDup (map fst (ts_ckpt t')))).
  assert (P0 : P t) by (repeat split; auto).
  assert (G : forall t1 t2, P t1 -> (ts_blocks t2 = ts_blocks t1 /\ ts_state t2 = ts_state t1 /\ ts_adjdeps t2 = ts_adjdeps t1 /\ ts_revised t2 = ts_revised t1 /\ (NoDup (map fst (ts_ckpt t1)) -> NoDup (map fst (ts_ckpt t2)))) -> P t2).
  { intros t1 t2 [A [B [C [D E]]]] [A' [B' [C' [D' E']]]]. repeat split; try congruence. auto. }
  assert (St : forall t1 v, P t1 -> P (fst (store_state h g t1 v))).
  { intros t1 v H. unfold store_state. destruct (mem v g); [|eapply G; [exact H|apply store_saved_core]]. eapply G; [exact H|]. cbn. repeat split; auto. apply dput_nodup. }
  assert (I : forall (f : tstep V -> nat -> tstep V * option exn), (forall t1 v, P t1 -> P (fst (f t1 v))) -> forall l t1, P t1 -> P (fst (iter_o f l t1))).
  { intros f Hf l t1 H. destruct (iter_o f l t1) as [t2 e] eqn:E. refine (iter_o_inv f P _ _ _ _ _ H E). intros t3 v t4 e4 _ H3 E4. specialize (Hf t3 v H3). now rewrite E4 in Hf. }
  change (P (fst (ts_checkpoint h g st adj t))). unfold ts_checkpoint.
  assert (H1 : P (fst (if st then iter_o (store_state h g) (ts_state t) t else (t, None)))) by (destruct st; [apply I; auto|exact P0]).
  destruct (if st then iter_o (store_state h g) (ts_state t) t else (t, None)) as [t1 [e|]]; cbn [andthen fst] in *; [exact H1|].
  destruct adj; [|exact H1]. apply I; [|exact H1]. intros t2 v H2. eapply G; [exact H2|apply store_saved_core].
Qed.

Lemma nth_list_set_same : forall {A} (l : list A) i x y, nth_error l i = Some x -> nth_error (list_set l i y) i = Some y.
Proof. intros A l. induction l as [|z l IH]; intros [|i] x y E; cbn in *; try discriminate; auto. eapply IH; eauto. Qed.
Lemma map_list_set : forall {A B} (g : A -> B) (l : list A) i x y, nth_error l i = Some x -> g y = g x -> map g (list_set l i y) = map g l.
Proof. intros A B g l. induction l as [|z l IH]; intros [|i] x y E H; cbn in *; try discriminate; [inversion E; subst; now rewrite H|]. f_equal. eapply IH; eauto. Qed.

Definition blocks_of s := map (@ts_blocks V) (t_steps (c_tape s)).
(** [c] is needed by step [L - 1], which does not compute it. *)
Definition needs (c L : nat) s : Prop :=
  exists t, nth_error (t_steps (c_tape s)) (L - 1) = Some t /\ In c (ts_state t) /\ ~ In c (outs_of (ts_blocks t)).
Definition held (c : nat) s s' : Prop := In c (cm_glob (c_man s')) /\ c_heap s' c = c_heap s c.

Lemma store_held : forall c n0 ics adj L s, needs c L s -> L = 1 \/ In c (cm_glob (c_man s)) ->
  let s' := fst (taping_store n0 ics adj L s) in held c s s' /\ needs c L s'.
Proof.
  intros c n0 ics adj L s [t [Et [Hs Ho]]] Hg. unfold taping_store. rewrite Et.
  set (gone := if Nat.eqb L 1 then [] else minus (cm_glob (c_man s)) (ts_state t)).
  set (g1 := if Nat.eqb L 1 then fold_left (fun l v => oadd v l) (ts_state t) (cm_glob (c_man s)) else minus (cm_glob (c_man s)) gone).
  assert (Og : forall l m, In c m \/ In c l -> In c (fold_left (fun l v => oadd v l) l m)).
  { induction l as [|u r IH]; intros m H; cbn; [destruct H as [H|[]]; exact H|]. apply IH. rewrite In_oadd. cbn in H. intuition. }
  assert (Hg1 : In c g1).
  { unfold g1, gone. destruct (Nat.eqb_spec L 1) as [E|E]; [apply Og; now right|]. destruct Hg as [Hg|Hg]; [contradiction|]. apply minus_In. split; [exact Hg|].
    intros X. apply minus_In in X. tauto. }
  assert (Hgone : ~ In c gone) by (unfold gone; destruct (Nat.eqb L 1); [intros []|]; intros X; apply minus_In in X; tauto).
  cbn [on_heap on_man c_heap c_man c_tape].
  pose proof (checkpoint_core (fold_left drop gone (c_heap s)) g1 (ics && Nat.eqb L (S n0)) adj t) as K.
  destruct (ts_checkpoint (fold_left drop gone (c_heap s)) g1 (ics && Nat.eqb L (S n0)) adj t) as [t1 e]. cbn [fst] in K. destruct K as [K1 [K2 _]].
  assert (H1 : fold_left drop gone (c_heap s) c = c_heap s c) by (rewrite drop_all; apply mem_false in Hgone; now rewrite Hgone).
  assert (N : needs c L (put_step (L - 1) t1 (on_heap (fun h => fold_left drop gone h) (on_man (set_glob g1) s)))).
  { exists t1. cbn. split; [eapply nth_list_set_same; eauto|]. rewrite K1, K2. auto. }
  destruct e as [e|]; cbn [fst].
  - split; [split; [exact Hg1|exact H1]|exact N].
  - split; [split; [exact Hg1|]|exact N]. cbn. rewrite !drop_all.
    replace (mem c (flat_map (@b_outs V) (ts_blocks t))) with false by (symmetry; now apply mem_false).
    replace (mem c (minus (ts_state t) g1)) with false by (symmetry; apply mem_false; intros X; apply minus_In in X; tauto).
    apply mem_false in Hgone. now rewrite Hgone.
Qed.
Lemma store_frame : forall n0 ics adj L s, let s' := fst (taping_store n0 ics adj L s) in
  blocks_of s' = blocks_of s /\ t_flat (c_tape s') = t_flat (c_tape s) /\ (keyed (t_steps (c_tape s)) -> keyed (t_steps (c_tape s'))).
Proof.
  intros n0 ics adj L s. unfold taping_store. destruct (nth_error (t_steps (c_tape s)) (L - 1)) as [t|] eqn:Et; [|cbn; auto].
  cbn [on_heap on_man c_heap c_man c_tape].
  match goal with |- context[ts_checkpoint ?h ?g ?x ?y t] => pose proof (checkpoint_core h g x y t) as K; destruct (ts_checkpoint h g x y t) as [t1 e] end.
  cbn [fst] in K. destruct K as [K1 [K2 [_ [_ K3]]]].
  assert (G : blocks_of (put_step (L - 1) t1 s) = blocks_of s) by (unfold blocks_of; cbn; eapply map_list_set; eauto).
  assert (Kd : keyed (t_steps (c_tape s)) -> keyed (list_set (t_steps (c_tape s)) (L - 1) t1)).
  { intros H. apply keyed_set; [exact H|]. apply K3. eapply keyed_nth; eauto. }
  destruct e as [e|]; cbn [fst]; (split; [exact G|split; [reflexivity|exact Kd]]).
Qed.

Lemma needs_append : forall c L s, needs c L s -> needs c L (on_tape_ (@append_step V) s).
Proof. intros c L s [t [E H]]. exists t. split; [|exact H]. cbn. rewrite nth_error_app1; [exact E|]. apply nth_error_Some. congruence. Qed.

Lemma taping_held : forall c a L s, needs c L s ->
  (In c (cm_glob (c_man s)) \/ L = 1 /\ exists n0 n1 ics adj st, a = AForward n0 n1 ics adj st /\ n0 < L /\ is_work st = false) ->
  let s' := fst (process_taping a L s) in held c s s' /\ needs c L s'.
Proof.
  intros c a L s N Hg. cbv zeta.
  assert (D : In c (cm_glob (c_man s)) -> held c s s /\ needs c L s) by (intros X; split; [split; auto|exact N]).
  destruct a as [n0 n1 ics adj st| | | | |]; cbn [process_taping];
    try (apply D; destruct Hg as [Hg|[_ [? [? [? [? [? [Hg _]]]]]]]]; [exact Hg|discriminate]).
  - destruct (Nat.ltb_spec L n0) as [G|G].
    { apply D. destruct Hg as [Hg|[_ [n0' [? [? [? [? [Hg [X _]]]]]]]]]; [exact Hg|]. inversion Hg; subst. lia. }
    set (s1 := on_tape_ (set_eager adj) s). assert (N1 : needs c L s1) by exact N.
    assert (St : held c s1 (fst (if Nat.ltb n0 L && negb (is_work st) then taping_store n0 ics adj L s1 else (s1, None))) /\
                 needs c L (fst (if Nat.ltb n0 L && negb (is_work st) then taping_store n0 ics adj L s1 else (s1, None)))).
    { destruct (Nat.ltb n0 L && negb (is_work st)) eqn:Eb.
      - apply store_held; [exact N1|]. destruct Hg as [Hg|[Hg _]]; auto.
      - split; [|exact N1]. split; [|reflexivity]. destruct Hg as [Hg|[_ [n0' [? [? [? [? [Hg [X Y]]]]]]]]]; [exact Hg|]. inversion Hg; subst.
        apply Nat.ltb_lt in X. rewrite X, Y in Eb. discriminate. }
    destruct (if Nat.ltb n0 L && negb (is_work st) then taping_store n0 ics adj L s1 else (s1, None)) as [s2 [e|]]; cbn [fst] in *; [exact St|].
    destruct (in_fwd L n0 n1 && lt_total L (c_man s2)); [|exact St]. destruct St as [A B].
    destruct ics; cbn [fst]; (split; [exact A|apply (needs_append c L s2 B)]).
  - assert (X : In c (cm_glob (c_man s))) by (destruct Hg as [Hg|[_ [? [? [? [? [? [Hg _]]]]]]]]; [exact Hg|discriminate]).
    destruct (match cm_total (c_man s) with Some n => _ | None => _ end); cbn [fst]; [|now apply D]. split; [split; [exact X|reflexivity]|exact N].
Qed.
Lemma taping_frame : forall a L s, let s' := fst (process_taping a L s) in
  (exists tl, blocks_of s' = blocks_of s ++ tl) /\ t_flat (c_tape s') = t_flat (c_tape s) /\ (keyed (t_steps (c_tape s)) -> keyed (t_steps (c_tape s'))).
Proof.
  intros a L s. cbv zeta.
  assert (D : (exists tl, blocks_of s = blocks_of s ++ tl) /\ t_flat (c_tape s) = t_flat (c_tape s) /\ (keyed (t_steps (c_tape s)) -> keyed (t_steps (c_tape s)))) by (split; [exists []; now rewrite app_nil_r|auto]).
  destruct a as [n0 n1 ics adj st| | | | |]; cbn [process_taping]; try exact D.
  - destruct (Nat.ltb L n0); [exact D|]. set (s1 := on_tape_ (set_eager adj) s).
    assert (St : blocks_of (fst (if Nat.ltb n0 L && negb (is_work st) then taping_store n0 ics adj L s1 else (s1, None))) = blocks_of s /\
       t_flat (c_tape (fst (if Nat.ltb n0 L && negb (is_work st) then taping_store n0 ics adj L s1 else (s1, None)))) = t_flat (c_tape s) /\
       (keyed (t_steps (c_tape s)) -> keyed (t_steps (c_tape (fst (if Nat.ltb n0 L && negb (is_work st) then taping_store n0 ics adj L s1 else (s1, None))))))).
    { destruct (Nat.ltb n0 L && negb (is_work st)); [|cbn; auto]. apply (store_frame n0 ics adj L s1). }
    destruct (if Nat.ltb n0 L && negb (is_work st) then taping_store n0 ics adj L s1 else (s1, None)) as [s2 [e|]]; cbn [fst] in *; destruct St as [A [B C]].
    + split; [exists []; now rewrite app_nil_r|auto].
    + destruct (in_fwd L n0 n1 && lt_total L (c_man s2)); [|split; [exists []; now rewrite app_nil_r|auto]].
      assert (Q : blocks_of (on_tape_ (@append_step V) s2) = blocks_of s ++ [[]]) by (unfold blocks_of in *; cbn; rewrite map_app, A; reflexivity).
      assert (Kd : keyed (t_steps (c_tape s)) -> keyed (t_steps (c_tape s2) ++ [ts_new])).
      { intros H. apply Forall_app. split; [now apply C|]. constructor; [constructor|constructor]. }
      destruct ics; cbn [fst]; (split; [exists [[]]; exact Q|split; [exact B|exact Kd]]).
  - destruct (match cm_total (c_man s) with Some n => _ | None => _ end); exact D.
Qed.

Lemma held_trans : forall c a b d, held c a b -> held c b d -> held c a d.
Proof. intros c a b d [_ A] [B1 B2]. split; [exact B1|congruence]. Qed.
Lemma loop_held : forall c L fuel s, needs c L s ->
  (In c (cm_glob (c_man s)) \/ L = 1 /\ exists n0 n1 ics adj st, cm_cur (c_man s) = AForward n0 n1 ics adj st /\ n0 < L /\ is_work st = false) ->
  held c s (fst (taping_loop fuel L s)) /\ needs c L (fst (taping_loop fuel L s)).
Proof.
  intros c L. induction fuel as [|f IH]; intros s N Hg; cbn [taping_loop]; pose proof (taping_held c (cm_cur (c_man s)) L s N Hg) as K;
    destruct (process_taping (cm_cur (c_man s)) L s) as [s1 [[|]|e]]; cbn [fst] in *; try exact K; destruct (next_act (c_man s1)) as [a|]; try exact K.
  destruct K as [K1 K2]. destruct (IH (on_man (push_fwd a) s1) K2) as [I1 I2]; [left; apply K1|]. split; [|exact I2]. eapply held_trans; [exact K1|exact I1].
Qed.
Lemma loop_frame : forall L fuel s, let s' := fst (taping_loop fuel L s) in
  (exists tl, blocks_of s' = blocks_of s ++ tl) /\ t_flat (c_tape s') = t_flat (c_tape s) /\ (keyed (t_steps (c_tape s)) -> keyed (t_steps (c_tape s'))).
Proof.
  intros L. cbv zeta. induction fuel as [|f IH]; intros s; cbn [taping_loop]; pose proof (taping_frame (cm_cur (c_man s)) L s) as K; cbv zeta in K;
    destruct (process_taping (cm_cur (c_man s)) L s) as [s1 [[|]|e]]; cbn [fst] in *; try exact K; destruct (next_act (c_man s1)) as [a|]; try exact K.
  destruct K as [[t1 K1] [K2 K3]]. destruct (IH (on_man (push_fwd a) s1)) as [[t2 I1] [I2 I3]]. change (blocks_of (on_man (push_fwd a) s1)) with (blocks_of s1) in I1.
  split; [exists (t1 ++ t2); now rewrite I1, K1, app_assoc|]. split; [exact (eq_trans I2 K2)|]. intros H. apply I3. now apply K3.
Qed.

(** ** The whole recording *)

(** What is known about [c] while step [L - 1] is recorded. *)
Definition used_before (c : nat) w (g : list nat) : Prop := 1 < steps_of w -> ~ In c (outs_of (t_flat (w_tape w))) ->
  (forall bs, In bs (removelast (map (@ts_blocks V) (t_steps (w_tape w)))) -> In c (deps_of bs)) -> In c g.

Lemma in_step : forall w t c, CInv [] w -> In t (t_steps (w_tape w)) -> In c (deps_of (ts_blocks t)) -> ~ In c (outs_of (t_flat (w_tape w))) ->
  In c (ts_state t) /\ ~ In c (outs_of (ts_blocks t)).
Proof.
  intros w t c C Ht Hd Ho. apply In_nth_error in Ht as [k Hk]. unfold deps_of in Hd. apply in_flat_map in Hd as [b [Hb Hd]].
  assert (Sub : forall v, In v (outs_of (ts_blocks t)) -> In v (outs_of (t_flat (w_tape w)))).
  { intros v Hv. rewrite <- (ls_flat _ _ _ _ (ci_ls _ _ C)). unfold outs_of in *. apply in_flat_map in Hv as [b' [Hb' Hv]]. apply in_flat_map. exists b'. split; [|exact Hv].
    apply in_flat_map. exists t. split; [eapply nth_error_In; eauto|exact Hb']. }
  split; [|intros X; apply Ho; now apply Sub].
  destruct (ls_dep _ _ _ _ (ci_ls _ _ C) k t b c Hk Hb Hd) as [K|K]; [exact K|]. apply (ls_adj _ _ _ _ (ci_ls _ _ C) k t Hk) in K. destruct K as [K|[_ []]].
  elim Ho. now apply Sub.
Qed.

Lemma steps_split : forall (l : list (tstep V)), l <> [] -> exists t, nth_error l (length l - 1) = Some t /\ map (@ts_blocks V) l = removelast (map (@ts_blocks V) l) ++ [ts_blocks t].
Proof.
  intros l. induction l as [|x l IH]; intros H; [congruence|]. destruct l as [|y l]; [exists x; auto|]. destruct IH as [t [A B]]; [discriminate|]. exists t. split; [|].
  - cbn [length] in *. replace (S (S (length l)) - 1) with (S (S (length l) - 1)) by lia. exact A.
  - cbn [map] in *. destruct (map (@ts_blocks V) l); cbn [removelast app] in *; f_equal; exact B.
Qed.

(** The end of step [L - 1], with the Forward action in force storing. *)
Lemma end_held : forall sc n fwd w m c, CInv [] w -> RecPos sc n fwd (steps_of w) m -> Forall storing fwd -> used_before c w (cm_glob m) ->
  forall (h : heap V) (t : tape V), t_steps t = t_steps (w_tape w) -> ~ In c (outs_of (t_flat (w_tape w))) -> (forall bs, In bs (map (@ts_blocks V) (t_steps (w_tape w))) -> In c (deps_of bs)) ->
  let s := CS h t m in let s' := fst (cm_end_timestep (steps_of w) s) in In c (cm_glob (c_man s')) /\ c_heap s' c = h c.
Proof.
  intros sc n fwd w m c C R Hs Hu h t Et Ho Hall. cbv zeta. unfold cm_end_timestep. cbn [c_man]. rewrite (rp_mode _ _ _ _ _ R).
  destruct (rp_split _ _ _ _ _ R) as [pre [n0 [n1 [ics [adj [st [rest [E1 [E2 [E3 [E4 [E5 E6]]]]]]]]]]]].
  assert (Sa : is_work st = false).
  { rewrite E1 in Hs. apply Forall_app in Hs as [_ Hs]. apply Forall_inv in Hs. apply Hs. }
  destruct (steps_split (t_steps (w_tape w)) (ls_ne _ _ _ _ (ci_ls _ _ C))) as [x [Hx Hb]].
  destruct (in_step w x c C) as [I1 I2].
  { eapply nth_error_In; eauto. }
  { apply Hall. rewrite Hb. apply in_or_app. right. now left. }
  { exact Ho. }
  destruct (loop_held c (steps_of w) (left_acts m) (CS h t m)) as [A _].
  - exists x. cbn [c_tape]. rewrite Et. auto.
  - cbn [c_man]. destruct (Nat.eq_dec (steps_of w) 1) as [E|E].
    + right. split; [exact E|]. exists n0, n1, ics, adj, st. split; [exact E3|]. split; [lia|exact Sa].
    + left. apply Hu; [|exact Ho|].
      * assert (steps_of w <> 0) by (unfold steps_of; pose proof (ls_ne _ _ _ _ (ci_ls _ _ C)); destruct (t_steps (w_tape w)); [congruence|discriminate]). lia.
      * intros bs Hbs. apply Hall. rewrite Hb. apply in_or_app. now left.
  - exact A.
Qed.

Record RecInv (n : nat) sc fwd rem (cw : cworld V) : Prop := {
  rv_man : exists m, cw_man cw = Some m /\ RecPos sc n fwd (steps_of (cw_w cw)) m /\ (forall c, used_before c (cw_w cw) (cm_glob m));
  rv_inv : CInv [] (cw_w cw);
  rv_keys : keyed (t_steps (w_tape (cw_w cw)));
  rv_len : steps_of (cw_w cw) + rem = n
}.

Lemma removelast_app1 : forall {A} (l : list A) x, removelast (l ++ [x]) = l.
Proof. intros A l x. rewrite removelast_app by discriminate. cbn. apply app_nil_r. Qed.

Lemma record_inv : forall sc n fwd, covering sc n fwd -> 1 <= n -> Forall storing fwd -> forall p cw, pure_program p ->
  RecInv n sc fwd (ends p) cw -> RecInv n sc fwd 0 (cexec F cw p).
Proof.
  intros sc n fwd Hc Hn Hs. induction p as [|c r IH]; intros cw Hp H; [exact H|].
  unfold pure_program in Hp. cbn [forallb] in Hp. apply andb_true_iff in Hp as [Hp1 Hp2].
  change (cexec F cw (c :: r)) with (cexec F (fst (cexec_stmt F cw c)) r). apply IH; [exact Hp2|]. clear IH.
  destruct H as [[m [Hm [R Hu]]] C K Hl].
  assert (D : c = SEndStep \/ c <> SEndStep) by (destruct c; (now left) || (right; discriminate)).
  destruct D as [->|D].
  - assert (E : cexec_stmt F cw SEndStep = let '(s1, e) := cm_end_timestep (S (Z.to_nat (latest_timestep (w_tape (cw_w cw))))) (cw_cst (cw_w cw) m) in (cst_cw (cw_w cw) s1, e)).
    { unfold cexec_stmt. now rewrite Hm. }
    rewrite (latest_steps (fun _ => False) (cw_w cw) (TInv_of _ _ C)) in E. cbn [ends] in Hl. unfold ends in Hl. cbn [filter length] in Hl. fold (ends r) in Hl.
    destruct (end_step_rec (fun _ => False) sc n fwd (cw_w cw) m Hc (TInv_of _ _ C) R) as [s1 [E1 [E2 [E3 [E4 E5]]]]]; [unfold ends in *; cbn in Hl; lia|].
    rewrite E1 in E. rewrite E. cbn [fst]. destruct E4 as [A1 [A2 A3]]; [unfold ends in *; cbn in Hl; lia|].
    pose proof (loop_frame (steps_of (cw_w cw)) (left_acts m) (cw_cst (cw_w cw) m)) as Fr. cbv zeta in Fr.
    assert (Ee : taping_loop (left_acts m) (steps_of (cw_w cw)) (cw_cst (cw_w cw) m) = (s1, None)) by (rewrite <- E1; unfold cm_end_timestep; cbn [cw_cst c_man]; now rewrite (rp_mode _ _ _ _ _ R)).
    rewrite Ee in Fr. cbn [fst] in Fr. destruct Fr as [[tl Fr1] [Fr2 Fr3]].
    assert (Tl : exists b, tl = [b]).
    { apply (f_equal (@length _)) in Fr1. unfold blocks_of in Fr1. rewrite app_length, !map_length in Fr1. unfold steps_of in A1. cbn in A1, Fr1.
      destruct tl as [|b [|b' tl]]; cbn in Fr1; try lia. eauto. }
    destruct Tl as [b ->].
    constructor.
    + exists (c_man s1). split; [reflexivity|]. split; [change (RecPos sc n fwd (steps_of (cww (cw_w cw) s1)) (c_man s1)); now rewrite A1|].
      intros v _ Ho Hall. change (w_tape (cw_w (cst_cw (cw_w cw) s1))) with (c_tape s1) in *. rewrite Fr2 in Ho. unfold blocks_of in Fr1. rewrite Fr1, removelast_app1 in Hall.
      pose proof (end_held sc n fwd (cw_w cw) m v C R Hs (Hu v) (w_heap (cw_w cw)) (w_tape (cw_w cw)) eq_refl Ho Hall) as X. cbv zeta in X.
      change (CS (w_heap (cw_w cw)) (w_tape (cw_w cw)) m) with (cw_cst (cw_w cw) m) in X. rewrite E1 in X. apply X.
    + apply CInv_of. exact E2.
    + apply Fr3. exact K.
    + change (steps_of (cww (cw_w cw) s1) + ends r = n). rewrite A1. unfold ends in *. cbn in Hl. lia.
  - assert (E : cexec_stmt F cw c = (CW (fst (exec_stmt F (cw_w cw) c)) (cw_man cw), snd (exec_stmt F (cw_w cw) c))).
    { unfold cexec_stmt. destruct c; try (destruct (exec_stmt F (cw_w cw) _); reflexivity). now elim D. }
    rewrite E. cbn [fst]. destruct (CI_stmt F (cw_w cw) c Hp1 D C) as [C1 C2].
    destruct (wg_stmt F (cw_w cw) c Hp1 D (ls_ne _ _ _ _ (ci_ls _ _ C))) as [_ [W2 [W3 W4]]].
    constructor; cbn [cw_w cw_man].
    + exists m. split; [exact Hm|]. rewrite C2. split; [exact R|]. intros v. unfold used_before in *. rewrite C2, W3. intros H1 H2 H3. apply Hu; auto.
    + exact C1.
    + unfold keyed in *. rewrite <- Forall_map with (f := @ts_ckpt V) (P := fun d => NoDup (map fst d)) in *. now rewrite W2.
    + rewrite C2. rewrite <- Hl. f_equal. unfold ends. cbn [filter]. destruct c; reflexivity || now elim D.
Qed.

Lemma session_rec : forall pkg sc n fwd ann p s, covering sc n fwd -> 1 <= n -> Forall storing fwd -> pure_program p -> S (ends p) = n -> ckpt_session F pkg sc ann p s ->
  exists w m, s = cw_cst w m /\ CInv [] w /\ RecPos sc n fwd n m /\ steps_of w = n /\ keyed (t_steps (w_tape w)) /\ forall c, used_before c w (cm_glob m).
Proof.
  intros pkg sc n fwd ann p s Hc Hn Hs Hp He [cw [m [H1 [H2 H3]]]].
  destruct (enable_spec F pkg sc n fwd ann cw Hc Hn H1) as [m0 [E1 [E2 [E3 [E4 [E5 E6]]]]]].
  destruct (record_inv sc n fwd Hc Hn Hs p cw Hp) as [[m' [Hm [R Hu]]] C K Hl].
  - constructor; [|exact E2| |rewrite E4; lia].
    + exists m0. split; [exact E1|]. rewrite E4. split; [exact E5|]. intros c X. rewrite E4 in X. lia.
    + unfold keyed. apply Forall_forall. intros t Ht.
      assert (Z : forall e, ~ In e (ts_ckpt t)).
      { intros e He'. destruct (ci_dict _ _ E2 t e Ht He') as [X _]. rewrite <- (tw_next _ _ E3) in X. cbn in X. lia. }
      destruct (ts_ckpt t) as [|e d]; [constructor|]. elim (Z e). now left.
  - rewrite Hm in H2. inversion H2; subst m'. exists (cw_w (cexec F cw p)), m. rewrite Nat.add_0_r in Hl. rewrite Hl in R. auto 10.
Qed.
End Glob.
