(** The invariant of recording: what every world reached by a program satisfies. *)
From Coq Require Import List Arith ZArith Lia Bool.
From Verif Require Import Base Model BaseFacts Graph Record Spec.
Import ListNotations.

(** ** Lists *)
Lemma nth_list_set : forall {A} (l : list A) i x j,
  nth_error (list_set l i x) j = if Nat.eqb i j then match nth_error l i with Some _ => Some x | None => None end else nth_error l j.
Proof.
  intros A l. induction l as [|y r IH]; intros i x j; cbn.
  - destruct i, j; cbn; try reflexivity. destruct (Nat.eqb i j); reflexivity.
  - destruct i, j; cbn; try reflexivity. apply IH.
Qed.
Lemma length_list_set : forall {A} (l : list A) i x, length (list_set l i x) = length l.
Proof. intros A l. induction l; intros [|i] x; cbn; auto. Qed.
Lemma map_last_app : forall {A} (f : A -> A) l x, map_last f (l ++ [x]) = l ++ [f x].
Proof.
  intros A f l x. induction l as [|y r IH]; [reflexivity|].
  cbn. destruct (r ++ [x]) eqn:E; [destruct r; discriminate|]. now rewrite IH.
Qed.
Lemma nth_error_some_lt : forall {A} (l : list A) i x, nth_error l i = Some x -> i < length l.
Proof. intros. apply nth_error_Some. congruence. Qed.
Lemma Forall2_impl' : forall {A B} (P Q : A -> B -> Prop) l m,
  (forall a b, P a b -> Q a b) -> Forall2 P l m -> Forall2 Q l m.
Proof. intros A B P Q l m H HF. induction HF; constructor; auto. Qed.

Section Facts.
Context {V : Type} (F : fops V).
(** Block variables held by a block object under construction. *)
Context (pend : list nat).
Implicit Types (w : world V) (h : heap V).

Definition verb (b : bvar V) : ver := (bv_obj b, bv_gen b).
Definition ghost (b : bvar V) := (bv_obj b, bv_gen b, bv_rec b).
Definition flat w := t_flat (w_tape w).
Definition refs w := vars_of (flat w) ++ w_ctrls w ++ pend.
Definition cur w (o v : nat) := exists ob, nth_error (w_objs w) o = Some ob /\ o_bv ob = Some v.
Definition current w v := exists o, cur w o v.
Definition live w v := In v (refs w) \/ current w v.

(** The recorded values satisfy each block. *)
Definition block_rec (G : nat -> V) (b : block V) : Prop :=
  forall i o, nth_error (b_outs b) i = Some o ->
    comp_recompute F (b_kind b) (map G (b_deps b)) i = Ok (Some (G o)).
Definition recs h := fun v => bv_rec (h v).

(** Operator blocks have the right number of dependencies and at most one output. *)
Definition shaped (b : block V) : Prop :=
  match b_kind b with
  | KUser _ => True
  | k => length (b_deps b) = arity k /\ length (b_outs b) <= 1
  end.

Record WInv w : Prop := {
  wi_cur : forall o ob v, nth_error (w_objs w) o = Some ob -> o_bv ob = Some v ->
    v < w_next w /\ ghost (w_heap w v) = (o, o_gen ob, o_val ob) /\ bv_out (w_heap w v) = o_val ob;
  wi_live : forall v, In v (refs w) ->
    v < w_next w /\ exists ob, nth_error (w_objs w) (bv_obj (w_heap w v)) = Some ob /\ bv_gen (w_heap w v) <= o_gen ob;
  wi_uniq : forall v1 v2, live w v1 -> live w v2 -> verb (w_heap w v1) = verb (w_heap w v2) -> v1 = v2;
  wi_none : forall o ob v, nth_error (w_objs w) o = Some ob -> o_bv ob = None -> In v (refs w) ->
    verb (w_heap w v) <> (o, o_gen ob);
  wi_ckpt : forall v x, live w v -> bv_ckpt (w_heap w v) = Some x -> x = bv_rec (w_heap w v);
  wi_dep : forall v, In v (deps_of (flat w)) -> bv_ckpt (w_heap w v) <> None;
  wi_ctrl : forall v, bv_ctrl (w_heap w v) = false;
  wi_clean : forall v, bv_adj (w_heap w v) = None /\ bv_tlm (w_heap w v) = None /\ bv_hess (w_heap w v) = None /\ bv_mark (w_heap w v) = false;
  wi_wf : wf_tape (flat w);
  wi_rec : Forall (block_rec (recs (w_heap w))) (flat w);
  wi_shape : Forall shaped (flat w)
}.

(** How bookkeeping actions (block variables created, checkpoints taken) change a world. *)
Record evolves w w' : Prop := {
  ev_next : w_next w <= w_next w';
  ev_flat : flat w' = flat w;
  ev_ctrls : w_ctrls w' = w_ctrls w;
  ev_ann : w_ann w' = w_ann w;
  ev_len : length (w_objs w') = length (w_objs w);
  ev_ghost : forall v, v < w_next w -> ghost (w_heap w' v) = ghost (w_heap w v);
  ev_ckpt : forall v, v < w_next w -> bv_ckpt (w_heap w v) <> None -> bv_ckpt (w_heap w' v) <> None;
  ev_objs : forall o ob, nth_error (w_objs w) o = Some ob ->
    exists ob', nth_error (w_objs w') o = Some ob' /\ o_val ob' = o_val ob /\ o_gen ob' = o_gen ob /\
      (forall v, o_bv ob = Some v -> o_bv ob' = Some v) /\
      (forall v, o_bv ob' = Some v -> o_bv ob = Some v \/ (o_bv ob = None /\ w_next w <= v))
}.

Lemma evolves_refl : forall w, evolves w w.
Proof. intros w. constructor; auto. intros o ob H. exists ob. repeat split; auto. Qed.

Lemma evolves_trans : forall w1 w2 w3, evolves w1 w2 -> evolves w2 w3 -> evolves w1 w3.
Proof.
  intros w1 w2 w3 A B. destruct A as [a1 a2 a3 a4 a5 a6 a7 a8], B as [b1 b2 b3 b4 b5 b6 b7 b8].
  constructor; try congruence; try lia.
  - intros v Hv. rewrite b6 by lia. now apply a6.
  - intros v Hv Hc. apply b7; [lia|]. now apply a7.
  - intros o ob Ho. destruct (a8 o ob Ho) as [ob2 [H1 [H2 [H3 [H4 H5]]]]].
    destruct (b8 o ob2 H1) as [ob3 [K1 [K2 [K3 [K4 K5]]]]].
    exists ob3. repeat split; try congruence; auto.
    intros v Hv. destruct (K5 v Hv) as [Hx|[Hx Hy]]; [now apply H5|].
    right. split; [|lia]. destruct (o_bv ob) as [u|] eqn:E; [|reflexivity].
    rewrite (H4 u eq_refl) in Hx. discriminate.
Qed.

Lemma evolves_cur : forall w w' o v, evolves w w' -> cur w o v -> cur w' o v.
Proof.
  intros w w' o v E [ob [H1 H2]]. destruct (ev_objs _ _ E _ _ H1) as [ob' [K1 [_ [_ [K4 _]]]]].
  exists ob'. auto.
Qed.

Lemma cur_fun : forall w o v1 v2, cur w o v1 -> cur w o v2 -> v1 = v2.
Proof. intros w o v1 v2 [a [A1 A2]] [b [B1 B2]]. congruence. Qed.

Lemma WInv_cur_lt : forall w o v, WInv w -> cur w o v -> v < w_next w.
Proof. intros w o v W [ob [H1 H2]]. now destruct (wi_cur w W _ _ _ H1 H2). Qed.
Lemma WInv_cur_obj : forall w o v, WInv w -> cur w o v -> bv_obj (w_heap w v) = o.
Proof. intros w o v W [ob [H1 H2]]. destruct (wi_cur w W _ _ _ H1 H2) as [_ [H _]]. now inversion H. Qed.

(** *** Heap-only changes of the saved value *)
Lemma WInv_heap : forall w w',
  WInv w -> w_objs w' = w_objs w -> w_next w' = w_next w -> flat w' = flat w -> w_ctrls w' = w_ctrls w ->
  (forall v, ghost (w_heap w' v) = ghost (w_heap w v) /\ bv_out (w_heap w' v) = bv_out (w_heap w v) /\
             bv_ctrl (w_heap w' v) = bv_ctrl (w_heap w v)) ->
  (forall v, bv_adj (w_heap w' v) = bv_adj (w_heap w v) /\ bv_tlm (w_heap w' v) = bv_tlm (w_heap w v) /\
             bv_hess (w_heap w' v) = bv_hess (w_heap w v) /\ bv_mark (w_heap w' v) = bv_mark (w_heap w v)) ->
  (forall v, bv_ckpt (w_heap w' v) = bv_ckpt (w_heap w v) \/
             (bv_ckpt (w_heap w' v) = Some (bv_out (w_heap w v)) /\ current w v)) ->
  WInv w'.
Proof.
  intros w w' W Ho Hn Hf Hc Hg Hcl Hk.
  assert (Hver : forall v, verb (w_heap w' v) = verb (w_heap w v)).
  { intros v. destruct (Hg v) as [G _]. unfold verb. unfold ghost in G. congruence. }
  assert (Hobj : forall v, bv_obj (w_heap w' v) = bv_obj (w_heap w v)).
  { intros v. specialize (Hver v). unfold verb in Hver. congruence. }
  assert (Hgen : forall v, bv_gen (w_heap w' v) = bv_gen (w_heap w v)).
  { intros v. specialize (Hver v). unfold verb in Hver. congruence. }
  assert (Hrec : forall v, bv_rec (w_heap w' v) = bv_rec (w_heap w v)).
  { intros v. destruct (Hg v) as [G _]. unfold ghost in G. congruence. }
  assert (Hrefs : refs w' = refs w) by (unfold refs; congruence).
  assert (Hlive : forall v, live w' v -> live w v).
  { intros v [H|[o [ob [H1 H2]]]]; [left; congruence|right]. exists o, ob. split; congruence. }
  constructor.
  - intros o ob v H1 H2. rewrite Ho in H1. rewrite Hn.
    destruct (wi_cur w W o ob v H1 H2) as [A [B C]]. destruct (Hg v) as [G1 [G2 _]].
    repeat split; congruence.
  - intros v Hv. rewrite Hrefs in Hv. destruct (wi_live w W v Hv) as [A [ob [B C]]].
    split; [congruence|]. exists ob. rewrite Ho, Hobj, Hgen. auto.
  - intros v1 v2 H1 H2 E. rewrite !Hver in E. apply (wi_uniq w W); auto.
  - intros o ob v H1 H2 H3. rewrite Hver. rewrite Hrefs in H3. rewrite Ho in H1. eapply (wi_none w W); eauto.
  - intros v x Hv Hx. rewrite Hrec. apply Hlive in Hv.
    destruct (Hk v) as [E|[E [o [ob [A B]]]]].
    + rewrite E in Hx. eapply (wi_ckpt w W); eauto.
    + rewrite E in Hx. inversion Hx; subst. destruct (wi_cur w W _ _ _ A B) as [_ [H1 H2]].
      unfold ghost in H1. congruence.
  - intros v Hv. rewrite Hf in Hv. destruct (Hk v) as [E|[E _]]; rewrite E; [now apply (wi_dep w W)|discriminate].
  - intros v. destruct (Hg v) as [_ [_ G]]. rewrite G. apply (wi_ctrl w W).
  - intros v. destruct (Hcl v) as [-> [-> [-> ->]]]. apply (wi_clean w W).
  - rewrite Hf. apply (wi_wf w W).
  - rewrite Hf. eapply Forall_impl; [|apply (wi_rec w W)].
    intros b Hb i o Hi. specialize (Hb i o Hi). unfold recs in *. rewrite Hrec, <- Hb. f_equal.
    apply map_ext. auto.
  - rewrite Hf. apply (wi_shape w W).
Qed.

(** *** Creating a block variable for a version that has none *)
Definition no_ref w (o : nat) : Prop :=
  forall ob v, nth_error (w_objs w) o = Some ob -> In v (refs w) -> verb (w_heap w v) <> (o, o_gen ob).

Lemma create_bv_spec : forall w o ob, nth_error (w_objs w) o = Some ob ->
  create_bv w o =
      (World (list_set (w_objs w) o (Obj (o_val ob) (Some (w_next w)) (o_gen ob)))
             (upd (w_heap w) (w_next w) (fun _ => bv_new o (o_gen ob) (o_val ob)))
             (S (w_next w)) (w_tape w) (w_ann w) (w_ctrls w), w_next w).
Proof. intros w o ob H. unfold create_bv. now rewrite H. Qed.

Lemma WInv_create : forall w o ob, WInv w -> nth_error (w_objs w) o = Some ob -> no_ref w o ->
  WInv (fst (create_bv w o)).
Proof.
  intros w o ob W Ho Hnr. rewrite (create_bv_spec w o ob Ho). cbn [fst].
  set (n := w_next w). set (nb := bv_new o (o_gen ob) (o_val ob)).
  set (w' := World _ _ _ _ _ _).
  assert (Hh : forall v, w_heap w' v = if Nat.eqb v n then nb else w_heap w v) by reflexivity.
  assert (Hlt : forall v, v < n -> w_heap w' v = w_heap w v).
  { intros v Hv. rewrite Hh. destruct (Nat.eqb_spec v n); [lia|reflexivity]. }
  assert (Hn : w_heap w' n = nb) by (rewrite Hh, Nat.eqb_refl; reflexivity).
  assert (Href : refs w' = refs w) by reflexivity.
  assert (Hrlt : forall v, In v (refs w) -> v < n) by (intros v Hv; now destruct (wi_live w W v Hv)).
  assert (Hobjs : forall i, nth_error (w_objs w') i = if Nat.eqb o i then Some (Obj (o_val ob) (Some n) (o_gen ob)) else nth_error (w_objs w) i).
  { intros i. unfold w'. cbn [w_objs]. rewrite nth_list_set, Ho. reflexivity. }
  assert (Hcur : forall i v, cur w' i v -> (i = o /\ v = n) \/ (i <> o /\ cur w i v)).
  { intros i v [b [H1 H2]]. rewrite Hobjs in H1. destruct (Nat.eqb_spec o i).
    - left. inversion H1; subst. cbn in H2. split; [reflexivity|congruence].
    - right. split; [congruence|]. exists b. auto. }
  assert (Hclt : forall i v, cur w i v -> v < n) by (intros; eapply WInv_cur_lt; eauto).
  constructor.
  - intros i b v H1 H2.
    destruct (Hcur i v) as [[-> ->]|[Hne Hc]]; [exists b; auto| |].
    + rewrite Hobjs, Nat.eqb_refl in H1. inversion H1; subst b. rewrite Hn. cbn. split; [unfold n; lia|]. split; reflexivity.
    + rewrite Hobjs in H1. destruct (Nat.eqb_spec o i); [congruence|].
      destruct (wi_cur w W _ _ _ H1 H2) as [A [B C]]. rewrite Hlt by assumption. cbn. auto.
  - intros v Hv. rewrite Href in Hv. destruct (wi_live w W v Hv) as [A [b [B C]]]. cbn [w_next w'].
    split; [fold n; lia|]. rewrite Hlt by assumption.
    rewrite Hobjs. destruct (Nat.eqb_spec o (bv_obj (w_heap w v))) as [E|E].
    + exists (Obj (o_val ob) (Some n) (o_gen ob)). split; [reflexivity|]. cbn. rewrite <- E in B. congruence.
    + exists b. auto.
  - assert (K : forall v, live w' v -> v = n \/ (v < n /\ live w v /\ verb (w_heap w v) <> (o, o_gen ob))).
    { intros v [Hv|[i Hc]].
      - rewrite Href in Hv. right. split; [auto|]. split; [now left|]. eapply Hnr; eauto.
      - destruct (Hcur i v Hc) as [[_ ->]|[Hne Hcw]]; [now left|right].
        split; [eauto|]. split; [right; exists i; assumption|]. unfold verb.
        rewrite (WInv_cur_obj w i v W Hcw). congruence. }
    intros v1 v2 L1 L2 E.
    destruct (K v1 L1) as [->|[A1 [B1 C1]]], (K v2 L2) as [->|[A2 [B2 C2]]].
    + reflexivity.
    + rewrite Hn, Hlt in E by assumption. exfalso. apply C2. symmetry. exact E.
    + rewrite Hn, Hlt in E by assumption. exfalso. apply C1. exact E.
    + rewrite !Hlt in E by assumption. now apply (wi_uniq w W).
  - intros i b v H1 H2 H3. rewrite Href in H3. rewrite Hlt by auto. rewrite Hobjs in H1.
    destruct (Nat.eqb_spec o i); [inversion H1; subst b; discriminate|]. eapply (wi_none w W); eauto.
  - intros v x Hv Hx.
    assert (K : v = n \/ (v < n /\ live w v)).
    { destruct Hv as [Hv|[i Hc]]; [rewrite Href in Hv; right; split; [auto|now left]|].
      destruct (Hcur i v Hc) as [[_ ->]|[Hne Hcw]]; [now left|right]. split; [eauto|right; now exists i]. }
    destruct K as [->|[Hvn Hvl]].
    + rewrite Hn in Hx. discriminate.
    + rewrite Hlt in * by assumption. eapply (wi_ckpt w W); eauto.
  - intros v Hv. change (flat w') with (flat w) in Hv.
    rewrite Hlt. { now apply (wi_dep w W). } apply Hrlt. unfold refs, vars_of. apply in_or_app. left. apply in_or_app. now left.
  - intros v. rewrite Hh. destruct (Nat.eqb v n); [reflexivity|apply (wi_ctrl w W)].
  - intros v. rewrite Hh. destruct (Nat.eqb v n); [repeat split|apply (wi_clean w W)].
  - exact (wi_wf w W).
  - change (flat w') with (flat w). apply Forall_forall. intros b Hb.
    pose proof (proj1 (Forall_forall _ _) (wi_rec w W) b Hb) as R. intros i v Hi. specialize (R i v Hi).
    assert (Hin : forall u, In u (b_deps b) \/ In u (b_outs b) -> recs (w_heap w') u = recs (w_heap w) u).
    { intros u Hu. unfold recs. rewrite Hlt; [reflexivity|]. apply Hrlt. unfold refs, vars_of, deps_of, outs_of.
      apply in_or_app. left. apply in_or_app. rewrite !in_flat_map. destruct Hu; [left|right]; eauto. }
    rewrite Hin by (right; eapply nth_error_In; eauto). rewrite <- R. f_equal.
    apply map_ext_in. intros u Hu. apply Hin. now left.
  - exact (wi_shape w W).
Qed.

Lemma evolves_create : forall w o ob, WInv w -> nth_error (w_objs w) o = Some ob -> o_bv ob = None ->
  evolves w (fst (create_bv w o)).
Proof.
  intros w o ob W Ho Hb. rewrite (create_bv_spec w o ob Ho). cbn [fst].
  constructor; cbn; auto.
  - apply length_list_set.
  - intros v Hv. rewrite upd_other by lia. reflexivity.
  - intros v Hv Hc. rewrite upd_other by lia. assumption.
  - intros i b Hi. rewrite nth_list_set, Ho. destruct (Nat.eqb_spec o i) as [->|].
    + assert (b = ob) by congruence. subst b. eexists. split; [reflexivity|]. cbn. repeat split; try congruence.
      intros v Hv. right. split; [assumption|]. inversion Hv. lia.
    + exists b. repeat split; auto.
Qed.

Lemma get_bv_spec : forall w o, WInv w -> o < length (w_objs w) ->
  let '(w', v) := get_bv w o in WInv w' /\ evolves w w' /\ cur w' o v.
Proof.
  intros w o W Ho. unfold get_bv.
  destruct (nth_error (w_objs w) o) as [ob|] eqn:E; [|apply nth_error_None in E; lia].
  destruct (o_bv ob) as [v|] eqn:Eb.
  - split; [assumption|]. split; [apply evolves_refl|]. exists ob. auto.
  - pose proof (create_bv_spec w o ob E) as Hs.
    pose proof (WInv_create w o ob W E) as Hw.
    pose proof (evolves_create w o ob W E Eb) as He.
    destruct (create_bv w o) as [w' v] eqn:Ec. cbn [fst] in *.
    split; [|split; [assumption|]].
    + apply Hw. intros b u Hb Hu. eapply (wi_none w W); eauto. congruence.
    + inversion Hs; subst. exists (Obj (o_val ob) (Some (w_next w)) (o_gen ob)). cbn. rewrite nth_list_set, Nat.eqb_refl, E. auto.
Qed.

(** *** Saving, tape metadata *)
Lemma flat_ensure : forall t : tape V, t_flat (ensure_step t) = t_flat t.
Proof. intros t. unfold ensure_step. destruct (t_steps t); reflexivity. Qed.
Lemma flat_add_to_state : forall (t : tape V) v l, t_flat (add_to_state t v l) = t_flat t.
Proof. intros. unfold add_to_state, set_steps. cbn. apply flat_ensure. Qed.
Lemma flat_add_to_adjdeps : forall (t : tape V) v l, t_flat (add_to_adjdeps t v l) = t_flat t.
Proof. intros. unfold add_to_adjdeps, set_steps. cbn. apply flat_ensure. Qed.
Lemma flat_add_block : forall (t : tape V) b, t_flat (add_block t b) = t_flat t ++ [b].
Proof. intros. unfold add_block. cbn. now rewrite flat_ensure. Qed.

(** What will_add_as_dependency / will_add_as_output do to one block variable. *)
Definition touch_rel (b b' : bvar V) : Prop :=
  ghost b' = ghost b /\ bv_out b' = bv_out b /\ bv_ctrl b' = bv_ctrl b /\
  (bv_adj b' = bv_adj b /\ bv_tlm b' = bv_tlm b /\ bv_hess b' = bv_hess b /\ bv_mark b' = bv_mark b) /\
  (bv_ckpt b' = bv_ckpt b \/ bv_ckpt b' = Some (bv_out b)).
Lemma touch_refl : forall b, touch_rel b b.
Proof. intros b. unfold touch_rel. repeat split; auto. Qed.
Lemma touch_trans : forall a b c, touch_rel a b -> touch_rel b c -> touch_rel a c.
Proof.
  intros a b c [A1 [A2 [A3 [[A4 [A5 [A6 A7]]] A8]]]] [B1 [B2 [B3 [[B4 [B5 [B6 B7]]] B8]]]].
  unfold touch_rel. repeat split; try congruence.
  destruct B8 as [E|E]; rewrite E, ?A2; auto.
Qed.
Lemma touch_save : forall ow b, touch_rel b (save_output ow b).
Proof. intros ow b. unfold save_output. destruct (ow || _); [|apply touch_refl]. unfold touch_rel. cbn. repeat split; auto. Qed.
Lemma touch_times : forall c l b, touch_rel b (set_times c l b).
Proof. intros. unfold touch_rel. cbn. repeat split; auto. Qed.

Lemma touch_upd : forall h v f, (forall b, touch_rel b (f b)) ->
  forall u, touch_rel (h u) (upd h v f u) /\ (u <> v -> upd h v f u = h u).
Proof.
  intros h v f Hf u. unfold upd. destruct (Nat.eqb_spec u v); [split; [apply Hf|congruence]|].
  split; [apply touch_refl|reflexivity].
Qed.

Record touches w w' v : Prop := {
  to_objs : w_objs w' = w_objs w; to_next : w_next w' = w_next w; to_flat : flat w' = flat w;
  to_ann : w_ann w' = w_ann w; to_ctrls : w_ctrls w' = w_ctrls w;
  to_rel : touch_rel (w_heap w v) (w_heap w' v);
  to_other : forall u, u <> v -> w_heap w' u = w_heap w u }.

Lemma touches_trans : forall w1 w2 w3 v, touches w1 w2 v -> touches w2 w3 v -> touches w1 w3 v.
Proof.
  intros w1 w2 w3 v [a1 a2 a3 a4 a5 a6 a7] [b1 b2 b3 b4 b5 b6 b7].
  constructor; try congruence. { eapply touch_trans; eauto. } intros u Hu. rewrite b7, a7; auto.
Qed.
Lemma touches_heap : forall w v f, (forall b, touch_rel b (f b)) -> touches w (with_heap (fun h => upd h v f) w) v.
Proof.
  intros w v f Hf. constructor; try reflexivity; cbn.
  - rewrite upd_same. apply Hf.
  - intros u Hu. now apply upd_other.
Qed.
Lemma touches_tape : forall w v f, (forall t : tape V, t_flat (f t) = t_flat t) -> touches w (with_tape f w) v.
Proof.
  intros w v f Hf. constructor; try reflexivity; cbn.
  - unfold flat. cbn. apply Hf.
  - apply touch_refl.
Qed.
Lemma touches_refl : forall w v, touches w w v.
Proof. intros. constructor; try reflexivity. apply touch_refl. Qed.

Lemma save_false_some : forall b : bvar V, bv_ckpt (save_output false b) <> None.
Proof. intros b. unfold save_output. destruct (bv_ckpt b) eqn:E; cbn; [rewrite E|]; discriminate. Qed.
Lemma save_keeps_some : forall ow (b : bvar V), bv_ckpt b <> None -> bv_ckpt (save_output ow b) <> None.
Proof. intros ow b H. unfold save_output. destruct (ow || _); cbn; [discriminate|assumption]. Qed.

Lemma will_dep_touches : forall w v, touches w (will_dep w v) v /\ bv_ckpt (w_heap (will_dep w v) v) <> None.
Proof.
  intros w v. unfold will_dep.
  set (w1 := with_heap (fun h => upd h v (save_output false)) w).
  assert (T1 : touches w w1 v) by (apply touches_heap, touch_save).
  set (w2 := if match t_latest (w_tape w1) with None => true | Some c => Z.ltb (bv_last (w_heap w1 v)) c end
             then with_heap (fun h => upd h v (save_output false)) w1 else w1).
  assert (T2 : touches w1 w2 v).
  { unfold w2. destruct (match t_latest (w_tape w1) with None => _ | _ => _ end); [apply touches_heap, touch_save|apply touches_refl]. }
  set (w3 := with_tape (fun t => add_to_state t v (bv_last (w_heap w1 v))) w2).
  assert (T3 : touches w2 w3 v) by (apply touches_tape; intros; apply flat_add_to_state).
  cbn zeta. fold w2. fold w3.
  set (w4 := with_heap _ w3).
  assert (T4 : touches w3 w4 v) by (apply touches_heap; intros; apply touch_times).
  split.
  - eapply touches_trans; [exact T1|]. eapply touches_trans; [exact T2|]. eapply touches_trans; eauto.
  - unfold w4. cbn. rewrite upd_same. cbn. change (bv_ckpt (w_heap w2 v) <> None).
    assert (C1 : bv_ckpt (w_heap w1 v) <> None) by (unfold w1; cbn; rewrite upd_same; apply save_false_some).
    unfold w2. destruct (match t_latest (w_tape w1) with None => _ | _ => _ end); [|exact C1].
    cbn. rewrite upd_same. now apply save_keeps_some.
Qed.

Lemma will_out_touches : forall w v, touches w (will_out w v) v.
Proof.
  intros w v. unfold will_out. cbn zeta.
  set (w1 := with_heap (fun h => upd h v (set_times _ _)) w).
  assert (T1 : touches w w1 v) by (apply touches_heap; intros; apply touch_times).
  set (w2 := if t_eager (w_tape w1) then _ else w1).
  assert (T2 : touches w1 w2 v) by (unfold w2; destruct (t_eager (w_tape w1)); [apply touches_heap, touch_save|apply touches_refl]).
  eapply touches_trans; [exact T1|]. eapply touches_trans; [exact T2|].
  apply touches_tape. intros. apply flat_add_to_adjdeps.
Qed.

Lemma touches_WInv : forall w w' v, touches w w' v -> current w v -> WInv w -> WInv w'.
Proof.
  intros w w' v [a1 a2 a3 a4 a5 a6 a7] Hc W. destruct a6 as [t1 [t2 [t3 [t4 t5]]]].
  apply (WInv_heap w); auto.
  - intros u. destruct (Nat.eq_dec u v) as [->|Hne]; [auto|rewrite a7 by assumption; auto].
  - intros u. destruct (Nat.eq_dec u v) as [->|Hne]; [auto|rewrite a7 by assumption; auto].
  - intros u. destruct (Nat.eq_dec u v) as [->|Hne]; [destruct t5; auto|rewrite a7 by assumption; auto].
Qed.
Lemma touches_evolves : forall w w' v, touches w w' v -> evolves w w'.
Proof.
  intros w w' v [a1 a2 a3 a4 a5 a6 a7]. destruct a6 as [t1 [t2 [t3 [t4 t5]]]]. constructor; try congruence; try lia.
  - intros u _. destruct (Nat.eq_dec u v) as [->|Hne]; [auto|now rewrite a7].
  - intros u _ Hc. destruct (Nat.eq_dec u v) as [->|Hne]; [|now rewrite a7].
    destruct t5 as [E|E]; rewrite E; [assumption|discriminate].
  - intros o ob H. rewrite a1. exists ob. repeat split; auto.
Qed.

Lemma add_dep_spec : forall w o, WInv w -> o < length (w_objs w) ->
  let '(w', v) := add_dep w o in WInv w' /\ evolves w w' /\ cur w' o v /\ bv_ckpt (w_heap w' v) <> None.
Proof.
  intros w o W Ho. unfold add_dep. pose proof (get_bv_spec w o W Ho) as H.
  destruct (get_bv w o) as [w1 v]. destruct H as [W1 [E1 C1]].
  destruct (will_dep_touches w1 v) as [T K].
  split; [eapply touches_WInv; eauto; exists o; assumption|].
  split; [eapply evolves_trans; [eassumption|eapply touches_evolves; eauto]|].
  split; [|assumption]. eapply evolves_cur; [eapply touches_evolves; eauto|assumption].
Qed.

Lemma add_deps_spec : forall os w, WInv w -> Forall (fun o => o < length (w_objs w)) os ->
  let '(w', vs) := add_deps w os in
  WInv w' /\ evolves w w' /\ Forall2 (cur w') os vs /\ Forall (fun v => bv_ckpt (w_heap w' v) <> None) vs.
Proof.
  induction os as [|o r IH]; intros w W Ho; cbn [add_deps].
  - split; [assumption|]. split; [apply evolves_refl|]. split; constructor.
  - inversion Ho as [|? ? Ho1 Ho2]; subst. pose proof (add_dep_spec w o W Ho1) as H.
    destruct (add_dep w o) as [w1 v]. destruct H as [W1 [E1 [C1 K1]]].
    specialize (IH w1 W1). destruct (add_deps w1 r) as [w2 vs].
    destruct IH as [W2 [E2 [C2 K2]]].
    { eapply Forall_impl; [|exact Ho2]. intros a Ha. now rewrite (ev_len _ _ E1). }
    split; [assumption|]. split; [eapply evolves_trans; eauto|]. split.
    + constructor; [eapply evolves_cur; eauto|assumption].
    + constructor; [|assumption]. apply (ev_ckpt _ _ E2); [|assumption]. eapply WInv_cur_lt; eauto.
Qed.

Lemma get_bvs_spec : forall os w, WInv w -> Forall (fun o => o < length (w_objs w)) os ->
  let '(w', vs) := get_bvs w os in WInv w' /\ evolves w w' /\ Forall2 (cur w') os vs.
Proof.
  induction os as [|o r IH]; intros w W Ho; cbn [get_bvs].
  - split; [assumption|]. split; [apply evolves_refl|constructor].
  - inversion Ho as [|? ? Ho1 Ho2]; subst. pose proof (get_bv_spec w o W Ho1) as H.
    destruct (get_bv w o) as [w1 v]. destruct H as [W1 [E1 C1]].
    specialize (IH w1 W1). destruct (get_bvs w1 r) as [w2 vs].
    destruct IH as [W2 [E2 C2]].
    { eapply Forall_impl; [|exact Ho2]. intros a Ha. now rewrite (ev_len _ _ E1). }
    split; [assumption|]. split; [eapply evolves_trans; eauto|].
    constructor; [eapply evolves_cur; eauto|assumption].
Qed.

(** *** New objects *)
Lemma WInv_new_obj : forall w x, WInv w -> WInv (fst (new_obj w x)).
Proof.
  intros w x W. unfold new_obj, with_objs. cbn [fst]. set (w' := World _ _ _ _ _ _).
  assert (Hnth : forall o ob, nth_error (w_objs w') o = Some ob ->
            nth_error (w_objs w) o = Some ob \/ (o = length (w_objs w) /\ ob = Obj x None 0)).
  { intros o ob H. cbn in H. destruct (lt_dec o (length (w_objs w))) as [Hl|Hl].
    - left. now rewrite nth_error_app1 in H.
    - right. rewrite nth_error_app2 in H by lia. destruct (o - length (w_objs w)) eqn:E; cbn in H.
      + inversion H. split; [lia|reflexivity].
      + destruct n; discriminate. }
  assert (Hcur : forall o v, cur w' o v -> cur w o v).
  { intros o v [ob [H1 H2]]. destruct (Hnth o ob H1) as [H|[-> ->]]; [exists ob; auto|discriminate]. }
  assert (Hlive : forall v, live w' v -> live w v).
  { intros v [H|[o H]]; [now left|right; exists o; auto]. }
  destruct W as [w1 w2 w3 w4 w5 w6 w7 w8 w9 w10 w11]. constructor; auto.
  - intros o ob v H1 H2. destruct (Hnth o ob H1) as [H|[-> ->]]; [eauto|discriminate].
  - intros v Hv. destruct (w2 v Hv) as [A [ob [B C]]]. split; [assumption|]. exists ob. split; [|assumption].
    cbn. rewrite nth_error_app1; [assumption|]. now apply nth_error_some_lt in B.
  - intros o ob v H1 H2 H3. destruct (Hnth o ob H1) as [H|[-> ->]]; [eauto|].
    destruct (w2 v H3) as [_ [b [B _]]]. apply nth_error_some_lt in B. unfold verb. intros E. inversion E. cbn [w_heap w'] in *. lia.
  - intros v y Hv Hy. apply (w5 v y); auto.
Qed.

(** *** Changing the tape's blocks *)
Lemma WInv_tape : forall w f, WInv w ->
  let w' := with_tape f w in
  (forall v, In v (vars_of (flat w')) -> In v (vars_of (flat w)) \/ In v pend \/ current w v) ->
  (forall v, In v (deps_of (flat w')) -> bv_ckpt (w_heap w v) <> None) ->
  wf_tape (flat w') -> Forall (block_rec (recs (w_heap w))) (flat w') -> Forall shaped (flat w') -> WInv w'.
Proof.
  intros w f W w' Hv Hd Hwf Hr Hs.
  assert (Hrefs : forall v, In v (refs w') -> live w v).
  { intros v H. unfold refs in H. apply in_app_iff in H as [H|H].
    - destruct (Hv v H) as [K|[K|K]]; [left; unfold refs; apply in_app_iff; now left| |now right].
      left. unfold refs. rewrite !in_app_iff. tauto.
    - left. unfold refs. apply in_app_iff. now right. }
  assert (Hlive : forall v, live w' v -> live w v).
  { intros v [H|H]; [auto|now right]. }
  pose proof W as [w1 w2 w3 w4 w5 w6 w7 w8 w9 w10 w11]. constructor; auto.
  - intros v H. destruct (Hrefs v H) as [K|[o [ob [A B]]]]; [exact (w2 v K)|].
    destruct (w1 _ _ _ A B) as [C [D E]]. split; [assumption|]. exists ob. unfold ghost in D. injection D as D1 D2 D3. cbn. rewrite D1, D2. split; [assumption|lia].
  - intros o ob v H1 H2 H3. destruct (Hrefs v H3) as [K|[i K]]; [exact (w4 o ob v H1 H2 K)|].
    unfold verb. cbn [w_heap with_tape w']. rewrite (WInv_cur_obj w i v W K). intros E. inversion E; subst i.
    destruct K as [b [B1 B2]]. cbn in H1. congruence.
  - intros v y K Hy. apply (w5 v y); auto.
Qed.

Lemma topo_snoc : forall (bs : list (block V)) b,
  topo bs -> (forall d, In d (b_deps b) -> ~ In d (b_outs b)) ->
  (forall d, In d (deps_of bs) -> ~ In d (b_outs b)) -> topo (bs ++ [b]).
Proof.
  induction bs as [|c r IH]; intros b Ht Hb Hd; cbn [app topo].
  - split; [|exact I]. intros d Hin. cbn. rewrite app_nil_r. auto.
  - destruct Ht as [Hc Ht]. split.
    + intros d Hin. unfold outs_of. cbn [flat_map]. rewrite flat_map_app. cbn [flat_map]. rewrite app_nil_r.
      rewrite app_assoc. rewrite in_app_iff. intros [H|H].
      * apply (Hc d Hin). unfold outs_of. now cbn [flat_map].
      * apply (Hd d); [|assumption]. unfold deps_of. cbn. apply in_or_app. now left.
    + apply IH; auto. intros d Hin. apply Hd. unfold deps_of. cbn. apply in_or_app. now right.
Qed.

Lemma wf_snoc : forall (bs : list (block V)) b,
  wf_tape bs -> (forall d, In d (b_deps b) -> ~ In d (b_outs b)) ->
  (forall d, In d (vars_of bs) -> ~ In d (b_outs b)) -> NoDup (b_outs b) -> wf_tape (bs ++ [b]).
Proof.
  intros bs b [Ht Hn] Hb Hd Ho. split.
  - apply topo_snoc; auto. intros d Hin. apply Hd. unfold vars_of. apply in_or_app. now left.
  - unfold outs_of. rewrite flat_map_app. cbn. rewrite app_nil_r.
    fold (outs_of bs). revert Hd. unfold vars_of. intros Hd.
    assert (Hd' : forall d, In d (outs_of bs) -> ~ In d (b_outs b)) by (intros d Hin; apply Hd; apply in_or_app; now right).
    clear Hd. revert Hd' Hn. generalize (outs_of bs). induction l as [|x r IH]; intros Hd' Hn; cbn; [assumption|].
    inversion Hn; subst. constructor.
    + rewrite in_app_iff. intros [H|H]; [contradiction|]. apply (Hd' x); [now left|assumption].
    + apply IH; auto. intros d Hin. apply Hd'. now right.
Qed.

Lemma vars_snoc : forall (bs : list (block V)) b v,
  In v (vars_of (bs ++ [b])) <-> In v (vars_of bs) \/ In v (b_deps b) \/ In v (b_outs b).
Proof.
  intros. unfold vars_of, deps_of, outs_of. rewrite !flat_map_app. cbn. rewrite !app_nil_r, !in_app_iff. tauto.
Qed.
Lemma deps_snoc : forall (bs : list (block V)) b v,
  In v (deps_of (bs ++ [b])) <-> In v (deps_of bs) \/ In v (b_deps b).
Proof. intros. unfold deps_of. rewrite flat_map_app. cbn. rewrite app_nil_r, in_app_iff. tauto. Qed.

End Facts.

Section Pend.
Context {V : Type} (F : fops V).
Implicit Types (w : world V).

Lemma WInv_sub : forall pend pend' w, WInv F pend w ->
  (forall v, In v pend' -> In v pend \/ current w v) -> WInv F pend' w.
Proof.
  intros pend pend' w W Hp.
  assert (Hrefs : forall v, In v (refs pend' w) -> live pend w v).
  { intros v H. unfold refs in H. rewrite !in_app_iff in H. destruct H as [H|[H|H]].
    - left. unfold refs. rewrite !in_app_iff. tauto.
    - left. unfold refs. rewrite !in_app_iff. tauto.
    - destruct (Hp v H); [left; unfold refs; rewrite !in_app_iff; tauto|now right]. }
  assert (Hlive : forall v, live pend' w v -> live pend w v).
  { intros v [H|H]; [auto|now right]. }
  pose proof W as [w1 w2 w3 w4 w5 w6 w7 w8 w9 w10 w11]. constructor; auto.
  - intros v H. destruct (Hrefs v H) as [K|[o [ob [A B]]]]; [exact (w2 v K)|].
    destruct (w1 _ _ _ A B) as [C [D E]]. split; [assumption|]. exists ob. unfold ghost in D. injection D as D1 D2 D3. rewrite D1, D2. split; [assumption|lia].
  - intros o ob v H1 H2 H3. destruct (Hrefs v H3) as [K|[i K]]; [exact (w4 o ob v H1 H2 K)|].
    unfold verb. rewrite (WInv_cur_obj F pend w i v W K). intros E. inversion E; subst i.
    destruct K as [b [B1 B2]]. congruence.
Qed.

(** *** Modifying an object's value and forgetting its block variable *)
Lemma WInv_update : forall pend w o x, WInv F pend w ->
  o < length (w_objs w) -> WInv F pend (clear_bv (assign_obj w o x) o).
Proof.
  intros pend w o x W Ho. unfold assign_obj.
  destruct (nth_error (w_objs w) o) as [ob|] eqn:E; [|apply nth_error_None in E; lia].
  unfold clear_bv, with_objs, with_heap. cbn [w_objs].
  rewrite nth_list_set, Nat.eqb_refl, E.
  set (w' := World _ _ _ _ _ _).
  assert (Hh : forall v, w_heap w' v = if Nat.eqb (bv_obj (w_heap w v)) o then set_out x (w_heap w v) else w_heap w v) by reflexivity.
  assert (Hg : forall v, ghost (w_heap w' v) = ghost (w_heap w v) /\ bv_ckpt (w_heap w' v) = bv_ckpt (w_heap w v) /\ bv_ctrl (w_heap w' v) = bv_ctrl (w_heap w v)).
  { intros v. rewrite Hh. destruct (Nat.eqb _ o); repeat split; reflexivity. }
  assert (Hver : forall v, verb (w_heap w' v) = verb (w_heap w v)).
  { intros v. destruct (Hg v) as [G _]. unfold verb. unfold ghost in G. congruence. }
  assert (Hobj : forall v, bv_obj (w_heap w' v) = bv_obj (w_heap w v)).
  { intros v. specialize (Hver v). unfold verb in Hver. congruence. }
  assert (Hgen : forall v, bv_gen (w_heap w' v) = bv_gen (w_heap w v)).
  { intros v. specialize (Hver v). unfold verb in Hver. congruence. }
  assert (Hrec : forall v, bv_rec (w_heap w' v) = bv_rec (w_heap w v)).
  { intros v. destruct (Hg v) as [G _]. unfold ghost in G. congruence. }
  assert (Hobjs : forall i, nth_error (w_objs w') i = if Nat.eqb o i then Some (Obj x None (S (o_gen ob))) else nth_error (w_objs w) i).
  { intros i. unfold w'. cbn [w_objs]. rewrite !nth_list_set, Nat.eqb_refl, E. cbn. destruct (Nat.eqb o i); reflexivity. }
  assert (Hcur : forall i v, cur w' i v -> i <> o /\ cur w i v).
  { intros i v [b [H1 H2]]. rewrite Hobjs in H1. destruct (Nat.eqb_spec o i).
    - inversion H1; subst. discriminate.
    - split; [congruence|]. exists b. auto. }
  assert (Hlive : forall v, live pend w' v -> live pend w v).
  { intros v [H|[i H]]; [now left|right; exists i; now apply Hcur]. }
  constructor.
  - intros i b v H1 H2. destruct (Hcur i v) as [Hne Hc]; [exists b; auto|].
    rewrite Hobjs in H1. destruct (Nat.eqb_spec o i); [congruence|].
    destruct (wi_cur F pend w W _ _ _ H1 H2) as [A [B C]]. destruct (Hg v) as [G1 _].
    split; [assumption|]. split; [congruence|]. rewrite Hh.
    rewrite (WInv_cur_obj F pend w i v W Hc). destruct (Nat.eqb_spec i o); [congruence|assumption].
  - intros v Hv. destruct (wi_live F pend w W v Hv) as [A [b [B C]]]. split; [exact A|].
    rewrite Hobj, Hgen, Hobjs. destruct (Nat.eqb_spec o (bv_obj (w_heap w v))) as [Eo|Eo].
    + exists (Obj x None (S (o_gen ob))). split; [reflexivity|]. cbn. rewrite <- Eo in B. assert (b = ob) by congruence. subst. lia.
    + exists b. auto.
  - intros v1 v2 H1 H2 Ee. rewrite !Hver in Ee. apply (wi_uniq F pend w W); auto.
  - intros i b v H1 H2 H3. rewrite Hver. rewrite Hobjs in H1.
    destruct (Nat.eqb_spec o i) as [<-|Hne]; [|eapply (wi_none F pend w W); eauto].
    inversion H1; subst b. cbn. destruct (wi_live F pend w W v H3) as [A [b [B C]]].
    intros Ee. unfold verb in Ee. injection Ee as E1 E2. rewrite E1 in B. assert (b = ob) by congruence. subst. lia.
  - intros v y Hv Hy. rewrite Hrec. destruct (Hg v) as [_ [G _]]. rewrite G in Hy. eapply (wi_ckpt F pend w W); eauto.
  - intros v Hv. destruct (Hg v) as [_ [G _]]. rewrite G. now apply (wi_dep F pend w W).
  - intros v. destruct (Hg v) as [_ [_ G]]. rewrite G. apply (wi_ctrl F pend w W).
  - intros v. rewrite Hh. destruct (wi_clean F pend w W v) as [c1 [c2 [c3 c4]]]. destruct (Nat.eqb _ o); repeat split; cbn; assumption.
  - exact (wi_wf F pend w W).
  - eapply Forall_impl; [|apply (wi_rec F pend w W)].
    intros b Hb i v Hi. specialize (Hb i v Hi). unfold recs in *. rewrite Hrec, <- Hb. f_equal.
    apply map_ext. auto.
  - exact (wi_shape F pend w W).
Qed.

(** *** Collecting an unreferenced block variable *)
Lemma WInv_clear : forall w o v, WInv F [] w -> cur w o v -> ~ In v (refs [] w) -> WInv F [] (clear_bv w o).
Proof.
  intros w o v W Hc Hnr. pose proof Hc as [ob [E Eb]]. unfold clear_bv. rewrite E.
  unfold with_objs. set (w' := World _ _ _ _ _ _).
  assert (Hobjs : forall i, nth_error (w_objs w') i = if Nat.eqb o i then Some (Obj (o_val ob) None (o_gen ob)) else nth_error (w_objs w) i).
  { intros i. unfold w'. cbn [w_objs]. rewrite !nth_list_set, E. reflexivity. }
  assert (Hcur : forall i u, cur w' i u -> i <> o /\ cur w i u).
  { intros i u [b [H1 H2]]. rewrite Hobjs in H1. destruct (Nat.eqb_spec o i).
    - inversion H1; subst. discriminate.
    - split; [congruence|]. exists b. auto. }
  assert (Hlive : forall u, live [] w' u -> live [] w u).
  { intros u [H|[i H]]; [now left|right; exists i; now apply Hcur]. }
  pose proof W as [w1 w2 w3 w4 w5 w6 w7 w8 w9 w10 w11]. constructor; auto.
  - intros i b u H1 H2. rewrite Hobjs in H1. destruct (Nat.eqb_spec o i); [inversion H1; subst b; discriminate|]. eauto.
  - intros u Hu. destruct (w2 u Hu) as [A [b [B C]]]. split; [exact A|]. change (w_heap w') with (w_heap w).
    rewrite Hobjs. destruct (Nat.eqb_spec o (bv_obj (w_heap w u))) as [Eo|Eo].
    + eexists. split; [reflexivity|]. cbn. rewrite <- Eo in B. congruence.
    + exists b. auto.
  - intros i b u H1 H2 H3. change (w_heap w') with (w_heap w). rewrite Hobjs in H1.
    destruct (Nat.eqb_spec o i) as [<-|Hne]; [|eapply w4; eauto].
    inversion H1; subst b. cbn. intros Ev.
    destruct (w1 _ _ _ E Eb) as [_ [G _]].
    assert (u = v); [|subst; contradiction].
    apply w3; [now left|right; exists o; exact Hc|].
    unfold verb, ghost in *. congruence.
  - intros u y K Hy. apply (w5 u y); auto.
Qed.

Lemma WInv_control : forall w v, WInv F [] w -> current w v ->
  WInv F [] (World (w_objs w) (w_heap w) (w_next w) (w_tape w) (w_ann w) (w_ctrls w ++ [v])).
Proof.
  intros w v W Hc.
  assert (W' : WInv F [v] w) by (apply (WInv_sub [] [v]); [exact W|intros u [<-|[]]; now right]).
  assert (R : refs [] (World (w_objs w) (w_heap w) (w_next w) (w_tape w) (w_ann w) (w_ctrls w ++ [v])) = refs [v] w).
  { unfold refs, flat. cbn. now rewrite app_nil_r. }
  destruct W' as [w1 w2 w3 w4 w5 w6 w7 w8 w9 w10 w11]. constructor; auto.
  - intros u Hu. apply w2. now rewrite <- R.
  - intros u1 u2 H1 H2. apply w3.
    + destruct H1 as [H|H]; [left; now rewrite <- R|right; exact H].
    + destruct H2 as [H|H]; [left; now rewrite <- R|right; exact H].
  - intros o ob u H1 H2 H3. apply (w4 o ob u H1 H2). now rewrite <- R.
  - intros u y Hu. apply w5. destruct Hu as [H|H]; [left; now rewrite <- R|right; exact H].
Qed.

Lemma WInv_new_world : forall ann, WInv F [] (world_new F ann).
Proof.
  intros ann. constructor; cbn; try easy.
  - intros o ob v H. destruct o; discriminate.
  - intros v1 v2 [[]|[o [ob [H _]]]]. destruct o; discriminate.
  - constructor; [exact I|constructor].
Qed.
End Pend.
