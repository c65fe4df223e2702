(** The manager's primitives: dictionaries of stored values, dropping, storing, restoring. *)
From Coq Require Import List Arith ZArith Lia Bool.
From Verif Require Import Base Model BaseFacts Graph Record Ckpt.
Import ListNotations.

Section Step.
Context {V : Type} (F : fops V).
Implicit Types (h : heap V) (d : list (nat * option (V * bool))).

(** ** Dictionaries *)
Definition dget (v : nat) d : option (option (V * bool)) :=
  match find (fun e => Nat.eqb (fst e) v) d with Some e => Some (snd e) | None => None end.

Lemma dput_In : forall u y d e, In e (dput u y d) -> e = (u, y) \/ In e d.
Proof.
  intros u y d. induction d as [|[w x] r IH]; intros e H; cbn in H.
  - destruct H as [<-|[]]. now left.
  - destruct (Nat.eqb w u); cbn in H; destruct H as [<-|H]; cbn; auto. destruct (IH e H); auto.
Qed.
Lemma dget_dput : forall v u y d, dget v (dput u y d) = if Nat.eqb v u then Some y else dget v d.
Proof.
  intros v u y d. unfold dget. induction d as [|[w x] r IH]; cbn.
  - rewrite (Nat.eqb_sym u v). now destruct (Nat.eqb v u).
  - destruct (Nat.eqb_spec w u) as [->|N]; cbn.
    + rewrite (Nat.eqb_sym u v). now destruct (Nat.eqb v u).
    + destruct (Nat.eqb_spec w v) as [->|M].
      * destruct (Nat.eqb_spec v u); [congruence|reflexivity].
      * exact IH.
Qed.
Lemma dput_keys : forall u y d w, In w (map fst (dput u y d)) <-> w = u \/ In w (map fst d).
Proof.
  intros u y d w. induction d as [|[k x] r IH]; cbn; [intuition|].
  destruct (Nat.eqb_spec k u) as [->|N]; cbn; [intuition|]. rewrite IH. intuition.
Qed.
Lemma dput_nodup : forall u y d, NoDup (map fst d) -> NoDup (map fst (dput u y d)).
Proof.
  intros u y d H. induction d as [|[k x] r IH]; cbn; [constructor; [intros []|constructor]|].
  inversion H as [|? ? H1 H2]; subst. destruct (Nat.eqb_spec k u) as [->|N]; cbn; [constructor; assumption|].
  constructor; [|now apply IH]. rewrite dput_keys. intros [?|?]; [congruence|contradiction].
Qed.
Lemma dget_In : forall v x d, dget v d = Some x -> In (v, x) d.
Proof.
  intros v x d H. unfold dget in H. destruct (find _ d) as [[u y]|] eqn:E; [|discriminate]. apply find_some in E as [A B].
  cbn in B. apply Nat.eqb_eq in B. cbn in H. inversion H; subst. exact A.
Qed.
Lemma In_dget : forall v x d, NoDup (map fst d) -> In (v, x) d -> dget v d = Some x.
Proof.
  intros v x d Hn Hi. unfold dget. induction d as [|[k y] r IH]; [destruct Hi|]. inversion Hn as [|? ? H1 H2]; subst. cbn.
  destruct Hi as [E|Hi]; [inversion E; subst; now rewrite Nat.eqb_refl|]. destruct (Nat.eqb_spec k v) as [->|]; [|auto].
  elim H1. change v with (fst (v, x)). now apply in_map.
Qed.
Lemma dmem_dget : forall v d, dmem v d = is_some (dget v d).
Proof.
  intros v d. unfold dmem, dget. induction d as [|[k y] r IH]; cbn; [reflexivity|]. rewrite (Nat.eqb_sym v k). destruct (Nat.eqb k v); cbn; auto.
Qed.

Definition put_all (f : nat -> option (V * bool)) (l : list nat) d := fold_left (fun d v => dput v (f v) d) l d.
Lemma put_all_In : forall f l d e, In e (put_all f l d) -> (In (fst e) l /\ snd e = f (fst e)) \/ In e d.
Proof.
  intros f l. induction l as [|u r IH]; intros d e H; cbn in *; [now right|].
  destruct (IH _ _ H) as [[A B]|A]; [left; auto|]. apply dput_In in A as [->|A]; cbn; auto.
Qed.
Lemma dget_put_all : forall f l d v, dget v (put_all f l d) = if mem v l then Some (f v) else dget v d.
Proof.
  intros f l. induction l as [|u r IH]; intros d v; [reflexivity|].
  change (put_all f (u :: r) d) with (put_all f r (dput u (f u) d)). change (mem v (u :: r)) with (Nat.eqb v u || mem v r).
  rewrite IH, dget_dput. destruct (Nat.eqb_spec v u) as [->|]; cbn; destruct (mem _ r); reflexivity.
Qed.
Lemma put_all_nodup : forall f l d, NoDup (map fst d) -> NoDup (map fst (put_all f l d)).
Proof. intros f l. induction l as [|u r IH]; intros d H; cbn; [exact H|]. apply IH. now apply dput_nodup. Qed.

(** ** Storing *)
Definition keep_saved h (v : nat) : option (V * bool) := Some (saved h v, false).
Definition keep_state h (g : list nat) (v : nat) : option (V * bool) :=
  if mem v g then match bv_ckpt (h v) with None => None | Some x => Some (x, false) end else keep_saved h v.
Definition after_store h (g : list nat) (st adj : bool) (s : tstep V) : tstep V :=
  TS (ts_blocks s) (ts_state s) (ts_adjdeps s)
     (let d := if st then put_all (keep_state h g) (ts_state s) (ts_ckpt s) else ts_ckpt s in
      if adj then put_all (keep_saved h) (adj_set s) d else d) (ts_revised s).

Lemma iter_puts : forall (f : tstep V -> nat -> tstep V * option exn) (x : nat -> option (V * bool)),
  (forall s v, f s v = (ts_put v (x v) s, None)) -> forall l s,
  iter_o f l s = (TS (ts_blocks s) (ts_state s) (ts_adjdeps s) (put_all x l (ts_ckpt s)) (ts_revised s), None).
Proof.
  intros f x Hf l. induction l as [|v r IH]; intros s; cbn; [destruct s; reflexivity|]. rewrite Hf, IH. reflexivity.
Qed.
Lemma checkpoint_spec : forall h g st adj s, (forall v, bv_raw (h v) = false) ->
  ts_checkpoint h g st adj s = (after_store h g st adj s, None).
Proof.
  intros h g st adj s Hr.
  assert (A : forall s v, store_saved h s v = (ts_put v (keep_saved h v) s, None)) by (intros s0 v; unfold store_saved; now rewrite Hr).
  assert (B : forall s v, store_state h g s v = (ts_put v (keep_state h g v) s, None)).
  { intros s0 v. unfold store_state, keep_state. destruct (mem v g); [|apply A]. rewrite Hr. destruct (bv_ckpt (h v)); reflexivity. }
  unfold ts_checkpoint, after_store. destruct st; cbn [andthen].
  - rewrite (iter_puts _ _ B). cbn [andthen]. destruct adj; [|reflexivity]. rewrite (iter_puts _ _ A). reflexivity.
  - destruct adj; [|destruct s; reflexivity]. rewrite (iter_puts _ _ A). reflexivity.
Qed.

(** ** Dropping and restoring *)
Lemma drop_all : forall l h v, fold_left drop l h v = if mem v l then set_ckpt None false (h v) else h v.
Proof.
  induction l as [|u r IH]; intros h v; [reflexivity|]. cbn [fold_left].
  change (mem v (u :: r)) with (Nat.eqb v u || mem v r). rewrite IH. unfold drop, upd. destruct (Nat.eqb v u), (mem v r); reflexivity.
Qed.

Definition put_entry (x : option (V * bool)) (b : bvar V) : bvar V :=
  match x with None => put_ckpt None false b | Some (y, r) => put_ckpt (Some y) r b end.
Lemma put_entry_erase : forall x b, erase_ckpt (put_entry x b) = erase_ckpt b.
Proof. intros [[y r]|] b; apply put_ckpt_erase. Qed.
Lemma put_entry_ctrl : forall x b, bv_ctrl b = true -> put_entry x b = b.
Proof. intros [[y r]|] b H; cbn; unfold put_ckpt; now rewrite H. Qed.

Lemma restore_fold : forall d h v, fold_left (fun h' (e : nat * option (V * bool)) => upd h' (fst e) (match snd e with
     | None => put_ckpt None false | Some (x, r) => put_ckpt (Some x) r end)) d h v =
  fold_left (fun b (e : nat * option (V * bool)) => if Nat.eqb v (fst e) then put_entry (snd e) b else b) d (h v).
Proof.
  induction d as [|[k x] r IH]; intros h v; cbn; [reflexivity|]. rewrite IH. f_equal. unfold upd. destruct (Nat.eqb v k); [|reflexivity].
  destruct x as [[y z]|]; reflexivity.
Qed.
Lemma restore_any : forall (P : bvar V -> Prop) h s v, P (h v) -> (forall x b, In (v, x) (ts_ckpt s) -> P b -> P (put_entry x b)) -> P (ts_restore h s v).
Proof.
  intros P h s v H0 Hp. unfold ts_restore. rewrite restore_fold. revert H0 Hp. generalize (h v). induction (ts_ckpt s) as [|[k x] r IH]; intros b H0 Hp; cbn; [exact H0|].
  apply IH; [|intros y b' Hi; apply Hp; now right]. destruct (Nat.eqb_spec v k) as [->|]; [|exact H0]. apply Hp; [now left|exact H0].
Qed.
Lemma restore_at : forall h s v, NoDup (map fst (ts_ckpt s)) ->
  ts_restore h s v = match dget v (ts_ckpt s) with None => h v | Some x => put_entry x (h v) end.
Proof.
  intros h s v Hn. unfold ts_restore. rewrite restore_fold. generalize (h v). unfold dget.
  induction (ts_ckpt s) as [|[k x] r IH]; intros b; cbn; [reflexivity|]. inversion Hn as [|? ? H1 H2]; subst.
  rewrite (Nat.eqb_sym k v). destruct (Nat.eqb_spec v k) as [->|N]; [|now apply IH].
  specialize (IH H2 (put_entry x b)). rewrite IH. destruct (find (fun e => Nat.eqb (fst e) k) r) as [[k' y]|] eqn:E; [|reflexivity].
  apply find_some in E as [A B]. cbn in B. apply Nat.eqb_eq in B. subst k'. elim H1. change k with (fst (k, y)). now apply in_map.
Qed.

Lemma clear_state_spec : forall vars step ck single prev st0 keep h h' keep', clear_state vars step ck single prev st0 keep h = (h', keep') ->
  forall v, h' v = h v \/ (In v vars /\ h' v = set_ckpt None false (h v)).
Proof.
  induction vars as [|u r IH]; intros step ck single prev st0 keep h h' keep' H v; cbn [clear_state] in H; [inversion H; now left|].
  assert (G : forall h1, (forall x, h1 x = h x \/ (x = u /\ h1 x = set_ckpt None false (h x))) ->
     (h' v = h1 v \/ (In v r /\ h' v = set_ckpt None false (h1 v))) -> h' v = h v \/ In v (u :: r) /\ h' v = set_ckpt None false (h v)).
  { intros h1 Hh [E|[I E]]; destruct (Hh v) as [E1|[E1 E2]]; rewrite E.
    - left. exact E1.
    - right. split; [now left|exact E2].
    - right. split; [now right|now rewrite E1].
    - right. split; [now left|]. now rewrite E2. }
  assert (D : forall x, drop h u x = h x \/ (x = u /\ drop h u x = set_ckpt None false (h x))).
  { intros x. unfold drop, upd. destruct (Nat.eqb_spec x u); auto. }
  destruct (Nat.eqb step 0 && _); [inversion H; now left|]. destruct single.
  - destruct (Nat.ltb 1 step && _); (eapply (G _ _ (IH _ _ _ _ _ _ _ _ _ H v))).
  - destruct (mem u st0 && keep); (eapply (G _ _ (IH _ _ _ _ _ _ _ _ _ H v))).
  Unshelve. all: auto.
Qed.

Lemma minus_In : forall l r v, In v (minus l r) <-> In v l /\ ~ In v r.
Proof.
  intros l r v. unfold minus. rewrite filter_In. split; intros [A B]; split; auto.
  - intros C. apply mem_In in C. now rewrite C in B.
  - destruct (mem v r) eqn:E; [apply mem_In in E; contradiction|reflexivity].
Qed.
Lemma adj_set_In : forall (s : tstep V) v, In v (adj_set s) <-> In v (ts_adjdeps s) \/ (ts_revised s = false /\ In v (ts_state s)).
Proof.
  intros s v. unfold adj_set. destruct (ts_revised s); [intuition discriminate|].
  assert (G : forall l m, In v (fold_left (fun l v => oadd v l) l m) <-> In v m \/ In v l).
  { induction l as [|u r IH]; intros m; cbn; [tauto|]. rewrite IH. unfold oadd. destruct (mem u m) eqn:E.
    - apply mem_In in E. split; [intuition|]. intros [?|[->|?]]; auto.
    - rewrite in_app_iff. cbn. intuition. }
  rewrite G. intuition.
Qed.
End Step.
