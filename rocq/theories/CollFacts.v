(** Facts about the containers of Coll.v. *)
From Coq Require Import List Arith Bool Lia.
From Verif Require Import Base Coll SpecColl.
Import ListNotations.

Local Arguments os_union : simpl never.
Local Arguments os_difference : simpl never.
Local Arguments os_intersection : simpl never.
Local Arguments os_symdiff : simpl never.
Local Arguments os_init : simpl never.

Section SetFacts.
Variable A : Type.
Variable eqb : A -> A -> bool.
Hypothesis eqb_ok : forall x y, eqb x y = true <-> x = y.

Lemma eqb_refl : forall x, eqb x x = true.
Proof. intro x. apply eqb_ok. reflexivity. Qed.
Lemma eqb_neq : forall x y, eqb x y = false <-> x <> y.
Proof.
  intros x y. split; intro H.
  - intro E. apply eqb_ok in E. congruence.
  - destruct (eqb x y) eqn:E; [|reflexivity]. apply eqb_ok in E. contradiction.
Qed.
Lemma eq_or : forall x y : A, x = y \/ x <> y.
Proof. intros x y. destruct (eqb x y) eqn:E; [left; now apply eqb_ok|right; now apply eqb_neq]. Qed.

Lemma has_In : forall x d, has eqb x d = true <-> In x d.
Proof.
  intros x d. unfold has. rewrite existsb_exists. split.
  - intros [y [Hy E]]. apply eqb_ok in E. now subst.
  - intro H. exists x. split; [exact H|apply eqb_refl].
Qed.
Lemma has_not : forall x d, has eqb x d = false <-> ~ In x d.
Proof.
  intros x d. split; intro H.
  - intro K. apply has_In in K. congruence.
  - destruct (has eqb x d) eqn:E; [|reflexivity]. apply has_In in E. contradiction.
Qed.
Lemma In_dec' : forall (x : A) d, In x d \/ ~ In x d.
Proof. intros x d. destruct (has eqb x d) eqn:E; [left; now apply has_In|right; now apply has_not]. Qed.

Lemma d_set_In : forall x y d, In y (d_set eqb x d) <-> In y d \/ y = x.
Proof.
  intros x y d. unfold d_set. destruct (has eqb x d) eqn:E.
  - apply has_In in E. split; [auto|intros [H|H]; [exact H|now subst]].
  - rewrite in_app_iff. simpl. split; intros [H|H]; auto. destruct H as [H|[]]; auto.
Qed.
Lemma NoDup_snoc : forall (x : A) d, NoDup d -> ~ In x d -> NoDup (d ++ [x]).
Proof.
  induction d as [|a d IH]; intros N H; simpl.
  - constructor; [intros []|constructor].
  - inversion N; subst. constructor.
    + rewrite in_app_iff. intros [K|[K|[]]]; [auto|]. subst. apply H. now left.
    + apply IH; [assumption|]. intro K. apply H. now right.
Qed.
Lemma d_set_NoDup : forall x d, NoDup d -> NoDup (d_set eqb x d).
Proof.
  intros x d H. unfold d_set. destruct (has eqb x d) eqn:E; [exact H|].
  apply NoDup_snoc; [exact H|]. now apply has_not.
Qed.
Lemma d_del_In : forall x y d, In y (d_del eqb x d) <-> In y d /\ y <> x.
Proof.
  intros x y d. unfold d_del. rewrite filter_In. split; intros [H K]; (split; [exact H|]).
  - destruct (eqb x y) eqn:E; [discriminate|]. apply eqb_neq in E. auto.
  - assert (eqb x y = false) by (apply eqb_neq; auto). now rewrite H0.
Qed.
Lemma d_del_absent : forall x d, ~ In x d -> d_del eqb x d = d.
Proof.
  intros x d H. unfold d_del. induction d as [|y d IH]; [reflexivity|]. simpl.
  assert (E : eqb x y = false) by (apply eqb_neq; intro; subst; apply H; now left).
  rewrite E. simpl. f_equal. apply IH. intro K. apply H. now right.
Qed.
Lemma d_del_NoDup : forall x d, NoDup d -> NoDup (d_del eqb x d).
Proof. intros. now apply NoDup_filter. Qed.
Lemma os_discard_eq : forall x d, os_discard eqb x d = d_del eqb x d.
Proof.
  intros x d. unfold os_discard, os_remove, os_contains. destruct (has eqb x d) eqn:E; [reflexivity|].
  symmetry. apply d_del_absent. now apply has_not.
Qed.

(** adding a list *)
Notation addl := (fold_left (fun r x => os_add eqb x r)).
Lemma addl_In : forall l d y, In y (addl l d) <-> In y d \/ In y l.
Proof.
  induction l as [|x l IH]; intros d y; simpl; [tauto|].
  rewrite IH. unfold os_add. rewrite d_set_In. intuition.
Qed.
Lemma addl_NoDup : forall l d, NoDup d -> NoDup (addl l d).
Proof. induction l as [|x l IH]; intros d H; simpl; [exact H|]. apply IH. now apply d_set_NoDup. Qed.
(** removing a list *)
Notation dell := (fold_left (fun r x => os_discard eqb x r)).
Lemma dell_eq : forall l d, dell l d = filter (fun y => negb (has eqb y l)) d.
Proof.
  induction l as [|x l IH]; intro d; simpl.
  - induction d as [|y d IHd]; simpl; [reflexivity|now f_equal].
  - rewrite IH, os_discard_eq. unfold d_del. clear IH.
    induction d as [|y d IHd]; simpl; [reflexivity|].
    assert (S : eqb y x = eqb x y).
    { destruct (eqb x y) eqn:E; [apply eqb_ok in E; subst; apply eqb_refl|].
      apply eqb_neq in E. apply eqb_neq. auto. }
    rewrite S. destruct (eqb x y); simpl; [exact IHd|]. fold (has eqb y l).
    destruct (has eqb y l); simpl; [exact IHd|]. now f_equal.
Qed.
Lemma dell_In : forall l d y, In y (dell l d) <-> In y d /\ ~ In y l.
Proof.
  intros l d y. rewrite dell_eq, filter_In. split; intros [H K]; (split; [exact H|]).
  - apply has_not. destruct (has eqb y l); [discriminate|reflexivity].
  - apply has_not in K. now rewrite K.
Qed.
Lemma dell_NoDup : forall l d, NoDup d -> NoDup (dell l d).
Proof. intros. rewrite dell_eq. now apply NoDup_filter. Qed.

Definition items (l : list (iterable A)) : list A := flat_map (@it_items A) l.

Lemma os_union_eq : forall others d, os_union eqb d others = addl (items others) d.
Proof.
  unfold os_union, items, it_drain. induction others as [|o r IH]; intro d; simpl; [reflexivity|].
  rewrite IH, fold_left_app. reflexivity.
Qed.
Lemma os_difference_eq : forall others d, os_difference eqb d others = dell (items others) d.
Proof.
  unfold os_difference, items, it_drain. induction others as [|o r IH]; intro d; simpl; [reflexivity|].
  rewrite IH, fold_left_app. reflexivity.
Qed.

Lemma it_contains_coll : forall x i, it_once i = false -> it_contains A eqb x i = (has eqb x (it_items i), i).
Proof. intros x i H. unfold it_contains. now rewrite H. Qed.
Lemma in_all_coll : forall x others, Forall (fun i => it_once i = false) others ->
  in_all A eqb x others = (forallb (fun i => has eqb x (it_items i)) others, others).
Proof.
  induction others as [|o r IH]; intro H; simpl; [reflexivity|].
  inversion H; subst. rewrite it_contains_coll by assumption.
  destruct (has eqb x (it_items o)); simpl; [|reflexivity]. now rewrite IH.
Qed.
Lemma os_intersection_eq : forall others d, Forall (fun i => it_once i = false) others -> NoDup d ->
  os_intersection eqb d others = filter (fun x => forallb (fun i => has eqb x (it_items i)) others) d.
Proof.
  intros others d HC. unfold os_intersection.
  assert (G : forall d acc, NoDup d -> (forall x, In x d -> ~ In x acc) ->
    fold_left (fun st x => let '(r, os) := st in let '(b, os') := in_all A eqb x os in ((if b then os_add eqb x r else r), os')) d (acc, others)
    = (acc ++ filter (fun x => forallb (fun i => has eqb x (it_items i)) others) d, others)).
  { induction d0 as [|x d0 IH]; intros acc HN HD; simpl; [now rewrite app_nil_r|].
    rewrite in_all_coll by assumption.
    assert (HN' : NoDup d0) by (now inversion HN).
    assert (Hx : ~ In x d0) by (now inversion HN).
    destruct (forallb (fun i => has eqb x (it_items i)) others).
    - assert (E : os_add eqb x acc = acc ++ [x]).
      { unfold os_add, d_set. assert (K : has eqb x acc = false) by (apply has_not; apply HD; now left). now rewrite K. }
      rewrite E, IH; [now rewrite <- app_assoc|assumption|].
      intros z Hz K. apply in_app_iff in K. destruct K as [K|[K|[]]].
      + apply (HD z); [now right|exact K].
      + subst. contradiction.
    - apply IH; [assumption|]. intros z Hz. apply HD. now right. }
  intro HN. rewrite G; [reflexivity|exact HN|]. intros x _ [].
Qed.
Lemma os_symdiff_eq : forall d o, it_once o = false -> NoDup d ->
  os_symdiff eqb d o = addl (filter (fun x => negb (has eqb x d)) (it_items o)) (filter (fun x => negb (has eqb x (it_items o))) d).
Proof.
  intros d o HO HN. unfold os_symdiff, os_contains, it_drain.
  assert (G : forall d acc, NoDup d -> (forall x, In x d -> ~ In x acc) ->
    fold_left (fun st x => let '(r, o) := st in let '(b, o') := it_contains A eqb x o in ((if b then r else os_add eqb x r), o')) d (acc, o)
    = (acc ++ filter (fun x => negb (has eqb x (it_items o))) d, o)).
  { induction d0 as [|x d0 IH]; intros acc HN0 HD; simpl; [now rewrite app_nil_r|].
    rewrite it_contains_coll by assumption.
    assert (HN' : NoDup d0) by (now inversion HN0).
    assert (Hx : ~ In x d0) by (now inversion HN0).
    destruct (has eqb x (it_items o)); simpl.
    - apply IH; [assumption|]. intros z Hz. apply HD. now right.
    - assert (E : os_add eqb x acc = acc ++ [x]).
      { unfold os_add, d_set. assert (K : has eqb x acc = false) by (apply has_not; apply HD; now left). now rewrite K. }
      rewrite E, IH; [now rewrite <- app_assoc|assumption|].
      intros z Hz K. apply in_app_iff in K. destruct K as [K|[K|[]]].
      + apply (HD z); [now right|exact K].
      + subst. contradiction. }
  rewrite G; [|exact HN|intros x _ []]. simpl. clear G.
  generalize (filter (fun x => negb (has eqb x (it_items o))) d). generalize (it_items o).
  induction l as [|x l IH]; intro acc; simpl; [reflexivity|].
  destruct (has eqb x d); simpl; apply IH.
Qed.

Lemma os_pop_spec : forall d, match os_pop A eqb d with
  | Ok (x, d') => In x d /\ d' = d_del eqb x d
  | Err e => d = [] /\ e = EKey end.
Proof.
  destruct d as [|x d]; simpl; [auto|]. split; [now left|]. apply os_discard_eq.
Qed.
Lemma d_del_length : forall x d, In x d -> length (d_del eqb x d) < length d.
Proof.
  intros x d. unfold d_del. induction d as [|y d IH]; intros []; simpl.
  - subst. rewrite eqb_refl. simpl. apply Nat.lt_succ_r. clear.
    induction d as [|z d IH]; simpl; [lia|]. destruct (negb (eqb x z)); simpl; lia.
  - specialize (IH H). destruct (negb (eqb x y)); simpl; lia.
Qed.
Lemma os_clear_nil : forall d, os_clear A eqb d = [].
Proof.
  intro d. unfold os_clear. assert (G : forall n d, length d <= n -> os_clear_loop A eqb n d = []).
  { induction n as [|n IH]; intros d0 H.
    - destruct d0; [reflexivity|simpl in H; lia].
    - simpl. pose proof (os_pop_spec d0) as P. destruct (os_pop A eqb d0) as [[x d']|e].
      + destruct P as [P1 P2]. subst. apply IH. pose proof (d_del_length x d0 P1). lia.
      + tauto. }
  apply G. lia.
Qed.
Notation togl := (fold_left (fun r x => if os_contains A eqb x r then os_discard eqb x r else os_add eqb x r)).
Lemma togl_In : forall l d y, NoDup l -> (In y (togl l d) <-> (In y d /\ ~ In y l) \/ (~ In y d /\ In y l)).
Proof.
  induction l as [|x l IH]; intros d y HN; simpl.
  - pose proof (In_dec' y d). tauto.
  - inversion HN; subst. rewrite IH by assumption. unfold os_contains. destruct (has eqb x d) eqn:E.
    + apply has_In in E. rewrite os_discard_eq, d_del_In. destruct (eq_or y x) as [->|N]; [tauto|].
      assert (x <> y) by auto. tauto.
    + apply has_not in E. unfold os_add. rewrite d_set_In. destruct (eq_or y x) as [->|N]; [tauto|].
      assert (x <> y) by auto. tauto.
Qed.
Lemma togl_NoDup : forall l d, NoDup d -> NoDup (togl l d).
Proof.
  induction l as [|x l IH]; intros d H; simpl; [exact H|]. apply IH.
  destruct (os_contains A eqb x d); [rewrite os_discard_eq; now apply d_del_NoDup|now apply d_set_NoDup].
Qed.

(** The store *)
Definition deno (h : sheap A) : list (mset A) := map (fun d x => In x d) h.
Lemma deno_get : forall h s, s < length h -> same A (get A (deno h) s) (fun x => In x (look A h s)).
Proof.
  intros h s H x. unfold get, deno, look. rewrite nth_indep with (d' := (fun x => In x (@nil A))).
  - rewrite (map_nth (fun d x => In x d)). tauto.
  - now rewrite map_length.
Qed.
Lemma store_at_eq : forall h s d, s < length h -> store_at A h s d = firstn s h ++ d :: skipn (S s) h.
Proof.
  intros h s d H. unfold store_at. f_equal. revert s H. induction h as [|a h IH]; intros s H; simpl in *; [lia|].
  destruct s; [reflexivity|]. apply IH. lia.
Qed.
Lemma store_becomes : forall h s d P, s < length h -> same A (fun x => In x d) P ->
  becomes A (deno h) (deno (store_at A h s d)) s P.
Proof.
  intros h s d P H E. exists (fun x => In x d). split; [exact E|].
  rewrite store_at_eq by assumption. unfold deno. rewrite map_app, map_cons, <- firstn_map, <- skipn_map. reflexivity.
Qed.
Lemma alloc_fresh : forall h d P, same A (fun x => In x d) P ->
  fresh A (deno h) (deno (h ++ [d])) (Ok (RSet (length h))) P.
Proof.
  intros h d P E. exists (fun x => In x d). split; [exact E|]. split; [unfold deno; now rewrite map_app|].
  unfold deno. now rewrite map_length.
Qed.
Lemma deno_arg : forall h a, arg_ok A (length h) a -> same A (of_arg A (deno h) a) (fun x => In x (it_items (resolve A h a))).
Proof.
  intros h a H x. destruct a; simpl; try tauto. apply (deno_get h s). exact H.
Qed.
Lemma look_NoDup : forall h s, Forall (@NoDup A) h -> NoDup (look A h s).
Proof.
  intros h s H. unfold look. destruct (Nat.lt_ge_cases s (length h)) as [L|L].
  - rewrite Forall_forall in H. apply H. now apply nth_In.
  - rewrite nth_overflow by assumption. constructor.
Qed.
Lemma Forall_parts : forall (P : list A -> Prop) n l, Forall P l -> Forall P (firstn n l) /\ Forall P (skipn n l).
Proof. intros P n l H. rewrite <- (firstn_skipn n l) in H. now apply Forall_app in H. Qed.
Lemma store_NoDup : forall h s d, Forall (@NoDup A) h -> NoDup d -> Forall (@NoDup A) (store_at A h s d).
Proof.
  intros h s d H N. unfold store_at. apply Forall_app. split; [now apply Forall_parts|].
  pose proof (proj2 (Forall_parts _ s _ H)) as K. destruct (skipn s h); [constructor|].
  inversion K; subst. now constructor.
Qed.
Lemma store_length : forall h s d, length (store_at A h s d) = length h.
Proof.
  intros h s d. unfold store_at. rewrite <- (firstn_skipn s h) at 3. rewrite !app_length. f_equal.
  now destruct (skipn s h).
Qed.
Lemma os_init_eq : forall i, os_init eqb i = addl (it_items i) [].
Proof. reflexivity. Qed.
Lemma os_bin_In : forall o d i, NoDup d -> it_once i = false ->
  same A (fun x => In x (os_bin A eqb o d i)) (set_op A o (fun x => In x d) (fun x => In x (it_items i))).
Proof.
  intros o d i HN HO x. destruct o; simpl.
  - rewrite os_union_eq, addl_In. unfold items. simpl. rewrite app_nil_r. tauto.
  - rewrite os_difference_eq, dell_In. unfold items. simpl. rewrite app_nil_r. tauto.
  - rewrite os_intersection_eq by (auto). rewrite filter_In. simpl. rewrite andb_true_r, has_In. tauto.
  - rewrite os_symdiff_eq by assumption. rewrite addl_In, !filter_In, !negb_true_iff, !has_not. tauto.
Qed.
Lemma os_bin_NoDup : forall o d i, NoDup d -> it_once i = false -> NoDup (os_bin A eqb o d i).
Proof.
  intros o d i HN HO. destruct o; simpl.
  - rewrite os_union_eq. now apply addl_NoDup.
  - rewrite os_difference_eq. now apply dell_NoDup.
  - rewrite os_intersection_eq by auto. now apply NoDup_filter.
  - rewrite os_symdiff_eq by assumption. apply addl_NoDup. now apply NoDup_filter.
Qed.
Lemma same_trans : forall P Q R : mset A, same A P Q -> same A Q R -> same A P R.
Proof. intros P Q R H K x. specialize (H x). specialize (K x). tauto. Qed.
Lemma same_sym : forall P Q : mset A, same A P Q -> same A Q P.
Proof. intros P Q H x. symmetry. apply H. Qed.
Lemma set_op_same : forall o P P' Q Q', same A P P' -> same A Q Q' -> same A (set_op A o P Q) (set_op A o P' Q').
Proof. intros o P P' Q Q' H K x. specialize (H x). specialize (K x). destruct o; simpl; tauto. Qed.
Lemma is_set_arg : forall a : arg A, is_set A a = true <-> set_arg A a.
Proof. destruct a; simpl; split; (discriminate || contradiction || auto). Qed.
Lemma is_set_once : forall h a, is_set A a = true -> it_once (resolve A h a) = false.
Proof. destruct a; simpl; (discriminate || reflexivity). Qed.
Lemma same_set_iff : forall s (a : arg A), same_set A s a = true -> a = ASet s.
Proof. destruct a; simpl; try discriminate. intro H. apply Nat.eqb_eq in H. now subst. Qed.

Lemma os_inpl_spec : forall h o s a, s < length h -> arg_ok A (length h) a -> Forall (@NoDup A) h ->
  match os_inpl A eqb h o s a with
  | Ok d => NoDup d /\ same A (fun x => In x d) (set_op A o (get A (deno h) s) (of_arg A (deno h) a))
  | Err e => o = BAnd /\ ~ set_arg A a /\ e = EType
  end.
Proof.
  intros h o s a Hs Ha HN. pose proof (look_NoDup h s HN) as ND.
  pose proof (deno_get h s Hs) as DG. pose proof (deno_arg h a Ha) as DA.
  assert (SO : forall o, same A (set_op A o (fun x => In x (look A h s)) (fun x => In x (it_items (resolve A h a))))
                          (set_op A o (get A (deno h) s) (of_arg A (deno h) a))).
  { intro o'. apply set_op_same; now apply same_sym. }
  unfold os_inpl. destruct o.
  - split; [now apply addl_NoDup|]. apply (same_trans _ _ _) with (2 := SO BOr). intro x. apply addl_In.
  - destruct (same_set A s a) eqn:E.
    + apply same_set_iff in E. subst. rewrite os_clear_nil. split; [constructor|]. intro x. simpl. tauto.
    + split; [now apply dell_NoDup|]. apply (same_trans _ _ _) with (2 := SO BSub). intro x. apply dell_In.
  - destruct (is_set A a) eqn:E.
    + split; [now apply dell_NoDup|]. apply (same_trans _ _ _) with (2 := SO BAnd). intro x.
      rewrite dell_In. pose proof (os_bin_In BSub _ _ ND (is_set_once h a E) x) as OB. simpl in OB |- *.
      pose proof (In_dec' x (it_items (resolve A h a))). tauto.
    + split; [reflexivity|]. split; [|reflexivity]. intro K. apply is_set_arg in K. congruence.
  - destruct (same_set A s a) eqn:E.
    + apply same_set_iff in E. subst. rewrite os_clear_nil. split; [constructor|]. intro x. simpl. tauto.
    + split; [now apply togl_NoDup|]. apply (same_trans _ _ _) with (2 := SO BXor). intro x.
      assert (G : forall l, NoDup l -> (forall y, In y l <-> In y (it_items (resolve A h a))) ->
        In x (togl l (look A h s)) <-> set_op A BXor (fun x => In x (look A h s)) (fun x => In x (it_items (resolve A h a))) x).
      { intros l Nl Hl. rewrite togl_In by assumption. simpl. rewrite (Hl x). tauto. }
      destruct (is_set A a) eqn:S.
      * destruct a as [l|l|l|s']; try discriminate S.
        -- apply G; [exact Ha|tauto].
        -- apply G; [apply look_NoDup; assumption|tauto].
      * apply G; [apply addl_NoDup; constructor|]. intro y. rewrite os_init_eq, addl_In. simpl. tauto.
Qed.

Lemma resolve_items : forall h l x, Forall (arg_ok A (length h)) l ->
  (In x (items (map (resolve A h) l)) <-> exists a, In a l /\ of_arg A (deno h) a x).
Proof.
  intros h l x H. unfold items. rewrite flat_map_concat_map, map_map.
  induction l as [|a l IH]; simpl.
  - split; [intros []|intros [a [[] _]]].
  - inversion H; subst. rewrite in_app_iff, (IH H3). pose proof (deno_arg h a H2 x) as D. split.
    + intros [K|[b [K1 K2]]]; [exists a; split; [now left|now apply D]|exists b; split; [now right|exact K2]].
    + intros [b [[K|K] K2]]; [subst; left; now apply D|right; exists b; split; assumption].
Qed.
Lemma container_once : forall h a, container a -> it_once (resolve A h a) = false.
Proof. destruct a; simpl; (contradiction || reflexivity). Qed.
Lemma containers_once : forall h l, Forall container l -> Forall (fun i => it_once i = false) (map (resolve A h) l).
Proof.
  intros h l H. apply Forall_forall. intros i Hi. apply in_map_iff in Hi. destruct Hi as [a [E Ha]]. subst.
  apply container_once. rewrite Forall_forall in H. now apply H.
Qed.

(** One call refines the mathematical operation *)
Theorem os_step_spec : forall h o, op_ok A (length h) o -> Forall (@NoDup A) h ->
  let '(h', r) := os_step eqb h o in
  sp_step (deno h) o (deno h') r /\ Forall (@NoDup A) h' /\ length h' = (if allocates A o then S (length h) else length h).
Proof.
  intros h o OK HN.
  assert (AL : forall d P, NoDup d -> same A (fun x => In x d) P ->
    fresh A (deno h) (deno (h ++ [d])) (Ok (RSet (length h))) P /\ Forall (@NoDup A) (h ++ [d]) /\ length (h ++ [d]) = S (length h)).
  { intros d P N E. split; [now apply alloc_fresh|]. split; [apply Forall_app; auto|]. rewrite app_length. simpl. lia. }
  assert (ST : forall s d P, s < length h -> NoDup d -> same A (fun x => In x d) P ->
    becomes A (deno h) (deno (store_at A h s d)) s P /\ Forall (@NoDup A) (store_at A h s d) /\ length (store_at A h s d) = length h).
  { intros s d P L N E. split; [now apply store_becomes|]. split; [now apply store_NoDup|]. apply store_length. }
  destruct o as [a|s|s x|s x|s x|s|s|s x|s|s l|s l|s l|s a|o s a|o s a]; unfold os_step, alloc; simpl in OK |- *.
  - apply AL; [apply addl_NoDup; constructor|]. apply same_trans with (2 := same_sym _ _ (deno_arg h a OK)).
    intro x. rewrite os_init_eq, addl_In. simpl. tauto.
  - apply AL; [now apply look_NoDup|]. apply same_sym. now apply deno_get.
  - destruct (ST s (os_add eqb x (look A h s)) (fun y => get A (deno h) s y \/ y = x) OK) as [S1 [S2 S3]]; auto.
    + apply d_set_NoDup. now apply look_NoDup.
    + intro y. unfold os_add. rewrite d_set_In. pose proof (deno_get h s OK y). simpl in H. tauto.
  - pose proof (deno_get h s OK x) as D. simpl in D. unfold os_remove, os_contains.
    destruct (has eqb x (look A h s)) eqn:E.
    + apply has_In in E.
      destruct (ST s (d_del eqb x (look A h s)) (fun y => get A (deno h) s y /\ y <> x) OK) as [S1 [S2 S3]].
      * apply d_del_NoDup. now apply look_NoDup.
      * intro y. rewrite d_del_In. pose proof (deno_get h s OK y). simpl in H. tauto.
      * split; [left; tauto|auto].
    + apply has_not in E. split; [right; tauto|auto].
  - destruct (ST s (os_discard eqb x (look A h s)) (fun y => get A (deno h) s y /\ y <> x) OK) as [S1 [S2 S3]]; auto.
    + rewrite os_discard_eq. apply d_del_NoDup. now apply look_NoDup.
    + intro y. rewrite os_discard_eq, d_del_In. pose proof (deno_get h s OK y). simpl in H. tauto.
  - pose proof (os_pop_spec (look A h s)) as P. destruct (os_pop A eqb (look A h s)) as [[x d]|e].
    + destruct P as [P1 P2]. subst.
      destruct (ST s (d_del eqb x (look A h s)) (fun y => get A (deno h) s y /\ y <> x) OK) as [S1 [S2 S3]].
      * apply d_del_NoDup. now apply look_NoDup.
      * intro y. rewrite d_del_In. pose proof (deno_get h s OK y). simpl in H. tauto.
      * split; [left; exists x|auto]. pose proof (deno_get h s OK x) as D. simpl in D. tauto.
    + destruct P as [P1 P2]. subst. split; [right|auto]. split; [|auto].
      intros x K. apply (deno_get h s OK x) in K. rewrite P1 in K. exact K.
  - destruct (ST s (os_clear A eqb (look A h s)) (fun _ => False) OK) as [S1 [S2 S3]]; auto.
    + rewrite os_clear_nil. constructor.
    + intro y. rewrite os_clear_nil. simpl. tauto.
  - split; [split; [reflexivity|]|auto]. pose proof (deno_get h s OK x) as D. simpl in D. unfold os_contains.
    destruct (has eqb x (look A h s)) eqn:E; [apply has_In in E; left|apply has_not in E; right]; tauto.
  - split; [split; [reflexivity|]|auto]. exists (look A h s). split; [now apply look_NoDup|].
    split; [|reflexivity]. intro x. pose proof (deno_get h s OK x) as D. simpl in D. tauto.
  - destruct OK as [O1 O2]. apply AL; [rewrite os_union_eq; apply addl_NoDup; now apply look_NoDup|].
    intro x. rewrite os_union_eq, addl_In, resolve_items by assumption.
    pose proof (deno_get h s O1 x) as D. simpl in D. tauto.
  - destruct OK as [O1 O2]. apply AL; [rewrite os_difference_eq; apply dell_NoDup; now apply look_NoDup|].
    intro x. rewrite os_difference_eq, dell_In, resolve_items by assumption.
    pose proof (deno_get h s O1 x) as D. simpl in D. split.
    + intros [K1 K2]. split; [tauto|]. intros a Ha Hx. apply K2. now exists a.
    + intros [K1 K2]. split; [tauto|]. intros [a [Ha Hx]]. now apply (K2 a).
  - destruct OK as [O1 [O2 O3]]. pose proof (look_NoDup h s HN) as ND.
    rewrite os_intersection_eq by (auto using containers_once).
    apply AL; [now apply NoDup_filter|].
    intro x. rewrite filter_In, forallb_forall. pose proof (deno_get h s O1 x) as D. simpl in D.
    rewrite Forall_forall in O2. split.
    + intros [K1 K2]. split; [tauto|]. intros a Ha. apply (deno_arg h a (O2 a Ha) x). apply has_In.
      apply K2. now apply in_map.
    + intros [K1 K2]. split; [tauto|]. intros i Hi. apply in_map_iff in Hi. destruct Hi as [a [E Ha]]. subst.
      apply has_In. apply (deno_arg h a (O2 a Ha) x). now apply K2.
  - destruct OK as [O1 [O2 O3]]. pose proof (look_NoDup h s HN) as ND. pose proof (container_once h a O3) as C.
    change (os_symdiff eqb (look A h s) (resolve A h a)) with (os_bin A eqb BXor (look A h s) (resolve A h a)).
    apply AL; [now apply os_bin_NoDup|].
    apply same_trans with (1 := os_bin_In BXor _ _ ND C). apply (set_op_same BXor); apply same_sym; [now apply deno_get|now apply deno_arg].
  - destruct OK as [O1 O2]. pose proof (look_NoDup h s HN) as ND. destruct (is_set A a) eqn:S.
    + pose proof (is_set_once h a S) as C.
      destruct (AL (os_bin A eqb o (look A h s) (resolve A h a)) (set_op A o (get A (deno h) s) (of_arg A (deno h) a))) as [S1 S2].
      * now apply os_bin_NoDup.
      * apply same_trans with (1 := os_bin_In o _ _ ND C). apply set_op_same; apply same_sym; [now apply deno_get|now apply deno_arg].
      * split; [left; split; [now apply is_set_arg|exact S1]|exact S2].
    + split; [right; split; [|auto]|auto]. intro K. apply is_set_arg in K. congruence.
  - destruct OK as [O1 O2]. pose proof (os_inpl_spec h o s a O1 O2 HN) as P.
    destruct (os_inpl A eqb h o s a) as [d|e].
    + destruct P as [P1 P2]. destruct (ST s d _ O1 P1 P2) as [S1 [S2 S3]]. split; [left; auto|auto].
    + destruct P as [P1 [P2 P3]]. subst. split; [right; auto|auto].
Qed.

Theorem os_run_spec : forall p h, prog_ok (length h) p -> Forall (@NoDup A) h ->
  let '(h', rs) := os_run eqb h p in
  sp_run (deno h) p (deno h') rs /\ Forall (@NoDup A) h'.
Proof.
  induction p as [|o p IH]; intros h OK HN; simpl.
  - split; [constructor|exact HN].
  - simpl in OK. destruct OK as [O1 O2]. pose proof (os_step_spec h o O1 HN) as P.
    destruct (os_step eqb h o) as [h1 x]. destruct P as [P1 [P2 P3]].
    rewrite <- P3 in O2. specialize (IH h1 O2 P2). destruct (os_run eqb h1 p) as [h2 xs].
    destruct IH as [I1 I2]. split; [|exact I2]. now apply sp_cons with (deno h1).
Qed.

(** ** Order *)
Lemma first_pos_In : forall x l, In x l <-> exists a, first_pos eqb x l = Some a.
Proof.
  intros x l. induction l as [|y l IH]; simpl.
  - split; [intros []|intros [a H]; discriminate].
  - destruct (eqb x y) eqn:E.
    + apply eqb_ok in E. subst. split; [intros _; now exists 0|now left].
    + apply eqb_neq in E. rewrite IH. split.
      * intros [K|[a K]]; [congruence|]. rewrite K. now exists (S a).
      * intros [a K]. destruct (first_pos eqb x l) as [b|]; [|discriminate]. right. now exists b.
Qed.
Lemma first_pos_app : forall x l r, first_pos eqb x (l ++ r) =
  match first_pos eqb x l with Some a => Some a | None => option_map (fun b => length l + b) (first_pos eqb x r) end.
Proof.
  intros x l r. induction l as [|y l IH]; simpl.
  - now destruct (first_pos eqb x r).
  - destruct (eqb x y); [reflexivity|]. rewrite IH. destruct (first_pos eqb x l); [reflexivity|]. now destruct (first_pos eqb x r).
Qed.
Lemma first_pos_lt : forall x l a, first_pos eqb x l = Some a -> a < length l.
Proof.
  intros x l. induction l as [|y l IH]; intros a H; simpl in *; [discriminate|].
  destruct (eqb x y); [injection H as <-; lia|]. destruct (first_pos eqb x l) as [b|]; [|discriminate].
  injection H as <-. specialize (IH b eq_refl). lia.
Qed.
Lemma first_pos_None : forall x l, first_pos eqb x l = None <-> ~ In x l.
Proof.
  intros x l. rewrite first_pos_In. destruct (first_pos eqb x l) as [a|].
  - split; [discriminate|]. intro H. exfalso. apply H. now exists a.
  - split; [|reflexivity]. intros _ [a H]. discriminate.
Qed.

(** [in_order_of] by positions is the same as a sorted list *)
Lemma in_order_nil : forall l, in_order_of eqb l [].
Proof. intros l i j x y _ H. destruct i; discriminate. Qed.
Lemma in_order_self : forall d, NoDup d -> in_order_of eqb d d.
Proof.
  intros d HN i j x y L Hi Hj. exists i, j.
  assert (G : forall i x d, NoDup d -> nth_error d i = Some x -> first_pos eqb x d = Some i).
  { clear - eqb_ok. intros i x. induction i as [|i IH]; intros d N H; destruct d as [|y d]; try discriminate; simpl in *.
    - injection H as ->. now rewrite eqb_refl.
    - inversion N; subst. rewrite (IH d H3 H). destruct (eqb x y) eqn:E; [|reflexivity].
      apply eqb_ok in E. subst. apply nth_error_In in H. contradiction. }
  split; [now apply G|]. split; [now apply G|exact L].
Qed.
Lemma in_order_filter : forall l r f, in_order_of eqb l r -> in_order_of eqb l (filter f r).
Proof.
  intros l r f H.
  assert (G : forall r i j x y, i < j -> nth_error (filter f r) i = Some x -> nth_error (filter f r) j = Some y ->
     exists i' j', i' < j' /\ nth_error r i' = Some x /\ nth_error r j' = Some y).
  { clear. induction r as [|z r IH]; intros i j x y L Hi Hj; simpl in *; [destruct i; discriminate|].
    destruct (f z).
    - destruct j; [lia|]. destruct i; simpl in *.
      + injection Hi as ->. apply nth_error_In in Hj. apply filter_In in Hj. destruct Hj as [Hj _].
        apply In_nth_error in Hj. destruct Hj as [j' Hj]. exists 0, (S j'). simpl. repeat split; [lia|exact Hj].
      + destruct (IH i j x y) as [i' [j' [K1 [K2 K3]]]]; [lia|assumption|assumption|].
        exists (S i'), (S j'). simpl. repeat split; [lia|assumption|assumption].
    - destruct (IH i j x y L Hi Hj) as [i' [j' [K1 [K2 K3]]]].
      exists (S i'), (S j'). simpl. repeat split; [lia|assumption|assumption]. }
  intros i j x y L Hi Hj. destruct (G r i j x y L Hi Hj) as [i' [j' [K1 [K2 K3]]]]. now apply (H i' j').
Qed.
(** extending the reference list on the right by a list that is added *)
Lemma in_order_add : forall m l r, in_order_of eqb l r -> (forall x, In x r -> In x l) -> (forall x, In x l -> In x m -> In x r) ->
  in_order_of eqb (l ++ m) (addl m r).
Proof.
  induction m as [|z m IH]; intros l r H HI HC; simpl; [now rewrite app_nil_r|].
  replace (l ++ z :: m) with ((l ++ [z]) ++ m) by (now rewrite <- app_assoc).
  destruct (has eqb z r) eqn:E; [assert (AE : os_add eqb z r = r) by (unfold os_add, d_set; now rewrite E)|assert (AE : os_add eqb z r = r ++ [z]) by (unfold os_add, d_set; now rewrite E)]; rewrite AE; clear AE.
  - apply has_In in E. apply IH.
    + intros i j x y L Hi Hj. destruct (H i j x y L Hi Hj) as [a [b [K1 [K2 K3]]]]. exists a, b.
      rewrite !first_pos_app, K1, K2. auto.
    + intros x Hx. apply in_app_iff. left. now apply HI.
    + intros x Hx Hm. apply in_app_iff in Hx. destruct Hx as [Hx|[Hx|[]]]; [|now subst].
      apply HC; [exact Hx|now right].
  - apply has_not in E.
    assert (Nz : ~ In z l) by (intro K; apply E; apply HC; [exact K|now left]).
    assert (Fz : first_pos eqb z (l ++ [z]) = Some (length l)).
    { rewrite first_pos_app. apply first_pos_None in Nz. rewrite Nz. simpl. rewrite eqb_refl. simpl. f_equal. lia. }
    apply IH.
    + intros i j x y L Hi Hj. destruct (Nat.lt_ge_cases j (length r)) as [Lj|Lj].
      * rewrite nth_error_app1 in Hi by lia. rewrite nth_error_app1 in Hj by lia.
        destruct (H i j x y L Hi Hj) as [a [b [K1 [K2 K3]]]]. exists a, b. rewrite !first_pos_app, K1, K2. auto.
      * assert (Ej : j = length r).
        { assert (j < length (r ++ [z])) by (apply nth_error_Some; congruence). rewrite app_length in H0. simpl in H0. lia. }
        subst j. rewrite nth_error_app2 in Hj by lia. rewrite Nat.sub_diag in Hj. simpl in Hj. injection Hj as <-.
        rewrite nth_error_app1 in Hi by lia. apply nth_error_In in Hi. apply HI in Hi. apply first_pos_In in Hi.
        destruct Hi as [a Ha]. exists a, (length l). split; [rewrite first_pos_app, Ha; reflexivity|]. split; [exact Fz|].
        now apply first_pos_lt in Ha.
    + intros x Hx. apply in_app_iff in Hx. apply in_app_iff. destruct Hx as [Hx|Hx]; [left; now apply HI|now right].
    + intros x Hx Hm. apply in_app_iff in Hx. apply in_app_iff. destruct Hx as [Hx|Hx]; [left; apply HC; [exact Hx|now right]|now right].
Qed.

Theorem os_orders : forall d i others, NoDup d ->
  in_order_of eqb (it_items i) (os_init eqb i) /\
  in_order_of eqb (d ++ items others) (os_union eqb d others) /\
  in_order_of eqb d (os_difference eqb d others) /\
  (Forall (fun i => it_once i = false) others -> in_order_of eqb d (os_intersection eqb d others)) /\
  (it_once i = false -> in_order_of eqb (d ++ it_items i) (os_symdiff eqb d i)).
Proof.
  intros d i others HN. split; [|split; [|split; [|split]]].
  - rewrite os_init_eq. apply (in_order_add (it_items i) [] []); [apply in_order_nil|intros x []|intros x []].
  - rewrite os_union_eq. apply in_order_add; [now apply in_order_self|auto|auto].
  - rewrite os_difference_eq, dell_eq. apply in_order_filter. now apply in_order_self.
  - intro HO. rewrite os_intersection_eq by assumption. apply in_order_filter. now apply in_order_self.
  - intro HO. rewrite os_symdiff_eq by assumption.
    set (r := filter (fun x => negb (has eqb x (it_items i))) d).
    assert (R : in_order_of eqb d r) by (apply in_order_filter; now apply in_order_self).
    assert (G : forall m l r, in_order_of eqb l r -> (forall x, In x r -> In x l) ->
      (forall x, In x l -> In x m -> In x r \/ In x d) -> (forall x, In x d -> In x l) ->
      in_order_of eqb (l ++ m) (addl (filter (fun x => negb (has eqb x d)) m) r)).
    { clear - eqb_ok. induction m as [|z m IH]; intros l r H HI HC HD; simpl; [now rewrite app_nil_r|].
      replace (l ++ z :: m) with ((l ++ [z]) ++ m) by (now rewrite <- app_assoc).
      assert (EXT : in_order_of eqb (l ++ [z]) r).
      { intros i j x y L Hi Hj. destruct (H i j x y L Hi Hj) as [a [b [K1 [K2 K3]]]]. exists a, b.
        rewrite !first_pos_app, K1, K2. auto. }
      destruct (has eqb z d) eqn:E; simpl.
      - apply has_In in E. apply IH; [exact EXT| | |].
        + intros x Hx. apply in_app_iff. left. now apply HI.
        + intros x Hx Hm. apply in_app_iff in Hx. destruct Hx as [Hx|[Hx|[]]]; [|subst; now right].
          apply HC; [exact Hx|now right].
        + intros x Hx. apply in_app_iff. left. now apply HD.
      - apply has_not in E. destruct (has eqb z r) eqn:Er; [assert (AE : os_add eqb z r = r) by (unfold os_add, d_set; now rewrite Er)|assert (AE : os_add eqb z r = r ++ [z]) by (unfold os_add, d_set; now rewrite Er)]; rewrite AE; clear AE.
        + apply has_In in Er. apply IH; [exact EXT| | |].
          * intros x Hx. apply in_app_iff. left. now apply HI.
          * intros x Hx Hm. apply in_app_iff in Hx. destruct Hx as [Hx|[Hx|[]]]; [|subst; now left].
            apply HC; [exact Hx|now right].
          * intros x Hx. apply in_app_iff. left. now apply HD.
        + apply has_not in Er.
          assert (Nz : ~ In z l) by (intro K; destruct (HC z K (or_introl eq_refl)); contradiction).
          apply IH.
          * change (in_order_of eqb (l ++ [z]) (r ++ [z])).
            pose proof (in_order_add [z] l r H HI) as Q. simpl in Q.
            unfold os_add, d_set in Q. apply has_not in Er. rewrite Er in Q. apply Q.
            intros x Hx [Hz|[]]. subst. contradiction.
          * intros x Hx. apply in_app_iff in Hx. apply in_app_iff. destruct Hx as [Hx|Hx]; [left; now apply HI|now right].
          * intros x Hx Hm. apply in_app_iff in Hx. destruct Hx as [Hx|Hx].
            -- destruct (HC x Hx (or_intror Hm)) as [K|K]; [left; apply in_app_iff; now left|now right].
            -- left. apply in_app_iff. now right.
          * intros x Hx. apply in_app_iff. left. now apply HD. }
    apply G; [exact R| |auto|auto]. intros x Hx. apply filter_In in Hx. tauto.
Qed.

(** Histories of additions and removals *)
Definition ev_step (d : list A) (e : event A) : list A :=
  match e with EvAdd x => os_add eqb x d | EvDel x => os_discard eqb x d end.
Lemma born_lt : forall h i cur x t, (forall c, cur = Some c -> c < i) -> born A eqb i cur h x = Some t -> t < i + length h.
Proof.
  induction h as [|e h IH]; intros i cur x t H E; simpl in *; [apply H in E; lia|].
  destruct e as [y|y].
  - apply IH in E; [lia|]. intros c Hc. destruct (eqb x y); [|apply H in Hc; lia].
    destruct cur as [c'|]; [apply H in Hc; lia|injection Hc as <-; lia].
  - apply IH in E; [lia|]. intros c Hc. destruct (eqb x y); [discriminate|apply H in Hc; lia].
Qed.
Lemma born_snoc : forall h i cur e x, born A eqb i cur (h ++ [e]) x =
  match e with
  | EvAdd y => if eqb x y then match born A eqb i cur h x with None => Some (i + length h) | c => c end else born A eqb i cur h x
  | EvDel y => if eqb x y then None else born A eqb i cur h x
  end.
Proof.
  induction h as [|e0 h IH]; intros i cur e x; simpl.
  - rewrite Nat.add_0_r. destruct e, cur; reflexivity.
  - destruct e0 as [y|y]; rewrite IH; replace (S i + length h) with (i + S (length h)) by lia; reflexivity.
Qed.
Theorem os_history : forall h,
  let d := fold_left ev_step h [] in
  NoDup d /\
  (forall x, In x d <-> exists t, birth eqb h x = Some t) /\
  (forall i j x y, i < j -> nth_error d i = Some x -> nth_error d j = Some y ->
     exists a b, birth eqb h x = Some a /\ birth eqb h y = Some b /\ a < b).
Proof.
  intro h. induction h as [|e h IH] using rev_ind; simpl.
  - split; [constructor|]. split.
    + intro x. split; [intros []|intros [t H]; discriminate].
    + intros i j x y _ H. destruct i; discriminate.
  - rewrite fold_left_app. simpl. set (d := fold_left ev_step h []) in *. destruct IH as [I1 [I2 I3]].
    unfold birth in *. setoid_rewrite born_snoc. simpl.
    destruct e as [z|z]; simpl.
    + unfold os_add. split; [now apply d_set_NoDup|]. split.
      * intro x. rewrite d_set_In, I2. destruct (eqb x z) eqn:E.
        -- apply eqb_ok in E. subst. split; [|auto]. intros _. destruct (born A eqb 0 None h z); eauto.
        -- apply eqb_neq in E. split; [intros [K|K]; [exact K|contradiction]|auto].
      * unfold d_set. intros i j x y L Hi Hj. destruct (has eqb z d) eqn:E.
        -- apply has_In in E. destruct (I3 i j x y L Hi Hj) as [a [b [K1 [K2 K3]]]]. exists a, b.
           rewrite K1, K2. destruct (eqb x z), (eqb y z); auto.
        -- apply has_not in E. assert (Bz : born A eqb 0 None h z = None).
           { destruct (born A eqb 0 None h z) eqn:B; [|reflexivity]. exfalso. apply E. apply I2. eauto. }
           destruct (Nat.lt_ge_cases j (length d)) as [Lj|Lj].
           ++ rewrite nth_error_app1 in Hi by lia. rewrite nth_error_app1 in Hj by lia.
              destruct (I3 i j x y L Hi Hj) as [a [b [K1 [K2 K3]]]]. exists a, b.
              rewrite K1, K2. destruct (eqb x z), (eqb y z); auto.
           ++ assert (Ej : j = length d).
              { assert (j < length (d ++ [z])) by (apply nth_error_Some; congruence). rewrite app_length in H. simpl in H. lia. }
              subst j. rewrite nth_error_app2 in Hj by lia. rewrite Nat.sub_diag in Hj. simpl in Hj. injection Hj as <-.
              rewrite nth_error_app1 in Hi by lia. apply nth_error_In in Hi. apply I2 in Hi. destruct Hi as [a Ha].
              exists a, (length h). rewrite Ha, Bz, eqb_refl. split; [destruct (eqb x z); reflexivity|].
              split; [reflexivity|]. apply born_lt in Ha; [lia|]. discriminate.
    + rewrite os_discard_eq. split; [now apply d_del_NoDup|]. split.
      * intro x. rewrite d_del_In, I2. destruct (eqb x z) eqn:E.
        -- apply eqb_ok in E. subst. split; [intros [_ K]; contradiction|intros [t K]; discriminate].
        -- apply eqb_neq in E. tauto.
      * intros i j x y L Hi Hj.
        assert (Nx : eqb x z = false).
        { apply eqb_neq. apply nth_error_In in Hi. apply d_del_In in Hi. tauto. }
        assert (Ny : eqb y z = false).
        { apply eqb_neq. apply nth_error_In in Hj. apply d_del_In in Hj. tauto. }
        rewrite Nx, Ny.
        assert (O : forall d' i j, (forall i j x y, i < j -> nth_error d' i = Some x -> nth_error d' j = Some y ->
              exists a b, born A eqb 0 None h x = Some a /\ born A eqb 0 None h y = Some b /\ a < b) ->
            i < j -> nth_error (d_del eqb z d') i = Some x -> nth_error (d_del eqb z d') j = Some y ->
            exists a b, born A eqb 0 None h x = Some a /\ born A eqb 0 None h y = Some b /\ a < b).
        { clear. unfold d_del. induction d' as [|w d' IH]; intros i j H L Hi Hj; simpl in *; [destruct i; discriminate|].
          assert (H' : forall i j x y, i < j -> nth_error d' i = Some x -> nth_error d' j = Some y ->
              exists a b, born A eqb 0 None h x = Some a /\ born A eqb 0 None h y = Some b /\ a < b).
          { intros i0 j0 x0 y0 L0 A0 B0. apply (H (S i0) (S j0)); [lia|exact A0|exact B0]. }
          destruct (negb (eqb z w)).
          - destruct j; [lia|]. destruct i; simpl in *.
            + injection Hi as ->. apply nth_error_In in Hj. apply filter_In in Hj. destruct Hj as [Hj _].
              apply In_nth_error in Hj. destruct Hj as [j' Hj]. apply (H 0 (S j')); [lia|reflexivity|exact Hj].
            + apply (IH i j H'); [lia|assumption|assumption].
          - apply (IH i j H'); assumption. }
        apply (O d i j I3 L Hi Hj).
Qed.
(** The same through calls on one object *)
Definition ev_call (e : event A) : sop A := match e with EvAdd x => OAdd 0 x | EvDel x => ODiscard 0 x end.
Lemma os_run_events : forall h d, fst (os_run eqb [d] (map ev_call h)) = [fold_left ev_step h d].
Proof.
  induction h as [|e h IH]; intro d; [reflexivity|]. destruct e as [x|x]; cbn [map ev_call os_run os_step].
  - change (store_at A [d] 0 (os_add eqb x (look A [d] 0))) with [os_add eqb x d]. specialize (IH (os_add eqb x d)).
    destruct (os_run eqb [os_add eqb x d] (map ev_call h)). exact IH.
  - change (store_at A [d] 0 (os_discard eqb x (look A [d] 0))) with [os_discard eqb x d]. specialize (IH (os_discard eqb x d)).
    destruct (os_run eqb [os_discard eqb x d] (map ev_call h)). exact IH.
Qed.
Lemma os_history_run : forall h d, fst (os_run eqb [[]] (map ev_call h)) = [d] ->
  NoDup d /\ (forall x, In x d <-> exists t, birth eqb h x = Some t) /\
  (forall i j x y, i < j -> nth_error d i = Some x -> nth_error d j = Some y ->
     exists a b, birth eqb h x = Some a /\ birth eqb h y = Some b /\ a < b).
Proof. intros h d H. rewrite os_run_events in H. injection H as <-. apply os_history. Qed.
End SetFacts.

(** ** Registry *)
Section RegFacts.
Variable bases : nat -> list nat.
Lemma reg_find_set : forall r t c t', reg_find t' (reg_set t c r) = if t' =? t then Some c else reg_find t' r.
Proof.
  induction r as [|[t0 c0] r IH]; intros t c t'; simpl.
  - reflexivity.
  - destruct (t =? t0) eqn:E; simpl.
    + apply Nat.eqb_eq in E. subst. destruct (t' =? t0); reflexivity.
    + destruct (t' =? t0) eqn:E0; [|apply IH].
      apply Nat.eqb_eq in E0. subst. rewrite Nat.eqb_sym, E. reflexivity.
Qed.
Lemma rclasses_ind' : forall P : rclasses -> Prop, P RDefault -> (forall t, P (ROne t)) ->
  (forall l, Forall P l -> P (RMany l)) -> forall c, P c.
Proof.
  intros P H1 H2 H3. fix IH 1. intros [|t|l]; [exact H1|apply H2|]. apply H3.
  induction l as [|x l IHl]; constructor; [apply IH|exact IHl].
Qed.
Definition sets (r : registry) (c : nat) (l : list nat) : registry := fold_left (fun r t => reg_set t c r) l r.
Lemma upto_app : forall a b, upto (a ++ b) = if forallb is_some a then upto a ++ upto b else upto a.
Proof. induction a as [|[t|] a IH]; intro b; simpl; try reflexivity. rewrite IH. destruct (forallb is_some a); reflexivity. Qed.
Lemma register_spec : forall c cl r, register bases r c cl =
  (sets r c (upto (named bases c cl)), if forallb is_some (named bases c cl) then None else Some EIndex).
Proof.
  intros c cl. induction cl as [|t|l IH] using rclasses_ind'; intro r; simpl.
  - destruct (bases c) as [|? [|? ?]]; reflexivity.
  - reflexivity.
  - revert r. induction IH as [|x l Hx Hl IHl]; intro r; simpl; [reflexivity|].
    rewrite Hx, forallb_app, upto_app. destruct (forallb is_some (named bases c x)); simpl; [|reflexivity].
    rewrite IHl. unfold sets. now rewrite fold_left_app.
Qed.
Lemma sets_find : forall l r c t, reg_find t (sets r c l) = if existsb (Nat.eqb t) l then Some c else reg_find t r.
Proof.
  unfold sets. induction l as [|x l IH]; intros r c t; simpl; [reflexivity|].
  rewrite IH, reg_find_set. destruct (t =? x), (existsb (Nat.eqb t) l); reflexivity.
Qed.
Lemma register_all_find : forall l r t,
  reg_find t (register_all bases r l) = match last_asked bases l t with Some c => Some c | None => reg_find t r end.
Proof.
  unfold register_all, last_asked. induction l as [|x l IH] using rev_ind; intros r t; [reflexivity|].
  rewrite fold_left_app. simpl. rewrite register_spec. simpl. rewrite sets_find, IH.
  rewrite flat_map_app, rev_app_distr, filter_app. simpl. rewrite app_nil_r.
  unfold asked at 2. set (u := upto (named bases (fst x) (snd x))).
  destruct (existsb (Nat.eqb t) u) eqn:E.
  - assert (G : exists q, filter (fun tc => fst tc =? t) (rev (map (fun t => (t, fst x)) u)) = (t, fst x) :: q).
    { rewrite <- map_rev. assert (E' : existsb (Nat.eqb t) (rev u) = true).
      { apply existsb_exists in E. destruct E as [y [H1 H2]]. apply existsb_exists. exists y. split; [now apply -> in_rev|exact H2]. }
      clear E. induction (rev u) as [|y w IHw]; simpl in *; [discriminate|].
      destruct (y =? t) eqn:Ey; [apply Nat.eqb_eq in Ey; subst; eauto|].
      rewrite Nat.eqb_sym, Ey in E'. simpl in E'. now apply IHw. }
    destruct G as [q G]. rewrite G. reflexivity.
  - assert (G : filter (fun tc => fst tc =? t) (rev (map (fun t => (t, fst x)) u)) = []).
    { rewrite <- map_rev. assert (E' : forall y, In y (rev u) -> (y =? t) = false).
      { intros y Hy. apply in_rev in Hy. destruct (y =? t) eqn:Ey; [|reflexivity]. apply Nat.eqb_eq in Ey. subst.
        assert (existsb (Nat.eqb t) u = true) by (apply existsb_exists; exists t; split; [exact Hy|apply Nat.eqb_refl]). congruence. }
      induction (rev u) as [|y w IHw]; simpl; [reflexivity|]. rewrite (E' y (or_introl eq_refl)). apply IHw.
      intros z Hz. apply E'. now right. }
    rewrite G. reflexivity.
Qed.
End RegFacts.

Lemma os_step_alloc : forall (A : Type) (eqb : A -> A -> bool) (h : sheap A) (o : sop A),
  allocates A o = true -> exists d, fst (os_step eqb h o) = h ++ [d].
Proof.
  intros A eqb h o H. destruct o; try discriminate H; cbn in *; try (eexists; reflexivity).
  rewrite H. eexists. reflexivity.
Qed.
Lemma class_spec : forall (bases : nat -> list nat) (l : list (nat * rclasses)) (t : nat),
  get_overloaded_class (register_all bases [] l) t = match last_asked bases l t with Some c => Ok c | None => Err EKey end.
Proof. intros bases l t. unfold get_overloaded_class. rewrite register_all_find. destruct (last_asked bases l t); reflexivity. Qed.
Lemma create_spec : forall (bases : nat -> list nat) (init : nat -> pyobj -> res pyobj) (l : list (nat * rclasses)) (o : pyobj) (suppress : bool),
  (po_over o = true -> create_overloaded init (register_all bases [] l) o suppress = (Ok o, false)) /\
  (po_over o = false -> forall c, last_asked bases l (po_type o) = Some c ->
     create_overloaded init (register_all bases [] l) o suppress = (init c o, false)) /\
  (po_over o = false -> last_asked bases l (po_type o) = None ->
     create_overloaded init (register_all bases [] l) o suppress = (Ok o, negb suppress)).
Proof.
  intros bases init l o sup. unfold create_overloaded. rewrite register_all_find. split; [intros ->; reflexivity|].
  split; [intros -> c ->; reflexivity|intros -> ->; reflexivity].
Qed.
