(** Facts about the loop combinators and heap updates. *)
From Coq Require Import List Arith ZArith Lia Bool.
From Verif Require Import Base Model.
Import ListNotations.

Lemma mem_In : forall x l, mem x l = true <-> In x l.
Proof.
  intros x l. unfold mem. rewrite existsb_exists. split.
  - intros [y [Hy He]]. apply Nat.eqb_eq in He. now subst.
  - intros H. exists x. split; [assumption|apply Nat.eqb_refl].
Qed.

Lemma mem_false : forall x l, mem x l = false <-> ~ In x l.
Proof.
  intros x l. rewrite <- mem_In. destruct (mem x l); split; intros H; congruence || (exfalso; apply H; reflexivity) || idtac.
Qed.

Lemma iter_o_inv : forall {S A} (f : S -> A -> S * option exn) (P : S -> Prop) l s s' e,
  (forall s x s' e, In x l -> P s -> f s x = (s', e) -> P s') ->
  P s -> iter_o f l s = (s', e) -> P s'.
Proof.
  intros S A f P l. induction l as [|x r IH]; intros s s' e Hf Hs Hi; cbn in Hi.
  - now inversion Hi; subst.
  - destruct (f s x) as [s1 e1] eqn:Hx.
    assert (P s1) as H1 by (eapply Hf; [left; reflexivity|exact Hs|exact Hx]).
    destruct e1 as [e1|].
    + now inversion Hi; subst.
    + eapply IH; [|exact H1|exact Hi]. intros. eapply Hf; eauto. now right.
Qed.

Lemma iter_o_app : forall {S A} (f : S -> A -> S * option exn) l1 l2 s,
  iter_o f (l1 ++ l2) s = andthen (iter_o f l1 s) (iter_o f l2).
Proof.
  intros S A f l1. induction l1 as [|x r IH]; intros l2 s; cbn; [reflexivity|].
  destruct (f s x) as [s1 [e|]]; [reflexivity|apply IH].
Qed.

(** Two loops in lock step, related by [R]; exceptions agree. *)
Lemma iter_o_sim : forall {S T A} (f : S -> A -> S * option exn) (g : T -> A -> T * option exn)
  (R : S -> T -> Prop) l s t,
  (forall s t x, In x l -> R s t ->
     snd (f s x) = snd (g t x) /\ R (fst (f s x)) (fst (g t x))) ->
  R s t ->
  snd (iter_o f l s) = snd (iter_o g l t) /\ R (fst (iter_o f l s)) (fst (iter_o g l t)).
Proof.
  intros S T A f g R l. induction l as [|x r IH]; intros s t H Hst; cbn.
  - auto.
  - destruct (H s t x (or_introl eq_refl) Hst) as [He Hr].
    destruct (f s x) as [s1 e1], (g t x) as [t1 e2]; cbn in *. subst e2.
    destruct e1; cbn; [auto|]. apply IH; [|assumption]. intros. apply H; auto.
Qed.

Section Heap.
Context {V : Type}.
Implicit Types h : heap V.

Lemma upd_same : forall h v f, upd h v f v = f (h v).
Proof. intros. unfold upd. now rewrite Nat.eqb_refl. Qed.
Lemma upd_other : forall h v f w, w <> v -> upd h v f w = h w.
Proof. intros. unfold upd. destruct (Nat.eqb_spec w v); congruence. Qed.

Lemma upd_all_other : forall l h f w, ~ In w l -> upd_all h l f w = h w.
Proof.
  induction l as [|v r IH]; intros h f w Hn; cbn; [reflexivity|].
  rewrite IH by (intros H; apply Hn; now right).
  apply upd_other. intros ->. apply Hn. now left.
Qed.

(** For idempotent updates the order and repetition do not matter. *)
Lemma upd_all_in : forall l h f w, (forall b, f (f b) = f b) -> In w l -> upd_all h l f w = f (h w).
Proof.
  induction l as [|v r IH]; intros h f w Hf Hin; cbn; [easy|].
  destruct (in_dec Nat.eq_dec w r) as [Hr|Hr].
  - rewrite IH by assumption. unfold upd. destruct (Nat.eqb w v); [apply Hf|reflexivity].
  - rewrite upd_all_other by assumption.
    destruct Hin as [->|H]; [apply upd_same|contradiction].
Qed.

Lemma upd_all_spec : forall l h f w, (forall b, f (f b) = f b) ->
  upd_all h l f w = if mem w l then f (h w) else h w.
Proof.
  intros l h f w Hf. destruct (mem w l) eqn:Hm.
  - apply upd_all_in; [assumption|now apply mem_In].
  - apply upd_all_other. now apply mem_false.
Qed.

(** [erase] ignores the fields that [f] changes. *)
Lemma upd_erase : forall (erase : bvar V -> bvar V) h v f w,
  (forall b, erase (f b) = erase b) -> erase (upd h v f w) = erase (h w).
Proof. intros. unfold upd. destruct (Nat.eqb w v); auto. Qed.
Lemma upd_all_erase : forall (A : Type) (erase : bvar V -> A) l h f w,
  (forall b, erase (f b) = erase b) -> erase (upd_all h l f w) = erase (h w).
Proof.
  induction l as [|v r IH]; intros; cbn; [reflexivity|].
  rewrite IH by assumption. unfold upd. destruct (Nat.eqb w v); auto.
Qed.

(** Outputs and variables mentioned by a block list. *)
Definition outs_of (bs : list (block V)) : list nat := flat_map (@b_outs V) bs.
Definition deps_of (bs : list (block V)) : list nat := flat_map (@b_deps V) bs.
Definition vars_of (bs : list (block V)) : list nat := deps_of bs ++ outs_of bs.

Lemma reset_with_spec : forall f bs h w, (forall b, f (f b) = f b) ->
  reset_with f bs h w = if mem w (vars_of bs) then f (h w) else h w.
Proof.
  intros f bs h w Hf. unfold reset_with.
  assert (G : forall (l : list (block V)) h, fold_left (fun h' (b : block V) => upd_all (upd_all h' (b_deps b) f) (b_outs b) f) l h w
            = if existsb (fun b => mem w (b_deps b) || mem w (b_outs b)) l then f (h w) else h w).
  { clear h. induction l as [|b r IH]; intros h; cbn; [reflexivity|].
    rewrite IH. rewrite !upd_all_spec by assumption.
    destruct (mem w (b_deps b)), (mem w (b_outs b)), (existsb _ r); cbn; rewrite ?Hf; reflexivity. }
  rewrite G.
  replace (existsb (fun b => mem w (b_deps b) || mem w (b_outs b)) (rev bs)) with (mem w (vars_of bs)); [reflexivity|].
  apply eq_true_iff_eq. rewrite mem_In, existsb_exists. unfold vars_of, deps_of, outs_of.
  rewrite in_app_iff, !in_flat_map. split.
  - intros [[b [Hb Hw]]|[b [Hb Hw]]]; exists b; (split; [now rewrite <- in_rev|]); apply orb_true_iff; [left|right]; now apply mem_In.
  - intros [b [Hb Hw]]. rewrite <- in_rev in Hb. apply orb_true_iff in Hw as [Hw|Hw]; apply mem_In in Hw; [left|right]; eauto.
Qed.

End Heap.

Lemma enum_from_In : forall {A} (l : list A) i j x,
  In (j, x) (enum_from i l) <-> (i <= j /\ nth_error l (j - i) = Some x).
Proof.
  intros A l. induction l as [|y r IH]; intros i j x; cbn.
  - split; [easy|]. intros [_ H]. destruct (j - i); discriminate.
  - rewrite IH. split.
    + intros [H|[Hle H]].
      * inversion H; subst. split; [lia|]. now rewrite Nat.sub_diag.
      * split; [lia|]. replace (j - i) with (S (j - S i)) by lia. exact H.
    + intros [Hle H]. destruct (Nat.eq_dec i j) as [->|Hne].
      * left. rewrite Nat.sub_diag in H. cbn in H. congruence.
      * right. split; [lia|]. replace (j - i) with (S (j - S i)) in H by lia. exact H.
Qed.
Lemma enum_In : forall {A} (l : list A) j x, In (j, x) (enum l) <-> nth_error l j = Some x.
Proof.
  intros. unfold enum. rewrite enum_from_In, Nat.sub_0_r. split; [tauto|]. split; [lia|assumption].
Qed.
Lemma enum_from_snd : forall {A} (l : list A) i, map snd (enum_from i l) = l.
Proof. intros A l. induction l as [|x r IH]; intros i; cbn; [reflexivity|]. now rewrite IH. Qed.
Lemma enum_snd : forall {A} (l : list A), map snd (enum l) = l.
Proof. intros. apply enum_from_snd. Qed.
Lemma enum_snd_In : forall {A} (l : list A) p, In p (enum l) -> In (snd p) l.
Proof. intros A l p H. rewrite <- (enum_snd l). now apply in_map. Qed.
