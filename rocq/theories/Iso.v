(** Tapes equal up to the names of their variables and up to blocks without outputs: every API call
    gives the same result on both. *)
From Coq Require Import List Arith ZArith Lia Bool.
From Verif Require Import Base Model BaseFacts Graph History.
Import ListNotations.

Section Iso.
Context {V : Type} (F : fops V).
(** Corresponding variables, and the ones whose stored values matter. *)
Context (R : nat -> nat -> Prop) (Pd : nat -> Prop).
Hypothesis Rbij : forall u u' v v', R u u' -> R v v' -> (u = v <-> u' = v').
Implicit Types (h : heap V) (b : block V) (bs : list (block V)).

(** Blocks with their own evaluate_tlm or evaluate_hessian. *)
Definition is_over (k : kind V) : bool := match k with KSub | KDiv | KPow | KNeg => true | _ => false end.
Definition sv (b : bvar V) : V := match bv_ckpt b with Some x => x | None => bv_out b end.
Definition brel (P : Prop) (b b' : bvar V) : Prop :=
  (P -> sv b = sv b') /\ bv_adj b = bv_adj b' /\ bv_tlm b = bv_tlm b' /\ bv_hess b = bv_hess b' /\
  bv_mark b = bv_mark b' /\ bv_ctrl b = bv_ctrl b'.
Definition hrel h h' := forall v v', R v v' -> brel (Pd v) (h v) (h' v').
Definition orel (r r' : heap V * option exn) := snd r = snd r' /\ hrel (fst r) (fst r').
Definition respects (f f' : bvar V -> bvar V) := forall P (x y : bvar V), brel P x y -> brel P (f x) (f' y).

Lemma R_eqb : forall u u' v v', R u u' -> R v v' -> Nat.eqb u v = Nat.eqb u' v'.
Proof.
  intros u u' v v' H1 H2. pose proof (Rbij u u' v v' H1 H2) as B.
  destruct (Nat.eqb_spec u v), (Nat.eqb_spec u' v'); tauto.
Qed.
Lemma R_mem : forall v v' l l', R v v' -> Forall2 R l l' -> mem v l = mem v' l'.
Proof.
  intros v v' l l' H HF. induction HF as [|x x' r r' Hx _ IH]; [reflexivity|].
  unfold mem in *. cbn. now rewrite (R_eqb _ _ _ _ H Hx), IH.
Qed.
Lemma hrel_upd : forall h h' v v' f f', hrel h h' -> R v v' -> respects f f' -> hrel (upd h v f) (upd h' v' f').
Proof.
  intros h h' v v' f f' H Hv Hf u u' Hu. unfold upd. rewrite <- (R_eqb _ _ _ _ Hu Hv).
  destruct (Nat.eqb u v); [apply Hf|]; now apply H.
Qed.

Lemma resp_adj : forall x, respects (set_adj x) (set_adj x).
Proof. intros x P y z [A [B [C [D [E G]]]]]. repeat split; auto. Qed.
Lemma resp_tlm : forall x, respects (set_tlm x) (set_tlm x).
Proof. intros x P y z [A [B [C [D [E G]]]]]. repeat split; auto. Qed.
Lemma resp_hess : forall x, respects (set_hess x) (set_hess x).
Proof. intros x P y z [A [B [C [D [E G]]]]]. repeat split; auto. Qed.
Lemma resp_mark : forall x, respects (set_mark x) (set_mark x).
Proof. intros x P y z [A [B [C [D [E G]]]]]. repeat split; auto. Qed.
Lemma resp_ctrl : forall x, respects (set_ctrl x) (set_ctrl x).
Proof. intros x P y z [A [B [C [D [E G]]]]]. repeat split; auto. Qed.
Lemma resp_put : forall x raw, respects (put_ckpt (Some x) raw) (put_ckpt (Some x) raw).
Proof.
  intros x raw P y z [A [B [C [D [E G]]]]]. unfold put_ckpt. rewrite <- G. destruct (bv_ctrl y) eqn:Ec; repeat split; cbn; auto; congruence.
Qed.
Lemma resp_add_adj : forall x, respects (add_adj F x) (add_adj F x).
Proof. intros x P y z [A [B [C [D [E G]]]]]. unfold add_adj. rewrite B. repeat split; auto. Qed.
Lemma resp_add_tlm : forall x, respects (add_tlm F x) (add_tlm F x).
Proof. intros x P y z [A [B [C [D [E G]]]]]. unfold add_tlm. rewrite C. repeat split; auto. Qed.
Lemma resp_add_hess : forall x, respects (add_hess F x) (add_hess F x).
Proof. intros x P y z [A [B [C [D [E G]]]]]. unfold add_hess. rewrite D. repeat split; auto. Qed.

Lemma r_saved : forall h h' v v', hrel h h' -> R v v' -> Pd v -> saved h v = saved h' v'.
Proof. intros h h' v v' H Hv Hp. now apply (H v v' Hv). Qed.
Lemma r_adj : forall h h' v v', hrel h h' -> R v v' -> bv_adj (h v) = bv_adj (h' v').
Proof. intros h h' v v' H Hv. now apply (H v v' Hv). Qed.
Lemma r_tlm : forall h h' v v', hrel h h' -> R v v' -> bv_tlm (h v) = bv_tlm (h' v').
Proof. intros h h' v v' H Hv. now apply (H v v' Hv). Qed.
Lemma r_hess : forall h h' v v', hrel h h' -> R v v' -> bv_hess (h v) = bv_hess (h' v').
Proof. intros h h' v v' H Hv. now apply (H v v' Hv). Qed.
Lemma r_mark : forall h h' v v', hrel h h' -> R v v' -> bv_mark (h v) = bv_mark (h' v').
Proof. intros h h' v v' H Hv. now apply (H v v' Hv). Qed.
Lemma r_ctrl : forall h h' v v', hrel h h' -> R v v' -> bv_ctrl (h v) = bv_ctrl (h' v').
Proof. intros h h' v v' H Hv. now apply (H v v' Hv). Qed.

(** ** Blocks *)
Record blk b b' : Prop := {
  bk_kind : b_kind b = b_kind b';
  bk_deps : Forall2 (fun v v' => R v v' /\ Pd v) (b_deps b) (b_deps b');
  bk_outs : Forall2 R (b_outs b) (b_outs b')
}.

Lemma map_rel : forall {A} (f g : nat -> A) (Q : nat -> nat -> Prop) l l', Forall2 Q l l' ->
  (forall v v', Q v v' -> f v = g v') -> map f l = map g l'.
Proof. intros A f g Q l l' H E. induction H; cbn; [reflexivity|]. f_equal; auto. Qed.

Definition irel (iv iv' : nat * nat) := fst iv = fst iv' /\ R (snd iv) (snd iv').
Lemma enum_rel : forall l l' i, Forall2 R l l' -> Forall2 irel (enum_from i l) (enum_from i l').
Proof. intros l l' i H. revert i. induction H; intros i; cbn; constructor; auto. split; auto. Qed.
Lemma deps_R : forall l l', Forall2 (fun v v' => R v v' /\ Pd v) l l' -> Forall2 R l l'.
Proof. intros l l' H. induction H as [|x y l l' [A _]]; constructor; auto. Qed.
Lemma relevant_rel : forall h h' m l l', hrel h h' -> Forall2 R l l' -> Forall2 irel (relevant h m l) (relevant h' m l').
Proof.
  intros h h' m l l' H HF. unfold relevant, enum. pose proof (enum_rel l l' 0 HF) as E.
  induction E as [|x y r r' [A B] _ IH]; cbn; [constructor|].
  rewrite <- (r_mark h h' _ _ H B). destruct (bv_mark (h (snd x)) || negb m); [constructor; [split; auto|auto]|auto].
Qed.
Lemma iter_rel : forall (f f' : heap V -> nat * nat -> heap V * option exn) l l', Forall2 irel l l' ->
  (forall h h' x x', hrel h h' -> irel x x' -> orel (f h x) (f' h' x')) ->
  forall h h', hrel h h' -> orel (iter_o f l h) (iter_o f' l' h').
Proof.
  intros f f' l l' HF E. induction HF as [|x x' r r' Hx _ IH]; intros h h' H; cbn; [split; auto|].
  destruct (E h h' x x' H Hx) as [E1 E2]. destruct (f h x) as [h1 e1], (f' h' x') as [h2 e2]. cbn in E1, E2. subst e2.
  destruct e1; [split; auto|]. now apply IH.
Qed.

Lemma o_ret : forall h h' e, hrel h h' -> orel (h, e) (h', e).
Proof. intros. split; auto. Qed.
Lemma o_vl : forall {A} (r : res A) h h' f f', hrel h h' -> (forall a, orel (f a) (f' a)) -> orel (with_val r h f) (with_val r h' f').
Proof. intros A [a|e] h h' f f' H E; cbn; [apply E|split; auto]. Qed.
Lemma o_ot : forall b b' h h' f f', blk b b' -> hrel h h' -> (forall o o', R o o' -> orel (f o) (f' o')) ->
  orel (with_out b h f) (with_out b' h' f').
Proof. intros b b' h h' f f' [_ _ K] H E. unfold with_out. inversion K; cbn; [split; auto|auto]. Qed.
Lemma o_term : forall b b' i h h' f f', blk b b' -> hrel h h' -> (forall t t', R t t' -> Pd t -> orel (f t) (f' t')) ->
  orel (with_term b i h f) (with_term b' i h' f').
Proof.
  intros b b' i h h' f f' [_ K _] H E. unfold with_term. revert i. induction K as [|x y l l' [A B] _ IH]; intros [|i]; cbn; try (split; auto; fail); auto.
Qed.
Lemma o_then : forall r r' k k', orel r r' -> (forall h h', hrel h h' -> orel (k h) (k' h')) -> orel (andthen r k) (andthen r' k').
Proof.
  intros [h e] [h' e'] k k' [A B] E. cbn in A, B. subst e'. destruct e; cbn; [split; auto|auto].
Qed.

Lemma o_let : forall (a a' : heap V) (f f' : heap V -> heap V * option exn), hrel a a' -> (forall h h', hrel h h' -> orel (f h) (f' h')) ->
  orel (let x := a in f x) (let x := a' in f' x).
Proof. intros. cbv zeta. auto. Qed.
Lemma o_retl : forall (a a' : heap V) e, hrel a a' -> orel (a, e) (a', e).
Proof. intros. split; auto. Qed.
Ltac rd :=
  repeat match goal with
  | H : hrel ?h ?h', Q : R ?t ?t' |- context[bv_tlm (?h' ?t')] => rewrite <- (r_tlm h h' t t' H Q)
  | H : hrel ?h ?h', Q : R ?t ?t' |- context[bv_adj (?h' ?t')] => rewrite <- (r_adj h h' t t' H Q)
  | H : hrel ?h ?h', Q : R ?t ?t' |- context[bv_hess (?h' ?t')] => rewrite <- (r_hess h h' t t' H Q)
  | H : hrel ?h ?h', Q : R ?t ?t', P : Pd ?t |- context[saved ?h' ?t'] => rewrite <- (r_saved h h' t t' H Q P)
  end.
Ltac hr := repeat first [assumption | apply hrel_upd | apply resp_add_tlm | apply resp_add_hess | apply resp_add_adj].
Ltac hr2 := cbv beta; rd; match goal with |- hrel (match ?x with _ => _ end) (match ?x with _ => _ end) => destruct x | _ => idtac end; hr.
Ltac st :=
  cbv beta; rd;
  match goal with
  | |- orel (let x := ?A in @?f x) (let y := ?A' in @?f' y) =>
      lazymatch type of A with
      | heap V => refine (o_let A A' f f' _ _); [hr2|intros]
      | _ => change (orel (f A) (f' A')); cbv beta
      end
  | |- orel (_, _) (_, _) => apply o_retl; hr2
  | |- orel (with_val _ _ _) (with_val _ _ _) => refine (o_vl _ _ _ _ _ _ _); [hr|intros]
  | |- orel (with_out _ _ _) (with_out _ _ _) => refine (o_ot _ _ _ _ _ _ _ _ _); [eassumption|hr|intros]
  | |- orel (with_term _ _ _ _) (with_term _ _ _ _) => refine (o_term _ _ _ _ _ _ _ _ _ _); [eassumption|hr|intros]
  | |- orel (andthen _ _) (andthen _ _) => refine (o_then _ _ _ _ _ _); [|intros]
  | |- orel (match ?x with _ => _ end) (match ?x with _ => _ end) => destruct x
  end.


Lemma recompute_rel : forall b b' h h', blk b b' -> hrel h h' -> orel (recompute_block F h b) (recompute_block F h' b').
Proof.
  intros b b' h h' K H. unfold recompute_block. pose proof K as [Kk Kd Ko]. rewrite <- Kk.
  replace (existsb (fun o => bv_ctrl (h' o)) (b_outs b')) with (existsb (fun o => bv_ctrl (h o)) (b_outs b)).
  2:{ clear - Ko H. induction Ko; cbn; [reflexivity|]. f_equal; [now apply r_ctrl|]. exact IHKo. }
  destruct (existsb _ (b_outs b)); [now apply o_ret|].
  replace (map (saved h') (b_deps b')) with (map (saved h) (b_deps b)).
  2:{ eapply map_rel; [exact Kd|]. intros v v' [A B]. now apply r_saved. }
  apply iter_rel; auto. { apply enum_rel; auto. }
  intros h1 h1' x x' H1 [X1 X2]. rewrite <- X1. destruct (comp_recompute _ _ _ _) as [[y|]|]; apply o_ret; auto.
  apply hrel_upd; auto. apply resp_put.
Qed.
Lemma adj_rel : forall m b b' h h', blk b b' -> hrel h h' -> orel (adj_block F m h b) (adj_block F m h' b').
Proof.
  intros m b b' h h' K H. unfold adj_block. pose proof K as [Kk Kd Ko]. rewrite <- Kk.
  replace (map (fun o => bv_adj (h' o)) (b_outs b')) with (map (fun o => bv_adj (h o)) (b_outs b)).
  2:{ eapply map_rel; [exact Ko|]. intros v v' A. now apply r_adj. }
  destruct (negb _); [now apply o_ret|].
  replace (map (saved h') (b_deps b')) with (map (saved h) (b_deps b)).
  2:{ eapply map_rel; [exact Kd|]. intros v v' [A B]. now apply r_saved. }
  apply iter_rel; auto. { apply relevant_rel; auto. now apply deps_R. }
  intros h1 h1' x x' H1 [X1 X2]. rewrite <- X1. destruct (comp_adj _ _ _ _ _) as [[y|]|]; apply o_ret; auto.
  apply hrel_upd; auto. apply resp_add_adj.
Qed.
Lemma tlm_base_rel : forall m b b' h h', blk b b' -> hrel h h' -> orel (tlm_block_base F m h b) (tlm_block_base F m h' b').
Proof.
  intros m b b' h h' K H. unfold tlm_block_base. pose proof K as [Kk Kd Ko]. rewrite <- Kk.
  replace (map (fun o => bv_tlm (h' o)) (b_deps b')) with (map (fun o => bv_tlm (h o)) (b_deps b)).
  2:{ eapply map_rel; [exact Kd|]. intros v v' [A _]. now apply r_tlm. }
  destruct (negb _); [now apply o_ret|].
  replace (map (saved h') (b_deps b')) with (map (saved h) (b_deps b)).
  2:{ eapply map_rel; [exact Kd|]. intros v v' [A B]. now apply r_saved. }
  apply iter_rel; auto. { now apply relevant_rel. }
  intros h1 h1' x x' H1 [X1 X2]. rewrite <- X1. destruct (comp_tlm _ _ _ _ _) as [[y|]|]; apply o_ret; auto.
  apply hrel_upd; auto. apply resp_add_tlm.
Qed.
Lemma tlm_rel : forall m b b' h h', blk b b' -> hrel h h' -> orel (tlm_block F m h b) (tlm_block F m h' b').
Proof.
  intros m b b' h h' K H. unfold tlm_block. rewrite <- (bk_kind b b' K).
  destruct (b_kind b); try (now apply tlm_base_rel).
  - cbv delta [tlm_sub]; repeat st.
  - cbv delta [tlm_div]; repeat st.
  - cbv delta [tlm_pow]; repeat st.
Qed.
Lemma hess_base_rel : forall m b b' h h', blk b b' -> hrel h h' -> orel (hess_block_base F m h b) (hess_block_base F m h' b').
Proof.
  intros m b b' h h' K H. unfold hess_block_base. pose proof K as [Kk Kd Ko]. rewrite <- Kk.
  replace (map (fun o => bv_hess (h' o)) (b_outs b')) with (map (fun o => bv_hess (h o)) (b_outs b)).
  2:{ eapply map_rel; [exact Ko|]. intros v v' A. now apply r_hess. }
  replace (map (fun o => bv_adj (h' o)) (b_outs b')) with (map (fun o => bv_adj (h o)) (b_outs b)).
  2:{ eapply map_rel; [exact Ko|]. intros v v' A. now apply r_adj. }
  destruct (negb _); [now apply o_ret|].
  replace (map (saved h') (b_deps b')) with (map (saved h) (b_deps b)).
  2:{ eapply map_rel; [exact Kd|]. intros v v' [A B]. now apply r_saved. }
  pose proof (relevant_rel h h' m _ _ H (deps_R _ _ Kd)) as Rl.
  replace (map (fun iv => (fst iv, bv_tlm (h' (snd iv)))) (relevant h' m (b_deps b')))
    with (map (fun iv => (fst iv, bv_tlm (h (snd iv)))) (relevant h m (b_deps b))).
  2:{ clear - Rl H. induction Rl as [|x y l l' [A B] _ IH]; cbn; [reflexivity|]. rewrite IH, A. do 2 f_equal. now apply r_tlm. }
  apply iter_rel; auto.
  intros h1 h1' x x' H1 [X1 X2]. rewrite <- X1. destruct (comp_hess _ _ _ _ _ _ _) as [[y|]|]; apply o_ret; auto.
  apply hrel_upd; auto. apply resp_add_hess.
Qed.
Lemma hess_rel : forall m b b' h h', blk b b' -> hrel h h' -> orel (hess_block F m h b) (hess_block F m h' b').
Proof.
  intros m b b' h h' K H. unfold hess_block. rewrite <- (bk_kind b b' K).
  destruct (b_kind b); try (now apply hess_base_rel).
  - cbv delta [hess_sub]; repeat st.
  - cbv delta [hess_div]; repeat st.
  - cbv delta [hess_pow]; repeat st.
  - cbv delta [hess_neg]; repeat st.
Qed.

(** ** Block lists, up to blocks without effect *)
Definition inert b := b_outs b = [] /\ is_over (b_kind b) = false.
Inductive brels : list (block V) -> list (block V) -> Prop :=
| br_nil : brels [] []
| br_cons : forall b b' l l', blk b b' -> brels l l' -> brels (b :: l) (b' :: l')
| br_left : forall b l l', inert b -> brels l l' -> brels (b :: l) l'
| br_right : forall b l l', inert b -> brels l l' -> brels l (b :: l').

Lemma brels_app : forall l1 l1' l2 l2', brels l1 l1' -> brels l2 l2' -> brels (l1 ++ l2) (l1' ++ l2').
Proof. intros l1 l1' l2 l2' A B. induction A; cbn; try constructor; auto. Qed.
Lemma brels_rev : forall l l', brels l l' -> brels (rev l) (rev l').
Proof.
  intros l l' A. induction A; cbn; [constructor| | |].
  - apply brels_app; auto. constructor; [auto|constructor].
  - rewrite <- (app_nil_r (rev l')). apply brels_app; auto. apply br_left; [auto|constructor].
  - rewrite <- (app_nil_r (rev l)). apply brels_app; auto. apply br_right; [auto|constructor].
Qed.

Lemma sweep_rel : forall (f : heap V -> block V -> heap V * option exn),
  (forall b b' h h', blk b b' -> hrel h h' -> orel (f h b) (f h' b')) ->
  (forall b h, inert b -> f h b = (h, None)) ->
  forall l l', brels l l' -> forall h h', hrel h h' -> orel (iter_o f l h) (iter_o f l' h').
Proof.
  intros f Hf Hi l l' A. induction A as [|b b' l l' K _ IH|b l l' K _ IH|b l l' K _ IH]; intros h h' H; cbn.
  - split; auto.
  - destruct (Hf b b' h h' K H) as [E1 E2]. destruct (f h b) as [h1 e1], (f h' b') as [h2 e2]. cbn in E1, E2. subst e2.
    destruct e1; [split; auto|]. now apply IH.
  - rewrite Hi by auto. now apply IH.
  - rewrite Hi by auto. now apply IH.
Qed.
Lemma inert_recompute : forall b h, inert b -> recompute_block F h b = (h, None).
Proof. intros b h [E _]. unfold recompute_block. rewrite E. reflexivity. Qed.
Lemma inert_adj : forall m b h, inert b -> adj_block F m h b = (h, None).
Proof. intros m b h [E _]. unfold adj_block. rewrite E. reflexivity. Qed.
Lemma inert_tlm : forall m b h, inert b -> tlm_block F m h b = (h, None).
Proof.
  intros m b h [E Ek]. unfold tlm_block. destruct (b_kind b) eqn:Eb; try discriminate Ek; unfold tlm_block_base, relevant; rewrite E;
    cbn; destruct (negb _); reflexivity.
Qed.
Lemma inert_hess : forall m b h, inert b -> hess_block F m h b = (h, None).
Proof.
  intros m b h [E Ek]. unfold hess_block. destruct (b_kind b) eqn:Eb; try discriminate Ek; unfold hess_block_base; rewrite E; reflexivity.
Qed.

Context (bs bs' : list (block V)).
Hypothesis Hbs : brels bs bs'.
Hypothesis Ron : forall v v', R v v' -> (In v (vars_of bs) <-> In v' (vars_of bs')).

Lemma recompute_all_rel : forall h h', hrel h h' -> orel (recompute_all F bs h) (recompute_all F bs' h').
Proof. intros. apply sweep_rel; auto; [intros; now apply recompute_rel|intros; now apply inert_recompute]. Qed.
Lemma evaluate_adj_rel : forall m h h', hrel h h' -> orel (evaluate_adj F bs 0 m h) (evaluate_adj F bs' 0 m h').
Proof.
  intros. unfold evaluate_adj. cbn [skipn]. apply sweep_rel; auto; [intros; now apply adj_rel|intros; now apply inert_adj|now apply brels_rev].
Qed.
Lemma evaluate_tlm_rel : forall m h h', hrel h h' -> orel (evaluate_tlm F bs m h) (evaluate_tlm F bs' m h').
Proof. intros. apply sweep_rel; auto; [intros; now apply tlm_rel|intros; now apply inert_tlm]. Qed.
Lemma evaluate_hess_rel : forall m h h', hrel h h' -> orel (evaluate_hessian F bs m h) (evaluate_hessian F bs' m h').
Proof. intros. apply sweep_rel; auto; [intros; now apply hess_rel|intros; now apply inert_hess|now apply brels_rev]. Qed.

Lemma reset_rel : forall f h h', (forall x, f (f x) = f x) -> respects f f -> hrel h h' -> hrel (reset_with f bs h) (reset_with f bs' h').
Proof.
  intros f h h' If Rf H v v' Hv. rewrite !reset_with_spec by auto. pose proof (Ron v v' Hv) as A.
  replace (mem v' (vars_of bs')) with (mem v (vars_of bs)).
  - destruct (mem v (vars_of bs)); [apply Rf|]; now apply H.
  - apply eq_true_iff_eq. rewrite !mem_In. exact A.
Qed.

Definition nrel (l l' : list nat) := forall v v', R v v' -> mem v l = mem v' l'.
Lemma upd_all_rel : forall f l l' h h', (forall x, f (f x) = f x) -> respects f f -> nrel l l' -> hrel h h' -> hrel (upd_all h l f) (upd_all h' l' f).
Proof.
  intros f l l' h h' If Rf N H v v' Hv. rewrite !upd_all_spec by auto. rewrite <- (N v v' Hv).
  destruct (mem v l); [apply Rf|]; now apply H.
Qed.
Lemma mem_app : forall v l1 l2, mem v (l1 ++ l2) = mem v l1 || mem v l2.
Proof. intros. unfold mem. apply existsb_app. Qed.
Lemma find_relevant_rel : forall l l', nrel l l' -> nrel (find_relevant bs l) (find_relevant bs' l').
Proof.
  unfold find_relevant. generalize Hbs. clear Ron Hbs. intros HB. induction HB as [|b b' bs1 bs1' K _ IH|b bs1 bs1' [K _] _ IH|b bs1 bs1' [K _] _ IH]; intros l l' N; cbn [fold_left]; auto.
  - replace (existsb (fun d => mem d l') (b_deps b')) with (existsb (fun d => mem d l) (b_deps b)).
    2:{ destruct K as [_ Kd _]. clear - Kd N. induction Kd as [|x y r r' [A _] _ IH]; cbn; [reflexivity|]. now rewrite IH, (N x y A). }
    apply IH; auto. match goal with |- nrel (if ?c then _ else _) _ => destruct c end; auto. intros v v' Hv. rewrite !mem_app, (N v v' Hv).
    f_equal. apply R_mem; auto. apply K.
  - rewrite K. cbn [app]. apply IH; auto. match goal with |- context[if ?c then _ else _] => destruct c end; auto.
  - rewrite K. cbn [app]. apply IH; auto. match goal with |- context[if ?c then _ else _] => destruct c end; auto.
Qed.
Lemma ctrls_nrel : forall l l', Forall2 R l l' -> nrel l l'.
Proof. intros l l' H v v' Hv. now apply R_mem. Qed.

Lemma marked_nodes_rel : forall n n' h h' k k', nrel n n' -> hrel h h' -> (forall h h', hrel h h' -> orel (k h) (k' h')) ->
  orel (with_marked_nodes n h k) (with_marked_nodes n' h' k').
Proof.
  intros n n' h h' k k' N H K. unfold with_marked_nodes.
  destruct (K (upd_all h n (set_mark true)) (upd_all h' n' (set_mark true))) as [E1 E2].
  { apply upd_all_rel; auto. apply resp_mark. }
  destruct (k _) as [h1 e1], (k' _) as [h2 e2]. cbn in E1, E2. subst e2. destruct e1; split; auto. cbn.
  apply upd_all_rel; auto. apply resp_mark.
Qed.
Lemma marked_controls_rel : forall n n' h h' k k', nrel n n' -> hrel h h' -> (forall h h', hrel h h' -> orel (k h) (k' h')) ->
  orel (with_marked_controls n h k) (with_marked_controls n' h' k').
Proof.
  intros n n' h h' k k' N H K. unfold with_marked_controls.
  destruct (K (upd_all h n (set_ctrl true)) (upd_all h' n' (set_ctrl true))) as [E1 E2].
  { apply upd_all_rel; auto. apply resp_ctrl. }
  destruct (k _) as [h1 e1], (k' _) as [h2 e2]. cbn in E1, E2. subst e2. split; auto. cbn.
  apply upd_all_rel; auto. apply resp_ctrl.
Qed.

(** ** The API *)
Definition rrel {A} (r r' : heap V * A) := snd r = snd r' /\ hrel (fst r) (fst r').

Lemma gradient_rel : forall J J' cs cs' a h h', R J J' -> Forall2 R cs cs' -> hrel h h' ->
  rrel (compute_gradient F bs J cs a h) (compute_gradient F bs' J' cs' a h').
Proof.
  intros J J' cs cs' a h h' HJ HC H. unfold compute_gradient.
  match goal with |- context[with_marked_nodes ?n ?x ?k] => match goal with |- rrel _ (let '(_, _) := with_marked_nodes ?n' ?x' ?k' in _) =>
    assert (B : orel (with_marked_nodes n x k) (with_marked_nodes n' x' k')) end end.
  { apply marked_nodes_rel.
    - apply find_relevant_rel. now apply ctrls_nrel.
    - apply hrel_upd; auto; [|apply resp_adj]. apply reset_rel; auto. apply resp_adj.
    - intros. apply marked_controls_rel; auto; [now apply ctrls_nrel|]. intros. now apply evaluate_adj_rel. }
  destruct (with_marked_nodes _ _ _) as [h1 e1]. destruct (with_marked_nodes _ _ _) as [h2 e2].
  destruct B as [B1 B2]. cbn in B1, B2. subst e2. destruct e1; split; auto. cbn. f_equal.
  eapply map_rel; [exact HC|]. intros v v' Hv. unfold get_derivative. now rewrite (r_adj h1 h2 v v' B2 Hv).
Qed.
Lemma set_dots_rel : forall d cs cs' h h', Forall2 R cs cs' -> hrel h h' -> orel (set_dots h cs d) (set_dots h' cs' d).
Proof.
  intros d cs cs' h h' HC. revert d h h'. induction HC as [|c c' cs cs' Hc HC IH]; intros [|x d] h h' H; try (split; auto; fail).
  cbn [set_dots]. apply IH; auto. apply hrel_upd; auto. apply resp_tlm.
Qed.
Lemma hessian_reset_rel : forall J J' cs cs' d h h', R J J' -> Forall2 R cs cs' ->
  hrel (reset_hess bs (reset_tlm bs h)) (reset_hess bs' (reset_tlm bs' h')) ->
  rrel (compute_hessian F bs J cs d h) (compute_hessian F bs' J' cs' d h').
Proof.
  intros J J' cs cs' d h h' HJ HC H. unfold compute_hessian.
  match goal with |- rrel (let '(_, _) := ?a in _) (let '(_, _) := ?b in _) => assert (B : orel a b) end.
  { assert (N : nrel (find_relevant bs cs) (find_relevant bs' cs')) by (apply find_relevant_rel; now apply ctrls_nrel).
    apply o_then.
    - apply set_dots_rel; auto.
    - intros h1 h1' H1. apply o_then; [apply marked_nodes_rel; auto; intros; now apply evaluate_tlm_rel|].
      intros h2 h2' H2. apply marked_nodes_rel; auto; [|intros; now apply evaluate_hess_rel]. apply hrel_upd; auto. apply resp_hess. }
  destruct (andthen _ _) as [h1 e1]. destruct (andthen _ _) as [h2 e2].
  destruct B as [B1 B2]. cbn in B1, B2. subst e2. destruct e1; split; auto. cbn. f_equal.
  eapply map_rel; [exact HC|]. intros v v' Hv. unfold get_hessian. now rewrite (r_hess h1 h2 v v' B2 Hv).
Qed.
Lemma hessian_rel : forall J J' cs cs' d h h', R J J' -> Forall2 R cs cs' -> hrel h h' ->
  rrel (compute_hessian F bs J cs d h) (compute_hessian F bs' J' cs' d h').
Proof.
  intros J J' cs cs' d h h' HJ HC H. apply hessian_reset_rel; auto.
  apply reset_rel; auto; [apply resp_hess|]. apply reset_rel; auto. apply resp_tlm.
Qed.
Lemma update_controls_rel : forall cs cs' xs h h', Forall2 R cs cs' -> hrel h h' -> hrel (update_controls h cs xs) (update_controls h' cs' xs).
Proof.
  intros cs cs' xs h h' HC. revert xs h h'. induction HC; intros [|z xs] h h' Hh; cbn; auto. apply IHHC. apply hrel_upd; auto. apply resp_put.
Qed.
Lemma F2_length : forall {A B} (P : A -> B -> Prop) l l', Forall2 P l l' -> length l = length l'.
Proof. intros A B P l l' H. induction H; cbn; auto. Qed.
Lemma call_rel : forall J J' cs cs' s xs h h', R J J' -> Pd J -> Forall2 R cs cs' -> hrel h h' ->
  rrel (rf_call F bs (RF J cs s) xs h) (rf_call F bs' (RF J' cs' s) xs h').
Proof.
  intros J J' cs cs' s xs h h' HJ HP HC H. unfold rf_call. cbn [rf_J rf_ctrls rf_scale]. rewrite <- (F2_length _ _ _ HC).
  destruct (negb _); [split; auto|].
  assert (B : orel (with_marked_controls cs (update_controls h cs xs) (recompute_all F bs)) (with_marked_controls cs' (update_controls h' cs' xs) (recompute_all F bs'))).
  { apply marked_controls_rel; [now apply ctrls_nrel|now apply update_controls_rel|]. intros. now apply recompute_all_rel. }
  destruct (with_marked_controls _ _ _) as [h1 e1]. destruct (with_marked_controls _ _ _) as [h2 e2].
  destruct B as [B1 B2]. cbn in B1, B2. subst e2. destruct e1; split; auto. cbn. now rewrite (r_saved h1 h2 J J' B2 HJ HP).
Qed.

Inductive arel : api V -> api V -> Prop :=
| ar_call : forall J J' cs cs' s xs, R J J' -> Pd J -> Forall2 R cs cs' -> arel (ACall (RF J cs s) xs) (ACall (RF J' cs' s) xs)
| ar_deriv : forall J J' cs cs' s a, R J J' -> Forall2 R cs cs' -> arel (ADeriv (RF J cs s) a) (ADeriv (RF J' cs' s) a)
| ar_hess : forall J J' cs cs' s d, R J J' -> Forall2 R cs cs' -> arel (AHess (RF J cs s) d) (AHess (RF J' cs' s) d)
| ar_solve : forall J J' c a, R J J' -> arel (ASolve J c a) (ASolve J' c a)
| ar_grad : forall J J' cs cs' a, R J J' -> Forall2 R cs cs' -> arel (AGrad J cs a) (AGrad J' cs' a)
| ar_tlm : forall vs vs' xs m, Forall2 R vs vs' -> arel (ATlm (combine vs xs) m) (ATlm (combine vs' xs) m)
| ar_adj : forall m, arel (AAdj 0 m) (AAdj 0 m)
| ar_hessian : forall m, arel (AHessian m) (AHessian m)
| ar_setadj : forall v v' x, R v v' -> arel (ASetAdj v x) (ASetAdj v' x)
| ar_sethess : forall v v' x, R v v' -> arel (ASetHess v x) (ASetHess v' x)
| ar_reset : arel AReset AReset.

Lemma of_o_rel : forall (r r' : heap V * option exn), orel r r' ->
  rrel (fst r, match snd r with None => Ok (@nil V) | Some e => Err e end) (fst r', match snd r' with None => Ok [] | Some e => Err e end).
Proof. intros r r' [A B]. rewrite A. split; auto. Qed.

Lemma api_rel : forall a a' h h', arel a a' -> hrel h h' -> rrel (api_run F bs h a) (api_run F bs' h' a').
Proof.
  intros a a' h h' A H. destruct A; cbn [api_run].
  - match goal with |- context[rf_call F bs ?r xs h] => match goal with |- context[rf_call F bs' ?r' xs h'] =>
      assert (B : rrel (rf_call F bs r xs h) (rf_call F bs' r' xs h')) by now apply call_rel end end.
    destruct (rf_call _ _ _ _ h) as [h1 r1], (rf_call _ _ _ _ h') as [h2 r2]. destruct B as [B1 B2]. cbn in *. subst r2. split; auto.
  - unfold rf_derivative. cbn [rf_ctrls rf_J rf_scale]. destruct H1 as [|c c' cs cs' Hc HC]; [split; auto|]. apply gradient_rel; auto.
  - unfold rf_hessian. cbn [rf_ctrls rf_J]. now apply hessian_rel.
  - apply of_o_rel. apply evaluate_adj_rel. assert (H1 : hrel (reset_adj bs h) (reset_adj bs' h')) by (apply reset_rel; auto; apply resp_adj).
    destruct c; auto. apply hrel_upd; auto. apply resp_adj.
  - now apply gradient_rel.
  - apply of_o_rel. apply evaluate_tlm_rel. revert xs h h' H. induction H0 as [|v v' vs vs' Hv _ IH]; intros [|x xs] h h' Hh; cbn; auto.
    apply IH. apply hrel_upd; auto. apply resp_tlm.
  - apply of_o_rel. now apply evaluate_adj_rel.
  - apply of_o_rel. now apply evaluate_hess_rel.
  - split; [reflexivity|]. cbn [fst]. apply hrel_upd; auto. apply resp_adj.
  - split; [reflexivity|]. cbn [fst]. apply hrel_upd; auto. apply resp_hess.
  - split; [reflexivity|]. cbn [fst]. apply reset_rel; [reflexivity|apply resp_hess|]. apply reset_rel; [reflexivity|apply resp_tlm|].
    apply reset_rel; [reflexivity|apply resp_adj|exact H].
Qed.

(** All results of a history. *)
Fixpoint outcomes (bs : list (block V)) h (l : list (api V)) : list (res (list V)) :=
  match l with [] => [] | a :: r => snd (api_run F bs h a) :: outcomes bs (fst (api_run F bs h a)) r end.
Lemma outcomes_rel : forall l l' h h', Forall2 arel l l' -> hrel h h' -> outcomes bs h l = outcomes bs' h' l'.
Proof.
  intros l l' h h' A. revert h h'. induction A as [|a a' l l' Ha _ IH]; intros h h' H; cbn; [reflexivity|].
  destruct (api_rel a a' h h' Ha H) as [E1 E2]. rewrite E1. f_equal. now apply IH.
Qed.
End Iso.
