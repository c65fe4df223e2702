(** A variable that influences the functional receives an adjoint value, and a second-order adjoint value. *)
From Coq Require Import List Arith Lia Bool.
From Verif Require Import Base Model BaseFacts Graph Record RecordFacts History Sweep SpecGraph Marks Dual.
Import ListNotations.

Section Reach.
Context {V : Type} (F : fops V).
Implicit Types (h : heap V) (bs : list (block V)) (b : block V).

Lemma influences_cons : forall b bs c J, topo (b :: bs) -> influences (b :: bs) c J ->
  influences bs c J \/ exists o, In c (b_deps b) /\ In o (b_outs b) /\ influences bs o J.
Proof.
  intros b bs c J Ht H. induction H as [|b' d o Hb Hd Ho Hi IH]; [left; constructor|].
  destruct Hb as [<-|Hb].
  - right. destruct IH as [IH|(o' & H1 & H2 & H3)].
    + inversion IH as [|b2 d2 o2 Hb2 Hd2 Ho2 Hi2]; subst.
      * exists o. split; [exact Hd|]. split; [exact Ho|constructor].
      * exfalso. apply (proj1 Ht d Hd). unfold outs_of. cbn. apply in_app_iff. right. apply in_flat_map. eauto.
    + exists o. split; [exact H1|]. split; [exact Ho|constructor].
  - destruct IH as [IH|(o' & H1 & H2 & H3)]; [left; eapply inf_step; eauto|].
    right. exists o'. split; [exact H1|]. split; [exact H2|]. eapply inf_step; eauto.
Qed.
Lemma influences_more : forall b bs c J, influences bs c J -> influences (b :: bs) c J.
Proof. intros b bs c J H. induction H; [constructor|]. eapply inf_step; eauto. now right. Qed.

Lemma iter_mono_any : forall (St A : Type) (f : St -> A -> St * option exn) (P : St -> Prop) l s,
  (forall s x, P s -> P (fst (f s x))) -> P s -> P (fst (iter_o f l s)).
Proof.
  intros St A f P l s H. revert s. induction l as [|x l IH]; intros s Hs; cbn [iter_o]; [exact Hs|]. pose proof (H s x Hs) as K.
  destruct (f s x) as [s1 [e|]]; [exact K|]. now apply IH.
Qed.

(** ** Any reverse sweep that gives a value to the dependencies of a block with a value *)
Section Any.
Variables (St : Type) (step : St -> block V -> St * option exn) (has : St -> nat -> Prop) (Inv : St -> Prop) (mk : nat -> Prop) (ok : block V -> Prop).
Hypothesis Hmono : forall s b v, has s v -> has (fst (step s b)) v.
Hypothesis Hinv : forall s b, Inv s -> Inv (fst (step s b)).
Hypothesis Hgive : forall s s' b d o, ok b -> Inv s -> step s b = (s', None) -> In o (b_outs b) -> has s o -> In d (b_deps b) -> mk d -> has s' d.
Lemma sweep_reaches : forall bs s s' c J, topo bs -> Forall ok bs -> Inv s -> iter_o step (rev bs) s = (s', None) -> has s J ->
  influences bs c J -> (forall v, influences bs c v -> mk v) -> has s' c.
Proof.
  induction bs as [|b bs IH]; intros s s' c J Ht Hok Hi E HJ H Hmk; cbn [rev] in E.
  - cbn in E. injection E as <-. inversion H as [|b d o Hb]; subst; [exact HJ|destruct Hb].
  - rewrite iter_o_app in E. destruct (iter_o step (rev bs) s) as [s1 [e|]] eqn:E1; cbn [andthen] in E; [discriminate E|]. cbn [iter_o] in E.
    destruct (step s1 b) as [s2 [e|]] eqn:E2; [discriminate E|]. injection E as <-. inversion Hok as [|? ? Ob Obs]; subst.
    destruct (influences_cons b bs c J Ht H) as [K|(o & K1 & K2 & K3)].
    + assert (G : has s1 c). { apply (IH s s1 c J (proj2 Ht) Obs Hi E1 HJ K). intros v Hv. apply Hmk. now apply influences_more. }
      pose proof (Hmono s1 b c G) as G2. now rewrite E2 in G2.
    + assert (G : has s1 o).
      { apply (IH s s1 o J (proj2 Ht) Obs Hi E1 HJ K3). intros v Hv. apply Hmk.
        apply (influences_trans _ c o v); [|now apply influences_more]. eapply inf_step; eauto; [now left|constructor]. }
      pose proof (iter_mono_any _ _ step Inv (rev bs) s Hinv Hi) as I1. rewrite E1 in I1. cbn in I1.
      apply (Hgive s1 s2 b c o Ob I1 E2 K2 G K1). apply Hmk. constructor.
Qed.
End Any.

(** A user block that answers a value for every dependency; float blocks do. *)
Definition gives_adj b : Prop := forall u, b_kind b = KUser u -> forall xs ins i, existsb is_some ins = true -> u_adj u xs ins i <> Ok None.
Definition gives_hess b : Prop := forall u, b_kind b = KUser u -> forall xs hs ins i rel, existsb is_some hs = true -> u_hess u xs hs ins i rel <> Ok None.

Lemma single_out : forall b (o : nat), shaped b -> (forall u, b_kind b <> KUser u) -> In o (b_outs b) -> b_outs b = [o].
Proof.
  intros b o Hs Hu Ho. unfold shaped in Hs. destruct (b_kind b) eqn:Ek; try (exfalso; exact (Hu _ eq_refl));
  destruct Hs as [_ Hs]; destruct (b_outs b) as [|x [|? ?]]; cbn in Hs, Ho; try lia; try contradiction; destruct Ho as [<-|[]]; reflexivity.
Qed.
Lemma is_some_in : forall (f : nat -> option V) l o, In o l -> f o <> None -> existsb is_some (map f l) = true.
Proof. intros f l o Ho Hs. apply existsb_exists. exists (f o). split; [now apply in_map|]. destruct (f o); [reflexivity|now contradict Hs]. Qed.

Lemma comp_adj_some : forall b xs ins i, shaped b -> gives_adj b -> existsb is_some ins = true -> ((forall u, b_kind b <> KUser u) -> exists y, ins = [Some y]) ->
  comp_adj F (b_kind b) xs ins i <> Ok None.
Proof.
  intros b xs ins i Hs Hg He Hy. destruct (b_kind b) eqn:Ek; cbn [comp_adj];
  try (destruct Hy as [y ->]; [discriminate|]; cbn;
       unfold need_nth, nth_res; cbn; repeat match goal with |- context [bind ?x _] => destruct x; cbn | |- context [if ?x then _ else _] => destruct x; cbn | |- context [match ?x with _ => _ end] => destruct x; cbn end; discriminate).
  apply (Hg u Ek xs ins i He).
Qed.
Lemma comp_hess_some : forall b xs hs ins i rel, shaped b -> gives_hess b -> existsb is_some hs = true -> ((forall u, b_kind b <> KUser u) -> exists y, hs = [Some y]) ->
  comp_hess F (b_kind b) xs hs ins i rel <> Ok None.
Proof.
  intros b xs hs ins i rel Hs Hg He Hy. destruct (b_kind b) eqn:Ek; cbn [comp_hess];
  try (destruct Hy as [y ->]; [discriminate|]; cbn;
       unfold need_nth, nth_res; cbn; repeat match goal with |- context [bind ?x _] => destruct x; cbn | |- context [if ?x then _ else _] => destruct x; cbn | |- context [match ?x with _ => _ end] => destruct x; cbn end; discriminate).
  apply (Hg u Ek xs hs ins i rel He).
Qed.
Lemma enum_in : forall (l : list nat) d, In d l -> exists i, In (i, d) (enum l).
Proof. intros l d H. apply In_nth_error in H as [i Hi]. exists i. now apply enum_In. Qed.

(** A loop that adds something for every relevant dependency leaves a value in each. *)
Lemma loop_gives : forall (St : Type) (f : St -> nat * nat -> St * option exn) (has : St -> nat -> Prop) l s s' i d,
  (forall s iv v, has s v -> has (fst (f s iv)) v) -> (forall s s1 iv, f s iv = (s1, None) -> has s1 (snd iv)) ->
  iter_o f l s = (s', None) -> In (i, d) l -> has s' d.
Proof.
  intros St f has l s s' i d Hm Hg. revert s. induction l as [|iv l IH]; intros s E H; [destruct H|]. cbn [iter_o] in E.
  destruct (f s iv) as [s1 [e|]] eqn:E1; [discriminate E|]. destruct H as [->|H]; [|now apply (IH s1)].
  assert (K : has s1 d) by exact (Hg s s1 (i, d) E1). clear - Hm E K. revert s1 E K.
  induction l as [|x l IH]; intros s1 E K; cbn [iter_o] in E; [now injection E as <-|].
  pose proof (Hm s1 x d K) as K2. destruct (f s1 x) as [s2 [e|]]; [discriminate E|]. exact (IH s2 E K2).
Qed.

(** ** Adjoint values *)
Definition ahas (a : @aenv V) (v : nat) : Prop := a v <> None.
Lemma aadd_has : forall a d x v, ahas a v \/ v = d -> ahas (aadd F a d x) v.
Proof.
  intros a d x v H. unfold ahas, aadd. destruct (Nat.eqb_spec v d).
  - destruct (a v); discriminate.
  - destruct H; [exact H|contradiction].
Qed.
Lemma padj_step_mono : forall k xs ins a iv v, ahas a v -> ahas (fst (padj_step F k xs ins a iv)) v.
Proof. intros k xs ins a iv v H. unfold padj_step. destruct (comp_adj F k xs ins (fst iv)) as [[x|]|]; cbn; auto. apply aadd_has. now left. Qed.
Lemma padj_reaches : forall mk e bs a a' c J, topo bs -> Forall shaped bs -> Forall gives_adj bs -> padj F mk e bs a = (a', None) ->
  a J <> None -> influences bs c J -> (forall v, influences bs c v -> mk v = true) -> a' c <> None.
Proof.
  intros mk e bs a a' c J Ht Hs Hg E HJ H Hmk. unfold padj in E.
  apply (sweep_reaches _ (padj_block F mk e) ahas (fun _ => True) (fun v => mk v = true) (fun b => shaped b /\ gives_adj b)) with (bs := bs) (s := a) (J := J); auto.
  - intros s b v Hv. unfold padj_block. destruct (negb _); [exact Hv|].
    apply (iter_mono_any _ _ _ (fun s' => ahas s' v)); [|exact Hv]. intros. now apply padj_step_mono.
  - intros s s' b d o [Hs1 Hg1] _ Es Ho Hso Hd Hmd. unfold padj_block in Es.
    pose proof (is_some_in s (b_outs b) o Ho Hso) as He. rewrite He in Es. cbn [negb] in Es.
    destruct (enum_in (b_deps b) d Hd) as [i Hi].
    eapply (loop_gives _ _ ahas) in Es; [exact Es| | |].
    + intros. now apply padj_step_mono.
    + intros s0 s1 iv E1. unfold padj_step in E1.
      destruct (comp_adj F (b_kind b) (map e (b_deps b)) (map s (b_outs b)) (fst iv)) as [[x|]|] eqn:Ec.
      * injection E1 as <-. apply aadd_has. now right.
      * exfalso. revert Ec. apply comp_adj_some; auto. intros Hu. rewrite (single_out b o Hs1 Hu Ho). cbn.
        destruct (s o) eqn:Eo; [eauto|now contradict Hso].
      * discriminate E1.
    + unfold marked. apply filter_In. split; [exact Hi|exact Hmd].
  - rewrite Forall_forall in *. intros b Hb. split; auto.
Qed.
Lemma derivative_reaches : forall bs rf a h h' g c, topo bs -> Forall shaped bs -> Forall gives_adj bs -> no_ctrl h ->
  rf_derivative F bs rf a h = (h', Ok g) -> In c (rf_ctrls rf) -> influences bs c (rf_J rf) -> bv_adj (h' c) <> None.
Proof.
  intros bs rf a h h' g c Ht Hs Hg Nc E Hc Hi. unfold rf_derivative in E. destruct (rf_ctrls rf) as [|c0 cs] eqn:Ec; [discriminate E|]. rewrite <- Ec in *.
  pose proof (grad_spec F bs (rf_J rf) (rf_ctrls rf) (f_mul F a (rf_scale rf)) h Nc) as G. cbv zeta in G. destruct G as (G1 & G2 & _).
  rewrite E in G1, G2. cbn [fst snd] in G1, G2. rewrite G2.
  destruct (padj F _ _ bs _) as [a' [e|]] eqn:Ep; [discriminate G1|]. cbn [fst].
  apply (padj_reaches _ _ bs _ a' c (rf_J rf) Ht Hs Hg Ep); auto.
  - unfold start_adj. rewrite Nat.eqb_refl. discriminate.
  - intros v Hv. apply orb_true_intro. right. apply mem_In. apply find_relevant_influences; eauto.
Qed.

(** ** Second-order adjoint values *)
Definition hhas h (v : nat) : Prop := bv_hess (h v) <> None.
Definition grows h h' : Prop := forall v, hhas h v -> hhas h' v.
Lemma grows_refl : forall h, grows h h. Proof. intros h v H. exact H. Qed.
Lemma add_hess_has : forall h d x v, hhas h v \/ v = d -> hhas (upd h d (add_hess F x)) v.
Proof.
  intros h d x v H. unfold hhas, upd. destruct (Nat.eqb_spec v d).
  - cbn. destruct (bv_hess (h v)); discriminate.
  - destruct H; [exact H|contradiction].
Qed.
Lemma grows_upd : forall h h' d x, grows h h' -> grows h (upd h' d (add_hess F x)).
Proof. intros h h' d x G v H. apply add_hess_has. left. auto. Qed.
Ltac hcases :=
  repeat (cbn [fst snd] in *; match goal with
  | H : (_, _) = (_, _) |- _ => injection H as; subst
  | H : context[match ?x with _ => _ end] |- _ => destruct x eqn:?; try discriminate
  end).
Ltac grow := repeat (first [apply grows_refl | apply grows_upd]).
Lemma hess_base_step : forall b xs hs ins relt (h' : heap V) iv v, hhas h' v ->
  hhas (fst (match comp_hess F (b_kind b) xs hs ins (fst iv) relt with
             | Err e => (h', Some e) | Ok None => (h', None) | Ok (Some x) => (upd h' (snd iv) (add_hess F x), None) end)) v.
Proof. intros b xs hs ins relt h' iv v H. destruct (comp_hess _ _ _ _ _ _ _) as [[x|]|]; cbn; auto. apply add_hess_has. now left. Qed.
Ltac grow_step :=
  match goal with
  | |- grows ?h (fst (?h, _)) => apply grows_refl
  | |- grows ?h ?h => apply grows_refl
  | |- grows ?h (upd ?h' _ _) => apply grows_upd
  | |- context[match ?x with _ => _ end] => destruct x eqn:?
  | |- _ => progress cbn [fst]
  end.
Ltac eqs :=
  repeat match goal with
  | H : (_, _) = (_, _) |- _ => inversion H; subst; clear H
  | H : context[match ?x with _ => _ end] |- _ => destruct x eqn:?; try discriminate
  end.
Lemma hess_block_grows : forall m h b, grows h (fst (hess_block F m h b)).
Proof.
  intros m h b. unfold hess_block.
  assert (B : grows h (fst (hess_block_base F m h b))).
  { intros v Hv. unfold hess_block_base. destruct (negb _); [exact Hv|].
    apply (iter_mono_any _ _ _ (fun h' => hhas h' v)); [|exact Hv]. intros. now apply hess_base_step. }
  destruct (b_kind b); auto; unfold hess_sub, hess_neg, hess_div, hess_pow, with_out, with_term, andthen, with_val;
    repeat grow_step; eqs; repeat grow_step.
Qed.

Lemma hess_block_gives : forall h h' b d o, shaped b -> gives_hess b -> hess_block F true h b = (h', None) ->
  In o (b_outs b) -> hhas h o -> In d (b_deps b) -> bv_mark (h d) = true -> hhas h' d.
Proof.
  intros h h' b d o Hs Hg E Ho Hh Hd Hm.
  assert (B : hess_block_base F true h b = (h', None) -> hhas h' d).
  { clear E. intros E. unfold hess_block_base in E.
    pose proof (is_some_in (fun o => bv_hess (h o)) (b_outs b) o Ho Hh) as He. rewrite He in E. cbn [negb] in E.
    destruct (enum_in (b_deps b) d Hd) as [i Hi].
    eapply (loop_gives _ _ hhas) in E; [exact E| | |].
    - intros. now apply hess_base_step.
    - intros s0 s1 iv E1. cbv beta in E1. destruct (comp_hess _ _ _ _ _ _ _) as [[x|]|] eqn:Ec.
      + injection E1 as <-. apply add_hess_has. now right.
      + exfalso. revert Ec. apply comp_hess_some; auto. intros Hu. rewrite (single_out b o Hs Hu Ho). cbn.
        unfold hhas in Hh. destruct (bv_hess (h o)) eqn:Eo; [eauto|now contradict Hh].
      + discriminate E1.
    - unfold relevant. apply filter_In. split; [exact Hi|]. cbn [snd]. rewrite Hm. reflexivity. }
  unfold hess_block in E. assert (Hsh := Hs). unfold shaped in Hs.
  assert (So : (forall u, b_kind b <> KUser u) -> b_outs b = [o]) by (intros Hu; exact (single_out b o Hsh Hu Ho)).
  destruct (b_kind b) eqn:Ek; auto; rewrite So in * by discriminate; destruct Hs as [Hl _]; cbn in Hl;
  destruct (b_deps b) as [|t0 [|t1 [|? ?]]] eqn:Ed; try discriminate Hl;
  unfold hhas in Hh; destruct (bv_hess (h o)) as [y|] eqn:Ey; try (now contradict Hh);
  unfold hess_sub, hess_neg, hess_div, hess_pow, with_out, with_term, andthen, with_val in E; rewrite So, Ed in E by discriminate; cbn [nth_error] in E; rewrite Ey in E.
  all: eqs; repeat match goal with H : ?x = ?y |- _ => is_var x; subst x | H : ?y = ?x |- _ => is_var x; subst x end.
  all: destruct Hd as [<-|Hd]; try (destruct Hd as [<-|Hd]; [|destruct Hd]); try (destruct Hd).
  all: repeat (first [apply add_hess_has; right; reflexivity | apply add_hess_has; left]).
Qed.
Lemma hess_sweep_reaches : forall bs h h' c J, topo bs -> Forall shaped bs -> Forall gives_hess bs -> evaluate_hessian F bs true h = (h', None) ->
  bv_hess (h J) <> None -> influences bs c J -> (forall v, influences bs c v -> bv_mark (h v) = true) -> bv_hess (h' c) <> None.
Proof.
  intros bs h h' c J Ht Hs Hg E HJ H Hmk. unfold evaluate_hessian in E.
  apply (sweep_reaches _ (hess_block F true) hhas (fun h' => forall v, bv_mark (h' v) = bv_mark (h v)) (fun v => bv_mark (h v) = true) (fun b => shaped b /\ gives_hess b))
    with (bs := bs) (s := h) (J := J); auto.
  - intros s b v. apply hess_block_grows.
  - intros s b Is v. rewrite <- Is. apply (hess_block_keeps F (@bv_mark V)). reflexivity.
  - intros s s' b d o [Hs1 Hg1] Is Es Ho Hso Hd Hmd. apply (hess_block_gives s s' b d o); auto. now rewrite Is.
  - rewrite Forall_forall in *. intros b Hb. split; auto.
Qed.
Lemma hessian_reaches : forall bs rf d h h' g c, topo bs -> Forall shaped bs -> Forall gives_hess bs ->
  rf_hessian F bs rf d h = (h', Ok g) -> In c (rf_ctrls rf) -> influences bs c (rf_J rf) -> bv_hess (h' c) <> None.
Proof.
  intros bs rf d h h' g c Ht Hs Hg E Hc Hi. unfold rf_hessian, compute_hessian in E.
  destruct (set_dots _ _ _) as [h2 [e|]]; cbn [andthen] in E; [discriminate E|].
  destruct (with_marked_nodes _ h2 _) as [h3 [e|]]; cbn [andthen] in E; [discriminate E|].
  unfold with_marked_nodes in E. set (h4 := upd_all _ _ (set_mark true)) in E.
  destruct (evaluate_hessian F bs true h4) as [h5 [e|]] eqn:E5; [discriminate E|]. injection E as <- _.
  rewrite upd_all_spec by reflexivity.
  assert (K : bv_hess (h5 c) <> None).
  { apply (hess_sweep_reaches bs h4 h5 c (rf_J rf)); auto.
    - unfold h4. rewrite upd_all_spec by reflexivity. unfold upd. rewrite Nat.eqb_refl. destruct (mem _ _); discriminate.
    - intros v Hv. unfold h4. rewrite upd_all_spec by reflexivity.
      assert (Em : mem v (find_relevant bs (rf_ctrls rf)) = true) by (apply mem_In; apply find_relevant_influences; eauto).
      rewrite Em. reflexivity. }
  destruct (mem c _); exact K.
Qed.
End Reach.
