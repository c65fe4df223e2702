(** The second-order sweep computes the rate of change of the adjoint values. *)
From Coq Require Import List Arith ZArith Lia Bool Reals Lra.
From Coquelicot Require Import Coquelicot.
From Verif Require Import Base Model BaseFacts Graph Record RecordFacts Replay History Sweep SpecGraph Marks Dual TlmSweep RealInst Calculus Gradient SpecHess HessFacts.
Import ListNotations.
Open Scope R_scope.

(** [q] is present exactly when [F s] is, and is the derivative of its value. *)
Definition tracks (F : R -> option R) (q : option R) : Prop :=
  locally 0 (fun s => is_some (F s) = is_some q) /\ is_derive (fun s => val RO (F s)) 0 (val RO q).

Lemma tracks_const : forall o q, is_some o = is_some q -> val RO q = 0 -> tracks (fun _ => o) q.
Proof.
  intros o q H E. split; [apply filter_forall; auto|]. rewrite E. apply (@is_derive_const R_AbsRing R_NormedModule).
Qed.
Lemma tracks_ext : forall (F G : R -> option R) q, locally 0 (fun s => F s = G s) -> tracks F q -> tracks G q.
Proof.
  intros F G q E [A B]. split.
  - generalize (filter_and _ _ E A). apply filter_imp. intros s [-> H]. exact H.
  - apply (is_derive_ext_loc (fun s => val RO (F s))); [|exact B]. revert E. apply filter_imp. now intros s ->.
Qed.
Lemma tracks_some : forall F q, tracks F (Some q) -> locally 0 (fun s => F s = Some (val RO (F s))) /\ is_derive (fun s => val RO (F s)) 0 q.
Proof.
  intros F q [A B]. split; [|exact B]. revert A. apply filter_imp. intros s H. destruct (F s); [reflexivity|discriminate H].
Qed.

Lemma is_derive_if : forall (c : bool) f D, is_derive f 0 D -> is_derive (fun s : R => if c then f s else 0) 0 (if c then D else 0).
Proof. intros [] f D H; [exact H|apply (@is_derive_const R_AbsRing R_NormedModule)]. Qed.

(** ** What a second-order block step touches *)
Lemma hess_upd_other : forall (h : heap R) d x v, v <> d -> bv_hess (upd h d (add_hess RO x) v) = bv_hess (h v).
Proof. intros h d x v H. unfold upd. now rewrite (proj2 (Nat.eqb_neq v d) H). Qed.

Lemma hess_other : forall (h h' : heap R) (b : block R) v, hess_block RO true h b = (h', None) -> ~ In v (b_deps b) -> bv_hess (h' v) = bv_hess (h v).
Proof.
  intros h h' b v E Hv.
  assert (B : hess_block_base RO true h b = (h', None) -> bv_hess (h' v) = bv_hess (h v)).
  { clear E. unfold hess_block_base. destruct (negb _); [intros E; now injection E as <-|]. intros E.
    refine (iter_o_inv _ (fun x : heap R => bv_hess (x v) = bv_hess (h v)) _ _ _ _ _ eq_refl E).
    intros x iv x' e Hin Hx Hf. destruct (comp_hess _ _ _ _ _ _ _) as [[y|]|]; injection Hf as <- <-; auto.
    rewrite hess_upd_other; [exact Hx|]. intros ->. apply Hv. unfold relevant in Hin. apply filter_In in Hin as [Hin _]. now apply enum_snd_In. }
  assert (T : forall i d, nth_error (b_deps b) i = Some d -> v <> d) by (intros i d Hd ->; apply Hv; eapply nth_error_In; eauto).
  unfold hess_block in E.
  destruct (b_kind b); auto; clear B; unfold hess_sub, hess_neg, hess_div, hess_pow, with_out, with_term, with_val, andthen in E;
    repeat match type of E with context[match ?x with _ => _ end] => destruct x eqn:?; try discriminate E end;
    repeat match goal with H : (_, _) = (_, _) |- _ => injection H as <- end; subst;
    try (injection E as <-);
    repeat (rewrite hess_upd_other by (eapply T; eassumption)); try reflexivity;
    repeat match goal with H : context[match ?x with _ => _ end] |- _ => destruct x eqn:?; try discriminate H end;
    repeat match goal with H : (_, _) = (_, _) |- _ => injection H as <- end; subst;
    repeat (rewrite hess_upd_other by (eapply T; eassumption)); try reflexivity.
Qed.

Lemma hess_idle : forall (h h' : heap R) (b : block R), hess_block RO true h b = (h', None) -> (forall o, In o (b_outs b) -> bv_hess (h o) = None) -> h' = h.
Proof.
  intros h h' b E Hn. unfold hess_block in E.
  assert (B : hess_block_base RO true h b = (h', None) -> h' = h).
  { unfold hess_block_base. replace (existsb is_some (map (fun o => bv_hess (h o)) (b_outs b))) with false; [cbn; intros K; now injection K|].
    symmetry. clear - Hn. induction (b_outs b) as [|o l IH]; [reflexivity|]. cbn. rewrite Hn by now left. apply IH. intros; apply Hn; now right. }
  assert (T : forall o, nth_error (b_outs b) 0 = Some o -> bv_hess (h o) = None) by (intros o Ho; apply Hn; eapply nth_error_In; eauto).
  destruct (b_kind b); auto; unfold hess_sub, hess_neg, hess_div, hess_pow, with_out in E;
    destruct (nth_error (b_outs b) 0) as [o|]; try discriminate E; rewrite (T o eq_refl) in E; now injection E.
Qed.

Lemma hess_neg_one : forall (h h' : heap R) (b : block R) d0 o q, b_kind b = KNeg -> b_deps b = [d0] -> b_outs b = [o] -> bv_hess (h o) = Some q ->
  hess_block RO true h b = (h', None) ->
  forall v, is_some (bv_hess (h' v)) = (is_some (bv_hess (h v)) || Nat.eqb v d0) /\ val RO (bv_hess (h' v)) = val RO (bv_hess (h v)) + (if Nat.eqb v d0 then - q else 0).
Proof.
  intros h h' b d0 o q Ek Ed Eo Eq E v. unfold hess_block, hess_neg, with_out, with_term in E. rewrite Ek, Ed, Eo in E. cbn [nth_error] in E.
  rewrite Eq in E. injection E as <-. hsplit v. auto.
Qed.

Section Sweep2.
Variables (bs : list (block R)) (ctrls : list nat) (J : nat) (hh : heap R) (X : R -> nat -> R) (t : nat -> R) (a1 : R).
Let nodes := find_relevant bs ctrls.
Let mk := fun v => mem v nodes.
Let a0 : @aenv R := fun v => if Nat.eqb v J then Some a1 else None.
Let A (post : list (block R)) (s : R) := padj RO mk (X s) post a0.
Hypothesis Hw : wf_tape bs.
Hypothesis Hsh : List.Forall shaped bs.
Hypothesis Hi : independent bs ctrls.
Hypothesis Hst : settled bs ctrls (saved hh).
Hypothesis Hsm : twice_smooth bs ctrls (saved hh).
Hypothesis Hso : second_order_sound bs ctrls J.
Hypothesis X0 : forall v, X 0 v = saved hh v.
Hypothesis Xd : forall v, is_derive (fun s => X s v) 0 (t v).
Hypothesis Xc : forall v, mk v = false -> locally 0 (fun s => X s v = X 0 v).
Hypothesis Hmk : forall v, bv_mark (hh v) = mk v.
Hypothesis Htl : forall v, t v = val RO (bv_tlm (hh v)).
Hypothesis Htn : forall v, mk v = false -> bv_tlm (hh v) = None.
Hypothesis Had : forall v, mk v = true -> bv_adj (hh v) = fst (A bs 0) v.
Hypothesis Hhs : forall v, In v (vars_of bs) \/ mk v = true -> bv_hess (hh v) = if Nat.eqb v J then Some 0 else None.

Let mk_inf : forall v, mk v = true <-> influenced bs ctrls v.
Proof.
  intros v. unfold mk. rewrite mem_In. unfold nodes. rewrite (find_relevant_influences bs ctrls v (proj1 Hw)). reflexivity.
Qed.

Lemma A_cons : forall b post s, A (b :: post) s = match A post s with (a, None) => padj_block RO mk (X s) a b | (a, Some e) => (a, Some e) end.
Proof.
  intros b post s. unfold A, padj. cbn [rev]. rewrite iter_o_app. unfold andthen. destruct (iter_o _ (rev post) a0) as [a [e|]]; [reflexivity|].
  cbn [iter_o]. destruct (padj_block RO mk (X s) a b) as [a' [e|]]; reflexivity.
Qed.

(** The adjoint value of an output is final once the later blocks are done. *)
Lemma A_final : forall pre b post s o, bs = pre ++ b :: post -> snd (A post s) = None -> In o (b_outs b) -> fst (A bs s) o = fst (A post s) o.
Proof.
  intros pre b post s o E Hs Ho. unfold A, padj in *. rewrite E. replace (rev (pre ++ b :: post)) with (rev post ++ (rev (pre ++ [b]))).
  2:{ rewrite !rev_app_distr. cbn. now rewrite <- app_assoc. }
  rewrite iter_o_app. unfold andthen. destruct (iter_o _ (rev post) a0) as [a [e|]]; [discriminate Hs|]. cbn [fst].
  destruct (iter_o _ (rev (pre ++ [b])) a) as [a' e'] eqn:Ea. cbn [fst].
  refine (iter_o_inv _ (fun x : @aenv R => x o = a o) _ _ _ _ _ eq_refl Ea).
  intros x b' x' e'' Hin Hx Hb'. apply in_rev in Hin.
  pose proof (padj_block_frame RO mk (X s) x b' o) as Fr. rewrite Hb' in Fr. cbn [fst] in Fr. rewrite Fr; [exact Hx|]. left. intros K.
  pose proof (proj1 Hw) as Ht. apply in_split in Hin as [l1 [l2 El]].
  assert (E2 : bs = l1 ++ b' :: (l2 ++ post)).
  { rewrite E. change (b :: post) with ([b] ++ post). rewrite app_assoc, El, <- app_assoc. reflexivity. }
  rewrite E2 in Ht. apply (topo_at _ _ _ Ht o K). unfold outs_of. apply in_flat_map. exists b. split; [|exact Ho].
  assert (In b (l1 ++ b' :: l2)) by (rewrite <- El; apply in_app_iff; right; now left).
  destruct l2 as [|y l2].
  - left. apply app_inj_tail in El as [_ El]. now symmetry.
  - right. assert (El' : exists l3, y :: l2 = l3 ++ [b]).
    { destruct (exists_last (l := y :: l2) ltac:(discriminate)) as [l3 [z Ez]]. exists l3. rewrite Ez in *.
      change (b' :: l3 ++ [z]) with ((b' :: l3) ++ [z]) in El. rewrite app_assoc in El. apply app_inj_tail in El as [_ <-]. reflexivity. }
    destruct El' as [l3 ->]. rewrite !in_app_iff. left. right. now left.
Qed.

Definition inv (post : list (block R)) (h : heap R) : Prop :=
  locally 0 (fun s => snd (A post s) = None) /\
  (forall v, mk v = true -> tracks (fun s => fst (A post s) v) (bv_hess (h v))) /\
  (forall v, In v (vars_of bs) -> bv_hess (h v) <> None -> influences bs v J) /\
  (forall v, mk v = true -> only_linear bs J v -> val RO (bv_hess (h v)) = 0).

(** Only second-order values change. *)
Definition like (h : heap R) : Prop := forall v, saved h v = saved hh v /\ bv_mark (h v) = bv_mark (hh v) /\ bv_tlm (h v) = bv_tlm (hh v) /\ bv_adj (h v) = bv_adj (hh v).
Lemma like_block : forall h b, like h -> like (fst (hess_block RO true h b)).
Proof.
  intros h b H v. destruct (H v) as [H1 [H2 [H3 H4]]].
  pose proof (hess_block_keeps RO (fun x => (bv_ckpt x, bv_out x, bv_mark x, (bv_tlm x, bv_adj x))) ltac:(reflexivity) true h b v) as K. cbv beta in K.
  injection K as K1 K2 K3 K4 K5. unfold saved in *. rewrite K1, K2, K3, K4, K5. auto.
Qed.


Lemma outs_marked : forall b d o, In b bs -> In d (b_deps b) -> mk d = true -> In o (b_outs b) -> mk o = true.
Proof.
  intros b d o Hb Hd Hm Ho. unfold mk in *. rewrite mem_In in *. eapply (find_relevant_upward bs ctrls (proj1 Hw)); eauto.
Qed.

Lemma step_idle : forall pre b post h, bs = pre ++ b :: post -> inv post h -> 
  locally 0 (fun s => padj_block RO mk (X s) (fst (A post s)) b = (fst (A post s), None)) ->
  forall h', (forall v, mk v = true -> bv_hess (h' v) = bv_hess (h v)) ->
  (forall v, In v (vars_of bs) -> bv_hess (h' v) <> None -> influences bs v J) -> inv (b :: post) h'.
Proof.
  intros pre b post h E [I1 [I2 [I3 I4]]] L h' Hh Hv.
  assert (L2 : locally 0 (fun s => A (b :: post) s = (fst (A post s), None))).
  { generalize (filter_and _ _ I1 L). apply filter_imp. intros s [S1 S2]. rewrite A_cons. destruct (A post s) as [a [e|]]; [discriminate S1|exact S2]. }
  split; [|split; [|split]].
  - revert L2. apply filter_imp. now intros s ->.
  - intros v Hm. rewrite (Hh v Hm). apply (tracks_ext (fun s => fst (A post s) v)); [|now apply I2]. revert L2. apply filter_imp. now intros s ->.
  - exact Hv.
  - intros v Hm Hl. rewrite (Hh v Hm). now apply I4.
Qed.

Lemma smooth_i : forall b d0 d1 i d, In b bs -> b_deps b = [d0; d1] -> kind2 (b_kind b) = true -> length (b_outs b) = 1%nat ->
  nth_error [d0; d1] i = Some d -> mk d = true -> smooth2i (b_kind b) (fun s => X s d0) (fun s => X s d1) i.
Proof.
  intros b d0 d1 i d Hb Ed Hk Lo Hd Hm.
  assert (Hin : In d (b_deps b)) by (rewrite Ed; eapply nth_error_In; eauto).
  assert (Hc : existsb (fun v => mem v ctrls) (b_outs b) = false).
  { destruct (existsb (fun v => mem v ctrls) (b_outs b)) eqn:Ec; [|reflexivity]. exfalso.
    apply (cut_unmarked bs ctrls b d (proj1 Hw) Hi Hb Ec Hin). apply mem_In. exact Hm. }
  pose proof (not_cut b ctrls Hc) as Hnc. pose proof (proj1 (mk_inf d) Hm) as Hinf.
  pose proof (proj1 Hsm b d Hb Hnc Hin Hinf) as S. pose proof (Hst b Hb Hnc) as Fx.
  assert (exists o, nth_error (b_outs b) 0 = Some o) as [o Eo] by (destruct (b_outs b); [discriminate Lo|cbn; eauto]).
  specialize (Fx 0%nat o Eo). unfold smooth_block in S. rewrite Ed in *. unfold smooth2i.
  destruct (b_kind b) eqn:Ek; try discriminate Hk; try exact I; rewrite ?X0.
  - cbn in Fx. destruct (Req_EM_T (saved hh d1) 0); [destruct Fx; discriminate|assumption].
  - destruct S as [S|[S1 [z [Ez Hz]]]]; [now left|].
    assert (M1 : mk d1 = false) by (destruct (mk d1) eqn:M1; [exfalso; apply S1; now apply mk_inf|reflexivity]).
    right. destruct i as [|[|i]]; [| |destruct i; discriminate Hd]; injection Hd as <-; [|congruence].
    split; [reflexivity|]. split. { generalize (Xc d1 M1). apply filter_imp. intros s ->. apply X0. }
    destruct (Req_EM_T (saved hh d0) 0) as [Z|Z].
    + destruct (proj2 Hsm b d0 d1 Hb Hnc Ek Ed Hinf Z) as [z' [Ez' Hz']]. exists z'. auto.
    + exists z. auto.
  - exact S.
  - exact S.
Qed.

Lemma step2 : forall pre b post h h', bs = pre ++ b :: post -> like h -> inv post h -> hess_block RO true h b = (h', None) -> inv (b :: post) h'.
Proof.
  intros pre b post h h' E Lk Iv Eh. pose proof Iv as [I1 [I2 [I3 I4]]].
  assert (Hb : In b bs) by (rewrite E; apply in_app_iff; right; now left).
  assert (Vd : forall d, In d (b_deps b) -> In d (vars_of bs)).
  { intros d Hd. unfold vars_of. apply in_app_iff. left. unfold deps_of. apply in_flat_map. eauto. }
  assert (Vo : forall o, In o (b_outs b) -> In o (vars_of bs)).
  { intros o Ho. unfold vars_of. apply in_app_iff. right. unfold outs_of. apply in_flat_map. eauto. }
  assert (P3 : forall v, In v (vars_of bs) -> bv_hess (h' v) <> None -> influences bs v J).
  { intros v Hv Hn. destruct (in_dec Nat.eq_dec v (b_deps b)) as [Hd|Hd].
    - destruct (existsb (fun o => is_some (bv_hess (h o))) (b_outs b)) eqn:Ex.
      + apply existsb_exists in Ex as [o [Ho Hs]]. apply (influences_trans bs v o J).
        * apply (inf_step bs v b v o Hb Hd Ho). constructor.
        * apply I3; [now apply Vo|]. intros K. rewrite K in Hs. discriminate Hs.
      + rewrite (hess_idle h h' b Eh) in Hn; [now apply I3|]. intros o Ho. destruct (bv_hess (h o)) eqn:Eo; [|reflexivity].
        rewrite (proj2 (existsb_exists _ _)) in Ex; [discriminate Ex|]. exists o. now rewrite Eo.
    - rewrite (hess_other h h' b v Eh Hd) in Hn. now apply I3. }
  destruct (existsb mk (b_deps b)) eqn:Em.
  2:{ assert (Nm : forall d, In d (b_deps b) -> mk d = false).
      { intros d Hd. destruct (mk d) eqn:Ed; [|reflexivity]. rewrite (proj2 (existsb_exists mk (b_deps b)) (ex_intro _ d (conj Hd Ed))) in Em. discriminate Em. }
      apply (step_idle pre b post h E Iv); auto.
      - apply filter_forall. intros s. unfold padj_block. rewrite (marked_nil mk _ Nm). destruct (negb _); reflexivity.
      - intros v Hm. apply (hess_other h h' b v Eh). intros K. rewrite (Nm v K) in Hm. discriminate Hm. }
  apply existsb_exists in Em as [dm [Hdm Hmm]].
  assert (Om : forall o, In o (b_outs b) -> mk o = true) by (intros o Ho; exact (outs_marked b dm o Hb Hdm Hmm Ho)).
  destruct (existsb (fun o => is_some (bv_hess (h o))) (b_outs b)) eqn:Ex.
  2:{ assert (Nn : forall o, In o (b_outs b) -> bv_hess (h o) = None).
      { intros o Ho. destruct (bv_hess (h o)) eqn:Eo; [|reflexivity]. rewrite (proj2 (existsb_exists _ _)) in Ex; [discriminate Ex|]. exists o. now rewrite Eo. }
      pose proof (hess_idle h h' b Eh Nn) as ->.
      apply (step_idle pre b post h E Iv); auto.
      assert (L : locally 0 (fun s => forall o, In o (b_outs b) -> is_some (fst (A post s) o) = false)).
      { apply (locally_in (b_outs b) (fun o s => is_some (fst (A post s) o) = false)). intros o Ho.
        generalize (proj1 (I2 o (Om o Ho))). apply filter_imp. intros s ->. now rewrite (Nn o Ho). }
      revert L. apply filter_imp. intros s L. unfold padj_block.
      replace (existsb is_some (map (fst (A post s)) (b_outs b))) with false; [reflexivity|]. symmetry.
      clear - L. induction (b_outs b) as [|o l IH]; [reflexivity|]. cbn. rewrite (L o) by now left. apply IH. intros; apply L; now right. }
  apply existsb_exists in Ex as [o [Ho Hs]]. destruct (bv_hess (h o)) as [q|] eqn:Eq; [|discriminate Hs]. clear Hs.
  assert (Io : influences bs o J) by (apply I3; [now apply Vo|congruence]).
  pose proof (Hso b dm o Hb Hdm (proj1 (mk_inf dm) Hmm) Ho Io) as So.
  assert (Hs : shaped b) by (rewrite List.Forall_forall in Hsh; now apply Hsh).
  assert (Hnu : length (b_deps b) = arity (b_kind b) /\ (length (b_outs b) <= 1)%nat).
  { unfold shaped in Hs. unfold second_order_block in So. destruct (b_kind b); try contradiction; exact Hs. }
  destruct Hnu as [La Lo].
  assert (Eo : b_outs b = [o]).
  { destruct (b_outs b) as [|o' [|? ?]]; cbn in Lo; [destruct Ho| |lia]. destruct Ho as [->|[]]. reflexivity. }
  assert (Mo : mk o = true) by now apply Om.
  pose proof (I2 o Mo) as To. rewrite Eq in To. apply tracks_some in To as [Lo1 Do].
  set (al := fun s => val RO (fst (A post s) o)) in *.
  assert (N0 : snd (A post 0) = None) by exact (locally_singleton _ _ I1).
  assert (Ea : bv_adj (h o) = Some (al 0)).
  { rewrite (proj2 (proj2 (proj2 (Lk o)))), (Had o Mo), (A_final pre b post 0 o E N0 Ho). exact (locally_singleton _ _ Lo1). }
  assert (Lin : forall v, In v (b_deps b) -> only_linear bs J v -> linear_kind (b_kind b) = true /\ q = 0).
  { intros v Hd Hl. split; [apply (Hl v b o); auto; constructor|].
    assert (Hlo : only_linear bs J o).
    { intros w b' o' Hw'. apply Hl. apply (influences_trans bs v o w); [|exact Hw']. apply (inf_step bs v b v o Hb Hd Ho). constructor. }
    specialize (I4 o Mo Hlo). rewrite Eq in I4. exact I4. }
  destruct (Nat.eq_dec (arity (b_kind b)) 2) as [A2|A2].
  - assert (K2 : kind2 (b_kind b) = true) by (unfold second_order_block in So; destruct (b_kind b); try contradiction; try discriminate A2; reflexivity).
    rewrite A2 in La. destruct (two_of _ _ La) as [d0 [d1 Ed]].
    set (D := dadj (b_kind b) (saved hh d0) (saved hh d1) (t d0) (t d1) q (al 0)).
    assert (H2 : hess2 mk h h' d0 d1 (D 0%nat) (D 1%nat)).
    { assert (ES : forall v, saved h v = saved hh v) by (intros v; apply Lk). assert (ET : forall v, val RO (bv_tlm (h v)) = t v).
      { intros v. rewrite Htl. now rewrite (proj1 (proj2 (proj2 (Lk v)))). }
      unfold D. rewrite <- !ES, <- !ET. apply (hess_block_two mk h h' b d0 d1 o q (al 0)); auto.
      - intros v. rewrite (proj1 (proj2 (Lk v))). apply Hmk.
      - intros v Hv. rewrite (proj1 (proj2 (proj2 (Lk v)))). now apply Htn.
      - intros Ek. unfold second_order_block in So. rewrite Ek in So. destruct So as [[d K]|K].
        + right. rewrite Ed in K. injection K as -> ->. reflexivity.
        + left. specialize (I4 o Mo (K o Ho)). rewrite Eq in I4. exact I4.
      - intros Ek M1. pose proof (smooth_i b d0 d1 1 d1 Hb Ed K2 ltac:(now rewrite Eo) eq_refl M1) as S. rewrite Ek in S. cbn in S.
        rewrite !X0 in S. rewrite ES. destruct S as [S|[S _]]; [exact S|discriminate S].
      - intros Ek. rewrite ES.
        assert (S : exists i d, nth_error [d0; d1] i = Some d /\ mk d = true).
        { rewrite Ed in Hdm. destruct Hdm as [->|[->|[]]]; [exists 0%nat, dm|exists 1%nat, dm]; auto. }
        destruct S as [i [d [Hd Md]]]. pose proof (smooth_i b d0 d1 i d Hb Ed K2 ltac:(now rewrite Eo) Hd Md) as S. rewrite Ek in S. cbn in S.
        now rewrite X0 in S. }
    assert (C : forall i d, nth_error [d0; d1] i = Some d -> exists c, is_derive c 0 (if mk d then D i else 0) /\
        (mk d = true -> locally 0 (fun s => comp_adj RO (b_kind b) [X s d0; X s d1] [Some (al s)] i = Ok (Some (c s))))).
    { intros i d Hd. destruct (mk d) eqn:Md.
      - assert (Li : (i < 2)%nat) by (apply (proj1 (nth_error_Some [d0; d1] i)); congruence).
        destruct (adj_curve2 (b_kind b) (fun s => X s d0) (fun s => X s d1) al (t d0) (t d1) q i K2 Li (Xd d0) (Xd d1) Do) as [c [C1 C2]].
        { exact (smooth_i b d0 d1 i d Hb Ed K2 ltac:(now rewrite Eo) Hd Md). }
        exists c. rewrite !X0 in C2. split; [exact C2|]. intros _. exact C1.
      - exists (fun _ => 0). split; [apply (@is_derive_const R_AbsRing R_NormedModule)|discriminate]. }
    destruct (C 0%nat d0 eq_refl) as [c0 [Dc0 Lc0]]. destruct (C 1%nat d1 eq_refl) as [c1 [Dc1 Lc1]]. clear C.
    assert (L0 : locally 0 (fun s => mk d0 = true -> comp_adj RO (b_kind b) [X s d0; X s d1] [Some (al s)] 0 = Ok (Some (c0 s)))).
    { destruct (mk d0); [|apply filter_forall; discriminate]. generalize (Lc0 eq_refl). apply filter_imp. auto. }
    assert (L1 : locally 0 (fun s => mk d1 = true -> comp_adj RO (b_kind b) [X s d0; X s d1] [Some (al s)] 1 = Ok (Some (c1 s)))).
    { destruct (mk d1); [|apply filter_forall; discriminate]. generalize (Lc1 eq_refl). apply filter_imp. auto. }
    assert (L : locally 0 (fun s => snd (A (b :: post) s) = None /\ forall v, mk v = true ->
       is_some (fst (A (b :: post) s) v) = (is_some (fst (A post s) v) || Nat.eqb v d0 || Nat.eqb v d1) /\
       val RO (fst (A (b :: post) s) v) = val RO (fst (A post s) v) + (if Nat.eqb v d0 then c0 s else 0) + (if Nat.eqb v d1 then c1 s else 0))).
    { generalize (filter_and _ _ I1 (filter_and _ _ Lo1 (filter_and _ _ L0 L1))). apply filter_imp. intros s [S1 [S2 [S3 S4]]].
      rewrite A_cons. unfold al in S3, S4. destruct (A post s) as [a [e|]]; [discriminate S1|]. cbn [fst] in *.
      exact (padj_two mk (X s) a b d0 d1 o _ (c0 s) (c1 s) Ed Eo S2 S3 S4). }
    split; [|split; [|split]].
    + revert L. apply filter_imp. now intros s [-> _].
    + intros v Hm. destruct (H2 v Hm) as [Q1 Q2]. destruct (I2 v Hm) as [T1 T2]. split.
      * generalize (filter_and _ _ L T1). apply filter_imp. intros s [[_ S] S']. rewrite (proj1 (S v Hm)), S', Q1. reflexivity.
      * rewrite Q2. apply (is_derive_ext_loc (fun s => val RO (fst (A post s) v) + (if Nat.eqb v d0 then c0 s else 0) + (if Nat.eqb v d1 then c1 s else 0))).
        { revert L. apply filter_imp. intros s [_ S]. symmetry. apply (proj2 (S v Hm)). }
        apply (@is_derive_plus R_AbsRing R_NormedModule); [apply (@is_derive_plus R_AbsRing R_NormedModule)|]; [exact T2| |].
        -- destruct (Nat.eqb_spec v d0) as [->|]; [rewrite Hm in Dc0; exact Dc0|apply (@is_derive_const R_AbsRing R_NormedModule)].
        -- destruct (Nat.eqb_spec v d1) as [->|]; [rewrite Hm in Dc1; exact Dc1|apply (@is_derive_const R_AbsRing R_NormedModule)].
    + exact P3.
    + intros v Hm Hl. destruct (H2 v Hm) as [_ ->]. rewrite (I4 v Hm Hl).
      assert (Z : In v (b_deps b) -> forall i, D i = 0).
      { intros Hd i. destruct (Lin v Hd Hl) as [Lk1 ->]. unfold D, dadj. destruct (b_kind b); try discriminate Lk1; try discriminate K2; try reflexivity.
        - destruct (Nat.eqb i 0); ring.
        - destruct (Nat.eqb i _); reflexivity.
        - destruct (Nat.eqb i _); reflexivity. }
      rewrite Ed in Z. destruct (Nat.eqb_spec v d0) as [->|N1]; [rewrite !Z by now left|].
      * destruct (Nat.eqb d0 d1); ring.
      * destruct (Nat.eqb_spec v d1) as [->|N2]; [rewrite !Z by (right; now left)|]; ring.
  - assert (Ek : b_kind b = KNeg) by (unfold second_order_block in So; destruct (b_kind b); try contradiction; try (exfalso; apply A2; reflexivity); reflexivity).
    rewrite Ek in La. destruct (one_of _ _ La) as [d0 Ed].
    pose proof (hess_neg_one h h' b d0 o q Ek Ed Eo Eq Eh) as H1.
    assert (L : locally 0 (fun s => snd (A (b :: post) s) = None /\ forall v, mk v = true ->
       is_some (fst (A (b :: post) s) v) = (is_some (fst (A post s) v) || Nat.eqb v d0) /\
       val RO (fst (A (b :: post) s) v) = val RO (fst (A post s) v) + (if Nat.eqb v d0 then - al s else 0))).
    { generalize (filter_and _ _ I1 Lo1). apply filter_imp. intros s [S1 S2].
      rewrite A_cons. unfold al. destruct (A post s) as [a [e|]]; [discriminate S1|]. cbn [fst] in *.
      apply (padj_one mk (X s) a b d0 o _ (- val RO (a o)) Ed Eo S2). intros _. rewrite Ek. reflexivity. }
    split; [|split; [|split]].
    + revert L. apply filter_imp. now intros s [-> _].
    + intros v Hm. destruct (H1 v) as [Q1 Q2]. destruct (I2 v Hm) as [T1 T2]. split.
      * generalize (filter_and _ _ L T1). apply filter_imp. intros s [[_ S] S']. rewrite (proj1 (S v Hm)), S', Q1. reflexivity.
      * rewrite Q2. apply (is_derive_ext_loc (fun s => val RO (fst (A post s) v) + (if Nat.eqb v d0 then - al s else 0))).
        { revert L. apply filter_imp. intros s [_ S]. symmetry. apply (proj2 (S v Hm)). }
        apply (@is_derive_plus R_AbsRing R_NormedModule); [exact T2|].
        apply (is_derive_if (Nat.eqb v d0) (fun s => - al s) (- q)). apply (@is_derive_opp R_AbsRing R_NormedModule). exact Do.
    + exact P3.
    + intros v Hm Hl. destruct (H1 v) as [_ ->]. rewrite (I4 v Hm Hl). destruct (Nat.eqb_spec v d0) as [->|]; [|ring].
      destruct (Lin d0) as [_ ->]; [rewrite Ed; now left|exact Hl|ring].
Qed.

Lemma sweep2 : forall post pre h', bs = pre ++ post -> iter_o (hess_block RO true) (rev post) hh = (h', None) -> like h' /\ inv post h'.
Proof.
  induction post as [|b post IH]; intros pre h' E Es.
  - cbn in Es. injection Es as <-. split; [intros v; auto|]. split; [apply filter_forall; reflexivity|]. split; [|split].
    + intros v Hm. rewrite (Hhs v (or_intror Hm)). apply (tracks_ext (fun _ => a0 v)); [apply filter_forall; reflexivity|].
      unfold a0. apply tracks_const; destruct (Nat.eqb v J); reflexivity.
    + intros v Hv Hn. rewrite (Hhs v (or_introl Hv)) in Hn. destruct (Nat.eqb_spec v J) as [->|]; [constructor|congruence].
    + intros v Hm _. rewrite (Hhs v (or_intror Hm)). destruct (Nat.eqb v J); reflexivity.
  - cbn [rev] in Es. rewrite iter_o_app in Es. unfold andthen in Es.
    destruct (iter_o (hess_block RO true) (rev post) hh) as [h1 [e|]] eqn:E1; [discriminate Es|].
    destruct (IH (pre ++ [b]) h1) as [Lk Iv]; [now rewrite <- app_assoc|reflexivity|].
    cbn [iter_o] in Es. destruct (hess_block RO true h1 b) as [h2 [e|]] eqn:E2; [discriminate Es|]. injection Es as <-.
    split; [|exact (step2 pre b post h1 h2 E Lk Iv E2)]. pose proof (like_block h1 b Lk) as K. now rewrite E2 in K.
Qed.

Lemma hess_tracks : forall h', evaluate_hessian RO bs true hh = (h', None) ->
  locally 0 (fun s => snd (A bs s) = None) /\
  forall v, mk v = true -> is_derive (fun s => val RO (fst (A bs s) v)) 0 (val RO (bv_hess (h' v))).
Proof.
  intros h' E. destruct (sweep2 bs [] h' eq_refl E) as [_ [I1 [I2 _]]]. split; [exact I1|]. intros v Hv. apply (I2 v Hv).
Qed.

End Sweep2.
