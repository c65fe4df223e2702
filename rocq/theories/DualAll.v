(** Duality of the sweeps for controls that may depend on one another: tangents that a block adds to a
    direction set by the user. *)
From Coq Require Import List Arith ZArith Lia Bool Ring.
From Verif Require Import Base Model BaseFacts Graph Record RecordFacts History Sweep SpecGraph Marks Dual TlmSweep.
Import ListNotations.

Section All.
Context {V : Type} (F : fops V).
Hypothesis Rth : ring_theory (f_zero F) (f_one F) (f_add F) (f_mul F) (f_sub F) (f_neg F) eq.
Hypothesis Hdiv : forall a t x r s, f_div F a x = Ok r -> f_div F t x = Ok s -> f_mul F r t = f_mul F a s.
Add Ring VRing3 : Rth.
Implicit Types (bs : list (block V)) (b : block V) (h : heap V).
Notation val := (val F).
Notation dot := (dot F).
Notation pair := (pair F).

Lemma val_oacc : forall o x, val (oacc F o x) = f_add F (val o) (val x).
Proof. intros [y|] [x|]; cbn; ring. Qed.

(** What a block evaluation leaves behind when its outputs may carry tangents already. *)
Definition tlm_added h h' b : Prop :=
  (forall v, ~ In v (b_outs b) -> bv_tlm (h' v) = bv_tlm (h v)) /\
  (if existsb is_some (tlms h b)
   then forall k o, nth_error (b_outs b) k = Some o ->
        exists x, tlm_val F (b_kind b) (map (saved h) (b_deps b)) (tlms h b) k = Ok x /\ val (bv_tlm (h' o)) = f_add F (val (bv_tlm (h o))) (val x)
   else forall v, bv_tlm (h' v) = bv_tlm (h v)).

Lemma tlm_loop_added : forall k xs ts l i h h', NoDup l ->
  iter_o (fun h' iv => match comp_tlm F k xs ts (fst iv) with
                       | Err e => (h', Some e) | Ok None => (h', None)
                       | Ok (Some x) => (upd h' (snd iv) (add_tlm F x), None) end) (enum_from i l) h = (h', None) ->
  (forall v, ~ In v l -> bv_tlm (h' v) = bv_tlm (h v)) /\
  (forall j o, nth_error l j = Some o -> exists x, comp_tlm F k xs ts (i + j) = Ok x /\ val (bv_tlm (h' o)) = f_add F (val (bv_tlm (h o))) (val x)).
Proof.
  intros k xs ts l. induction l as [|o l IH]; intros i h h' Hn E.
  - cbn in E. injection E as <-. split; [reflexivity|]. now intros [|j].
  - inversion Hn as [|? ? Ho Hn']; subst. cbn [enum_from iter_o fst snd] in E.
    assert (G : forall h1 x, (forall v, v <> o -> bv_tlm (h1 v) = bv_tlm (h v)) ->
       comp_tlm F k xs ts i = Ok x -> val (bv_tlm (h1 o)) = f_add F (val (bv_tlm (h o))) (val x) ->
       iter_o (fun h' iv => match comp_tlm F k xs ts (fst iv) with
                       | Err e => (h', Some e) | Ok None => (h', None)
                       | Ok (Some x) => (upd h' (snd iv) (add_tlm F x), None) end) (enum_from (Datatypes.S i) l) h1 = (h', None) ->
       (forall v, ~ In v (o :: l) -> bv_tlm (h' v) = bv_tlm (h v)) /\
       (forall j u, nth_error (o :: l) j = Some u -> exists x, comp_tlm F k xs ts (i + j) = Ok x /\ val (bv_tlm (h' u)) = f_add F (val (bv_tlm (h u))) (val x))).
    { intros h1 x Hf Hc Hx E1. destruct (IH (Datatypes.S i) h1 h') as [A B]; auto.
      split.
      - intros v Hv. rewrite A by (intros K; apply Hv; now right). apply Hf. intros ->. apply Hv. now left.
      - intros [|j] u Hu; cbn in Hu.
        + injection Hu as <-. exists x. rewrite Nat.add_0_r, A by assumption. auto.
        + replace (i + Datatypes.S j) with (Datatypes.S i + j) by lia. destruct (B j u Hu) as [y [K1 K2]]. exists y. split; [exact K1|].
          rewrite K2, Hf; [reflexivity|]. intros ->. apply Ho. eapply nth_error_In; eauto. }
    destruct (comp_tlm F k xs ts i) as [[x|]|] eqn:Ec; [| |discriminate E].
    + apply (G (upd h o (add_tlm F x)) (Some x)); auto.
      * intros v Hv. unfold upd. destruct (Nat.eqb_spec v o); [contradiction|reflexivity].
      * unfold upd. rewrite Nat.eqb_refl. cbn. apply (val_accum F Rth).
    + apply (G h None); auto. cbn. ring.
Qed.

Lemma tlm_base_added : forall h b h', (b_kind b <> KSub /\ b_kind b <> KDiv /\ b_kind b <> KPow) -> NoDup (b_outs b) ->
  tlm_block_base F false h b = (h', None) -> tlm_added h h' b.
Proof.
  intros h b h' Hk Hn E. unfold tlm_block_base in E. fold (tlms h b) in E. unfold tlm_added.
  destruct (existsb is_some (tlms h b)); cbn [negb] in E.
  - unfold relevant in E. rewrite filter_all in E.
    2:{ intros [i o] Ho. apply orb_true_r. }
    unfold enum in E. apply tlm_loop_added in E; [|exact Hn].
    destruct E as [A B]. split; [exact A|]. intros k o Ho.
    destruct (b_kind b); try (exact (B k o Ho)); exfalso; destruct Hk as [K1 [K2 K3]]; congruence.
  - injection E as <-. split; reflexivity.
Qed.

Ltac upd_simp := unfold upd; repeat match goal with
  | |- context [Nat.eqb ?x ?x] => rewrite Nat.eqb_refl
  | H : ?x <> ?y |- context [Nat.eqb ?x ?y] => rewrite (proj2 (Nat.eqb_neq x y) H)
  end.
Ltac off_out o := intros v Hv; assert (v <> o) by (intros ->; apply Hv; left; reflexivity); upd_simp; reflexivity.
Ltac on_out h o := intros [|[|?]] u Hu; cbn in Hu; try discriminate; injection Hu as <-; eexists; split; [reflexivity|];
  upd_simp; cbn; destruct (bv_tlm (h o)); cbn; ring.

Lemma tlm_block_added : forall h b h', shaped b -> (forall d, In d (b_deps b) -> ~ In d (b_outs b)) -> NoDup (b_outs b) ->
  tlm_block F false h b = (h', None) -> tlm_added h h' b.
Proof.
  intros h b h' Hs Hd Hn E. unfold tlm_block in E.
  destruct b as [k deps outs tag]. cbn [b_kind b_deps b_outs] in *. unfold shaped in Hs. cbn [b_kind b_deps b_outs] in Hs.
  destruct k; try (apply tlm_base_added; cbn; auto; repeat split; discriminate).
  - (* Sub *)
    cbn in Hs. destruct Hs as [Hl Ho]. destruct (two _ Hl) as [t0 [t1 ->]].
    unfold tlm_sub, with_out, with_term in E. cbn [b_deps b_outs nth_error] in E.
    destruct outs as [|o [|? ?]]; [discriminate E| |cbn in Ho; lia]. cbn in E.
    assert (N0 : t0 <> o) by (intros ->; apply (Hd o); [left; reflexivity|left; reflexivity]).
    assert (N1 : t1 <> o) by (intros ->; apply (Hd o); [right; left; reflexivity|left; reflexivity]).
    unfold tlm_added, tlms, tlm_val in *. cbn [b_deps b_outs b_kind map existsb] in *. cbn [nth_res nth_error bind].
    destruct (bv_tlm (h t0)) as [x0|] eqn:E0.
    + replace (bv_tlm (upd h o (add_tlm F x0) t1)) with (bv_tlm (h t1)) in E by (upd_simp; reflexivity).
      destruct (bv_tlm (h t1)) as [x1|] eqn:E1; injection E as <-; cbn [is_some orb]; (split; [off_out o|]); on_out h o.
    + destruct (bv_tlm (h t1)) as [x1|] eqn:E1; injection E as <-; cbn [is_some orb].
      * split; [off_out o|]. on_out h o.
      * split; reflexivity.
  - (* Div *)
    cbn in Hs. destruct Hs as [Hl Ho]. destruct (two _ Hl) as [t0 [t1 ->]].
    unfold tlm_div, with_out, with_term in E. cbn [b_deps b_outs nth_error] in E.
    destruct outs as [|o [|? ?]]; [discriminate E| |cbn in Ho; lia].
    assert (N0 : t0 <> o) by (intros ->; apply (Hd o); [left; reflexivity|left; reflexivity]).
    assert (N1 : t1 <> o) by (intros ->; apply (Hd o); [right; left; reflexivity|left; reflexivity]).
    unfold tlm_added, tlms, tlm_val in *. cbn [b_deps b_outs b_kind map existsb] in *. unfold with_val in E. cbn [nth_res nth_error bind].
    destruct (bv_tlm (h t0)) as [x0|] eqn:E0.
    + destruct (f_div F (f_one F) (saved h t1)) as [r|] eqn:Ed; [|discriminate E]. cbn [andthen] in E.
      replace (bv_tlm (upd h o (add_tlm F (f_mul F x0 r)) t1)) with (bv_tlm (h t1)) in E by (upd_simp; reflexivity).
      rewrite !saved_upd_other in E by assumption.
      destruct (bv_tlm (h t1)) as [x1|] eqn:E1.
      * cbn [bind] in E. destruct (do p <- f_pow F (saved h t1) (f_two F); f_div F (saved h t0) p) as [q|] eqn:Eq; [|discriminate E].
        injection E as <-; cbn [is_some orb bind]. split; [off_out o|]. on_out h o.
      * injection E as <-; cbn [is_some orb bind]. split; [off_out o|]. on_out h o.
    + cbn [andthen] in E. destruct (bv_tlm (h t1)) as [x1|] eqn:E1.
      * destruct (do p <- f_pow F (saved h t1) (f_two F); f_div F (saved h t0) p) as [q|] eqn:Eq; [|discriminate E].
        injection E as <-; cbn [is_some orb bind]. split; [off_out o|]. on_out h o.
      * injection E as <-. cbn. split; reflexivity.
  - (* Pow *)
    cbn in Hs. destruct Hs as [Hl Ho]. destruct (two _ Hl) as [t0 [t1 ->]].
    unfold tlm_pow, with_out, with_term in E. cbn [b_deps b_outs nth_error] in E.
    destruct outs as [|o [|? ?]]; [discriminate E| |cbn in Ho; lia].
    assert (N0 : t0 <> o) by (intros ->; apply (Hd o); [left; reflexivity|left; reflexivity]).
    assert (N1 : t1 <> o) by (intros ->; apply (Hd o); [right; left; reflexivity|left; reflexivity]).
    unfold tlm_added, tlms, tlm_val in *. cbn [b_deps b_outs b_kind map existsb] in *. unfold with_val in E. cbn [nth_res nth_error bind].
    destruct (bv_tlm (h t0)) as [x0|] eqn:E0.
    + destruct (f_pow F (saved h t0) (f_sub F (saved h t1) (f_one F))) as [r|] eqn:Ed; [|discriminate E]. cbn [andthen] in E.
      replace (bv_tlm (upd h o (add_tlm F (f_mul F (f_mul F x0 (saved h t1)) r)) t1)) with (bv_tlm (h t1)) in E by (upd_simp; reflexivity).
      destruct (bv_tlm (h t1)) as [x1|] eqn:E1.
      * destruct (f_pow F (saved h t0) (saved h t1)) as [q|] eqn:Eq; [|discriminate E].
        injection E as <-; cbn [is_some orb bind]. split; [off_out o|]. on_out h o.
      * injection E as <-; cbn [is_some orb bind]. split; [off_out o|]. on_out h o.
    + cbn [andthen] in E. destruct (bv_tlm (h t1)) as [x1|] eqn:E1.
      * destruct (f_pow F (saved h t0) (saved h t1)) as [q|] eqn:Eq; [|discriminate E].
        injection E as <-; cbn [is_some orb bind]. split; [off_out o|]. on_out h o.
      * injection E as <-. cbn. split; reflexivity.
Qed.

(** The whole sweep. *)
Lemma tlm_sweep_added : forall (N : nat -> Prop) bs h h', topo bs -> NoDup (outs_of bs) -> Forall shaped bs ->
  (forall b d o, In b bs -> In d (b_deps b) -> N d -> In o (b_outs b) -> N o) ->
  (forall v, bv_tlm (h v) <> None -> N v) ->
  evaluate_tlm F bs false h = (h', None) ->
  (forall v, bv_tlm (h' v) <> None -> N v) /\
  (forall v, ~ In v (outs_of bs) -> bv_tlm (h' v) = bv_tlm (h v)) /\
  (forall b, In b bs ->
     if existsb is_some (tlms h' b)
     then forall k o, nth_error (b_outs b) k = Some o ->
          exists x, tlm_val F (b_kind b) (map (saved h) (b_deps b)) (tlms h' b) k = Ok x /\ val (bv_tlm (h' o)) = f_add F (val (bv_tlm (h o))) (val x)
     else forall o, In o (b_outs b) -> bv_tlm (h' o) = bv_tlm (h o)).
Proof.
  intros N bs. induction bs as [|b r IH]; intros h h' Ht Hnd Hsh Hup HN E.
  - cbn in E. injection E as <-. repeat split; auto. easy.
  - unfold evaluate_tlm in E. cbn [iter_o] in E. destruct (tlm_block F false h b) as [h1 [x|]] eqn:Eb; [discriminate E|].
    inversion Hsh as [|? ? Hsb Hsr]; subst.
    assert (Hdo : forall d, In d (b_deps b) -> ~ In d (outs_of (b :: r))) by exact (proj1 Ht).
    assert (Hob : NoDup (b_outs b)) by exact (NoDup_app_l _ _ _ Hnd).
    assert (Hor : NoDup (outs_of r)) by exact (NoDup_app_r _ _ _ Hnd).
    assert (Hdis : forall o, In o (b_outs b) -> ~ In o (outs_of r)).
    { intros o Ho K. clear - Hnd Ho K. unfold outs_of in Hnd. cbn in Hnd. fold (outs_of r) in Hnd.
      induction (b_outs b) as [|x l IHl]; [exact Ho|]. cbn in Hnd. inversion Hnd as [|? ? Hx Hnd']; subst.
      destruct Ho as [->|Ho]; [apply Hx; apply in_app_iff; now right|auto]. }
    assert (P : tlm_added h h1 b).
    { apply tlm_block_added; auto.
      intros d Hd K. apply (Hdo d Hd). unfold outs_of. cbn. apply in_app_iff. now left. }
    destruct P as [P1 P2].
    assert (K : forall v, saved h1 v = saved h v).
    { intros v. pose proof (tlm_block_core F false h b v) as C. rewrite Eb in C. now apply core_saved. }
    assert (N1 : forall v, bv_tlm (h1 v) <> None -> N v).
    { intros v Hv. destruct (existsb is_some (tlms h b)) eqn:Ex; [|apply HN; now rewrite <- P2].
      destruct (in_dec Nat.eq_dec v (b_outs b)) as [Hi|Hi]; [|apply HN; now rewrite <- P1].
      apply existsb_exists in Ex as [y [Hy Hy2]]. unfold tlms in Hy. apply in_map_iff in Hy as [d [Ey Hd]].
      apply (Hup b d v (or_introl eq_refl) Hd); auto. apply HN. rewrite Ey. destruct y; [discriminate|discriminate Hy2]. }
    destruct (IH h1 h') as [A [B C]]; auto.
    { exact (proj2 Ht). }
    { intros b' d o Hb'. apply Hup. now right. }
    assert (Td : tlms h' b = tlms h b).
    { apply tlms_ext. intros d Hd. pose proof (Hdo d Hd) as K2. unfold outs_of in K2. cbn in K2. rewrite in_app_iff in K2.
      rewrite B by (unfold outs_of; tauto). apply P1. tauto. }
    split; [exact A|]. split.
    + intros v Hv. unfold outs_of in Hv. cbn in Hv. rewrite in_app_iff in Hv. rewrite B by (unfold outs_of; tauto). apply P1. tauto.
    + intros b' [<-|Hb'].
      * rewrite Td. destruct (existsb is_some (tlms h b)) eqn:Ex.
        -- intros k o Ho. destruct (P2 k o Ho) as [x [X1 X2]]. exists x. split; [exact X1|]. rewrite B; [exact X2|].
           apply Hdis. eapply nth_error_In; eauto.
        -- intros o Ho. rewrite B by now apply Hdis. apply P2.
      * assert (Ob : forall o, In o (b_outs b') -> bv_tlm (h1 o) = bv_tlm (h o)).
        { intros o Ho. apply P1. intros K2. apply (Hdis o K2). unfold outs_of. apply in_flat_map. eauto. }
        specialize (C b' Hb'). rewrite (map_ext (saved h) (saved h1)) by (intros; symmetry; apply K).
        destruct (existsb is_some (tlms h' b')).
        -- intros k o Ho. rewrite <- (Ob o) by (eapply nth_error_In; eauto). exact (C k o Ho).
        -- intros o Ho. rewrite <- (Ob o Ho). exact (C o Ho).
Qed.

(** ** The pairing *)
Lemma pair_change : forall l U a t1 t2, NoDup U -> NoDup l -> (forall o, In o l -> In o U) ->
  (forall v, ~ In v l -> t1 v = t2 v) ->
  pair U a t1 = f_add F (pair U a t2) (dot (map (fun o => val (a o)) l) (map (fun o => f_sub F (t1 o) (t2 o)) l)).
Proof.
  intros l U a t1 t2 HU Hl Hin H. rewrite (pair_zero F Rth l U a t1 HU Hl Hin), (pair_zero F Rth l U a t2 HU Hl Hin).
  replace (pair U a (zero_at F l t1)) with (pair U a (zero_at F l t2)).
  - assert (D : forall m, dot (map (fun o => val (a o)) m) (map t1 m) =
      f_add F (dot (map (fun o => val (a o)) m) (map t2 m)) (dot (map (fun o => val (a o)) m) (map (fun o => f_sub F (t1 o) (t2 o)) m))).
    { induction m as [|o m IH]; cbn; [ring|]. rewrite IH. ring. }
    rewrite D. ring.
  - apply pair_ext; [reflexivity|]. intros v _. unfold zero_at. destruct (mem v l) eqn:E; [reflexivity|]. symmetry. apply H. now apply mem_false.
Qed.

(** The tangent [t] minus the direction [s] set on outputs is dual to the adjoint components. *)
Definition block_added (mk : nat -> bool) (e : nat -> V) (t s : nat -> V) b : Prop :=
  forall ins, length ins = length (b_outs b) -> existsb is_some ins = true ->
  (forall p, In p (marked mk (b_deps b)) -> exists o, comp_adj F (b_kind b) (map e (b_deps b)) ins (fst p) = Ok o) ->
  contrib F (b_kind b) (map e (b_deps b)) ins t (marked mk (b_deps b)) = dot (map val ins) (map (fun o => f_sub F (t o) (s o)) (b_outs b)).

Definition mix bs (t s : nat -> V) : nat -> V := fun v => if mem v (outs_of bs) then s v else t v.

Lemma conserve_added : forall mk e t s U bs a, NoDup U -> (forall v, In v (vars_of bs) -> In v U) ->
  topo bs -> NoDup (outs_of bs) ->
  (forall b, In b bs -> block_added mk e t s b) ->
  snd (padj F mk e bs a) = None ->
  pair U a t = pair U (fst (padj F mk e bs a)) (mix bs t s).
Proof.
  intros mk e t s U bs. induction bs as [|b r IH]; intros a HU Hin Ht Hnd Hb Hs.
  - cbn. apply pair_ext; auto.
  - unfold padj in *. cbn [rev] in *. rewrite iter_o_app in *.
    assert (Hs1 : snd (iter_o (padj_block F mk e) (rev r) a) = None).
    { destruct (iter_o (padj_block F mk e) (rev r) a) as [a1 [x|]]; [discriminate Hs|reflexivity]. }
    rewrite (IH a); auto.
    2:{ intros v Hv. apply Hin. unfold vars_of, deps_of, outs_of in *. cbn. rewrite !in_app_iff in *. tauto. }
    2:{ exact (proj2 Ht). }
    2:{ unfold outs_of in *. cbn in Hnd. exact (NoDup_app_r _ _ _ Hnd). }
    2:{ intros b' Hb'. apply Hb. now right. }
    unfold padj. destruct (iter_o (padj_block F mk e) (rev r) a) as [a1 x1]. cbn [fst snd] in Hs1. subst x1.
    cbn [andthen iter_o fst] in *.
    assert (Hs2 : snd (padj_block F mk e a1 b) = None) by (destruct (padj_block F mk e a1 b) as [a2 [x|]]; [discriminate Hs|reflexivity]).
    replace (fst (let (s', o) := padj_block F mk e a1 b in match o with Some e0 => (s', Some e0) | None => (s', None) end))
      with (fst (padj_block F mk e a1 b)) by (destruct (padj_block F mk e a1 b) as [a2 [x|]]; reflexivity).
    assert (Hnb : NoDup (b_outs b) /\ forall o, In o (b_outs b) -> ~ In o (outs_of r)).
    { unfold outs_of in Hnd. cbn in Hnd. split; [exact (NoDup_app_l _ _ _ Hnd)|]. intros o Ho K.
      clear - Hnd Ho K. fold (outs_of r) in Hnd. induction (b_outs b) as [|x l IHl]; [easy|].
      cbn in Hnd. inversion Hnd as [|? ? Hx Hnd']; subst. destruct Ho as [->|Ho]; [apply Hx; apply in_app_iff; now right|auto]. }
    assert (HoU : forall o, In o (b_outs b) -> In o U).
    { intros o Ho. apply Hin. unfold vars_of, outs_of. cbn. rewrite !in_app_iff. tauto. }
    assert (M1 : forall v, ~ In v (b_outs b) -> mix r t s v = mix (b :: r) t s v).
    { intros v Hv. unfold mix. replace (mem v (outs_of (b :: r))) with (mem v (outs_of r)); [reflexivity|].
      destruct (mem v (outs_of r)) eqn:E1; symmetry; rewrite ?mem_In, ?mem_false in *; unfold outs_of; cbn; rewrite in_app_iff; tauto. }
    assert (M2 : forall o, In o (b_outs b) -> f_sub F (mix r t s o) (mix (b :: r) t s o) = f_sub F (t o) (s o)).
    { intros o Ho. unfold mix. rewrite (proj2 (mem_false _ _) (proj2 Hnb o Ho)).
      replace (mem o (outs_of (b :: r))) with true; [reflexivity|]. symmetry. apply mem_In. unfold outs_of. cbn. apply in_app_iff. now left. }
    rewrite (pair_change (b_outs b) U a1 (mix r t s) (mix (b :: r) t s) HU (proj1 Hnb) HoU M1).
    rewrite (map_ext_in _ _ _ M2).
    unfold padj_block in Hs2. unfold padj_block.
    destruct (existsb is_some (map a1 (b_outs b))) eqn:Ei; cbn [negb] in *.
    + rewrite (loop_pair F Rth); auto.
      2:{ intros p Hp. apply Hin. unfold marked in Hp. apply filter_In in Hp as [Hp _]. apply enum_snd_In in Hp.
          unfold vars_of, deps_of. cbn. rewrite !in_app_iff. tauto. }
      f_equal. rewrite (contrib_ext F _ _ _ (mix (b :: r) t s) t).
      2:{ intros p Hp. unfold marked in Hp. apply filter_In in Hp as [Hp _]. apply enum_snd_In in Hp.
          unfold mix. rewrite (proj2 (mem_false _ _) (proj1 Ht _ Hp)). reflexivity. }
      rewrite (Hb b (or_introl eq_refl) (map a1 (b_outs b))); auto.
      * now rewrite map_map.
      * apply map_length.
      * exact (loop_all_ok F _ _ _ _ _ Hs2).
    + cbn [fst]. assert (D : forall l (q : nat -> V), existsb is_some (map a1 l) = false -> dot (map (fun o => val (a1 o)) l) (map q l) = f_zero F).
      { intros l q H. exact (dot_none F Rth l a1 q H). }
      rewrite D by exact Ei. ring.
Qed.

(** The gradient pairs with the directions. *)
Lemma grad_added_pure : forall bs J ctrls adj e t s mk, topo bs -> NoDup (outs_of bs) -> NoDup ctrls ->
  let a0 := fun v => if Nat.eqb v J then Some adj else None in
  (forall v, ~ In v ctrls -> s v = f_zero F) -> (forall v, ~ In v (outs_of bs) -> t v = s v) ->
  (forall b, In b bs -> block_added mk e t s b) ->
  let r := padj F mk e bs a0 in
  snd r = None -> f_mul F adj (t J) = dot (map (fun c => val (fst r c)) ctrls) (map s ctrls).
Proof.
  intros bs J ctrls adj e t s mk Ht Hnd Hcd a0 Hz Hts Hb r Hs.
  set (U := nodup Nat.eq_dec (J :: ctrls ++ vars_of bs)).
  assert (HU : NoDup U) by apply NoDup_nodup.
  assert (HinU : forall v, v = J \/ In v ctrls \/ In v (vars_of bs) -> In v U).
  { intros v Hv. apply nodup_In. cbn. rewrite in_app_iff. intuition. }
  assert (C : pair U a0 t = pair U (fst r) (mix bs t s)) by (apply conserve_added; auto).
  assert (E0 : pair U a0 t = f_mul F adj (t J)).
  { rewrite (pair_zero1 F Rth U a0 t J) by auto. rewrite (pair_null F Rth).
    - unfold a0. rewrite Nat.eqb_refl. cbn. ring.
    - intros v _. unfold zero_at, a0. cbn. destruct (Nat.eqb v J); [now left|now right]. }
  rewrite <- E0, C. rewrite (pair_ext F U (fst r) (fst r) (mix bs t s) s); auto.
  2:{ intros v _. unfold mix. destruct (mem v (outs_of bs)) eqn:E; [reflexivity|]. apply Hts. now apply mem_false. }
  rewrite (pair_zero F Rth ctrls U (fst r) s HU Hcd) by auto. rewrite (pair_null F Rth); [ring|].
  intros v _. left. unfold zero_at. destruct (mem v ctrls) eqn:E; [reflexivity|]. apply Hz. now apply mem_false.
Qed.

Lemma tlm_block_added_dual : forall mk e (t s : nat -> option V) b, shaped b ->
  (forall u, b_kind b = KUser u -> user_dual F u) -> (forall d, In d (b_deps b) -> ~ In d (b_outs b)) -> NoDup (b_outs b) ->
  (forall d, mk d = false -> t d = None) ->
  (forall d o, In d (b_deps b) -> In o (b_outs b) -> mk d = true -> mk o = true) ->
  (if existsb is_some (map t (b_deps b))
   then forall k o, nth_error (b_outs b) k = Some o ->
        exists x, tlm_val F (b_kind b) (map e (b_deps b)) (map t (b_deps b)) k = Ok x /\ val (t o) = f_add F (val (s o)) (val x)
   else forall o, In o (b_outs b) -> t o = s o) ->
  block_added mk e (fun v => val (t v)) (fun v => val (s v)) b.
Proof.
  intros mk e t s b Hs Hu Hd Hn Hmk Hup Ht ins Hl Hi Hc.
  set (idx := fix idx (l : list nat) (v : nat) := match l with [] => 0 | o :: r => if Nat.eqb v o then 0 else Datatypes.S (idx r v) end).
  assert (Hidx : forall l k o, NoDup l -> nth_error l k = Some o -> idx l o = k).
  { clear. induction l as [|u l IH]; intros [|k] o Hn Hk; try discriminate; cbn in *.
    - injection Hk as ->. now rewrite Nat.eqb_refl.
    - inversion Hn as [|? ? Hu Hn']; subst. destruct (Nat.eqb_spec o u) as [->|]; [exfalso; apply Hu; eapply nth_error_In; eauto|]. f_equal. auto. }
  set (ex := existsb is_some (map t (b_deps b))) in *.
  set (tau := fun v => if mem v (b_outs b)
                       then if ex then match tlm_val F (b_kind b) (map e (b_deps b)) (map t (b_deps b)) (idx (b_outs b) v) with Ok x => x | Err _ => None end else None
                       else t v).
  assert (Td : forall d, In d (b_deps b) -> tau d = t d).
  { intros d K. unfold tau. now rewrite (proj2 (mem_false _ _) (Hd d K)). }
  assert (Tm : map tau (b_deps b) = map t (b_deps b)) by (apply map_ext_in; exact Td).
  set (tau' := fun v => if mk v then tau v else None).
  assert (T' : forall v, mk v = true -> tau' v = tau v) by (intros v K; unfold tau'; now rewrite K).
  assert (Tm' : map tau' (b_deps b) = map t (b_deps b)).
  { rewrite <- Tm. apply map_ext_in. intros d K. unfold tau'. destruct (mk d) eqn:E; [reflexivity|]. rewrite Td by exact K. symmetry. now apply Hmk. }
  assert (Mo : ex = true -> forall o, In o (b_outs b) -> mk o = true).
  { intros Ex o Ho. unfold ex in Ex. apply existsb_exists in Ex as [y [Hy Hy2]]. apply in_map_iff in Hy as [d [Ey Hdd]].
    apply (Hup d o Hdd Ho). destruct (mk d) eqn:E; [reflexivity|]. rewrite (Hmk d E) in Ey. subst y. discriminate. }
  pose proof (tlm_block_dual F Rth Hdiv mk e tau' b Hs Hu) as D.
  rewrite Tm' in D. fold ex in D.
  assert (D1 : block_dual F mk e (fun v => val (tau' v)) b).
  { apply D; [intros d K; unfold tau'; now rewrite K|]. destruct ex eqn:Ex.
    - intros k o Hk. destruct (Ht k o Hk) as [x [X1 _]]. rewrite X1. f_equal.
      assert (Io : In o (b_outs b)) by (eapply nth_error_In; eauto).
      rewrite T' by now apply Mo. unfold tau. rewrite (proj2 (mem_In _ _) Io), (Hidx _ k o Hn Hk), X1. reflexivity.
    - intros o Ho. unfold tau', tau. rewrite (proj2 (mem_In _ _) Ho). now destruct (mk o). }
  specialize (D1 ins Hl Hi Hc).
  rewrite (contrib_ext F _ _ _ (fun v => val (t v)) (fun v => val (tau' v))).
  2:{ intros p Hp. unfold marked in Hp. apply filter_In in Hp as [Hp Hm]. apply enum_snd_In in Hp. cbn beta. rewrite T' by exact Hm. now rewrite Td. }
  rewrite D1. f_equal. apply map_ext_in. intros o Ho. destruct ex eqn:Ex.
  - apply In_nth_error in Ho as [k Hk]. destruct (Ht k o Hk) as [x [X1 X2]]. rewrite X2.
    assert (Io : In o (b_outs b)) by (eapply nth_error_In; eauto).
    rewrite T' by now apply Mo. unfold tau. rewrite (proj2 (mem_In _ _) Io), (Hidx _ k o Hn Hk), X1. ring.
  - rewrite (Ht o Ho). unfold tau', tau. rewrite (proj2 (mem_In _ _) Ho). destruct (mk o); cbn; ring.
Qed.

(** C09, controls that may depend on one another. *)
Lemma duality_all : forall bs J ctrls adj dots hA hT hT' g,
  wf_tape bs -> Forall shaped bs -> users_dual F bs -> NoDup ctrls -> length dots = length ctrls ->
  no_ctrl hA -> fresh_ctrls bs J ctrls hA -> tlm_clean bs ctrls hT -> (forall v, saved hT v = saved hA v) ->
  snd (compute_gradient F bs J ctrls adj hA) = Ok g ->
  run_tlm F bs ctrls dots hT = (hT', None) ->
  f_mul F adj (val (bv_tlm (hT' J))) = dot g dots.
Proof.
  intros bs J ctrls adj dots hA hT hT' g [Ht Hnd] Hsh Hu Hcd Hl Nc Hf Hcl Hsv G E. unfold run_tlm in E.
  set (h0 := reset_tlm bs hT) in *.
  destruct (set_dots_spec dots ctrls h0 Hl Hcd) as [A [B [C _]]].
  destruct (set_dots h0 ctrls dots) as [h1 [x|]] eqn:E1; [discriminate A|]. cbn [fst snd andthen] in *.
  assert (Z : forall v, ~ In v ctrls -> bv_tlm (h1 v) = None).
  { intros v Hv. rewrite B by exact Hv. unfold h0, reset_tlm. rewrite reset_with_spec by reflexivity.
    destruct (mem v (vars_of bs)) eqn:Em; [reflexivity|]. apply mem_false in Em. auto. }
  assert (Sv : forall v, saved h1 v = saved hA v).
  { intros v. rewrite <- Hsv. transitivity (saved h0 v).
    - apply core_saved. pose proof (set_dots_core dots ctrls h0 v) as K. rewrite E1 in K. exact K.
    - unfold h0, saved, reset_tlm. rewrite reset_with_spec by reflexivity. destruct (mem v (vars_of bs)); reflexivity. }
  set (nodes := find_relevant bs ctrls).
  destruct (tlm_sweep_added (fun v => In v nodes) bs h1 hT') as [P [Q R]]; auto.
  { intros b d o Hb Hd Hn Ho. eapply find_relevant_upward; eauto. }
  { intros v Hv. destruct (in_dec Nat.eq_dec v ctrls) as [K|K]; [|exfalso; apply Hv; now apply Z]. now apply find_relevant_incl. }
  destruct (grad_spec F bs J ctrls adj hA Nc) as [Gs _]. rewrite Gs in G. clear Gs. fold nodes in G.
  set (r := padj F (fun v => bv_mark (hA v) || mem v nodes) (saved hA) bs (start_adj bs J adj hA)) in *.
  destruct (snd r) eqn:Es; [discriminate G|]. injection G as <-.
  destruct (padj_nodes F bs J ctrls adj hA Ht Hf Es) as [P1 Q1]. fold nodes in P1, Q1. fold r in Q1.
  rewrite (grad_added_pure bs J ctrls adj (saved hA) (fun v => val (bv_tlm (hT' v))) (fun v => val (bv_tlm (h1 v))) (fun v => mem v nodes) Ht Hnd Hcd); auto.
  - f_equal.
    + apply map_ext_in. intros c Hc. unfold grad_of. rewrite Q1 by now apply find_relevant_incl. reflexivity.
    + rewrite <- (map_map (fun v => bv_tlm (h1 v)) val). rewrite C, map_map. apply map_id.
  - intros v Hv. now rewrite Z.
  - intros v Hv. now rewrite Q.
  - intros b Hb. apply tlm_block_added_dual.
    + rewrite Forall_forall in Hsh. auto.
    + intros u Ek. exact (Hu b u Hb Ek).
    + intros d Hd K. apply in_split in Hb as [l1 [l2 ->]]. apply (topo_at _ _ _ Ht d Hd). unfold outs_of. cbn. apply in_app_iff. now left.
    + apply in_split in Hb as [l1 [l2 ->]]. unfold outs_of in Hnd. rewrite flat_map_app in Hnd. apply NoDup_app_r in Hnd. cbn in Hnd. now apply NoDup_app_l in Hnd.
    + intros d Hd. destruct (bv_tlm (hT' d)) eqn:Ev; [|reflexivity]. exfalso. apply mem_false in Hd. apply Hd, P. congruence.
    + intros d o Hd Ho Hm. apply mem_In. apply mem_In in Hm. eapply find_relevant_upward; eauto.
    + specialize (R b Hb). unfold tlms in R. rewrite (map_ext (saved hA) (saved h1)) by (intros; symmetry; apply Sv). exact R.
Qed.
End All.
