(** The tangent sweep: what it leaves in the tlm values, and its duality with the reverse sweep. *)
From Coq Require Import List Arith ZArith Lia Bool Ring.
From Verif Require Import Base Model BaseFacts Graph Record RecordFacts History Sweep SpecGraph Marks Dual.
Import ListNotations.

Section Tlm.
Context {V : Type} (F : fops V).
Implicit Types (bs : list (block V)) (b : block V) (h : heap V).

Definition oacc (o x : option V) : option V := match x with None => o | Some y => accum F o y end.

(** The tangent of output [idx] that a block of kind [k] computes from the tangents [ts]. *)
Definition tlm_val (k : kind V) (xs : list V) (ts : list (option V)) (idx : nat) : res (option V) :=
  match k with
  | KSub => do t0 <- nth_res ts 0; do t1 <- nth_res ts 1; Ok (oacc (oacc None t0) (option_map (f_neg F) t1))
  | KDiv => do x0 <- nth_res xs 0; do x1 <- nth_res xs 1; do t0 <- nth_res ts 0; do t1 <- nth_res ts 1;
      do a <- (match t0 with None => Ok None | Some x => do r <- f_div F (f_one F) x1; Ok (Some (f_mul F x r)) end);
      do c <- (match t1 with None => Ok None
               | Some x => do q <- (do p <- f_pow F x1 (f_two F); f_div F x0 p); Ok (Some (f_mul F x (f_neg F q))) end);
      Ok (oacc (oacc None a) c)
  | KPow => do x0 <- nth_res xs 0; do x1 <- nth_res xs 1; do t0 <- nth_res ts 0; do t1 <- nth_res ts 1;
      do a <- (match t0 with None => Ok None
               | Some x => do p <- f_pow F x0 (f_sub F x1 (f_one F)); Ok (Some (f_mul F (f_mul F x x1) p)) end);
      do c <- (match t1 with None => Ok None
               | Some x => do p <- f_pow F x0 x1; Ok (Some (f_mul F (f_mul F x (f_nplog F x0)) p)) end);
      Ok (oacc (oacc None a) c)
  | k => comp_tlm F k xs ts idx
  end.

Definition tlms h b := map (fun d => bv_tlm (h d)) (b_deps b).

(** What one successful block evaluation leaves behind. *)
Definition tlm_post h h' b : Prop :=
  (forall v, ~ In v (b_outs b) -> bv_tlm (h' v) = bv_tlm (h v)) /\
  (if existsb is_some (tlms h b)
   then forall k o, nth_error (b_outs b) k = Some o ->
        tlm_val (b_kind b) (map (saved h) (b_deps b)) (tlms h b) k = Ok (bv_tlm (h' o))
   else forall v, bv_tlm (h' v) = bv_tlm (h v)).

Lemma tlm_loop : forall k xs ts l i h h', NoDup l -> (forall o, In o l -> bv_tlm (h o) = None) ->
  iter_o (fun h' iv => match comp_tlm F k xs ts (fst iv) with
                       | Err e => (h', Some e) | Ok None => (h', None)
                       | Ok (Some x) => (upd h' (snd iv) (add_tlm F x), None) end) (enum_from i l) h = (h', None) ->
  (forall v, ~ In v l -> bv_tlm (h' v) = bv_tlm (h v)) /\
  (forall j o, nth_error l j = Some o -> comp_tlm F k xs ts (i + j) = Ok (bv_tlm (h' o))).
Proof.
  intros k xs ts l. induction l as [|o l IH]; intros i h h' Hn H0 E.
  - cbn in E. injection E as <-. split; [reflexivity|]. now intros [|j].
  - inversion Hn as [|? ? Ho Hn']; subst. cbn [enum_from iter_o fst snd] in E.
    assert (G : forall h1, (forall v, v <> o -> bv_tlm (h1 v) = bv_tlm (h v)) ->
       comp_tlm F k xs ts i = Ok (bv_tlm (h1 o)) ->
       iter_o (fun h' iv => match comp_tlm F k xs ts (fst iv) with
                       | Err e => (h', Some e) | Ok None => (h', None)
                       | Ok (Some x) => (upd h' (snd iv) (add_tlm F x), None) end) (enum_from (Datatypes.S i) l) h1 = (h', None) ->
       (forall v, ~ In v (o :: l) -> bv_tlm (h' v) = bv_tlm (h v)) /\
       (forall j u, nth_error (o :: l) j = Some u -> comp_tlm F k xs ts (i + j) = Ok (bv_tlm (h' u)))).
    { intros h1 Hf Hc E1. destruct (IH (Datatypes.S i) h1 h') as [A B]; auto.
      { intros u Hu. rewrite Hf; [apply H0; now right|]. intros ->. contradiction. }
      split.
      - intros v Hv. rewrite A by (intros K; apply Hv; now right). apply Hf. intros ->. apply Hv. now left.
      - intros [|j] u Hu; cbn in Hu.
        + injection Hu as <-. rewrite Nat.add_0_r, A by assumption. exact Hc.
        + replace (i + Datatypes.S j) with (Datatypes.S i + j) by lia. exact (B j u Hu). }
    destruct (comp_tlm F k xs ts i) as [[x|]|] eqn:Ec; [| |discriminate E].
    + apply (G (upd h o (add_tlm F x))); auto.
      * intros v Hv. unfold upd. destruct (Nat.eqb_spec v o); [contradiction|reflexivity].
      * unfold upd. rewrite Nat.eqb_refl. cbn. rewrite H0 by now left. reflexivity.
    + apply (G h); auto. rewrite H0 by now left. reflexivity.
Qed.

Lemma filter_all : forall (A : Type) (f : A -> bool) l, (forall x, In x l -> f x = true) -> filter f l = l.
Proof. induction l as [|x l IH]; intros H; [reflexivity|]. cbn. rewrite H by now left. f_equal. apply IH. intros; apply H; now right. Qed.

Lemma tlm_base_ok : forall m h b h', (b_kind b <> KSub /\ b_kind b <> KDiv /\ b_kind b <> KPow) -> NoDup (b_outs b) ->
  (existsb is_some (tlms h b) = true -> forall o, In o (b_outs b) -> bv_tlm (h o) = None /\ (m = true -> bv_mark (h o) = true)) ->
  tlm_block_base F m h b = (h', None) -> tlm_post h h' b.
Proof.
  intros m h b h' Hk Hn H0 E. unfold tlm_block_base in E. fold (tlms h b) in E. unfold tlm_post.
  destruct (existsb is_some (tlms h b)); cbn [negb] in E.
  - specialize (H0 eq_refl). unfold relevant in E. rewrite filter_all in E.
    2:{ intros [i o] Ho. apply enum_snd_In in Ho. cbn in *. destruct m; [|apply orb_true_r].
        rewrite (proj2 (H0 o Ho) eq_refl). reflexivity. }
    unfold enum in E. apply tlm_loop in E; [|exact Hn|intros o Ho; exact (proj1 (H0 o Ho))].
    destruct E as [A B]. split; [exact A|]. intros k o Ho.
    destruct (b_kind b); try (exact (B k o Ho)); exfalso; destruct Hk as [K1 [K2 K3]]; congruence.
  - injection E as <-. split; reflexivity.
Qed.

Lemma two : forall (l : list nat), length l = 2 -> exists x y, l = [x; y].
Proof. intros [|x [|y [|z l]]] H; try discriminate. eauto. Qed.
Lemma one : forall (l : list nat), length l = 1 -> exists x, l = [x].
Proof. intros [|x [|z l]] H; try discriminate. eauto. Qed.

Ltac upd_simp := unfold upd; repeat match goal with
  | |- context [Nat.eqb ?x ?x] => rewrite Nat.eqb_refl
  | H : ?x <> ?y |- context [Nat.eqb ?x ?y] => rewrite (proj2 (Nat.eqb_neq x y) H)
  end.

Lemma tlm_block_ok : forall m h b h', shaped b -> (forall d, In d (b_deps b) -> ~ In d (b_outs b)) -> NoDup (b_outs b) ->
  (existsb is_some (tlms h b) = true -> forall o, In o (b_outs b) -> bv_tlm (h o) = None /\ (m = true -> bv_mark (h o) = true)) ->
  tlm_block F m h b = (h', None) -> tlm_post h h' b.
Proof.
  intros m h b h' Hs Hd Hn H0 E. unfold tlm_block in E.
  destruct b as [k deps outs tag]. cbn [b_kind b_deps b_outs] in *. unfold shaped in Hs. cbn [b_kind b_deps b_outs] in Hs.
  destruct k; try (apply (tlm_base_ok m); cbn; auto; repeat split; discriminate).
  - (* Sub *)
    cbn in Hs. destruct Hs as [Hl Ho]. destruct (two _ Hl) as [t0 [t1 ->]].
    unfold tlm_sub, with_out, with_term in E. cbn [b_deps b_outs nth_error] in E.
    destruct outs as [|o [|? ?]]; [discriminate E| |cbn in Ho; lia]. cbn in E.
    assert (N0 : t0 <> o) by (intros ->; apply (Hd o); [left; reflexivity|left; reflexivity]).
    assert (N1 : t1 <> o) by (intros ->; apply (Hd o); [right; left; reflexivity|left; reflexivity]).
    unfold tlm_post, tlms in *. cbn [b_deps b_outs b_kind map existsb] in *.
    destruct (bv_tlm (h t0)) as [x0|] eqn:E0.
    + destruct (H0 eq_refl o (or_introl eq_refl)) as [Z _].
      replace (bv_tlm (upd h o (add_tlm F x0) t1)) with (bv_tlm (h t1)) in E by (upd_simp; reflexivity).
      destruct (bv_tlm (h t1)) as [x1|] eqn:E1; injection E as <-; cbn [is_some orb]; (split;
        [intros v Hv; assert (v <> o) by (intros ->; apply Hv; left; reflexivity); upd_simp; reflexivity|]);
      intros [|[|?]] u Hu; cbn in Hu; try discriminate; injection Hu as <-; upd_simp; cbn; rewrite Z; reflexivity.
    + destruct (bv_tlm (h t1)) as [x1|] eqn:E1; injection E as <-; cbn [is_some orb].
      * destruct (H0 eq_refl o (or_introl eq_refl)) as [Z _].
        split; [intros v Hv; assert (v <> o) by (intros ->; apply Hv; left; reflexivity); upd_simp; reflexivity|].
        intros [|[|?]] u Hu; cbn in Hu; try discriminate; injection Hu as <-; upd_simp; cbn; rewrite Z; reflexivity.
      * split; reflexivity.
  - (* Div *)
    cbn in Hs. destruct Hs as [Hl Ho]. destruct (two _ Hl) as [t0 [t1 ->]].
    unfold tlm_div, with_out, with_term in E. cbn [b_deps b_outs nth_error] in E.
    destruct outs as [|o [|? ?]]; [discriminate E| |cbn in Ho; lia].
    assert (N0 : t0 <> o) by (intros ->; apply (Hd o); [left; reflexivity|left; reflexivity]).
    assert (N1 : t1 <> o) by (intros ->; apply (Hd o); [right; left; reflexivity|left; reflexivity]).
    unfold tlm_post, tlms, tlm_val in *. cbn [b_deps b_outs b_kind map existsb] in *. unfold with_val in E. cbn [nth_res bind].
    destruct (bv_tlm (h t0)) as [x0|] eqn:E0.
    + destruct (H0 eq_refl o (or_introl eq_refl)) as [Z _].
      destruct (f_div F (f_one F) (saved h t1)) as [r|] eqn:Ed; [|discriminate E]. cbn [andthen] in E.
      replace (bv_tlm (upd h o (add_tlm F (f_mul F x0 r)) t1)) with (bv_tlm (h t1)) in E by (upd_simp; reflexivity).
      rewrite !saved_upd_other in E by assumption.
      destruct (bv_tlm (h t1)) as [x1|] eqn:E1.
      * cbn [bind] in E. destruct (do p <- f_pow F (saved h t1) (f_two F); f_div F (saved h t0) p) as [q|] eqn:Eq; [|discriminate E].
        injection E as <-; cbn [is_some orb]. split;
        [intros v Hv; assert (v <> o) by (intros ->; apply Hv; left; reflexivity); upd_simp; reflexivity|].
        intros [|[|?]] u Hu; cbn in Hu; try discriminate; injection Hu as <-; cbn [nth_res nth_error bind]; rewrite Ed, Eq; cbn [bind]; upd_simp; cbn; rewrite Z; reflexivity.
      * injection E as <-; cbn [is_some orb]. split;
        [intros v Hv; assert (v <> o) by (intros ->; apply Hv; left; reflexivity); upd_simp; reflexivity|].
        intros [|[|?]] u Hu; cbn in Hu; try discriminate; injection Hu as <-; cbn [nth_res nth_error bind]; rewrite Ed; cbn [bind]; upd_simp; cbn; rewrite Z; reflexivity.
    + cbn [andthen] in E. destruct (bv_tlm (h t1)) as [x1|] eqn:E1.
      * destruct (H0 eq_refl o (or_introl eq_refl)) as [Z _].
        destruct (do p <- f_pow F (saved h t1) (f_two F); f_div F (saved h t0) p) as [q|] eqn:Eq; [|discriminate E].
        injection E as <-; cbn [is_some orb]. split;
        [intros v Hv; assert (v <> o) by (intros ->; apply Hv; left; reflexivity); upd_simp; reflexivity|].
        intros [|[|?]] u Hu; cbn in Hu; try discriminate; injection Hu as <-; cbn [nth_res nth_error bind]; rewrite Eq; cbn [bind]; upd_simp; cbn; rewrite Z; reflexivity.
      * injection E as <-. cbn. split; reflexivity.
  - (* Pow *)
    cbn in Hs. destruct Hs as [Hl Ho]. destruct (two _ Hl) as [t0 [t1 ->]].
    unfold tlm_pow, with_out, with_term in E. cbn [b_deps b_outs nth_error] in E.
    destruct outs as [|o [|? ?]]; [discriminate E| |cbn in Ho; lia].
    assert (N0 : t0 <> o) by (intros ->; apply (Hd o); [left; reflexivity|left; reflexivity]).
    assert (N1 : t1 <> o) by (intros ->; apply (Hd o); [right; left; reflexivity|left; reflexivity]).
    unfold tlm_post, tlms, tlm_val in *. cbn [b_deps b_outs b_kind map existsb] in *. unfold with_val in E. cbn [nth_res bind].
    destruct (bv_tlm (h t0)) as [x0|] eqn:E0.
    + destruct (H0 eq_refl o (or_introl eq_refl)) as [Z _].
      destruct (f_pow F (saved h t0) (f_sub F (saved h t1) (f_one F))) as [r|] eqn:Ed; [|discriminate E]. cbn [andthen] in E.
      replace (bv_tlm (upd h o (add_tlm F (f_mul F (f_mul F x0 (saved h t1)) r)) t1)) with (bv_tlm (h t1)) in E by (upd_simp; reflexivity).
      destruct (bv_tlm (h t1)) as [x1|] eqn:E1.
      * destruct (f_pow F (saved h t0) (saved h t1)) as [q|] eqn:Eq; [|discriminate E].
        injection E as <-; cbn [is_some orb]. split;
        [intros v Hv; assert (v <> o) by (intros ->; apply Hv; left; reflexivity); upd_simp; reflexivity|].
        intros [|[|?]] u Hu; cbn in Hu; try discriminate; injection Hu as <-; cbn [nth_res nth_error bind]; rewrite Ed, Eq; cbn [bind]; upd_simp; cbn; rewrite Z; reflexivity.
      * injection E as <-; cbn [is_some orb]. split;
        [intros v Hv; assert (v <> o) by (intros ->; apply Hv; left; reflexivity); upd_simp; reflexivity|].
        intros [|[|?]] u Hu; cbn in Hu; try discriminate; injection Hu as <-; cbn [nth_res nth_error bind]; rewrite Ed; cbn [bind]; upd_simp; cbn; rewrite Z; reflexivity.
    + cbn [andthen] in E. destruct (bv_tlm (h t1)) as [x1|] eqn:E1.
      * destruct (H0 eq_refl o (or_introl eq_refl)) as [Z _].
        destruct (f_pow F (saved h t0) (saved h t1)) as [q|] eqn:Eq; [|discriminate E].
        injection E as <-; cbn [is_some orb]. split;
        [intros v Hv; assert (v <> o) by (intros ->; apply Hv; left; reflexivity); upd_simp; reflexivity|].
        intros [|[|?]] u Hu; cbn in Hu; try discriminate; injection Hu as <-; cbn [nth_res nth_error bind]; rewrite Eq; cbn [bind]; upd_simp; cbn; rewrite Z; reflexivity.
      * injection E as <-. cbn. split; reflexivity.
Qed.

Lemma tlms_ext : forall h h' b, (forall d, In d (b_deps b) -> bv_tlm (h' d) = bv_tlm (h d)) -> tlms h' b = tlms h b.
Proof. intros h h' b H. unfold tlms. apply map_ext_in. exact H. Qed.

(** The whole sweep, for an upward closed set [N] of variables that contains everything with a tangent. *)
Lemma tlm_sweep : forall m cut (N : nat -> Prop) bs h h', topo bs -> NoDup (outs_of bs) -> Forall shaped bs ->
  (forall b d o, In b bs -> In d (b_deps b) -> N d -> In o (b_outs b) -> N o) ->
  (forall b d, In b bs -> existsb cut (b_outs b) = true -> In d (b_deps b) -> ~ N d) ->
  (forall v, bv_tlm (h v) <> None -> N v) ->
  (forall b o, In b bs -> existsb cut (b_outs b) = false -> In o (b_outs b) -> bv_tlm (h o) = None) ->
  (m = true -> forall v, N v -> bv_mark (h v) = true) ->
  evaluate_tlm F bs m h = (h', None) ->
  (forall v, bv_tlm (h' v) <> None -> N v) /\
  (forall v, ~ In v (computed cut bs) -> bv_tlm (h' v) = bv_tlm (h v)) /\
  (forall b, In b bs -> existsb cut (b_outs b) = false ->
     if existsb is_some (tlms h' b)
     then forall k o, nth_error (b_outs b) k = Some o ->
          tlm_val (b_kind b) (map (saved h) (b_deps b)) (tlms h' b) k = Ok (bv_tlm (h' o))
     else forall o, In o (b_outs b) -> bv_tlm (h' o) = None).
Proof.
  intros m cut N bs. induction bs as [|b r IH]; intros h h' Ht Hnd Hsh Hup Hcut HN H0 Hm E.
  - cbn in E. injection E as <-. repeat split; auto. easy.
  - unfold evaluate_tlm in E. cbn [iter_o] in E. destruct (tlm_block F m h b) as [h1 [x|]] eqn:Eb; [discriminate E|].
    inversion Hsh as [|? ? Hsb Hsr]; subst.
    assert (Hdo : forall d, In d (b_deps b) -> ~ In d (outs_of (b :: r))) by exact (proj1 Ht).
    assert (Hob : NoDup (b_outs b)) by exact (NoDup_app_l _ _ _ Hnd).
    assert (Hor : NoDup (outs_of r)) by exact (NoDup_app_r _ _ _ Hnd).
    assert (Hdis : forall o, In o (b_outs b) -> ~ In o (outs_of r)).
    { intros o Ho K. clear - Hnd Ho K. unfold outs_of in Hnd. cbn in Hnd. fold (outs_of r) in Hnd.
      induction (b_outs b) as [|x l IHl]; [exact Ho|]. cbn in Hnd. inversion Hnd as [|? ? Hx Hnd']; subst.
      destruct Ho as [->|Ho]; [apply Hx; apply in_app_iff; now right|auto]. }
    assert (P : tlm_post h h1 b).
    { apply (tlm_block_ok m); auto.
      - intros d Hd K. apply (Hdo d Hd). unfold outs_of. cbn. apply in_app_iff. now left.
      - intros Hx o Ho. apply existsb_exists in Hx as [y [Hy Hy2]]. unfold tlms in Hy. apply in_map_iff in Hy as [d [Ey Hd]].
        assert (Nd : N d) by (apply HN; rewrite Ey; destruct y; [discriminate|discriminate Hy2]).
        split.
        + apply (H0 b o (or_introl eq_refl)); auto. destruct (existsb cut (b_outs b)) eqn:Ec; [|reflexivity].
          exfalso. exact (Hcut b d (or_introl eq_refl) Ec Hd Nd).
        + intros Em. apply (Hm Em). eapply Hup; eauto. now left. }
    destruct P as [P1 P2].
    assert (K : forall v, saved h1 v = saved h v /\ bv_mark (h1 v) = bv_mark (h v)).
    { intros v. split.
      - pose proof (tlm_block_core F m h b v) as C. rewrite Eb in C. now apply core_saved.
      - pose proof (tlm_block_keeps F (@bv_mark V) ltac:(reflexivity) m h b v) as C. rewrite Eb in C. exact C. }
    assert (N1 : forall v, bv_tlm (h1 v) <> None -> N v).
    { intros v Hv. destruct (existsb is_some (tlms h b)) eqn:Ex; [|apply HN; now rewrite <- P2].
      destruct (in_dec Nat.eq_dec v (b_outs b)) as [Hi|Hi]; [|apply HN; now rewrite <- P1].
      apply existsb_exists in Ex as [y [Hy Hy2]]. unfold tlms in Hy. apply in_map_iff in Hy as [d [Ey Hd]].
      apply (Hup b d v (or_introl eq_refl) Hd); auto. apply HN. rewrite Ey. destruct y; [discriminate|discriminate Hy2]. }
    destruct (IH h1 h') as [A [B C]]; auto.
    { exact (proj2 Ht). }
    { intros b' d o Hb'. apply Hup. now right. }
    { intros b' d Hb'. apply Hcut. now right. }
    { intros b' o Hb' Hc Ho. rewrite P1.
      - apply (H0 b' o); auto. now right.
      - intros K2. apply (Hdis o K2). unfold outs_of. apply in_flat_map. eauto. }
    { intros Em v Hv. rewrite (proj2 (K v)). auto. }
    assert (Bb : forall v, ~ In v (outs_of r) -> bv_tlm (h' v) = bv_tlm (h1 v)).
    { intros v Hv. apply B. intros K2. apply Hv. exact (computed_outs _ _ _ K2). }
    assert (Td : tlms h' b = tlms h b).
    { apply tlms_ext. intros d Hd. pose proof (Hdo d Hd) as K2. unfold outs_of in K2. cbn in K2. rewrite in_app_iff in K2.
      rewrite Bb by (unfold outs_of; tauto). apply P1. tauto. }
    split; [exact A|]. split.
    + intros v Hv. unfold computed in Hv. cbn [flat_map] in Hv. fold (computed cut r) in Hv.
      destruct (existsb cut (b_outs b)) eqn:Ec.
      * cbn in Hv. rewrite B by exact Hv.
        assert (Ex : existsb is_some (tlms h b) = false).
        { destruct (existsb is_some (tlms h b)) eqn:Ex; [|reflexivity]. exfalso.
          apply existsb_exists in Ex as [y [Hy Hy2]]. unfold tlms in Hy. apply in_map_iff in Hy as [d [Ey Hd]].
          apply (Hcut b d (or_introl eq_refl) Ec Hd). apply HN. rewrite Ey. destruct y; [discriminate|discriminate Hy2]. }
        rewrite Ex in P2. apply P2.
      * rewrite in_app_iff in Hv. rewrite B by tauto. apply P1. tauto.
    + intros b' [<-|Hb'] Hc.
      * rewrite Td. destruct (existsb is_some (tlms h b)) eqn:Ex.
        -- intros k o Ho. rewrite (P2 k o Ho). f_equal. symmetry. apply Bb. apply Hdis. eapply nth_error_In; eauto.
        -- intros o Ho. rewrite Bb by now apply Hdis. rewrite P2. apply (H0 b o (or_introl eq_refl) Hc Ho).
      * replace (map (saved h) (b_deps b')) with (map (saved h1) (b_deps b')) by (apply map_ext; intros v; apply K).
        exact (C b' Hb' Hc).
Qed.

End Tlm.

(** ** Duality *)
Section TlmDual.
Context {V : Type} (F : fops V).
Hypothesis Rth : ring_theory (f_zero F) (f_one F) (f_add F) (f_mul F) (f_sub F) (f_neg F) eq.
(** Division is by one and the same factor: (a/x) t = a (t/x). *)
Hypothesis Hdiv : forall a t x r s, f_div F a x = Ok r -> f_div F t x = Ok s -> f_mul F r t = f_mul F a s.
Add Ring VRing2 : Rth.
Implicit Types (bs : list (block V)) (b : block V) (h : heap V).
Notation val := (val F).
Notation dot := (dot F).

(** A user block whose adjoint component is the transpose of its tangent component. *)
Fixpoint user_pairing (u : ublock V) (xs : list V) (ins : list (option V)) (l : list (nat * option V)) : V :=
  match l with
  | [] => f_zero F
  | (i, Some x) :: r =>
      match u_adj u xs ins i with
      | Ok o => f_add F (f_mul F (val o) x) (user_pairing u xs ins r)
      | Err _ => user_pairing u xs ins r
      end
  | (_, None) :: r => user_pairing u xs ins r
  end.
Definition user_dual (u : ublock V) : Prop :=
  forall xs ts ins os, existsb is_some ts = true -> existsb is_some ins = true ->
    length ts = length xs -> length os = length ins ->
    (forall k o, nth_error os k = Some o -> u_tlm u xs ts k = Ok o) ->
    (forall i x, nth_error ts i = Some (Some x) -> exists o, u_adj u xs ins i = Ok o) ->
    user_pairing u xs ins (enum ts) = dot (map val ins) (map val os).
Definition users_dual bs : Prop := forall b u, In b bs -> b_kind b = KUser u -> user_dual u.

Lemma contrib_null : forall k xs ins t l, (forall p, In p l -> t (snd p) = f_zero F) -> contrib F k xs ins t l = f_zero F.
Proof.
  induction l as [|[i d] l IH]; intros H; [reflexivity|]. cbn. rewrite IH by (intros; apply H; now right).
  pose proof (H (i, d) (or_introl eq_refl)) as E. cbn in E. rewrite E. destruct (comp_adj F k xs ins i); ring.
Qed.
Lemma dot_null : forall ins (t : nat -> V) l, (forall o, In o l -> t o = f_zero F) -> dot ins (map t l) = f_zero F.
Proof.
  induction ins as [|a ins IH]; intros t [|o l] H; try reflexivity. cbn. rewrite IH by (intros; apply H; now right).
  rewrite H by now left. ring.
Qed.

Lemma user_contrib : forall u xs ins mk (tau : nat -> option V) l i,
  (forall d, mk d = false -> tau d = None) ->
  contrib F (KUser u) xs ins (fun v => val (tau v)) (filter (fun iv => mk (snd iv)) (enum_from i l)) =
  user_pairing u xs ins (enum_from i (map tau l)).
Proof.
  intros u xs ins mk tau l. induction l as [|d l IH]; intros i Hm; [reflexivity|].
  cbn [enum_from filter map snd]. destruct (mk d) eqn:Em.
  - cbn [contrib user_pairing comp_adj]. rewrite IH by exact Hm. destruct (tau d) as [x|].
    + cbn. destruct (u_adj u xs ins i); reflexivity.
    + cbn. destruct (u_adj u xs ins i); ring.
  - rewrite (Hm d Em). cbn [user_pairing]. apply IH. exact Hm.
Qed.

(** Tangents as computed by a block are dual to its adjoint components. *)
Lemma tlm_block_dual : forall mk e (tau : nat -> option V) b, shaped b ->
  (forall u, b_kind b = KUser u -> user_dual u) ->
  (forall d, mk d = false -> tau d = None) ->
  (if existsb is_some (map tau (b_deps b))
   then forall k o, nth_error (b_outs b) k = Some o -> tlm_val F (b_kind b) (map e (b_deps b)) (map tau (b_deps b)) k = Ok (tau o)
   else forall o, In o (b_outs b) -> tau o = None) ->
  block_dual F mk e (fun v => val (tau v)) b.
Proof.
  intros mk e tau b Hs Hu Hmk Ht ins Hl Hi Hc.
  destruct (existsb is_some (map tau (b_deps b))) eqn:Ex.
  2:{ rewrite contrib_null.
      - symmetry. apply dot_null. intros o Ho. now rewrite (Ht o Ho).
      - intros p Hp. unfold marked in Hp. apply filter_In in Hp as [Hp _]. apply enum_snd_In in Hp.
        assert (K : tau (snd p) = None).
        { destruct (tau (snd p)) eqn:E; [|reflexivity]. exfalso.
          assert (existsb is_some (map tau (b_deps b)) = true) by (apply existsb_exists; exists (tau (snd p)); split; [now apply in_map|now rewrite E]).
          congruence. }
        now rewrite K. }
  destruct b as [k deps outs tag]. unfold shaped in Hs. cbn [b_kind b_deps b_outs] in *.
  destruct k.
  11:{ (* user *)
    unfold marked, enum. rewrite user_contrib by exact Hmk. fold (enum (map tau deps)).
    rewrite (Hu u eq_refl (map e deps) (map tau deps) ins (map tau outs)); auto.
    - now rewrite map_map.
    - now rewrite !map_length.
    - now rewrite map_length.
    - intros j o Ho. rewrite nth_error_map in Ho. destruct (nth_error outs j) as [v|] eqn:Ej; [|discriminate]. injection Ho as <-.
      exact (Ht j v Ej).
    - intros i x Hx. rewrite nth_error_map in Hx. destruct (nth_error deps i) as [d|] eqn:Ed; [|discriminate]. injection Hx as Hx.
      apply (Hc (i, d)). unfold marked. apply filter_In. split.
      + apply enum_In. exact Ed.
      + cbn. destruct (mk d) eqn:E; [reflexivity|]. rewrite (Hmk d E) in Hx. discriminate. }
  all: destruct Hs as [Hdl Hol]; destruct outs as [|o [|? ?]]; [destruct ins; [discriminate Hi|discriminate Hl]| |cbn in Hol; lia];
    destruct ins as [|[a|] [|? ?]]; try discriminate Hl; try discriminate Hi; clear Hl Hi Hol Hu;
    specialize (Ht 0 o eq_refl); cbn [arity] in Hdl.
  all: try (destruct (two _ Hdl) as [d0 [d1 ->]]); try (destruct (one _ Hdl) as [d0 ->]); clear Hdl;
    unfold marked, enum in *; cbn [enum_from filter snd map existsb] in *;
    pose proof (Hmk d0) as M0; try pose proof (Hmk d1) as M1; clear Hmk.
  all: destruct (mk d0); [|rewrite (M0 eq_refl) in *]; try (destruct (mk d1); [|rewrite (M1 eq_refl) in *]); clear M0; try clear M1;
    try discriminate Ex; cbn [contrib] in *.
  all: try (destruct (Hc (0, d0) ltac:(left; reflexivity)) as [c0 E0]; cbn in E0);
    try (destruct (Hc (1, d1) ltac:(right; left; reflexivity)) as [c1 E1]; cbn in E1);
    try (destruct (Hc (1, d1) ltac:(left; reflexivity)) as [c1 E1]; cbn in E1); clear Hc.
  all: cbn in Ht |- *; destruct (tau d0) as [x0|]; try destruct (tau d1) as [x1|]; try discriminate Ex; cbn in Ht |- *.
  all: repeat match goal with
    | |- context [f_le F ?x ?y] => destruct (f_le F x y); cbn in *
    | H : Ok _ = Ok _ |- _ => injection H as H
    | H : Err _ = Ok _ |- _ => discriminate H
    | H : context [bind ?x _] |- _ => destruct x eqn:?; cbn in *
    end.
  all: try (rewrite <- Ht; cbn; try ring).
  rewrite <- (Hdiv _ _ _ _ _ Heqr Heqr0). ring.
Qed.

(** Setting the directions of the controls. *)
Lemma set_dots_spec : forall dots ctrls h, length dots = length ctrls -> NoDup ctrls ->
  snd (set_dots h ctrls dots) = None /\
  (forall v, ~ In v ctrls -> fst (set_dots h ctrls dots) v = h v) /\
  map (fun c => bv_tlm (fst (set_dots h ctrls dots) c)) ctrls = map Some dots /\
  (forall v, bv_mark (fst (set_dots h ctrls dots) v) = bv_mark (h v)).
Proof.
  induction dots as [|d dots IH]; intros [|c ctrls] h Hl Hn; try discriminate Hl; [repeat split|].
  inversion Hn as [|? ? Hc Hn']; subst. cbn [set_dots].
  destruct (IH ctrls (upd h c (set_tlm (Some d))) ltac:(now injection Hl) Hn') as [A [B [C D]]].
  split; [exact A|]. split; [|split].
  - intros v Hv. rewrite B by (intros K; apply Hv; now right). unfold upd. destruct (Nat.eqb_spec v c) as [->|]; [|reflexivity].
    exfalso. apply Hv. now left.
  - cbn [map]. rewrite C. f_equal. rewrite B by exact Hc. unfold upd. now rewrite Nat.eqb_refl.
  - intros v. rewrite D. unfold upd. destruct (Nat.eqb v c); reflexivity.
Qed.

(** The documented way to use the tangent-linear model: clear the old tangents, set the directions
    of the controls, sweep (tape.reset_tlm_values; control.tlm_value = h; tape.evaluate_tlm). *)
Definition run_tlm bs (ctrls : list nat) (dots : list V) h : heap V * option exn :=
  andthen (set_dots (reset_tlm bs h) ctrls dots) (evaluate_tlm F bs false).

(** A variable that is neither on the tape nor a control carries no old tangent. *)
Definition tlm_clean bs (ctrls : list nat) h := forall v, ~ In v (vars_of bs) -> ~ In v ctrls -> bv_tlm (h v) = None.

Lemma run_tlm_spec : forall bs ctrls dots h h', topo bs -> NoDup (outs_of bs) -> Forall shaped bs ->
  NoDup ctrls -> independent bs ctrls -> length dots = length ctrls -> tlm_clean bs ctrls h ->
  run_tlm bs ctrls dots h = (h', None) ->
  (forall v, bv_tlm (h' v) <> None -> In v (find_relevant bs ctrls)) /\
  map (fun c => bv_tlm (h' c)) ctrls = map Some dots /\
  (forall b, In b bs -> existsb (fun v => mem v ctrls) (b_outs b) = false ->
     if existsb is_some (tlms h' b)
     then forall k o, nth_error (b_outs b) k = Some o ->
          tlm_val F (b_kind b) (map (saved h) (b_deps b)) (tlms h' b) k = Ok (bv_tlm (h' o))
     else forall o, In o (b_outs b) -> bv_tlm (h' o) = None).
Proof.
  intros bs ctrls dots h h' Ht Hnd Hsh Hcd Hi Hl Hcl E. unfold run_tlm in E.
  set (h0 := reset_tlm bs h) in *.
  destruct (set_dots_spec dots ctrls h0 Hl Hcd) as [A [B [C D]]].
  destruct (set_dots h0 ctrls dots) as [h1 [x|]] eqn:E1; [discriminate A|]. cbn [fst snd andthen] in *.
  assert (Z : forall v, ~ In v ctrls -> bv_tlm (h1 v) = None).
  { intros v Hv. rewrite B by exact Hv. unfold h0, reset_tlm. rewrite reset_with_spec by reflexivity.
    destruct (mem v (vars_of bs)) eqn:Em; [reflexivity|]. apply mem_false in Em. auto. }
  assert (Sv : forall v, saved h1 v = saved h v).
  { intros v. transitivity (saved h0 v).
    - apply core_saved. pose proof (set_dots_core dots ctrls h0 v) as K. rewrite E1 in K. exact K.
    - unfold h0, saved, reset_tlm. rewrite reset_with_spec by reflexivity. destruct (mem v (vars_of bs)); reflexivity. }
  destruct (tlm_sweep F false (fun v => mem v ctrls) (fun v => In v (find_relevant bs ctrls)) bs h1 h') as [P [Q R]]; auto.
  - intros b d o Hb Hd Hn Ho. eapply find_relevant_upward; eauto.
  - intros b d Hb Hc Hd. eapply cut_unmarked; eauto.
  - intros v Hv. destruct (in_dec Nat.eq_dec v ctrls) as [K|K]; [|exfalso; apply Hv; now apply Z]. now apply find_relevant_incl.
  - intros b o Hb Hc Ho. apply Z. intros K. assert (existsb (fun v => mem v ctrls) (b_outs b) = true); [|congruence].
    apply existsb_exists. exists o. split; [exact Ho|]. now apply mem_In.
  - intros K. discriminate K.
  - split; [exact P|]. split.
    + rewrite <- C. apply map_ext_in. intros c Hc. apply Q. intros K. apply computed_not_cut in K.
      cbn in K. apply mem_false in K. contradiction.
    + intros b Hb Hc. specialize (R b Hb Hc). rewrite (map_ext (saved h) (saved h1)) by (intros; symmetry; apply Sv). exact R.
Qed.

(** Duality of the gradient with any tangent. *)
Lemma grad_dual : forall bs J ctrls adj h g t, topo bs -> NoDup (outs_of bs) -> NoDup ctrls -> independent bs ctrls ->
  no_ctrl h -> fresh_ctrls bs J ctrls h ->
  let nodes := find_relevant bs ctrls in
  (forall v, ~ In v nodes -> t v = f_zero F) ->
  (forall b, In b bs -> existsb (fun v => mem v ctrls) (b_outs b) = false -> block_dual F (fun v => mem v nodes) (saved h) t b) ->
  snd (compute_gradient F bs J ctrls adj h) = Ok g ->
  f_mul F adj (t J) = dot g (map t ctrls).
Proof.
  intros bs J ctrls adj h g t Ht Hnd Hcd Hi Nc Hf nodes Hz Hb G.
  destruct (grad_spec F bs J ctrls adj h Nc) as [A _]. rewrite A in G. clear A. fold nodes in G.
  set (r := padj F (fun v => bv_mark (h v) || mem v nodes) (saved h) bs (start_adj bs J adj h)) in *.
  destruct (snd r) eqn:Es; [discriminate G|]. injection G as <-.
  destruct (padj_nodes F bs J ctrls adj h Ht Hf Es) as [P Q].
  rewrite (grad_dual_pure F Rth bs J ctrls adj (saved h) t Ht Hnd Hcd Hi Hz Hb P).
  f_equal. apply map_ext_in. intros c Hc. unfold grad_of. fold nodes in Q. fold r in Q. rewrite Q by now apply find_relevant_incl.
  reflexivity.
Qed.

(** C09. *)
Lemma adjoint_tangent_duality : forall bs J ctrls adj dots hA hT hT' g,
  wf_tape bs -> Forall shaped bs -> users_dual bs -> NoDup ctrls -> independent bs ctrls -> length dots = length ctrls ->
  no_ctrl hA -> fresh_ctrls bs J ctrls hA -> tlm_clean bs ctrls hT -> (forall v, saved hT v = saved hA v) ->
  snd (compute_gradient F bs J ctrls adj hA) = Ok g ->
  run_tlm bs ctrls dots hT = (hT', None) ->
  f_mul F adj (val (bv_tlm (hT' J))) = dot g dots.
Proof.
  intros bs J ctrls adj dots hA hT hT' g [Ht Hnd] Hsh Hu Hcd Hi Hl Nc Hf Hcl Hsv G E.
  destruct (run_tlm_spec bs ctrls dots hT hT' Ht Hnd Hsh Hcd Hi Hl Hcl E) as [P [Q R]].
  assert (Ed : map (fun v => val (bv_tlm (hT' v))) ctrls = dots).
  { rewrite <- (map_map (fun v => bv_tlm (hT' v)) val). rewrite Q, map_map. apply map_id. }
  rewrite <- Ed. apply (grad_dual bs J ctrls adj hA g (fun v => val (bv_tlm (hT' v)))); auto.
  - intros v Hv. destruct (bv_tlm (hT' v)) eqn:Ev; [|reflexivity]. exfalso. apply Hv. apply P. congruence.
  - intros b Hb Hc. apply (tlm_block_dual _ _ (fun v => bv_tlm (hT' v))).
    + rewrite Forall_forall in Hsh. auto.
    + intros u Ek. exact (Hu b u Hb Ek).
    + intros d Hd. destruct (bv_tlm (hT' d)) eqn:Ev; [|reflexivity]. exfalso. apply mem_false in Hd. apply Hd, P. congruence.
    + specialize (R b Hb Hc). unfold tlms in R. rewrite (map_ext (saved hA) (saved hT)) by (intros; symmetry; apply Hsv). exact R.
Qed.


End TlmDual.
