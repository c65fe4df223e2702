(** Pure value semantics of a block list (no heap, checkpoints, flags), and the facts linking
    recomputation to it. *)
From Coq Require Import List Arith ZArith Lia Bool.
From Verif Require Import Base Model BaseFacts.
Import ListNotations.

Section Graph.
Context {V : Type} (F : fops V).
Implicit Types h : heap V.

Definition env := nat -> V.
Definition eset (e : env) (v : nat) (x : V) : env := fun w => if Nat.eqb w v then x else e w.
Definition env_eq (e1 e2 : env) := forall v, e1 v = e2 v.

(** One block: each output is the operation applied to the inputs, unless one of the outputs is
    cut (a control), in which case the block is skipped. *)
Definition geval_block (cut : nat -> bool) (e : env) (b : block V) : env * option exn :=
  if existsb cut (b_outs b) then (e, None)
  else
    let inputs := map e (b_deps b) in
    iter_o (fun e' io =>
              match comp_recompute F (b_kind b) inputs (fst io) with
              | Err x => (e', Some x)
              | Ok None => (e', None)
              | Ok (Some x) => (eset e' (snd io) x, None)
              end) (enum (b_outs b)) e.

Definition geval (cut : nat -> bool) (bs : list (block V)) (e : env) : env * option exn :=
  iter_o (geval_block cut) bs e.

(** ** Recomputation on a heap computes [geval] on saved values. *)

Lemma saved_ckpt : forall h v x, bv_ckpt (h v) = Some x -> saved h v = x.
Proof. intros h v x H. unfold saved. now rewrite H. Qed.

Lemma saved_upd_other : forall h v f w, w <> v -> saved (upd h v f) w = saved h w.
Proof. intros. unfold saved. now rewrite upd_other. Qed.

(** What recomputation leaves alone. *)
Definition erase_ckpt (b : bvar V) := set_ckpt None false b.

Lemma put_ckpt_erase : forall x r (b : bvar V), erase_ckpt (put_ckpt x r b) = erase_ckpt b.
Proof. intros. unfold put_ckpt. destruct (bv_ctrl b); reflexivity. Qed.
Lemma erase_ckpt_ctrl : forall b1 b2, erase_ckpt b1 = erase_ckpt b2 -> bv_ctrl b1 = bv_ctrl b2.
Proof. intros b1 b2 H. now injection H. Qed.

Lemma recompute_block_erase : forall h b h' e, recompute_block F h b = (h', e) ->
  forall v, erase_ckpt (h' v) = erase_ckpt (h v).
Proof.
  intros h b h' e H. unfold recompute_block in H.
  destruct (existsb _ _); [now inversion H|].
  refine (iter_o_inv _ (fun h1 => forall v, erase_ckpt (h1 v) = erase_ckpt (h v)) _ _ _ _ _ _ H); [|auto].
  intros s x s' e' _ Hs Hf v.
  destruct (comp_recompute _ _ _ _) as [[y|]|]; inversion Hf; subst; auto.
  rewrite upd_erase; [apply Hs|]. intros. apply put_ckpt_erase.
Qed.

Lemma recompute_all_erase : forall bs h h' e, recompute_all F bs h = (h', e) ->
  forall v, erase_ckpt (h' v) = erase_ckpt (h v).
Proof.
  intros bs h h' e H.
  refine (iter_o_inv _ (fun h1 => forall v, erase_ckpt (h1 v) = erase_ckpt (h v)) _ _ _ _ _ _ H); [|auto].
  intros s x s' e' _ Hs Hf v. rewrite (recompute_block_erase _ _ _ _ Hf). apply Hs.
Qed.

Definition same_ctrl h h' := forall v, bv_ctrl (h v) = bv_ctrl (h' v).

Lemma recompute_block_geval : forall h e cut b,
  (forall v, bv_ctrl (h v) = cut v) ->
  (forall v, saved h v = e v) ->
  snd (recompute_block F h b) = snd (geval_block cut e b) /\
  (forall v, saved (fst (recompute_block F h b)) v = fst (geval_block cut e b) v) /\
  (forall v, bv_ctrl (fst (recompute_block F h b) v) = cut v).
Proof.
  intros h e cut b Hc Hs. unfold recompute_block, geval_block.
  replace (existsb (fun o => bv_ctrl (h o)) (b_outs b)) with (existsb cut (b_outs b)).
  2:{ clear - Hc. induction (b_outs b) as [|o r IH]; cbn; [reflexivity|]. now rewrite Hc, IH. }
  destruct (existsb cut (b_outs b)) eqn:Hcut; [cbn; auto|].
  replace (map (saved h) (b_deps b)) with (map e (b_deps b)) by (apply map_ext; intros; now rewrite Hs).
  set (inputs := map e (b_deps b)).
  assert (Hno : forall o, In o (b_outs b) -> cut o = false).
  { intros o Ho. destruct (cut o) eqn:Hx; [|reflexivity].
    assert (existsb cut (b_outs b) = true) by (apply existsb_exists; eauto). congruence. }
  pose proof (iter_o_sim
    (fun h' (io : nat * nat) =>
              match comp_recompute F (b_kind b) inputs (fst io) with
              | Err e0 => (h', Some e0)
              | Ok None => (h', None)
              | Ok (Some x) => (upd h' (snd io) (put_ckpt (Some x) (raw_result (b_kind b))), None)
              end)
    (fun e' (io : nat * nat) =>
              match comp_recompute F (b_kind b) inputs (fst io) with
              | Err x => (e', Some x)
              | Ok None => (e', None)
              | Ok (Some x) => (eset e' (snd io) x, None)
              end)
    (fun h1 e1 => (forall v, saved h1 v = e1 v) /\ (forall v, bv_ctrl (h1 v) = cut v))
    (enum (b_outs b)) h e) as S.
  destruct S as [S1 S2].
  - intros h1 e1 [i o] Hin [R1 R2]. cbn [fst snd].
    destruct (comp_recompute F (b_kind b) inputs i) as [[x|]|]; cbn; auto.
    split; [reflexivity|]. apply enum_snd_In in Hin. cbn in Hin.
    split.
    + intros v. unfold eset. destruct (Nat.eqb_spec v o) as [->|Hne].
      * apply saved_ckpt. rewrite upd_same. unfold put_ckpt. rewrite R2, Hno by assumption. reflexivity.
      * rewrite saved_upd_other by assumption. apply R1.
    + intros v. unfold upd. destruct (Nat.eqb v o); [|apply R2].
      unfold put_ckpt. rewrite <- R2. destruct (bv_ctrl (h1 v)) eqn:Hx; cbn; now rewrite ?Hx.
  - auto.
  - destruct S2. auto.
Qed.

Lemma recompute_all_geval : forall bs h e cut,
  (forall v, bv_ctrl (h v) = cut v) ->
  (forall v, saved h v = e v) ->
  snd (recompute_all F bs h) = snd (geval cut bs e) /\
  (forall v, saved (fst (recompute_all F bs h)) v = fst (geval cut bs e) v).
Proof.
  intros bs h e cut Hc Hs. unfold recompute_all, geval.
  pose proof (iter_o_sim (recompute_block F) (geval_block cut)
    (fun h1 e1 => (forall v, bv_ctrl (h1 v) = cut v) /\ (forall v, saved h1 v = e1 v)) bs h e) as S.
  destruct S as [S1 S2].
  - intros h1 e1 b _ [R1 R2].
    destruct (recompute_block_geval h1 e1 cut b R1 R2) as [A [B C]]. auto.
  - auto.
  - destruct S2. auto.
Qed.

(** [geval] respects pointwise equality of environments. *)
Lemma geval_block_ext : forall cut cut' b e1 e2, (forall v, cut v = cut' v) -> env_eq e1 e2 ->
  snd (geval_block cut e1 b) = snd (geval_block cut' e2 b) /\
  env_eq (fst (geval_block cut e1 b)) (fst (geval_block cut' e2 b)).
Proof.
  intros cut cut' b e1 e2 Hc He. unfold geval_block.
  replace (existsb cut' (b_outs b)) with (existsb cut (b_outs b)).
  2:{ clear - Hc. induction (b_outs b) as [|o r IH]; cbn; [reflexivity|]. now rewrite Hc, IH. }
  destruct (existsb cut (b_outs b)); [cbn; auto|].
  replace (map e2 (b_deps b)) with (map e1 (b_deps b)) by (apply map_ext; auto).
  apply iter_o_sim; [|assumption].
  intros s t [i o] _ R. cbn [fst snd].
  destruct (comp_recompute _ _ _ _) as [[x|]|]; cbn; auto.
  split; [reflexivity|]. intros v. unfold eset. destruct (Nat.eqb v o); auto.
Qed.

Lemma geval_ext : forall cut cut' bs e1 e2, (forall v, cut v = cut' v) -> env_eq e1 e2 ->
  snd (geval cut bs e1) = snd (geval cut' bs e2) /\
  env_eq (fst (geval cut bs e1)) (fst (geval cut' bs e2)).
Proof.
  intros cut cut' bs e1 e2 Hc He. unfold geval.
  apply (iter_o_sim (geval_block cut) (geval_block cut') env_eq); [|assumption].
  intros. now apply geval_block_ext.
Qed.

(** ** Structural well-formedness of a tape *)

(** Every block's dependencies are produced neither by itself nor later. *)
Fixpoint topo (bs : list (block V)) : Prop :=
  match bs with
  | [] => True
  | b :: r => (forall d, In d (b_deps b) -> ~ In d (outs_of (b :: r))) /\ topo r
  end.
Definition wf_tape (bs : list (block V)) : Prop := topo bs /\ NoDup (outs_of bs).

(** Recomputation of this block never answers None (a built-in property of all float blocks). *)
Definition gives_value (b : block V) : Prop :=
  forall xs i, comp_recompute F (b_kind b) xs i <> Ok None.

Lemma builtin_gives_value : forall b, (forall u, b_kind b <> KUser u) -> gives_value b.
Proof.
  intros b Hk xs i. destruct (b_kind b) eqn:E; cbn; unfold nth_res, bind;
    repeat match goal with |- context[match ?x with _ => _ end] => destruct x end; try discriminate.
  exfalso. now apply (Hk u).
Qed.

(** Variables recomputed by a replay with cut set [cut]. *)
Definition computed (cut : nat -> bool) (bs : list (block V)) : list nat :=
  flat_map (fun b => if existsb cut (b_outs b) then [] else b_outs b) bs.

Lemma computed_outs : forall cut bs v, In v (computed cut bs) -> In v (outs_of bs).
Proof.
  intros cut bs v. unfold computed, outs_of. rewrite !in_flat_map.
  intros [b [Hb Hv]]. exists b. split; [assumption|]. destruct (existsb _ _); [easy|assumption].
Qed.

Lemma computed_not_cut : forall cut bs v, In v (computed cut bs) -> cut v = false.
Proof.
  intros cut bs v. unfold computed. rewrite in_flat_map. intros [b [Hb Hv]].
  destruct (existsb cut (b_outs b)) eqn:E; [easy|].
  destruct (cut v) eqn:Hc; [|reflexivity].
  assert (existsb cut (b_outs b) = true) by (apply existsb_exists; eauto). congruence.
Qed.

(** Inside a block: after a successful loop every output carries its component, everything else is
    unchanged. *)
Lemma geval_block_frame : forall cut b e v, ~ In v (b_outs b) -> fst (geval_block cut e b) v = e v.
Proof.
  intros cut b e v Hv. unfold geval_block. destruct (existsb cut (b_outs b)); [reflexivity|].
  set (f := fun e' (io : nat * nat) => _).
  destruct (iter_o f (enum (b_outs b)) e) as [e' x] eqn:E. cbn.
  refine (iter_o_inv _ (fun e1 : env => e1 v = e v) _ _ _ _ _ eq_refl E).
  intros s [i o] s' e0 Hin Hs Hf. unfold f in Hf. cbn [fst snd] in Hf.
  apply enum_snd_In in Hin. cbn in Hin.
  destruct (comp_recompute _ _ _ _) as [[y|]|]; inversion Hf; subst; auto.
  unfold eset. destruct (Nat.eqb_spec v o); [congruence|assumption].
Qed.

Lemma geval_block_cut_frame : forall cut b e, existsb cut (b_outs b) = true -> geval_block cut e b = (e, None).
Proof. intros cut b e H. unfold geval_block. now rewrite H. Qed.

Lemma geval_frame : forall cut bs e v, ~ In v (computed cut bs) -> fst (geval cut bs e) v = e v.
Proof.
  intros cut bs e v Hv.
  destruct (geval cut bs e) as [e' x] eqn:E. cbn. unfold geval in E.
  refine (iter_o_inv _ (fun e1 : env => e1 v = e v) _ _ _ _ _ eq_refl E).
  intros s b s' e0 Hin Hs Hf.
  destruct (existsb cut (b_outs b)) eqn:Hc.
  - rewrite geval_block_cut_frame in Hf by assumption. inversion Hf; now subst.
  - replace s' with (fst (geval_block cut s b)) by now rewrite Hf.
    rewrite geval_block_frame; [assumption|]. intros Hb. apply Hv.
    unfold computed. apply in_flat_map. exists b. split; [assumption|]. now rewrite Hc.
Qed.

(** Outputs of a block after success. *)
Lemma geval_outs_loop : forall k inputs l i e e',
  NoDup l ->
  (forall xs j, comp_recompute F k xs j <> Ok None) ->
  iter_o (fun e' (io : nat * nat) =>
              match comp_recompute F k inputs (fst io) with
              | Err x => (e', Some x)
              | Ok None => (e', None)
              | Ok (Some x) => (eset e' (snd io) x, None)
              end) (enum_from i l) e = (e', None) ->
  forall j o, nth_error l j = Some o -> comp_recompute F k inputs (i + j) = Ok (Some (e' o)).
Proof.
  intros k inputs l. induction l as [|o r IH]; intros i e e' Hnd Htot H j o' Hj.
  - destruct j; discriminate.
  - inversion Hnd as [|? ? Hnin Hnd']; subst. cbn [enum_from iter_o fst snd] in H.
    destruct (comp_recompute F k inputs i) as [[y|]|] eqn:Ec.
    + destruct j as [|j].
      * cbn in Hj. inversion Hj; subst o'. rewrite Nat.add_0_r, Ec. do 2 f_equal.
        assert (G : e' o = y); [|now rewrite G].
        refine (iter_o_inv _ (fun e1 : env => e1 o = y) _ _ _ _ _ _ H).
        -- intros s [i' o2] s' e0 Hin Hs Hf. cbn [fst snd] in Hf.
           destruct (comp_recompute F k inputs i') as [[z|]|]; apply (f_equal fst) in Hf; cbn in Hf; subst s'; [|exact Hs|exact Hs].
           unfold eset. destruct (Nat.eqb_spec o o2) as [->|]; [|exact Hs].
           exfalso. apply Hnin. rewrite <- (enum_from_snd r (S i)). change o2 with (snd (i', o2)). now apply in_map.
        -- unfold eset. now rewrite Nat.eqb_refl.
      * replace (i + S j) with (S i + j) by lia. eapply IH; eauto.
    + exfalso. eapply Htot; eauto.
    + discriminate.
Qed.

Lemma geval_block_outs : forall cut b e e', NoDup (b_outs b) -> gives_value b ->
  existsb cut (b_outs b) = false -> geval_block cut e b = (e', None) ->
  forall j o, nth_error (b_outs b) j = Some o ->
    comp_recompute F (b_kind b) (map e (b_deps b)) j = Ok (Some (e' o)).
Proof.
  intros cut b e e' Hnd Hg Hc H j o Hj. unfold geval_block in H. rewrite Hc in H.
  change j with (0 + j). eapply geval_outs_loop; eauto.
Qed.

(** ** Locality: the result depends only on variables that are not recomputed *)

Lemma geval_block_local : forall cut b e1 e2 (S : nat -> Prop),
  gives_value b ->
  (forall d, In d (b_deps b) -> S d) ->
  (forall v, S v -> e1 v = e2 v) ->
  snd (geval_block cut e1 b) = snd (geval_block cut e2 b) /\
  (forall v, S v -> fst (geval_block cut e1 b) v = fst (geval_block cut e2 b) v) /\
  (snd (geval_block cut e1 b) = None -> existsb cut (b_outs b) = false ->
   forall v, In v (b_outs b) -> fst (geval_block cut e1 b) v = fst (geval_block cut e2 b) v).
Proof.
  intros cut b e1 e2 S Hg Hd HS. unfold geval_block.
  destruct (existsb cut (b_outs b)) eqn:Hc; [cbn; repeat split; auto; discriminate|].
  replace (map e2 (b_deps b)) with (map e1 (b_deps b)).
  2:{ apply map_ext_in. intros d Hin. apply HS. auto. }
  set (inputs := map e1 (b_deps b)).
  set (f := fun e' (io : nat * nat) => _).
  (* strengthened statement over the loop *)
  assert (G : forall l i (done : nat -> Prop) a1 a2,
     (forall v, done v -> a1 v = a2 v) ->
     snd (iter_o f (enum_from i l) a1) = snd (iter_o f (enum_from i l) a2) /\
     (forall v, done v -> fst (iter_o f (enum_from i l) a1) v = fst (iter_o f (enum_from i l) a2) v) /\
     (snd (iter_o f (enum_from i l) a1) = None -> forall v, In v l ->
        fst (iter_o f (enum_from i l) a1) v = fst (iter_o f (enum_from i l) a2) v)).
  { induction l as [|o r IH]; intros i done a1 a2 Ha; cbn [enum_from iter_o].
    - cbn. repeat split; auto. intros _ v [].
    - assert (Ef : forall a, f a (i, o) = match comp_recompute F (b_kind b) inputs i with
                                        | Err x => (a, Some x) | Ok None => (a, None)
                                        | Ok (Some x) => (eset a o x, None) end) by reflexivity.
      rewrite !Ef. clear Ef.
      destruct (comp_recompute F (b_kind b) inputs i) as [[y|]|] eqn:Ec.
      + destruct (IH (Datatypes.S i) (fun v => done v \/ v = o) (eset a1 o y) (eset a2 o y)) as [A [B C]].
        { intros v Hv. unfold eset. destruct (Nat.eqb_spec v o); [reflexivity|]. destruct Hv; [auto|contradiction]. }
        split; [exact A|]. split.
        * intros v Hv. apply B. now left.
        * intros Hn v [->|Hv]; [apply B; now right|now apply C].
      + exfalso. eapply Hg; eauto.
      + cbn. repeat split; auto. discriminate. }
  destruct (G (b_outs b) 0 S e1 e2 HS) as [A [B C]].
  split; [exact A|]. split; [exact B|]. intros Hn _. now apply C.
Qed.

Lemma geval_local : forall cut bs e1 e2,
  topo bs -> (forall b, In b bs -> gives_value b) ->
  (forall v, ~ In v (computed cut bs) -> e1 v = e2 v) ->
  snd (geval cut bs e1) = snd (geval cut bs e2) /\
  (snd (geval cut bs e1) = None -> env_eq (fst (geval cut bs e1)) (fst (geval cut bs e2))).
Proof.
  intros cut bs. induction bs as [|b r IH]; intros e1 e2 Ht Hg He.
  - cbn. split; [reflexivity|]. intros _ v. apply He. cbn. easy.
  - destruct Ht as [Hd Ht]. cbn [geval iter_o].
    destruct (geval_block_local cut b e1 e2 (fun v => ~ In v (computed cut (b :: r)))) as [A [B C]].
    + apply Hg. now left.
    + intros d Hin Hc. apply (Hd d Hin). now apply computed_outs in Hc.
    + exact He.
    + unfold geval. cbn [iter_o].
      destruct (geval_block cut e1 b) as [a1 x1] eqn:E1, (geval_block cut e2 b) as [a2 x2] eqn:E2.
      cbn [fst snd] in *. subst x2. destruct x1 as [x|]; [cbn; split; [reflexivity|discriminate]|].
      apply IH; [assumption|intros; apply Hg; now right|].
      intros v Hv.
      destruct (in_dec Nat.eq_dec v (computed cut (b :: r))) as [Hin|Hnin]; [|now apply B].
      unfold computed in Hin. cbn [flat_map] in Hin. apply in_app_iff in Hin as [Hin|Hin].
      * destruct (existsb cut (b_outs b)) eqn:Hc; [easy|]. now apply C.
      * exfalso. now apply Hv.
Qed.

End Graph.
