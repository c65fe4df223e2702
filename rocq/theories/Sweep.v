(** Pure versions of the adjoint and tangent-linear sweeps (no heap), the simulation between them
    and the heap sweeps, and the path marking. *)
From Coq Require Import List Arith ZArith Lia Bool.
From Verif Require Import Base Model BaseFacts Graph History.
Import ListNotations.

Section Sweep.
Context {V : Type} (F : fops V).
Implicit Types (h : heap V) (bs : list (block V)) (b : block V).

Definition aenv := nat -> option V.
Definition aeq (a1 a2 : aenv) := forall v, a1 v = a2 v.
Definition aadd (a : aenv) (v : nat) (x : V) : aenv := fun w => if Nat.eqb w v then accum F (a w) x else a w.

(** ** Adjoint *)
Definition padj_step (k : kind V) (xs : list V) (ins : list (option V)) (a' : aenv) (iv : nat * nat) : aenv * option exn :=
  match comp_adj F k xs ins (fst iv) with
  | Err e => (a', Some e)
  | Ok None => (a', None)
  | Ok (Some x) => (aadd a' (snd iv) x, None)
  end.
Definition marked (mk : nat -> bool) (l : list nat) := filter (fun iv => mk (snd iv)) (enum l).
Definition padj_block (mk : nat -> bool) (e : nat -> V) (a : aenv) b : aenv * option exn :=
  let ins := map a (b_outs b) in
  if negb (existsb is_some ins) then (a, None)
  else iter_o (padj_step (b_kind b) (map e (b_deps b)) ins) (marked mk (b_deps b)) a.
Definition padj mk e bs (a : aenv) : aenv * option exn := iter_o (padj_block mk e) (rev bs) a.

(** A heap seen as adjoint values over a fixed background. *)
Definition view_adj (base : nat -> bvar V) h (a : aenv) := forall v, bv_adj (h v) = a v /\ set_adj None (h v) = base v.

Lemma view_adj_self : forall h, view_adj (fun v => set_adj None (h v)) h (fun v => bv_adj (h v)).
Proof. intros h v. auto. Qed.
Lemma base_eq : forall base h a v, view_adj base h a ->
  saved h v = saved base v /\ bv_mark (h v) = bv_mark (base v).
Proof. intros base h a v H. destruct (H v) as [_ B]. unfold saved. rewrite <- B. auto. Qed.

Lemma adj_block_sim : forall base m h a b, view_adj base h a ->
  let mk := fun v => bv_mark (base v) || negb m in
  snd (adj_block F m h b) = snd (padj_block mk (saved base) a b) /\
  view_adj base (fst (adj_block F m h b)) (fst (padj_block mk (saved base) a b)).
Proof.
  intros base m h a b H mk. unfold adj_block, padj_block.
  replace (map (fun o => bv_adj (h o)) (b_outs b)) with (map a (b_outs b)) by (apply map_ext; intros v; symmetry; apply H).
  destruct (negb (existsb is_some (map a (b_outs b)))); [split; [reflexivity|exact H]|].
  replace (map (saved h) (b_deps b)) with (map (saved base) (b_deps b)).
  2:{ apply map_ext. intros v. symmetry. now apply (base_eq base h a). }
  replace (relevant h m (b_deps b)) with (marked mk (b_deps b)).
  2:{ unfold relevant, marked, mk. apply filter_ext. intros iv. now destruct (base_eq base h a (snd iv) H) as [_ ->]. }
  apply (iter_o_sim _ _ (view_adj base)); [|exact H].
  intros h1 a1 iv _ R. unfold padj_step. destruct (comp_adj _ _ _ _ _) as [[x|]|]; cbn [fst snd]; auto.
  split; [reflexivity|]. intros v. unfold upd, aadd. destruct (R v) as [R1 R2].
  destruct (Nat.eqb v (snd iv)); auto. split; [cbn; now rewrite R1|]. exact R2.
Qed.

Lemma evaluate_adj_sim : forall bs base m h a, view_adj base h a ->
  let mk := fun v => bv_mark (base v) || negb m in
  snd (evaluate_adj F bs 0 m h) = snd (padj mk (saved base) bs a) /\
  view_adj base (fst (evaluate_adj F bs 0 m h)) (fst (padj mk (saved base) bs a)).
Proof.
  intros bs base m h a H mk. unfold evaluate_adj, padj. cbn [skipn].
  apply (iter_o_sim _ _ (view_adj base)); [|exact H]. intros. now apply adj_block_sim.
Qed.

(** Extensionality. *)
Lemma padj_block_ext : forall mk1 mk2 e1 e2 a1 a2 b, (forall v, mk1 v = mk2 v) -> (forall v, e1 v = e2 v) -> aeq a1 a2 ->
  snd (padj_block mk1 e1 a1 b) = snd (padj_block mk2 e2 a2 b) /\ aeq (fst (padj_block mk1 e1 a1 b)) (fst (padj_block mk2 e2 a2 b)).
Proof.
  intros mk1 mk2 e1 e2 a1 a2 b Hm He Ha. unfold padj_block.
  replace (map a2 (b_outs b)) with (map a1 (b_outs b)) by (apply map_ext; auto).
  destruct (negb _); [split; auto|].
  replace (map e2 (b_deps b)) with (map e1 (b_deps b)) by (apply map_ext; auto).
  replace (marked mk2 (b_deps b)) with (marked mk1 (b_deps b)) by (apply filter_ext; intros; apply Hm).
  apply (iter_o_sim _ _ aeq); [|exact Ha].
  intros x1 x2 iv _ R. unfold padj_step. destruct (comp_adj _ _ _ _ _) as [[x|]|]; cbn; auto.
  split; [reflexivity|]. intros v. unfold aadd. now rewrite (R v).
Qed.
Lemma padj_ext : forall mk1 mk2 e1 e2 bs a1 a2, (forall v, mk1 v = mk2 v) -> (forall v, e1 v = e2 v) -> aeq a1 a2 ->
  snd (padj mk1 e1 bs a1) = snd (padj mk2 e2 bs a2) /\ aeq (fst (padj mk1 e1 bs a1)) (fst (padj mk2 e2 bs a2)).
Proof.
  intros. unfold padj. apply (iter_o_sim _ _ aeq); auto. intros. now apply padj_block_ext.
Qed.

(** *** The gradient driver as a pure function of stored values *)
Definition start_adj bs (J : nat) (adj : V) h : aenv :=
  fun v => if Nat.eqb v J then Some adj else if mem v (vars_of bs) then None else bv_adj (h v).
Definition grad_of (a : aenv) (c : nat) : V := match a c with Some x => x | None => f_zero F end.

Lemma grad_spec : forall bs J ctrls adj h, no_ctrl h ->
  let nodes := find_relevant bs ctrls in
  let mk := fun v => bv_mark (h v) || mem v nodes in
  let r := padj mk (saved h) bs (start_adj bs J adj h) in
  snd (compute_gradient F bs J ctrls adj h) =
    match snd r with Some e => Err e | None => Ok (map (grad_of (fst r)) ctrls) end /\
  (forall v, bv_adj (fst (compute_gradient F bs J ctrls adj h) v) = fst r v) /\
  (forall v, bv_mark (fst (compute_gradient F bs J ctrls adj h) v) =
     match snd r with Some _ => mk v | None => bv_mark (h v) && negb (mem v nodes) end) /\
  (forall v, bv_tlm (fst (compute_gradient F bs J ctrls adj h) v) = bv_tlm (h v) /\
             bv_hess (fst (compute_gradient F bs J ctrls adj h) v) = bv_hess (h v)).
Proof.
  intros bs J ctrls adj h Hn nodes mk r. unfold compute_gradient. fold nodes.
  set (h2 := upd (reset_adj bs h) J (set_adj (Some adj))).
  assert (H2 : forall v, h2 v = set_adj (start_adj bs J adj h v) (h v)).
  { intros v. unfold h2, upd, start_adj, reset_adj. rewrite reset_with_spec by reflexivity.
    destruct (Nat.eqb v J); destruct (mem v (vars_of bs)); try reflexivity. now destruct (h v). }
  unfold with_marked_nodes. set (h3 := upd_all h2 nodes (set_mark true)).
  assert (N3 : no_ctrl h3).
  { intros v. unfold h3. rewrite upd_all_spec by reflexivity. destruct (mem v nodes); cbn; rewrite H2; apply Hn. }
  set (hc := upd_all h3 ctrls (set_ctrl true)).
  set (base := fun v => set_adj None (hc v)).
  assert (Vw : view_adj base hc (start_adj bs J adj h)).
  { intros v. split; [|reflexivity]. unfold hc. rewrite upd_all_spec by reflexivity.
    assert (E : bv_adj (h3 v) = start_adj bs J adj h v).
    { unfold h3. rewrite upd_all_spec by reflexivity. destruct (mem v nodes); cbn; now rewrite H2. }
    destruct (mem v ctrls); exact E. }
  assert (Hs : forall v, saved base v = saved h v).
  { intros v. unfold saved, base, hc. rewrite upd_all_spec by reflexivity. unfold h3.
    destruct (mem v ctrls); cbn; rewrite upd_all_spec by reflexivity; destruct (mem v nodes); cbn; rewrite H2; reflexivity. }
  assert (Hm : forall v, bv_mark (base v) || negb true = mk v).
  { intros v. unfold base, hc, mk. rewrite upd_all_spec by reflexivity. unfold h3.
    cbn. rewrite orb_false_r.
    destruct (mem v ctrls); cbn; rewrite upd_all_spec by reflexivity; destruct (mem v nodes); cbn; rewrite ?H2; cbn;
      now rewrite ?orb_true_r, ?orb_false_r. }
  destruct (evaluate_adj_sim bs base true hc _ Vw) as [S1 S2].
  destruct (padj_ext _ _ (saved base) (saved h) bs (start_adj bs J adj h) (start_adj bs J adj h) Hm Hs (fun v => eq_refl)) as [X1 X2].
  fold r in X1, X2.
  destruct (marked_controls_spec ctrls h3 (evaluate_adj F bs 0 true) N3) as [M1 M2].
  { intros v. refine (eq_trans (core_ctrl _ _ (evaluate_adj_core F bs 0 true hc v)) _). now apply ctrl_flag. }
  fold hc in M1, M2.
  destruct (with_marked_controls ctrls h3 (evaluate_adj F bs 0 true)) as [h4 e4]. cbn [fst snd] in M1, M2.
  assert (Ee : e4 = snd r). { exact (eq_trans M1 (eq_trans S1 X1)). }
  assert (A4 : forall v, bv_adj (h4 v) = fst r v).
  { intros v. rewrite M2. cbn. destruct (S2 v) as [S2v _]. cbn in S2v. rewrite <- X2. exact S2v. }
  assert (B4 : forall v, bv_mark (h4 v) = mk v /\ bv_tlm (h4 v) = bv_tlm (h v) /\ bv_hess (h4 v) = bv_hess (h v)).
  { intros v. rewrite M2. cbn. destruct (S2 v) as [_ S2v]. rewrite <- Hm, orb_false_r.
    rewrite <- S2v. cbn. split; [reflexivity|].
    assert (E : (bv_tlm (base v), bv_hess (base v)) = (bv_tlm (h v), bv_hess (h v))).
    { unfold base, hc. rewrite upd_all_spec by reflexivity. unfold h3.
      destruct (mem v ctrls); cbn; rewrite upd_all_spec by reflexivity; destruct (mem v nodes); cbn; rewrite H2; reflexivity. }
    injection E as E1 E2. split; [exact (eq_trans (f_equal (@bv_tlm V) S2v) E1)|exact (eq_trans (f_equal (@bv_hess V) S2v) E2)]. }
  rewrite Ee. destruct (snd r) as [e|] eqn:Er; cbn [fst snd].
  - split; [reflexivity|]. split; [exact A4|]. split; [intros v; apply B4|intros v; apply B4].
  - assert (Hx : forall v, upd_all h4 nodes (set_mark false) v = if mem v nodes then set_mark false (h4 v) else h4 v).
    { intros v. apply upd_all_spec. reflexivity. }
    split; [|split; [|split]].
    + f_equal. apply map_ext. intros c. unfold get_derivative, grad_of. rewrite Hx.
      rewrite <- A4. now destruct (mem c nodes).
    + intros v. rewrite Hx, <- A4. now destruct (mem v nodes).
    + intros v. rewrite Hx. destruct (B4 v) as [Bm _]. unfold mk in Bm. destruct (mem v nodes); cbn; [now rewrite andb_false_r|].
      rewrite Bm. now rewrite orb_false_r, andb_true_r.
    + intros v. rewrite Hx. destruct (B4 v) as [_ Bt]. destruct (mem v nodes); exact Bt.
Qed.

(** ** Path marking *)
(** [N] contains the outputs of every block that has a dependency in [N]. *)
Definition upward bs (N : nat -> Prop) := forall b d o, In b bs -> In d (b_deps b) -> N d -> In o (b_outs b) -> N o.

Lemma find_relevant_app : forall bs1 bs2 c, find_relevant (bs1 ++ bs2) c = find_relevant bs2 (find_relevant bs1 c).
Proof. intros. unfold find_relevant. apply fold_left_app. Qed.
Lemma find_relevant_incl : forall bs c v, In v c -> In v (find_relevant bs c).
Proof.
  induction bs as [|b r IH]; intros c v H; [exact H|]. cbn. apply IH. destruct (existsb _ _); [apply in_or_app; now right|exact H].
Qed.
Lemma find_relevant_cases : forall bs c v, In v (find_relevant bs c) -> In v c \/ In v (outs_of bs).
Proof.
  induction bs as [|b r IH]; intros c v H; [now left|]. cbn in H. apply IH in H. unfold outs_of. cbn [flat_map]. rewrite in_app_iff.
  destruct H as [H|H]; [|tauto]. destruct (existsb _ _); [apply in_app_iff in H; tauto|tauto].
Qed.

Lemma find_relevant_upward : forall bs c, topo bs -> upward bs (fun v => In v (find_relevant bs c)).
Proof.
  induction bs as [|b r IH]; intros c Ht b' d o Hb Hd Hn Ho; [easy|].
  destruct Ht as [Ht1 Ht2]. cbn [find_relevant fold_left] in *. fold (find_relevant r) in *.
  set (c1 := if existsb (fun d => mem d c) (b_deps b) then b_outs b ++ c else c) in *.
  change (In d (find_relevant r c1)) in Hn. change (In o (find_relevant r c1)).
  destruct Hb as [<-|Hb]; [|eapply (IH c1); eauto].
  apply find_relevant_cases in Hn. destruct Hn as [Hn|Hn].
  - assert (Hdc : In d c).
    { unfold c1 in Hn. destruct (existsb _ _); [|exact Hn]. apply in_app_iff in Hn as [Hn|Hn]; [|exact Hn].
      exfalso. apply (Ht1 d Hd). unfold outs_of. cbn. apply in_app_iff. now left. }
    apply find_relevant_incl. unfold c1.
    replace (existsb (fun d => mem d c) (b_deps b)) with true.
    + apply in_or_app. now left.
    + symmetry. apply existsb_exists. exists d. split; [exact Hd|]. now apply mem_In.
  - exfalso. apply (Ht1 d Hd). unfold outs_of. cbn. apply in_app_iff. now right.
Qed.

(** The marking is the least such set containing the controls. *)
Lemma find_relevant_least : forall bs c (N : nat -> Prop), (forall v, In v c -> N v) -> upward bs N ->
  forall v, In v (find_relevant bs c) -> N v.
Proof.
  induction bs as [|b r IH]; intros c N Hc Hu v Hv; [now apply Hc|].
  cbn in Hv. refine (IH _ N _ _ v Hv).
  - intros u Hin. destruct (existsb _ _) eqn:E; [|auto]. apply in_app_iff in Hin as [Hin|Hin]; [|auto].
    apply existsb_exists in E as [d [Hd Hm]]. apply mem_In in Hm. eapply (Hu b d); eauto. now left.
  - intros b' d o Hb. apply Hu. now right.
Qed.

(** ** Marks outside the path do not change the result *)
Lemma overmark_loop : forall (k : kind V) xs ins (mk n : nat -> bool) (l : list (nat * nat)) a1 a2,
  (forall v, n v = true -> mk v = true) ->
  (forall v, n v = true -> a1 v = a2 v) ->
  let r1 := iter_o (padj_step k xs ins) (filter (fun iv => mk (snd iv)) l) a1 in
  let r2 := iter_o (padj_step k xs ins) (filter (fun iv => n (snd iv)) l) a2 in
  snd r1 = None -> snd r2 = None /\ (forall v, n v = true -> fst r1 v = fst r2 v).
Proof.
  intros k xs ins mk n l. induction l as [|[i d] l IH]; intros a1 a2 Hm Ha; [cbn; auto|].
  cbn [filter snd]. destruct (n d) eqn:Hd.
  - rewrite (Hm d Hd). cbn [iter_o].
    assert (E : forall a, padj_step k xs ins a (i, d) = match comp_adj F k xs ins i with Err e => (a, Some e) | Ok None => (a, None) | Ok (Some x) => (aadd a d x, None) end) by reflexivity.
    rewrite !E. destruct (comp_adj F k xs ins i) as [[x|]|]; [| |discriminate].
    + apply IH; auto. intros v Hv. unfold aadd. destruct (Nat.eqb v d); [|auto]. now rewrite (Ha v Hv).
    + apply IH; auto.
  - destruct (mk d) eqn:Em; [|apply IH; auto]. cbn [iter_o].
    assert (E : forall a, padj_step k xs ins a (i, d) = match comp_adj F k xs ins i with Err e => (a, Some e) | Ok None => (a, None) | Ok (Some x) => (aadd a d x, None) end) by reflexivity.
    rewrite E. destruct (comp_adj F k xs ins i) as [[x|]|]; [| |discriminate].
    + apply IH; auto. intros v Hv. unfold aadd. destruct (Nat.eqb_spec v d) as [->|]; [congruence|auto].
    + apply IH; auto.
Qed.

Lemma padj_loop_frame : forall (k : kind V) xs ins (l : list (nat * nat)) a v, ~ In v (map snd l) ->
  fst (iter_o (padj_step k xs ins) l a) v = a v.
Proof.
  intros k xs ins l a v Hv. destruct (iter_o _ l a) as [a' e] eqn:E. cbn.
  refine (iter_o_inv _ (fun a1 : aenv => a1 v = a v) _ _ _ _ _ eq_refl E).
  intros s iv s' e' Hin Hs Hf. unfold padj_step in Hf. destruct (comp_adj _ _ _ _ _) as [[x|]|]; inversion Hf; subst; auto.
  unfold aadd. destruct (Nat.eqb_spec v (snd iv)) as [->|]; [|exact Hs]. exfalso. apply Hv. now apply in_map.
Qed.
Lemma marked_snd : forall mk l v, In v (map snd (marked mk l)) -> In v l /\ mk v = true.
Proof.
  intros mk l v H. apply in_map_iff in H as [iv [<- H]]. apply filter_In in H as [H1 H2]. split; [now apply enum_snd_In|exact H2].
Qed.
Lemma padj_block_frame : forall mk e a b v, ~ In v (b_deps b) \/ mk v = false -> fst (padj_block mk e a b) v = a v.
Proof.
  intros mk e a b v H. unfold padj_block. destruct (negb _); [reflexivity|]. apply padj_loop_frame.
  intros K. apply marked_snd in K as [K1 K2]. destruct H; [contradiction|congruence].
Qed.

(** The sweep restricted to an upward-closed set [n] of marked variables. *)
Lemma overmark : forall (mk n : nat -> bool) e bs a1 a2,
  (forall v, n v = true -> mk v = true) -> upward bs (fun v => n v = true) ->
  (forall v, n v = true -> a1 v = a2 v) ->
  snd (padj mk e bs a1) = None ->
  snd (padj n e bs a2) = None /\ (forall v, n v = true -> fst (padj mk e bs a1) v = fst (padj n e bs a2) v).
Proof.
  intros mk n e bs a1 a2 Hm Hu Ha. unfold padj.
  assert (Hu' : upward (rev bs) (fun v => n v = true)) by (intros b d o Hb; apply Hu; now apply in_rev).
  clear Hu. revert a1 a2 Ha. generalize dependent (rev bs). intros l. induction l as [|b l IH]; intros Hu a1 a2 Ha; [cbn; auto|].
  cbn [iter_o].
  assert (B : snd (padj_block mk e a1 b) = None -> snd (padj_block n e a2 b) = None /\
              (forall v, n v = true -> fst (padj_block mk e a1 b) v = fst (padj_block n e a2 b) v)).
  { destruct (existsb n (b_deps b)) eqn:En.
    - apply existsb_exists in En as [d [Hd Hn]].
      assert (Ho : map a1 (b_outs b) = map a2 (b_outs b)).
      { apply map_ext_in. intros o Hin. apply Ha. eapply (Hu b d o); eauto. now left. }
      unfold padj_block. rewrite Ho. destruct (negb _); [cbn; auto|]. apply overmark_loop; auto.
    - assert (Hno : forall d, In d (b_deps b) -> n d = false).
      { intros d Hd. destruct (n d) eqn:E; [|reflexivity]. assert (existsb n (b_deps b) = true) by (apply existsb_exists; eauto). congruence. }
      intros Hs. split.
      + unfold padj_block. destruct (negb _); [reflexivity|].
        replace (marked n (b_deps b)) with (@nil (nat * nat)); [reflexivity|]. unfold marked.
        assert (G : forall l : list (nat * nat), (forall p, In p l -> n (snd p) = false) -> filter (fun iv => n (snd iv)) l = []).
        { clear. induction l as [|p l IH]; intros H; [reflexivity|]. cbn. rewrite H by now left. apply IH. intros; apply H; now right. }
        symmetry. apply G. intros p Hp. apply Hno. now apply enum_snd_In.
      + intros v Hv. rewrite !padj_block_frame; auto.
        * left. intros K. rewrite Hno in Hv; [discriminate|exact K].
        * left. intros K. rewrite Hno in Hv; [discriminate|exact K]. }
  destruct (padj_block mk e a1 b) as [x1 [e1|]], (padj_block n e a2 b) as [x2 [e2|]]; cbn [fst snd] in *; try discriminate.
  - intros _. destruct (B eq_refl); discriminate.
  - destruct (B eq_refl) as [_ B2]. apply IH; auto. intros b' d o Hb. apply Hu. now right.
Qed.

(** ** Repeatability of the gradient *)
Lemma padj_nodes : forall bs J ctrls adj h, topo bs ->
  let nodes := find_relevant bs ctrls in
  let mk := fun v => bv_mark (h v) || mem v nodes in
  (forall c, In c ctrls -> In c (vars_of bs) \/ c = J \/ bv_adj (h c) = None) ->
  let a0 := fun v => if Nat.eqb v J then Some adj else None in
  snd (padj mk (saved h) bs (start_adj bs J adj h)) = None ->
  snd (padj (fun v => mem v nodes) (saved h) bs a0) = None /\
  (forall v, In v nodes -> fst (padj mk (saved h) bs (start_adj bs J adj h)) v = fst (padj (fun v => mem v nodes) (saved h) bs a0) v).
Proof.
  intros bs J ctrls adj h Ht nodes mk Hc a0 Hs.
  destruct (overmark mk (fun v => mem v nodes) (saved h) bs (start_adj bs J adj h) a0) as [A B]; auto.
  - intros v Hv. unfold mk. rewrite Hv. apply orb_true_r.
  - intros b d o Hb Hd Hn Ho. apply mem_In. apply mem_In in Hn. eapply (find_relevant_upward bs ctrls); eauto.
  - intros v Hv. apply mem_In in Hv. unfold start_adj, a0. destruct (Nat.eqb_spec v J); [reflexivity|].
    destruct (mem v (vars_of bs)) eqn:Em; [reflexivity|]. apply mem_false in Em.
    apply find_relevant_cases in Hv as [Hv|Hv].
    + destruct (Hc v Hv) as [K|[K|K]]; [contradiction|contradiction|exact K].
    + exfalso. apply Em. unfold vars_of. apply in_or_app. now right.
  - split; [exact A|]. intros v Hv. apply B. now apply mem_In.
Qed.

(** Controls that are on the tape, or are the functional, or carry no stale adjoint value. *)
Definition fresh_ctrls bs (J : nat) (ctrls : list nat) h :=
  forall c, In c ctrls -> In c (vars_of bs) \/ c = J \/ bv_adj (h c) = None.

Lemma grad_repeat : forall bs J ctrls adj h1 h2 g1 g2, topo bs -> no_ctrl h1 -> no_ctrl h2 ->
  (forall v, saved h1 v = saved h2 v) -> fresh_ctrls bs J ctrls h1 -> fresh_ctrls bs J ctrls h2 ->
  snd (compute_gradient F bs J ctrls adj h1) = Ok g1 -> snd (compute_gradient F bs J ctrls adj h2) = Ok g2 -> g1 = g2.
Proof.
  intros bs J ctrls adj h1 h2 g1 g2 Ht N1 N2 Hs F1 F2 G1 G2.
  destruct (grad_spec bs J ctrls adj h1 N1) as [A1 _]. destruct (grad_spec bs J ctrls adj h2 N2) as [A2 _].
  rewrite A1 in G1. rewrite A2 in G2. clear A1 A2.
  set (nodes := find_relevant bs ctrls) in *.
  destruct (snd (padj _ _ _ (start_adj bs J adj h1))) eqn:E1; [discriminate|].
  destruct (snd (padj _ _ _ (start_adj bs J adj h2))) eqn:E2; [discriminate|].
  destruct (padj_nodes bs J ctrls adj h1 Ht F1 E1) as [_ B1]. destruct (padj_nodes bs J ctrls adj h2 Ht F2 E2) as [_ B2].
  fold nodes in B1, B2.
  set (a0 := fun v => if Nat.eqb v J then Some adj else None) in *.
  destruct (padj_ext (fun v => mem v nodes) (fun v => mem v nodes) (saved h1) (saved h2) bs a0 a0) as [_ X]; auto; [intros v; reflexivity|].
  inversion G1. inversion G2. apply map_ext_in. intros c Hc. unfold grad_of.
  assert (Hn : In c nodes) by now apply find_relevant_incl.
  now rewrite (B1 c Hn), (B2 c Hn), (X c).
Qed.

(** Agreement on a set containing all outputs. *)
Lemma padj_agree : forall mk1 mk2 e1 e2 bs a1 a2 (S : nat -> Prop),
  (forall v, In v (outs_of bs) -> S v) ->
  (forall v, mk1 v = mk2 v) -> (forall v, e1 v = e2 v) -> (forall v, S v -> a1 v = a2 v) ->
  snd (padj mk1 e1 bs a1) = snd (padj mk2 e2 bs a2) /\
  (forall v, S v -> fst (padj mk1 e1 bs a1) v = fst (padj mk2 e2 bs a2) v).
Proof.
  intros mk1 mk2 e1 e2 bs a1 a2 S Ho Hm He Ha. unfold padj.
  apply (iter_o_sim _ _ (fun x1 x2 : aenv => forall v, S v -> x1 v = x2 v)); [|exact Ha].
  intros x1 x2 b Hb R. unfold padj_block.
  replace (map x2 (b_outs b)) with (map x1 (b_outs b)).
  2:{ apply map_ext_in. intros o Hin. apply R, Ho. unfold outs_of. apply in_flat_map. exists b. split; [now apply in_rev|exact Hin]. }
  destruct (negb _); [split; auto|].
  replace (map e2 (b_deps b)) with (map e1 (b_deps b)) by (apply map_ext; auto).
  replace (marked mk2 (b_deps b)) with (marked mk1 (b_deps b)) by (apply filter_ext; intros; apply Hm).
  apply (iter_o_sim _ _ (fun x1 x2 : aenv => forall v, S v -> x1 v = x2 v)); [|exact R].
  intros y1 y2 iv _ Q. unfold padj_step. destruct (comp_adj _ _ _ _ _) as [[x|]|]; cbn; auto.
  split; [reflexivity|]. intros v Hv. unfold aadd. now rewrite (Q v Hv).
Qed.

(** With the same marks the result is determined completely, exceptions included. *)
Lemma grad_same_marks : forall bs J ctrls adj h1 h2, no_ctrl h1 -> no_ctrl h2 ->
  (forall v, saved h1 v = saved h2 v) -> (forall v, bv_mark (h1 v) = bv_mark (h2 v)) ->
  (forall c, In c ctrls -> In c (vars_of bs) \/ c = J \/ bv_adj (h1 c) = bv_adj (h2 c)) ->
  snd (compute_gradient F bs J ctrls adj h1) = snd (compute_gradient F bs J ctrls adj h2).
Proof.
  intros bs J ctrls adj h1 h2 N1 N2 Hs Hm Hc.
  destruct (grad_spec bs J ctrls adj h1 N1) as [A1 _]. destruct (grad_spec bs J ctrls adj h2 N2) as [A2 _].
  rewrite A1, A2. clear A1 A2. set (nodes := find_relevant bs ctrls).
  destruct (padj_agree (fun v => bv_mark (h1 v) || mem v nodes) (fun v => bv_mark (h2 v) || mem v nodes) (saved h1) (saved h2) bs
     (start_adj bs J adj h1) (start_adj bs J adj h2) (fun v => In v (vars_of bs) \/ In v ctrls)) as [A B]; auto.
  - intros v Hv. left. unfold vars_of. apply in_or_app. now right.
  - intros v. now rewrite Hm.
  - intros v Hv. unfold start_adj. destruct (Nat.eqb_spec v J); [reflexivity|].
    destruct (mem v (vars_of bs)) eqn:Em; [reflexivity|]. apply mem_false in Em. destruct Hv as [Hv|Hv]; [contradiction|].
    destruct (Hc v Hv) as [K|[K|K]]; [contradiction|contradiction|exact K].
  - rewrite A. destruct (snd (padj _ (saved h2) bs _)); [reflexivity|]. f_equal. apply map_ext_in. intros c Hin.
    unfold grad_of. rewrite B; [reflexivity|now right].
Qed.

(** A clean state raises only if every state with stale marks raises too. *)
Lemma grad_clean_ok : forall bs J ctrls adj h1 h2 g, topo bs -> no_ctrl h1 -> no_ctrl h2 ->
  (forall v, saved h1 v = saved h2 v) -> (forall v, bv_mark (h2 v) = false) ->
  fresh_ctrls bs J ctrls h1 -> fresh_ctrls bs J ctrls h2 ->
  snd (compute_gradient F bs J ctrls adj h1) = Ok g -> snd (compute_gradient F bs J ctrls adj h2) = Ok g.
Proof.
  intros bs J ctrls adj h1 h2 g Ht N1 N2 Hs Hm F1 F2 G.
  destruct (grad_spec bs J ctrls adj h1 N1) as [A1 _]. destruct (grad_spec bs J ctrls adj h2 N2) as [A2 _].
  assert (E : exists g', snd (compute_gradient F bs J ctrls adj h2) = Ok g').
  { rewrite A1 in G. rewrite A2. destruct (snd (padj _ _ _ (start_adj bs J adj h1))) eqn:E1; [discriminate|].
    destruct (padj_nodes bs J ctrls adj h1 Ht F1 E1) as [B1 _].
    set (nodes := find_relevant bs ctrls) in *. set (a0 := fun v => if Nat.eqb v J then Some adj else None) in *.
    destruct (padj_agree (fun v => mem v nodes) (fun v => bv_mark (h2 v) || mem v nodes) (saved h1) (saved h2) bs
       a0 (start_adj bs J adj h2) (fun v => In v (vars_of bs))) as [X _].
    - intros v Hv. unfold vars_of. apply in_or_app. now right.
    - intros v. now rewrite Hm.
    - exact Hs.
    - intros v Hv. unfold a0, start_adj. destruct (Nat.eqb v J); [reflexivity|]. now rewrite (proj2 (mem_In _ _) Hv).
    - rewrite <- X, B1. eauto. }
  destruct E as [g' E]. rewrite E. f_equal. symmetry. eapply (grad_repeat bs J ctrls adj h1 h2); eauto.
Qed.

(** ** A control the functional does not depend on *)
Lemma padj_none : forall mk e bs a (N : nat -> Prop), upward bs N -> (forall v, N v -> a v = None) ->
  forall v, N v -> fst (padj mk e bs a) v = None.
Proof.
  intros mk e bs a N Hu Ha. unfold padj. destruct (iter_o (padj_block mk e) (rev bs) a) as [a' x] eqn:E. cbn.
  refine (iter_o_inv _ (fun a1 : aenv => forall v, N v -> a1 v = None) _ _ _ _ _ Ha E).
  intros s b s' e' Hb Hs Hf v Hv. replace s' with (fst (padj_block mk e s b)) by now rewrite Hf. clear Hf.
  destruct (in_dec Nat.eq_dec v (b_deps b)) as [Hd|Hd]; [|rewrite padj_block_frame; auto].
  unfold padj_block. replace (existsb is_some (map s (b_outs b))) with false; [apply Hs; exact Hv|].
  symmetry. destruct (existsb is_some (map s (b_outs b))) eqn:Ex; [|reflexivity].
  apply existsb_exists in Ex as [y [Hy Hi]]. apply in_map_iff in Hy as [o [Ho Hin]].
  rewrite (Hs o) in Ho; [subst y; discriminate|]. apply (Hu b v o); auto. now apply in_rev.
Qed.

Lemma grad_no_influence : forall bs J ctrls adj h g i c, topo bs -> no_ctrl h ->
  ~ In J (find_relevant bs [c]) -> (In c (vars_of bs) \/ bv_adj (h c) = None) ->
  snd (compute_gradient F bs J ctrls adj h) = Ok g -> nth_error ctrls i = Some c -> nth_error g i = Some (f_zero F).
Proof.
  intros bs J ctrls adj h g i c Ht Hn HJ Hc G Hi.
  destruct (grad_spec bs J ctrls adj h Hn) as [A1 _]. rewrite A1 in G. clear A1.
  destruct (snd (padj _ _ _ (start_adj bs J adj h))); [discriminate|]. inversion G. clear G.
  rewrite nth_error_map, Hi. cbn. f_equal. unfold grad_of.
  rewrite (padj_none _ _ _ _ (fun v => In v (find_relevant bs [c])) (find_relevant_upward bs [c] Ht)); [reflexivity| |apply find_relevant_incl; now left].
  intros v Hv. unfold start_adj. destruct (Nat.eqb_spec v J) as [->|]; [contradiction|].
  destruct (mem v (vars_of bs)) eqn:Em; [reflexivity|]. apply mem_false in Em.
  apply find_relevant_cases in Hv as [[<-|[]]|Hv].
  - destruct Hc; [contradiction|assumption].
  - exfalso. apply Em. unfold vars_of. apply in_or_app. now right.
Qed.

End Sweep.
