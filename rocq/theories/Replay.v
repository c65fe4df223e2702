(** Recording simulates the specification interpreter, and replay of the recorded tape gives the
    specification's value. *)
From Coq Require Import List Arith ZArith Lia Bool.
From Verif Require Import Base Model BaseFacts Graph Record Spec RecordFacts.
Import ListNotations.

Section Replay.
Context {V : Type} (F : fops V).
Implicit Types (w : world V) (h : heap V) (s : sst V) (ov : override V).

(** ** Evaluating a block list from environments that agree on what is read *)
Lemma existsb_ext_in : forall {A} (f g : A -> bool) l, (forall x, In x l -> f x = g x) -> existsb f l = existsb g l.
Proof.
  intros A f g l. induction l as [|x r IH]; intros H; cbn; [reflexivity|].
  rewrite H by now left. rewrite IH; [reflexivity|]. intros; apply H; now right.
Qed.

Lemma geval_block_agree : forall cut1 cut2 b (e1 e2 : env) (S : nat -> Prop),
  (forall d, In d (b_deps b) -> S d) -> (forall v, In v (b_outs b) -> cut1 v = cut2 v) ->
  (forall v, S v -> e1 v = e2 v) ->
  snd (geval_block F cut1 e1 b) = snd (geval_block F cut2 e2 b) /\
  (forall v, S v -> fst (geval_block F cut1 e1 b) v = fst (geval_block F cut2 e2 b) v).
Proof.
  intros cut1 cut2 b e1 e2 S Hd Hc HS. unfold geval_block.
  rewrite (existsb_ext_in cut1 cut2) by assumption.
  destruct (existsb cut2 (b_outs b)); [cbn; auto|].
  replace (map e2 (b_deps b)) with (map e1 (b_deps b)).
  2:{ apply map_ext_in. intros d Hin. apply HS. auto. }
  apply (iter_o_sim _ _ (fun a1 a2 : env => forall v, S v -> a1 v = a2 v)); [|assumption].
  intros a1 a2 [i o] _ R. cbn [fst snd].
  destruct (comp_recompute _ _ _ _) as [[x|]|]; cbn; auto.
  split; [reflexivity|]. intros v Hv. unfold eset. destruct (Nat.eqb v o); auto.
Qed.

Lemma geval_agree : forall cut1 cut2 bs (e1 e2 : env) (S : nat -> Prop),
  (forall d, In d (deps_of bs) -> S d) -> (forall v, In v (outs_of bs) -> cut1 v = cut2 v) ->
  (forall v, S v -> e1 v = e2 v) ->
  snd (geval F cut1 bs e1) = snd (geval F cut2 bs e2) /\
  (forall v, S v -> fst (geval F cut1 bs e1) v = fst (geval F cut2 bs e2) v).
Proof.
  intros cut1 cut2 bs e1 e2 S Hd Hc HS. unfold geval.
  apply (iter_o_sim (geval_block F cut1) (geval_block F cut2) (fun a1 a2 : env => forall v, S v -> a1 v = a2 v)); [|assumption].
  intros a1 a2 b Hb R. apply geval_block_agree; auto.
  - intros d Hin. apply Hd. unfold deps_of. apply in_flat_map. eauto.
  - intros v Hin. apply Hc. unfold outs_of. apply in_flat_map. eauto.
Qed.

Lemma geval_outside : forall cut bs (e : env) v, ~ In v (outs_of bs) -> fst (geval F cut bs e) v = e v.
Proof. intros cut bs e v H. apply geval_frame. intros K. apply H. eapply computed_outs; eauto. Qed.

Lemma geval_snoc : forall cut bs b (e : env),
  geval F cut (bs ++ [b]) e = andthen (geval F cut bs e) (fun e1 => geval_block F cut e1 b).
Proof.
  intros. unfold geval. rewrite iter_o_app. unfold andthen. destruct (iter_o _ bs e) as [e1 [x|]]; [reflexivity|].
  cbn. destruct (geval_block F cut e1 b) as [e2 [x|]]; reflexivity.
Qed.

(** A block that recomputes what the re-run gives. *)
Definition again_val (again : res (list V)) (i : nat) : res (option V) :=
  match again with
  | Err e => Err e
  | Ok zs => match nth_error zs i with Some z => Ok (Some z) | None => Err EIndex end
  end.

Lemma geval_block_again : forall cut b (e : env) again,
  NoDup (b_outs b) -> existsb cut (b_outs b) = false -> b_outs b <> [] ->
  (forall i, i < length (b_outs b) -> comp_recompute F (b_kind b) (map e (b_deps b)) i = again_val again i) ->
  snd (geval_block F cut e b) =
    match again with
    | Err x => Some x
    | Ok zs => if Nat.ltb (length zs) (length (b_outs b)) then Some EIndex else None
    end /\
  (forall zs, again = Ok zs -> length (b_outs b) <= length zs ->
     forall i o, nth_error (b_outs b) i = Some o -> nth_error zs i = Some (fst (geval_block F cut e b) o)).
Proof.
  intros cut b e again Hnd Hcut Hne Hag. unfold geval_block. rewrite Hcut.
  set (inputs := map e (b_deps b)) in *.
  set (f := fun e' (io : nat * nat) => _).
  assert (Ef : forall a i o, i < length (b_outs b) -> f a (i, o) = match again_val again i with
                                        | Err x => (a, Some x) | Ok None => (a, None)
                                        | Ok (Some x) => (eset a o x, None) end).
  { intros a i o Hi. unfold f. cbn [fst snd]. now rewrite Hag. }
  unfold enum. destruct again as [zs|x].
  2:{ destruct (b_outs b) as [|o r]; [congruence|]. cbn [enum_from iter_o]. rewrite Ef by (cbn; lia). cbn. split; [reflexivity|discriminate]. }
  assert (G : forall l k (a : env), NoDup l -> k + length l <= length (b_outs b) ->
     snd (iter_o f (enum_from k l) a) = (if Nat.eqb (length l) 0 then None else if Nat.ltb (length zs) (k + length l) then Some EIndex else None) /\
     (k + length l <= length zs -> forall i o, nth_error l i = Some o -> nth_error zs (k + i) = Some (fst (iter_o f (enum_from k l) a) o)) /\
     (forall v, ~ In v l -> fst (iter_o f (enum_from k l) a) v = a v)).
  { induction l as [|o r IH]; intros k a Hn Hlen.
    - cbn. repeat split; auto. intros _ i o H. destruct i; discriminate.
    - inversion Hn as [|? ? Hnin Hn']; subst. cbn [enum_from iter_o]. cbn [length] in Hlen. rewrite Ef by lia. unfold again_val.
      destruct (nth_error zs k) as [z|] eqn:Ez.
      + destruct (IH (S k) (eset a o z) Hn' ltac:(lia)) as [A [B C]].
        assert (Hk : k < length zs) by (apply nth_error_some_lt in Ez; exact Ez).
        split; [|split].
        * rewrite A. cbn [length Nat.eqb]. destruct r as [|o' r'].
          -- cbn [length Nat.eqb]. destruct (Nat.ltb_spec (length zs) (k + 1)); [lia|reflexivity].
          -- cbn [length Nat.eqb]. replace (S k + S (length r')) with (k + S (S (length r'))) by lia. reflexivity.
        * intros Hle i o' Hi. destruct i as [|i]; cbn in Hi.
          -- inversion Hi; subst o'. rewrite Nat.add_0_r, Ez. rewrite C by assumption. unfold eset. now rewrite Nat.eqb_refl.
          -- replace (k + S i) with (S k + i) by lia. apply B; [cbn in Hle; lia|assumption].
        * intros v Hv. rewrite C by (intros H; apply Hv; now right). unfold eset.
          destruct (Nat.eqb_spec v o); [exfalso; apply Hv; now left|reflexivity].
      + apply nth_error_None in Ez. cbn [fst snd length Nat.eqb]. split; [|split; [intros; lia|reflexivity]].
        destruct (Nat.ltb_spec (length zs) (k + S (length r))); [reflexivity|lia]. }
  destruct (G (b_outs b) 0 e Hnd (le_n _)) as [A [B C]]. split.
  - rewrite A. destruct (b_outs b); [congruence|reflexivity].
  - intros zs' Hz Hle i o Hi. inversion Hz; subst zs'. now apply (B Hle i o).
Qed.

(** ** The simulation *)
Definition ov_env ov h : env := fun v => prescribed ov (verb (h v)) (bv_rec (h v)).
Definition ov_cut ov h : nat -> bool := fun v => is_some (ov (verb (h v))).
Definition genv ov w := geval F (ov_cut ov (w_heap w)) (flat w) (ov_env ov (w_heap w)).

Record Sim ov w s : Prop := {
  sm_len : length (w_objs w) = length (s_objs s);
  sm_obj : forall o ob so, nth_error (w_objs w) o = Some ob -> nth_error (s_objs s) o = Some so ->
    o_val ob = s_rec so /\ o_gen ob = s_gen so;
  sm_ann : w_ann w = s_ann s;
  sm_ctrls : s_ctrls s = map (fun v => (verb (w_heap w v), bv_rec (w_heap w v))) (w_ctrls w);
  sm_err : s_err s = snd (genv ov w);
  sm_rep : s_err s = None -> forall o ob so, nth_error (w_objs w) o = Some ob -> nth_error (s_objs s) o = Some so ->
    match o_bv ob with
    | Some v => fst (genv ov w) v = s_rep so
    | None => s_rep so = prescribed ov (o, o_gen ob) (o_val ob)
    end
}.

Lemma ghost_ver : forall b b' : bvar V, ghost b = ghost b' -> verb b = verb b' /\ bv_rec b = bv_rec b'.
Proof. intros b b' H. unfold ghost in H. unfold verb. injection H as A B C. now rewrite A, B, C. Qed.

Lemma ghost_pair : forall b b' : bvar V, ghost b = ghost b' -> (verb b, bv_rec b) = (verb b', bv_rec b').
Proof. intros b b' H. destruct (ghost_ver b b' H) as [-> ->]. reflexivity. Qed.

Lemma flat_refs : forall pend w v, In v (vars_of (flat w)) -> In v (refs pend w).
Proof. intros. unfold refs. apply in_or_app. now left. Qed.

Lemma genv_ext : forall pend ov w w', WInv F pend w -> flat w' = flat w ->
  (forall v, v < w_next w -> ghost (w_heap w' v) = ghost (w_heap w v)) ->
  snd (genv ov w') = snd (genv ov w) /\
  (forall v, v < w_next w -> fst (genv ov w') v = fst (genv ov w) v) /\
  (forall v, w_next w <= v -> fst (genv ov w') v = ov_env ov (w_heap w') v).
Proof.
  intros pend ov w w' W Hf Hg. unfold genv. rewrite Hf.
  assert (Hlt : forall v, In v (vars_of (flat w)) -> v < w_next w).
  { intros v Hv. apply (wi_live F pend w W). apply flat_refs. exact Hv. }
  destruct (geval_agree (ov_cut ov (w_heap w')) (ov_cut ov (w_heap w)) (flat w)
              (ov_env ov (w_heap w')) (ov_env ov (w_heap w)) (fun v => v < w_next w)) as [A B].
  - intros d Hd. apply Hlt. unfold vars_of. apply in_or_app. now left.
  - intros v Hv. unfold ov_cut. destruct (ghost_ver _ _ (Hg v ltac:(apply Hlt; unfold vars_of; apply in_or_app; now right))) as [E _].
    now rewrite E.
  - intros v Hv. unfold ov_env. destruct (ghost_ver _ _ (Hg v Hv)) as [E1 E2]. now rewrite E1, E2.
  - split; [exact A|]. split; [exact B|].
    intros v Hv. apply geval_outside. intros Hin.
    assert (v < w_next w); [apply Hlt; unfold vars_of; apply in_or_app; now right|lia].
Qed.

Lemma cur_ghost : forall pend w o v, WInv F pend w -> cur w o v ->
  exists ob, nth_error (w_objs w) o = Some ob /\ o_bv ob = Some v /\
    verb (w_heap w v) = (o, o_gen ob) /\ bv_rec (w_heap w v) = o_val ob.
Proof.
  intros pend w o v W [ob [A B]]. exists ob. destruct (wi_cur F pend w W _ _ _ A B) as [_ [G _]].
  unfold ghost in G. unfold verb. injection G as G1 G2 G3. now rewrite G1, G2, G3.
Qed.

Lemma Sim_evolves : forall pend ov w w' s, WInv F pend w -> WInv F pend w' -> evolves w w' -> Sim ov w s -> Sim ov w' s.
Proof.
  intros pend ov w w' s W W' E S.
  destruct (genv_ext pend ov w w' W (ev_flat _ _ E) (ev_ghost _ _ E)) as [G1 [G2 G3]].
  pose proof E as [e1 e2 e3 e4 e5 e6 e7 e8]. pose proof S as [s1 s2 s3 s4 s5 s6].
  assert (Hback : forall o ob', nth_error (w_objs w') o = Some ob' -> exists ob, nth_error (w_objs w) o = Some ob).
  { intros o ob' H. apply nth_error_some_lt in H. rewrite e5 in H.
    destruct (nth_error (w_objs w) o) eqn:En; [eauto|]. apply nth_error_None in En. lia. }
  constructor.
  - congruence.
  - intros o ob' so H1 H2. destruct (Hback _ _ H1) as [ob H0].
    destruct (e8 _ _ H0) as [ob2 [K1 [K2 [K3 _]]]]. assert (ob2 = ob') by congruence. subst.
    destruct (s2 _ _ _ H0 H2). split; congruence.
  - congruence.
  - rewrite s4, e3. apply map_ext_in. intros v Hv. symmetry. apply ghost_pair. apply e6.
    apply (wi_live F pend w W). unfold refs. rewrite !in_app_iff. tauto.
  - congruence.
  - intros Hn o ob' so H1 H2. destruct (Hback _ _ H1) as [ob H0].
    destruct (e8 _ _ H0) as [ob2 [K1 [K2 [K3 [K4 K5]]]]]. assert (ob2 = ob') by congruence. subst ob2.
    specialize (s6 Hn o ob so H0 H2).
    destruct (o_bv ob') as [v|] eqn:Ev.
    + destruct (K5 v eq_refl) as [Hb|[Hb Hlt]].
      * rewrite Hb in s6. rewrite G2; [exact s6|]. eapply WInv_cur_lt; [exact W|exists ob; eauto].
      * rewrite Hb in s6. rewrite G3 by assumption. unfold ov_env.
        destruct (cur_ghost pend w' o v W') as [ob3 [L1 [L2 [L3 L4]]]]; [exists ob'; auto|].
        assert (ob3 = ob') by congruence. subst. rewrite L3, L4, K2, K3. now symmetry.
    + destruct (o_bv ob) as [u|] eqn:Eu; [specialize (K4 u eq_refl); congruence|].
      rewrite K2, K3. exact s6.
Qed.

(** Reading arguments. *)
Lemma get_args_spec : forall (f : sobj V -> V) s args xs,
  get_args f s args = Some xs <-> Forall2 (fun o x => exists so, nth_error (s_objs s) o = Some so /\ f so = x) args xs.
Proof.
  intros f s args. induction args as [|o r IH]; intros xs; cbn.
  - split; [intros H; inversion H; constructor|intros H; inversion H; reflexivity].
  - split.
    + destruct (nth_error (s_objs s) o) as [so|] eqn:E; [|discriminate].
      destruct (fold_right _ _ r) as [l|] eqn:E2; [|discriminate]. intros H. inversion H; subst.
      constructor; [eauto|]. apply IH. exact E2.
    + intros H. inversion H as [|? ? ? ? [so [A B]] H']; subst. rewrite A.
      apply IH in H'. unfold get_args in H'. now rewrite H'.
Qed.

Lemma arg_vals_spec : forall w args xs,
  arg_vals w args = Ok xs <-> Forall2 (fun o x => exists ob, nth_error (w_objs w) o = Some ob /\ o_val ob = x) args xs.
Proof.
  intros w args. unfold arg_vals. induction args as [|o r IH]; intros xs; cbn.
  - split; [intros H; inversion H; constructor|intros H; inversion H; reflexivity].
  - split.
    + destruct (nth_error (w_objs w) o) as [so|] eqn:E; [|discriminate].
      destruct (mapM _ r) as [l|] eqn:E2; [|discriminate]. intros H. inversion H; subst.
      constructor; [eauto|]. apply IH. reflexivity.
    + intros H. inversion H as [|? ? ? ? [so [A B]] H']; subst. rewrite A.
      apply IH in H'. now rewrite H'.
Qed.

Lemma args_match : forall ov w s args, Sim ov w s ->
  match arg_vals w args with
  | Ok xs => get_args s_rec s args = Some xs /\ exists ps, get_args s_rep s args = Some ps
  | Err _ => get_args s_rec s args = None
  end.
Proof.
  intros ov w s args S. destruct (arg_vals w args) as [xs|e] eqn:E.
  - apply arg_vals_spec in E.
    assert (G : Forall2 (fun o x => exists so, nth_error (s_objs s) o = Some so /\ s_rec so = x) args xs).
    { eapply Forall2_impl'; [|exact E]. intros o x [ob [A B]].
      destruct (nth_error (s_objs s) o) as [so|] eqn:En.
      - exists so. split; [reflexivity|]. destruct (sm_obj _ _ _ S _ _ _ A En). congruence.
      - apply nth_error_None in En. apply nth_error_some_lt in A. rewrite (sm_len _ _ _ S) in A. lia. }
    split; [now apply get_args_spec|].
    clear E. induction G as [|o x l m [so [A B]] G IH]; [exists []; reflexivity|].
    destruct IH as [ps H]. exists (s_rep so :: ps). apply get_args_spec. constructor; [eauto|]. now apply get_args_spec.
  - destruct (get_args s_rec s args) as [xs|] eqn:E2; [|reflexivity]. exfalso.
    apply get_args_spec in E2.
    assert (G : arg_vals w args = Ok xs); [|congruence].
    apply arg_vals_spec. eapply Forall2_impl'; [|exact E2]. intros o x [so [A B]].
    destruct (nth_error (w_objs w) o) as [ob|] eqn:En.
    + exists ob. split; [reflexivity|]. destruct (sm_obj _ _ _ S _ _ _ En A). congruence.
    + apply nth_error_None in En. apply nth_error_some_lt in A. rewrite (sm_len _ _ _ S) in En. lia.
Qed.

Lemma args_lt : forall w args xs, arg_vals w args = Ok xs -> Forall (fun o => o < length (w_objs w)) args.
Proof.
  intros w args xs H. apply arg_vals_spec in H. induction H as [|o x l m [ob [A B]] H IH]; constructor; [|exact IH].
  now apply nth_error_some_lt in A.
Qed.

Lemma cur_rep : forall ov w s args vs ps, Sim ov w s -> Forall2 (cur w) args vs ->
  get_args s_rep s args = Some ps -> s_err s = None -> map (fst (genv ov w)) vs = ps.
Proof.
  intros ov w s args vs ps S H Hp Hn. apply get_args_spec in Hp. revert ps Hp.
  induction H as [|o v l m [ob [A B]] H IH]; intros ps Hp; inversion Hp as [|? ? ? ? [so [C D]] Hp']; subst; cbn; [reflexivity|].
  f_equal; [|now apply IH].
  pose proof (sm_rep _ _ _ S Hn _ _ _ A C) as R. now rewrite B in R.
Qed.
Lemma cur_rec : forall pend w args vs xs, WInv F pend w -> Forall2 (cur w) args vs ->
  arg_vals w args = Ok xs -> map (recs (w_heap w)) vs = xs.
Proof.
  intros pend w args vs xs W H Hp. apply arg_vals_spec in Hp. revert xs Hp.
  induction H as [|o v l m Hc H IH]; intros ps Hp; inversion Hp as [|? ? ? ? [ob [C D]] Hp']; subst; cbn; [reflexivity|].
  f_equal; [|now apply IH].
  destruct (cur_ghost pend w o v W Hc) as [ob' [A [_ [_ B]]]]. unfold recs. congruence.
Qed.

(** New objects that are not (yet) on the tape. *)
Definition plain_reps ov s (ys : list V) : list V :=
  map (fun vy => prescribed ov (fst vy) (snd vy)) (combine (next_vers s (length ys)) ys).
Definition push_plain ov s (ys : list V) : sst V := push (sobjs_new ys (plain_reps ov s ys)) s.

Lemma Sim_new_obj : forall ov w s x, Sim ov w s ->
  Sim ov (fst (new_obj w x)) (push [SObj x (prescribed ov (length (s_objs s), 0) x) 0] s).
Proof.
  intros ov w s x S. pose proof S as [s1 s2 s3 s4 s5 s6].
  unfold new_obj, with_objs, push. cbn [fst].
  assert (K : forall o (ob : obj V) (so : sobj V),
    nth_error (w_objs w ++ [Obj x None 0]) o = Some ob ->
    nth_error (s_objs s ++ [SObj x (prescribed ov (length (s_objs s), 0) x) 0]) o = Some so ->
    (nth_error (w_objs w) o = Some ob /\ nth_error (s_objs s) o = Some so) \/
    (o = length (s_objs s) /\ ob = Obj x None 0 /\ so = SObj x (prescribed ov (length (s_objs s), 0) x) 0)).
  { intros o ob so H1 H2. destruct (lt_dec o (length (s_objs s))) as [Hl|Hl].
    - left. rewrite nth_error_app1 in H1, H2 by lia. auto.
    - right. assert (o = length (s_objs s)).
      { apply nth_error_some_lt in H2. rewrite app_length in H2. cbn in H2. lia. }
      subst o. rewrite nth_error_app2 in H1, H2 by lia. rewrite s1 in H1. rewrite Nat.sub_diag in H1, H2. cbn in *.
      split; [reflexivity|]. split; congruence. }
  constructor; cbn [w_objs w_ann w_ctrls w_heap s_objs s_ann s_err s_ctrls]; auto.
  - rewrite !app_length. cbn. lia.
  - intros o ob so H1 H2. destruct (K o ob so H1 H2) as [[A B]|[A [-> ->]]]; [eauto|]. cbn. auto.
  - intros Hn o ob so H1 H2. destruct (K o ob so H1 H2) as [[A B]|[A [-> ->]]]; [exact (s6 Hn o ob so A B)|]. cbn. now subst.
Qed.

Lemma combine_map_seq : forall n (ys : list V) ov,
  map (fun vy : ver * V => prescribed ov (fst vy) (snd vy)) (combine (map (fun i => (i, 0)) (seq n (length ys))) ys)
  = map (fun iy => prescribed ov (fst iy, 0) (snd iy)) (enum_from n ys).
Proof.
  intros n ys ov. revert n. induction ys as [|y r IH]; intros n; cbn; [reflexivity|]. now rewrite IH.
Qed.

Lemma push_plain_cons : forall ov s y ys,
  push_plain ov s (y :: ys) = push_plain ov (push [SObj y (prescribed ov (length (s_objs s), 0) y) 0] s) ys.
Proof.
  intros ov s y ys. unfold push_plain, push, sobjs_new, plain_reps, next_vers. cbn [s_objs s_ann s_err s_ctrls length].
  rewrite !combine_map_seq. rewrite app_length. cbn [length enum_from map seq combine fst snd].
  replace (length (s_objs s) + 1) with (S (length (s_objs s))) by lia.
  rewrite <- app_assoc. cbn [app]. rewrite <- !combine_map_seq. reflexivity.
Qed.

Lemma new_objs_spec : forall ys pend ov w s, WInv F pend w -> Sim ov w s ->
  let '(w', os) := new_objs w ys in
  WInv F pend w' /\ Sim ov w' (push_plain ov s ys) /\ os = seq (length (w_objs w)) (length ys) /\
  w_objs w' = w_objs w ++ map (fun y => Obj y None 0) ys /\
  w_heap w' = w_heap w /\ w_next w' = w_next w /\ w_tape w' = w_tape w /\ w_ann w' = w_ann w /\ w_ctrls w' = w_ctrls w.
Proof.
  induction ys as [|y r IH]; intros pend ov w s W S; cbn [new_objs].
  - split; [exact W|]. split.
    { unfold push_plain, push. cbn. rewrite app_nil_r. destruct s. exact S. }
    cbn. rewrite app_nil_r. repeat split.
  - specialize (IH pend ov (fst (new_obj w y)) (push [SObj y (prescribed ov (length (s_objs s), 0) y) 0] s)
               (WInv_new_obj F pend w y W) (Sim_new_obj ov w s y S)).
    unfold new_obj in *. cbn [fst] in IH.
    destruct (new_objs (with_objs _ w) r) as [w2 os].
    destruct IH as [A [B [C [D [E [G [H1 [H2 H3]]]]]]]].
    split; [exact A|]. split; [now rewrite push_plain_cons|]. split.
    { cbn [length seq]. rewrite C. f_equal. cbn. rewrite app_length. cbn. f_equal. lia. }
    split; [|repeat split; assumption]. rewrite D. cbn. now rewrite <- app_assoc.
Qed.

(** Outputs for objects that have no block variable. *)
Lemma add_outs_spec : forall os pend w, WInv F pend w ->
  (forall o, In o os -> exists ob, nth_error (w_objs w) o = Some ob /\ o_bv ob = None) -> NoDup os ->
  let '(w', vs) := add_outs w os in
  WInv F pend w' /\ evolves w w' /\ Forall2 (cur w') os vs /\ NoDup vs /\ Forall (fun v => w_next w <= v) vs.
Proof.
  induction os as [|o r IH]; intros pend w W Ho Hn; cbn [add_outs].
  - split; [assumption|]. split; [apply evolves_refl|]. split; [constructor|]. split; constructor.
  - inversion Hn as [|? ? Hnin Hn']; subst.
    destruct (Ho o) as [ob [H1 H2]]; [now left|].
    assert (W1 : WInv F pend (fst (create_bv w o))).
    { eapply WInv_create; eauto. intros b u Hb Hu. eapply (wi_none F pend w W); eauto. congruence. }
    pose proof (evolves_create F pend w o ob W H1 H2) as E1.
    pose proof (create_bv_spec w o ob H1) as Hc.
    destruct (create_bv w o) as [w1 v]. cbn [fst] in *.
    assert (Hv : v = w_next w) by now inversion Hc.
    assert (Hcur : cur w1 o v).
    { inversion Hc; subst. exists (Obj (o_val ob) (Some (w_next w)) (o_gen ob)). cbn. rewrite nth_list_set, Nat.eqb_refl, H1. auto. }
    assert (Hnext : w_next w1 = S (w_next w)) by now inversion Hc.
    pose proof (will_out_touches w1 v) as T.
    assert (W2 : WInv F pend (will_out w1 v)) by (eapply touches_WInv; eauto; exists o; exact Hcur).
    specialize (IH pend (will_out w1 v) W2).
    destruct (add_outs (will_out w1 v) r) as [w2 vs].
    destruct IH as [W3 [E3 [C3 [N3 F3]]]]; [|assumption|].
    { intros i Hi. destruct (Ho i) as [b [B1 B2]]; [now right|].
      rewrite (to_objs _ _ _ T). exists b. split; [|exact B2].
      inversion Hc; subst. cbn. rewrite nth_list_set. destruct (Nat.eqb_spec o i); [subst; contradiction|exact B1]. }
    rewrite (to_next _ _ _ T), Hnext in F3.
    split; [assumption|]. split.
    { eapply evolves_trans; [exact E1|]. eapply evolves_trans; [eapply touches_evolves; exact T|exact E3]. }
    split.
    { constructor; [|exact C3]. eapply evolves_cur; [exact E3|]. eapply evolves_cur; [eapply touches_evolves; exact T|exact Hcur]. }
    split.
    { constructor; [|exact N3]. intros Hin. apply (proj1 (Forall_forall _ _) F3) in Hin. lia. }
    constructor; [lia|]. eapply Forall_impl; [|exact F3]. intros a Ha. cbn in Ha. lia.
Qed.

(** The step at which a finished block is on the tape. *)
Lemma Sim_block : forall pend ov w w' s1 s' b os ps again,
  WInv F pend w -> Sim ov w s1 ->
  w_objs w' = w_objs w -> w_heap w' = w_heap w -> w_next w' = w_next w -> w_ann w' = w_ann w -> w_ctrls w' = w_ctrls w ->
  genv ov w' = andthen (genv ov w) (fun e => geval_block F (ov_cut ov (w_heap w)) e b) ->
  Forall2 (cur w) os (b_outs b) -> NoDup (b_outs b) ->
  (s_err s1 = None -> map (fst (genv ov w)) (b_deps b) = ps) ->
  (forall i, i < length (b_outs b) -> comp_recompute F (b_kind b) ps i = again_val again i) ->
  existsb (ov_cut ov (w_heap w)) (b_outs b) = false -> b_outs b <> [] ->
  length (s_objs s') = length (s_objs s1) -> s_ann s' = s_ann s1 -> s_ctrls s' = s_ctrls s1 ->
  (forall o so', nth_error (s_objs s') o = Some so' -> exists so1, nth_error (s_objs s1) o = Some so1 /\
      s_rec so' = s_rec so1 /\ s_gen so' = s_gen so1 /\ (~ In o os -> s_rep so' = s_rep so1) /\
      (forall i zs, again = Ok zs -> length (b_outs b) <= length zs -> nth_error os i = Some o -> nth_error zs i = Some (s_rep so'))) ->
  s_err s' = match s_err s1 with
             | Some e => Some e
             | None => match again with
                       | Err e => Some e
                       | Ok zs => if Nat.ltb (length zs) (length (b_outs b)) then Some EIndex else None
                       end
             end ->
  Sim ov w' s'.
Proof.
  intros pend ov w w' s1 s' b os ps again W S Eo Eh En Ea Ec Eg Hos Hnd Hps Hag Hcut Hne Hlen Hann Hct Hobj Herr.
  assert (Hlt : forall o v, cur w o v -> v < w_next w) by (intros; eapply WInv_cur_lt; eauto).
  destruct (genv ov w) as [e x] eqn:Egw. pose proof S as [q1 q2 q3 q4 q5 q6]. rewrite Egw in q5, q6. cbn [fst snd] in *.
  subst x. cbn [andthen] in Eg.
  assert (Hbr : s_err s1 = None -> snd (genv ov w') = s_err s' /\
     (s_err s' = None -> exists zs, again = Ok zs /\ length (b_outs b) <= length zs)).
  { intros Hn. rewrite Hn in Eg.
    destruct (geval_block_again (ov_cut ov (w_heap w)) b e again Hnd Hcut Hne) as [A B].
    { rewrite Hps by assumption. exact Hag. }
    rewrite Eg, A. rewrite Herr, Hn. split; [reflexivity|].
    destruct again as [zs|]; [|discriminate]. destruct (Nat.ltb_spec (length zs) (length (b_outs b))); [discriminate|].
    intros _. exists zs. auto. }
  constructor.
  - congruence.
  - intros o ob so' H1 H2. rewrite Eo in H1. destruct (Hobj o so' H2) as [so1 [A [B [C _]]]].
    destruct (q2 _ _ _ H1 A). split; congruence.
  - congruence.
  - rewrite Hct, q4, Eh, Ec. reflexivity.
  - destruct (s_err s1) as [e1|] eqn:E1.
    + rewrite Herr, Eg. reflexivity.
    + symmetry. now apply Hbr.
  - intros Hn o ob so' H1 H2. rewrite Eo in H1. destruct (Hobj o so' H2) as [so1 [A [B [C [D G]]]]].
    destruct (s_err s1) as [e1|] eqn:E1; [rewrite Herr in Hn; discriminate|].
    destruct (Hbr eq_refl) as [_ Hz]. destruct (Hz Hn) as [zs [Hz1 Hz2]].
    pose proof (q6 eq_refl o ob so1 H1 A) as R. rewrite Eg.
    destruct (geval_block_again (ov_cut ov (w_heap w)) b e again Hnd Hcut Hne) as [_ Bk].
    { rewrite Hps by reflexivity. exact Hag. }
    destruct (o_bv ob) as [v|] eqn:Ev.
    + destruct (in_dec Nat.eq_dec o os) as [Hin|Hnin].
      * apply In_nth_error in Hin as [i Hi].
        assert (Hv : nth_error (b_outs b) i = Some v).
        { clear - Hos Hi H1 Ev. revert i Hi. induction Hos as [|a c l m [ob' [K1 K2]] Hr IH]; intros [|i] Hi; cbn in *; try discriminate.
          - inversion Hi; subst. congruence.
          - eauto. }
        specialize (Bk zs Hz1 Hz2 i v Hv). specialize (G i zs Hz1 Hz2 Hi). congruence.
      * rewrite D by assumption. rewrite <- R. apply geval_block_frame.
        intros Hin. apply Hnin. clear - Hos Hin H1 Ev W.
        assert (Hcv : cur w o v) by (exists ob; auto).
        induction Hos as [|a c l m Hc Hr IH]; [easy|]. destruct Hin as [<-|Hin].
        -- left. rewrite <- (WInv_cur_obj F pend w a c W Hc). apply (WInv_cur_obj F pend w o c W Hcv).
        -- right. auto.
    + rewrite D; [exact R|]. intros Hin. clear - Hos Hin H1 Ev.
      induction Hos as [|a c l m [ob' [K1 K2]] Hr IH]; [easy|]. destruct Hin as [->|Hin]; [congruence|auto].
Qed.

(** Adding a block that has no effect on replay. *)
Lemma Sim_same : forall ov w w' s, Sim ov w s ->
  w_objs w' = w_objs w -> w_heap w' = w_heap w -> w_ann w' = w_ann w -> w_ctrls w' = w_ctrls w ->
  genv ov w' = genv ov w -> Sim ov w' s.
Proof.
  intros ov w w' s [q1 q2 q3 q4 q5 q6] E1 E2 E3 E4 E5.
  constructor; rewrite ?E1, ?E2, ?E3, ?E4, ?E5; auto.
Qed.

Lemma genv_no_outs : forall ov w w' b, flat w' = flat w ++ [b] -> b_outs b = [] -> w_heap w' = w_heap w -> genv ov w' = genv ov w.
Proof.
  intros ov w w' b Hf Hb Hh. unfold genv. rewrite Hf, Hh, geval_snoc.
  destruct (geval F _ (flat w) _) as [e [x|]]; cbn; [reflexivity|]. unfold geval_block. rewrite Hb. reflexivity.
Qed.
Lemma genv_cut : forall ov w w' b, flat w' = flat w ++ [b] -> existsb (ov_cut ov (w_heap w)) (b_outs b) = true -> w_heap w' = w_heap w -> genv ov w' = genv ov w.
Proof.
  intros ov w w' b Hf Hb Hh. unfold genv. rewrite Hf, Hh, geval_snoc.
  destruct (geval F _ (flat w) _) as [e [x|]]; cbn; [reflexivity|]. rewrite geval_block_cut_frame by assumption. reflexivity.
Qed.

Definition builtin (k : kind V) : bool := match k with KUser _ => false | _ => true end.

Lemma op_value_sop : forall (k : kind V) op args xs, sargs_ok k op args = true -> length xs = length args ->
  op_value F k xs = sop F k xs /\ (forall i, comp_recompute F k xs i = again_val (rmap (fun y => [y]) (sop F k xs)) 0).
Proof.
  intros k op args xs Ha Hl. destruct args as [|a0 [|a1 [|a2 r]]], xs as [|x0 [|x1 [|x2 r']]]; cbn in Hl; try lia;
    destruct k; try discriminate; cbn; unfold op_value, py_min, py_max; cbn; try (split; [reflexivity|intros; reflexivity]);
    match goal with |- context[bind ?x _] => destruct x; cbn; split; auto end.
Qed.

Lemma sargs_operator : forall (k : kind V) args, sargs_ok k true args = (is_operator k && Nat.eqb (length args) (arity k)).
Proof. intros k args. destruct k, args as [|a [|b [|c r]]]; reflexivity. Qed.
Lemma sargs_function : forall (k : kind V) args, sargs_ok k false args = (is_function k && Nat.eqb (length args) (arity k)).
Proof. intros k args. destruct k, args as [|a [|b [|c r]]]; reflexivity. Qed.
Lemma sargs_arity : forall (k : kind V) op args, sargs_ok k op args = true -> length args = arity k /\ builtin k = true.
Proof. intros k op args H. destruct k, args as [|a [|b [|c r]]]; try discriminate; split; reflexivity. Qed.

End Replay.
