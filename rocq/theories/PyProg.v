(** Python programs over AdjFloats: recording them, evaluating the reduced functional. *)
From Coq Require Import List Arith ZArith Lia Bool.
From Verif Require Import Base Model BaseFacts Graph Record Spec RecordFacts Replay ReplayStep ReplayExec History Session SpecTape SpecPlain Observe Dual PyExp SpecPy PyFacts.
Import ListNotations.

Section PyProg.
Context {V : Type} (F : fops V) (P : pyops V).
Implicit Types (w : world V) (s : sst V) (ov : override V).

(** ** Declarations *)
Lemma declare_spec : forall ov xs s, s_err s = None ->
  let s' := fold_left (spec_stmt F ov) (declare (length (s_objs s)) xs) s in
  s_err s' = None /\ s_ann s' = s_ann s /\
  s_objs s' = s_objs s ++ map (fun ix => SObj (snd ix) (prescribed ov (fst ix, 0) (snd ix)) 0) (combine (seq (length (s_objs s)) (length xs)) xs) /\
  s_ctrls s' = s_ctrls s ++ map (fun ix => ((fst ix, 0), snd ix)) (combine (seq (length (s_objs s)) (length xs)) xs).
Proof.
  intros ov xs. induction xs as [|x r IH]; intros s He; cbv zeta.
  - cbn. rewrite !app_nil_r. auto.
  - cbn [declare fold_left length seq combine map]. set (o := length (s_objs s)).
    set (s1 := spec_stmt F ov (spec_stmt F ov s (SNew x)) (SControl o)).
    assert (E1 : s_objs s1 = s_objs s ++ [SObj x (prescribed ov (o, 0) x) 0] /\ s_ctrls s1 = s_ctrls s ++ [((o, 0), x)] /\ s_err s1 = None /\ s_ann s1 = s_ann s).
    { unfold s1. cbn [spec_stmt]. cbn [push s_objs]. unfold o. rewrite nth_error_app2, Nat.sub_diag by lia. cbn. auto. }
    destruct E1 as [E1 [E2 [E3 E4]]]. specialize (IH s1 E3). cbv zeta in IH.
    replace (length (s_objs s1)) with (S o) in IH by (rewrite E1, app_length; cbn; unfold o; lia).
    destruct IH as [I1 [I2 [I3 I4]]]. repeat split; [exact I1|congruence| |].
    + rewrite I3, E1, <- app_assoc. reflexivity.
    + rewrite I4, E2, <- app_assoc. reflexivity.
Qed.
Lemma declare_keeps : forall xs i w, w_ann (exec F w (declare i xs)) = w_ann w.
Proof.
  induction xs as [|x r IH]; intros i w; [reflexivity|]. cbn [declare].
  change (exec F w (SNew x :: SControl i :: declare (S i) r)) with (exec F (fst (exec_stmt F (fst (exec_stmt F w (SNew x))) (SControl i))) (declare (S i) r)).
  rewrite IH. cbn [exec_stmt]. set (w1 := fst (fst (new_obj w x), None)). change (w_ann w) with (w_ann w1). cbn [exec_stmt]. destruct (nth_error (w_objs w1) i); [|reflexivity].
  pose proof (ann_get_bv w1 i) as A. destruct (get_bv w1 i). exact A.
Qed.
Lemma declare_vals : forall xs w, vals (exec F w (declare (length (vals w)) xs)) = vals w ++ xs.
Proof.
  induction xs as [|x r IH]; intros w; [cbn; now rewrite app_nil_r|]. cbn [declare].
  change (exec F w (SNew x :: SControl (length (vals w)) :: declare (S (length (vals w))) r)) with
    (exec F (fst (exec_stmt F (fst (exec_stmt F w (SNew x))) (SControl (length (vals w))))) (declare (S (length (vals w))) r)).
  set (w1 := fst (exec_stmt F w (SNew x))). set (w2 := fst (exec_stmt F w1 (SControl (length (vals w))))).
  assert (E1 : vals w1 = vals w ++ [x]) by apply new_vals.
  assert (E2 : vals w2 = vals w1).
  { pose proof (exec_plain F w1 (SControl (length (vals w)))) as E. fold w2 in E. apply (f_equal fst) in E. cbn [fst plain] in E. destruct (nth_error (vals w1) _); cbn [fst] in E; now rewrite E. }
  replace (S (length (vals w))) with (length (vals w2)) by (rewrite E2, E1, app_length; cbn; lia). rewrite IH, E2, E1, <- app_assoc. reflexivity.
Qed.
Lemma new_world_vals : forall ann xs, vals (exec F (world_new F ann) (declare 0 xs)) = xs.
Proof. intros ann xs. exact (declare_vals xs (world_new F ann)). Qed.

(** ** Leaves: which block variables are outputs *)
Definition lb n w : Prop := n <= w_next w /\ n <= length (w_objs w) /\
  forall o ob v, n <= o -> nth_error (w_objs w) o = Some ob -> o_bv ob = Some v -> n <= v.
Definition blk_ok n (okk : kind V -> bool) (b : block V) : Prop := okk (b_kind b) = true /\ Forall (le n) (b_outs b).
Definition leafy n okk w : Prop := lb n w /\ Forall (blk_ok n okk) (flat w).

Lemma lb_get_bv : forall n w o, lb n w -> lb n (fst (get_bv w o)).
Proof.
  intros n w o [H1 [H2 H3]]. unfold get_bv, create_bv. destruct (nth_error (w_objs w) o) as [ob|] eqn:Eo; [|now repeat split].
  destruct (o_bv ob); [now repeat split|]. repeat split; cbn; [lia|now rewrite length_list_set|].
  intros o' ob' v Ho E Hv. rewrite nth_list_set in E. rewrite Eo in E. destruct (Nat.eqb o o').
  - injection E as <-. cbn in Hv. injection Hv as <-. exact H1.
  - eauto.
Qed.
Lemma lb_get_snd : forall n w o, n <= o -> lb n w -> n <= snd (get_bv w o).
Proof.
  intros n w o Ho [H1 [H2 H3]]. unfold get_bv, create_bv. destruct (nth_error (w_objs w) o) as [ob|] eqn:Eo; [|exact H1].
  destruct (o_bv ob) eqn:Eb; [cbn; eauto|exact H1].
Qed.
Lemma lb_same : forall n w w', w_next w' = w_next w -> w_objs w' = w_objs w -> lb n w -> lb n w'.
Proof. intros n w w' E1 E2 [H1 [H2 H3]]. unfold lb. rewrite E1, E2. auto. Qed.
Lemma lb_will_dep : forall n w v, lb n w -> lb n (will_dep w v).
Proof. intros n w v. apply lb_same; unfold will_dep, with_heap, with_tape; cbn; destruct (match t_latest _ with None => true | Some _ => _ end); reflexivity. Qed.
Lemma lb_will_out : forall n w v, lb n w -> lb n (will_out w v).
Proof. intros n w v. apply lb_same; unfold will_out, with_heap, with_tape; cbn; destruct (t_eager _); reflexivity. Qed.
Lemma lb_get_bvs : forall n os w, lb n w -> lb n (fst (get_bvs w os)).
Proof.
  intros n os. induction os as [|o r IH]; intros w H; [exact H|]. cbn [get_bvs]. pose proof (lb_get_bv n w o H) as A. destruct (get_bv w o) as [w1 v].
  specialize (IH w1 A). destruct (get_bvs w1 r). exact IH.
Qed.
Lemma lb_add_deps : forall n os w, lb n w -> lb n (fst (add_deps w os)).
Proof.
  intros n os. induction os as [|o r IH]; intros w H; [exact H|]. cbn [add_deps]. unfold add_dep. pose proof (lb_get_bv n w o H) as A. destruct (get_bv w o) as [w1 v].
  specialize (IH (will_dep w1 v) (lb_will_dep n w1 v A)). destruct (add_deps (will_dep w1 v) r). exact IH.
Qed.
Lemma lb_new : forall n w x, lb n w -> lb n (fst (new_obj w x)).
Proof.
  intros n w x [H1 [H2 H3]]. repeat split; cbn; [exact H1|rewrite app_length; lia|]. intros o ob v Ho E Hv.
  destruct (Nat.lt_ge_cases o (length (w_objs w))) as [L|L]; [rewrite nth_error_app1 in E by exact L; eauto|].
  rewrite nth_error_app2 in E by exact L. destruct (o - length (w_objs w)) as [|k]; [|destruct k; discriminate]. cbn in E. injection E as <-. discriminate.
Qed.
Lemma leafy_new : forall n okk w x, leafy n okk w -> leafy n okk (fst (new_obj w x)).
Proof. intros n okk w x [H1 H2]. split; [now apply lb_new|exact H2]. Qed.
Lemma map_last_ok : forall n okk v (l : list (block V)), n <= v -> Forall (blk_ok n okk) l -> Forall (blk_ok n okk) (map_last (push_out v) l).
Proof.
  intros n okk v l Hv H. induction H as [|b r Hb Hr IH]; [constructor|]. cbn. destruct r; [constructor; [|constructor]|constructor; auto].
  destruct Hb as [A B]. split; [exact A|]. cbn. apply Forall_app. auto.
Qed.
(** [will_out] of the object just created, then [block.add_output]. *)
Lemma leafy_out : forall n okk w o, n <= o -> leafy n okk w ->
  leafy n okk (let '(w5, v) := get_bv w o in with_tape (last_push_out v) (will_out w5 v)).
Proof.
  intros n okk w o Ho [H1 H2]. pose proof (lb_get_bv n w o H1) as A. pose proof (lb_get_snd n w o Ho H1) as B. pose proof (flat_get_bv w o) as C.
  destruct (get_bv w o) as [w5 v]. cbn [fst snd] in *. split; [exact (lb_same n _ _ eq_refl eq_refl (lb_will_out n w5 v A))|].
  change (Forall (blk_ok n okk) (map_last (push_out v) (flat (will_out w5 v)))). apply map_last_ok; [exact B|]. rewrite flat_will_out, C. exact H2.
Qed.
Lemma leafy_block : forall n okk w k ds, okk k = true -> leafy n okk w -> leafy n okk (with_tape (fun t => add_block t (Blk k ds [] None)) w).
Proof.
  intros n okk w k ds Hk [H1 H2]. split; [exact (lb_same n w _ eq_refl eq_refl H1)|]. unfold flat in *. cbn [with_tape w_tape]. rewrite flat_add_block. apply Forall_app. split; [exact H2|].
  repeat constructor. exact Hk.
Qed.
Lemma leafy_annotated : forall n okk w k args y, okk k = true -> leafy n okk w -> leafy n okk (annotated w k args y).
Proof.
  intros n okk w k args y Hk [H1 H2]. unfold annotated. cbn [new_obj]. pose proof (lb_new n w y H1) as Hn. set (w1 := with_objs _ w) in *. change (fst (new_obj w y)) with w1 in Hn.
  destruct (w_ann w); [|split; assumption].
  pose proof (lb_get_bvs n args w1 Hn) as A. pose proof (flat_get_bvs args w1) as A'. destruct (get_bvs w1 args) as [w2 ts].
  pose proof (lb_add_deps n args w2 A) as B. pose proof (flat_add_deps args w2) as B'. destruct (add_deps w2 args) as [w3 ds]. cbn [fst] in *.
  pose proof (leafy_out n okk (with_tape (fun t => add_block t (Blk k ts [] None)) w3) (length (w_objs w)) (proj1 (proj2 H1))) as Q.
  destruct (get_bv _ (length (w_objs w))) as [w5 v]. apply Q. apply leafy_block; [exact Hk|]. split; [exact B|]. rewrite B', A'. exact H2.
Qed.
Lemma leafy_fun : forall n okk w k args a, okk k = true -> leafy n okk w -> leafy n okk (fst (exec_fun F w k args a)).
Proof.
  intros n okk w k args a Hk H. unfold exec_fun. destruct (negb _); [exact H|]. destruct (arg_vals w args) as [xs|]; [|exact H].
  set (w1 := if w_ann w && a then _ else w).
  assert (H1 : leafy n okk w1).
  { unfold w1. destruct (w_ann w && a); [|exact H]. destruct H as [H1 H2]. pose proof (lb_add_deps n args w H1) as B. pose proof (flat_add_deps args w) as B'.
    destruct (add_deps w args) as [w3 ds]. cbn [fst] in *. apply leafy_block; [exact Hk|]. split; [exact B|]. rewrite B'. exact H2. }
  destruct (op_value F k xs) as [y|]; [|exact H1]. cbn [new_obj]. pose proof (leafy_new n okk w1 y H1) as H2. set (w2 := with_objs _ w1) in *. change (fst (new_obj w1 y)) with w2 in H2.
  destruct (w_ann w && a); [|exact H2]. pose proof (leafy_out n okk w2 (length (w_objs w1)) (proj1 (proj2 (proj1 H1))) H2) as Q. destruct (get_bv w2 _) as [w5 v]. exact Q.
Qed.

(** Which kinds of blocks an expression may record. *)
Fixpoint kinds_in (okk : kind V -> bool) (e : pexp V) : bool :=
  match e with
  | PLit _ _ | PVar _ => true
  | PBin o a b => kinds_in okk a && kinds_in okk b && match op_kind o with Some k => okk k | None => true end
  | PUn o a => kinds_in okk a && match o with UNeg => okk KNeg | _ => true end
  | PFun1 f a => kinds_in okk a && okk (kind1 f)
  | PFun2 f a b => kinds_in okk a && kinds_in okk b && okk (kind2 f)
  end.

Lemma leafy_to_adj : forall n okk w x, leafy n okk w -> leafy n okk (fst (to_adj w x)).
Proof. intros n okk w [i v|o] H; [now apply leafy_new|exact H]. Qed.
Lemma leafy_bin : forall n okk w o x y, match op_kind o with Some k => okk k | None => true end = true -> leafy n okk w -> leafy n okk (fst (py_bin F P w o x y)).
Proof.
  intros n okk w o x y Hk H. unfold py_bin. destruct (py_val w x) as [a|]; [|exact H]. destruct (py_val w y) as [b|]; [|exact H]. destruct (bin_val F P o a b) as [r|]; [|exact H].
  pose proof (leafy_to_adj n okk w x H) as Hx. pose proof (leafy_to_adj n okk w y H) as Hy.
  destruct x as [i u|ox]; [destruct y as [j v|oy]; [exact H|]|].
  - destruct o; try exact H; cbn [op_kind] in Hk; destruct (to_adj w (PNum i u)) as [w1 c]; now apply leafy_annotated.
  - destruct (op_kind o) as [k|]; [|exact H]. destruct (to_adj w y) as [w1 c]. now apply leafy_annotated.
Qed.
Lemma leafy_un : forall n okk w o x, match o with UNeg => okk KNeg | _ => true end = true -> leafy n okk w -> leafy n okk (fst (py_un F P w o x)).
Proof.
  intros n okk w o x Hk H. unfold py_un. destruct (py_val w x) as [a|]; [|exact H]. destruct x; [exact H|]. destruct o; try exact H. now apply leafy_annotated.
Qed.
Lemma leafy_overload : forall n okk xs w, leafy n okk w -> leafy n okk (fst (overload_all w xs)).
Proof.
  intros n okk xs. induction xs as [|x r IH]; intros w H; [exact H|]. cbn [overload_all].
  assert (A : leafy n okk (fst (overloaded w x))) by (destruct x as [[|] v|o]; [exact H|now apply leafy_new|exact H]).
  destruct (overloaded w x) as [w1 o]. specialize (IH w1 A). destruct (overload_all w1 r). exact IH.
Qed.
Lemma leafy_until : forall n okk os w, leafy n okk w -> leafy n okk (add_deps_until w os).
Proof.
  intros n okk os. induction os as [|[o|] r IH]; intros w H; [exact H| |exact H]. cbn [add_deps_until]. apply IH. unfold add_dep.
  destruct H as [H1 H2]. pose proof (lb_get_bv n w o H1) as A. pose proof (flat_get_bv w o) as B. destruct (get_bv w o) as [w1 v]. cbn [fst] in *.
  split; [now apply lb_will_dep|]. rewrite flat_will_dep, B. exact H2.
Qed.
Lemma leafy_pyfun : forall n okk w k xs, okk k = true -> leafy n okk w -> leafy n okk (fst (py_fun F w k xs)).
Proof.
  intros n okk w k xs Hk H. unfold py_fun. destruct (mapM (py_val w) xs) as [vs|]; [|exact H]. destruct (w_ann w).
  - pose proof (leafy_overload n okk xs w H) as A. destruct (overload_all w xs) as [w1 os]. cbn [fst] in A. destruct (all_some os) as [args|]; [|now apply leafy_until].
    pose proof (leafy_fun n okk w1 k args true Hk A) as B. destruct (exec_fun F w1 k args true). exact B.
  - destruct (op_value F k vs); [|exact H]. now apply leafy_new.
Qed.
Lemma leafy_eval : forall n okk env e w, kinds_in okk e = true -> leafy n okk w -> leafy n okk (fst (py_eval F P env w e)).
Proof.
  intros n okk env e. induction e as [i v|i|o a IHa b IHb|o a IHa|f a IHa|f a IHa b IHb]; intros w Hk H; cbn [py_eval kinds_in] in *; try exact H.
  - apply andb_true_iff in Hk as [Hk Ho]. apply andb_true_iff in Hk as [Ha Hb]. specialize (IHa w Ha H). destruct (py_eval F P env w a) as [w1 [x|]]; [|exact IHa].
    specialize (IHb w1 Hb IHa). destruct (py_eval F P env w1 b) as [w2 [y|]]; [|exact IHb]. now apply leafy_bin.
  - apply andb_true_iff in Hk as [Ha Ho]. specialize (IHa w Ha H). destruct (py_eval F P env w a) as [w1 [x|]]; [|exact IHa]. now apply leafy_un.
  - apply andb_true_iff in Hk as [Ha Ho]. specialize (IHa w Ha H). destruct (py_eval F P env w a) as [w1 [x|]]; [|exact IHa]. now apply leafy_pyfun.
  - apply andb_true_iff in Hk as [Hk Ho]. apply andb_true_iff in Hk as [Ha Hb]. specialize (IHa w Ha H). destruct (py_eval F P env w a) as [w1 [x|]]; [|exact IHa].
    specialize (IHb w1 Hb IHa). destruct (py_eval F P env w1 b) as [w2 [y|]]; [|exact IHb]. now apply leafy_pyfun.
Qed.
Lemma leafy_lets : forall n okk es env w, forallb (kinds_in okk) es = true -> leafy n okk w -> leafy n okk (fst (py_lets F P env w es)).
Proof.
  intros n okk es. induction es as [|e r IH]; intros env w Hk H; [exact H|]. cbn in Hk. apply andb_true_iff in Hk as [He Hr]. cbn [py_lets].
  pose proof (leafy_eval n okk env e w He H) as A. destruct (py_eval F P env w e) as [w1 [x|]]; [|exact A]. now apply IH.
Qed.

Lemma declare_world : forall xs w, w_next w = length (w_objs w) ->
  let w' := exec F w (declare (length (w_objs w)) xs) in
  w_next w' = length (w_objs w') /\ length (w_objs w') = length (w_objs w) + length xs /\ w_ctrls w' = w_ctrls w ++ seq (length (w_objs w)) (length xs) /\ flat w' = flat w.
Proof.
  induction xs as [|x r IH]; intros w Hn; cbv zeta.
  - cbn. rewrite Nat.add_0_r, app_nil_r. auto.
  - cbn [declare]. set (i := length (w_objs w)).
    change (exec F w (SNew x :: SControl i :: declare (S i) r)) with (exec F (fst (exec_stmt F (fst (exec_stmt F w (SNew x))) (SControl i))) (declare (S i) r)).
    set (w2 := fst (exec_stmt F (fst (exec_stmt F w (SNew x))) (SControl i))).
    assert (E : w_next w2 = S i /\ length (w_objs w2) = S i /\ w_ctrls w2 = w_ctrls w ++ [i] /\ flat w2 = flat w).
    { unfold w2. cbn [exec_stmt fst new_obj]. unfold with_objs. cbn [w_objs]. unfold get_bv, create_bv. cbn [w_objs]. unfold i. rewrite nth_error_app2, Nat.sub_diag by lia. cbn.
      rewrite length_list_set, app_length. cbn. repeat split; [congruence|lia|congruence]. }
    destruct E as [E1 [E2 [E3 E4]]]. specialize (IH w2 (eq_trans E1 (eq_sym E2))). cbv zeta in IH. rewrite E2, E3, E4 in IH. destruct IH as [I1 [I2 [I3 I4]]].
    repeat split; [exact I1|rewrite I2; cbn; unfold i; lia|rewrite I3, <- app_assoc; reflexivity|exact I4].
Qed.
Lemma declare_leafy : forall ann xs okk, leafy (length xs) okk (exec F (world_new F ann) (declare 0 xs)) /\ w_ctrls (exec F (world_new F ann) (declare 0 xs)) = seq 0 (length xs).
Proof.
  intros ann xs okk. destruct (declare_world xs (world_new F ann) eq_refl) as [I1 [I2 [I3 I4]]]. cbn in I1, I2, I3, I4. split; [|exact I3].
  set (w := exec _ _ _) in *. split; [|rewrite I4; constructor]. repeat split; [lia|lia|]. intros o ob v Ho E. apply nth_error_some_lt in E. lia.
Qed.

(** Controls are never added by expressions. *)
Lemma ctrls_moves : forall q w, forallb simple q = true -> w_ctrls (exec F w q) = w_ctrls w.
Proof.
  assert (Hg : forall w o, w_ctrls (fst (get_bv w o)) = w_ctrls w).
  { intros w o. unfold get_bv, create_bv. destruct (nth_error _ _) as [ob|]; [destruct (o_bv ob)|]; reflexivity. }
  assert (Hd : forall w v, w_ctrls (will_dep w v) = w_ctrls w).
  { intros. unfold will_dep, with_heap, with_tape. cbn. destruct (match t_latest _ with None => true | Some _ => _ end); reflexivity. }
  assert (Ho : forall w v, w_ctrls (will_out w v) = w_ctrls w).
  { intros. unfold will_out, with_heap, with_tape. cbn. destruct (t_eager _); reflexivity. }
  assert (Hgs : forall os w, w_ctrls (fst (get_bvs w os)) = w_ctrls w).
  { induction os as [|o r IH]; intros w; [reflexivity|]. cbn [get_bvs]. pose proof (Hg w o) as A. destruct (get_bv w o) as [w1 v].
    specialize (IH w1). destruct (get_bvs w1 r). cbn [fst] in *. congruence. }
  assert (Hds : forall os w, w_ctrls (fst (add_deps w os)) = w_ctrls w).
  { induction os as [|o r IH]; intros w; [reflexivity|]. cbn [add_deps]. unfold add_dep. pose proof (Hg w o) as A. destruct (get_bv w o) as [w1 v].
    specialize (IH (will_dep w1 v)). destruct (add_deps (will_dep w1 v) r). cbn [fst] in *. rewrite IH, Hd. exact A. }
  assert (H1 : forall w c, simple c = true -> w_ctrls (fst (exec_stmt F w c)) = w_ctrls w).
  { intros w c H. destruct c; try discriminate; cbn [exec_stmt].
    - reflexivity.
    - unfold exec_op. destruct (negb _); [reflexivity|]. destruct (arg_vals w args) as [xs|]; [|reflexivity]. destruct (op_value F k xs) as [y|]; [|reflexivity].
      cbn [new_obj]. set (w1 := with_objs _ w). destruct (w_ann w); [|reflexivity].
      pose proof (Hgs args w1) as A. destruct (get_bvs w1 args) as [w2 ts]. pose proof (Hds args w2) as B. destruct (add_deps w2 args) as [w3 ds].
      set (w4 := with_tape _ w3). pose proof (Hg w4 (length (w_objs w))) as C. destruct (get_bv w4 _) as [w5 v]. cbn [fst] in *.
      change (w_ctrls (will_out w5 v) = w_ctrls w). rewrite Ho, C. change (w_ctrls w3 = w_ctrls w). rewrite B, A. reflexivity.
    - unfold exec_fun. destruct (negb _); [reflexivity|]. destruct (arg_vals w args) as [xs|]; [|reflexivity]. cbn in H. subst annotate.
      destruct (w_ann w); cbn [andb].
      + pose proof (Hds args w) as B. destruct (add_deps w args) as [w' deps]. cbn [fst] in B. set (w1 := with_tape _ w').
        destruct (op_value F k xs) as [y|]; [|exact B]. cbn [new_obj]. set (w2 := with_objs _ w1).
        pose proof (Hg w2 (length (w_objs w1))) as C. destruct (get_bv w2 _) as [w3 v]. cbn [fst] in *.
        change (w_ctrls (will_out w3 v) = w_ctrls w). rewrite Ho, C. exact B.
      + destruct (op_value F k xs); reflexivity. }
  induction q as [|c r IH]; intros w H; [reflexivity|]. cbn in H. apply andb_true_iff in H as [Hc Hr].
  change (exec F w (c :: r)) with (exec F (fst (exec_stmt F w c)) r). rewrite IH by exact Hr. now apply H1.
Qed.

Section Commute.
Hypothesis add_comm : forall a b, f_add F a b = f_add F b a.
Hypothesis mul_comm : forall a b, f_mul F a b = f_mul F b a.

Lemma lets_step : forall es env venv w, w_ann w = true -> Forall2 (wval w) env venv -> supported_program (map is_obj env) es = true ->
  let out := py_lets F P env w es in
  exists q, moves F w (fst out) q /\
  match numbers F P venv es with
  | Err e => snd out = Err e
  | Ok vs => exists xs, snd out = Ok xs /\ Forall2 (wval (fst out)) xs vs /\ map is_obj xs = recorded_vars (map is_obj env) es /\
      forall ov s renv, on w s -> fresh ov w (fst out) -> Forall2 (rep s) env renv ->
        match numbers F P renv es with
        | Ok rs => s_err (spec_run F ov s q) = None /\ Forall2 (rep (spec_run F ov s q)) xs rs
        | Err e => s_err (spec_run F ov s q) = Some e
        end
  end.
Proof.
  induction es as [|e r IH]; intros env venv w Hann Henv Hs; cbv zeta.
  - exists []. split; [apply moves_nil|]. cbn. exists env. repeat split; auto. destruct H as [_ [_ He]]. exact He.
  - cbn in Hs. apply andb_true_iff in Hs as [He Hr]. cbn [py_lets numbers].
    destruct (eval_step F P add_comm mul_comm e env venv w Hann Henv He) as [q [M H]].
    destruct (py_eval F P env w e) as [w1 r1]. cbn [fst snd] in *. destruct (number F P venv e) as [v|er]; cbn [bind].
    2:{ subst r1. exists q. split; [exact M|reflexivity]. }
    destruct H as [x [-> [Hx [Hb Hsp]]]].
    assert (Hann1 : w_ann w1 = true) by (now rewrite (moves_ann F _ _ _ M)).
    assert (Henv1 : Forall2 (wval w1) (env ++ [x]) (venv ++ [v])).
    { apply Forall2_app; [exact (moves_env F _ _ _ _ _ M Henv)|]. now constructor. }
    assert (Hr1 : supported_program (map is_obj (env ++ [x])) r = true) by (rewrite map_app; cbn; rewrite Hb; exact Hr).
    destruct (IH (env ++ [x]) (venv ++ [v]) w1 Hann1 Henv1 Hr1) as [q2 [M2 H2]]. cbv zeta in H2.
    exists (q ++ q2). split; [exact (moves_app F _ _ _ _ _ M M2)|].
    destruct (numbers F P (venv ++ [v]) r) as [vs|er]; [|exact H2]. destruct H2 as [xs [E1 [E2 [E3 E4]]]]. exists xs. repeat split; auto.
    + rewrite E3, map_app. cbn [recorded_vars map]. now rewrite Hb.
    + intros ov s renv Hon Hf Hrep. rewrite run_app. cbn [numbers].
      specialize (Hsp ov s (number F P renv e) Hon (fresh_l F _ _ _ _ _ _ M M2 Hf) (ex_intro _ renv (conj Hrep eq_refl))).
      destruct (number F P renv e) as [y|er]; cbn [bind]; cbn in Hsp.
      * destruct Hsp as [He0 Hy]. apply E4; [exact (on_run F ov _ _ _ _ M Hon He0)|exact (fresh_r F _ _ _ _ _ _ M M2 Hf)|].
        apply Forall2_app; [|now constructor]. apply (later_env s); [|exact Hrep]. intros y0 v0. apply rep_run. exact (proj1 M).
      * destruct (run_keeps F ov q2 (spec_run F ov s q) (proj1 M2)) as [_ [_ [K _]]]. now apply K.
Qed.

(** ** Whole programs *)
Lemma envs : forall (w : world V) k xs i, vals w = k ++ xs -> i = length k -> Forall2 (wval w) (map PObj (seq i (length xs))) xs.
Proof.
  intros w k xs. revert k. induction xs as [|x r IH]; intros k i E ->; [constructor|]. cbn. constructor.
  - cbn. rewrite E, nth_error_app2, Nat.sub_diag by lia. reflexivity.
  - apply (IH (k ++ [x])); [now rewrite <- app_assoc|rewrite app_length; cbn; lia].
Qed.
Lemma all_objs : forall n i, map (@is_obj V) (map PObj (seq i n)) = repeat true n.
Proof. induction n as [|n IH]; intros i; [reflexivity|]. cbn. now rewrite IH. Qed.

Theorem py_records : forall xs es, supported_program (repeat true (length xs)) es = true ->
  let out := py_run F P true xs es in
  match numbers F P xs es with
  | Err e => snd out = Err e
  | Ok vs => exists vars, snd out = Ok vars /\ map is_obj vars = recorded_vars (repeat true (length xs)) es /\ Forall2 (fun x v => py_val (fst out) x = Ok v) vars vs
  end.
Proof.
  intros xs es Hs out. unfold out, py_run. set (w0 := exec F (world_new F true) (declare 0 xs)).
  assert (Hann : w_ann w0 = true) by (unfold w0; now rewrite declare_keeps).
  assert (Henv : Forall2 (wval w0) (map PObj (seq 0 (length xs))) xs) by (apply (envs w0 []); [apply new_world_vals|reflexivity]).
  destruct (lets_step es _ xs w0 Hann Henv) as [q [M H]]; [now rewrite all_objs|]. cbv zeta in H.
  destruct (numbers F P xs es) as [vs|e]; [|exact H]. destruct H as [vars [E1 [E2 [E3 _]]]]. exists vars. split; [exact E1|]. split; [rewrite E3, all_objs; reflexivity|].
  eapply Forall2_impl'; [|exact E2]. intros x v. apply py_val_wval.
Qed.

Lemma prescribe_other : forall vs (vals : list V) ov u, ~ In u vs -> prescribe vs vals ov u = ov u.
Proof.
  induction vs as [|v r IH]; intros [|x l] ov u H; try reflexivity. cbn [prescribe]. rewrite IH by (intros K; apply H; now right).
  destruct (Nat.eqb_spec (fst u) (fst v)) as [E1|E1]; [|reflexivity]. destruct (Nat.eqb_spec (snd u) (snd v)) as [E2|E2]; [|reflexivity].
  exfalso. apply H. left. destruct u, v. cbn in *. congruence.
Qed.
Lemma prescribe_seq : forall n k (vals : list V) ov i x, nth_error vals i = Some x -> i < n -> prescribe (map (fun j => (j, 0)) (seq k n)) vals ov (k + i, 0) = Some x.
Proof.
  induction n as [|n IH]; intros k vals ov i x E L; [lia|]. destruct vals as [|v r]; [destruct i; discriminate|]. cbn [seq map prescribe]. destruct i as [|i].
  - cbn in E. injection E as ->. rewrite Nat.add_0_r, prescribe_other; [cbn; now rewrite Nat.eqb_refl|]. intros K. apply in_map_iff in K as [j [K1 K2]]. injection K1 as <-. apply in_seq in K2. lia.
  - cbn in E. replace (k + S i) with (S k + i) by lia. apply IH; [exact E|lia].
Qed.
Lemma combine_fst : forall (A B : Type) (l : list A) (m : list B), length l = length m -> map fst (combine l m) = l.
Proof. induction l as [|a l IH]; intros [|b m] H; try discriminate; [reflexivity|]. cbn. f_equal. apply IH. now injection H. Qed.

Lemma declare_ctrls : forall ov xs, let s := spec_exec F ov true (declare 0 xs) in
  s_err s = None /\ s_ann s = true /\ s_objs s = map (fun ix => SObj (snd ix) (prescribed ov (fst ix, 0) (snd ix)) 0) (combine (seq 0 (length xs)) xs) /\
  map fst (s_ctrls s) = map (fun i => (i, 0)) (seq 0 (length xs)).
Proof.
  intros ov xs s. destruct (declare_spec ov xs (SSt [] true None []) eq_refl) as [A [B [C D]]]. cbn in A, B, C, D. unfold s, spec_exec.
  repeat split; [exact A|exact B|exact C|]. rewrite D, map_map. cbn [fst]. rewrite <- (combine_fst _ _ (seq 0 (length xs)) xs) at 2 by apply seq_length. rewrite map_map. reflexivity.
Qed.
Lemma declare_svals : forall ov xs, svals (spec_exec F ov true (declare 0 xs)) = xs.
Proof.
  intros ov xs. destruct (declare_ctrls ov xs) as [_ [_ [C _]]]. unfold svals. rewrite C, map_map. cbn [s_rec].
  assert (G : forall l k, map (fun x : nat * V => snd x) (combine (seq k (length l)) l) = l).
  { induction l as [|x r IH]; intros k; [reflexivity|]. cbn. f_equal. apply IH. }
  apply G.
Qed.
Lemma declare_rep : forall vals xs, length vals = length xs ->
  Forall2 (rep (spec_exec F (prescribe (map (fun i => (i, 0)) (seq 0 (length xs))) vals no_override) true (declare 0 xs))) (map PObj (seq 0 (length xs))) vals.
Proof.
  intros vals xs Hl. set (ov := prescribe _ _ _). destruct (declare_ctrls ov xs) as [_ [_ [C _]]]. set (s := spec_exec F ov true (declare 0 xs)) in *.
  assert (G : forall l k, (forall i x, nth_error l i = Some x -> nth_error vals (k + i) = Some x) -> k + length l = length xs -> Forall2 (rep s) (map PObj (seq k (length l))) l).
  { induction l as [|x r IH]; intros k H Hk; [constructor|]. cbn [length seq map]. constructor.
    - assert (Lk : k < length xs) by (cbn in Hk; lia). destruct (nth_error xs k) as [x0|] eqn:Ex; [|apply nth_error_None in Ex; lia].
      exists (SObj x0 (prescribed ov (k, 0) x0) 0). split.
      + rewrite C, nth_error_map. assert (Q : nth_error (combine (seq 0 (length xs)) xs) k = Some (k, x0)).
        { clear -Ex Lk. assert (Q : forall (l : list V) i j, nth_error l i = Some x0 -> nth_error (combine (seq j (length l)) l) i = Some (j + i, x0)).
          { induction l as [|y l IH]; intros [|i] j E; try discriminate; cbn in *; [rewrite Nat.add_0_r; congruence|]. rewrite (IH i (S j) E). do 2 f_equal. lia. }
          now rewrite (Q xs k 0 Ex). }
        now rewrite Q.
      + cbn. unfold prescribed, ov. replace (k, 0) with (0 + k, 0) by reflexivity. rewrite (prescribe_seq (length xs) 0 vals no_override k x); [reflexivity| |exact Lk].
        specialize (H 0 x eq_refl). now rewrite Nat.add_0_r in H.
    - apply IH; [|cbn in Hk; lia]. intros i y E. replace (S k + i) with (k + S i) by lia. apply H. exact E. }
  rewrite <- Hl. apply G; [|lia]. intros i x E. exact E.
Qed.

(** The program recorded: one statement list. *)
Lemma py_program : forall xs es, supported_program (repeat true (length xs)) es = true ->
  exists q, forallb simple q = true /\ fst (py_run F P true xs es) = exec F (world_new F true) (declare 0 xs ++ q) /\
  forall vars, snd (py_run F P true xs es) = Ok vars -> forall vals, length vals = length xs ->
    let p := declare 0 xs ++ q in
    let s := spec_exec F (prescribe (map fst (s_ctrls (spec_exec F no_override true p))) vals no_override) true p in
    match numbers F P vals es with
    | Ok rs => s_err s = None /\ Forall2 (rep s) vars rs
    | Err e => s_err s = Some e
    end.
Proof.
  intros xs es Hs. unfold py_run. set (w0 := exec F (world_new F true) (declare 0 xs)).
  assert (Hann : w_ann w0 = true) by (unfold w0; now rewrite declare_keeps).
  assert (Henv : Forall2 (wval w0) (map PObj (seq 0 (length xs))) xs) by (apply (envs w0 []); [apply new_world_vals|reflexivity]).
  destruct (lets_step es _ xs w0 Hann Henv) as [q [M H]]; [now rewrite all_objs|]. cbv zeta in H.
  exists q. split; [exact (proj1 M)|]. split; [rewrite exec_app; symmetry; exact (proj2 M)|].
  intros vars Hv vals Hl. cbv zeta. set (p := declare 0 xs ++ q). set (s := spec_exec F (prescribe _ _ _) true p).
  destruct (numbers F P xs es) as [vs|e]; [|rewrite H in Hv; discriminate]. destruct H as [vars' [E1 [_ [_ E4]]]]. rewrite E1 in Hv. injection Hv as ->.
  assert (Hc : map fst (s_ctrls (spec_exec F no_override true p)) = map (fun i => (i, 0)) (seq 0 (length xs))).
  { destruct (declare_ctrls no_override xs) as [_ [_ [_ D]]]. unfold p, spec_exec. rewrite fold_left_app.
    destruct (run_keeps F no_override q (spec_exec F no_override true (declare 0 xs)) (proj1 M)) as [_ [K _]]. unfold spec_run, spec_exec in K. rewrite K. exact D. }
  unfold s. rewrite Hc. unfold p, spec_exec. rewrite fold_left_app. set (ov := prescribe _ _ _).
  destruct (declare_ctrls ov xs) as [A [B _]]. apply (E4 ov (spec_exec F ov true (declare 0 xs)) vals).
  - repeat split; [|exact B|exact A]. rewrite declare_svals. symmetry. apply new_world_vals.
  - intros i Li _. unfold w0 in Li. rewrite new_world_vals in Li. unfold ov. rewrite prescribe_other; [reflexivity|]. intros K. apply in_map_iff in K as [j [K1 K2]]. injection K1 as <-. apply in_seq in K2. lia.
  - now apply declare_rep.
Qed.

Lemma simple_ok : forall (xs : list V) q, forallb simple q = true -> consistent (declare 0 xs ++ q) /\ disciplined true (declare 0 xs ++ q) = true.
Proof.
  intros xs q Hq. assert (G : forall k, consistent (declare k xs ++ q) /\ disciplined true (declare k xs ++ q) = true).
  { induction xs as [|x r IH]; intros k; cbn [declare app].
    - revert Hq. clear. induction q as [|c r IH]; intros H; [split; [constructor|reflexivity]|]. cbn in H. apply andb_true_iff in H as [Hc Hr]. destruct (IH Hr) as [A B].
      split; [constructor; [destruct c; try discriminate; exact I|exact A]|]. destruct c; try discriminate; exact B.
    - destruct (IH (S k)) as [A B]. split; [repeat constructor; exact A|exact B]. }
  apply G.
Qed.

Lemma all_kinds : forall e : pexp V, kinds_in (fun _ => true) e = true.
Proof.
  induction e as [i v|i|o a IHa b IHb|o a IHa|f a IHa|f a IHa b IHb]; cbn; try reflexivity; rewrite ?IHa, ?IHb; [destruct (op_kind o)|destruct o| |]; reflexivity.
Qed.

(** The recorded program, re-run, is the Python program run with other numbers. *)
Theorem py_rerun : forall xs es vars j o, supported_program (repeat true (length xs)) es = true ->
  snd (py_run F P true xs es) = Ok vars -> nth_error vars j = Some (PObj o) ->
  exists p, consistent p /\ disciplined true p = true /\ fst (py_run F P true xs es) = exec F (world_new F true) p /\
    o < length (w_objs (exec F (world_new F true) p)) /\ w_ctrls (fst (recorded F true p o)) = seq 0 (length xs) /\ control_values F true p = xs /\
    (forall okk, forallb (kinds_in okk) es = true -> Forall (blk_ok (length xs) okk) (flat (fst (recorded F true p o)))) /\
    forall vals, length vals = length xs -> spec_rerun F true p vals o = variable F P vals es j.
Proof.
  intros xs es vars j o Hs Hv Hj.
  destruct (py_program xs es Hs) as [q [Hq [Ew Hspec]]]. destruct (simple_ok xs q Hq) as [Hcons Hdis].
  exists (declare 0 xs ++ q). split; [exact Hcons|]. split; [exact Hdis|]. split; [exact Ew|].
  pose proof (py_records xs es Hs) as Hpr. cbv zeta in Hpr.
  assert (Ho : o < length (w_objs (exec F (world_new F true) (declare 0 xs ++ q)))).
  { destruct (numbers F P xs es) as [vs|e]; [|rewrite Hpr in Hv; discriminate]. destruct Hpr as [vars' [E1 [_ E3]]]. rewrite E1 in Hv. injection Hv as ->.
    destruct (Forall2_nth _ _ _ _ _ _ _ E3 Hj) as [y [_ Hy]]. cbn in Hy. rewrite <- Ew. destruct (nth_error (w_objs (fst (py_run F P true xs es))) o) eqn:Eo; [|discriminate]. now apply nth_error_some_lt in Eo. }
  split; [exact Ho|]. split; [|split; [|split]].
  - unfold recorded. set (W := exec F (world_new F true) (declare 0 xs ++ q)). transitivity (w_ctrls W).
    + unfold get_bv, create_bv. destruct (nth_error (w_objs W) o) as [ob|]; [destruct (o_bv ob)|]; reflexivity.
    + unfold W. rewrite exec_app, ctrls_moves by exact Hq. exact (proj2 (declare_leafy true xs (fun _ => true))).
  - unfold control_values. destruct (declare_spec no_override xs (SSt [] true None []) eq_refl) as [_ [_ [_ D]]]. cbn in D. unfold spec_exec. rewrite fold_left_app.
    destruct (run_keeps F no_override q (spec_exec F no_override true (declare 0 xs)) Hq) as [_ [K _]]. unfold spec_run, spec_exec in K. rewrite K, D, map_map. cbn [snd].
    assert (G : forall l k, map (fun x : nat * V => snd x) (combine (seq k (length l)) l) = l).
    { induction l as [|x r IH]; intros k; [reflexivity|]. cbn. f_equal. apply IH. }
    apply G.
  - intros okk Hk. unfold recorded. rewrite flat_get_bv, <- Ew. exact (proj2 (leafy_lets (length xs) okk es _ _ Hk (proj1 (declare_leafy true xs okk)))).
  - intros vals Hl. specialize (Hspec vars Hv vals Hl). cbv zeta in Hspec. unfold spec_rerun, variable.
    set (s := spec_exec F (prescribe _ _ _) true _) in *. destruct (numbers F P vals es) as [rs|e]; cbn [bind].
    + destruct Hspec as [He Hr]. rewrite He. destruct (Forall2_nth _ _ _ _ _ _ _ Hr Hj) as [y [Ey [so [Eso Hso]]]]. rewrite Eso, Ey. now rewrite Hso.
    + rewrite Hspec. reflexivity.
Qed.

Lemma py_leaves : forall n okk (bs : list (block V)), Forall (blk_ok n okk) bs -> forall v, In v (seq 0 n) -> ~ In v (outs_of bs).
Proof.
  intros n okk bs H v Hv K. unfold outs_of in K. apply in_flat_map in K as [b [Hb Ho]]. rewrite Forall_forall in H. destruct (H b Hb) as [_ G].
  rewrite Forall_forall in G. specialize (G v Ho). apply in_seq in Hv. lia.
Qed.

(** Evaluating the reduced functional of variable [j]. *)
Theorem py_call : forall xs es vars j o vals scale l, supported_program (repeat true (length xs)) es = true ->
  snd (py_run F P true xs es) = Ok vars -> nth_error vars j = Some (PObj o) -> length vals = length xs ->
  let w := fst (get_bv (fst (py_run F P true xs es)) o) in
  let v := snd (get_bv (fst (py_run F P true xs es)) o) in
  w_ctrls w = seq 0 (length xs) /\
  (calls_controls w l -> snd (rf_call F (t_flat (w_tape w)) (RF v (w_ctrls w) scale) vals (run_hist F (t_flat (w_tape w)) (w_heap w) l)) =
    rmap (fun y => f_mul F y scale) (variable F P vals es j)).
Proof.
  intros xs es vars j o vals scale l Hs Hv Hj Hl. destruct (py_rerun xs es vars j o Hs Hv Hj) as [p [Hc [Hd [Ew [Ho [Hctl [_ [Hk Hre]]]]]]]].
  cbv zeta. rewrite Ew. change (get_bv (exec F (world_new F true) p) o) with (recorded F true p o). split; [exact Hctl|]. intros Hcc.
  pose proof (rf_call_rerun F true p o vals scale l Hc Hd Ho) as R. cbv zeta in R. unfold flat in R.
  rewrite R; [now rewrite (Hre vals Hl)|rewrite Hctl, seq_length; exact Hl|exact Hcc|right].
  intros b o1 Hb Ho1 Hin. exfalso. rewrite Hctl in Hin. apply (py_leaves _ _ _ (Hk (fun _ => true) (proj2 (forallb_forall _ _) (fun e _ => all_kinds e))) o1 Hin).
  unfold outs_of. apply in_flat_map. exists b. auto.
Qed.
End Commute.
End PyProg.
