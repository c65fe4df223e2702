(** Facts about tapes as lists of time steps: C19, C20, C25. *)
From Coq Require Import List Arith ZArith Bool Lia.
From Verif Require Import Base Model BaseFacts Record Surgery Optimize.
Import ListNotations.

Section TapeFacts.
Context {V : Type} (F : fops V).
Implicit Types (t : tape V) (b : block V) (w : world V).

Definition flat_of (ss : list (tstep V)) : list (block V) := flat_map (@ts_blocks V) ss.
Definition split_of t : list (list (block V)) := map (@ts_blocks V) (t_steps t).

Lemma map_last_app : forall {A} (f : A -> A) l x, map_last f (l ++ [x]) = l ++ [f x].
Proof.
  intros A f l x. induction l as [|y l IH]; [reflexivity|]. cbn [app map_last]. rewrite IH. destruct (l ++ [x]) eqn:E; [|reflexivity].
  destruct l; discriminate E.
Qed.
Lemma map_from_blocks : forall k (f : tstep V -> tstep V) l, (forall s, ts_blocks (f s) = ts_blocks s) ->
  map (@ts_blocks V) (map_from k f l) = map (@ts_blocks V) l.
Proof.
  intros k f l H. revert k. induction l as [|x l IH]; intros k; [reflexivity|]. destruct k; cbn; rewrite IH; [now rewrite H|reflexivity].
Qed.
Lemma flat_concat : forall ss, flat_of ss = concat (map (@ts_blocks V) ss).
Proof. intros. unfold flat_of. now rewrite flat_map_concat_map. Qed.

(** Specification: what one operation does to the block lists of the time steps. *)
Definition push_last (b : block V) (ls : list (list (block V))) : list (list (block V)) :=
  match rev ls with [] => [[b]] | l :: r => rev r ++ [l ++ [b]] end.
Definition some_step (ls : list (list (block V))) := match ls with [] => [[]] | _ => ls end.
Definition split_step (ls : list (list (block V))) (o : top V) : list (list (block V)) :=
  match o with
  | TAdd b => push_last b ls
  | TEnd => ls ++ [[]]
  | TState _ _ | TAdjdep _ _ => some_step ls
  end.
Definition added (l : list (top V)) : list (block V) := flat_map (fun o => match o with TAdd b => [b] | _ => [] end) l.

Lemma ensure_split : forall t, split_of (ensure_step t) = some_step (split_of t).
Proof. intros t. unfold ensure_step, split_of, some_step. destruct (t_steps t) eqn:E; [cbn; now rewrite E|]. rewrite E. reflexivity. Qed.
Lemma ensure_last : forall t, exists ss s, t_steps (ensure_step t) = ss ++ [s].
Proof.
  intros t. unfold ensure_step. destruct (t_steps t) as [|s r] eqn:E; [cbn; rewrite E; exists [], ts_new; reflexivity|].
  rewrite E. destruct (@exists_last _ (s :: r)) as [l [x Hx]]; [discriminate|]. rewrite Hx. eauto.
Qed.

Lemma run_top_split : forall t o, split_of (run_top t o) = split_step (split_of t) o.
Proof.
  intros t [b| |v z|v z]; cbn [run_top split_step].
  - unfold add_block. unfold split_of at 1. cbn [t_steps]. destruct (ensure_last t) as [ss [s E]]. rewrite E, map_last_app, map_app. cbn [map].
    unfold push_last. pose proof (ensure_split t) as K. unfold split_of at 1 in K. rewrite E, map_app in K. cbn [map] in K.
    unfold some_step in K. destruct (split_of t) as [|l r] eqn:Es.
    + cbn. destruct ss as [|x ss]; [injection K as K; cbn; now rewrite K|]. cbn in K. injection K as _ K. destruct ss; discriminate K.
    + rewrite <- K. rewrite rev_app_distr. cbn. rewrite rev_involutive. reflexivity.
  - unfold append_step, split_of. cbn. now rewrite map_app.
  - unfold add_to_state. unfold split_of at 1. cbn [t_steps set_steps]. rewrite map_from_blocks by reflexivity. apply ensure_split.
  - unfold add_to_adjdeps. unfold split_of at 1. cbn [t_steps set_steps]. rewrite map_from_blocks by reflexivity. apply ensure_split.
Qed.
Lemma run_top_flat : forall t o, t_flat (run_top t o) = t_flat t ++ added [o].
Proof.
  intros t [b| |v z|v z]; cbn; try (unfold ensure_step; destruct (t_steps t); cbn; now rewrite ?app_nil_r).
Qed.
Lemma push_last_concat : forall b ls, concat (push_last b ls) = concat ls ++ [b].
Proof.
  intros b ls. unfold push_last. destruct (rev ls) as [|l r] eqn:E.
  - apply (f_equal (@rev _)) in E. rewrite rev_involutive in E. subst. reflexivity.
  - apply (f_equal (@rev _)) in E. rewrite rev_involutive in E. cbn in E. subst ls. rewrite !concat_app. cbn. now rewrite !app_nil_r, app_assoc.
Qed.
Lemma split_step_concat : forall ls o, concat (split_step ls o) = concat ls ++ added [o].
Proof.
  intros ls [b| |v z|v z]; cbn [split_step added flat_map app].
  - apply push_last_concat.
  - rewrite concat_app. reflexivity.
  - destruct ls; cbn; now rewrite ?app_nil_r.
  - destruct ls; cbn; now rewrite ?app_nil_r.
Qed.

Definition coherent t := t_flat t = concat (split_of t).
Lemma coherent_in_step : forall t, coherent t <-> in_step t.
Proof. intros t. unfold coherent, in_step, split_of, flat_steps. now rewrite <- flat_map_concat_map. Qed.

Lemma run_tops_spec : forall l t, split_of (run_tops t l) = fold_left split_step l (split_of t) /\
  t_flat (run_tops t l) = t_flat t ++ added l /\ (coherent t -> coherent (run_tops t l)).
Proof.
  induction l as [|o l IH]; intros t; [cbn; rewrite app_nil_r; auto|].
  cbn [run_tops fold_left]. fold (run_tops (run_top t o) l). destruct (IH (run_top t o)) as [A [B C]]. split; [|split].
  - now rewrite A, run_top_split.
  - rewrite B, run_top_flat. unfold added. cbn [flat_map]. rewrite app_nil_r. now rewrite app_assoc.
  - intros H. apply C. unfold coherent in *. now rewrite run_top_flat, run_top_split, split_step_concat, H.
Qed.
Lemma tops_coherent : forall l, coherent (run_tops tape_new l).
Proof. intros l. apply run_tops_spec. reflexivity. Qed.
Lemma add_index : forall t b, add_block_index t b = length (t_flat t) /\ nth_error (t_flat (add_block t b)) (add_block_index t b) = Some b.
Proof.
  intros t b. assert (E : add_block_index t b = length (t_flat t)).
  { unfold add_block_index. change (add_block t b) with (run_top t (TAdd b)). rewrite run_top_flat. cbn. rewrite app_length. cbn. lia. }
  split; [exact E|]. rewrite E. change (add_block t b) with (run_top t (TAdd b)). rewrite run_top_flat.
  rewrite nth_error_app2 by lia. rewrite Nat.sub_diag. reflexivity.
Qed.

(** Blocks stay in their time step, at their place in it. *)
Definition placed (ls : list (list (block V))) (k i : nat) b := exists l, nth_error ls k = Some l /\ nth_error l i = Some b.
Lemma split_step_placed : forall ls o k i b, placed ls k i b -> placed (split_step ls o) k i b.
Proof.
  intros ls o k i b [l [A B]]. destruct o as [b'| |v z|v z]; cbn [split_step].
  - unfold push_last. destruct (rev ls) as [|x r] eqn:E.
    + apply (f_equal (@rev _)) in E. rewrite rev_involutive in E. subst. destruct k; discriminate A.
    + apply (f_equal (@rev _)) in E. rewrite rev_involutive in E. cbn in E. subst ls. destruct (Nat.lt_ge_cases k (length (rev r))) as [Hk|Hk].
      * rewrite nth_error_app1 in A by exact Hk. exists l. split; [|exact B]. now rewrite nth_error_app1.
      * rewrite nth_error_app2 in A by exact Hk. destruct (k - length (rev r)) as [|n] eqn:Ek; [|destruct n; discriminate A].
        injection A as ->. exists (l ++ [b']). split; [rewrite nth_error_app2 by exact Hk; now rewrite Ek|].
        rewrite nth_error_app1; [exact B|]. apply nth_error_Some. congruence.
  - exists l. split; [|exact B]. rewrite nth_error_app1; [exact A|]. apply nth_error_Some. congruence.
  - destruct ls; [destruct k; discriminate A|]. exists l. auto.
  - destruct ls; [destruct k; discriminate A|]. exists l. auto.
Qed.
Lemma run_tops_placed : forall l t k i b, placed (split_of t) k i b -> placed (split_of (run_tops t l)) k i b.
Proof.
  intros l t k i b H. destruct (run_tops_spec l t) as [-> _]. revert H. generalize (split_of t). induction l as [|o l IH]; intros ls H; [exact H|].
  cbn. apply IH. now apply split_step_placed.
Qed.
(** A new block goes into the current (last) step; ending a step opens an empty one. *)
Lemma add_placed : forall t b, exists k i, S k = length (t_steps (add_block t b)) /\ placed (split_of (add_block t b)) k i b /\
  length (t_steps t) <= length (t_steps (add_block t b)) <= max 1 (length (t_steps t)).
Proof.
  intros t b. destruct (ensure_last t) as [ss [s E]].
  assert (E' : t_steps (add_block t b) = ss ++ [ts_push b s]) by (unfold add_block; cbn; rewrite E; apply map_last_app).
  exists (length ss), (length (ts_blocks s)). rewrite E', app_length. cbn [length]. split; [lia|]. split.
  - unfold split_of. rewrite E', map_app. exists (ts_blocks s ++ [b]). split.
    + rewrite nth_error_app2; rewrite map_length; [|lia]. now rewrite Nat.sub_diag.
    + rewrite nth_error_app2 by lia. now rewrite Nat.sub_diag.
  - unfold ensure_step in E. destruct (t_steps t) as [|x r] eqn:Et.
    + cbn in E. rewrite Et in E. cbn in E. destruct ss as [|y [|z ss]]; cbn in E |- *; try lia; injection E as _ E; try discriminate E.
    + rewrite Et in E. apply (f_equal (@length _)) in E. rewrite app_length in E. cbn in E |- *. lia.
Qed.

(** ** Recorded tapes are coherent *)
Definition hot t := exists ls l b, split_of t = ls ++ [l ++ [b]].
Lemma add_block_hot : forall t b, hot (add_block t b).
Proof.
  intros t b. change (add_block t b) with (run_top t (TAdd b)). unfold hot. rewrite run_top_split. cbn [split_step]. unfold push_last.
  destruct (rev (split_of t)) as [|l r]; [exists [], [], b; reflexivity|]. eauto.
Qed.
Lemma top_hot : forall t o, (match o with TState _ _ | TAdjdep _ _ => True | _ => False end) -> hot t -> hot (run_top t o).
Proof.
  intros t o Ho [ls [l [b E]]]. unfold hot. rewrite run_top_split, E. exists ls, l, b.
  destruct o; try contradiction; cbn [split_step]; unfold some_step; destruct ls; reflexivity.
Qed.
Lemma top_coherent : forall t o, coherent t -> coherent (run_top t o).
Proof. intros t o H. exact (proj2 (proj2 (run_tops_spec [o] t)) H). Qed.
Lemma push_out_coherent : forall t v, coherent t -> hot t -> coherent (last_push_out v t).
Proof.
  intros t v H [ls [l [b E]]]. unfold coherent in *. unfold last_push_out. cbn [t_flat]. unfold split_of in *. cbn [t_steps].
  rewrite H, E. clear H.
  assert (G : forall (ls : list (list (block V))) l b, concat (ls ++ [l ++ [b]]) = (concat ls ++ l) ++ [b]) by (clear; intros ls l b; rewrite concat_app; cbn; rewrite app_nil_r, app_assoc; reflexivity).
  destruct (@exists_last _ (t_steps t)) as [ss [s Es]]; [intros K; rewrite K in E; destruct ls; discriminate E|].
  rewrite Es in *. rewrite map_app in E. cbn in E. apply app_inj_tail in E as [E1 E2]. subst ls.
  rewrite !map_last_app, map_app. cbn [map ts_blocks]. rewrite E2, !map_last_app, !G. now rewrite map_last_app.
Qed.

Definition wcoh (w : world V) := coherent (w_tape w).
Lemma get_bv_tape : forall w o, w_tape (fst (get_bv w o)) = w_tape w.
Proof. intros w o. unfold get_bv, create_bv. destruct (nth_error (w_objs w) o) as [ob|]; [destruct (o_bv ob)|]; reflexivity. Qed.
Lemma get_bvs_tape : forall os w, w_tape (fst (get_bvs w os)) = w_tape w.
Proof.
  induction os as [|o os IH]; intros w; [reflexivity|]. cbn. pose proof (get_bv_tape w o) as K. destruct (get_bv w o) as [w1 v]. cbn in K.
  specialize (IH w1). destruct (get_bvs w1 os). cbn in *. congruence.
Qed.
Lemma create_bv_tape : forall w o, w_tape (fst (create_bv w o)) = w_tape w.
Proof. intros w o. unfold create_bv. destruct (nth_error (w_objs w) o); reflexivity. Qed.
Lemma will_dep_tape : forall w v, exists z, w_tape (will_dep w v) = run_top (w_tape w) (TState v z).
Proof. intros w v. unfold will_dep. match goal with |- context[if ?x then _ else _] => destruct x end; eexists; reflexivity. Qed.
Lemma will_out_tape : forall w v, exists z, w_tape (will_out w v) = run_top (w_tape w) (TAdjdep v z).
Proof. intros w v. unfold will_out. match goal with |- context[if ?x then _ else _] => destruct x end; eexists; reflexivity. Qed.
Lemma add_deps_coh : forall os w, wcoh w -> wcoh (fst (add_deps w os)).
Proof.
  induction os as [|o os IH]; intros w H; [exact H|]. cbn [add_deps]. unfold add_dep. pose proof (get_bv_tape w o) as K.
  destruct (get_bv w o) as [w1 v]. cbn [fst] in K. specialize (IH (will_dep w1 v)).
  assert (K2 : wcoh (will_dep w1 v)).
  { unfold wcoh. destruct (will_dep_tape w1 v) as [z ->]. apply top_coherent. now rewrite K. }
  specialize (IH K2). destruct (add_deps (will_dep w1 v) os). exact IH.
Qed.
Lemma add_outs_coh : forall os w, wcoh w -> wcoh (fst (add_outs w os)).
Proof.
  induction os as [|o os IH]; intros w H; [exact H|]. cbn [add_outs]. pose proof (create_bv_tape w o) as K.
  destruct (create_bv w o) as [w1 v]. cbn [fst] in K. specialize (IH (will_out w1 v)).
  assert (K2 : wcoh (will_out w1 v)).
  { unfold wcoh. destruct (will_out_tape w1 v) as [z ->]. apply top_coherent. now rewrite K. }
  specialize (IH K2). destruct (add_outs (will_out w1 v) os). exact IH.
Qed.
Lemma new_objs_tape : forall ys (w : world V), w_tape (fst (new_objs w ys)) = w_tape w.
Proof.
  induction ys as [|y ys IH]; intros w; [reflexivity|]. cbn. specialize (IH (with_objs (fun l => l ++ [Obj y None 0]) w)).
  destruct (new_objs _ ys). exact IH.
Qed.
Lemma push_world : forall w b v, wcoh w -> forall w', w_tape w' = w_tape (with_tape (fun t => add_block t b) w) ->
  wcoh (with_tape (last_push_out v) (will_out w' v)).
Proof.
  intros w b v H w' E. unfold wcoh. cbn [with_tape w_tape]. destruct (will_out_tape w' v) as [z Ez]. rewrite Ez, E. cbn [with_tape w_tape].
  apply push_out_coherent.
  - apply top_coherent. exact (top_coherent _ (TAdd b) H).
  - apply top_hot; [exact I|]. apply add_block_hot.
Qed.

Lemma exec_stmt_coh : forall w s, wcoh w -> wcoh (fst (exec_stmt F w s)).
Proof.
  intros w s H. destruct s; cbn [exec_stmt].
  - exact H.
  - unfold exec_op. destruct (negb _); [exact H|]. destruct (arg_vals w args) as [xs|]; [|exact H]. destruct (op_value F k xs) as [y|]; [|exact H].
    cbn [new_obj]. set (w1 := with_objs _ w). destruct (w_ann w); [|exact H].
    pose proof (get_bvs_tape args w1) as K1. destruct (get_bvs w1 args) as [w2 terms]. cbn [fst] in K1.
    assert (K2 : wcoh w2) by (unfold wcoh; rewrite K1; exact H). pose proof (add_deps_coh args w2 K2) as K3.
    destruct (add_deps w2 args) as [w3 ds]. cbn [fst] in K3. set (b := Blk k terms [] None).
    pose proof (get_bv_tape (with_tape (fun t => add_block t b) w3) (length (w_objs w))) as K4.
    destruct (get_bv _ (length (w_objs w))) as [w5 v]. cbn [fst] in K4 |- *. exact (push_world w3 b v K3 w5 K4).
  - unfold exec_fun. destruct (negb _); [exact H|]. destruct (arg_vals w args) as [xs|]; [|exact H].
    pose proof (add_deps_coh args w H) as K3. destruct (w_ann w && annotate).
    + destruct (add_deps w args) as [w3 ds]. cbn [fst] in K3. set (b := Blk k ds [] None).
      destruct (op_value F k xs) as [y|]; [|exact (top_coherent _ (TAdd b) K3)].
      cbn [new_obj]. set (w4 := with_objs _ _).
      pose proof (get_bv_tape w4 (length (w_objs (with_tape (fun t => add_block t b) w3)))) as K4.
      destruct (get_bv w4 _) as [w5 v]. cbn [fst] in K4 |- *. exact (push_world w3 b v K3 w5 K4).
    + destruct (op_value F k xs); exact H.
  - unfold exec_user. destruct (arg_vals w args) as [xs|]; [|exact H]. pose proof (add_deps_coh args w H) as K3.
    destruct (w_ann w && annotate).
    + destruct (add_deps w args) as [w1 ds]. cbn [fst] in K3. destruct (func xs) as [ys|]; [|exact K3].
      pose proof (new_objs_tape ys w1) as K4. destruct (new_objs w1 ys) as [w2 os]. cbn [fst] in K4.
      assert (K5 : wcoh w2) by (unfold wcoh; rewrite K4; exact K3). pose proof (add_outs_coh os w2 K5) as K6.
      destruct (add_outs w2 os) as [w3 vs]. cbn [fst] in K6 |- *. exact (top_coherent _ (TAdd _) K6).
    + destruct (func xs) as [ys|]; [|exact H]. pose proof (new_objs_tape ys w) as K4. destruct (new_objs w ys). cbn in *. unfold wcoh. rewrite K4. exact H.
  - unfold exec_inpl. destruct (arg_vals w args) as [xs|]; [|exact H]. destruct (nth_error (w_objs w) o); [|exact H].
    pose proof (add_deps_coh args w H) as K3.
    assert (A : forall w' : world V, forall y, w_tape (assign_obj w' o y) = w_tape w') by (intros w' y; unfold assign_obj; destruct (nth_error (w_objs w') o); reflexivity).
    destruct (w_ann w && annotate).
    + destruct (add_deps w args) as [w1 ds]. cbn [fst] in K3. destruct (func xs) as [y|]; [|exact K3].
      assert (K5 : wcoh (assign_obj w1 o y)) by (unfold wcoh; rewrite A; exact K3). pose proof (add_outs_coh [o] _ K5) as K6.
      destruct (add_outs (assign_obj w1 o y) [o]) as [w3 vs]. cbn [fst] in K6 |- *. exact (top_coherent _ (TAdd _) K6).
    + destruct (func xs) as [y|]; [|exact H]. cbn [fst]. unfold wcoh. rewrite A. exact H.
  - destruct (nth_error (w_objs w) o) eqn:E; [|exact H]. cbn [fst]. unfold wcoh, clear_bv, assign_obj. rewrite E. cbn.
    match goal with |- context[match ?x with _ => _ end] => destruct x end; exact H.
  - exact H.
  - exact H.
  - exact (top_coherent _ TEnd H).
  - destruct (nth_error (w_objs w) o) as [ob|] eqn:E; [|exact H]. destruct (o_bv ob); [|exact H]. destruct (referenced w n); [exact H|].
    cbn [fst]. unfold clear_bv. rewrite E. exact H.
  - destruct (nth_error (w_objs w) o); [|exact H]. pose proof (get_bv_tape w o) as K. destruct (get_bv w o). cbn in *. unfold wcoh. cbn. now rewrite K.
  - destruct (nth_error (w_objs w) o); [|exact H]. pose proof (get_bv_tape w o) as K. destruct (get_bv w o). cbn in *. unfold wcoh. cbn. now rewrite K.
Qed.
Lemma exec_coherent : forall p w, wcoh w -> wcoh (exec F w p).
Proof. induction p as [|s p IH]; intros w H; [exact H|]. cbn. apply IH. now apply exec_stmt_coh. Qed.
End TapeFacts.
