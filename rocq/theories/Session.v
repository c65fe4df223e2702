(** Reduced functionals on recorded programs: evaluation against the re-run specification, for
    fresh tapes and after arbitrary API histories. *)
From Coq Require Import List Arith ZArith Lia Bool.
From Verif Require Import Base Model BaseFacts Graph Record Spec RecordFacts Replay ReplayStep ReplayExec History.
Import ListNotations.

Section Session.
Context {V : Type} (F : fops V).
Implicit Types (w : world V) (h : heap V) (s : sst V) (ov : override V).

(** ** Recorded blocks always give values *)
Definition values_ok w := Forall (gives_value F) (flat w).

Lemma gives_value_kind : forall b b' : block V, b_kind b = b_kind b' -> gives_value F b -> gives_value F b'.
Proof. intros b b' E H xs i. rewrite <- E. apply H. Qed.

Lemma flat_get_bv : forall w o, flat (fst (get_bv w o)) = flat w.
Proof. intros w o. unfold get_bv, create_bv. destruct (nth_error _ _) as [ob|]; [destruct (o_bv ob)|]; reflexivity. Qed.
Lemma flat_ensure' : forall t : tape V, t_flat (ensure_step t) = t_flat t.
Proof. intros t. unfold ensure_step. destruct (t_steps t); reflexivity. Qed.
Lemma flat_will_dep : forall w v, flat (will_dep w v) = flat w.
Proof.
  intros w v. unfold will_dep, flat, with_heap, with_tape, add_to_state. cbn.
  destruct (match t_latest _ with None => true | Some _ => _ end); cbn; apply flat_ensure'.
Qed.
Lemma flat_will_out : forall w v, flat (will_out w v) = flat w.
Proof.
  intros w v. unfold will_out, flat, with_heap, with_tape, add_to_adjdeps. cbn.
  destruct (t_eager (w_tape w)); cbn; apply flat_ensure'.
Qed.
Lemma flat_get_bvs : forall os w, flat (fst (get_bvs w os)) = flat w.
Proof.
  induction os as [|o r IH]; intros w; [reflexivity|]. cbn [get_bvs].
  pose proof (flat_get_bv w o) as A. destruct (get_bv w o) as [w1 v]. specialize (IH w1).
  destruct (get_bvs w1 r). cbn [fst] in *. congruence.
Qed.
Lemma flat_add_deps : forall os w, flat (fst (add_deps w os)) = flat w.
Proof.
  induction os as [|o r IH]; intros w; [reflexivity|]. cbn [add_deps]. unfold add_dep.
  pose proof (flat_get_bv w o) as A. destruct (get_bv w o) as [w1 v]. pose proof (flat_will_dep w1 v) as B. specialize (IH (will_dep w1 v)).
  destruct (add_deps (will_dep w1 v) r). cbn [fst] in *. congruence.
Qed.
Lemma flat_add_outs : forall os w, flat (fst (add_outs w os)) = flat w.
Proof.
  induction os as [|o r IH]; intros w; [reflexivity|]. cbn [add_outs].
  assert (A : flat (fst (create_bv w o)) = flat w) by (unfold create_bv; destruct (nth_error _ _); reflexivity).
  destruct (create_bv w o) as [w1 v]. pose proof (flat_will_out w1 v) as B. specialize (IH (will_out w1 v)).
  destruct (add_outs (will_out w1 v) r). cbn [fst] in *. congruence.
Qed.
Lemma flat_new_objs : forall ys w, flat (fst (new_objs w ys)) = flat w.
Proof.
  induction ys as [|y r IH]; intros w; [reflexivity|]. cbn [new_objs]. unfold new_obj. cbn.
  specialize (IH (with_objs (fun l => l ++ [Obj y None 0]) w)). destruct (new_objs _ r). cbn [fst] in *. now rewrite IH.
Qed.
Lemma Forall_map_last : forall (v : nat) (l : list (block V)), Forall (gives_value F) l -> Forall (gives_value F) (map_last (push_out v) l).
Proof.
  intros v l H. induction H as [|b r Hb Hr IH]; [constructor|]. cbn. destruct r; [constructor; [|constructor]|constructor; auto].
  eapply gives_value_kind; [|exact Hb]. reflexivity.
Qed.

Lemma values_stmt : forall w c, values_ok w -> consistent_stmt c -> values_ok (fst (exec_stmt F w c)).
Proof.
  intros w c H Hc. unfold values_ok in *.
  assert (Hadd : forall t b, Forall (gives_value F) (t_flat t) -> gives_value F b -> Forall (gives_value F) (t_flat (add_block t b))).
  { intros t b Ht Hb. rewrite flat_add_block. apply Forall_app. auto. }
  destruct c; cbn [exec_stmt]; cbn [fst].
  - exact H.
  - unfold exec_op. destruct (negb _) eqn:En; [exact H|]. apply negb_false_iff, andb_true_iff in En as [Hk _].
    destruct (arg_vals w args) as [xs|]; [|exact H]. destruct (op_value F k xs); [|exact H].
    cbn [new_obj]. set (w1 := with_objs _ w). destruct (w_ann w); [|exact H].
    pose proof (flat_get_bvs args w1) as A. destruct (get_bvs w1 args) as [w2 ts].
    pose proof (flat_add_deps args w2) as B. destruct (add_deps w2 args) as [w3 ds]. cbn [fst] in *.
    set (w4 := with_tape _ w3). pose proof (flat_get_bv w4 (length (w_objs w))) as C.
    destruct (get_bv w4 _) as [w5 v]. cbn [fst] in *. pose proof (flat_will_out w5 v) as D.
    unfold flat in *. cbn [fst].
    change (Forall (gives_value F) (map_last (push_out v) (t_flat (w_tape (will_out w5 v))))).
    apply Forall_map_last. rewrite D, C. apply Hadd; [rewrite B, A; exact H|].
    apply builtin_gives_value. intros u E. cbn in E. subst k. discriminate.
  - unfold exec_fun. destruct (negb _) eqn:En; [exact H|]. apply negb_false_iff, andb_true_iff in En as [Hk _].
    destruct (arg_vals w args) as [xs|]; [|exact H].
    match goal with |- context[new_obj ?x _] => set (w1 := x) end.
    assert (H1 : Forall (gives_value F) (flat w1)).
    { unfold w1. destruct (w_ann w && annotate); [|exact H].
      pose proof (flat_add_deps args w) as B. destruct (add_deps w args) as [w3 ds]. cbn [fst] in B.
      unfold flat in *. cbn. apply Hadd; [rewrite B; exact H|].
      apply builtin_gives_value. intros u E. cbn in E. subst k. discriminate. }
    destruct (op_value F k xs); [|exact H1]. cbn [new_obj]. set (w2 := with_objs _ w1).
    destruct (w_ann w && annotate); [|exact H1].
    pose proof (flat_get_bv w2 (length (w_objs w1))) as C. destruct (get_bv w2 _) as [w5 v]. cbn [fst] in *.
    pose proof (flat_will_out w5 v) as D. unfold flat in *. cbn [fst].
    change (Forall (gives_value F) (map_last (push_out v) (t_flat (w_tape (will_out w5 v))))).
    apply Forall_map_last. rewrite D, C. exact H1.
  - unfold exec_user. destruct (arg_vals w args) as [xs|]; [|exact H].
    set (r := if w_ann w && annotate then add_deps w args else (w, [])).
    assert (B : flat (fst r) = flat w) by (unfold r; destruct (w_ann w && annotate); [apply flat_add_deps|reflexivity]).
    destruct r as [w1 deps]. cbn [fst] in *. destruct (func xs) as [ys|]; cbn [fst]; [|rewrite B; exact H].
    pose proof (flat_new_objs ys w1) as C. destruct (new_objs w1 ys) as [w2 os]. cbn [fst] in *.
    destruct (w_ann w && annotate); [|cbn [fst]; rewrite C, B; exact H].
    pose proof (flat_add_outs os w2) as D. destruct (add_outs w2 os) as [w3 vs]. cbn [fst] in *.
    unfold flat in *. cbn. apply Hadd; [rewrite D, C, B; exact H|].
    intros zs i. cbn in Hc |- *. rewrite Hc. destruct (func zs) as [ys'|]; [|discriminate]. destruct (nth_error ys' i); discriminate.
  - unfold exec_inpl. destruct (arg_vals w args) as [xs|]; [|exact H]. destruct (nth_error (w_objs w) o); [|exact H].
    set (r := if w_ann w && annotate then add_deps w args else (w, [])).
    assert (B : flat (fst r) = flat w) by (unfold r; destruct (w_ann w && annotate); [apply flat_add_deps|reflexivity]).
    destruct r as [w1 deps]. cbn [fst] in *. destruct (func xs) as [y|]; cbn [fst]; [|rewrite B; exact H].
    assert (C : flat (assign_obj w1 o y) = flat w1) by (unfold assign_obj; destruct (nth_error _ _); reflexivity).
    destruct (w_ann w && annotate); [|cbn [fst]; rewrite C, B; exact H].
    pose proof (flat_add_outs [o] (assign_obj w1 o y)) as D. destruct (add_outs (assign_obj w1 o y) [o]) as [w3 vs]. cbn [fst] in *.
    unfold flat in *. cbn. apply Hadd; [rewrite D, C, B; exact H|].
    intros zs i. cbn in Hc |- *. rewrite Hc. destruct (func zs); discriminate.
  - destruct (nth_error (w_objs w) o) eqn:E; [|exact H]. cbn [fst].
    assert (B : forall w', flat (clear_bv w' o) = flat w') by (intros w'; unfold clear_bv; destruct (nth_error (w_objs w') o); reflexivity).
    rewrite B. unfold assign_obj. rewrite E. exact H.
  - exact H.
  - exact H.
  - exact H.
  - destruct (nth_error (w_objs w) o) as [ob|] eqn:E; [|exact H]. destruct (o_bv ob); [|exact H]. destruct (referenced w _); [exact H|].
    cbn. unfold clear_bv. rewrite E. exact H.
  - destruct (nth_error (w_objs w) o); [|exact H]. pose proof (flat_get_bv w o) as A. destruct (get_bv w o) as [w1 v]. cbn [fst] in *.
    unfold flat in *. cbn. rewrite A. exact H.
  - destruct (nth_error (w_objs w) o); [|exact H]. cbn [fst]. rewrite flat_get_bv. exact H.
Qed.
Lemma values_exec : forall p w, values_ok w -> consistent p -> values_ok (exec F w p).
Proof.
  induction p as [|c r IH]; intros w H Hc; [exact H|]. inversion Hc; subst.
  change (exec F w (c :: r)) with (exec F (fst (exec_stmt F w c)) r). apply IH; auto. now apply values_stmt.
Qed.
Lemma values_program : forall p ann, consistent p -> values_ok (exec F (world_new F ann) p).
Proof. intros. apply values_exec; auto. constructor. Qed.

(** ** Prescriptions *)
Definition ver_eqb (a b : ver) : bool := Nat.eqb (fst a) (fst b) && Nat.eqb (snd a) (snd b).
Lemma ver_eqb_eq : forall a b, ver_eqb a b = true <-> a = b.
Proof.
  intros [a1 a2] [b1 b2]. unfold ver_eqb. cbn. rewrite andb_true_iff, !Nat.eqb_eq. split; [intros [-> ->]; reflexivity|intros H; inversion H; auto].
Qed.

Lemma prescribe_supplied : forall (vf : nat -> ver) cs vals ov u,
  length vals = length cs -> (forall c, In c cs -> vf c = vf u -> c = u) ->
  prescribe (map vf cs) vals ov (vf u) = match supplied cs vals u with Some x => Some x | None => ov (vf u) end.
Proof.
  intros vf cs. induction cs as [|c cs IH]; intros [|x xs] ov u Hl Hi; try discriminate; [reflexivity|].
  cbn [map prescribe supplied]. rewrite IH; [|cbn in Hl; lia|intros; apply Hi; auto; now right].
  destruct (supplied cs xs u); [reflexivity|].
  fold (ver_eqb (vf u) (vf c)). destruct (ver_eqb (vf u) (vf c)) eqn:E.
  - apply ver_eqb_eq in E. rewrite (Hi c) by (auto; now left). now rewrite Nat.eqb_refl.
  - destruct (Nat.eqb_spec u c) as [->|]; [|reflexivity].
    exfalso. assert (ver_eqb (vf c) (vf c) = true) by now apply ver_eqb_eq. congruence.
Qed.

Lemma supplied_map_all : forall cs (g : nat -> V) u, In u cs -> supplied cs (map g cs) u = Some (g u).
Proof.
  induction cs as [|c cs IH]; intros g u H; [easy|]. cbn [map supplied].
  destruct (in_dec Nat.eq_dec u cs) as [Hi|Hi]; [now rewrite IH|].
  destruct H as [->|H]; [|contradiction].
  pose proof (supplied_some cs (map g cs) u (map_length _ _)) as S. rewrite (proj2 (mem_false u cs) Hi) in S.
  destruct (supplied cs (map g cs) u); [discriminate|]. now rewrite Nat.eqb_refl.
Qed.

(** Value of object [j] in the re-run that prescribes [ov]. *)
Definition spec_value ov (ann : bool) (p : list (stmt V)) (j : nat) : res V :=
  let s := spec_exec F ov ann p in
  match s_err s with
  | Some e => Err e
  | None => match nth_error (s_objs s) j with Some x => Ok (s_rep x) | None => Err EAttr end
  end.
Lemma spec_rerun_value : forall ann p vals j, spec_rerun F ann p vals j =
  spec_value (prescribe (map fst (s_ctrls (spec_exec F no_override ann p))) vals no_override) ann p j.
Proof. reflexivity. Qed.

(** ** Stored values of live variables after recording *)
Lemma saved_rec : forall w v, WInv F [] w -> (In v (deps_of (flat w)) \/ current w v) -> saved (w_heap w) v = bv_rec (w_heap w v).
Proof.
  intros w v W [Hd|[o [ob [A B]]]].
  - assert (Hv : live [] w v) by (left; unfold refs, vars_of; rewrite !in_app_iff; tauto).
    pose proof (wi_dep F [] w W v Hd) as N. unfold saved. destruct (bv_ckpt (w_heap w v)) as [x|] eqn:E; [|congruence].
    exact (wi_ckpt F [] w W v x Hv E).
  - destruct (wi_cur F [] w W o ob v A B) as [Hv [G O]]. unfold saved. destruct (bv_ckpt (w_heap w v)) as [x|] eqn:E.
    + apply (wi_ckpt F [] w W v x); [right; exists o, ob; auto|exact E].
    + unfold ghost in G. congruence.
Qed.

Definition rerun_value (s : sst V) (j : nat) : res V :=
  match s_err s with
  | Some e => Err e
  | None => match nth_error (s_objs s) j with Some x => Ok (s_rep x) | None => Err EAttr end
  end.
(** ** One evaluation against the specification *)
Lemma call_sim_full : forall w s ov j v cs vals scale h,
  good F ov w s -> values_ok w -> cur w j v ->
  (forall c, In c cs -> In c (w_ctrls w)) -> length vals = length cs -> no_ctrl h ->
  (forall u, In u cs -> ov (verb (w_heap w u)) = supplied cs vals u) ->
  (forall u, In u (outs_of (flat w)) -> ~ In u cs -> ov (verb (w_heap w u)) = None) ->
  (forall u, In u (deps_of (flat w)) \/ u = v -> ~ In u cs -> ~ In u (computed (fun u => mem u cs) (flat w)) ->
     saved h u = prescribed ov (verb (w_heap w u)) (bv_rec (w_heap w u))) ->
  snd (rf_call F (flat w) (RF v cs scale) vals h) = rmap (fun x => f_mul F x scale) (rerun_value s j) /\
  (forall x, rerun_value s j = Ok x -> saved (fst (rf_call F (flat w) (RF v cs scale) vals h)) v = x).
Proof.
  intros w s ov j v cs vals scale h [W S] Hv Hc Hcs Hl Hn HA HB HC.
  destruct (rf_call_spec F (flat w) (RF v cs scale) vals h Hn Hl) as [R [R' _]]. cbn [rf_ctrls rf_J rf_scale] in R, R'.
  rewrite R, (R' v). clear R R'. unfold rerun_value.
  set (cut := fun u => mem u cs). set (e0 := start_env h cs vals).
  set (e1 := fun u => if mem u (computed cut (flat w)) then bv_rec (w_heap w u) else e0 u).
  assert (Hg : forall b, In b (flat w) -> gives_value F b) by (apply Forall_forall; exact Hv).
  destruct (geval_local F cut (flat w) e0 e1 (proj1 (wi_wf F [] w W)) Hg) as [L1 L2].
  { intros u Hu. unfold e1. now rewrite (proj2 (mem_false u _) Hu). }
  destruct (geval_agree F cut (ov_cut ov (w_heap w)) (flat w) e1 (ov_env ov (w_heap w))
              (fun u => In u (deps_of (flat w)) \/ u = v)) as [A1 A2].
  - tauto.
  - intros u Hu. unfold cut, ov_cut. destruct (in_dec Nat.eq_dec u cs) as [Hi|Hi].
    + rewrite HA by assumption. rewrite supplied_some by assumption. reflexivity.
    + rewrite HB by assumption. apply mem_false. exact Hi.
  - intros u Hu. unfold e1, ov_env. destruct (mem u (computed cut (flat w))) eqn:Em.
    + apply mem_In in Em. pose proof (computed_not_cut _ _ _ Em) as K. unfold cut in K. apply mem_false in K.
      unfold prescribed. rewrite HB; [reflexivity| |exact K]. now apply computed_outs in Em.
    + apply mem_false in Em. unfold e0, start_env. destruct (in_dec Nat.eq_dec u cs) as [Hi|Hi].
      * unfold prescribed. rewrite HA by exact Hi.
        pose proof (supplied_some cs vals u Hl) as Q. rewrite (proj2 (mem_In u cs) Hi) in Q.
        destruct (supplied cs vals u); [reflexivity|discriminate].
      * pose proof (supplied_some cs vals u Hl) as Q. rewrite (proj2 (mem_false u cs) Hi) in Q.
        destruct (supplied cs vals u); [discriminate|]. now apply HC.
  - fold cut e0. rewrite L1, A1. fold (genv F ov w). rewrite <- (sm_err F ov w s S).
    assert (A3 : snd (geval F cut (flat w) e0) = s_err s).
    { rewrite L1, A1. symmetry. exact (sm_err F ov w s S). }
    destruct (s_err s) as [e|] eqn:Ee; [split; [reflexivity|discriminate]|].
    destruct Hc as [ob [B1 B2]].
    destruct (nth_error (s_objs s) j) as [so|] eqn:Es.
    2:{ apply nth_error_None in Es. apply nth_error_some_lt in B1. rewrite (sm_len F ov w s S) in B1. lia. }
    assert (Q : fst (geval F cut (flat w) e0) v = s_rep so).
    { rewrite (L2 A3 v), (A2 v) by auto. pose proof (sm_rep F ov w s S Ee j ob so B1 Es) as Q. rewrite B2 in Q. exact Q. }
    cbn. rewrite Q. split; [reflexivity|congruence].
Qed.

(** ** Programs *)
(** The state in which a user builds reduced functionals: a recorded program and the block variable
    of the functional [j]. *)
Definition recorded (ann : bool) (p : list (stmt V)) (j : nat) : world V * nat := get_bv (exec F (world_new F ann) p) j.

Lemma recorded_good : forall ann p j ov, consistent p -> disciplined ann p = true ->
  j < length (w_objs (exec F (world_new F ann) p)) ->
  good F ov (fst (recorded ann p j)) (spec_exec F ov ann p) /\ values_ok (fst (recorded ann p j)) /\
  cur (fst (recorded ann p j)) j (snd (recorded ann p j)).
Proof.
  intros ann p j ov Hc Hd Hj. unfold recorded.
  destruct (exec_sim F p ov ann Hc Hd) as [W S]. set (w := exec F (world_new F ann) p) in *.
  pose proof (get_bv_spec F [] w j W Hj) as B. pose proof (flat_get_bv w j) as Q.
  destruct (get_bv w j) as [w1 v]. cbn [fst snd] in *. destruct B as [W1 [E1 C1]].
  split; [|split; [|exact C1]].
  - split; [exact W1|]. exact (Sim_evolves F [] ov w w1 _ W W1 E1 S).
  - unfold values_ok. rewrite Q. apply (values_program p ann Hc).
Qed.

Lemma ctrl_live : forall w c, In c (w_ctrls w) -> live [] w c.
Proof. intros w c H. left. unfold refs. rewrite !in_app_iff. tauto. Qed.
Lemma out_live : forall w c, In c (outs_of (flat w)) -> live [] w c.
Proof. intros w c H. left. unfold refs, vars_of. rewrite !in_app_iff. tauto. Qed.
Lemma dep_live : forall w c, In c (deps_of (flat w)) -> live [] w c.
Proof. intros w c H. left. unfold refs, vars_of. rewrite !in_app_iff. tauto. Qed.

(** The controls whose most recent values matter: leaves with a supplied value. *)
Definition leaf_supplies w (l : list (api V)) : list nat :=
  filter (fun c => negb (mem c (outs_of (flat w))) && is_some (latest l c)) (w_ctrls w).
Definition hist_override w (l : list (api V)) : override V :=
  prescribe (map (fun c => verb (w_heap w c)) (leaf_supplies w l))
            (map (fun c => match latest l c with Some x => x | None => f_zero F end) (leaf_supplies w l)) no_override.

(** Calls in the history supply values to controls of the program only. *)
Definition calls_controls w (l : list (api V)) : Prop :=
  forall rf vals, In (ACall rf vals) l -> forall c, In c (rf_ctrls rf) -> In c (w_ctrls w).

Lemma latest_ctrl : forall w l u, calls_controls w l -> ~ In u (w_ctrls w) -> latest l u = None.
Proof.
  intros w l u H Hu. induction l as [|a l IH]; [reflexivity|].
  rewrite latest_cons, IH by (intros rf vals Hi; eapply H; right; exact Hi).
  destruct a; try reflexivity. cbn. destruct (Nat.eqb_spec (length vals) (length (rf_ctrls rf))) as [El|]; [|reflexivity].
  pose proof (supplied_some (rf_ctrls rf) vals u El) as S.
  rewrite (proj2 (mem_false u (rf_ctrls rf))) in S by (intros K; apply Hu; eapply H; [now left|exact K]).
  destruct (supplied _ _ u); [discriminate|reflexivity].
Qed.


Lemma call_history_full : forall w (St : override V -> sst V) j v cs vals scale l,
  (forall ov, good F ov w (St ov)) -> values_ok w -> cur w j v ->
  (forall c, In c cs -> In c (w_ctrls w)) -> length vals = length cs -> calls_controls w l ->
  (l = [] \/ closed cs (flat w)) ->
  let s := St (prescribe (map (fun c => verb (w_heap w c)) cs) vals (hist_override w l)) in
  let r := rf_call F (flat w) (RF v cs scale) vals (run_hist F (flat w) (w_heap w) l) in
  snd r = rmap (fun x => f_mul F x scale) (rerun_value s j) /\ (forall x, rerun_value s j = Ok x -> saved (fst r) v = x).
Proof.
  intros w St j v cs vals scale l Hgood Hv C Hcs Hl Hcc Hcl. cbv zeta.
  set (ov := prescribe _ vals _). destruct (Hgood ov) as [W S].
  assert (N0 : no_ctrl (w_heap w)) by (intros u; apply (wi_ctrl F [] w W)).
  assert (Hcl' : forall c, In c (leaf_supplies w l) -> In c (w_ctrls w) /\ ~ In c (outs_of (flat w)) /\ latest l c <> None).
  { intros c H. unfold leaf_supplies in H. apply filter_In in H as [A B]. apply andb_true_iff in B as [B1 B2].
    apply negb_true_iff, mem_false in B1. split; [exact A|]. split; [exact B1|]. destruct (latest l c); [discriminate|discriminate]. }
  assert (Hb : forall u, live [] w u -> hist_override w l (verb (w_heap w u)) =
             if mem u (leaf_supplies w l) then latest l u else None).
  { intros u Hu. unfold hist_override. rewrite (prescribe_supplied (fun c => verb (w_heap w c))).
    - destruct (in_dec Nat.eq_dec u (leaf_supplies w l)) as [Hi|Hi].
      + rewrite supplied_map_all by exact Hi. rewrite (proj2 (mem_In _ _) Hi).
        destruct (latest l u) eqn:E; [reflexivity|]. exfalso. exact (proj2 (proj2 (Hcl' u Hi)) E).
      + rewrite (proj2 (mem_false _ _) Hi).
        pose proof (supplied_some (leaf_supplies w l) (map (fun c => match latest l c with Some x => x | None => f_zero F end) (leaf_supplies w l)) u (map_length _ _)) as Q.
        rewrite (proj2 (mem_false _ _) Hi) in Q. destruct (supplied _ _ u); [discriminate|reflexivity].
    - apply map_length.
    - intros c Hc' E. apply (wi_uniq F [] w W); auto. apply ctrl_live. now apply Hcl'. }
  assert (Ho : forall u, live [] w u -> ov (verb (w_heap w u)) =
             match supplied cs vals u with Some x => Some x | None => hist_override w l (verb (w_heap w u)) end).
  { intros u Hu. unfold ov. apply (prescribe_supplied (fun c => verb (w_heap w c))); [exact Hl|].
    intros c Hc' E. apply (wi_uniq F [] w W); auto. apply ctrl_live. auto. }
  assert (Hns : forall u, ~ In u cs -> supplied cs vals u = None).
  { intros u Hu. pose proof (supplied_some cs vals u Hl) as Q. rewrite (proj2 (mem_false _ _) Hu) in Q.
    destruct (supplied cs vals u); [discriminate|reflexivity]. }
  apply (call_sim_full w (St ov) ov j v cs vals scale); auto.
  - apply (hist_frame F). exact N0.
  - intros u Hu. rewrite Ho by (apply ctrl_live; auto).
    pose proof (supplied_some cs vals u Hl) as Q. rewrite (proj2 (mem_In _ _) Hu) in Q.
    destruct (supplied cs vals u); [reflexivity|discriminate].
  - intros u Hu Hnc. rewrite Ho, Hns, Hb by (try apply out_live; assumption).
    replace (mem u (leaf_supplies w l)) with false; [reflexivity|]. symmetry. apply mem_false. intros K. exact (proj1 (proj2 (Hcl' u K)) Hu).
  - intros u Hu Hnc Hncomp.
    assert (Hsr : saved (w_heap w) u = bv_rec (w_heap w u)).
    { apply saved_rec; [exact W|]. destruct Hu as [Hu| ->]; [now left|right; exists j; exact C]. }
    assert (Hlv : live [] w u).
    { destruct Hu as [Hu| ->]; [now apply dep_live|right; exists j; exact C]. }
    unfold prescribed. rewrite Ho, Hns, Hb by assumption.
    destruct (in_dec Nat.eq_dec u (outs_of (flat w))) as [Hout|Hout].
    + (* a sibling of a control: only possible on a fresh tape *)
      replace (mem u (leaf_supplies w l)) with false by (symmetry; apply mem_false; intros K; exact (proj1 (proj2 (Hcl' u K)) Hout)).
      destruct Hcl as [->|Hcl]; [exact Hsr|].
      destruct (not_computed cs (flat w) u Hcl Hncomp) as [K|K]; contradiction.
    + rewrite (hist_leaf F (flat w) l (w_heap w) u N0 Hout).
      destruct (mem u (leaf_supplies w l)) eqn:Em.
      * destruct (latest l u) eqn:E; [reflexivity|]. apply mem_In in Em. exfalso. exact (proj2 (proj2 (Hcl' u Em)) E).
      * destruct (in_dec Nat.eq_dec u (w_ctrls w)) as [Hi|Hi].
        -- destruct (latest l u) eqn:E; [|exact Hsr]. exfalso. apply mem_false in Em. apply Em.
           unfold leaf_supplies. apply filter_In. split; [exact Hi|]. rewrite (proj2 (mem_false _ _) Hout), E. reflexivity.
        -- rewrite (latest_ctrl w l u Hcc Hi). exact Hsr.
Qed.

Lemma call_history_good : forall w (St : override V -> sst V) j v cs vals scale l,
  (forall ov, good F ov w (St ov)) -> values_ok w -> cur w j v ->
  (forall c, In c cs -> In c (w_ctrls w)) -> length vals = length cs -> calls_controls w l ->
  (l = [] \/ closed cs (flat w)) ->
  snd (rf_call F (flat w) (RF v cs scale) vals (run_hist F (flat w) (w_heap w) l)) =
  rmap (fun x => f_mul F x scale)
    (rerun_value (St (prescribe (map (fun c => verb (w_heap w c)) cs) vals (hist_override w l))) j).
Proof. intros w St j v cs vals scale l H1 H2 H3 H4 H5 H6 H7. exact (proj1 (call_history_full w St j v cs vals scale l H1 H2 H3 H4 H5 H6 H7)). Qed.

Lemma call_history_sim : forall ann p j cs vals scale l,
  consistent p -> disciplined ann p = true -> j < length (w_objs (exec F (world_new F ann) p)) ->
  let w := fst (recorded ann p j) in
  let v := snd (recorded ann p j) in
  (forall c, In c cs -> In c (w_ctrls w)) -> length vals = length cs -> calls_controls w l ->
  (l = [] \/ closed cs (flat w)) ->
  snd (rf_call F (flat w) (RF v cs scale) vals (run_hist F (flat w) (w_heap w) l)) =
  rmap (fun x => f_mul F x scale)
    (spec_value (prescribe (map (fun c => verb (w_heap w c)) cs) vals (hist_override w l)) ann p j).
Proof.
  intros ann p j cs vals scale l Hc Hd Hj w v Hcs Hl Hcc Hcl.
  apply (call_history_good w (fun ov => spec_exec F ov ann p)); auto.
  - intros ov. exact (proj1 (recorded_good ann p j ov Hc Hd Hj)).
  - exact (proj1 (proj2 (recorded_good ann p j no_override Hc Hd Hj))).
  - exact (proj2 (proj2 (recorded_good ann p j no_override Hc Hd Hj))).
Qed.

(** *** All controls of the program *)
Lemma spec_ctrls : forall ann p j, consistent p -> disciplined ann p = true ->
  j < length (w_objs (exec F (world_new F ann) p)) ->
  map fst (s_ctrls (spec_exec F no_override ann p)) = map (fun c => verb (w_heap (fst (recorded ann p j)) c)) (w_ctrls (fst (recorded ann p j))).
Proof.
  intros ann p j Hc Hd Hj. destruct (recorded_good ann p j no_override Hc Hd Hj) as [[_ S] _].
  rewrite (sm_ctrls F _ _ _ S), map_map. reflexivity.
Qed.

Lemma prescribe_agree : forall vs vals (o1 o2 : override V), length vals = length vs ->
  (forall u, In u vs \/ o1 u = o2 u) -> forall u, prescribe vs vals o1 u = prescribe vs vals o2 u.
Proof.
  induction vs as [|x vs IH]; intros [|y vals] o1 o2 Hl H u; try discriminate; cbn.
  - destruct (H u) as [[]|]; assumption.
  - apply IH; [cbn in Hl; lia|]. intros u'. fold (ver_eqb u' x).
    destruct (ver_eqb u' x) eqn:E; [right; reflexivity|]. destruct (H u') as [[K|K]|K]; auto.
    exfalso. subst x. assert (ver_eqb u' u' = true) by now apply ver_eqb_eq. congruence.
Qed.

(** The specification respects pointwise equal prescriptions. *)
Lemma prescribed_ext : forall (o1 o2 : override V) v x, (forall u, o1 u = o2 u) -> prescribed o1 v x = prescribed o2 v x.
Proof. intros. unfold prescribed. now rewrite H. Qed.
Lemma results_ext : forall (o1 o2 : override V) a vs ys again, (forall u, o1 u = o2 u) ->
  results o1 a vs ys again = results o2 a vs ys again.
Proof.
  intros o1 o2 a vs ys again H. unfold results.
  replace (existsb (fun v => is_some (o2 v)) vs) with (existsb (fun v => is_some (o1 v)) vs).
  2:{ clear - H. induction vs; cbn; [reflexivity|]. now rewrite H, IHvs. }
  destruct (_ && _ && _); [reflexivity|]. f_equal. apply map_ext. intros. now apply prescribed_ext.
Qed.
Lemma spec_stmt_ext : forall (o1 o2 : override V) s c, (forall u, o1 u = o2 u) -> spec_stmt F o1 s c = spec_stmt F o2 s c.
Proof.
  intros o1 o2 s c H.
  assert (Hcall : forall a func args, spec_call o1 a func args s = spec_call o2 a func args s).
  { intros. unfold spec_call. destruct (get_args s_rec s args); [|reflexivity]. destruct (get_args s_rep s args); [|reflexivity].
    destruct (func l); [|reflexivity]. now rewrite (results_ext o1 o2). }
  destruct c; cbn; auto.
  - now rewrite (prescribed_ext o1 o2).
  - destruct (sargs_ok k true args); auto.
  - destruct (sargs_ok k false args); auto.
  - unfold spec_inpl. destruct (get_args s_rec s args); [|reflexivity]. destruct (get_args s_rep s args); [|reflexivity].
    destruct (nth_error (s_objs s) o); [|reflexivity]. destruct (func l); [|reflexivity]. now rewrite (results_ext o1 o2).
  - destruct (nth_error (s_objs s) o); [|reflexivity]. now rewrite (prescribed_ext o1 o2).
Qed.
Lemma spec_exec_ext : forall (o1 o2 : override V) ann p, (forall u, o1 u = o2 u) -> spec_exec F o1 ann p = spec_exec F o2 ann p.
Proof.
  intros o1 o2 ann p H. unfold spec_exec. generalize (SSt ([] : list (sobj V)) ann None []).
  induction p as [|c r IH]; intros s; [reflexivity|]. cbn. rewrite (spec_stmt_ext o1 o2) by exact H. apply IH.
Qed.
Lemma spec_value_ext : forall (o1 o2 : override V) ann p j, (forall u, o1 u = o2 u) -> spec_value o1 ann p j = spec_value o2 ann p j.
Proof. intros. unfold spec_value. now rewrite (spec_exec_ext o1 o2). Qed.

Lemma hist_override_in : forall w l u, hist_override w l u <> None -> In u (map (fun c => verb (w_heap w c)) (w_ctrls w)).
Proof.
  intros w l u. unfold hist_override.
  assert (G : forall vs (vals : list V) (o : override V), prescribe vs vals o u <> None -> In u vs \/ o u <> None).
  { induction vs as [|x vs IH]; intros [|y vals] o K; cbn in K; auto. destruct (IH _ _ K) as [K1|K1]; [left; now right|].
    fold (ver_eqb u x) in K1. destruct (ver_eqb u x) eqn:E; [left; left; symmetry; apply ver_eqb_eq; exact E|now right]. }
  intros H. destruct (G _ _ _ H) as [K|K]; [|now exfalso; apply K].
  apply in_map_iff in K as [c [<- Hc]]. apply (in_map (fun c => verb (w_heap w c))). unfold leaf_supplies in Hc. now apply filter_In in Hc.
Qed.

Lemma rf_call_rerun : forall ann p j vals scale l,
  consistent p -> disciplined ann p = true -> j < length (w_objs (exec F (world_new F ann) p)) ->
  let w := fst (recorded ann p j) in
  let v := snd (recorded ann p j) in
  length vals = length (w_ctrls w) -> calls_controls w l ->
  (l = [] \/ closed (w_ctrls w) (flat w)) ->
  snd (rf_call F (flat w) (RF v (w_ctrls w) scale) vals (run_hist F (flat w) (w_heap w) l)) =
  rmap (fun x => f_mul F x scale) (spec_rerun F ann p vals j).
Proof.
  intros ann p j vals scale l Hc Hd Hj w v Hl Hcc Hcl.
  rewrite spec_rerun_value, (spec_ctrls ann p j Hc Hd Hj). fold w.
  pose proof (call_history_sim ann p j (w_ctrls w) vals scale l Hc Hd Hj) as H. cbv zeta in H. fold w v in H.
  rewrite H by auto. f_equal. apply spec_value_ext. apply prescribe_agree; [now rewrite map_length|].
  intros u. destruct (hist_override w l u) eqn:E; [left|right; reflexivity].
  apply (hist_override_in w l). congruence.
Qed.

(** ** Replaying the recorded values *)
Lemma geval_fix : forall cut bs (G e : env), Forall (block_rec F G) bs -> env_eq e G ->
  snd (geval F cut bs e) = None /\ env_eq (fst (geval F cut bs e)) G.
Proof.
  intros cut bs G e H. revert e. induction H as [|b r Hb Hr IH]; intros e He; [now split|].
  unfold geval. cbn [iter_o].
  assert (Q : snd (geval_block F cut e b) = None /\ env_eq (fst (geval_block F cut e b)) G).
  { unfold geval_block. destruct (existsb cut (b_outs b)); [now split|].
    replace (map e (b_deps b)) with (map G (b_deps b)) by (apply map_ext; intros; now rewrite He).
    unfold enum.
    assert (K : forall l i (a : env), env_eq a G -> (forall k o, nth_error l k = Some o -> nth_error (b_outs b) (i + k) = Some o) ->
      let r := iter_o (fun e' (io : nat * nat) => match comp_recompute F (b_kind b) (map G (b_deps b)) (fst io) with
              | Err x => (e', Some x) | Ok None => (e', None) | Ok (Some x) => (eset e' (snd io) x, None) end) (enum_from i l) a in
      snd r = None /\ env_eq (fst r) G).
    { induction l as [|o l IHl]; intros i a Ha Hn; [now split|]. cbn [enum_from iter_o fst snd].
      rewrite (Hb i o) by (rewrite <- (Nat.add_0_r i); apply Hn; reflexivity).
      apply IHl.
      - intros v. unfold eset. destruct (Nat.eqb_spec v o) as [->|]; auto.
      - intros k o' Hk. replace (S i + k) with (i + S k) by lia. now apply Hn. }
    apply K; auto. }
  destruct (geval_block F cut e b) as [e1 x]. cbn [fst snd] in Q. destruct Q as [-> Q2]. now apply IH.
Qed.

Lemma call_recorded : forall w j v ob scale cs h,
  WInv F [] w -> values_ok w -> nth_error (w_objs w) j = Some ob -> o_bv ob = Some v ->
  no_ctrl h ->
  (forall u, In u (deps_of (flat w)) \/ u = v -> ~ In u cs -> ~ In u (computed (fun u => mem u cs) (flat w)) ->
     saved h u = bv_rec (w_heap w u)) ->
  snd (rf_call F (flat w) (RF v cs scale) (map (fun c => bv_rec (w_heap w c)) cs) h) = Ok (f_mul F (o_val ob) scale).
Proof.
  intros w j v ob scale cs h W Hv Ho Hb Hn Hs.
  destruct (rf_call_spec F (flat w) (RF v cs scale) (map (fun c => bv_rec (w_heap w c)) cs) h Hn (map_length _ _)) as [R _].
  cbn [rf_ctrls rf_J rf_scale] in R. rewrite R. clear R.
  set (cut := fun u => mem u cs). set (e0 := start_env h cs _).
  set (e1 := fun u => if mem u (computed cut (flat w)) then bv_rec (w_heap w u) else e0 u).
  assert (Hg : forall b, In b (flat w) -> gives_value F b) by (apply Forall_forall; exact Hv).
  destruct (geval_local F cut (flat w) e0 e1 (proj1 (wi_wf F [] w W)) Hg) as [L1 L2].
  { intros u Hu. unfold e1. now rewrite (proj2 (mem_false u _) Hu). }
  destruct (geval_agree F cut cut (flat w) e1 (recs (w_heap w)) (fun u => In u (deps_of (flat w)) \/ u = v)) as [A1 A2]; auto.
  { intros u Hu. unfold e1, recs. destruct (mem u (computed cut (flat w))) eqn:Em; [reflexivity|]. apply mem_false in Em.
    unfold e0, start_env. destruct (in_dec Nat.eq_dec u cs) as [Hi|Hi].
    - now rewrite (supplied_map_all cs (fun c => bv_rec (w_heap w c)) u Hi).
    - pose proof (supplied_some cs (map (fun c => bv_rec (w_heap w c)) cs) u (map_length _ _)) as Q.
      rewrite (proj2 (mem_false _ _) Hi) in Q. destruct (supplied _ _ u); [discriminate|]. now apply Hs. }
  destruct (geval_fix cut (flat w) (recs (w_heap w)) (recs (w_heap w)) (wi_rec F [] w W)) as [G1 G2]; [now intros u|].
  assert (E : snd (geval F cut (flat w) e0) = None) by (rewrite L1, A1; exact G1).
  fold cut. rewrite E. rewrite (L2 E v), (A2 v), (G2 v) by auto.
  destruct (wi_cur F [] w W j ob v Ho Hb) as [_ [G _]]. unfold ghost in G. unfold recs.
  injection G as _ _ G. now rewrite G.
Qed.

Lemma rf_call_recorded : forall ann p j x scale l,
  consistent p -> disciplined ann p = true -> recorded_value F ann p j = Some x ->
  let w := fst (recorded ann p j) in
  let v := snd (recorded ann p j) in
  calls_controls w l -> (l = [] \/ closed (w_ctrls w) (flat w)) ->
  snd (rf_call F (flat w) (RF v (w_ctrls w) scale) (control_values F ann p) (run_hist F (flat w) (w_heap w) l)) =
  Ok (f_mul F x scale).
Proof.
  intros ann p j x scale l Hc Hd Hx w v Hcc Hcl.
  unfold recorded_value in Hx. destruct (nth_error (s_objs (spec_exec F no_override ann p)) j) as [so|] eqn:Es; [|discriminate].
  cbn in Hx. inversion Hx; subst x.
  assert (Hj : j < length (w_objs (exec F (world_new F ann) p))).
  { destruct (exec_sim F p no_override ann Hc Hd) as [_ S]. rewrite (sm_len F _ _ _ S). now apply nth_error_some_lt in Es. }
  destruct (recorded_good ann p j no_override Hc Hd Hj) as [[W S] [Hv C]]. fold w v in W, S, Hv, C.
  unfold control_values. rewrite (sm_ctrls F _ _ _ S), map_map. cbn [snd].
  pose proof C as [ob [B1 B2]]. destruct (sm_obj F _ _ _ S j ob so B1 Es) as [E _]. rewrite <- E.
  assert (N0 : no_ctrl (w_heap w)) by (intros u; apply (wi_ctrl F [] w W)).
  apply (call_recorded w j v ob scale (w_ctrls w)); auto.
  - apply (hist_frame F). exact N0.
  - intros u Hu Hnc Hncomp.
    assert (Hsr : saved (w_heap w) u = bv_rec (w_heap w u)).
    { apply saved_rec; [exact W|]. destruct Hu as [Hu| ->]; [now left|right; exists j; exact C]. }
    destruct Hcl as [->|Hcl]; [exact Hsr|].
    destruct (not_computed _ (flat w) u Hcl Hncomp) as [K|K]; [|contradiction].
    rewrite (hist_leaf F (flat w) l (w_heap w) u N0 K), (latest_ctrl w l u Hcc Hnc). exact Hsr.
Qed.

Lemma retry : forall ann p j bad vals scale e,
  consistent p -> disciplined ann p = true -> j < length (w_objs (exec F (world_new F ann) p)) ->
  let w := fst (recorded ann p j) in
  let rf := RF (snd (recorded ann p j)) (w_ctrls w) scale in
  length vals = length (w_ctrls w) -> closed (w_ctrls w) (flat w) ->
  snd (rf_call F (flat w) rf bad (w_heap w)) = Err e ->
  let h' := fst (rf_call F (flat w) rf bad (w_heap w)) in
  (forall v, bv_ctrl (h' v) = false) /\
  snd (rf_call F (flat w) rf vals h') = rmap (fun x => f_mul F x scale) (spec_rerun F ann p vals j).
Proof.
  intros ann p j bad vals scale e Hc Hd Hj w rf Hl Hcl _ h'.
  destruct (recorded_good ann p j no_override Hc Hd Hj) as [[W _] _]. fold w in W.
  assert (N0 : no_ctrl (w_heap w)) by (intros u; apply (wi_ctrl F [] w W)).
  assert (E : h' = run_hist F (flat w) (w_heap w) [ACall rf bad]).
  { unfold h', run_hist. cbn [fold_left api_run]. now destruct (rf_call F (flat w) rf bad (w_heap w)). }
  rewrite E. split; [now apply hist_frame|].
  apply rf_call_rerun; auto.
  intros rf' vals' [H|[]] c Hcc. inversion H; subst. exact Hcc.
Qed.

(** A failed (or successful) call of the same functional does not influence the next one; any tape. *)
Lemma retry_fresh : forall (bs : list (block V)) rf bad vals h, topo bs -> (forall b, In b bs -> gives_value F b) -> no_ctrl h ->
  let h' := fst (rf_call F bs rf bad h) in
  no_ctrl h' /\ snd (rf_call F bs rf vals h') = snd (rf_call F bs rf vals h).
Proof.
  intros bs rf bad vals h Ht Hg Hn h'.
  destruct (Nat.eq_dec (length bad) (length (rf_ctrls rf))) as [Hb|Hb].
  2:{ unfold h'. rewrite rf_call_mismatch by exact Hb. auto. }
  destruct (rf_call_spec F bs rf bad h Hn Hb) as [_ [B E]]. fold h' in B, E.
  assert (N' : no_ctrl h') by (intros v; rewrite (erase_ckpt_ctrl _ _ (E v)); apply Hn). split; [exact N'|].
  destruct (Nat.eq_dec (length vals) (length (rf_ctrls rf))) as [Hl|Hl].
  2:{ now rewrite !rf_call_mismatch. }
  destruct (rf_call_spec F bs rf vals h' N' Hl) as [A1 _]. destruct (rf_call_spec F bs rf vals h Hn Hl) as [A2 _]. rewrite A1, A2.
  destruct (geval_local F (fun v => mem v (rf_ctrls rf)) bs (start_env h' (rf_ctrls rf) vals) (start_env h (rf_ctrls rf) vals) Ht Hg) as [B1 B2].
  { intros v Hv. unfold start_env. pose proof (supplied_some (rf_ctrls rf) vals v Hl) as S.
    destruct (supplied (rf_ctrls rf) vals v); [reflexivity|]. cbn in S. symmetry in S.
    rewrite B, geval_frame by exact Hv. unfold start_env. pose proof (supplied_some (rf_ctrls rf) bad v Hb) as S'. rewrite S in S'.
    destruct (supplied (rf_ctrls rf) bad v); [discriminate|reflexivity]. }
  rewrite <- B1. destruct (snd (geval F _ bs (start_env h' _ _))) eqn:E0; [reflexivity|]. now rewrite B2.
Qed.
Lemma retry_recorded : forall ann p j cs bad vals scale, consistent p -> disciplined ann p = true -> j < length (w_objs (exec F (world_new F ann) p)) ->
  let w := fst (recorded ann p j) in
  let rf := RF (snd (recorded ann p j)) cs scale in
  let h' := fst (rf_call F (flat w) rf bad (w_heap w)) in
  (forall v, bv_ctrl (h' v) = false) /\ snd (rf_call F (flat w) rf vals h') = snd (rf_call F (flat w) rf vals (w_heap w)).
Proof.
  intros ann p j cs bad vals scale Hc Hd Hj w rf h'.
  destruct (recorded_good ann p j no_override Hc Hd Hj) as [[W _] [Hv _]]. fold w in W, Hv.
  apply retry_fresh.
  - exact (proj1 (wi_wf F [] w W)).
  - apply Forall_forall. exact Hv.
  - intros u. apply (wi_ctrl F [] w W).
Qed.

End Session.
