(** Recording with floating objects simulates the re-run specification. *)
From Coq Require Import List Arith ZArith Lia Bool.
From Verif Require Import Base Model BaseFacts Graph Record Spec RecordFacts Replay ReplayStep ReplayExec History Session Floating SpecFloating.
Import ListNotations.

Section FloatFacts.
Context {V : Type} (F : fops V).
Implicit Types (w : world V) (s : sst V) (ov : override V).

(** ** Worlds that differ in the times of block variables and the sets kept per time step *)
Record alike w w' : Prop := {
  al_objs : w_objs w' = w_objs w; al_next : w_next w' = w_next w; al_flat : flat w' = flat w;
  al_ann : w_ann w' = w_ann w; al_ctrls : w_ctrls w' = w_ctrls w;
  al_heap : forall v, exists c l, w_heap w' v = set_times c l (w_heap w v) }.

Lemma alike_evolves : forall w w', alike w w' -> evolves w w'.
Proof.
  intros w w' [a1 a2 a3 a4 a5 a6]. constructor; try congruence; try lia.
  - intros v _. destruct (a6 v) as [c [l ->]]. reflexivity.
  - intros v _. destruct (a6 v) as [c [l ->]]. auto.
  - intros o ob H. rewrite a1. exists ob. repeat split; auto.
Qed.
Lemma alike_good : forall ov w w' s, alike w w' -> good F ov w s -> good F ov w' s.
Proof.
  intros ov w w' s A [W S]. pose proof A as [a1 a2 a3 a4 a5 a6].
  assert (W' : WInv F [] w').
  { apply (WInv_heap F [] w); auto.
    - intros v. destruct (a6 v) as [c [l ->]]. repeat split.
    - intros v. destruct (a6 v) as [c [l ->]]. repeat split.
    - intros v. left. destruct (a6 v) as [c [l ->]]. reflexivity. }
  split; [exact W'|]. exact (Sim_evolves F [] ov w w' s W W' (alike_evolves w w' A) S).
Qed.

(** A change of the saved value of a block variable nobody will look at. *)
Lemma stale_good : forall ov w w' v s, touches w w' v -> good F ov w s ->
  (bv_ckpt (w_heap w v) <> None /\ bv_ckpt (w_heap w' v) = bv_ckpt (w_heap w v)) \/ ~ live [] w v -> good F ov w' s.
Proof.
  intros ov w w' v s T [W S] H.
  assert (W' : WInv F [] w').
  { pose proof T as [a1 a2 a3 a4 a5 a6 a7]. destruct a6 as [t1 [t2 [t3 [[t4 [t5 [t6 t7]]] t8]]]].
    destruct H as [[_ H]|H].
    - apply (WInv_heap F [] w); auto.
      + intros u. destruct (Nat.eq_dec u v) as [->|Hne]; [auto|rewrite a7 by assumption; auto].
      + intros u. destruct (Nat.eq_dec u v) as [->|Hne]; [auto|rewrite a7 by assumption; auto].
      + intros u. left. destruct (Nat.eq_dec u v) as [->|Hne]; [exact H|now rewrite a7].
    - assert (L : forall u, live [] w u -> w_heap w' u = w_heap w u).
      { intros u Hu. apply a7. intros ->. exact (H Hu). }
      assert (Hr : refs [] w' = refs [] w) by (unfold refs; congruence).
      assert (Hcur : forall u, current w' u -> current w u).
      { intros u [o [ob [B1 B2]]]. exists o, ob. split; [congruence|exact B2]. }
      assert (Hl : forall u, live [] w' u -> live [] w u).
      { intros u [K|K]; [left; congruence|right; auto]. }
      assert (Hv : forall u, In u (vars_of (flat w)) -> live [] w u).
      { intros u K. left. unfold refs. apply in_or_app. now left. }
      constructor.
      + intros o ob u A B. rewrite a1 in A. rewrite (L u) by (right; exists o, ob; auto). rewrite a2. exact (wi_cur F [] w W o ob u A B).
      + intros u Hu. rewrite Hr in Hu. rewrite (L u) by now left. rewrite a1, a2. exact (wi_live F [] w W u Hu).
      + intros u1 u2 A B. rewrite !L by auto. apply (wi_uniq F [] w W); auto.
      + intros o ob u A B C. rewrite Hr in C. rewrite (L u) by now left. rewrite a1 in A. exact (wi_none F [] w W o ob u A B C).
      + intros u x A. rewrite (L u) by auto. apply (wi_ckpt F [] w W); auto.
      + intros u A. rewrite a3 in A. rewrite (L u) by (apply Hv; unfold vars_of; apply in_or_app; now left). now apply (wi_dep F [] w W).
      + intros u. destruct (Nat.eq_dec u v) as [->|Hne]; [rewrite t3|rewrite a7 by assumption]; apply (wi_ctrl F [] w W).
      + intros u. destruct (Nat.eq_dec u v) as [->|Hne]; [rewrite t4, t5, t6, t7|rewrite a7 by assumption]; apply (wi_clean F [] w W).
      + rewrite a3. exact (wi_wf F [] w W).
      + rewrite a3. apply Forall_forall. intros b Hb i o Hi.
        pose proof (proj1 (Forall_forall _ _) (wi_rec F [] w W) b Hb i o Hi) as RV.
        assert (G : forall u, In u (b_deps b) \/ In u (b_outs b) -> recs (w_heap w') u = recs (w_heap w) u).
        { intros u Hu. unfold recs. rewrite (L u); [reflexivity|]. apply Hv. unfold vars_of, deps_of, outs_of.
          apply in_or_app. rewrite !in_flat_map. destruct Hu; [left|right]; eauto. }
        rewrite G by (right; eapply nth_error_In; eauto). rewrite <- RV. f_equal. apply map_ext_in. intros u Hu. apply G. now left.
      + rewrite a3. exact (wi_shape F [] w W). }
  split; [exact W'|]. exact (Sim_evolves F [] ov w w' s W W' (touches_evolves w w' v T) S).
Qed.

Lemma used_touches : forall w v, touches w (used w v) v /\
  (bv_ckpt (w_heap w v) <> None -> bv_ckpt (w_heap (used w v) v) = bv_ckpt (w_heap w v)).
Proof.
  intros w v. unfold used.
  set (w1 := if match t_latest (w_tape w) with None => true | Some c => Z.ltb (bv_last (w_heap w v)) c end
             then with_heap (fun h => upd h v (save_output false)) w else w).
  assert (T1 : touches w w1 v).
  { unfold w1. destruct (match t_latest _ with None => _ | Some c => _ end); [apply touches_heap, touch_save|apply touches_refl]. }
  set (w2 := with_tape (fun t => add_to_state t v (bv_last (w_heap w v))) w1).
  assert (T2 : touches w1 w2 v) by (apply touches_tape; intros; apply flat_add_to_state).
  split.
  - eapply touches_trans; [exact T1|]. eapply touches_trans; [exact T2|]. apply touches_heap. intros. apply touch_times.
  - intros H. cbn. rewrite upd_same. cbn. unfold w1. destruct (match t_latest _ with None => _ | Some c => _ end); [|reflexivity].
    cbn. rewrite upd_same. unfold save_output. destruct (bv_ckpt (w_heap w v)) eqn:E; [cbn; exact E|congruence].
Qed.

(** The last part of an in-place recording, with the block put on the tape before its output is added. *)
Lemma push_alike : forall w1 f y u deps tag ob, nth_error (w_objs w1) f = Some ob ->
  let b0 := fun os => Blk (KUser u) deps os tag in
  let '(wi, vs) := add_outs (assign_obj w1 f y) [f] in
  let '(w3, v) := create_bv (assign_obj (with_tape (fun t => add_block t (b0 [])) w1) f y) f in
  vs = [v] /\ alike (with_tape (fun t => add_block t (b0 vs)) wi) (with_tape (last_push_out v) (will_out w3 v)).
Proof.
  intros w1 f y u deps tag ob E b0. cbn [add_outs].
  unfold assign_obj at 1 2. cbn [w_objs with_tape]. rewrite E.
  set (a := with_objs _ (with_heap _ w1)). set (a' := with_objs _ (with_heap _ (with_tape _ w1))).
  assert (Ea : nth_error (w_objs a) f = Some (Obj y (o_bv ob) (S (o_gen ob)))) by (unfold a; cbn; rewrite nth_list_set, Nat.eqb_refl, E; reflexivity).
  assert (Ea' : nth_error (w_objs a') f = Some (Obj y (o_bv ob) (S (o_gen ob)))) by (unfold a'; cbn; rewrite nth_list_set, Nat.eqb_refl, E; reflexivity).
  rewrite (create_bv_spec a f _ Ea), (create_bv_spec a' f _ Ea'). cbn [o_val o_gen].
  split; [reflexivity|].
  set (c := World _ _ _ (w_tape a) _ _). set (c' := World _ _ _ (w_tape a') _ _).
  change (w_next a') with (w_next a). set (v := w_next a).
  pose proof (will_out_touches c v) as T. pose proof (will_out_touches c' v) as T'.
  constructor.
  - cbn [w_objs with_tape]. rewrite (to_objs _ _ _ T), (to_objs _ _ _ T'). reflexivity.
  - cbn [w_next with_tape]. rewrite (to_next _ _ _ T), (to_next _ _ _ T'). reflexivity.
  - unfold flat. cbn [w_tape with_tape]. rewrite flat_add_block.
    pose proof (to_flat _ _ _ T) as A. pose proof (to_flat _ _ _ T') as B. unfold flat in A, B. cbn [last_push_out t_flat]. rewrite A, B.
    unfold c, c', a', a. cbn [w_tape with_objs with_heap with_tape]. rewrite flat_add_block. rewrite map_last_app. reflexivity.
  - cbn [w_ann with_tape]. rewrite (to_ann _ _ _ T), (to_ann _ _ _ T'). reflexivity.
  - cbn [w_ctrls with_tape]. rewrite (to_ctrls _ _ _ T), (to_ctrls _ _ _ T'). reflexivity.
  - intros x. cbn [w_heap with_tape]. destruct (Nat.eq_dec x v) as [->|Hne].
    + unfold will_out. cbn [w_heap with_heap with_tape w_tape].
      replace (t_eager (w_tape c')) with (t_eager (w_tape c)).
      2:{ unfold c, c', a, a'. cbn. unfold add_block, ensure_step. destruct (t_steps (w_tape w1)); reflexivity. }
      destruct (t_eager (w_tape c)); cbn [w_heap with_heap]; rewrite ?upd_same;
        unfold c, c'; cbn [w_heap]; fold v; rewrite ?upd_same; cbn; eexists; eexists; reflexivity.
    + rewrite (to_other _ _ _ T x Hne), (to_other _ _ _ T' x Hne). unfold c, c'. cbn [w_heap]. change (w_next a') with v. fold v.
      rewrite !upd_other by assumption. unfold a, a'. cbn [w_heap with_objs with_heap with_tape].
      exists (bv_created (if Nat.eqb (bv_obj (w_heap w1 x)) f then set_out y (w_heap w1 x) else w_heap w1 x)).
      exists (bv_last (if Nat.eqb (bv_obj (w_heap w1 x)) f then set_out y (w_heap w1 x) else w_heap w1 x)).
      destruct (if Nat.eqb (bv_obj (w_heap w1 x)) f then _ else _); reflexivity.
Qed.

Lemma push_facts : forall w1 f y u deps tag ob, nth_error (w_objs w1) f = Some ob ->
  let '(w3, v) := create_bv (assign_obj (with_tape (fun t => add_block t (Blk (KUser u) deps [] tag)) w1) f y) f in
  let w4 := with_tape (last_push_out v) (will_out w3 v) in
  v = w_next w1 /\ cur w4 f v /\ (forall o, o <> f -> nth_error (w_objs w4) o = nth_error (w_objs w1) o) /\
  (forall x, x < w_next w1 -> ghost (w_heap w4 x) = ghost (w_heap w1 x) /\ bv_ckpt (w_heap w4 x) = bv_ckpt (w_heap w1 x)) /\
  flat w4 = flat w1 ++ [Blk (KUser u) deps [v] tag] /\ w_ctrls w4 = w_ctrls w1 /\ w_next w4 = S (w_next w1) /\ w_ann w4 = w_ann w1.
Proof.
  intros w1 f y u deps tag ob E.
  unfold assign_obj. cbn [w_objs with_tape]. rewrite E. set (a' := with_objs _ (with_heap _ (with_tape _ w1))).
  assert (Ea' : nth_error (w_objs a') f = Some (Obj y (o_bv ob) (S (o_gen ob)))) by (unfold a'; cbn; rewrite nth_list_set, Nat.eqb_refl, E; reflexivity).
  rewrite (create_bv_spec a' f _ Ea'). cbn [o_val o_gen]. set (c := World _ _ _ (w_tape a') _ _). set (v := w_next a').
  pose proof (will_out_touches c v) as T. cbv zeta. split; [reflexivity|].
  assert (Ho : w_objs (will_out c v) = list_set (w_objs a') f (Obj y (Some v) (S (o_gen ob)))) by exact (to_objs _ _ _ T).
  split.
  { exists (Obj y (Some v) (S (o_gen ob))). split; [|reflexivity]. cbn [w_objs with_tape]. rewrite Ho, nth_list_set, Nat.eqb_refl, Ea'. reflexivity. }
  split.
  { intros o Hne. cbn [w_objs with_tape]. rewrite Ho, nth_list_set. destruct (Nat.eqb_spec f o); [congruence|].
    unfold a'. cbn. rewrite nth_list_set. destruct (Nat.eqb_spec f o); [congruence|reflexivity]. }
  split.
  { intros x Hx. cbn [w_heap with_tape]. change (w_next w1) with v in Hx. rewrite (to_other _ _ _ T x) by lia. unfold c. cbn [w_heap]. fold v. rewrite upd_other by lia.
    unfold a'. cbn. destruct (Nat.eqb _ f); split; reflexivity. }
  split.
  { unfold flat. cbn [w_tape with_tape last_push_out t_flat]. pose proof (to_flat _ _ _ T) as A. unfold flat in A. rewrite A.
    unfold c, a'. cbn [w_tape with_objs with_heap with_tape]. rewrite flat_add_block, map_last_app. reflexivity. }
  split; [exact (to_ctrls _ _ _ T)|]. split; [exact (to_next _ _ _ T)|exact (to_ann _ _ _ T)].
Qed.

(** ** Block variables of floating objects on the tape have saved values *)
Definition VI (t : views V) w := forall v, In v (refs [] w) -> look t (bv_obj (w_heap w v)) <> None -> bv_ckpt (w_heap w v) <> None.
Lemma VI_evolves : forall t w w', WInv F [] w -> evolves w w' -> VI t w -> VI t w'.
Proof.
  intros t w w' W E H v Hv Hl. unfold refs in Hv. rewrite (ev_flat _ _ E), (ev_ctrls _ _ E) in Hv. fold (refs [] w) in Hv.
  assert (Hlt : v < w_next w) by now destruct (wi_live F [] w W v Hv).
  apply (ev_ckpt _ _ E v Hlt). apply H; [exact Hv|]. pose proof (ev_ghost _ _ E v Hlt) as G. unfold ghost in G. congruence.
Qed.

Lemma get_args_nth : forall g s args xs, get_args g s args = Some xs -> Forall2 (fun o x => exists so, nth_error (s_objs s) o = Some so /\ g so = x) args xs.
Proof. intros g s args xs H. now apply get_args_spec in H. Qed.

Lemma spec_inpl_view : forall ov s f func args tag (u : ublock V) so xs ps, s_ann s = true -> nth_error (s_objs s) f = Some so ->
  get_args s_rec s args = Some xs -> get_args s_rep s args = Some ps -> ov (f, S (s_gen so)) = None ->
  spec_stmt F ov s (SInpl u (fun xs => Ok (func xs)) args f true tag) = put f (SObj (func xs) (func ps) (S (s_gen so))) s.
Proof.
  intros ov s f func args tag u so xs ps Ha Hf Hx Hp Ho. cbn [spec_stmt]. unfold spec_inpl. rewrite Hx, Hp, Hf, Ha. unfold results. cbn. rewrite Ho. reflexivity.
Qed.

Lemma float_dep_good : forall ov t w s f vw so xs ps,
  good F ov w s -> VI t w -> s_ann s = true -> look t f = Some vw -> view_consistent vw -> Forall (plain t) (vw_args vw) ->
  nth_error (s_objs s) f = Some so -> get_args s_rec s (vw_args vw) = Some xs -> get_args s_rep s (vw_args vw) = Some ps ->
  ov (f, S (s_gen so)) = None ->
  let '(w', v) := float_dep w f vw (vw_func vw xs) in
  good F ov w' (put f (SObj (vw_func vw xs) (vw_func vw ps) (S (s_gen so))) s) /\ VI t w' /\ cur w' f v /\ bv_ckpt (w_heap w' v) <> None /\
  (forall o u, o <> f -> cur w o u -> cur w' o u) /\
  (forall u, u < w_next w -> bv_ckpt (w_heap w u) <> None -> bv_ckpt (w_heap w' u) <> None) /\ w_next w <= w_next w'.
Proof.
  intros ov t w s f vw so xs ps G HVI Ha Hf Hcon Hpl Hso Hxs Hps Hov. pose proof G as [W S].
  assert (Hfa : ~ In f (vw_args vw)).
  { intros K. pose proof (proj1 (Forall_forall _ _) Hpl f K) as P. unfold plain in P. congruence. }
  assert (Hfw : f < length (w_objs w)) by (rewrite (sm_len F ov w s S); now apply nth_error_some_lt in Hso).
  unfold float_dep. pose proof (get_bv_spec F [] w f W Hfw) as B. destruct (get_bv w f) as [w0 old]. destruct B as [W0 [E0 C0]].
  pose proof (Sim_evolves F [] ov w w0 s W W0 E0 S) as S0.
  pose proof (args_match F ov w0 s (vw_args vw) S0) as M. rewrite Hxs in M.
  destruct (arg_vals w0 (vw_args vw)) as [xs'|e] eqn:Ea; [|discriminate]. destruct M as [M _]. injection M as <-.
  pose proof (args_lt w0 _ _ Ea) as Hlt.
  pose proof (step_inpl F ov w0 s (vw_u vw) (fun xs => Ok (vw_func vw xs)) (vw_args vw) f true (vw_tag vw) (conj W0 S0)
                (fun zs i => Hcon zs i) ltac:(rewrite Ha; reflexivity)) as GI.
  rewrite (spec_inpl_view ov s f (vw_func vw) (vw_args vw) (vw_tag vw) (vw_u vw) so xs ps Ha Hso Hxs Hps Hov) in GI.
  unfold exec_inpl in GI. rewrite Ea in GI. rewrite (sm_ann F ov w0 s S0), Ha in GI. cbn [andb] in GI.
  pose proof (add_deps_spec F [] (vw_args vw) w0 W0 Hlt) as B. destruct (add_deps w0 (vw_args vw)) as [w1 deps]. destruct B as [W1 [E1 [C1 K1]]].
  pose proof (evolves_cur w0 w1 f old E1 C0) as Cf1.
  destruct C0 as [ob0 [Eo0 Eb0]]. rewrite Eo0 in GI.
  pose proof Cf1 as [ob1 [Eo1 Eb1]].
  pose proof (push_alike w1 f (vw_func vw xs) (vw_u vw) deps (vw_tag vw) ob1 Eo1) as A. cbv zeta in A.
  pose proof (push_facts w1 f (vw_func vw xs) (vw_u vw) deps (vw_tag vw) ob1 Eo1) as PF.
  destruct (add_outs (assign_obj w1 f (vw_func vw xs)) [f]) as [wi vs].
  destruct (create_bv _ f) as [w3 v]. cbn [fst] in GI. cbv zeta in PF. set (w4 := with_tape (last_push_out v) (will_out w3 v)) in *.
  destruct A as [-> A]. destruct PF as [Ev [Cv [Oo [Hh [Fl [Ct [Nx An]]]]]]].
  pose proof (alike_good ov _ w4 _ A GI) as G4.
  set (w5 := with_heap (fun h => upd h v (save_output false)) w4).
  assert (T5 : touches w4 w5 v) by (apply touches_heap, touch_save).
  assert (G5 : good F ov w5 (put f (SObj (vw_func vw xs) (vw_func vw ps) (Datatypes.S (s_gen so))) s)).
  { destruct G4 as [W4 S4]. assert (W5 : WInv F [] w5) by (eapply touches_WInv; eauto; exists f; exact Cv).
    split; [exact W5|]. exact (Sim_evolves F [] ov w4 w5 _ W4 W5 (touches_evolves _ _ _ T5) S4). }
  assert (K5 : bv_ckpt (w_heap w5 v) <> None) by (unfold w5; cbn; rewrite upd_same; apply save_false_some).
  assert (Hold1 : old < w_next w1) by (eapply WInv_cur_lt; eauto).
  assert (Hov5 : old <> v) by lia.
  assert (H5 : forall x, x < w_next w1 -> ghost (w_heap w5 x) = ghost (w_heap w1 x) /\ bv_ckpt (w_heap w5 x) = bv_ckpt (w_heap w1 x)).
  { intros x Hx. rewrite (to_other _ _ _ T5 x) by lia. auto. }
  assert (Hobj1 : bv_obj (w_heap w1 old) = f) by exact (WInv_cur_obj F [] w1 f old W1 Cf1).
  assert (Cv5 : cur w5 f v) by exact Cv.
  (* what the tape refers to *)
  assert (R5 : forall x, In x (refs [] w5) -> In x (refs [] w) \/ In x deps \/ x = v).
  { intros x Hx. unfold refs in Hx. change (flat w5) with (flat w4) in Hx. change (w_ctrls w5) with (w_ctrls w4) in Hx. rewrite Fl, Ct in Hx.
    apply in_app_iff in Hx as [Hx|Hx].
    - apply vars_snoc in Hx as [Hx|[Hx|Hx]]; [left|now right; left|cbn in Hx; right; right; destruct Hx as [<-|[]]; reflexivity].
      rewrite (ev_flat _ _ E1), (ev_flat _ _ E0) in Hx. unfold refs. apply in_or_app. now left.
    - left. rewrite (ev_ctrls _ _ E1), (ev_ctrls _ _ E0) in Hx. unfold refs. apply in_or_app. now right. }
  assert (Hdep : forall x, In x deps -> exists o, In o (vw_args vw) /\ cur w1 o x).
  { intros x Hx. destruct (Forall2_In_r _ _ _ x C1 Hx) as [o [A1 A2]]. eauto. }
  pose proof (evolves_trans _ _ _ E0 E1) as E01.
  assert (VIw1 : VI t w1) by exact (VI_evolves t w w1 W E01 HVI).
  assert (Rw : forall x, In x (refs [] w) -> In x (refs [] w1)).
  { intros x Hx. unfold refs. rewrite (ev_flat _ _ E01), (ev_ctrls _ _ E01). exact Hx. }
  destruct (used_touches w5 old) as [T7 K7]. set (w7 := used w5 old) in *.
  assert (Hstale : (bv_ckpt (w_heap w5 old) <> None /\ bv_ckpt (w_heap w7 old) = bv_ckpt (w_heap w5 old)) \/ ~ live [] w5 old).
  { destruct (bv_ckpt (w_heap w5 old)) as [x|] eqn:Ek; [left; split; [discriminate|]; apply K7; discriminate|right].
    rewrite (proj2 (H5 old Hold1)) in Ek.
    intros [Hl|[o Hc]].
    - destruct (R5 old Hl) as [K|[K| ->]]; [|destruct (Hdep old K) as [o [D1 D2]]|congruence].
      + apply (VIw1 old (Rw old K)); [rewrite Hobj1, Hf; discriminate|exact Ek].
      + pose proof (WInv_cur_obj F [] w1 o old W1 D2) as Q. apply Hfa. congruence.
    - destruct (Nat.eq_dec o f) as [->|Hne]; [apply Hov5; exact (cur_fun w5 f old v Hc Cv5)|].
      destruct Hc as [ob [D1 D2]]. change (w_objs w5) with (w_objs w4) in D1. rewrite (Oo o Hne) in D1.
      assert (D : cur w1 o old) by (exists ob; auto). pose proof (WInv_cur_obj F [] w1 o old W1 D). congruence. }
  pose proof (stale_good ov w5 w7 old _ T7 G5 Hstale) as G7.
  pose proof (touches_evolves _ _ _ T7) as E7.
  assert (N5 : w_next w5 = Datatypes.S (w_next w1)) by exact Nx.
  assert (K17 : forall x, x < w_next w1 -> bv_ckpt (w_heap w1 x) <> None -> bv_ckpt (w_heap w7 x) <> None).
  { intros x Hx Hk. apply (ev_ckpt _ _ E7); [lia|]. rewrite (proj2 (H5 x Hx)). exact Hk. }
  split; [exact G7|]. split; [|split; [|split; [|split; [|split]]]].
  - apply (VI_evolves t w5 w7 (proj1 G5) E7). intros x Hx Hl. destruct (R5 x Hx) as [K|[K| ->]]; [| |exact K5].
    + pose proof (Rw x K) as K'. assert (Hx1 : x < w_next w1) by now destruct (wi_live F [] w1 W1 x K').
      destruct (H5 x Hx1) as [Q1 Q2]. rewrite Q2. apply VIw1; [exact K'|]. unfold ghost in Q1. congruence.
    + destruct (Hdep x K) as [o [D1 D2]]. assert (Hx1 : x < w_next w1) by (eapply WInv_cur_lt; eauto).
      destruct (H5 x Hx1) as [Q1 _]. 
      assert (Q : bv_obj (w_heap w5 x) = bv_obj (w_heap w1 x)) by (unfold ghost in Q1; congruence).
      rewrite Q, (WInv_cur_obj F [] w1 o x W1 D2) in Hl.
      exfalso. apply Hl. exact (proj1 (Forall_forall _ _) Hpl o D1).
  - exact (evolves_cur _ _ _ _ E7 Cv5).
  - apply (ev_ckpt _ _ E7); [lia|exact K5].
  - intros o u Hne Hc. apply (evolves_cur _ _ _ _ E7). apply (evolves_cur _ _ _ _ E01) in Hc. destruct Hc as [ob [D1 D2]].
    exists ob. split; [|exact D2]. change (w_objs w5) with (w_objs w4). now rewrite (Oo o Hne).
  - intros u Hu Hk. apply K17; [pose proof (ev_next _ _ E01); lia|]. now apply (ev_ckpt _ _ E01).
  - pose proof (ev_next _ _ E7). pose proof (ev_next _ _ E01). lia.
Qed.

(** ** The specification state with and without values kept for floating objects *)
Record RV (t : views V) (sf s : sst V) : Prop := {
  r_len : length (s_objs sf) = length (s_objs s); r_ann : s_ann sf = s_ann s; r_err : s_err sf = s_err s; r_ctrls : s_ctrls sf = s_ctrls s;
  r_objs : forall o, plain t o -> nth_error (s_objs sf) o = nth_error (s_objs s) o }.
Record TI (t : views V) (s : sst V) : Prop := {
  ti_view : forall f vw, look t f = Some vw -> f < length (s_objs s) /\ Forall (plain t) (vw_args vw) /\
    Forall (fun o => o < length (s_objs s)) (vw_args vw) /\ view_consistent vw }.

Lemma get_args_R : forall t sf s g args, RV t sf s -> Forall (plain t) args -> get_args g sf args = get_args g s args.
Proof.
  intros t sf s g args H P. induction P as [|o r Po P IH]; [reflexivity|]. cbn. rewrite (r_objs t sf s H o Po).
  unfold get_args in IH. rewrite IH. reflexivity.
Qed.

Lemma floats_plain : forall (t : views V) o, floats t o = false <-> plain t o.
Proof. intros t o. unfold floats, plain. destruct (look t o); cbn; split; congruence. Qed.

Lemma read_shown : forall ov t w sf s o, Sim F ov w sf -> RV t sf s -> TI t s ->
  match read w t o with
  | Ok x => shown s_rec s t o = Some x /\ exists p, shown s_rep s t o = Some p
  | Err _ => shown s_rec s t o = None
  end.
Proof.
  intros ov t w sf s o S H T. unfold read, shown. destruct (look t o) as [vw|] eqn:El.
  - destruct (ti_view t s T o vw El) as [_ [P _]]. pose proof (args_match F ov w sf (vw_args vw) S) as M.
    rewrite !(get_args_R t sf s _ _ H P) in M. destruct (arg_vals w (vw_args vw)) as [xs|e]; cbn [rmap].
    + destruct M as [M [ps Mp]]. rewrite M, Mp. cbn. eauto.
    + rewrite M. reflexivity.
  - rewrite <- (r_objs t sf s H o El). destruct (nth_error (w_objs w) o) as [ob|] eqn:E.
    + destruct (nth_error (s_objs sf) o) as [so|] eqn:Es.
      * destruct (sm_obj F ov w sf S o ob so E Es) as [-> _]. cbn. eauto.
      * apply nth_error_None in Es. apply nth_error_some_lt in E. rewrite (sm_len F ov w sf S) in E. lia.
    + destruct (nth_error (s_objs sf) o) as [so|] eqn:Es; [|reflexivity].
      apply nth_error_None in E. apply nth_error_some_lt in Es. rewrite (sm_len F ov w sf S) in E. lia.
Qed.
Lemma reads_shown : forall ov t w sf s args, Sim F ov w sf -> RV t sf s -> TI t s ->
  match mapM (read w t) args with
  | Ok xs => shown_all s_rec s t args = Some xs /\ exists ps, shown_all s_rep s t args = Some ps
  | Err _ => shown_all s_rec s t args = None
  end.
Proof.
  intros ov t w sf s args S H T. induction args as [|o r IH]; [cbn; eauto|]. cbn [mapM].
  pose proof (read_shown ov t w sf s o S H T) as A. cbn [shown_all fold_right]. fold (shown_all s_rec s t r). fold (shown_all s_rep s t r).
  destruct (read w t o) as [x|e]; cbn [bind].
  - destruct A as [A [p Ap]]. rewrite A, Ap. destruct (mapM (read w t) r) as [xs|e]; cbn [bind].
    + destruct IH as [B [ps Bp]]. rewrite B, Bp. eauto.
    + rewrite IH. reflexivity.
  - rewrite A. reflexivity.
Qed.

Lemma R_put : forall t sf s f vw x, RV t sf s -> look t f = Some vw -> RV t (put f x sf) s.
Proof.
  intros t sf s f vw x [a1 a2 a3 a4 a5] Hf. constructor; auto; cbn.
  - now rewrite length_list_set.
  - intros o Po. rewrite nth_list_set. destruct (Nat.eqb_spec f o) as [->|]; [unfold plain in Po; congruence|auto].
Qed.

Lemma float_deps_good : forall ov t s, TI t s -> s_ann s = true -> (forall f g, look t f <> None -> ov (f, g) = None) ->
  forall args w sf xs ps, good F ov w sf -> VI t w -> RV t sf s ->
  shown_all s_rec s t args = Some xs -> shown_all s_rep s t args = Some ps -> NoDup (filter (floats t) args) ->
  let '(w', vs) := float_deps w t args xs in
  exists sf', good F ov w' sf' /\ VI t w' /\ RV t sf' s /\ Forall2 (cur w') args vs /\ Forall (fun v => bv_ckpt (w_heap w' v) <> None) vs /\
    (forall o, ~ (In o args /\ floats t o = true) -> nth_error (s_objs sf') o = nth_error (s_objs sf) o) /\
    (forall o u, ~ (In o args /\ floats t o = true) -> cur w o u -> cur w' o u) /\
    (forall u, u < w_next w -> bv_ckpt (w_heap w u) <> None -> bv_ckpt (w_heap w' u) <> None) /\ w_next w <= w_next w' /\
    get_args s_rec sf' args = Some xs /\ get_args s_rep sf' args = Some ps.
Proof.
  intros ov t s T Ha Hov args. induction args as [|o r IH]; intros w sf xs ps G HV HR Hx Hp Hn.
  { cbn in Hx, Hp. injection Hx as <-. injection Hp as <-. cbn. exists sf. split; [exact G|]. split; [exact HV|]. split; [exact HR|]. repeat split; auto. }
  cbn [shown_all fold_right] in Hx, Hp. fold (shown_all s_rec s t r) in Hx. fold (shown_all s_rep s t r) in Hp.
  destruct (shown s_rec s t o) as [x|] eqn:Ex; [|discriminate]. destruct (shown_all s_rec s t r) as [xs'|] eqn:Exs; [|discriminate]. injection Hx as <-.
  destruct (shown s_rep s t o) as [p|] eqn:Ep; [|discriminate]. destruct (shown_all s_rep s t r) as [ps'|] eqn:Eps; [|discriminate]. injection Hp as <-.
  cbn [float_deps].
  assert (Step : let '(w1, v) := match look t o with Some vw => float_dep w o vw x | None => add_dep w o end in
    exists sf1, good F ov w1 sf1 /\ VI t w1 /\ RV t sf1 s /\ cur w1 o v /\ bv_ckpt (w_heap w1 v) <> None /\
      (forall i, ~ (i = o /\ floats t i = true) -> nth_error (s_objs sf1) i = nth_error (s_objs sf) i) /\
      (forall i u, ~ (i = o /\ floats t i = true) -> cur w i u -> cur w1 i u) /\
      (forall u, u < w_next w -> bv_ckpt (w_heap w u) <> None -> bv_ckpt (w_heap w1 u) <> None) /\ w_next w <= w_next w1 /\
      exists so, nth_error (s_objs sf1) o = Some so /\ s_rec so = x /\ s_rep so = p).
  { destruct (look t o) as [vw|] eqn:El.
    - destruct (ti_view t s T o vw El) as [Hlen [P [_ Hcon]]].
      unfold shown in Ex, Ep. rewrite El in Ex, Ep.
      destruct (get_args s_rec s (vw_args vw)) as [axs|] eqn:Eax; [|discriminate]. destruct (get_args s_rep s (vw_args vw)) as [aps|] eqn:Eap; [|discriminate].
      cbn in Ex, Ep. injection Ex as <-. injection Ep as <-.
      destruct (nth_error (s_objs sf) o) as [so|] eqn:Eso; [|apply nth_error_None in Eso; rewrite (r_len t sf s HR) in Eso; lia].
      pose proof (float_dep_good ov t w sf o vw so axs aps G HV) as Q. rewrite (r_ann t sf s HR) in Q.
      rewrite !(get_args_R t sf s _ _ HR P) in Q.
      specialize (Q Ha El Hcon P Eso Eax Eap (Hov o (S (s_gen so)) ltac:(rewrite El; discriminate))).
      destruct (float_dep w o vw (vw_func vw axs)) as [w1 v]. destruct Q as [Q1 [Q2 [Q3 [Q4 [Q5 [Q6 Q7]]]]]].
      eexists. split; [exact Q1|]. split; [exact Q2|]. split; [eapply R_put; eauto|]. split; [exact Q3|]. split; [exact Q4|].
      assert (Hfo : floats t o = true) by (unfold floats; now rewrite El).
      split.
      { intros i Hi. cbn. rewrite nth_list_set. destruct (Nat.eqb_spec o i) as [->|]; [exfalso; apply Hi; auto|reflexivity]. }
      split; [intros i u Hi Hc; apply Q5; [intros ->; apply Hi; auto|exact Hc]|]. split; [exact Q6|]. split; [exact Q7|].
      eexists. split; [cbn; rewrite nth_list_set, Nat.eqb_refl, Eso; reflexivity|]. split; reflexivity.
    - destruct G as [W S]. unfold shown in Ex, Ep. rewrite El in Ex, Ep. rewrite <- (r_objs t sf s HR o El) in Ex, Ep.
      destruct (nth_error (s_objs sf) o) as [so|] eqn:Eso; [|discriminate]. cbn in Ex, Ep. injection Ex as <-. injection Ep as <-.
      assert (Ho : o < length (w_objs w)) by (rewrite (sm_len F ov w sf S); now apply nth_error_some_lt in Eso).
      pose proof (add_dep_spec F [] w o W Ho) as B. destruct (add_dep w o) as [w1 v]. destruct B as [W1 [E1 [C1 K1]]].
      exists sf. split; [split; [exact W1|exact (Sim_evolves F [] ov w w1 sf W W1 E1 S)]|]. split; [exact (VI_evolves t w w1 W E1 HV)|].
      split; [exact HR|]. split; [exact C1|]. split; [exact K1|]. split; [reflexivity|].
      split; [intros i u _; apply (evolves_cur w w1 i u E1)|]. split; [exact (ev_ckpt _ _ E1)|]. split; [exact (ev_next _ _ E1)|]. eauto. }
  destruct (match look t o with Some vw => float_dep w o vw x | None => add_dep w o end) as [w1 v].
  destruct Step as [sf1 [G1 [V1 [R1 [C1 [K1 [O1 [U1 [M1 [N1 [so [A1 [A2 A3]]]]]]]]]]]]].
  assert (Hn' : NoDup (filter (floats t) r)) by (cbn in Hn; destruct (floats t o); [now inversion Hn|exact Hn]).
  assert (Hnot : ~ (In o r /\ floats t o = true)).
  { intros [K1' K2]. cbn in Hn. rewrite K2 in Hn. inversion Hn as [|? ? Q _]. apply Q. apply filter_In. auto. }
  specialize (IH w1 sf1 xs' ps' G1 V1 R1 eq_refl eq_refl Hn').
  destruct (float_deps w1 t r xs') as [w2 vs]. destruct IH as [sf2 [G2 [V2 [R2 [C2 [K2 [O2 [U2 [M2 [N2 [X2 P2]]]]]]]]]]].
  exists sf2. split; [exact G2|]. split; [exact V2|]. split; [exact R2|].
  split; [constructor; [apply U2; [exact Hnot|exact C1]|exact C2]|].
  split; [constructor; [apply M2; [eapply WInv_cur_lt; [exact (proj1 G1)|exact C1]|exact K1]|exact K2]|].
  split; [intros i Hi; rewrite O2, O1; [reflexivity|intros [-> Q]; apply Hi; split; [now left|exact Q]|intros [Q Q']; apply Hi; split; [now right|exact Q']]|].
  split; [intros i u Hi Hc; apply U2; [intros [Q Q']; apply Hi; split; [now right|exact Q']|]; apply U1; [intros [-> Q]; apply Hi; split; [now left|exact Q]|exact Hc]|].
  split; [intros u Hu Hk; apply M2; [lia|]; apply M1; auto|]. split; [lia|].
  cbn [get_args fold_right]. rewrite (O2 o Hnot), A1, A2, A3.
  unfold get_args in X2, P2. rewrite X2, P2. split; reflexivity.
Qed.

(** ** Statements *)
Lemma R_push : forall t sf s os, RV t sf s -> RV t (push os sf) (push os s).
Proof.
  intros t sf s os [a1 a2 a3 a4 a5]. constructor; auto; cbn.
  - now rewrite !app_length, a1.
  - intros o Po. destruct (lt_dec o (length (s_objs s))) as [Hl|Hl].
    + rewrite !nth_error_app1 by lia. auto.
    + rewrite !nth_error_app2 by lia. now rewrite a1.
Qed.
Lemma R_raise : forall t sf s e, RV t sf s -> RV t (raise e sf) (raise e s).
Proof. intros t sf s e [a1 a2 a3 a4 a5]. constructor; auto; cbn. now rewrite a3. Qed.
Lemma R_after : forall t sf s ov a n ys again zz, RV t sf s ->
  RV t (after a ov (next_vers sf n) ys again (fun zs => push (sobjs_new ys zs) sf) (fun e => push (sobjs_new ys zz) (raise e sf)))
      (match results ov a (next_vers s n) ys again with Ok zs => push (sobjs_new ys zs) s | Err e => push (sobjs_new ys zz) (raise e s) end).
Proof.
  intros t sf s ov a n ys again zz H. unfold after, next_vers. rewrite (r_len t sf s H).
  destruct (results _ _ _ _ _); [now apply R_push|]. apply R_push. now apply R_raise.
Qed.
Lemma VI_same : forall t w w', flat w' = flat w -> w_ctrls w' = w_ctrls w ->
  (forall v, bv_obj (w_heap w' v) = bv_obj (w_heap w v) /\ bv_ckpt (w_heap w' v) = bv_ckpt (w_heap w v)) -> VI t w -> VI t w'.
Proof.
  intros t w w' E1 E2 E3 H v Hv Hl. unfold refs in Hv. rewrite E1, E2 in Hv. destruct (E3 v) as [A B]. rewrite B. apply H; [exact Hv|]. now rewrite <- A.
Qed.

Lemma float_user_good : forall ov t s w sf u func args a tag, TI t s -> (forall f g, look t f <> None -> ov (f, g) = None) ->
  good F ov w sf -> VI t w -> RV t sf s -> NoDup (filter (floats t) args) -> consistent_stmt (SUser u func args a tag) ->
  exists sf', good F ov (fst (float_user w t u func args a tag)) sf' /\ VI t (fst (float_user w t u func args a tag)) /\
    RV t sf' (spec_fcall ov (s_ann s && a) func args s t).
Proof.
  intros ov t s w sf u func args a tag T Hov G HV HR Hn Hcon. pose proof G as [W S]. unfold float_user, spec_fcall. cbn in Hcon.
  pose proof (reads_shown ov t w sf s args S HR T) as M. destruct (mapM (read w t) args) as [xs|e] eqn:Ea; [|rewrite M; cbn [fst]; eauto].
  destruct M as [Mx [ps Mp]]. rewrite Mx, Mp. rewrite (sm_ann F ov w sf S), (r_ann t sf s HR).
  destruct (s_ann s && a) eqn:Hann.
  2:{ destruct (func xs) as [ys|e] eqn:Es; [|cbn [fst]; eauto]. rewrite results_plain.
      pose proof (new_objs_spec F ys [] ov w sf W S) as B. destruct (new_objs w ys) as [w2 os].
      destruct B as [W2 [S2 [_ [_ [Hh [_ [Ht [_ Hc]]]]]]]]. cbn [fst]. eexists. split; [split; [exact W2|exact S2]|]. split.
      - apply (VI_same t w); auto; [unfold flat; now rewrite Ht|]. intros v. rewrite Hh. auto.
      - unfold push_plain, plain_reps, next_vers. rewrite (r_len t sf s HR). now apply R_push. }
  apply andb_true_iff in Hann as [Hann _].
  pose proof (float_deps_good ov t s T Hann Hov args w sf xs ps G HV HR Mx Mp Hn) as B.
  destruct (float_deps w t args xs) as [w1 deps].
  destruct B as [s1 [[W1 S1] [V1 [R1 [C1 [K1 [_ [_ [_ [_ [X1 P1]]]]]]]]]]].
  destruct (func xs) as [ys|e] eqn:Es; [|cbn [fst]; exists s1; split; [split; assumption|]; split; assumption].
  pose proof (new_objs_spec F ys [] ov w1 s1 W1 S1) as B. destruct (new_objs w1 ys) as [w2 os].
  destruct B as [W2 [S2 [Hos [Hobj [Hh [Hnx [Htp [Han Hct]]]]]]]].
  assert (L1 : length (w_objs w1) = length (s_objs s1)) by apply (sm_len F ov w1 s1 S1).
  rewrite L1 in Hos. subst os.
  pose proof (add_outs_spec F (seq (length (s_objs s1)) (length ys)) [] w2 W2) as B.
  destruct (add_outs w2 (seq (length (s_objs s1)) (length ys))) as [w3 vs].
  destruct B as [W3 [E3 [C3 [N3 F3]]]].
  { intros o Ho. rewrite <- L1 in Ho. eapply (seq_new_none w2 ys (w_objs w1)); eauto. }
  { apply seq_NoDup. }
  assert (C2 : Forall2 (cur w2) args deps).
  { eapply Forall2_impl'; [|exact C1]. intros o v [ob [A1 A2]]. exists ob. split; [|exact A2].
    rewrite Hobj, nth_error_app1; [exact A1|]. now apply nth_error_some_lt in A1. }
  assert (K2 : Forall (fun v => bv_ckpt (w_heap w2 v) <> None) deps) by (rewrite Hh; exact K1).
  assert (O2 : old_refs (length (s_objs s1)) w2).
  { intros v Hv. unfold refs, flat in Hv. rewrite Htp, Hct in Hv. rewrite Hh. rewrite <- L1. exact (old_refs_WInv F w1 W1 v Hv). }
  assert (C3' : Forall2 (cur w3) args deps) by (eapply Forall2_cur_evolves; eauto).
  assert (K3' : Forall (fun v => bv_ckpt (w_heap w3 v) <> None) deps) by (eapply (ckpt_evolves F w2 w3); [exact W2|exact E3|exact C2|exact K2]).
  cbn [fst]. eexists. split; [|split].
  - apply (finish_call F ov w3 (fun t => add_block t (Blk (KUser u) deps vs tag)) s1 (flat w3) (Blk (KUser u) deps vs tag) ys xs ps args func); auto.
    + exact (Sim_evolves F [] ov w2 w3 _ W2 W3 E3 S2).
    + unfold flat. cbn. apply flat_add_block.
    + exact (old_refs_evolves F _ w2 w3 W2 E3 O2).
    + cbn [b_deps b_outs b_kind length seq]. intros i zs Hi Hz. exact (Hcon zs i).
    + exact I.
  - assert (V3 : VI t w3).
    { apply (VI_evolves t w2 w3 W2 E3). apply (VI_same t w1); [unfold flat; now rewrite Htp|exact Hct|intros v; rewrite Hh; auto|exact V1]. }
    intros v Hv Hl. cbn [w_heap with_tape] in *. unfold refs, flat in Hv. cbn [w_tape with_tape w_ctrls] in Hv. rewrite flat_add_block in Hv.
    apply in_app_iff in Hv as [Hv|Hv]; [apply vars_snoc in Hv as [Hv|[Hv|Hv]]|].
    + apply V3; [unfold refs; apply in_or_app; now left|exact Hl].
    + cbn in Hv. exact (proj1 (Forall_forall _ _) K3' v Hv).
    + cbn in Hv. destruct (Forall2_In_r _ _ _ v C3 Hv) as [o [Hi Hc]]. rewrite (WInv_cur_obj F [] w3 o v W3 Hc) in Hl.
      apply in_seq in Hi. destruct (look t o) as [vw|] eqn:El; [|congruence]. destruct (ti_view t s T o vw El) as [Q _].
      rewrite (r_len t s1 s R1) in Hi. lia.
    + apply V3; [unfold refs; apply in_or_app; now right|exact Hl].
  - apply (R_after t s1 s ov true (length ys) ys (func ps) ys R1).
Qed.

(** Lengths and tables. *)
Lemma spec_call_len : forall ov a func args s, length (s_objs s) <= length (s_objs (spec_call ov a func args s)).
Proof.
  intros. unfold spec_call. destruct (get_args s_rec s args); [|auto]. destruct (get_args s_rep s args); [|auto]. destruct (func l); [|auto].
  destruct (results _ _ _ _ _); cbn; rewrite app_length; lia.
Qed.
Lemma TI_len : forall t s s', TI t s -> length (s_objs s) <= length (s_objs s') -> TI t s'.
Proof.
  intros t s s' [H] L. constructor. intros f vw E. destruct (H f vw E) as [A [B [C D]]]. split; [lia|]. split; [exact B|]. split; [|exact D].
  eapply Forall_impl; [|exact C]. cbn. intros; lia.
Qed.
Lemma spec_fcall_len : forall ov a func args s t, length (s_objs s) <= length (s_objs (spec_fcall ov a func args s t)).
Proof.
  intros. unfold spec_fcall. destruct (shown_all s_rec s t args); [|auto]. destruct (shown_all s_rep s t args); [|auto]. destruct (func l); [|auto].
  destruct (results _ _ _ _ _); cbn; rewrite app_length; lia.
Qed.

Definition fine_state ov (st : world V * views V) (sp : sst V * views V) : Prop :=
  snd st = snd sp /\ TI (snd st) (fst sp) /\ VI (snd st) (fst st) /\ exists sf, good F ov (fst st) sf /\ RV (snd st) sf (fst sp).

Lemma look_cons : forall (t : views V) n vw o, look ((n, vw) :: t) o = if Nat.eqb n o then Some vw else look t o.
Proof. intros. unfold look. cbn. destruct (Nat.eqb n o); reflexivity. Qed.

Lemma fine_step : forall ov st sp c, fine_state ov st sp -> allowed (snd st) c ->
  (match c with FOrd c => consistent_stmt c | FView vw => view_consistent vw end) ->
  (forall f g, look (snd (float_step F st c)) f <> None -> ov (f, g) = None) ->
  fine_state ov (float_step F st c) (spec_fstmt F ov sp c).
Proof.
  intros ov [w t] [s t'] c [Et [T [HV [sf [G HR]]]]] Hal Hcon Hov. cbn [fst snd] in *. subst t'. pose proof G as [W S].
  destruct c as [c|vw].
  - destruct (match c with SUser _ _ _ _ _ => true | _ => false end) eqn:Eu.
    { destruct c as [| | |u func args a tag| | | | | | | |]; try discriminate. cbn in Hal, Hcon, Hov |- *.
      destruct (float_user_good ov t s w sf u func args a tag T Hov G HV HR Hal Hcon) as [sf' [Q1 [Q2 Q3]]].
      split; [reflexivity|]. cbn [fst snd]. split; [eapply TI_len; [exact T|apply spec_fcall_len]|]. split; [exact Q2|]. eauto. }
    assert (Hd : match c with SInpl _ _ _ _ a _ => s_ann sf && a = true | _ => True end) by (destruct c; try exact I; contradiction).
    pose proof (step_stmt F ov w sf c G Hcon Hd) as G'.
    assert (E1 : float_step F (w, t) (FOrd c) = (fst (exec_stmt F w c), t)) by (destruct c; try discriminate; reflexivity).
    assert (E2 : spec_fstmt F ov (s, t) (FOrd c) = (spec_stmt F ov s c, t)) by (destruct c; try discriminate; reflexivity).
    rewrite E1, E2. split; [reflexivity|]. cbn [fst snd].
    assert (Q : TI t (spec_stmt F ov s c) /\ VI t (fst (exec_stmt F w c)) /\ RV t (spec_stmt F ov sf c) (spec_stmt F ov s c)).
    { pose proof HR as [a1 a2 a3 a4 a5].
      destruct c; try discriminate; try contradiction; cbn [spec_stmt exec_stmt fst].
      - split; [eapply TI_len; [exact T|cbn; rewrite app_length; lia]|]. split; [apply (VI_same t w); auto|]. rewrite a1. now apply R_push.
      - cbn in Hal. rewrite <- (a5 o Hal). destruct (nth_error (s_objs sf) o) as [so|] eqn:Eo; destruct (nth_error (w_objs w) o) as [ob|] eqn:Ew.
        + split; [eapply TI_len; [exact T|cbn; rewrite length_list_set; lia]|]. split.
          * unfold assign_obj. rewrite Ew. unfold clear_bv, with_objs, with_heap. cbn [w_objs]. rewrite nth_list_set, Nat.eqb_refl, Ew. cbn [fst].
            apply (VI_same t w); auto. intros v. cbn. destruct (Nat.eqb _ o); split; reflexivity.
          * constructor; auto; cbn; [now rewrite !length_list_set|].
            intros i Pi. rewrite !nth_list_set, Eo, <- (a5 o Hal), Eo. destruct (Nat.eqb o i); [reflexivity|auto].
        + apply nth_error_None in Ew. apply nth_error_some_lt in Eo. rewrite (sm_len F ov w sf S) in Ew. lia.
        + split; [exact T|]. apply nth_error_None in Eo. apply nth_error_some_lt in Ew. rewrite (sm_len F ov w sf S) in Ew. lia.
        + auto.
      - split; [constructor; apply T|]. split; [apply (VI_same t w); auto|]. constructor; auto.
      - split; [constructor; apply T|]. split; [apply (VI_same t w); auto|]. constructor; auto.
      - split; [exact T|]. split; [apply (VI_same t w); auto|exact HR].
      - split; [exact T|]. split; [|exact HR]. destruct (nth_error (w_objs w) o) as [ob|] eqn:Ew; [|exact HV].
        destruct (o_bv ob) as [v|]; [|exact HV]. destruct (referenced w v); [exact HV|]. unfold clear_bv. rewrite Ew. apply (VI_same t w); auto.
      - cbn in Hal. rewrite <- (a5 o Hal). destruct (nth_error (s_objs sf) o) as [so|] eqn:Eo; destruct (nth_error (w_objs w) o) as [ob|] eqn:Ew.
        + split; [constructor; apply T|]. split.
          * pose proof (get_bv_spec F [] w o W (nth_error_some_lt _ _ _ Ew)) as B. destruct (get_bv w o) as [w1 v]. destruct B as [W1 [E B]].
            pose proof (VI_evolves t w w1 W E HV) as V1. cbn [fst]. intros u Hu Hl. cbn [w_heap] in *. unfold refs, flat in Hu. cbn [w_tape w_ctrls] in Hu.
            rewrite app_nil_r in Hu. apply in_app_iff in Hu as [Hu|Hu]; [apply V1; [unfold refs; rewrite app_nil_r; apply in_or_app; now left|exact Hl]|].
            apply in_app_iff in Hu as [Hu|[<-|[]]]; [apply V1; [unfold refs; rewrite app_nil_r; apply in_or_app; now right|exact Hl]|].
            rewrite (WInv_cur_obj F [] w1 o v W1 B) in Hl. unfold plain in Hal. congruence.
          * constructor; auto. cbn. now rewrite a4.
        + apply nth_error_None in Ew. apply nth_error_some_lt in Eo. rewrite (sm_len F ov w sf S) in Ew. lia.
        + split; [exact T|]. apply nth_error_None in Eo. apply nth_error_some_lt in Ew. rewrite (sm_len F ov w sf S) in Ew. lia.
        + auto.
      - split; [exact T|]. split; [|exact HR]. destruct (nth_error (w_objs w) o) as [ob|] eqn:Ew; [|exact HV].
        pose proof (get_bv_spec F [] w o W (nth_error_some_lt _ _ _ Ew)) as B. destruct (get_bv w o) as [w1 v]. destruct B as [W1 [E B]].
        exact (VI_evolves t w w1 W E HV). }
    destruct Q as [Q1 [Q2 Q3]]. split; [exact Q1|]. split; [exact Q2|]. eauto.
  - cbn [allowed] in Hal. cbn [float_step spec_fstmt].
    pose proof (args_match F ov w sf (vw_args vw) S) as M. rewrite !(get_args_R t sf s _ _ HR Hal) in M.
    destruct (arg_vals w (vw_args vw)) as [xs|e] eqn:Ea.
    2:{ rewrite M. split; [reflexivity|]. cbn [fst snd]. split; [exact T|]. split; [exact HV|]. eauto. }
    destruct M as [Mx [ps Mp]]. rewrite Mx, Mp.
    assert (Lw : length (w_objs w) = length (s_objs s)) by (rewrite (sm_len F ov w sf S); apply (r_len t sf s HR)).
    rewrite Lw. split; [reflexivity|]. cbn [fst snd].
    assert (Hlt : Forall (fun o => o < length (s_objs s)) (vw_args vw)).
    { rewrite <- Lw. exact (args_lt w _ _ Ea). }
    split; [|split].
    + constructor. intros f v' El. rewrite look_cons in El. cbn [push s_objs]. rewrite app_length. cbn [length].
      assert (Hp : forall l, Forall (plain t) l -> Forall (fun o => o < length (s_objs s)) l -> Forall (plain ((length (s_objs s), vw) :: t)) l).
      { intros l A B. apply Forall_forall. intros o Ho. unfold plain. rewrite look_cons.
        pose proof (proj1 (Forall_forall _ _) B o Ho) as Q. cbn in Q. destruct (Nat.eqb_spec (length (s_objs s)) o); [lia|].
        exact (proj1 (Forall_forall _ _) A o Ho). }
      destruct (Nat.eqb_spec (length (s_objs s)) f) as [<-|Hne].
      * injection El as <-. split; [lia|]. split; [auto|]. split; [|exact Hcon]. eapply Forall_impl; [|exact Hlt]. cbn. intros; lia.
      * destruct (ti_view t s T f v' El) as [A [B [C D]]]. split; [lia|]. split; [auto|]. split; [|exact D]. eapply Forall_impl; [|exact C]. cbn. intros; lia.
    + intros v Hv Hl. cbn [new_obj fst with_objs w_heap] in *. change (refs [] _) with (refs [] w) in Hv.
      apply HV; [exact Hv|]. rewrite look_cons in Hl. destruct (Nat.eqb_spec (length (s_objs s)) (bv_obj (w_heap w v))) as [E|]; [|exact Hl].
      destruct (wi_live F [] w W v Hv) as [_ [ob [A _]]]. apply nth_error_some_lt in A. lia.
    + eexists. split; [exact (good_new F ov w sf (vw_func vw xs) G)|].
      pose proof HR as [a1 a2 a3 a4 a5]. constructor; auto; cbn [push s_objs].
      * rewrite !app_length, a1. reflexivity.
      * intros o Po. unfold plain in Po. rewrite look_cons in Po. destruct (Nat.eqb_spec (length (s_objs s)) o) as [|Hne]; [discriminate|].
        destruct (lt_dec o (length (s_objs s))) as [Hl|Hl].
        -- rewrite !nth_error_app1 by lia. auto.
        -- rewrite !nth_error_app2 by lia. rewrite a1. destruct (o - length (s_objs s)) as [|k] eqn:Ek; [lia|]. cbn. now destruct k.
Qed.

Lemma look_mono : forall c st f, look (snd st) f <> None -> look (snd (float_step F st c)) f <> None.
Proof.
  intros c [w t] f H. cbn [snd] in *. destruct c as [c|vw].
  - destruct c; exact H.
  - cbn. destruct (arg_vals w (vw_args vw)); [|exact H]. cbn [snd]. rewrite look_cons. destruct (Nat.eqb _ f); [discriminate|exact H].
Qed.
Lemma look_mono_all : forall p st f, look (snd st) f <> None -> look (snd (fold_left (float_step F) p st)) f <> None.
Proof. induction p as [|c r IH]; intros st f H; [exact H|]. cbn. apply IH. now apply look_mono. Qed.

(** Both the run with [ov] and the one with nothing prescribed. *)
Lemma fine_all : forall p ov st sp sp0, fine_state ov st sp -> fine_state no_override st sp0 -> legal F sp0 p -> fconsistent p ->
  (forall f g, look (snd (fold_left (float_step F) p st)) f <> None -> ov (f, g) = None) ->
  fine_state ov (fold_left (float_step F) p st) (fold_left (spec_fstmt F ov) p sp) /\
  fine_state no_override (fold_left (float_step F) p st) (fold_left (spec_fstmt F no_override) p sp0).
Proof.
  induction p as [|c r IH]; intros ov st sp sp0 H H0 Hl Hc Hov; [auto|]. destruct Hl as [Ha Hl]. inversion Hc; subst. cbn [fold_left].
  rewrite <- (proj1 H0) in Ha. apply IH; auto.
  - apply fine_step; auto. intros f g Hf. apply Hov. cbn. now apply look_mono_all.
  - apply fine_step; auto.
Qed.
Lemma fine_init : forall ov ann, fine_state ov (world_new F ann, []) (SSt [] ann None [], []).
Proof.
  intros ov ann. split; [reflexivity|]. split; [constructor; discriminate|]. split; [intros v []|].
  exists (SSt [] ann None []). split; [apply good_init|]. constructor; auto.
Qed.

(** ** All blocks give values *)
Lemma flat_assign : forall w o x, flat (assign_obj w o x) = flat w.
Proof. intros. unfold assign_obj. destruct (nth_error _ _); reflexivity. Qed.
Lemma flat_create : forall w o, flat (fst (create_bv w o)) = flat w.
Proof. intros. unfold create_bv. destruct (nth_error _ _); reflexivity. Qed.
Lemma float_dep_values : forall w f vw y, view_consistent vw -> values_ok F w -> values_ok F (fst (float_dep w f vw y)).
Proof.
  intros w f vw y Hc H. unfold float_dep. pose proof (flat_get_bv w f) as E0. destruct (get_bv w f) as [w0 old]. cbn [fst] in E0.
  pose proof (flat_add_deps (vw_args vw) w0) as E1. destruct (add_deps w0 (vw_args vw)) as [w1 deps]. cbn [fst] in E1.
  set (w2 := with_tape _ w1). pose proof (flat_create (assign_obj w2 f y) f) as E3. rewrite flat_assign in E3.
  destruct (create_bv (assign_obj w2 f y) f) as [w3 v]. cbn [fst] in *.
  unfold values_ok. rewrite (to_flat _ _ _ (proj1 (used_touches _ old))).
  change (Forall (gives_value F) (map_last (push_out v) (flat (will_out w3 v)))).
  rewrite (to_flat _ _ _ (will_out_touches w3 v)), E3. unfold w2, flat. cbn [w_tape with_tape]. rewrite flat_add_block, map_last_app.
  apply Forall_app. split; [change (t_flat (w_tape w1)) with (flat w1); rewrite E1, E0; exact H|]. constructor; [|constructor].
  intros zs i. cbn. rewrite Hc. discriminate.
Qed.
Lemma float_deps_values : forall t, (forall f vw, look t f = Some vw -> view_consistent vw) ->
  forall os ys w, values_ok F w -> values_ok F (fst (float_deps w t os ys)).
Proof.
  intros t Ht os. induction os as [|o r IH]; intros ys w H; [exact H|]. destruct ys as [|y zs]; [exact H|]. cbn [float_deps].
  assert (A : values_ok F (fst (match look t o with Some vw => float_dep w o vw y | None => add_dep w o end))).
  { destruct (look t o) as [vw|] eqn:E; [apply float_dep_values; eauto|].
    pose proof (flat_add_deps [o] w) as B. cbn [add_deps] in B. destruct (add_dep w o) as [w1 v]. cbn [fst] in *. unfold values_ok. rewrite B. exact H. }
  destruct (match look t o with Some vw => _ | None => _ end) as [w1 v]. cbn [fst] in A. specialize (IH zs w1 A).
  destruct (float_deps w1 t r zs) as [w2 vs]. exact IH.
Qed.
Definition tconsistent (t : views V) := forall f vw, look t f = Some vw -> view_consistent vw.
Lemma float_step_values : forall c st, (match c with FOrd c => consistent_stmt c | FView vw => view_consistent vw end) ->
  tconsistent (snd st) -> values_ok F (fst st) -> tconsistent (snd (float_step F st c)) /\ values_ok F (fst (float_step F st c)).
Proof.
  intros c [w t] Hc Ht H. cbn [fst snd] in *. destruct c as [c|vw].
  - destruct (match c with SUser _ _ _ _ _ => true | _ => false end) eqn:Eu.
    + destruct c as [| | |u func args a tag| | | | | | | |]; try discriminate. cbn [float_step fst snd]. split; [exact Ht|].
      unfold float_user. destruct (mapM (read w t) args) as [xs|]; [|exact H].
      assert (A : values_ok F (fst (if w_ann w && a then float_deps w t args xs else (w, [])))).
      { destruct (w_ann w && a); [now apply float_deps_values|exact H]. }
      destruct (if w_ann w && a then float_deps w t args xs else (w, [])) as [w1 deps]. cbn [fst] in A.
      destruct (func xs) as [ys|]; [|exact A]. pose proof (flat_new_objs ys w1) as C. destruct (new_objs w1 ys) as [w2 os]. cbn [fst] in C.
      destruct (w_ann w && a); [|cbn [fst]; unfold values_ok; rewrite C; exact A].
      pose proof (flat_add_outs os w2) as D. destruct (add_outs w2 os) as [w3 vs]. cbn [fst] in *. unfold values_ok, flat. cbn [w_tape with_tape].
      rewrite flat_add_block. apply Forall_app. split; [change (t_flat (w_tape w3)) with (flat w3); rewrite D, C; exact A|]. constructor; [|constructor].
      intros zs i. cbn in Hc |- *. rewrite Hc. destruct (func zs) as [ys'|]; [|discriminate]. destruct (nth_error ys' i); discriminate.
    + assert (E1 : float_step F (w, t) (FOrd c) = (fst (exec_stmt F w c), t)) by (destruct c; try discriminate; reflexivity).
      rewrite E1. split; [exact Ht|]. now apply values_stmt.
  - cbn. destruct (arg_vals w (vw_args vw)); [|split; [exact Ht|exact H]]. split; [|exact H].
    intros f v' E. cbn [snd] in E. rewrite look_cons in E. destruct (Nat.eqb _ f); [now injection E as <-|eauto].
Qed.
Lemma float_values : forall p st, fconsistent p -> tconsistent (snd st) -> values_ok F (fst st) -> values_ok F (fst (fold_left (float_step F) p st)).
Proof.
  induction p as [|c r IH]; intros st Hc Ht H; [exact H|]. inversion Hc; subst. cbn [fold_left].
  destruct (float_step_values c st) as [A B]; auto.
Qed.

(** ** Controls are not floating *)
Definition CI (sp : sst V * views V) := Forall (fun c : ver * V => plain (snd sp) (fst (fst c)) /\ fst (fst c) < length (s_objs (fst sp))) (s_ctrls (fst sp)).
Lemma CI_len : forall t s s', CI (s, t) -> s_ctrls s' = s_ctrls s -> length (s_objs s) <= length (s_objs s') -> CI (s', t).
Proof. intros t s s' H E L. unfold CI in *. cbn [fst snd] in *. rewrite E. eapply Forall_impl; [|exact H]. cbn. intros c [A B]. split; [exact A|lia]. Qed.
Lemma CI_step : forall sp c, CI sp -> allowed (snd sp) c -> CI (spec_fstmt F no_override sp c).
Proof.
  intros [s t] c H Ha. cbn [snd] in Ha. destruct c as [c|vw].
  - destruct c; cbn [spec_fstmt spec_stmt]; try contradiction; try exact H.
    + apply (CI_len t s); auto. cbn. rewrite app_length. lia.
    + apply (CI_len t s); auto; [|apply spec_fcall_len]. unfold spec_fcall. destruct (shown_all s_rec s t args); [|reflexivity].
      destruct (shown_all s_rep s t args); [|reflexivity]. destruct (func l); [|reflexivity]. destruct (results _ _ _ _ _); reflexivity.
    + destruct (nth_error (s_objs s) o); [|exact H]. apply (CI_len t s); auto. cbn. rewrite length_list_set. lia.
    + destruct (nth_error (s_objs s) o) as [so|] eqn:E; [|exact H]. unfold CI in *. cbn [fst snd s_ctrls s_objs] in *. apply Forall_app. split; [exact H|].
      constructor; [|constructor]. cbn. split; [exact Ha|]. now apply nth_error_some_lt in E.
  - cbn [spec_fstmt]. destruct (get_args s_rec s (vw_args vw)); [|exact H]. destruct (get_args s_rep s (vw_args vw)); [|exact H].
    unfold CI in *. cbn [fst snd push s_ctrls s_objs] in *. eapply Forall_impl; [|exact H]. cbn. intros c [A B]. rewrite app_length. split; [|lia].
    unfold plain in *. rewrite look_cons. destruct (Nat.eqb_spec (length (s_objs s)) (fst (fst c))); [lia|exact A].
Qed.
Lemma CI_all : forall p sp, CI sp -> legal F sp p -> CI (fold_left (spec_fstmt F no_override) p sp).
Proof. induction p as [|c r IH]; intros sp H Hl; [exact H|]. destruct Hl as [Ha Hl]. cbn. apply IH; [now apply CI_step|exact Hl]. Qed.
Lemma prescribe_out : forall vs (vals : list V) ov0 u, ~ In u vs -> prescribe vs vals ov0 u = ov0 u.
Proof.
  induction vs as [|x vs IH]; intros [|y vals] ov0 u H; try reflexivity. cbn. rewrite IH by (intros K; apply H; now right).
  fold (ver_eqb u x). destruct (ver_eqb u x) eqn:E; [|reflexivity]. apply ver_eqb_eq in E. exfalso. apply H. now left.
Qed.

(** ** Evaluations *)
Lemma float_rerun_at : forall ann p j vals scale, fconsistent p -> legal F (SSt [] ann None [], []) p ->
  j < length (w_objs (fst (float_exec F ann p))) -> plain (snd (float_exec F ann p)) j ->
  let w := fst (float_recorded F ann p j) in
  let J := snd (float_recorded F ann p j) in
  WInv F [] w /\ (length vals = length (w_ctrls w) -> forall h, no_ctrl h ->
  (forall u, ~ In u (w_ctrls w) -> ~ In u (computed (fun u => mem u (w_ctrls w)) (flat w)) -> saved h u = saved (w_heap w) u) ->
  snd (rf_call F (t_flat (w_tape w)) (RF J (w_ctrls w) scale) vals h) = rmap (fun x => f_mul F x scale) (spec_frerun F ann p vals j)).
Proof.
  intros ann p j vals scale Hc Hl Hj Hp. unfold float_recorded.
  set (vs := map fst (s_ctrls (fst (spec_fexec F no_override ann p)))). set (ov := prescribe vs vals no_override).
  assert (HCI : CI (spec_fexec F no_override ann p)) by (apply CI_all; [constructor|exact Hl]).
  assert (H0 : fine_state no_override (float_exec F ann p) (spec_fexec F no_override ann p)).
  { apply (fine_all p no_override (world_new F ann, []) (SSt [] ann None [], []) (SSt [] ann None [], [])); auto using fine_init. }
  assert (Hov : forall f g, look (snd (float_exec F ann p)) f <> None -> ov (f, g) = None).
  { intros f g Hf. unfold ov. rewrite prescribe_out; [reflexivity|]. unfold vs. intros K. apply in_map_iff in K as [c [K1 K2]].
    pose proof (proj1 (Forall_forall _ _) HCI c K2) as [A _]. rewrite <- (proj1 H0), K1 in A. exact (Hf A). }
  assert (H1 : fine_state ov (float_exec F ann p) (spec_fexec F ov ann p)).
  { apply (fine_all p ov (world_new F ann, []) (SSt [] ann None [], []) (SSt [] ann None [], [])); auto using fine_init. }
  destruct H0 as [_ [_ [_ [sf0 [[W0 S0] R0]]]]]. destruct H1 as [_ [_ [_ [sf [[W S] HR]]]]].
  assert (Hv : values_ok F (fst (float_exec F ann p))) by (apply float_values; [exact Hc|intros f vw E; discriminate|constructor]).
  set (w := fst (float_exec F ann p)) in *.
  pose proof (get_bv_spec F [] w j W Hj) as B. pose proof (flat_get_bv w j) as Q. destruct (get_bv w j) as [w1 v]. cbn [fst snd] in *. destruct B as [W1 [E1 C1]].
  pose proof (Sim_evolves F [] ov w w1 _ W W1 E1 S) as S1. pose proof (Sim_evolves F [] no_override w w1 _ W W1 E1 S0) as S01.
  split; [exact W1|]. intros Hlen h Nh Hh.
  assert (Evs : vs = map (fun c => verb (w_heap w1 c)) (w_ctrls w1)).
  { unfold vs. rewrite <- (r_ctrls _ _ _ R0), (sm_ctrls F _ _ _ S01), map_map. reflexivity. }
  assert (Ho : forall u, live [] w1 u -> ov (verb (w_heap w1 u)) = supplied (w_ctrls w1) vals u).
  { intros u Hu. unfold ov. rewrite Evs. rewrite (prescribe_supplied (fun c => verb (w_heap w1 c))); [destruct (supplied _ _ u); reflexivity|exact Hlen|].
    intros c Hc' E. apply (wi_uniq F [] w1 W1); auto. now apply ctrl_live. }
  assert (Hns : forall u, ~ In u (w_ctrls w1) -> supplied (w_ctrls w1) vals u = None).
  { intros u Hu. pose proof (supplied_some (w_ctrls w1) vals u Hlen) as K. rewrite (proj2 (mem_false _ _) Hu) in K.
    destruct (supplied _ _ u); [discriminate|reflexivity]. }
  destruct (call_sim_full F w1 sf ov j v (w_ctrls w1) vals scale h) as [A _]; auto.
  - split; assumption.
  - unfold values_ok. rewrite Q. exact Hv.
  - intros u Hu. apply Ho. now apply ctrl_live.
  - intros u Hu Hn. rewrite Ho by now apply out_live. now apply Hns.
  - intros u Hu Hn Hnc. rewrite Hh by assumption. assert (Hlv : live [] w1 u) by (destruct Hu as [Hu| ->]; [now apply dep_live|right; exists j; exact C1]).
    unfold prescribed. rewrite Ho, Hns by assumption. apply (saved_rec F); [exact W1|]. destruct Hu as [Hu| ->]; [now left|right; exists j; exact C1].
  - unfold flat in A. rewrite A. f_equal. unfold rerun_value, spec_frerun. fold vs. fold ov.
    rewrite <- (r_err _ _ _ HR), <- (r_objs _ _ _ HR j Hp). reflexivity.
Qed.
End FloatFacts.
