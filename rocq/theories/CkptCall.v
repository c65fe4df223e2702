(** Evaluations and derivatives through the checkpoint manager after a recorded program. *)
From Coq Require Import List Arith ZArith Lia Bool.
From Verif Require Import Base Model BaseFacts Graph Record Spec RecordFacts Replay ReplayExec History Session Optimize Ckpt SpecCkpt CkptProtocol CkptRecord CkptStep CkptInv CkptTape CkptEval.
Import ListNotations.

Section Call.
Context {V : Type} (F : fops V).
Implicit Types (h : heap V) (m : cman) (w : world V).

(** ** What the time steps of a finished recording satisfy *)
Record StepsOK (n : nat) (sk : list (list (block V) * list nat)) : Prop := {
  so_len : length sk = n;
  so_dep : forall k b d, In b (bks sk k) -> In d (b_deps b) -> In d (stt sk k) \/ In d (outs_of (bks sk k));
  so_state : forall k v, In v (stt sk (S k)) -> In v (stt sk k) \/ In v (outs_of (bks sk k));
  so_disj : forall k v, In v (stt sk k) -> ~ In v (later n sk k)
}.

Lemma nth_map_tsk : forall (l : list (tstep V)) k, nth_error (map tsk l) k = option_map tsk (nth_error l k).
Proof. intros. apply nth_error_map. Qed.
Lemma bks_map : forall (l : list (tstep V)) k, bks (map tsk l) k = match nth_error l k with Some s => ts_blocks s | None => [] end.
Proof. intros l k. unfold bks. rewrite nth_map_tsk. destruct (nth_error l k); reflexivity. Qed.
Lemma stt_map : forall (l : list (tstep V)) k, stt (map tsk l) k = match nth_error l k with Some s => ts_state s | None => [] end.
Proof. intros l k. unfold stt. rewrite nth_map_tsk. destruct (nth_error l k); reflexivity. Qed.

Lemma steps_ok : forall (l : list (tstep V)) lu bs, LS l lu [] bs -> StepsOK (length l) (map tsk l) /\ flat_map fst (map tsk l) = bs.
Proof.
  intros l lu bs H.
  assert (Ad : forall k s v, nth_error l k = Some s -> In v (ts_adjdeps s) <-> In v (outs_of (ts_blocks s))).
  { intros k s v E. rewrite (ls_adj _ _ _ _ H k s E). split; [intros [K|[_ []]]; exact K|auto]. }
  split; [constructor|].
  - apply map_length.
  - intros k b d Hb Hd. rewrite bks_map in *. rewrite stt_map. destruct (nth_error l k) as [s|] eqn:E; [|destruct Hb].
    destruct (ls_dep _ _ _ _ H k s b d E Hb Hd) as [K|K]; [now left|right]. now apply (Ad k).
  - intros k v Hv. rewrite bks_map, stt_map in *. destruct (nth_error l (S k)) as [s'|] eqn:E'; [|destruct Hv].
    destruct (nth_error l k) as [s|] eqn:E; [|apply nth_error_None in E; apply nth_error_some_lt in E'; lia].
    destruct (ls_state _ _ _ _ H k s s' v E E' Hv) as [K|K]; [now left|right]. now apply (Ad k).
  - intros k v Hv Hl. rewrite stt_map in Hv. destruct (nth_error l k) as [s|] eqn:E; [|destruct Hv].
    unfold later, from, outs_of in Hl. apply in_flat_map in Hl as [b [Hb Ho]]. apply in_flat_map in Hb as [j [Hj Hb]]. apply in_seq in Hj.
    rewrite bks_map in Hb. destruct (nth_error l j) as [s'|] eqn:E'; [|destruct Hb].
    assert (K : In v (ts_adjdeps s')) by (apply (Ad j); [exact E'|]; apply in_flat_map; eauto).
    pose proof (ls_disj _ _ _ _ H k s j s' v E E' Hv K). lia.
  - rewrite <- (ls_flat _ _ _ _ H). clear. induction l as [|s l IH]; cbn; [reflexivity|now rewrite IH].
Qed.

(** ** The graph *)
Variable sc : schedule.
Variable n : nat.
Variable fwd : list action.
Variable bs : list (block V).
Variable r : nat -> V.
Variable Fz : nat -> Prop.
Variable cs : list nat.
Local Notation cut := (fun v => mem v cs).
Local Notation off := (fun _ : nat => false).
Hypothesis Hcov : covering sc n fwd.
Hypothesis Hn : 1 <= n.
Hypothesis Hraw : forall b, In b bs -> raw_result (b_kind b) = false.
Hypothesis Hval : forall b, In b bs -> gives_value F b.
Hypothesis Hwf : wf_tape bs.
Hypothesis Hfz : forall b, In b bs -> frozen F r Fz cut b.
Hypothesis Hcut : forall b o, In b bs -> existsb cut (b_outs b) = true -> In o (b_outs b) -> mem o cs = true \/ Fz o.
Hypothesis Hleaf : forall v, ~ In v (outs_of bs) -> mem v cs = true \/ Fz v.

Definition Inv (fl : nat -> bool) (s : cst V) : Prop :=
  exists sk, EInv sc n fwd sk r Fz fl s /\ StepsOK n sk /\ flat_map fst sk = bs.
Definition Post (s : cst V) : Prop := Inv off s /\ cm_mode (c_man s) <> MRecord.

(** Values that respect the frozen variables. *)
Definition compat (vals : list V) : Prop := forall v x, supplied cs vals v = Some x -> ~ Fz v \/ x = r v.

Record Pre (s : cst V) : Prop := {
  pr_world : exists w m, s = cw_cst w m /\ CInv [] w /\ RecPos sc n fwd (steps_of w) m /\ (cm_max m = None -> steps_of w = n) /\ t_flat (w_tape w) = bs;
  pr_rec : forall v, bv_rec (c_heap s v) = r v;
  pr_ctrl : forall v, bv_ctrl (c_heap s v) = false
}.

Lemma HInv_flags : forall fl h l b, HInv r Fz fl h -> HInv r Fz (fun v => if mem v l then b else fl v) (upd_all h l (set_ctrl b)).
Proof.
  intros fl h l b [h1 h2 h3 h4 h5]. constructor; intros v; rewrite upd_all_spec by reflexivity; destruct (mem v l); cbn; auto.
Qed.
Lemma HInv_ext : forall fl fl' h, (forall v, fl v = fl' v) -> HInv r Fz fl h -> HInv r Fz fl' h.
Proof. intros fl fl' h E [h1 h2 h3 h4 h5]. constructor; auto. intros v. now rewrite h4. Qed.
Lemma HInv_update : forall h vals, HInv r Fz off h -> compat vals -> HInv r Fz off (update_controls h cs vals).
Proof.
  intros h vals H Hc. pose proof (hi_ctrl _ _ _ _ H) as N. destruct H as [h1 h2 h3 h4 h5].
  assert (E : forall v, update_controls h cs vals v = match supplied cs vals v with Some x => set_ckpt (Some x) false (h v) | None => h v end) by (intros v; now apply update_controls_spec).
  constructor; intros v; rewrite E; destruct (supplied cs vals v) as [x|] eqn:Ex; cbn; auto.
  intros Hv. right. destruct (Hc v x Ex) as [K|K]; [contradiction|congruence].
Qed.

Lemma Inv_heap : forall fl fl' s h, Inv fl s -> HInv r Fz fl' h -> Inv fl' (on_heap (fun _ => h) s).
Proof. intros fl fl' s h [sk [E S]] H. exists sk. split; [|exact S]. eapply EInv_heap; eauto. Qed.
Lemma Inv_hinv : forall fl s, Inv fl s -> HInv r Fz fl (c_heap s).
Proof. intros fl s [sk [E _]]. apply (ei_heap _ _ _ _ _ _ _ _ E). Qed.
Lemma Inv_flat : forall fl s, Inv fl s -> t_flat (c_tape s) = bs.
Proof. intros fl s [sk [E [_ <-]]]. apply (ei_flat _ _ _ _ _ _ _ _ E). Qed.
Lemma Inv_bump : forall fl s, Inv fl s -> Inv fl (on_tape_ (@bump V) s).
Proof. intros fl s [sk [[a b c d e] S]]. exists sk. split; [|exact S]. constructor; auto. Qed.

Definition entered (vals : list V) (s : cst V) : cst V :=
  on_heap (fun h => upd_all h cs (set_ctrl true)) (on_tape_ (@bump V) (on_heap (fun h => update_controls h cs vals) s)).
Lemma Inv_entered : forall s vals, Inv off s -> compat vals -> Inv cut (entered vals s).
Proof.
  intros s vals H Hc. pose proof (HInv_update _ _ (Inv_hinv _ _ H) Hc) as H1. pose proof (HInv_flags _ _ cs true H1) as H2.
  change (Inv cut (on_tape_ (@bump V) (on_heap (fun _ => upd_all (update_controls (c_heap s) cs vals) cs (set_ctrl true)) s))).
  apply Inv_bump. eapply Inv_heap; [exact H|]. eapply HInv_ext; [|exact H2]. intros v. cbn beta. destruct (mem v cs); reflexivity.
Qed.
Lemma Inv_left : forall s, Inv cut s -> Inv off (on_heap (fun h => upd_all h cs (set_ctrl false)) s).
Proof.
  intros s H. change (Inv off (on_heap (fun _ => upd_all (c_heap s) cs (set_ctrl false)) s)). eapply Inv_heap; [exact H|].
  eapply HInv_ext; [|apply (HInv_flags _ _ cs false (Inv_hinv _ _ H))]. intros v. cbn beta. destruct (mem v cs); reflexivity.
Qed.

(** ** The end of the recording inside an evaluation *)
Lemma done_inv : forall w m fl, TInv (fun v => ~ Fz v) w -> steps_of w = n -> Done sc n fwd m ->
  t_flat (w_tape w) = bs -> (forall v, bv_rec (w_heap w v) = r v) -> (forall v, bv_ctrl (w_heap w v) = fl v) -> Inv fl (cw_cst w m).
Proof.
  intros w m fl E2 L E5 Fl K1 K2. exists (map tsk (t_steps (w_tape w))).
  destruct (steps_ok _ _ _ (ti_ls _ _ E2)) as [S1 S2]. unfold steps_of in L. rewrite L in S1. rewrite Fl in S2.
  split; [|split; [exact S1|exact S2]]. constructor.
  - reflexivity.
  - now rewrite S2.
  - constructor; intros v; specialize (K1 v); specialize (K2 v); destruct (ti_clean _ _ E2 v) as [C1 [C2 C3]]; cbn [cw_cst c_heap] in *; try congruence; auto.
    intros Hv. rewrite K1 in C3. tauto.
  - intros t e Ht He. destruct (ti_dict _ _ E2 t e Ht He) as [_ [D|[x [D1 D2]]]]; [now left|right]. exists x. split; [exact D1|].
    intros Hv. destruct D2 as [D2|D2]; [contradiction|]. rewrite D2. apply K1.
  - destruct E5. constructor; auto.
Qed.

Lemma finish_inv : forall w m, TInv (fun v => ~ Fz v) w -> RecPos sc n fwd (steps_of w) m -> (cm_max m = None -> steps_of w = n) ->
  t_flat (w_tape w) = bs -> (forall v, bv_rec (w_heap w v) = r v) -> forall fl, (forall v, bv_ctrl (w_heap w v) = fl v) ->
  exists s', end_taping (cw_cst w m) = (s', None) /\ Inv fl s' /\ Done sc n fwd (c_man s') /\ (forall v, erase_ckpt (c_heap s' v) = erase_ckpt (w_heap w v)).
Proof.
  intros w m T R Hm Hb Hr fl Hfl. destruct (finish_rec _ sc n fwd w m Hcov Hn T R Hm) as [s' [E1 [E2 [E3 [E4 E5]]]]].
  exists s'. split; [exact E1|]. split; [|split; [exact E5|exact (st_heap _ _ E3)]].
  assert (K : forall v, bv_rec (c_heap s' v) = r v /\ bv_ctrl (c_heap s' v) = fl v).
  { intros v. pose proof (st_heap _ _ E3 v) as X. apply erase_fields in X as [X1 [_ [_ [X2 _]]]]. cbn [cww w_heap] in *. rewrite X1, X2. auto. }
  replace s' with (cw_cst (cww w s') (c_man s')) by (destruct s'; reflexivity). apply done_inv; auto.
  - cbn in *. rewrite <- Hb. apply (st_flat _ _ E3).
  - intros v. apply (K v).
  - intros v. apply (K v).
Qed.

Lemma TInv_heap : forall (Z Z' : nat -> Prop) w h, TInv Z w -> (forall v, Z v -> Z' v) ->
  (forall v, bv_last (h v) = bv_last (w_heap w v) /\ bv_rec (h v) = bv_rec (w_heap w v) /\ cleanz Z' v (h v)) -> TInv Z' (with_heap (fun _ => h) w).
Proof.
  intros Z Z' w h [t1 t2 t3 t4 t5] Hz Hh. constructor; cbn; auto.
  - apply (ls_ext _ (fun v => bv_last (w_heap w v))); [|exact t1]. intros v. apply Hh.
  - intros v Hv. rewrite (proj1 (Hh v)). auto.
  - intros v. apply Hh.
  - intros t e Ht He. destruct (t5 t e Ht He) as [A [B|[x [B C]]]]; (split; [exact A|]); [now left|right]. exists x. split; [exact B|].
    destruct C as [C|C]; [left; auto|right]. rewrite C. symmetry. apply Hh.
Qed.
Lemma TInv_tape : forall Z w f, (forall t : tape V, t_steps (f t) = t_steps t /\ t_flat (f t) = t_flat t) -> TInv Z w -> TInv Z (with_tape f w).
Proof.
  intros Z w f Hf [t1 t2 t3 t4 t5]. destruct (Hf (w_tape w)) as [A B]. constructor; cbn; auto.
  - rewrite A, B. exact t1.
  - rewrite A. exact t5.
Qed.

(** A heap reached from the recorded one by supplying values, marking controls and resetting adjoints. *)
Definition near (h : heap V) (h' : heap V) : Prop := forall v, bv_last (h' v) = bv_last (h v) /\ bv_rec (h' v) = bv_rec (h v) /\ bv_out (h' v) = bv_out (h v) /\
  (bv_ckpt (h' v) = bv_ckpt (h v) /\ bv_raw (h' v) = bv_raw (h v) \/ exists x, bv_ckpt (h' v) = Some x /\ bv_raw (h' v) = false /\ (~ Fz v \/ x = r v)).
Lemma near_tinv : forall w h t, CInv [] w -> (forall v, bv_rec (w_heap w v) = r v) -> t_steps t = t_steps (w_tape w) -> t_flat t = t_flat (w_tape w) -> near (w_heap w) h ->
  TInv (fun v => ~ Fz v) (with_tape (fun _ => t) (with_heap (fun _ => h) w)).
Proof.
  intros w h t C Hr Ht1 Ht2 Hh. assert (T0 : TInv (fun v => ~ Fz v) (with_heap (fun _ => h) w)).
  { apply (TInv_heap (fun _ => False) _ w h (TInv_of _ w C)); [contradiction|]. intros v. destruct (Hh v) as [A1 [A2 [A3 A4]]]. split; [exact A1|]. split; [exact A2|].
    destruct (ci_clean _ _ C v) as [B1 [B2 B3]]. split; [congruence|]. destruct A4 as [[A4 A5]|[x [A4 [A5 A6]]]].
    - split; [congruence|]. right. rewrite A4, A2. exact B3.
    - split; [exact A5|]. destruct A6 as [A6|A6]; [now left|right; right]. rewrite A4, A6, A2, Hr. reflexivity. }
  destruct T0 as [t1 t2 t3 t4 t5]. constructor; cbn in *; auto; rewrite Ht1; [rewrite Ht2; exact t1|exact t5].
Qed.
Lemma pre_finish : forall s h t fl, Pre s -> t_steps t = t_steps (c_tape s) -> t_flat t = t_flat (c_tape s) ->
  (forall v, bv_ctrl (h v) = fl v) -> near (c_heap s) h ->
  exists s', end_taping (CS h t (c_man s)) = (s', None) /\ Inv fl s' /\ Done sc n fwd (c_man s') /\ (forall v, erase_ckpt (c_heap s' v) = erase_ckpt (h v)).
Proof.
  intros s h t fl [[w [m [-> [C [R [Hm Hb]]]]]] Hr Hc] Ht1 Ht2 Hf Hh. cbn [cw_cst c_heap c_tape c_man] in *.
  pose proof (near_tinv w h t C Hr Ht1 Ht2 Hh) as T1. set (w1 := with_tape (fun _ => t) (with_heap (fun _ => h) w)) in *.
  change (CS h t m) with (cw_cst w1 m). change h with (w_heap w1) at 1.
  assert (St : steps_of w1 = steps_of w) by (unfold steps_of; cbn; now rewrite Ht1).
  apply finish_inv; auto.
  - now rewrite St.
  - now rewrite St.
  - cbn. congruence.
  - intros v. cbn. destruct (Hh v) as [_ [-> _]]. apply Hr.
Qed.

(** ** One call *)
Lemma recompute_record : forall func (s : cst V), cm_mode (c_man s) = MRecord -> forall s1, end_taping s = (s1, None) -> cm_mode (c_man s1) <> MRecord ->
  cm_recompute F func s = cm_recompute F func s1.
Proof.
  intros func s Hm s1 E Hs. unfold cm_recompute. rewrite Hm, E.
  replace (match cm_mode (c_man s1) with MRecord => end_taping s1 | _ => (s1, None) end) with (s1, @None exn) by (destruct (cm_mode (c_man s1)); congruence). reflexivity.
Qed.
Lemma adjoint_record : forall mk (s : cst V), cm_mode (c_man s) = MRecord -> forall s1, end_taping s = (s1, None) -> cm_mode (c_man s1) <> MRecord ->
  cm_evaluate_adj F 0 mk s = cm_evaluate_adj F 0 mk s1.
Proof.
  intros mk s Hm s1 E Hs. unfold cm_evaluate_adj. cbn [Nat.eqb negb]. rewrite Hm, E.
  replace (match cm_mode (c_man s1) with MRecord => end_taping s1 | _ => (s1, None) end) with (s1, @None exn) by (destruct (cm_mode (c_man s1)); congruence). reflexivity.
Qed.

Lemma recompute_keep : forall func s, Inv cut s -> cm_mode (c_man s) <> MRecord -> Inv cut (fst (cm_recompute F func s)).
Proof.
  intros func s [sk [E [S B]]] Hm. exists sk. split; [|auto]. apply recompute_pass_inv; auto; try (rewrite B; auto). apply S.
Qed.
Lemma adjoint_keep : forall s, Inv cut s -> cm_mode (c_man s) <> MRecord -> Inv cut (fst (cm_evaluate_adj F 0 true s)).
Proof.
  intros s [sk [E [S B]]] Hm. exists sk. split; [|auto]. apply adjoint_pass_inv; auto; try (rewrite B; auto). apply S.
Qed.

Definition ready (s : cst V) : Prop := Pre s \/ Post s.

Lemma c_call_entered : forall rf vals s, rf_ctrls rf = cs -> length vals = length cs ->
  c_call F rf vals s =
  let func := if truthy F (bv_out (c_heap s (rf_J rf))) then Some (rf_J rf) else None in
  let '(s1, e) := cm_recompute F func (entered vals s) in
  let s2 := on_heap (fun h => upd_all h cs (set_ctrl false)) s1 in
  (s2, match e with Some x => Err x | None => Ok (f_mul F (saved (c_heap s2) (rf_J rf)) (rf_scale rf)) end).
Proof.
  intros rf vals s E Hl. unfold c_call. rewrite E, Hl, Nat.eqb_refl. cbn [negb]. unfold c_marked_controls. cbv zeta. fold (entered vals s).
  destruct (cm_recompute F _ (entered vals s)) as [s1 [e|]]; reflexivity.
Qed.

(** Where an evaluation starts from. *)
Lemma call_start_full : forall s vals, ready s -> compat vals -> length vals = length cs ->
  exists s1, Inv cut s1 /\ cm_mode (c_man s1) <> MRecord /\ (forall func, cm_recompute F func (entered vals s) = cm_recompute F func s1) /\
    (Post s -> s1 = entered vals s) /\ (Post s \/ Done sc n fwd (c_man s1)) /\ (forall v, erase_ckpt (c_heap s1 v) = erase_ckpt (c_heap (entered vals s) v)) /\
    (Post s \/ end_taping (entered vals s) = (s1, None)).
Proof.
  intros s vals [P|[I Hm]] Hc Hl.
  - assert (Em : cm_mode (c_man s) = MRecord) by (destruct (pr_world _ P) as [w [m [-> [_ [R _]]]]]; apply (rp_mode _ _ _ _ _ R)).
    assert (E : forall v, c_heap (entered vals s) v = (let b := match supplied cs vals v with Some x => set_ckpt (Some x) false (c_heap s v) | None => c_heap s v end in if mem v cs then set_ctrl true b else b)).
    { intros v. cbn. rewrite upd_all_spec by reflexivity. rewrite update_controls_spec by exact (pr_ctrl _ P). reflexivity. }
    destruct (pre_finish s (c_heap (entered vals s)) (c_tape (entered vals s)) cut P) as [s1 [E1 [E2 [E3 E4]]]]; try reflexivity.
    + intros v. rewrite E. cbv zeta. destruct (mem v cs); cbn; destruct (supplied cs vals v); cbn; try reflexivity; apply (pr_ctrl _ P).
    + intros v. rewrite E. cbv zeta.
      destruct (supplied cs vals v) as [x|] eqn:Ex; [pose proof (Hc v x Ex) as Hx|]; destruct (mem v cs); cbn; repeat split; auto; right; eauto.
    + exists s1. split; [exact E2|]. rewrite (dn_mode _ _ _ _ E3). split; [discriminate|]. split; [|split; [intros [_ X]; contradiction|split; [now right|split; [exact E4|right; exact E1]]]].
      intros func. apply recompute_record; [exact Em|exact E1|rewrite (dn_mode _ _ _ _ E3); discriminate].
  - exists (entered vals s). split; [now apply Inv_entered|]. split; [exact Hm|]. split; [reflexivity|]. split; [reflexivity|]. split; [left; now split|split; [reflexivity|left; now split]].
Qed.
Lemma call_start : forall s vals, ready s -> compat vals -> length vals = length cs ->
  exists s1, Inv cut s1 /\ cm_mode (c_man s1) <> MRecord /\ (forall func, cm_recompute F func (entered vals s) = cm_recompute F func s1) /\
    (Post s -> s1 = entered vals s) /\ (Post s \/ Done sc n fwd (c_man s1)) /\ (forall v, erase_ckpt (c_heap s1 v) = erase_ckpt (c_heap (entered vals s) v)).
Proof. intros s vals R Hc Hl. destruct (call_start_full s vals R Hc Hl) as [s1 [A [B [C [D [E [G _]]]]]]]. exists s1. auto 10. Qed.

Lemma recompute_mode : forall func s, Inv cut s -> cm_mode (c_man s) <> MRecord -> cm_mode (c_man (fst (cm_recompute F func s))) <> MRecord.
Proof.
  intros func s [sk [E S]] Hm.
  assert (Hi : MInv (c_man s)).
  { split; [right|intros ?; contradiction]. rewrite (mf_fwd _ _ _ _ (ei_man _ _ _ _ _ _ _ _ E)). destruct Hcov as [Hc _]. clear - Hc.
    induction Hc as [|k n1 ics adj st rest _ _ _ [l [-> IH]]]; [exists []; auto|]. exists (AForward k n1 ics adj st :: l). cbn. auto. }
  destruct (recompute_man F func s Hi Hm) as [_ R]. cbv zeta in R. rewrite R. destruct (snd (cm_recompute F func s)); discriminate.
Qed.

Lemma call_keeps : forall rf vals s, ready s -> rf_ctrls rf = cs -> compat vals -> ready (fst (c_call F rf vals s)).
Proof.
  intros rf vals s R E Hc. destruct (Nat.eq_dec (length vals) (length cs)) as [Hl|Hl].
  - rewrite (c_call_entered rf vals s E Hl). cbv zeta. destruct (call_start s vals R Hc Hl) as [s1 [I1 [M1 [G1 _]]]]. rewrite G1.
    pose proof (recompute_keep (if truthy F (bv_out (c_heap s (rf_J rf))) then Some (rf_J rf) else None) s1 I1 M1) as K.
    pose proof (recompute_mode (if truthy F (bv_out (c_heap s (rf_J rf))) then Some (rf_J rf) else None) s1 I1 M1) as M.
    destruct (cm_recompute F _ s1) as [s2 e]. cbn [fst] in *. right. split; [now apply Inv_left|exact M].
  - unfold c_call. rewrite E. destruct (Nat.eqb_spec (length vals) (length cs)); [contradiction|]. exact R.
Qed.

Lemma call_leaves : forall rf vals s, ready s -> rf_ctrls rf = cs -> compat vals -> length vals = length cs -> Post (fst (c_call F rf vals s)).
Proof.
  intros rf vals s R E Hc Hl.
  rewrite (c_call_entered rf vals s E Hl). cbv zeta. destruct (call_start s vals R Hc Hl) as [s1 [I1 [M1 [G1 _]]]]. rewrite G1.
    pose proof (recompute_keep (if truthy F (bv_out (c_heap s (rf_J rf))) then Some (rf_J rf) else None) s1 I1 M1) as K.
    pose proof (recompute_mode (if truthy F (bv_out (c_heap s (rf_J rf))) then Some (rf_J rf) else None) s1 I1 M1) as M.
    destruct (cm_recompute F _ s1) as [s2 e]. cbn [fst] in *. split; [now apply Inv_left|exact M].
Qed.

Definition value_env (vals : list V) : nat -> V := fun v => match supplied cs vals v with Some x => x | None => r v end.

(** The value of an evaluation: after the recording is over, or during it if the controls are frozen. *)
Lemma call_value : forall J scale vals s, ready s -> compat vals -> length vals = length cs -> truthy F (r J) = true ->
  (Post s \/ forall v, mem v cs = true -> Fz v) ->
  let g := geval F cut bs (value_env vals) in
  snd (c_call F (RF J cs scale) vals s) = match snd g with Some e => Err e | None => Ok (f_mul F (fst g J) scale) end.
Proof.
  intros J scale vals s R Hc Hl Ht Hp. cbv zeta. rewrite (c_call_entered (RF J cs scale) vals s eq_refl Hl). cbv zeta. cbn [rf_J rf_scale].
  assert (Eo : bv_out (c_heap s J) = r J).
  { destruct R as [P|[I _]]; [|apply (hi_out _ _ _ _ (Inv_hinv _ _ I))]. destruct (pr_world _ P) as [w [m [Es [C _]]]].
    rewrite <- (pr_rec _ P). rewrite Es. apply (ci_clean _ _ C). }
  rewrite Eo, Ht. destruct (call_start s vals R Hc Hl) as [s1 [I1 [M1 [G1 [G2 _]]]]]. rewrite G1.
  assert (Vf : forall v, Fz v -> value_env vals v = r v).
  { intros v Hv. unfold value_env. destruct (supplied cs vals v) as [x|] eqn:Ex; [|reflexivity]. destruct (Hc v x Ex); [contradiction|auto]. }
  assert (Vc : forall v, mem v cs = true -> saved (c_heap s1) v = value_env vals v).
  { intros v Hv. destruct Hp as [Hp|Hp].
    - rewrite (G2 Hp). destruct Hp as [I _]. unfold saved, value_env. cbn. rewrite upd_all_spec by reflexivity. rewrite Hv. cbn [set_ctrl bv_ckpt].
      rewrite update_controls_spec by exact (hi_ctrl _ _ _ _ (Inv_hinv _ _ I)).
      pose proof (supplied_some cs vals v Hl) as S. rewrite Hv in S. destruct (supplied cs vals v); [reflexivity|discriminate].
    - rewrite (Vf v (Hp v Hv)). eapply fz_saved; [apply (Inv_hinv _ _ I1)|now apply Hp]. }
  destruct I1 as [sk [E [S B]]].
  assert (W0 : from n sk 0 = bs) by (rewrite <- B; apply from_all; apply S).
  destruct (recompute_agree F sc n fwd sk r Fz cut) with (J := J) (s := s1) (e := value_env vals) as [Q1 [Q2 Q3]];
    try (rewrite B; assumption); try apply S; auto.
  - rewrite W0. exact Hwf.
  - intros v Hv. apply Hleaf. intros X. apply Hv. unfold later. now rewrite W0.
  - apply Hcov.
  - rewrite W0 in Q2, Q3. destruct (cm_recompute F (Some J) s1) as [s2 e2]. cbn [fst snd] in *. subst e2.
    destruct (snd (geval F cut bs (value_env vals))) as [e|]; [reflexivity|]. rewrite <- (Q3 eq_refl). f_equal. f_equal.
    unfold saved. cbn. rewrite upd_all_spec by reflexivity. destruct (mem J cs); reflexivity.
Qed.

(** ** One derivative *)
Definition adj_start (J : nat) (x : V) (s : cst V) : cst V :=
  on_heap (fun h => upd_all h cs (set_ctrl true)) (on_heap (fun h => upd_all h (find_relevant (t_flat (c_tape s)) cs) (set_mark true))
    (on_heap (fun h => upd (reset_adj (t_flat (c_tape s)) h) J (set_adj (Some x))) s)).

Lemma adj_start_core : forall J x (s : cst V), exists h, same_core (c_heap s) h /\
  adj_start J x s = on_heap (fun _ => upd_all h cs (set_ctrl true)) s.
Proof.
  intros J x s. exists (upd_all (upd (reset_adj (t_flat (c_tape s)) (c_heap s)) J (set_adj (Some x))) (find_relevant (t_flat (c_tape s)) cs) (set_mark true)).
  split; [|reflexivity]. eapply same_core_trans; [|apply same_core_upd_all; reflexivity]. eapply same_core_trans; [|apply same_core_upd; reflexivity].
  intros v. unfold reset_adj. rewrite reset_with_spec; [destruct (mem v _); reflexivity|reflexivity].
Qed.

Lemma derivative_start_full : forall J x s, ready s -> exists s1, Inv cut s1 /\ cm_mode (c_man s1) <> MRecord /\
  cm_evaluate_adj F 0 true (adj_start J x s) = cm_evaluate_adj F 0 true s1 /\ (Post s -> s1 = adj_start J x s) /\
  (Post s \/ Done sc n fwd (c_man s1)) /\ (forall v, erase_ckpt (c_heap s1 v) = erase_ckpt (c_heap (adj_start J x s) v)) /\
  (Post s \/ end_taping (adj_start J x s) = (s1, None)).
Proof.
  intros J x s R. destruct (adj_start_core J x s) as [h [Hh Ea]]. rewrite Ea.
  assert (K : forall v, bv_last (h v) = bv_last (c_heap s v) /\ bv_rec (h v) = bv_rec (c_heap s v) /\ bv_out (h v) = bv_out (c_heap s v) /\ bv_ckpt (h v) = bv_ckpt (c_heap s v) /\ bv_raw (h v) = bv_raw (c_heap s v) /\ bv_ctrl (h v) = bv_ctrl (c_heap s v)).
  { intros v. specialize (Hh v). unfold core, set_adj, set_tlm, set_hess, set_mark in Hh. injection Hh. intros. repeat split; assumption. }
  destruct R as [P|[I Hm]].
  - assert (Em : cm_mode (c_man s) = MRecord) by (destruct (pr_world _ P) as [w [m [-> [_ [R _]]]]]; apply (rp_mode _ _ _ _ _ R)).
    destruct (pre_finish s (upd_all h cs (set_ctrl true)) (c_tape s) cut P) as [s1 [E1 [E2 [E3 E4]]]]; try reflexivity.
    + intros v. rewrite upd_all_spec by reflexivity. destruct (mem v cs); cbn; [reflexivity|]. destruct (K v) as [_ [_ [_ [_ [_ ->]]]]]. apply (pr_ctrl _ P).
    + intros v. rewrite upd_all_spec by reflexivity. destruct (K v) as [K1 [K2 [K3 [K4 [K5 K6]]]]]. destruct (mem v cs); cbn; auto 10.
    + exists s1. split; [exact E2|]. rewrite (dn_mode _ _ _ _ E3). split; [discriminate|]. split; [|split; [intros [_ X]; contradiction|split; [now right|split; [exact E4|right; exact E1]]]].
      apply adjoint_record; [exact Em|exact E1|rewrite (dn_mode _ _ _ _ E3); discriminate].
  - eexists. split; [|split; [|split; [reflexivity|split; [reflexivity|split; [left; now split|split; [reflexivity|left; now split]]]]]]; [|exact Hm].
    eapply Inv_heap; [exact I|]. eapply HInv_ext; [|apply (HInv_flags _ _ cs true (HInv_core _ _ _ _ _ (Inv_hinv _ _ I) Hh))].
    intros v. cbn beta. destruct (mem v cs); reflexivity.
Qed.
Lemma derivative_start : forall J x s, ready s -> exists s1, Inv cut s1 /\ cm_mode (c_man s1) <> MRecord /\
  cm_evaluate_adj F 0 true (adj_start J x s) = cm_evaluate_adj F 0 true s1 /\ (Post s -> s1 = adj_start J x s) /\
  (Post s \/ Done sc n fwd (c_man s1)) /\ (forall v, erase_ckpt (c_heap s1 v) = erase_ckpt (c_heap (adj_start J x s) v)).
Proof. intros J x s R. destruct (derivative_start_full J x s R) as [s1 [A [B [C [D [E [G _]]]]]]]. exists s1. auto 10. Qed.

Lemma c_derivative_start : forall rf x s, rf_ctrls rf = cs -> cs <> [] ->
  c_derivative F rf x s =
  match cm_evaluate_adj F 0 true (adj_start (rf_J rf) (f_mul F x (rf_scale rf)) s) with
  | (s1, Some e) => (on_heap (fun h => upd_all h cs (set_ctrl false)) s1, Err e)
  | (s1, None) => let s2 := on_heap (fun h => upd_all h (find_relevant (t_flat (c_tape s)) cs) (set_mark false)) (on_heap (fun h => upd_all h cs (set_ctrl false)) s1) in
                  (s2, Ok (map (get_derivative F (c_heap s2)) cs))
  end.
Proof.
  intros rf x s E Hne. unfold c_derivative. rewrite E.
  assert (Hc : exists c l, cs = c :: l) by (revert Hne; clear; destruct cs as [|c l]; intros H; [now elim H|eauto]). destruct Hc as [c [l Hc]].
  unfold c_marked_nodes, c_marked_controls. cbv zeta. unfold adj_start. rewrite Hc. cbn [on_heap c_tape c_heap c_man].
  match goal with |- context[cm_evaluate_adj F 0 true ?a] => destruct (cm_evaluate_adj F 0 true a) as [s1 [e|]] end; reflexivity.
Qed.

Lemma evaluate_mode : forall s, cm_mode (c_man s) <> MRecord -> Inv cut s -> cm_mode (c_man (fst (cm_evaluate_adj F 0 true s))) <> MRecord.
Proof.
  intros s Hm [sk [E S]].
  assert (Po : forall s a, cm_mode (c_man s) <> MRecord -> cm_mode (c_man (fst (process_op F None true s a))) <> MRecord).
  { intros s4 a M. destruct (process_op_man F None true s4 a) as [_ [_ P3]]. destruct a; try congruence. destruct P3 as [P3 _]. congruence. }
  assert (It : forall l s, cm_mode (c_man s) <> MRecord -> cm_mode (c_man (fst (iter_o (process_op F None true) l s))) <> MRecord).
  { intros l s4 M. destruct (iter_o _ l s4) as [s5 e] eqn:Ei. refine (iter_o_inv _ (fun s => cm_mode (c_man s) <> MRecord) _ _ _ _ _ M Ei).
    intros s6 x s7 e7 _ M6 E7. specialize (Po s6 x M6). now rewrite E7 in Po. }
  assert (Lp : forall fuel s, cm_mode (c_man s) <> MRecord -> cm_mode (c_man (fst (reverse_loop F fuel true s))) <> MRecord).
  { induction fuel as [|f IH]; intros s4 M; cbn [reverse_loop].
    - destruct (cm_cur (c_man s4)); try exact M; destruct (next_act (c_man s4)); exact M.
    - assert (G : cm_mode (c_man (fst match next_act (c_man s4) with None => (s4, Some EStopIter) | Some a => andthen (process_op F None true (on_man (push_rev a) s4) a) (reverse_loop F f true) end)) <> MRecord).
      { destruct (next_act (c_man s4)) as [a|]; [|exact M]. specialize (Po (on_man (push_rev a) s4) a M).
        destruct (process_op F None true (on_man (push_rev a) s4) a) as [s5 [e|]]; cbn [andthen fst] in *; auto. }
      destruct (cm_cur (c_man s4)); exact G || exact M. }
  unfold cm_evaluate_adj. cbn [Nat.eqb negb].
  replace (match cm_mode (c_man s) with MRecord => end_taping s | _ => (s, None) end) with (s, @None exn) by (destruct (cm_mode (c_man s)); congruence).
  cbn [andthen].
  assert (G : cm_mode (c_man (fst (andthen match cm_rev (c_man s) with [] => reverse_loop F (left_acts (c_man s)) true s | acts => iter_o (process_op F None true) acts s end
                (fun s2 => (on_man (set_mode MEvalAdj) s2, None))))) <> MRecord).
  { assert (K : cm_mode (c_man (fst match cm_rev (c_man s) with [] => reverse_loop F (left_acts (c_man s)) true s | acts => iter_o (process_op F None true) acts s end)) <> MRecord)
      by (destruct (cm_rev (c_man s)); auto).
    destruct (match cm_rev (c_man s) with [] => _ | _ => _ end) as [s1 [e|]]; cbn [andthen fst] in *; [exact K|cbn; discriminate]. }
  destruct (cm_mode (c_man s)) eqn:Em; exact G || (cbn; congruence).
Qed.

Lemma derivative_leaves : forall rf x s, ready s -> rf_ctrls rf = cs -> cs <> [] -> Post (fst (c_derivative F rf x s)).
Proof.
  intros rf x s R E Hne. rewrite (c_derivative_start rf x s E Hne).
  destruct (derivative_start (rf_J rf) (f_mul F x (rf_scale rf)) s R) as [s1 [I1 [M1 [G1 _]]]]. rewrite G1.
  pose proof (adjoint_keep s1 I1 M1) as K. pose proof (evaluate_mode s1 M1 I1) as M. destruct (cm_evaluate_adj F 0 true s1) as [s2 [e|]]; cbn [fst] in *.
  - split; [now apply Inv_left|exact M].
  - split; [|exact M]. pose proof (Inv_left _ K) as L.
    refine (Inv_heap _ _ _ (upd_all (upd_all (c_heap s2) cs (set_ctrl false)) (find_relevant (t_flat (c_tape s)) cs) (set_mark false)) L _).
    apply (HInv_core _ _ _ _ _ (Inv_hinv _ _ L)). apply same_core_upd_all. reflexivity.
Qed.
Lemma derivative_keeps : forall rf x s, ready s -> rf_ctrls rf = cs -> ready (fst (c_derivative F rf x s)).
Proof.
  intros rf x s R E. destruct (rf_ctrls rf) as [|c l] eqn:Ecs.
  - unfold c_derivative. rewrite Ecs. exact R.
  - right. apply derivative_leaves; [exact R|congruence|]. rewrite <- E. discriminate.
Qed.
End Call.

(** ** Sessions *)
Section Sessions.
Context {V : Type} (F : fops V).
Implicit Types (h : heap V) (m : cman) (w : world V).

Definition plain_kind (b : block V) : Prop := raw_result (b_kind b) = false.
Lemma plain_map_last : forall (v : nat) (l : list (block V)), Forall plain_kind l -> Forall plain_kind (map_last (push_out v) l).
Proof.
  intros v l H. induction H as [|b r Hb Hr IH]; [constructor|]. cbn. destruct r; [constructor; [|constructor]|constructor; auto]. exact Hb.
Qed.
Lemma plain_stmt : forall w c, Forall plain_kind (flat w) -> pure_stmt c = true -> Forall plain_kind (flat (fst (exec_stmt F w c))).
Proof.
  intros w c H Hc.
  assert (Hadd : forall t b, Forall plain_kind (t_flat t) -> plain_kind b -> Forall plain_kind (t_flat (add_block t b))).
  { intros t b Ht Hb. rewrite flat_add_block. apply Forall_app. auto. }
  destruct c; cbn [exec_stmt]; cbn [fst].
  - exact H.
  - unfold exec_op. destruct (negb _) eqn:En; [exact H|]. apply negb_false_iff, andb_true_iff in En as [Hk _].
    destruct (arg_vals w args) as [xs|]; [|exact H]. destruct (op_value F k xs); [|exact H].
    cbn [new_obj]. set (w1 := with_objs _ w). destruct (w_ann w); [|exact H].
    pose proof (flat_get_bvs args w1) as A. destruct (get_bvs w1 args) as [w2 ts].
    pose proof (flat_add_deps args w2) as B. destruct (add_deps w2 args) as [w3 ds]. cbn [fst] in *.
    set (w4 := with_tape _ w3). pose proof (flat_get_bv w4 (length (w_objs w))) as C.
    destruct (get_bv w4 _) as [w5 v]. cbn [fst] in *. pose proof (flat_will_out w5 v) as D.
    unfold flat in *. cbn [fst].
    change (Forall plain_kind (map_last (push_out v) (t_flat (w_tape (will_out w5 v))))).
    apply plain_map_last. rewrite D, C. apply Hadd; [rewrite B, A; exact H|]. unfold plain_kind. cbn. destruct k; try reflexivity; discriminate.
  - unfold exec_fun. destruct (negb _) eqn:En; [exact H|]. apply negb_false_iff, andb_true_iff in En as [Hk _].
    destruct (arg_vals w args) as [xs|]; [|exact H].
    match goal with |- context[new_obj ?x _] => set (w1 := x) end.
    assert (H1 : Forall plain_kind (flat w1)).
    { unfold w1. destruct (w_ann w && annotate); [|exact H].
      pose proof (flat_add_deps args w) as B. destruct (add_deps w args) as [w3 ds]. cbn [fst] in B.
      unfold flat in *. cbn. apply Hadd; [rewrite B; exact H|].
      unfold plain_kind. cbn. destruct k; try reflexivity; discriminate. }
    destruct (op_value F k xs); [|exact H1]. cbn [new_obj]. set (w2 := with_objs _ w1).
    destruct (w_ann w && annotate); [|exact H1].
    pose proof (flat_get_bv w2 (length (w_objs w1))) as C. destruct (get_bv w2 _) as [w5 v]. cbn [fst] in *.
    pose proof (flat_will_out w5 v) as D. unfold flat in *. cbn [fst].
    change (Forall plain_kind (map_last (push_out v) (t_flat (w_tape (will_out w5 v))))).
    apply plain_map_last. rewrite D, C. exact H1.
  - unfold exec_user. destruct (arg_vals w args) as [xs|]; [|exact H].
    set (r := if w_ann w && annotate then add_deps w args else (w, [])).
    assert (B : flat (fst r) = flat w) by (unfold r; destruct (w_ann w && annotate); [apply flat_add_deps|reflexivity]).
    destruct r as [w1 deps]. cbn [fst] in *. destruct (func xs) as [ys|]; cbn [fst]; [|rewrite B; exact H].
    pose proof (flat_new_objs ys w1) as C. destruct (new_objs w1 ys) as [w2 os]. cbn [fst] in *.
    destruct (w_ann w && annotate); [|cbn [fst]; rewrite C, B; exact H].
    pose proof (flat_add_outs os w2) as D. destruct (add_outs w2 os) as [w3 vs]. cbn [fst] in *.
    unfold flat in *. cbn. apply Hadd; [rewrite D, C, B; exact H|]. reflexivity.
  - discriminate.
  - discriminate.
  - exact H.
  - exact H.
  - exact H.
  - discriminate.
  - destruct (nth_error (w_objs w) o); [|exact H]. pose proof (flat_get_bv w o) as A. destruct (get_bv w o) as [w1 v]. cbn [fst] in *.
    unfold flat in *. cbn. rewrite A. exact H.
  - destruct (nth_error (w_objs w) o); [|exact H]. cbn [fst]. rewrite flat_get_bv. exact H.
Qed.
Lemma plain_program : forall p w, Forall plain_kind (flat w) -> pure_program p -> Forall plain_kind (flat (exec F w p)).
Proof.
  induction p as [|c r IH]; intros w H Hp; [exact H|]. unfold pure_program in Hp. cbn in Hp. apply andb_true_iff in Hp as [H1 H2].
  change (exec F w (c :: r)) with (exec F (fst (exec_stmt F w c)) r). apply IH; [|exact H2]. now apply plain_stmt.
Qed.
Lemma pure_disciplined : forall (p : list (stmt V)) ann, pure_program p -> disciplined ann p = true.
Proof.
  induction p as [|c r IH]; intros ann Hp; [reflexivity|]. unfold pure_program in Hp. cbn in Hp. apply andb_true_iff in Hp as [H1 H2].
  destruct c; cbn; try apply (IH _ H2); discriminate.
Qed.

Variable sc : schedule.
Variable n : nat.
Variable fwd : list action.
Hypothesis Hcov : covering sc n fwd.
Hypothesis Hn : 1 <= n.
Variable pkg ann : bool.
Variable p : list (stmt V).
Hypothesis Hp : pure_program p.
Hypothesis Hcons : consistent p.
Hypothesis Hends : sc_max sc = None -> S (ends p) = n.
Variable s0 : cst V.
Hypothesis Hs0 : ckpt_session F pkg sc ann p s0.
Variable cs : list nat.
Local Notation w := (exec F (world_new F ann) p).
Local Notation cut := (fun v => mem v cs).
Let r (v : nat) : V := bv_rec (w_heap w v).

Lemma world_inv : WInv F [] w.
Proof. destruct (exec_sim F p no_override ann Hcons (pure_disciplined p ann Hp)) as [W _]. exact W. Qed.
Lemma flat_raw : forall b, In b (flat w) -> raw_result (b_kind b) = false.
Proof. apply Forall_forall. apply (plain_program p (world_new F ann)); [constructor|exact Hp]. Qed.
Lemma flat_vals : forall b, In b (flat w) -> gives_value F b.
Proof. apply Forall_forall. apply values_program. exact Hcons. Qed.

Lemma session_ready : forall Fz, ready sc n fwd (flat w) r Fz s0.
Proof.
  intros Fz. destruct (session_spec F pkg sc n fwd ann p s0 Hcov Hn Hp Hends Hs0) as [w' [m [-> [C [T R]]]]].
  assert (R1 : forall v, bv_rec (w_heap w' v) = r v) by (intros v; unfold r; symmetry; apply skel_rec; apply (tw_heap _ _ T)).
  assert (R2 : forall v, bv_ctrl (w_heap w' v) = false).
  { intros v. rewrite <- (proj1 (skel_flags _ _ (tw_heap _ _ T v))). apply (wi_ctrl F [] _ world_inv). }
  destruct R as [[R Hm]|[D L]].
  - left. constructor; cbn; auto. exists w', m. split; [reflexivity|]. split; [exact C|]. split; [exact R|]. split.
    + intros K. specialize (Hm K). lia.
    + symmetry. apply (tw_flat _ _ T).
  - right. split; [|cbn; rewrite (dn_mode _ _ _ _ D); discriminate]. apply done_inv; auto.
    + now apply TInv_of.
    + symmetry. apply (tw_flat _ _ T).
Qed.

Section Frozen.
Variable Fz : nat -> Prop.
Hypothesis Hfz : forall b, In b (flat w) -> frozen F r Fz cut b.

Definition allowed (o : cop V) : Prop :=
  on_controls cs o /\ match o with OCall _ vals => compat r Fz cs vals | _ => True end.

Lemma hist_ready : forall ops s, ready sc n fwd (flat w) r Fz s -> Forall allowed ops -> ready sc n fwd (flat w) r Fz (cop_hist F s ops).
Proof.
  induction ops as [|o ops IH]; intros s R H; [exact R|]. inversion H as [|? ? [H1 H2] H3]; subst. cbn [cop_hist]. apply IH; auto.
  destruct o as [|rf vals|rf x]; cbn in H1; [contradiction| |]; cbn [cop_run fst].
  - exact (call_keeps F sc n fwd (flat w) r Fz cs Hcov Hn flat_raw Hfz rf vals s R H1 H2).
  - exact (derivative_keeps F sc n fwd (flat w) r Fz cs Hcov Hn flat_raw Hfz rf x s R H1).
Qed.
Lemma hist_post : forall ops s, ready sc n fwd (flat w) r Fz s -> Forall allowed ops -> Post sc n fwd (flat w) r Fz s \/ Exists (attempted cs) ops ->
  Post sc n fwd (flat w) r Fz (cop_hist F s ops).
Proof.
  induction ops as [|o ops IH]; intros s R H Hx.
  - destruct Hx as [Hx|Hx]; [exact Hx|inversion Hx].
  - inversion H as [|? ? H1 H3]; subst. cbn [cop_hist].
    assert (R1 : ready sc n fwd (flat w) r Fz (cop_hist F s [o])) by (apply hist_ready; [exact R|constructor; [exact H1|constructor]]).
    cbn [cop_hist] in R1. apply IH; auto.
    assert (K : Post sc n fwd (flat w) r Fz s \/ attempted cs o -> Post sc n fwd (flat w) r Fz (fst (cop_run F s o))).
    { intros [K|K].
      - destruct R1 as [R1|R1]; [|exact R1]. exfalso. destruct H1 as [H1 H2]. destruct o as [|rf vals|rf x]; cbn in H1; [contradiction| |]; cbn [cop_run fst] in *.
        + destruct (Nat.eq_dec (length vals) (length cs)) as [Hl|Hl].
          * pose proof (call_leaves F sc n fwd (flat w) r Fz cs Hcov Hn flat_raw Hfz rf vals s R H1 H2 Hl) as [_ M].
            apply M. destruct (pr_world _ _ _ _ _ _ R1) as [w1 [m1 [-> [_ [Q _]]]]]. apply (rp_mode _ _ _ _ _ Q).
          * destruct K as [_ M]. apply M. unfold c_call in R1. rewrite H1 in R1. destruct (Nat.eqb_spec (length vals) (length cs)); [contradiction|]. cbn in R1.
            destruct (pr_world _ _ _ _ _ _ R1) as [w1 [m1 [-> [_ [Q _]]]]]. apply (rp_mode _ _ _ _ _ Q).
        + destruct cs as [|c l] eqn:Ec.
          * destruct K as [_ M]. apply M. unfold c_derivative in R1. rewrite H1 in R1. cbn in R1.
            destruct (pr_world _ _ _ _ _ _ R1) as [w1 [m1 [-> [_ [Q _]]]]]. apply (rp_mode _ _ _ _ _ Q).
          * pose proof (derivative_leaves F sc n fwd (flat w) r Fz (c :: l) Hcov Hn flat_raw Hfz rf x s R H1) as [_ M]; [discriminate|].
            apply M. destruct (pr_world _ _ _ _ _ _ R1) as [w1 [m1 [-> [_ [Q _]]]]]. apply (rp_mode _ _ _ _ _ Q).
      - destruct H1 as [H1 H2]. destruct o as [|rf vals|rf x]; cbn in H1, K; [contradiction| |]; cbn [cop_run fst].
        + exact (call_leaves F sc n fwd (flat w) r Fz cs Hcov Hn flat_raw Hfz rf vals s R H1 H2 K).
        + exact (derivative_leaves F sc n fwd (flat w) r Fz cs Hcov Hn flat_raw Hfz rf x s R H1 K). }
    destruct Hx as [Hx|Hx]; [left; auto|]. inversion Hx; subst; auto.
Qed.
End Frozen.

(** The frozen variables: those that no evaluation computes and that are not controls. *)
Definition fixed (v : nat) : Prop := ~ In v (computed cut (flat w)) /\ ~ In v cs.
Lemma fixed_frozen : forall b, In b (flat w) -> frozen F r fixed cut b.
Proof.
  intros b Hb. destruct (existsb cut (b_outs b)) eqn:E; [now left|right; left]. intros o Ho [K _]. apply K. unfold computed. apply in_flat_map. exists b. split; [exact Hb|].
  now rewrite E.
Qed.
Lemma fixed_cut : forall b o, In b (flat w) -> existsb cut (b_outs b) = true -> In o (b_outs b) -> mem o cs = true \/ fixed o.
Proof.
  intros b o Hb He Ho. destruct (mem o cs) eqn:E; [now left|right]. split; [|now apply mem_false].
  intros K. unfold computed in K. apply in_flat_map in K as [b' [Hb' K]]. destruct (existsb cut (b_outs b')) eqn:E'; [destruct K|].
  rewrite (producer_unique' (flat w) b b' o (proj2 (wi_wf F [] _ world_inv)) Hb Hb' Ho K) in He. congruence.
Qed.
Lemma fixed_leaf : forall v, ~ In v (outs_of (flat w)) -> mem v cs = true \/ fixed v.
Proof.
  intros v Hv. destruct (mem v cs) eqn:E; [now left|right]. split; [|now apply mem_false]. intros K. apply Hv. now apply computed_outs in K.
Qed.
Lemma supplied_in : forall (l : list nat) (vals : list V) v x, supplied l vals v = Some x -> In v l.
Proof.
  induction l as [|c l IH]; intros [|y vals] v x H; try discriminate. cbn in H. destruct (supplied l vals v) eqn:E; [right; eapply IH; eauto|].
  destruct (Nat.eqb_spec v c); [left; auto|discriminate].
Qed.
Lemma fixed_compat : forall vals, compat r fixed cs vals.
Proof. intros vals v x H. left. intros [_ K]. apply K. eapply supplied_in; eauto. Qed.
Lemma fixed_allowed : forall ops, Forall (on_controls cs) ops -> Forall (allowed fixed) ops.
Proof. intros ops H. eapply Forall_impl; [|exact H]. intros o Ho. split; [exact Ho|]. destruct o; auto. apply fixed_compat. Qed.

Lemma start_agree : forall j ob J vals, nth_error (w_objs w) j = Some ob -> o_bv ob = Some J ->
  let g := geval F cut (flat w) (value_env r cs vals) in
  let g' := geval F cut (flat w) (start_env (w_heap w) cs vals) in
  snd g = snd g' /\ (snd g' = None -> fst g J = fst g' J).
Proof.
  intros j ob J vals Ho Hb g g'.
  destruct (geval_agree F cut cut (flat w) (value_env r cs vals) (start_env (w_heap w) cs vals) (fun u => In u (deps_of (flat w)) \/ u = J)) as [A1 A2].
  - intros d Hd. now left.
  - reflexivity.
  - intros u Hu. unfold value_env, start_env. destruct (supplied cs vals u); [reflexivity|]. unfold r. symmetry. apply (saved_rec F); [exact world_inv|].
    destruct Hu as [Hu| ->]; [now left|right; exists j, ob; auto].
  - split; [exact A1|]. intros E. apply A2. auto.
Qed.

(** After any attempt the evaluations agree with those of an ordinary tape. *)
Lemma ckpt_call : forall ops j ob J scale vals, Forall (on_controls cs) ops -> Exists (attempted cs) ops ->
  nth_error (w_objs w) j = Some ob -> o_bv ob = Some J -> truthy F (o_val ob) = true ->
  snd (c_call F (RF J cs scale) vals (cop_hist F s0 ops)) = snd (rf_call F (flat w) (RF J cs scale) vals (w_heap w)).
Proof.
  intros ops j ob J scale vals Hops Hex Ho Hb Ht.
  pose proof (hist_post fixed fixed_frozen ops s0 (session_ready fixed) (fixed_allowed ops Hops) (or_intror Hex)) as P.
  destruct (Nat.eq_dec (length vals) (length cs)) as [Hl|Hl].
  - assert (HtJ : truthy F (r J) = true).
    { destruct (wi_cur F [] _ world_inv j ob J Ho Hb) as [_ [G _]]. unfold ghost in G. injection G as _ _ G. unfold r. now rewrite G. }
    pose proof (call_value F sc n fwd (flat w) r fixed cs Hcov Hn flat_raw flat_vals (wi_wf F [] _ world_inv) fixed_frozen fixed_cut fixed_leaf
      J scale vals _ (or_intror P) (fixed_compat vals) Hl HtJ (or_introl P)) as X. cbv zeta in X. rewrite X.
    destruct (rf_call_spec F (flat w) (RF J cs scale) vals (w_heap w) (wi_ctrl F [] _ world_inv) Hl) as [Y _]. cbn [rf_ctrls rf_J rf_scale] in Y. rewrite Y.
    destruct (start_agree j ob J vals Ho Hb) as [A1 A2]. rewrite A1.
    destruct (snd (geval F cut (flat w) (start_env (w_heap w) cs vals))); [reflexivity|]. now rewrite A2.
  - unfold c_call, rf_call. cbn [rf_ctrls]. destruct (Nat.eqb_spec (length vals) (length cs)); [contradiction|reflexivity].
Qed.

(** At the recorded values of the controls every evaluation gives the recorded functional, also the first. *)
Lemma all_frozen : forall b, In b (flat w) -> frozen F r (fun _ => True) cut b.
Proof. intros b Hb. right. right. split; [auto|]. pose proof (wi_rec F [] _ world_inv) as K. rewrite Forall_forall in K. exact (K b Hb). Qed.
Lemma all_compat : compat r (fun _ => True) cs (map r cs).
Proof.
  intros v x H. right. pose proof (supplied_in _ _ _ _ H) as Hv. rewrite (supplied_map_all cs r v Hv) in H. congruence.
Qed.
Lemma ckpt_call_recorded : forall ops j ob J scale, Forall (on_controls cs) ops -> Forall (at_values (map r cs)) ops ->
  nth_error (w_objs w) j = Some ob -> o_bv ob = Some J -> truthy F (o_val ob) = true ->
  snd (c_call F (RF J cs scale) (map r cs) (cop_hist F s0 ops)) = Ok (f_mul F (o_val ob) scale).
Proof.
  intros ops j ob J scale Hops Hat Ho Hb Ht.
  assert (A : Forall (allowed (fun _ => True)) ops).
  { rewrite Forall_forall in *. intros o Hin. split; [auto|]. specialize (Hat o Hin). destruct o as [|rf vals|rf x]; auto. cbn in Hat. subst vals. apply all_compat. }
  pose proof (hist_ready (fun _ => True) all_frozen ops s0 (session_ready _) A) as P.
  assert (HtJ : truthy F (r J) = true).
  { destruct (wi_cur F [] _ world_inv j ob J Ho Hb) as [_ [G _]]. unfold ghost in G. injection G as _ _ G. unfold r. now rewrite G. }
  pose proof (call_value F sc n fwd (flat w) r (fun _ => True) cs Hcov Hn flat_raw flat_vals (wi_wf F [] _ world_inv) all_frozen
    (fun _ _ _ _ _ => or_intror I) (fun _ _ => or_intror I) J scale (map r cs) _ P all_compat (map_length _ _) HtJ (or_intror (fun _ _ => I))) as X.
  cbv zeta in X. rewrite X.
  rewrite <- (call_recorded F w j J ob scale cs (w_heap w) world_inv (values_program F p ann Hcons) Ho Hb (wi_ctrl F [] _ world_inv)).
  - destruct (rf_call_spec F (flat w) (RF J cs scale) (map r cs) (w_heap w) (wi_ctrl F [] _ world_inv) (map_length _ _)) as [Y _]. cbn [rf_ctrls rf_J rf_scale] in Y.
    fold r. rewrite Y. destruct (start_agree j ob J (map r cs) Ho Hb) as [A1 A2]. rewrite A1.
    destruct (snd (geval F cut (flat w) (start_env (w_heap w) cs (map r cs)))); [reflexivity|]. now rewrite A2.
  - intros u Hu _ _. apply (saved_rec F); [exact world_inv|]. destruct Hu as [Hu| ->]; [now left|right; exists j, ob; auto].
Qed.

(** Against the program run again. *)
Lemma ckpt_call_rerun : forall ops j ob J scale vals, cs = w_ctrls w -> length vals = length cs -> Forall (on_controls cs) ops -> Exists (attempted cs) ops ->
  nth_error (w_objs w) j = Some ob -> o_bv ob = Some J -> truthy F (o_val ob) = true ->
  snd (c_call F (RF J cs scale) vals (cop_hist F s0 ops)) = rmap (fun x => f_mul F x scale) (spec_rerun F ann p vals j).
Proof.
  intros ops j ob J scale vals Ec Hl Hops Hex Ho Hb Ht. rewrite (ckpt_call ops j ob J scale vals Hops Hex Ho Hb Ht).
  assert (R : recorded F ann p j = (w, J)) by (unfold recorded, get_bv; rewrite Ho, Hb; reflexivity).
  assert (Hj : j < length (w_objs w)) by (apply nth_error_Some; congruence).
  pose proof (rf_call_rerun F ann p j vals scale [] Hcons (pure_disciplined p ann Hp) Hj) as X. cbv zeta in X. rewrite R in X. cbn [fst snd run_hist] in X.
  rewrite Ec. apply X; [congruence|intros ? ? []|now left].
Qed.
End Sessions.
