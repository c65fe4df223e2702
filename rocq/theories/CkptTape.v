(** Recording with a checkpoint manager whose schedule covers the steps. *)
From Coq Require Import List Arith ZArith Lia Bool.
From Verif Require Import Base Model BaseFacts Graph Record Spec RecordFacts Replay ReplayExec History Session Ckpt SpecCkpt CkptProtocol CkptRecord CkptStep CkptInv.
Import ListNotations.

Section Tape.
Context {V : Type} (F : fops V).
Implicit Types (w : world V) (m : cman).

(** The world around a manager state. *)
Definition cww w (s : cst V) : world V := World (w_objs w) (c_heap s) (w_next w) (c_tape s) (w_ann w) (w_ctrls w).
Lemma cww_id : forall w m, cww w (cw_cst w m) = w.
Proof. intros [? ? ? ? ? ?] m. reflexivity. Qed.

(** Same variables apart from the stored values, same blocks. *)
Record same_tape w w' : Prop := {
  st_objs : w_objs w' = w_objs w; st_next : w_next w' = w_next w; st_ann : w_ann w' = w_ann w; st_ctrls : w_ctrls w' = w_ctrls w;
  st_heap : forall v, erase_ckpt (w_heap w' v) = erase_ckpt (w_heap w v);
  st_flat : t_flat (w_tape w') = t_flat (w_tape w)
}.
Lemma same_tape_refl : forall w, same_tape w w.
Proof. intros w. constructor; auto. Qed.
Lemma same_tape_trans : forall a b c, same_tape a b -> same_tape b c -> same_tape a c.
Proof. intros a b c [a1 a2 a3 a4 a5 a6] [b1 b2 b3 b4 b5 b6]. constructor; congruence. Qed.

Lemma erase_fields : forall b b' : bvar V, erase_ckpt b' = erase_ckpt b ->
  bv_rec b' = bv_rec b /\ bv_out b' = bv_out b /\ bv_last b' = bv_last b /\ bv_ctrl b' = bv_ctrl b /\ bv_mark b' = bv_mark b /\ bv_adj b' = bv_adj b.
Proof. intros b b' H. unfold erase_ckpt, set_ckpt in H. injection H. intros. repeat split; assumption. Qed.

(** [CInv] with some variables exempt from holding the recorded value (controls with new values). *)
Variable Z : nat -> Prop.
Definition cleanz (v : nat) (b : bvar V) : Prop :=
  bv_out b = bv_rec b /\ bv_raw b = false /\ (Z v \/ bv_ckpt b = None \/ bv_ckpt b = Some (bv_rec b)).
Definition entryz (h : heap V) (e : nat * option (V * bool)) : Prop :=
  snd e = None \/ exists x, snd e = Some (x, false) /\ (Z (fst e) \/ x = bv_rec (h (fst e))).
Record TInv w : Prop := {
  ti_ls : LS (t_steps (w_tape w)) (fun v => bv_last (w_heap w v)) [] (t_flat (w_tape w));
  ti_next : forall v, w_next w <= v -> bv_last (w_heap w v) = (-1)%Z;
  ti_objs : forall o ob v, nth_error (w_objs w) o = Some ob -> o_bv ob = Some v -> v < w_next w;
  ti_clean : forall v, cleanz v (w_heap w v);
  ti_dict : forall s e, In s (t_steps (w_tape w)) -> In e (ts_ckpt s) -> fst e < w_next w /\ entryz (w_heap w) e
}.

Lemma TInv_of : forall w, CInv [] w -> TInv w.
Proof.
  intros w [c1 c2 c3 c4 c5]. constructor; auto.
  - intros v. destruct (c4 v) as [A [B C]]. repeat split; auto.
  - intros s e Hs He. destruct (c5 s e Hs He) as [A [B|B]]; (split; [exact A|]); [now left|right]. eauto.
Qed.

Lemma CI_same : forall w w', TInv w -> same_tape w w' -> map ts_core (t_steps (w_tape w')) = map ts_core (t_steps (w_tape w)) ->
  (forall v, cleanz v (w_heap w' v)) ->
  (forall s e, In s (t_steps (w_tape w')) -> In e (ts_ckpt s) -> fst e < w_next w /\ entryz (w_heap w) e) -> TInv w'.
Proof.
  intros w w' [c1 c2 c3 c4 c5] [s1 s2 s3 s4 s5 s6] Hm Hc He.
  assert (L : forall v, bv_last (w_heap w' v) = bv_last (w_heap w v)) by (intros v; now apply erase_fields).
  constructor; auto.
  - rewrite s6. apply (ls_ext _ (fun v => bv_last (w_heap w v))); [exact L|]. eapply ls_core; eauto.
  - intros v Hv. rewrite L. apply c2. congruence.
  - rewrite s1, s2. exact c3.
  - intros s e Hs Hi. rewrite s2. destruct (He s e Hs Hi) as [A [B|[x [B C]]]]; (split; [exact A|]); [now left|right]. exists x. split; [exact B|].
    destruct C as [C|C]; [now left|right]. rewrite C. symmetry. now apply erase_fields.
Qed.

Lemma clean_drop : forall v (b : bvar V), cleanz v b -> cleanz v (set_ckpt None false b).
Proof. intros v b [A [B C]]. repeat split; auto. Qed.
Lemma clean_saved : forall (h : heap V) v, cleanz v (h v) -> Z v \/ saved h v = bv_rec (h v).
Proof. intros h v [A [B [C|[C|C]]]]; [now left|right|right]; unfold saved; rewrite C; congruence. Qed.
Lemma known_next : forall w k s v, TInv w -> nth_error (t_steps (w_tape w)) k = Some s -> In v (ts_state s) \/ In v (ts_adjdeps s) -> v < w_next w.
Proof.
  intros w k s v C E H. destruct (Nat.lt_ge_cases v (w_next w)) as [G|G]; [exact G|].
  pose proof (ti_next _ C v G) as A. pose proof (ls_max _ _ _ _ (ti_ls _ C) k s v E H). cbn in *. lia.
Qed.

Lemma map_core_set : forall (l : list (tstep V)) i x y, nth_error l i = Some x -> ts_core y = ts_core x -> map ts_core (list_set l i y) = map ts_core l.
Proof.
  intros l. induction l as [|a l IH]; intros i x y E H; destruct i; cbn in *; try discriminate; [inversion E; subst; now rewrite H|].
  f_equal. eapply IH; eauto.
Qed.

Lemma taping_store_ok : forall w m n0 ics adj t, TInv w -> 1 <= t -> t <= steps_of w ->
  exists s' g, taping_store n0 ics adj t (cw_cst w m) = (s', None) /\ c_man s' = set_glob g m /\
    TInv (cww w s') /\ same_tape w (cww w s') /\ steps_of (cww w s') = steps_of w.
Proof.
  intros w m n0 ics adj t C H1 H2. unfold taping_store. cbn [cw_cst c_tape c_heap c_man].
  destruct (nth_error (t_steps (w_tape w)) (t - 1)) as [cur|] eqn:E.
  2:{ apply nth_error_None in E. unfold steps_of in H2. lia. }
  set (gone := if Nat.eqb t 1 then [] else minus (cm_glob m) (ts_state cur)).
  set (g1 := if Nat.eqb t 1 then fold_left (fun l v => oadd v l) (ts_state cur) (cm_glob m) else minus (cm_glob m) gone).
  cbn [on_heap on_man c_heap c_tape c_man].
  set (h1 := fold_left drop gone (w_heap w)).
  assert (Hh1 : forall v, cleanz v (h1 v) /\ erase_ckpt (h1 v) = erase_ckpt (w_heap w v)).
  { intros v. unfold h1. rewrite drop_all. pose proof (ti_clean _ C v) as Cv. destruct (mem v gone); auto using clean_drop. }
  rewrite checkpoint_spec by (intros v; apply Hh1).
  set (cur1 := after_store h1 g1 (ics && Nat.eqb t (S n0)) adj cur).
  eexists. exists g1. split; [reflexivity|]. split; [reflexivity|].
  match goal with |- context[cww w ?x] => set (s' := x) end.
  assert (Hh : forall v, cleanz v (c_heap s' v) /\ erase_ckpt (c_heap s' v) = erase_ckpt (w_heap w v)).
  { intros v. cbn. rewrite !drop_all. destruct (Hh1 v) as [A B].
    repeat match goal with |- context[if ?c then _ else _] => destruct c end;
    (split; [repeat apply clean_drop; apply (ti_clean _ C)|reflexivity]). }
  assert (St : t_steps (c_tape s') = list_set (t_steps (w_tape w)) (t - 1) cur1) by reflexivity.
  assert (Sm : same_tape w (cww w s')) by (constructor; try reflexivity; apply Hh).
  split; [|split; [exact Sm|unfold steps_of; cbn [cww w_tape]; rewrite St; apply length_list_set]].
  apply (CI_same w); auto.
  - cbn [cww w_tape]. rewrite St. eapply map_core_set; eauto.
  - intros v. apply Hh.
  - intros s e Hs He. cbn [cww w_tape] in Hs. rewrite St in Hs. apply In_nth_error in Hs as [i Hi]. rewrite nth_list_set in Hi.
    destruct (Nat.eqb_spec (t - 1) i) as [Eq|N]; [|apply (ti_dict _ C s); [eapply nth_error_In; eauto|exact He]].
    rewrite E in Hi. inversion Hi; subst s.
    assert (Old : forall e, In e (ts_ckpt cur) -> fst e < w_next w /\ entryz (w_heap w) e) by (intros e0; apply (ti_dict _ C); eapply nth_error_In; eauto).
    assert (Ks : forall v x, x = keep_saved h1 v -> entryz (w_heap w) (v, x)).
    { intros v x ->. unfold keep_saved. destruct (Hh1 v) as [A B]. right. exists (saved h1 v). split; [reflexivity|]. cbn [fst].
      destruct (clean_saved h1 v A) as [D|D]; [now left|right]. rewrite D. now apply erase_fields. }
    assert (Kg : forall v x, x = keep_state h1 g1 v -> entryz (w_heap w) (v, x)).
    { intros v x ->. unfold keep_state. destruct (mem v g1); [|now apply Ks]. destruct (Hh1 v) as [[_ [_ A]] B]. destruct (bv_ckpt (h1 v)) as [y|]; [right|now left].
      exists y. split; [reflexivity|]. cbn [fst]. destruct A as [A|[A|A]]; [now left|discriminate|right]. inversion A. now apply erase_fields. }
    assert (D1 : forall e, In e (put_all (keep_state h1 g1) (ts_state cur) (ts_ckpt cur)) -> fst e < w_next w /\ entryz (w_heap w) e).
    { intros e0 He0. apply put_all_In in He0 as [[A B]|A]; [|now apply Old]. split; [eapply known_next; eauto|]. destruct e0 as [v0 x0]. now apply Kg. }
    assert (D2 : forall d, (forall e, In e d -> fst e < w_next w /\ entryz (w_heap w) e) -> forall e, In e (put_all (keep_saved h1) (adj_set cur) d) -> fst e < w_next w /\ entryz (w_heap w) e).
    { intros d Hd e0 He0. apply put_all_In in He0 as [[A B]|A]; [|now apply Hd]. apply adj_set_In in A.
      split; [eapply known_next; eauto; tauto|]. destruct e0 as [v0 x0]. now apply Ks. }
    cbn [cur1 after_store ts_ckpt] in He. destruct adj, (ics && Nat.eqb t (S n0)); [apply (D2 _ D1); exact He|apply (D2 _ Old); exact He|now apply D1|now apply Old].
Qed.

Lemma CI_append : forall w, TInv w -> TInv (with_tape (@append_step V) w).
Proof.
  intros w [c1 c2 c3 c4 c5]. constructor; auto.
  - apply ls_append. exact c1.
  - intros s e Hs He. cbn in Hs. apply in_app_iff in Hs as [Hs|[<-|[]]]; [now apply (c5 s)|destruct He].
Qed.

(** ** Positions in the schedule *)
Definition stop (n : nat) (n1 : option nat) : nat := match n1 with Some b => Nat.min b n | None => n end.

Record RecPos (sc : schedule) (n : nat) (fwd : list action) (L : nat) m : Prop := {
  rp_mode : cm_mode m = MRecord;
  rp_sched : cm_sched m = sc;
  rp_rev : cm_rev m = [];
  rp_keep : cm_keep m = false;
  rp_max : cm_max m = Some n /\ cm_total m = Some n \/ cm_max m = None /\ cm_total m = None /\ sc_max sc = None;
  rp_split : exists pre n0 n1 ics adj st rest,
    fwd = pre ++ AForward n0 n1 ics adj st :: rest /\ cm_fwd m = pre ++ [AForward n0 n1 ics adj st] /\
    cm_cur m = AForward n0 n1 ics adj st /\ cm_pos m = S (length pre) /\
    n0 < L <= stop n n1 /\ covers n (stop n n1) rest
}.
Record Done (sc : schedule) (n : nat) (fwd : list action) m : Prop := {
  dn_mode : cm_mode m = MEvaluated;
  dn_sched : cm_sched m = sc;
  dn_rev : cm_rev m = [];
  dn_keep : cm_keep m = false;
  dn_max : cm_max m = Some n;
  dn_total : cm_total m = Some n;
  dn_fwd : cm_fwd m = fwd;
  dn_cur : cm_cur m = AEndForward;
  dn_pos : cm_pos m = length fwd
}.

Lemma covers_le : forall n k l, covers n k l -> k <= n.
Proof. intros n k l H. destruct H; lia. Qed.

(** What one action does when it is the current one at the end of step [t] - 1. *)
Lemma process_forward : forall w m n0 n1 ics adj st t, TInv w -> n0 <= t -> t <= steps_of w ->
  exists s' g, process_taping (AForward n0 n1 ics adj st) t (cw_cst w m) = (s', Ok (in_fwd t n0 n1 && lt_total t m)) /\
    c_man s' = set_glob g m /\ TInv (cww w s') /\ same_tape w (cww w s') /\
    steps_of (cww w s') = steps_of w + (if in_fwd t n0 n1 && lt_total t m then 1 else 0).
Proof.
  intros w m n0 n1 ics adj st t C H0 Ht. unfold process_taping. destruct (Nat.ltb_spec t n0) as [G|_]; [lia|].
  set (w1 := with_tape (set_eager adj) w).
  assert (C1 : TInv w1) by (destruct C; constructor; auto).
  change (on_tape_ (set_eager adj) (cw_cst w m)) with (cw_cst w1 m).
  assert (G : exists s2 g, (if Nat.ltb n0 t && negb (is_work st) then taping_store n0 ics adj t (cw_cst w1 m) else (cw_cst w1 m, None)) = (s2, None) /\
     c_man s2 = set_glob g m /\ TInv (cww w s2) /\ same_tape w (cww w s2) /\ steps_of (cww w s2) = steps_of w).
  { destruct (Nat.ltb_spec n0 t) as [G|G]; cbn [andb].
    - destruct (negb (is_work st)).
      + destruct (taping_store_ok w1 m n0 ics adj t C1) as [s' [g [A [B [D [E Fx]]]]]]; [lia|exact Ht|]. exists s', g. split; [exact A|]. split; [exact B|].
        split; [exact D|]. split; [|exact Fx]. destruct E; constructor; auto.
      + exists (cw_cst w1 m), (cm_glob m). split; [reflexivity|]. split; [destruct m; reflexivity|]. split; [exact C1|]. split; [constructor; reflexivity|reflexivity].
    - exists (cw_cst w1 m), (cm_glob m). split; [reflexivity|]. split; [destruct m; reflexivity|]. split; [exact C1|]. split; [constructor; reflexivity|reflexivity]. }
  destruct G as [s2 [g [A [B [D [E Fx]]]]]]. rewrite A.
  replace (lt_total t (c_man s2)) with (lt_total t m) by (rewrite B; reflexivity).
  destruct (in_fwd t n0 n1 && lt_total t m).
  - pose proof (CI_append _ D) as Ca. destruct E as [e1 e2 e3 e4 e5 e6].
    exists (if ics then on_tape_ (set_latest (Some (Z.of_nat n0))) (on_tape_ (@append_step V) s2) else on_tape_ (@append_step V) s2), g.
    split; [reflexivity|]. destruct ics; cbn [on_tape_ c_man]; (split; [exact B|]); (split; [destruct Ca; constructor; auto|]); (split; [constructor; auto|]);
    unfold steps_of in *; cbn in *; rewrite app_length; cbn; rewrite Fx; reflexivity.
  - exists s2, g. split; [reflexivity|]. split; [exact B|]. split; [exact D|]. split; [exact E|]. rewrite Fx. lia.
Qed.

Lemma firstn_nth : forall {A} n (l r : list A) i, firstn n l = r -> i < length r -> nth_error l i = nth_error r i.
Proof.
  intros A n. induction n as [|n IH]; intros l r i <- H; [cbn in H; lia|]. destruct l as [|x l]; [reflexivity|]. destruct i; [reflexivity|].
  cbn in *. apply IH; [reflexivity|lia].
Qed.
Lemma nth_removelast : forall {A} (l : list A) i, i < length l - 1 -> nth_error (removelast l) i = nth_error l i.
Proof.
  intros A l. induction l as [|x l IH]; intros i H; [reflexivity|]. destruct l as [|y l]; [cbn in H; lia|].
  destruct i; [reflexivity|]. change (removelast (x :: y :: l)) with (x :: removelast (y :: l)). cbn [nth_error]. apply IH. cbn in *. lia.
Qed.
Lemma removelast_length : forall {A} (l : list A), length (removelast l) = length l - 1.
Proof. intros A l. induction l as [|x l IH]; [reflexivity|]. destruct l as [|y l]; [reflexivity|]. cbn [removelast length] in *. rewrite IH. lia. Qed.

(** The action after [pre ++ [a]]. *)
Lemma next_covered : forall sc n fwd m pre a b rest, covering sc n fwd -> cm_sched m = sc -> cm_pos m = S (length pre) ->
  fwd = pre ++ a :: b :: rest -> (cm_max m = Some n \/ cm_max m = None /\ sc_max sc = None /\ rest <> []) -> next_act m = Some b.
Proof.
  intros sc n fwd m pre a b rest [Hc [Hf Hn]] Hs Hp E Hm. unfold next_act. rewrite Hs, Hp.
  assert (N : nth_error fwd (S (length pre)) = Some b) by (rewrite E, nth_error_app2 by lia; replace (S (length pre) - length pre) with 1 by lia; reflexivity).
  assert (Len : length fwd = length pre + S (S (length rest))) by (rewrite E, app_length; reflexivity).
  destruct Hm as [Hm|[Hm [Hx Hr]]]; rewrite Hm.
  - rewrite (firstn_nth _ _ _ _ Hf); [exact N|lia].
  - destruct Hn as [Hn|[_ Hn]]; [congruence|].
    assert (Lr : length rest <> 0) by (destruct rest; [now elim Hr|discriminate]).
    rewrite (firstn_nth _ _ _ _ Hn); [|rewrite removelast_length; lia]. rewrite nth_removelast by lia. exact N.
Qed.

Lemma in_stop : forall n n0 n1 t, n0 <= t -> t < stop n n1 -> in_fwd t n0 n1 = true.
Proof.
  intros n n0 n1 t H0 H. unfold in_fwd, stop in *. apply andb_true_iff. split; [now apply Nat.leb_le|]. destruct n1 as [b|]; [apply Nat.ltb_lt; lia|reflexivity].
Qed.
Lemma at_stop : forall n n0 n1 m, (stop n n1 = n -> cm_total m = Some n) -> in_fwd (stop n n1) n0 n1 && lt_total (stop n n1) m = false.
Proof.
  intros n n0 n1 m H. unfold in_fwd, lt_total, stop in *. apply andb_false_iff. destruct n1 as [b|].
  - destruct (Nat.le_gt_cases n b) as [G|G].
    + right. rewrite H by lia. apply Nat.ltb_ge. lia.
    + left. apply andb_false_iff. right. apply Nat.ltb_ge. lia.
  - right. rewrite H by reflexivity. now apply Nat.ltb_irrefl.
Qed.

Lemma same_cww : forall w s, same_tape w (cww w s) -> forall s', same_tape (cww w s) (cww (cww w s) s') -> same_tape w (cww w s').
Proof. intros w s H s' H'. eapply same_tape_trans; [exact H|]. destruct H'; constructor; auto. Qed.

Lemma end_step_rec : forall sc n fwd w m, covering sc n fwd -> TInv w -> RecPos sc n fwd (steps_of w) m ->
  (steps_of w = n -> cm_total m = Some n) ->
  exists s', cm_end_timestep (steps_of w) (cw_cst w m) = (s', None) /\ TInv (cww w s') /\ same_tape w (cww w s') /\
    (steps_of w < n -> steps_of (cww w s') = S (steps_of w) /\ RecPos sc n fwd (S (steps_of w)) (c_man s') /\ cm_max (c_man s') = cm_max m) /\
    (steps_of w = n -> steps_of (cww w s') = n /\ Done sc n fwd (c_man s')).
Proof.
  intros sc n fwd w m Hc C R Ht. destruct R as [r1 r2 r3 r4 r5 [pre [n0 [n1 [ics [adj [st [rest [E1 [E2 [E3 [E4 [E5 E6]]]]]]]]]]]]].
  set (L := steps_of w) in *. unfold cm_end_timestep. cbn [cw_cst c_man]. rewrite r1.
  destruct (process_forward w m n0 n1 ics adj st L C) as [s1 [g [P1 [P2 [P3 [P4 P5]]]]]]; [lia|unfold L; lia|].
  assert (Loop : forall fuel, taping_loop fuel L (cw_cst w m) =
     if in_fwd L n0 n1 && lt_total L m then (s1, None) else
     match next_act (c_man s1) with None => (s1, Some EStopIter) | Some a =>
       match fuel with O => (s1, Some EStopIter) | S f => taping_loop f L (on_man (push_fwd a) s1) end end).
  { intros fuel. destruct fuel; cbn [taping_loop cw_cst c_man]; rewrite E3; fold (cw_cst w m); rewrite P1; destruct (in_fwd L n0 n1 && lt_total L m); reflexivity. }
  rewrite Loop. clear Loop.
  destruct (Nat.lt_ge_cases L (stop n n1)) as [Lt|Ge].
  - (* the action has more steps *)
    assert (Hn : L < n) by (pose proof (covers_le _ _ _ E6); lia).
    assert (T : in_fwd L n0 n1 && lt_total L m = true).
    { rewrite (in_stop n) by lia. cbn. unfold lt_total. destruct r5 as [[_ ->]|[_ [-> _]]]; [apply Nat.ltb_lt; lia|reflexivity]. }
    rewrite T in *. exists s1. split; [reflexivity|]. split; [exact P3|]. split; [exact P4|]. split; [intros _|lia].
    split; [fold L in P5; lia|]. rewrite P2. split; [|reflexivity]. constructor; auto. exists pre, n0, n1, ics, adj, st, rest. repeat split; auto; lia.
  - assert (Eq : L = stop n n1) by lia.
    assert (Ff : in_fwd L n0 n1 && lt_total L m = false) by (rewrite Eq; apply at_stop; rewrite <- Eq; exact Ht).
    rewrite Ff in *. rewrite <- Eq in E6.
    assert (Mx : forall mm, cm_max mm = cm_max m -> cm_total mm = cm_total m -> cm_max mm = Some n /\ cm_total mm = Some n \/ cm_max mm = None /\ cm_total mm = None /\ sc_max sc = None) by (intros mm -> ->; exact r5).
    set (w1 := cww w s1) in *. assert (W1 : s1 = cw_cst w1 (c_man s1)) by (destruct s1; reflexivity).
    assert (S1 : steps_of w1 = L) by lia.
    inversion E6 as [Ek|k b i' a' st' rest' Hk Hb Hr]; subst rest; [|subst k].
    + (* the end of the forward run *)
      assert (Ln : L = n) by congruence.
      assert (Nx : next_act (c_man s1) = Some AEndForward).
      { apply (next_covered sc n fwd _ pre (AForward n0 n1 ics adj st) AEndForward []); auto; [rewrite P2; exact r2|rewrite P2; exact E4|].
        left. rewrite P2. cbn. destruct r5 as [[-> _]|[_ [T _]]]; [reflexivity|]. rewrite (Ht Ln) in T. discriminate. }
      assert (Lf : exists f, left_acts m = S f).
      { unfold next_act in Nx. rewrite P2 in Nx. cbn in Nx. assert (A : cm_pos m < length (sc_acts (cm_sched m) (cm_max m))) by (apply nth_error_Some; congruence).
        unfold left_acts. exists (length (sc_acts (cm_sched m) (cm_max m)) - cm_pos m - 1). lia. }
      destruct Lf as [f Lf]. rewrite Nx, Lf.
      assert (Tl : taping_loop f L (on_man (push_fwd AEndForward) s1) = (on_man (set_mode MEvaluated) (on_man (push_fwd AEndForward) s1), None)).
      { assert (Q : cm_total (c_man (on_man (push_fwd AEndForward) s1)) = Some n) by (cbn; rewrite P2; cbn; now apply Ht).
        destruct f; cbn [taping_loop]; (replace (cm_cur (c_man (on_man (push_fwd AEndForward) s1))) with AEndForward by reflexivity); cbn [process_taping]; rewrite Q, Ln, Nat.eqb_refl; reflexivity. }
      rewrite Tl. eexists. split; [reflexivity|]. split; [exact P3|]. split; [exact P4|]. split; [lia|]. intros _. split; [exact S1|].
      cbn [on_man c_man]. rewrite P2. destruct r5 as [[M1 M2]|[_ [T _]]]; [|rewrite (Ht Ln) in T; discriminate].
      constructor; cbn; auto; try congruence.
      * rewrite E2, <- app_assoc. cbn. congruence.
      * rewrite E4, E1, app_length. cbn. lia.
    + (* the next action starts here *)
      assert (Rn : rest' <> []) by (inversion Hr; discriminate).
      assert (Nx : next_act (c_man s1) = Some (AForward L b i' a' st')).
      { apply (next_covered sc n fwd _ pre (AForward n0 n1 ics adj st) (AForward L b i' a' st') rest'); auto; [rewrite P2; exact r2|rewrite P2; exact E4|].
        rewrite P2. cbn. destruct r5 as [[-> _]|[-> [_ ->]]]; auto. }
      assert (Lf : exists f, left_acts m = S f).
      { unfold next_act in Nx. rewrite P2 in Nx. cbn in Nx. assert (A : cm_pos m < length (sc_acts (cm_sched m) (cm_max m))) by (apply nth_error_Some; congruence).
        unfold left_acts. exists (length (sc_acts (cm_sched m) (cm_max m)) - cm_pos m - 1). lia. }
      destruct Lf as [f Lf]. rewrite Nx, Lf.
      set (m1 := push_fwd (AForward L b i' a' st') (c_man s1)).
      assert (W2 : on_man (push_fwd (AForward L b i' a' st')) s1 = cw_cst w1 m1) by (rewrite W1; reflexivity).
      rewrite W2.
      destruct (process_forward w1 m1 L b i' a' st' L P3) as [s2 [g2 [Q1 [Q2 [Q3 [Q4 Q5]]]]]]; [lia|lia|].
      assert (Lb : L < stop n b) by (unfold stop; destruct b; lia).
      assert (T : in_fwd L L b && lt_total L m1 = true).
      { rewrite (in_stop n) by lia. cbn. unfold lt_total, m1. rewrite P2. cbn. destruct r5 as [[_ ->]|[_ [-> _]]]; [apply Nat.ltb_lt; lia|reflexivity]. }
      assert (Tl : taping_loop f L (cw_cst w1 m1) = (s2, None)).
      { rewrite T in Q1. destruct f; cbn [taping_loop cw_cst c_man]; (replace (cm_cur m1) with (AForward L b i' a' st') by reflexivity); fold (cw_cst w1 m1); rewrite Q1; reflexivity. }
      rewrite Tl, T in *. exists s2. split; [reflexivity|]. split; [exact Q3|]. split; [eapply same_cww; eauto|]. split; [intros _|lia].
      split; [change (steps_of (cww w s2)) with (steps_of (cww w1 s2)); lia|]. rewrite Q2. unfold m1. rewrite P2. cbn. split; [|reflexivity]. constructor; cbn; auto.
      exists (pre ++ [AForward n0 n1 ics adj st]), L, b, i', a', st', rest'. cbn. rewrite E2, <- !app_assoc, app_length, E4. cbn.
      repeat split; auto; lia.
Qed.

Lemma finish_loop : forall sc n fwd, covering sc n fwd -> forall fuel w m, TInv w -> RecPos sc n fwd (steps_of w) m ->
  cm_total m = Some n -> n - steps_of w + 1 < fuel ->
  exists s', end_taping_loop fuel (steps_of w) (cw_cst w m) = (s', None) /\ TInv (cww w s') /\ same_tape w (cww w s') /\
    steps_of (cww w s') = n /\ Done sc n fwd (c_man s').
Proof.
  intros sc n fwd Hc. induction fuel as [|f IH]; intros w m C R Ht Hf; [lia|]. cbn [end_taping_loop cw_cst c_man].
  rewrite (rp_mode _ _ _ _ _ R).
  destruct (end_step_rec sc n fwd w m Hc C R (fun _ => Ht)) as [s1 [E1 [E2 [E3 [E4 E5]]]]]. fold (cw_cst w m). rewrite E1.
  assert (Le : steps_of w <= n).
  { destruct R as [_ _ _ _ _ [pre [n0 [n1 [i [a [st [rest [_ [_ [_ [_ [[_ A] B]]]]]]]]]]]]]. pose proof (covers_le _ _ _ B). lia. }
  destruct (Nat.eq_dec (steps_of w) n) as [Eq|Ne].
  - destruct (E5 Eq) as [A D]. exists s1. split; [|auto]. destruct f; cbn [end_taping_loop]; now rewrite (dn_mode _ _ _ _ D).
  - destruct E4 as [A [B D]]; [lia|].
    destruct (IH (cww w s1) (c_man s1) E2) as [s2 [F1 [F2 [F3 [F4 F5]]]]].
    + now rewrite A.
    + destruct (rp_max _ _ _ _ _ R) as [[M _]|[_ [M _]]]; [|congruence].
      destruct (rp_max _ _ _ _ _ B) as [[_ M']|[M' _]]; [exact M'|congruence].
    + rewrite A. lia.
    + exists s2. rewrite A in F1. replace (cw_cst (cww w s1) (c_man s1)) with s1 in F1 by (destruct s1; reflexivity).
      split; [exact F1|]. split; [exact F2|]. split; [eapply same_cww; eauto|auto].
Qed.

Lemma latest_steps : forall w, TInv w -> S (Z.to_nat (latest_timestep (w_tape w))) = steps_of w.
Proof.
  intros w C. pose proof (ls_ne _ _ _ _ (ti_ls _ C)) as N. unfold latest_timestep, steps_of.
  destruct (t_steps (w_tape w)); [now elim N|]. cbn [length]. lia.
Qed.

Lemma finish_rec : forall sc n fwd w m, covering sc n fwd -> 1 <= n -> TInv w -> RecPos sc n fwd (steps_of w) m ->
  (cm_max m = None -> steps_of w = n) ->
  exists s', end_taping (cw_cst w m) = (s', None) /\ TInv (cww w s') /\ same_tape w (cww w s') /\
    steps_of (cww w s') = n /\ Done sc n fwd (c_man s').
Proof.
  intros sc n fwd w m Hc Hn C R Hm. unfold end_taping. cbn [cw_cst c_man c_tape]. rewrite (latest_steps w C).
  destruct (rp_max _ _ _ _ _ R) as [[M T]|[M [T X]]]; rewrite M.
  - destruct n as [|n']; [lia|]. apply finish_loop; auto. lia.
  - specialize (Hm M). change (length (t_steps (w_tape w))) with (steps_of w).
    change (on_man (set_total (steps_of w)) (CS (w_heap w) (w_tape w) m)) with (cw_cst w (set_total (steps_of w) m)).
    apply finish_loop; auto; [|cbn; congruence|lia]. rewrite Hm in *. destruct R. constructor; auto; cbn; try now left.
Qed.
End Tape.

(** ** From enable_checkpointing to the end of the program *)
Section Recording.
Context {V : Type} (F : fops V).
Implicit Types (w : world V) (m : cman).
Local Notation none := (fun _ : nat => False).

Lemma CInv_of : forall w, TInv none w -> CInv [] w.
Proof.
  intros w [c1 c2 c3 c4 c5]. constructor; auto.
  - intros v. destruct (c4 v) as [A [B [[]|C]]]. repeat split; auto.
  - intros s e Hs He. destruct (c5 s e Hs He) as [A [B|[x [B [[]|C]]]]]; (split; [exact A|]); [now left|right]. now rewrite B, C.
Qed.

Lemma ls_single : LS [@ts_new V] (fun _ => (-1)%Z) [] [].
Proof.
  assert (N : forall k s, nth_error [@ts_new V] k = Some s -> k = 0 /\ s = ts_new) by (intros [|[|k]] s E; inversion E; auto).
  constructor; try discriminate; try reflexivity; intros; try lia;
    repeat match goal with H : nth_error [ts_new] _ = Some _ |- _ => apply N in H as [? ?]; subst end; cbn in *; try contradiction; try lia; try tauto;
    try (intuition fail).
  all: repeat match goal with H : known ts_new _ |- _ => destruct H as [[]|[]] end; intuition.
Qed.

Lemma enable_spec : forall pkg sc n fwd ann cw, covering sc n fwd -> 1 <= n ->
  cw_enable pkg sc (world_new F ann) = (cw, None) ->
  exists m, cw_man cw = Some m /\ CInv [] (cw_w cw) /\ twin (world_new F ann) (cw_w cw) /\ steps_of (cw_w cw) = 1 /\
    RecPos sc n fwd 1 m /\ (cm_max m = None -> sc_max sc = None).
Proof.
  intros pkg sc n fwd ann cw Hc Hn H. pose proof Hc as [Hcov [Hf Hx]]. unfold cw_enable, enable in H. cbn [world_new w_tape w_heap tape_new t_flat] in H.
  destruct (sc_disk sc && negb pkg); [discriminate|].
  inversion Hcov as [|k n1 ics adj st rest Hk Hb Hr]; subst; [lia|].
  assert (Rn : rest <> []) by (inversion Hr; discriminate).
  assert (N0 : nth_error (sc_acts sc (sc_max sc)) 0 = Some (AForward 0 n1 ics adj st)).
  { destruct Hx as [Hx|[Hx Hy]]; rewrite Hx.
    - rewrite (firstn_nth _ _ _ _ Hf); [reflexivity|cbn; lia].
    - rewrite (firstn_nth _ _ _ _ Hy); [|rewrite removelast_length; destruct rest; [now elim Rn|cbn; lia]].
      rewrite nth_removelast; [reflexivity|]. destruct rest; [now elim Rn|cbn; lia]. }
  rewrite N0 in H.
  assert (T : in_fwd 0 0 n1 && lt_total 0 (man_new sc (AForward 0 n1 ics adj st)) = true).
  { unfold in_fwd, lt_total, man_new. cbn [cm_total]. apply andb_true_iff. split; [destruct n1; [apply andb_true_iff; split; [reflexivity|]; apply Nat.ltb_lt; lia|reflexivity]|].
    destruct Hx as [Hx|[Hx _]]; rewrite Hx; [destruct n; [lia|reflexivity]|reflexivity]. }
  assert (P : forall t, cm_end_timestep 0 (CS (fun _ => bv_new 0 0 (f_zero F)) (set_latest (Some 0%Z) t) (man_new sc (AForward 0 n1 ics adj st))) =
    (CS (fun _ => bv_new 0 0 (f_zero F)) (let t1 := append_step (set_eager adj (set_latest (Some 0%Z) t)) in if ics then set_latest (Some 0%Z) t1 else t1) (man_new sc (AForward 0 n1 ics adj st)), None)).
  { intros t. unfold cm_end_timestep. cbn [c_man man_new cm_mode].
    change (lt_total 0 (man_new sc (AForward 0 n1 ics adj st))) with (lt_total 0 (c_man (on_tape_ (set_eager adj) (CS (fun _ => bv_new 0 0 (f_zero F)) (set_latest (Some 0%Z) t) (man_new sc (AForward 0 n1 ics adj st)))))) in T.
    destruct (left_acts _); cbn [taping_loop process_taping c_man man_new cm_cur Nat.ltb Nat.leb andb];
    (change (CM sc 1 (sc_max sc) [AForward 0 n1 ics adj st] [] match sc_max sc with Some (S n2) => Some (S n2) | _ => None end MRecord (AForward 0 n1 ics adj st) false []) with (man_new sc (AForward 0 n1 ics adj st)));
    rewrite T; destruct ics; reflexivity. }
  rewrite P in H. cbn [c_heap c_tape c_man] in H. inversion H; subst cw. clear H P.
  set (m := man_new sc (AForward 0 n1 ics adj st)). exists m. cbn [cw_man cw_w].
  split; [reflexivity|]. split; [|split; [|split; [|split]]].
  - constructor; cbn [w_tape w_heap w_next w_objs bv_new bv_last].
    + destruct ics; cbn; exact ls_single.
    + reflexivity.
    + intros o ob v E. destruct o; discriminate.
    + intros v. repeat split. now left.
    + intros s e Hs He. destruct ics; cbn in Hs; destruct Hs as [<-|[]]; destruct He.
  - constructor; try reflexivity; [destruct ics; reflexivity|intros v; reflexivity].
  - unfold steps_of. destruct ics; reflexivity.
  - constructor; try reflexivity.
    + unfold m, man_new. cbn. destruct Hx as [Hx|[Hx _]]; rewrite Hx; [left; destruct n; [lia|auto]|right; auto].
    + exists [], 0, n1, ics, adj, st, rest. cbn. repeat split; auto. unfold stop. destruct n1; lia.
  - cbn. auto.
Qed.


Definition Recording sc n fwd (rem : nat) w m : Prop :=
  RecPos sc n fwd (steps_of w) m /\ (cm_max m = None -> steps_of w + rem = n) \/ Done sc n fwd m /\ steps_of w = n.

Lemma skel_erase : forall b b' : bvar V, erase_ckpt b' = erase_ckpt b -> skel b = skel b'.
Proof. intros b b' H. unfold skel. f_equal. symmetry. exact H. Qed.

Lemma cexec_spec : forall sc n fwd, covering sc n fwd -> 1 <= n -> forall p cw m u, pure_program p ->
  cw_man cw = Some m -> CInv [] (cw_w cw) -> twin u (cw_w cw) -> Recording sc n fwd (ends p) (cw_w cw) m ->
  exists m', cw_man (cexec F cw p) = Some m' /\ CInv [] (cw_w (cexec F cw p)) /\ twin (exec F u p) (cw_w (cexec F cw p)) /\
    Recording sc n fwd 0 (cw_w (cexec F cw p)) m'.
Proof.
  intros sc n fwd Hc Hn. induction p as [|c r IH]; intros cw m u Hp Hm C T R; [exists m; auto|].
  unfold pure_program in Hp. cbn [forallb] in Hp. apply andb_true_iff in Hp as [Hp1 Hp2].
  change (cexec F cw (c :: r)) with (cexec F (fst (cexec_stmt F cw c)) r). change (exec F u (c :: r)) with (exec F (fst (exec_stmt F u c)) r).
  assert (D : c = SEndStep \/ c <> SEndStep) by (destruct c; (now left) || (right; discriminate)).
  destruct D as [->|D].
  - (* the end of a step *)
    assert (E : cexec_stmt F cw SEndStep = let '(s1, e) := cm_end_timestep (S (Z.to_nat (latest_timestep (w_tape (cw_w cw))))) (cw_cst (cw_w cw) m) in (cst_cw (cw_w cw) s1, e)).
    { unfold cexec_stmt. now rewrite Hm. }
    rewrite (latest_steps none (cw_w cw) (TInv_of none _ C)) in E.
    assert (Tp : forall w', same_tape (cw_w cw) w' -> twin (fst (exec_stmt F u SEndStep)) w').
    { intros w' [s1 s2 s3 s4 s5 s6]. destruct T as [t1 t2 t3 t4 t5 t6]. constructor; cbn; try congruence; [unfold flat in *; cbn; congruence|].
      intros v. rewrite (t6 v). now apply skel_erase. }
    destruct R as [[R1 R2]|[R1 R2]].
    + destruct (end_step_rec none sc n fwd (cw_w cw) m Hc (TInv_of none _ C) R1) as [s1 [E1 [E2 [E3 [E4 E5]]]]].
      { intros Eq. destruct (rp_max _ _ _ _ _ R1) as [[_ K]|[K _]]; [exact K|]. specialize (R2 K). cbn in R2. lia. }
      rewrite E1 in E. rewrite E. cbn [fst]. apply (IH _ (c_man s1)); [exact Hp2|reflexivity| | |].
      * apply CInv_of. exact E2.
      * apply Tp. exact E3.
      * change (cw_w (cst_cw (cw_w cw) s1)) with (cww (cw_w cw) s1).
        assert (Le : steps_of (cw_w cw) <= n).
        { destruct R1 as [_ _ _ _ _ [pre [n0 [n1 [i [a [st [rest [_ [_ [_ [_ [[_ A] B]]]]]]]]]]]]]. pose proof (covers_le _ _ _ B). lia. }
        destruct (Nat.eq_dec (steps_of (cw_w cw)) n) as [Eq|Ne]; [right; destruct (E5 Eq); auto|left].
        destruct E4 as [A [B G]]; [lia|]. rewrite A. split; [exact B|]. intros K. rewrite G in K. specialize (R2 K). cbn in R2. unfold ends in *. lia.
    + unfold cm_end_timestep in E. cbn [cw_cst c_man] in E. rewrite (dn_mode _ _ _ _ R1) in E. rewrite E. cbn [fst].
      apply (IH _ m); [exact Hp2|reflexivity| | |].
      * apply CInv_of. change (TInv none (cww (cw_w cw) (cw_cst (cw_w cw) m))). rewrite cww_id. now apply TInv_of.
      * apply Tp. change (same_tape (cw_w cw) (cww (cw_w cw) (cw_cst (cw_w cw) m))). rewrite cww_id. apply same_tape_refl.
      * right. auto.
  - assert (E : cexec_stmt F cw c = (CW (fst (exec_stmt F (cw_w cw) c)) (cw_man cw), snd (exec_stmt F (cw_w cw) c))).
    { unfold cexec_stmt. destruct c; try (destruct (exec_stmt F (cw_w cw) _); reflexivity). now elim D. }
    rewrite E. cbn [fst]. destruct (CI_stmt F (cw_w cw) c Hp1 D C) as [C1 C2].
    destruct (twin_stmt F u (cw_w cw) c) as [T1 _]; [intros o ->; discriminate|exact D|exact T|].
    apply (IH _ m); auto. unfold Recording in *. cbn [cw_w]. rewrite C2.
    replace (ends (c :: r)) with (ends r) in R; [exact R|]. unfold ends. cbn [filter]. destruct c; reflexivity || now elim D.
Qed.

(** The number of steps matches what the schedule can be told. *)
Lemma session_spec : forall pkg sc n fwd ann p s, covering sc n fwd -> 1 <= n -> pure_program p ->
  (sc_max sc = None -> S (ends p) = n) -> ckpt_session F pkg sc ann p s ->
  exists w m, s = cw_cst w m /\ CInv [] w /\ twin (exec F (world_new F ann) p) w /\ Recording sc n fwd 0 w m.
Proof.
  intros pkg sc n fwd ann p s Hc Hn Hp He [cw [m [H1 [H2 H3]]]].
  destruct (enable_spec pkg sc n fwd ann cw Hc Hn H1) as [m0 [E1 [E2 [E3 [E4 [E5 E6]]]]]].
  destruct (cexec_spec sc n fwd Hc Hn p cw m0 (world_new F ann) Hp E1 E2 E3) as [m' [F1 [F2 [F3 F4]]]].
  { left. rewrite E4. split; [exact E5|]. intros K. specialize (He (E6 K)). lia. }
  exists (cw_w (cexec F cw p)), m'. rewrite F1 in H2. inversion H2; subst. auto.
Qed.
End Recording.
