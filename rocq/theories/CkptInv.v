(** The invariant of a world recorded under a checkpoint manager, statement by statement. *)
From Coq Require Import List Arith ZArith Lia Bool.
From Verif Require Import Base Model BaseFacts Graph Record Spec RecordFacts Replay ReplayExec History Session Ckpt SpecCkpt CkptRecord.
Import ListNotations.

(** ** The invariant of a world recorded under a manager *)
Section CInv.
Context {V : Type} (F : fops V).
Implicit Types (w : world V).

Definition clean_bv (b : bvar V) : Prop :=
  bv_out b = bv_rec b /\ bv_raw b = false /\ (bv_ckpt b = None \/ bv_ckpt b = Some (bv_rec b)).
Definition entry_ok (h : heap V) (e : nat * option (V * bool)) : Prop :=
  snd e = None \/ snd e = Some (bv_rec (h (fst e)), false).

Record CInv (pend : list nat) w : Prop := {
  ci_ls : LS (t_steps (w_tape w)) (fun v => bv_last (w_heap w v)) pend (t_flat (w_tape w));
  ci_next : forall v, w_next w <= v -> bv_last (w_heap w v) = (-1)%Z;
  ci_objs : forall o ob v, nth_error (w_objs w) o = Some ob -> o_bv ob = Some v -> v < w_next w;
  ci_clean : forall v, clean_bv (w_heap w v);
  ci_dict : forall s e, In s (t_steps (w_tape w)) -> In e (ts_ckpt s) -> fst e < w_next w /\ entry_ok (w_heap w) e
}.

Definition now w v : Prop := bv_last (w_heap w v) = Z.of_nat (length (t_steps (w_tape w)) - 1).
Record grows w w' : Prop := {
  gr_len : length (t_steps (w_tape w')) = length (t_steps (w_tape w));
  gr_now : forall v, v < w_next w -> now w v -> now w' v;
  gr_next : w_next w <= w_next w';
  gr_cur : forall o v, cur w o v -> cur w' o v;
  gr_objs : length (w_objs w) <= length (w_objs w')
}.
Lemma grows_refl : forall w, grows w w.
Proof. intros w. constructor; auto. Qed.
Lemma grows_trans : forall a b c, grows a b -> grows b c -> grows a c.
Proof.
  intros a b c [a1 a2 a3 a4 a5] [b1 b2 b3 b4 b5]. constructor; auto; try lia; try congruence.
  intros v Hv Hn. apply b2; [lia|]. auto.
Qed.

Lemma clean_save : forall ow b, clean_bv b -> clean_bv (save_output ow b).
Proof. intros ow b [A [B C]]. unfold save_output. destruct (ow || _); [|repeat split; auto]. cbn. repeat split; auto. right. cbn. congruence. Qed.

Lemma entry_rec : forall h h' e, bv_rec (h' (fst e)) = bv_rec (h (fst e)) -> entry_ok h e -> entry_ok h' e.
Proof. intros h h' e E [H|H]; [now left|right]. rewrite E. exact H. Qed.

Lemma CI_create : forall pend w o ob, CInv pend w -> nth_error (w_objs w) o = Some ob ->
  let '(w', v) := create_bv w o in
  CInv pend w' /\ v = w_next w /\ w_next w' = S v /\ bv_last (w_heap w' v) = (-1)%Z /\ w_tape w' = w_tape w /\ cur w' o v /\
  (o_bv ob = None -> grows w w').
Proof.
  intros pend w o ob C Ho. rewrite (create_bv_spec w o ob Ho). destruct C as [c1 c2 c3 c4 c5].
  set (n := w_next w) in *. set (w' := World _ _ _ _ _ _).
  assert (Hh : forall v, w_heap w' v = if Nat.eqb v n then bv_new o (o_gen ob) (o_val ob) else w_heap w v) by reflexivity.
  assert (Hl : forall v, bv_last (w_heap w' v) = bv_last (w_heap w v)).
  { intros v. rewrite Hh. destruct (Nat.eqb_spec v n) as [->|]; [|reflexivity]. symmetry. now apply c2. }
  split; [constructor|].
  - apply (ls_ext _ _ _ _ _ Hl c1).
  - intros v Hv. rewrite Hl. apply c2. cbn in Hv. unfold n. lia.
  - intros i b v Hi Hb. cbn [w' w_objs w_next] in *. rewrite nth_list_set, Ho in Hi. destruct (Nat.eqb o i); [inversion Hi; subst b; cbn in Hb; inversion Hb; subst; lia|].
    specialize (c3 i b v Hi Hb). lia.
  - intros v. rewrite Hh. destruct (Nat.eqb v n); [|apply c4]. repeat split; auto.
  - intros s e Hs He. destruct (c5 s e Hs He) as [A B]. cbn [w' w_next]. split; [lia|]. apply (entry_rec (w_heap w)); [|exact B].
    rewrite Hh. destruct (Nat.eqb_spec (fst e) n); [lia|reflexivity].
  - split; [reflexivity|]. split; [reflexivity|]. split; [rewrite Hl; apply c2; lia|]. split; [reflexivity|]. split.
    + exists (Obj (o_val ob) (Some n) (o_gen ob)). cbn [w' w_objs]. rewrite nth_list_set, Nat.eqb_refl, Ho. auto.
    + intros Hb. constructor; cbn [w' w_tape w_next w_objs]; auto.
      * intros v Hv Hn. unfold now in *. rewrite Hl. exact Hn.
      * intros i v [b [A B]]. exists (if Nat.eqb o i then (Obj (o_val ob) (Some n) (o_gen ob)) else b). cbn [w' w_objs]. rewrite nth_list_set, Ho.
        destruct (Nat.eqb_spec o i) as [->|]; [congruence|auto].
      * now rewrite length_list_set.
Qed.

Lemma CI_get : forall pend w o, CInv pend w -> o < length (w_objs w) ->
  let '(w', v) := get_bv w o in
  CInv pend w' /\ grows w w' /\ cur w' o v /\ v < w_next w' /\ w_tape w' = w_tape w /\
  ((forall u, ~ cur w o u) -> bv_last (w_heap w' v) = (-1)%Z).
Proof.
  intros pend w o C Ho. unfold get_bv. destruct (nth_error (w_objs w) o) as [ob|] eqn:E; [|apply nth_error_None in E; lia].
  destruct (o_bv ob) as [v|] eqn:Eb.
  - split; [exact C|]. split; [apply grows_refl|]. split; [exists ob; auto|]. split; [eapply (ci_objs _ _ C); eauto|]. split; [reflexivity|].
    intros H. elim (H v). exists ob; auto.
  - pose proof (CI_create pend w o ob C E) as K. destruct (create_bv w o) as [w' v]. destruct K as [K1 [K2 [K3 [K4 [K5 [K6 K7]]]]]].
    split; [exact K1|]. split; [now apply K7|]. split; [exact K6|]. split; [lia|]. split; [exact K5|]. intros _. exact K4.
Qed.

Lemma will_dep_tape : forall w v, t_steps (w_tape w) <> [] ->
  w_tape (will_dep w v) = set_steps (map_from (Z.to_nat (bv_last (w_heap w v) + 1)) (ts_add_state v) (t_steps (w_tape w))) (w_tape w).
Proof.
  intros w v H. unfold will_dep.
  assert (A : bv_last (w_heap (with_heap (fun h => upd h v (save_output false)) w) v) = bv_last (w_heap w v)).
  { cbn. rewrite upd_same. unfold save_output. destruct (_ || _); reflexivity. }
  rewrite A. unfold with_heap, with_tape, add_to_state.
  assert (En : ensure_step (w_tape w) = w_tape w) by (unfold ensure_step; destruct (t_steps (w_tape w)); [now elim H|reflexivity]).
  destruct (match t_latest _ with None => true | Some _ => _ end); cbn [w_tape]; rewrite En; reflexivity.
Qed.
Lemma will_dep_heap : forall w v u, t_steps (w_tape w) <> [] -> exists c l, 
  (u <> v -> w_heap (will_dep w v) u = w_heap w u) /\
  (w_heap (will_dep w v) v = set_times c l (save_output false (w_heap w v)) /\ l = Z.of_nat (length (t_steps (w_tape w)) - 1)).
Proof.
  intros w v u H. pose proof (will_dep_tape w v H) as T. unfold will_dep in T |- *.
  set (w1 := with_heap (fun h => upd h v (save_output false)) w) in *.
  set (w2 := if match t_latest (w_tape w1) with None => true | Some c => _ end then _ else w1) in *.
  assert (Sv : forall b : bvar V, save_output false (save_output false b) = save_output false b).
  { intros b. unfold save_output at 1. pose proof (save_false_some b) as N. destruct (bv_ckpt (save_output false b)); [reflexivity|congruence]. }
  assert (H2 : w_heap w2 v = save_output false (w_heap w v) /\ (u <> v -> w_heap w2 u = w_heap w u)).
  { unfold w2. destruct (match t_latest (w_tape w1) with None => true | Some c => _ end); cbn; rewrite ?upd_same, ?Sv; split; auto; intros N; rewrite ?upd_other by exact N; reflexivity. }
  set (w3 := with_tape _ w2) in *.
  assert (H3 : w_heap w3 = w_heap w2) by reflexivity.
  assert (T3 : w_tape w3 = set_steps (map_from (Z.to_nat (bv_last (w_heap w v) + 1)) (ts_add_state v) (t_steps (w_tape w))) (w_tape w)) by exact T.
  exists (bv_created (w_heap w3 v)), (latest_timestep (w_tape w3)). split; [|split].
  - intros N. cbn. rewrite upd_other by exact N. exact (proj2 H2 N).
  - rewrite <- (proj1 H2). cbn. rewrite upd_same. reflexivity.
  - rewrite T3. unfold latest_timestep, set_steps. cbn. rewrite length_map_from. destruct (t_steps (w_tape w)); [now elim H|]. cbn [length]. lia.
Qed.
Lemma will_dep_rest : forall w v, w_objs (will_dep w v) = w_objs w /\ w_next (will_dep w v) = w_next w /\ w_ann (will_dep w v) = w_ann w /\ w_ctrls (will_dep w v) = w_ctrls w.
Proof. intros w v. unfold will_dep. destruct (match t_latest _ with None => true | Some c => _ end); cbn; auto. Qed.

Lemma CI_dep : forall pend w v, CInv pend w -> v < w_next w ->
  CInv pend (will_dep w v) /\ grows w (will_dep w v) /\ now (will_dep w v) v /\ w_objs (will_dep w v) = w_objs w.
Proof.
  intros pend w v C Hv. destruct C as [c1 c2 c3 c4 c5].
  pose proof (ls_ne _ _ _ _ c1) as Ne. pose proof (will_dep_tape w v Ne) as T. destruct (will_dep_rest w v) as [R1 [R2 _]].
  assert (Hh : forall u, bv_last (w_heap (will_dep w v) u) = set_last (fun x => bv_last (w_heap w x)) v (Z.of_nat (length (t_steps (w_tape w)) - 1)) u /\
             bv_rec (w_heap (will_dep w v) u) = bv_rec (w_heap w u) /\ clean_bv (w_heap (will_dep w v) u)).
  { intros u. destruct (will_dep_heap w v u Ne) as [c [l [H1 [H2 H3]]]]. unfold set_last. destruct (Nat.eqb_spec u v) as [->|N].
    - rewrite H2. split; [exact H3|]. pose proof (clean_save false _ (c4 v)) as S. split; [unfold save_output; destruct (_ || _); reflexivity|exact S].
    - rewrite H1 by exact N. auto. }
  assert (Len : length (t_steps (w_tape (will_dep w v))) = length (t_steps (w_tape w))) by (rewrite T; cbn; apply length_map_from).
  split; [constructor|split; [|split; [|exact R1]]].
  - apply (ls_ext _ (set_last (fun x => bv_last (w_heap w x)) v (Z.of_nat (length (t_steps (w_tape w)) - 1)))); [intros u; apply Hh|].
    rewrite T. cbn [set_steps t_steps t_flat]. exact (ls_add_dep _ _ _ _ v c1).
  - intros u Hu. rewrite R2 in Hu. rewrite (proj1 (Hh u)). unfold set_last. destruct (Nat.eqb_spec u v); [lia|]. now apply c2.
  - rewrite R1, R2. exact c3.
  - intros u. apply Hh.
  - intros s e Hs He. rewrite R2. rewrite T in Hs. cbn in Hs.
    assert (G : exists s0, In s0 (t_steps (w_tape w)) /\ In e (ts_ckpt s0)).
    { clear - Hs He. revert Hs. generalize (Z.to_nat (bv_last (w_heap w v) + 1)). induction (t_steps (w_tape w)) as [|x r IH]; intros n Hs; [destruct n; destruct Hs|].
      destruct n; cbn in Hs; (destruct Hs as [<-|Hs]; [exists x; split; [now left|exact He]|]; destruct (IH _ Hs) as [s0 [A B]]; exists s0; split; [now right|exact B]). }
    destruct G as [s0 [G1 G2]]. destruct (c5 s0 e G1 G2) as [A B]. split; [exact A|]. apply (entry_rec (w_heap w)); [apply Hh|exact B].
  - constructor; auto; try lia.
    + intros u Hu Hn. unfold now in *. rewrite Len, (proj1 (Hh u)). unfold set_last. destruct (Nat.eqb u v); auto.
    + intros o u [ob Ho]. exists ob. now rewrite R1.
    + now rewrite R1.
  - unfold now. rewrite Len, (proj1 (Hh v)). unfold set_last. now rewrite Nat.eqb_refl.
Qed.

Lemma will_out_tape : forall w v, t_steps (w_tape w) <> [] ->
  w_tape (will_out w v) = set_steps (map_from (length (t_steps (w_tape w)) - 1) (ts_add_adjdep v) (t_steps (w_tape w))) (w_tape w).
Proof.
  intros w v H. unfold will_out, with_heap, with_tape, add_to_adjdeps, latest_timestep.
  assert (En : ensure_step (w_tape w) = w_tape w) by (unfold ensure_step; destruct (t_steps (w_tape w)); [now elim H|reflexivity]).
  replace (Z.to_nat (Z.max (Z.of_nat (length (t_steps (w_tape w))) - 1) 0 - 1 + 1)) with (length (t_steps (w_tape w)) - 1) by lia.
  destruct (t_eager _); cbn [w_tape]; rewrite En; reflexivity.
Qed.
Lemma CI_out : forall pend w v, CInv pend w -> v < w_next w -> bv_last (w_heap w v) = (-1)%Z ->
  CInv (v :: pend) (will_out w v) /\ grows w (will_out w v) /\ w_objs (will_out w v) = w_objs w.
Proof.
  intros pend w v C Hv Hl. destruct C as [c1 c2 c3 c4 c5].
  pose proof (ls_ne _ _ _ _ c1) as Ne. pose proof (will_out_tape w v Ne) as T.
  assert (R : w_objs (will_out w v) = w_objs w /\ w_next (will_out w v) = w_next w) by (unfold will_out; destruct (t_eager _); cbn; auto).
  destruct R as [R1 R2].
  assert (Hh : forall u, bv_last (w_heap (will_out w v) u) = set_last (fun x => bv_last (w_heap w x)) v (Z.of_nat (length (t_steps (w_tape w)) - 1)) u /\
             bv_rec (w_heap (will_out w v) u) = bv_rec (w_heap w u) /\ clean_bv (w_heap (will_out w v) u)).
  { intros u. unfold will_out, set_last, latest_timestep.
    assert (Hz : Z.max (Z.of_nat (length (t_steps (w_tape w))) - 1) 0 = Z.of_nat (length (t_steps (w_tape w)) - 1)) by lia.
    rewrite Hz. pose proof (c4 u) as Cu. cbn [with_heap w_tape].
    destruct (t_eager (w_tape w)); cbn [with_heap with_tape w_heap]; unfold upd; destruct (Nat.eqb u v); cbn; repeat split; auto; try apply Cu.
    right. cbn. f_equal. apply Cu. }
  assert (Len : length (t_steps (w_tape (will_out w v))) = length (t_steps (w_tape w))) by (rewrite T; cbn; apply length_map_from).
  split; [constructor|split; [|exact R1]].
  - apply (ls_ext _ (set_last (fun x => bv_last (w_heap w x)) v (Z.of_nat (length (t_steps (w_tape w)) - 1)))); [intros u; apply Hh|].
    rewrite T. cbn [set_steps t_steps t_flat]. exact (ls_add_out _ _ _ _ v c1 Hl).
  - intros u Hu. rewrite R2 in Hu. rewrite (proj1 (Hh u)). unfold set_last. destruct (Nat.eqb_spec u v); [lia|]. now apply c2.
  - rewrite R1, R2. exact c3.
  - intros u. apply Hh.
  - intros s e Hs He. rewrite R2. rewrite T in Hs. cbn in Hs.
    assert (G : exists s0, In s0 (t_steps (w_tape w)) /\ In e (ts_ckpt s0)).
    { clear - Hs He. revert Hs. generalize (length (t_steps (w_tape w)) - 1). induction (t_steps (w_tape w)) as [|x r IH]; intros n Hs; [destruct n; destruct Hs|].
      destruct n; cbn in Hs; (destruct Hs as [<-|Hs]; [exists x; split; [now left|exact He]|]; destruct (IH _ Hs) as [s0 [A B]]; exists s0; split; [now right|exact B]). }
    destruct G as [s0 [G1 G2]]. destruct (c5 s0 e G1 G2) as [A B]. split; [exact A|]. apply (entry_rec (w_heap w)); [apply Hh|exact B].
  - constructor; auto; try lia.
    + intros u Hu Hn. unfold now in *. rewrite Len, (proj1 (Hh u)). unfold set_last. destruct (Nat.eqb u v); auto.
    + intros o u [ob Ho]. exists ob. now rewrite R1.
    + now rewrite R1.
Qed.

Lemma CI_get_bvs : forall os pend w, CInv pend w -> Forall (fun o => o < length (w_objs w)) os ->
  let '(w', vs) := get_bvs w os in CInv pend w' /\ grows w w' /\ Forall2 (cur w') os vs.
Proof.
  induction os as [|o r IH]; intros pend w C Ho; cbn [get_bvs]; [split; [exact C|]; split; [apply grows_refl|constructor]|].
  inversion Ho as [|? ? H1 H2]; subst. pose proof (CI_get pend w o C H1) as K. destruct (get_bv w o) as [w1 v]. destruct K as [K1 [K2 [K3 _]]].
  assert (Ho1 : Forall (fun o => o < length (w_objs w1)) r) by (eapply Forall_impl; [|exact H2]; intros a Ha; pose proof (gr_objs _ _ K2); cbn in *; lia).
  specialize (IH pend w1 K1 Ho1). destruct (get_bvs w1 r) as [w2 vs]. destruct IH as [I1 [I2 I3]].
  split; [exact I1|]. split; [eapply grows_trans; eauto|]. constructor; [|exact I3]. eapply gr_cur; eauto.
Qed.
Lemma CI_add_deps : forall os pend w, CInv pend w -> Forall (fun o => o < length (w_objs w)) os ->
  let '(w', vs) := add_deps w os in CInv pend w' /\ grows w w' /\ Forall2 (cur w') os vs /\ Forall (now w') vs.
Proof.
  induction os as [|o r IH]; intros pend w C Ho; cbn [add_deps]; [split; [exact C|]; split; [apply grows_refl|]; split; constructor|]. unfold add_dep.
  inversion Ho as [|? ? H1 H2]; subst. pose proof (CI_get pend w o C H1) as K. destruct (get_bv w o) as [w1 v]. destruct K as [K1 [K2 [K3 [K4 _]]]].
  destruct (CI_dep pend w1 v K1 K4) as [D1 [D2 [D3 D4]]].
  assert (Ho1 : Forall (fun o => o < length (w_objs (will_dep w1 v))) r) by (eapply Forall_impl; [|exact H2]; intros a Ha; rewrite D4; pose proof (gr_objs _ _ K2); cbn in *; lia).
  specialize (IH pend (will_dep w1 v) D1 Ho1). destruct (add_deps (will_dep w1 v) r) as [w2 vs]. destruct IH as [I1 [I2 [I3 I4]]].
  split; [exact I1|]. split; [eapply grows_trans; [exact K2|]; eapply grows_trans; eauto|]. split.
  - constructor; [|exact I3]. eapply gr_cur; [exact I2|]. eapply gr_cur; eauto.
  - constructor; [|exact I4]. apply (gr_now _ _ I2); [|exact D3]. pose proof (gr_next _ _ D2). lia.
Qed.

Lemma CI_new_obj : forall pend w x, CInv pend w -> CInv pend (fst (new_obj w x)) /\ grows w (fst (new_obj w x)) /\
  (forall u, ~ cur (fst (new_obj w x)) (length (w_objs w)) u).
Proof.
  intros pend w x C. destruct C as [c1 c2 c3 c4 c5]. cbn. split; [|split].
  - constructor; auto. cbn. intros o ob v Ho Hb. destruct (Nat.lt_ge_cases o (length (w_objs w))) as [L|L].
    + rewrite nth_error_app1 in Ho by exact L. eapply c3; eauto.
    + rewrite nth_error_app2 in Ho by exact L. destruct (o - length (w_objs w)) as [|m]; [|destruct m; discriminate]. inversion Ho; subst. discriminate.
  - constructor; auto.
    + intros o v [ob [A B]]. exists ob. split; [|exact B]. cbn. rewrite nth_error_app1; [exact A|]. eapply nth_error_some_lt; eauto.
    + cbn. rewrite app_length. cbn. lia.
  - intros u [ob [A B]]. cbn in A. rewrite nth_last in A. inversion A; subst. discriminate.
Qed.

Lemma CI_new_objs : forall ys pend w, CInv pend w ->
  let '(w', os) := new_objs w ys in CInv pend w' /\ grows w w' /\ Forall (fun o => o < length (w_objs w')) os.
Proof.
  induction ys as [|y r IH]; intros pend w C; cbn [new_objs]; [split; [exact C|]; split; [apply grows_refl|constructor]|].
  destruct (CI_new_obj pend w y C) as [N1 [N2 _]]. unfold new_obj in *. cbn [fst] in *. set (w1 := with_objs _ w) in *.
  assert (L1 : length (w_objs w1) = S (length (w_objs w))) by (unfold w1; cbn; rewrite app_length; cbn; lia).
  specialize (IH pend w1 N1). destruct (new_objs w1 r) as [w2 os]. destruct IH as [I1 [I2 I3]].
  split; [exact I1|]. split; [eapply grows_trans; eauto|]. constructor; [|exact I3]. pose proof (gr_objs _ _ I2). lia.
Qed.

(** [grows] without the references of the objects, which add_output replaces. *)
Record keeps_now w w' : Prop := {
  kn_len : length (t_steps (w_tape w')) = length (t_steps (w_tape w));
  kn_now : forall v, v < w_next w -> now w v -> now w' v;
  kn_next : w_next w <= w_next w';
  kn_objs : length (w_objs w') = length (w_objs w)
}.
Lemma keeps_trans : forall a b c, keeps_now a b -> keeps_now b c -> keeps_now a c.
Proof. intros a b c [a1 a2 a3 a4] [b1 b2 b3 b4]. constructor; try lia; try congruence. intros v Hv Hn. apply b2; [lia|]. auto. Qed.

Lemma CI_add_outs : forall os pend w, CInv pend w -> Forall (fun o => o < length (w_objs w)) os ->
  let '(w', vs) := add_outs w os in exists pend', CInv pend' w' /\ keeps_now w w' /\ (forall v, In v pend' <-> In v vs \/ In v pend).
Proof.
  induction os as [|o r IH]; intros pend w C Ho; cbn [add_outs].
  { exists pend. split; [exact C|]. split; [constructor; auto|]. cbn. tauto. }
  inversion Ho as [|? ? H1 H2]; subst.
  destruct (nth_error (w_objs w) o) as [ob|] eqn:Eo; [|apply nth_error_None in Eo; lia].
  pose proof (CI_create pend w o ob C Eo) as K. pose proof (create_bv_spec w o ob Eo) as Sp.
  destruct (create_bv w o) as [w1 v]. destruct K as [K1 [K2 [K3 [K4 [K5 [K6 _]]]]]].
  destruct (CI_out pend w1 v K1 ltac:(lia) K4) as [O1 [O2 O3]].
  assert (L1 : length (w_objs w1) = length (w_objs w)) by (inversion Sp; subst; cbn; apply length_list_set).
  assert (Ho1 : Forall (fun o => o < length (w_objs (will_out w1 v))) r) by (eapply Forall_impl; [|exact H2]; intros a Ha; rewrite O3, L1; exact Ha).
  specialize (IH (v :: pend) (will_out w1 v) O1 Ho1). destruct (add_outs (will_out w1 v) r) as [w2 vs]. destruct IH as [pend' [I1 [I2 I3]]].
  exists pend'. split; [exact I1|]. split.
  - eapply keeps_trans; [|exact I2]. destruct O2 as [o1 o2 o3 o4 o5]. constructor.
    + rewrite o1, K5. reflexivity.
    + intros u Hu Hn. apply o2; [lia|]. unfold now in *. rewrite K5. inversion Sp; subst w1. cbn. rewrite upd_other by lia. exact Hn.
    + lia.
    + rewrite O3. exact L1.
  - intros u. rewrite I3. cbn. split; intros [G|G]; tauto || (destruct G; tauto).
Qed.

(** Completing blocks. *)
Definition lastb w (b : block V) : Prop := exists l x bl, t_steps (w_tape w) = l ++ [x] /\ ts_blocks x = bl ++ [b].

Lemma known_now : forall pend w v l x, CInv pend w -> t_steps (w_tape w) = l ++ [x] -> now w v -> known x v.
Proof.
  intros pend w v l x C E N. unfold now in N. rewrite E, app_length in N. cbn [length] in N.
  destruct (ls_last _ _ _ _ (ci_ls _ _ C) v) as [s [A B]]; [lia|]. rewrite N, E in A.
  replace (Z.to_nat (Z.of_nat (length l + 1 - 1))) with (length l) in A by lia. rewrite nth_last in A. inversion A; subst. exact B.
Qed.
Lemma steps_last : forall pend w, CInv pend w -> exists l x, t_steps (w_tape w) = l ++ [x].
Proof. intros pend w C. destruct (exists_last (ls_ne _ _ _ _ (ci_ls _ _ C))) as [l [x E]]. eauto. Qed.

Lemma CI_add_block : forall pend w b, CInv pend w -> Forall (now w) (b_deps b) -> (forall v, In v (b_outs b) <-> In v pend) ->
  CInv [] (with_tape (fun t => add_block t b) w) /\ lastb (with_tape (fun t => add_block t b) w) b /\
  length (t_steps (w_tape (with_tape (fun t => add_block t b) w))) = length (t_steps (w_tape w)).
Proof.
  intros pend w b C Hd Ho. destruct (steps_last pend w C) as [l [x E]].
  assert (Kn : forall d, In d (b_deps b) -> known x d).
  { intros d Hin. eapply known_now; eauto. rewrite Forall_forall in Hd. auto. }
  destruct C as [c1 c2 c3 c4 c5].
  assert (T : w_tape (with_tape (fun t => add_block t b) w) = Tape (l ++ [ts_push b x]) (t_flat (w_tape w) ++ [b]) (t_latest (w_tape w)) (t_eager (w_tape w)) (t_count (w_tape w))).
  { cbn. unfold add_block, ensure_step. destruct (t_steps (w_tape w)) as [|y r] eqn:Ey; [destruct l; discriminate|]. rewrite Ey, E, map_last_app. reflexivity. }
  split; [constructor|split].
  - rewrite T. cbn [t_steps t_flat with_tape w_heap]. rewrite E in c1.
    refine (ls_last_step l x _ pend [] _ _ (ts_push b x) c1 eq_refl eq_refl eq_refl _ _ _).
    + cbn [ts_push ts_blocks]. rewrite app_assoc. f_equal. rewrite <- (ls_flat _ _ _ _ c1), flat_map_app. cbn. now rewrite app_nil_r.
    + intros v. unfold outs_in. cbn [ts_push ts_blocks]. rewrite flat_map_app, in_app_iff. cbn. rewrite app_nil_r, <- Ho. tauto.
    + intros b' d Hb Hin. cbn [ts_push ts_blocks] in Hb. apply in_app_iff in Hb as [Hb|[<-|[]]]; [|auto].
      eapply (ls_dep _ _ _ _ c1 (length l)); eauto. apply nth_last.
  - exact c2.
  - exact c3.
  - exact c4.
  - intros s e Hs He. rewrite T in Hs. cbn in Hs. rewrite E in c5. apply in_app_iff in Hs as [Hs|[<-|[]]].
    + apply (c5 s); [apply in_app_iff; now left|exact He].
    + apply (c5 x); [apply in_app_iff; right; now left|exact He].
  - exists l, (ts_push b x), (ts_blocks x). rewrite T. auto.
  - rewrite T, E. cbn. rewrite !app_length. reflexivity.
Qed.


Lemma CI_push : forall w v b, CInv [v] w -> lastb w b -> CInv [] (with_tape (last_push_out v) w) /\
  length (t_steps (w_tape (with_tape (last_push_out v) w))) = length (t_steps (w_tape w)).
Proof.
  intros w v b C [l [x [bl [E Eb]]]]. destruct C as [c1 c2 c3 c4 c5].
  set (y := TS (map_last (push_out v) (ts_blocks x)) (ts_state x) (ts_adjdeps x) (ts_ckpt x) (ts_revised x)).
  assert (Hy : ts_blocks y = bl ++ [push_out v b]) by (cbn; rewrite Eb; apply map_last_app).
  assert (Fl : t_flat (w_tape w) = flat_map (@ts_blocks V) l ++ bl ++ [b]).
  { rewrite <- (ls_flat _ _ _ _ c1), E, flat_map_app. cbn. now rewrite app_nil_r, Eb. }
  assert (T1 : t_steps (w_tape (with_tape (last_push_out v) w)) = l ++ [y]) by (cbn; rewrite E, map_last_app; reflexivity).
  assert (T2 : t_flat (w_tape (with_tape (last_push_out v) w)) = flat_map (@ts_blocks V) l ++ ts_blocks y).
  { rewrite Hy. cbn. rewrite Fl, app_assoc, map_last_app, <- app_assoc. reflexivity. }
  split; [constructor; auto|].
  - rewrite T1, T2. rewrite E in c1. refine (ls_last_step l x _ [v] [] _ _ y c1 eq_refl eq_refl eq_refl eq_refl _ _).
    + intros u. unfold outs_in. rewrite Hy, Eb, !flat_map_app. cbn. rewrite !app_nil_r, !in_app_iff. cbn. tauto.
    + intros b' d Hb Hd. rewrite Hy in Hb. apply in_app_iff in Hb as [Hb|[<-|[]]];
        (eapply (ls_dep _ _ _ _ c1 (length l)); [apply nth_last| |]); [rewrite Eb; apply in_app_iff; left; exact Hb|exact Hd|rewrite Eb; apply in_app_iff; right; left; reflexivity|exact Hd].
  - intros s e Hs He. rewrite T1 in Hs. rewrite E in c5. apply in_app_iff in Hs as [Hs|[<-|[]]].
    + apply (c5 s); [apply in_app_iff; now left|exact He].
    + apply (c5 x); [apply in_app_iff; right; now left|exact He].
  - rewrite T1, E, !app_length. reflexivity.
Qed.

Lemma lastb_out : forall w v b, lastb w b -> lastb (will_out w v) b.
Proof.
  intros w v b [l [x [bl [E Eb]]]]. assert (Ne : t_steps (w_tape w) <> []) by (rewrite E; destruct l; discriminate).
  exists l, (ts_add_adjdep v x), bl. split; [|exact Eb]. rewrite (will_out_tape w v Ne). cbn [set_steps t_steps]. rewrite E, app_length. cbn [length].
  replace (length l + 1 - 1) with (length l) by lia. clear. induction l as [|a l IH]; cbn; [reflexivity|]. now rewrite IH.
Qed.

Lemma cur_fun : forall w o v v', cur w o v -> cur w o v' -> v = v'.
Proof. intros w o v v' [a [A B]] [b [A' B']]. rewrite A in A'. inversion A'; subst. congruence. Qed.
Lemma cur_list : forall w os vs vs', Forall2 (cur w) os vs -> Forall2 (cur w) os vs' -> vs = vs'.
Proof.
  intros w os. induction os as [|o r IH]; intros vs vs' A B; inversion A; inversion B; subst; [reflexivity|]. f_equal; [eapply cur_fun; eauto|eauto].
Qed.

Definition steps_of w : nat := length (t_steps (w_tape w)).

Lemma args_in : forall w args xs, arg_vals w args = Ok xs -> Forall (fun o => o < length (w_objs w)) args.
Proof. exact args_lt. Qed.
Lemma args_grow : forall w w' args, grows w w' -> Forall (fun o => o < length (w_objs w)) args -> Forall (fun o => o < length (w_objs w')) args.
Proof. intros w w' args G H. eapply Forall_impl; [|exact H]. intros a Ha. pose proof (gr_objs _ _ G). cbn in *. lia. Qed.

(** The block of one output, completed at once. *)
Lemma CI_finish : forall w b o, CInv [] w -> lastb w b -> o < length (w_objs w) -> (forall u, ~ cur w o u) ->
  let '(w5, v) := get_bv w o in CInv [] (with_tape (last_push_out v) (will_out w5 v)) /\
  steps_of (with_tape (last_push_out v) (will_out w5 v)) = steps_of w.
Proof.
  intros w b o C L Ho Hc. pose proof (CI_get [] w o C Ho) as K. destruct (get_bv w o) as [w5 v]. destruct K as [K1 [K2 [K3 [K4 [K5 K6]]]]].
  destruct (CI_out [] w5 v K1 K4 (K6 Hc)) as [O1 [O2 O3]].
  assert (L5 : lastb (will_out w5 v) b) by (apply lastb_out; destruct L as [l [x [bl [E1 E2]]]]; exists l, x, bl; rewrite K5; auto).
  destruct (CI_push _ v b O1 L5) as [P1 P2]. split; [exact P1|]. unfold steps_of. rewrite P2, (gr_len _ _ O2), K5. reflexivity.
Qed.

Lemma objs_get : forall w o i, i <> o -> nth_error (w_objs (fst (get_bv w o))) i = nth_error (w_objs w) i.
Proof.
  intros w o i H. unfold get_bv. destruct (nth_error (w_objs w) o) as [ob|] eqn:E.
  - destruct (o_bv ob); [reflexivity|]. rewrite (create_bv_spec w o ob E). cbn. rewrite nth_list_set, E. destruct (Nat.eqb_spec o i); [congruence|reflexivity].
  - reflexivity.
Qed.
Lemma objs_gets : forall os w i, ~ In i os -> nth_error (w_objs (fst (get_bvs w os))) i = nth_error (w_objs w) i.
Proof.
  induction os as [|o r IH]; intros w i H; cbn [get_bvs]; [reflexivity|]. pose proof (objs_get w o i) as G. destruct (get_bv w o) as [w1 v].
  specialize (IH w1 i). destruct (get_bvs w1 r) as [w2 vs]. cbn in *. rewrite IH by tauto. apply G. intros ->. tauto.
Qed.
Lemma objs_deps : forall os w i, ~ In i os -> nth_error (w_objs (fst (add_deps w os))) i = nth_error (w_objs w) i.
Proof.
  induction os as [|o r IH]; intros w i H; cbn [add_deps]; [reflexivity|]. unfold add_dep. pose proof (objs_get w o i) as G. destruct (get_bv w o) as [w1 v].
  specialize (IH (will_dep w1 v) i). destruct (will_dep_rest w1 v) as [R _]. destruct (add_deps (will_dep w1 v) r) as [w2 vs]. cbn in *. rewrite IH by tauto. rewrite R. apply G. intros ->. tauto.
Qed.
Lemma not_arg : forall w args xs, arg_vals w args = Ok xs -> ~ In (length (w_objs w)) args.
Proof. intros w args xs H Hin. pose proof (args_lt _ _ _ H) as A. rewrite Forall_forall in A. specialize (A _ Hin). cbn in A. lia. Qed.

Lemma CI_op : forall w k args, CInv [] w -> CInv [] (fst (exec_op F w k args)) /\ steps_of (fst (exec_op F w k args)) = steps_of w.
Proof.
  intros w k args C. unfold exec_op. destruct (negb _); [auto|]. destruct (arg_vals w args) as [xs|e] eqn:Ea; [|auto].
  destruct (op_value F k xs) as [y|e]; [|auto]. destruct (CI_new_obj [] w y C) as [N1 [N2 N3]].
  unfold new_obj in *. cbn [fst] in *. set (w1 := with_objs _ w) in *. destruct (w_ann w); [|split; [exact N1|reflexivity]].
  pose proof (args_grow _ _ _ N2 (args_in _ _ _ Ea)) as A1.
  pose proof (CI_get_bvs args [] w1 N1 A1) as G. destruct (get_bvs w1 args) as [w2 terms] eqn:Eg. destruct G as [G1 [G2 G3]].
  pose proof (CI_add_deps args [] w2 G1 (args_grow _ _ _ G2 A1)) as D. destruct (add_deps w2 args) as [w3 deps] eqn:Ed. destruct D as [D1 [D2 [D3 D4]]].
  assert (Et : terms = deps).
  { apply (cur_list w3 args); [|exact D3]. clear - G3 D2. induction G3; constructor; auto. eapply gr_cur; eauto. }
  subst deps. destruct (CI_add_block [] w3 (Blk k terms [] None) D1 D4) as [B1 [B2 B3]]; [cbn; tauto|].
  set (w4 := with_tape _ w3) in *.
  assert (Hobj : nth_error (w_objs w4) (length (w_objs w)) = Some (Obj y None 0)).
  { change (w_objs w4) with (w_objs w3). pose proof (objs_deps args w2 (length (w_objs w)) (not_arg _ _ _ Ea)) as Q1.
    pose proof (objs_gets args w1 (length (w_objs w)) (not_arg _ _ _ Ea)) as Q2. rewrite Ed in Q1. rewrite Eg in Q2. cbn [fst] in Q1, Q2.
    rewrite Q1, Q2. unfold w1. cbn. apply nth_last. }
  pose proof (CI_finish w4 _ (length (w_objs w)) B1 B2) as Fi. destruct (get_bv w4 (length (w_objs w))) as [w5 v]. cbn [fst].
  destruct Fi as [F1 F2]; [eapply nth_error_some_lt; eauto|intros u [ob [X1 X2]]; rewrite Hobj in X1; inversion X1; subst; discriminate|].
  split; [exact F1|]. rewrite F2. unfold steps_of. rewrite B3, (gr_len _ _ D2), (gr_len _ _ G2). reflexivity.
Qed.

Lemma CI_fun : forall w k args an, CInv [] w -> CInv [] (fst (exec_fun F w k args an)) /\ steps_of (fst (exec_fun F w k args an)) = steps_of w.
Proof.
  intros w k args an C. unfold exec_fun. destruct (negb _); [auto|]. destruct (arg_vals w args) as [xs|e] eqn:Ea; [|auto].
  set (annotate := w_ann w && an).
  set (w1 := if annotate then let '(w', deps) := add_deps w args in with_tape (fun t => add_block t (Blk k deps [] None)) w' else w).
  assert (I : CInv [] w1 /\ steps_of w1 = steps_of w /\ (annotate = true -> exists b, lastb w1 b) /\ length (w_objs w) <= length (w_objs w1) /\
              length (w_objs w1) = length (w_objs w1)).
  { unfold w1. destruct annotate; [|split; [exact C|]; split; [reflexivity|]; split; [discriminate|]; split; [lia|reflexivity]].
    pose proof (CI_add_deps args [] w C (args_in _ _ _ Ea)) as D. destruct (add_deps w args) as [w' deps]. destruct D as [D1 [D2 [D3 D4]]].
    destruct (CI_add_block [] w' (Blk k deps [] None) D1 D4) as [B1 [B2 B3]]; [cbn; tauto|].
    split; [exact B1|]. split; [unfold steps_of; rewrite B3; apply (gr_len _ _ D2)|]. split; [eauto|]. split; [apply (gr_objs _ _ D2)|reflexivity]. }
  clearbody w1. destruct I as [I1 [I2 [I3 _]]]. destruct (op_value F k xs) as [y|e]; [|auto].
  destruct (CI_new_obj [] w1 y I1) as [N1 [N2 N3]].
  assert (Hobj : length (w_objs w1) < length (w_objs (fst (new_obj w1 y)))) by (cbn; rewrite app_length; cbn; lia).
  unfold new_obj in *. cbn [fst] in *. set (w2 := with_objs _ w1) in *.
  assert (S2 : steps_of w2 = steps_of w) by exact I2.
  destruct annotate; [|auto]. destruct (I3 eq_refl) as [b Lb].
  pose proof (CI_finish w2 b (length (w_objs w1)) N1 Lb Hobj N3) as Fi. destruct (get_bv w2 (length (w_objs w1))) as [w3 v]. cbn [fst].
  destruct Fi as [F1 F2]. split; [exact F1|]. now rewrite F2.
Qed.

Lemma CI_user : forall w u func args an tag, CInv [] w ->
  CInv [] (fst (exec_user w u func args an tag)) /\ steps_of (fst (exec_user w u func args an tag)) = steps_of w.
Proof.
  intros w u func args an tag C. unfold exec_user. destruct (arg_vals w args) as [xs|e] eqn:Ea; [|auto].
  set (annotate := w_ann w && an).
  assert (I : let '(w1, deps) := if annotate then add_deps w args else (w, []) in CInv [] w1 /\ steps_of w1 = steps_of w /\ Forall (now w1) deps /\ (forall v, In v deps -> v < w_next w1)).
  { destruct annotate; [|split; [exact C|]; split; [reflexivity|]; split; [constructor|intros ? []]].
    pose proof (CI_add_deps args [] w C (args_in _ _ _ Ea)) as D. destruct (add_deps w args) as [w' deps]. destruct D as [D1 [D2 [D3 D4]]].
    split; [exact D1|]. split; [apply (gr_len _ _ D2)|]. split; [exact D4|]. intros v Hv.
    clear - D1 D3 Hv. induction D3 as [|o x os vs [ob [A B]] R IH]; [destruct Hv|]. destruct Hv as [->|Hv]; [eapply (ci_objs _ _ D1); eauto|auto]. }
  destruct (if annotate then add_deps w args else (w, [])) as [w1 deps]. destruct I as [I1 [I2 [I3 I4]]].
  destruct (func xs) as [ys|e]; [|auto]. pose proof (CI_new_objs ys [] w1 I1) as N. destruct (new_objs w1 ys) as [w2 os]. destruct N as [N1 [N2 N3]].
  destruct annotate; [|cbn [fst]; split; [exact N1|]; unfold steps_of in *; rewrite (gr_len _ _ N2); exact I2].
  pose proof (CI_add_outs os [] w2 N1 N3) as O. destruct (add_outs w2 os) as [w3 vs]. destruct O as [pend' [O1 [O2 O3]]]. cbn [fst].
  assert (Dn : Forall (now w3) deps).
  { apply Forall_forall. intros v Hv. rewrite Forall_forall in I3. apply (kn_now _ _ O2); [pose proof (gr_next _ _ N2); specialize (I4 v Hv); lia|]. apply (gr_now _ _ N2); auto. }
  destruct (CI_add_block pend' w3 (Blk (KUser u) deps vs tag) O1 Dn) as [B1 [B2 B3]].
  { intros v. cbn [b_outs]. rewrite O3. cbn. tauto. }
  split; [exact B1|]. unfold steps_of in *. rewrite B3, (kn_len _ _ O2), (gr_len _ _ N2). exact I2.
Qed.

Lemma CI_ctrls : forall w c, CInv [] w -> CInv [] (World (w_objs w) (w_heap w) (w_next w) (w_tape w) (w_ann w) c).
Proof. intros w c [c1 c2 c3 c4 c5]. constructor; auto. Qed.
Lemma CI_ann : forall w a, CInv [] w -> CInv [] (World (w_objs w) (w_heap w) (w_next w) (w_tape w) a (w_ctrls w)).
Proof. intros w c [c1 c2 c3 c4 c5]. constructor; auto. Qed.

Lemma CI_stmt : forall w (c : stmt V), pure_stmt c = true -> c <> SEndStep -> CInv [] w ->
  CInv [] (fst (exec_stmt F w c)) /\ steps_of (fst (exec_stmt F w c)) = steps_of w.
Proof.
  intros w c Hp He C. destruct c as [x|k args|k args an|u f args an tag|u f args o an tag|o x| | | |o|o|o]; try discriminate; cbn [exec_stmt].
  - destruct (CI_new_obj [] w x C) as [N1 _]. split; [exact N1|reflexivity].
  - now apply CI_op.
  - now apply CI_fun.
  - now apply CI_user.
  - split; [apply (CI_ann w false C)|reflexivity].
  - split; [apply (CI_ann w true C)|reflexivity].
  - now elim He.
  - destruct (nth_error (w_objs w) o) as [ob|] eqn:Eo; [|auto]. pose proof (CI_get [] w o C (nth_error_some_lt _ _ _ Eo)) as K.
    destruct (get_bv w o) as [w1 v]. destruct K as [K1 [K2 [_ [_ [K5 _]]]]]. cbn [fst]. split; [apply (CI_ctrls w1 _ K1)|]. unfold steps_of. cbn. now rewrite K5.
  - destruct (nth_error (w_objs w) o) as [ob|] eqn:Eo; [|auto]. pose proof (CI_get [] w o C (nth_error_some_lt _ _ _ Eo)) as K.
    destruct (get_bv w o) as [w1 v]. destruct K as [K1 [K2 [_ [_ [K5 _]]]]]. cbn [fst]. split; [exact K1|]. unfold steps_of. cbn. now rewrite K5.
Qed.
End CInv.
