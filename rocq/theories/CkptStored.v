(** Derivatives under a schedule that stores every step: evaluations fill every dictionary, and each
    reverse step starts by restoring its own. *)
From Coq Require Import List Arith ZArith Lia Bool.
From Verif Require Import Base Model BaseFacts Graph Record Spec RecordFacts Replay ReplayExec History Marks Session Ckpt SpecCkpt CkptProtocol CkptRecord CkptStep CkptInv CkptTape CkptEval CkptCall CkptAdj CkptGrad CkptGlob Sweep.
Import ListNotations.

Lemma In_list_set : forall {A} (l : list A) i x y, In x (list_set l i y) -> In x l \/ x = y.
Proof. intros A l. induction l as [|z l IH]; intros [|i] x y H; cbn in *; try tauto; destruct H as [H|H]; auto; destruct (IH _ _ _ H); auto. Qed.

(** ** The dictionaries *)
Section Keep.
Context {V : Type} (F : fops V).
Implicit Types (h : heap V) (s : cst V) (t : tstep V).
Variable cut M : nat -> bool.

(** The marked dependencies of a step are among the variables stored for its adjoint. *)
Definition covered t : Prop := forall b d, In b (ts_blocks t) -> In d (b_deps b) -> M d = true -> In d (adj_set t).
Record KInv s : Prop := {
  ki_adj : Forall covered (t_steps (c_tape s));
  ki_key : keyed (t_steps (c_tape s));
  ki_glob : forall v, cut v = true -> In v (cm_glob (c_man s))
}.
Definition marked h : Prop := forall v, bv_mark (h v) = M v.

Lemma KInv_same : forall s s', KInv s -> t_steps (c_tape s') = t_steps (c_tape s) -> cm_glob (c_man s') = cm_glob (c_man s) -> KInv s'.
Proof. intros s s' [a b c] H1 H2. constructor; rewrite ?H1, ?H2; auto. Qed.
Lemma KInv_put : forall s s' k t, KInv s -> t_steps (c_tape s') = list_set (t_steps (c_tape s)) k t -> cm_glob (c_man s') = cm_glob (c_man s) ->
  covered t -> NoDup (map fst (ts_ckpt t)) -> KInv s'.
Proof.
  intros s s' k t [a b c] H1 H2 Hc Hk. constructor; rewrite ?H1, ?H2; auto.
  - rewrite Forall_forall in *. intros x Hx. apply In_list_set in Hx as [Hx| ->]; auto.
  - now apply keyed_set.
Qed.
Lemma adj_set_same : forall t t', ts_blocks t' = ts_blocks t -> ts_state t' = ts_state t -> ts_adjdeps t' = ts_adjdeps t -> ts_revised t' = ts_revised t -> covered t -> covered t'.
Proof. intros t t' H1 H2 H3 H4 H b d Hb Hd Hm. rewrite H1 in Hb. apply (H b d Hb Hd) in Hm. unfold adj_set in *. now rewrite H2, H3, H4. Qed.
Lemma KInv_nth : forall s k t, KInv s -> nth_error (t_steps (c_tape s)) k = Some t -> covered t /\ NoDup (map fst (ts_ckpt t)).
Proof.
  intros s k t [a b c] E. apply nth_error_In in E. unfold keyed in b. rewrite Forall_forall in a, b. auto.
Qed.

Lemma forward_kinv : forall n0 ics adj st func s k, KInv s -> KInv (fst (forward_step F n0 ics adj st func s k)).
Proof.
  intros n0 ics adj st func s k H. unfold forward_step. destruct (nth_error (t_steps (c_tape s)) k) as [cur|] eqn:E; [|exact H].
  destruct (KInv_nth s k cur H E) as [Hc Hk].
  destruct (iter_o (recompute_block F) (ts_blocks cur) (c_heap s)) as [h1 [e|]]; [now apply (KInv_same s)|].
  assert (K : forall t1 e1, (if is_work st then (cur, None) else ts_checkpoint h1 (cm_glob (c_man s)) (ics && Nat.eqb k n0) adj cur) = (t1, e1) -> covered t1 /\ NoDup (map fst (ts_ckpt t1))).
  { intros t1 e1 E1. destruct (is_work st); [inversion E1; subst; auto|].
    pose proof (checkpoint_core h1 (cm_glob (c_man s)) (ics && Nat.eqb k n0) adj cur) as C. rewrite E1 in C. cbn [fst] in C. destruct C as [C1 [C2 [C3 [C4 C5]]]].
    split; [|now apply C5]. eapply adj_set_same; eauto. }
  destruct (if is_work st then (cur, None) else ts_checkpoint h1 (cm_glob (c_man s)) (ics && Nat.eqb k n0) adj cur) as [t1 e1]. destruct (K t1 e1 eq_refl) as [K1 K2].
  assert (P : KInv (put_step k t1 (on_heap (fun _ => h1) s))) by (eapply KInv_put; eauto; reflexivity).
  destruct e1 as [e1|]; [exact P|].
  destruct (match cm_total (c_man s) with Some n => _ | None => _ end) as [nx|]; [|exact P].
  match goal with |- context[clear_state ?a ?b ?c ?d ?e ?f ?g ?h] => destruct (clear_state a b c d e f g h) as [h3 keep] end.
  now apply (KInv_same (put_step k t1 (on_heap (fun _ => h1) s))).
Qed.

Lemma block_mark : forall mk h b v, bv_mark (fst (adj_block F mk h b) v) = bv_mark (h v).
Proof.
  intros mk h b v. pose proof (adj_sweep_keeps F (@bv_mark V) (fun _ _ => eq_refl) [b] 0 mk h v) as K. unfold evaluate_adj in K. cbn in K.
  destruct (adj_block F mk h b) as [h3 [x|]]; exact K.
Qed.
Lemma fold_marks : forall (f : nat -> bool) l acc d, In d (fold_left (fun a d => if f d then oadd d a else a) l acc) <-> In d acc \/ (In d l /\ f d = true).
Proof.
  intros f. induction l as [|x l IH]; intros acc d; cbn [fold_left]; [cbn; tauto|]. rewrite IH. destruct (f x) eqn:E.
  - rewrite In_oadd. cbn. split; [intros [[H| ->]|H]|intros [H|[[->|H] H']]]; tauto.
  - cbn. split; [tauto|]. intros [H|[[->|H] H']]; [tauto|congruence|tauto].
Qed.
Lemma reverse_blocks_adj : forall mk l h t h' t' e, marked h -> iter_o (reverse_block F mk) l (h, t) = ((h', t'), e) ->
  ts_revised t' = ts_revised t /\ (forall d, M d = true -> In d (ts_adjdeps t) -> In d (ts_adjdeps t')) /\
  (e = None -> ts_revised t = false -> forall b d, In b l -> In d (b_deps b) -> M d = true -> In d (ts_adjdeps t')).
Proof.
  intros mk. induction l as [|b l IH]; intros h t h' t' e Hm E.
  - cbn in E. inversion E; subst. split; [reflexivity|]. split; [auto|]. intros _ _ b d [].
  - cbn [iter_o] in E. unfold reverse_block in E at 1. pose proof (block_mark mk h b) as Hb. destruct (adj_block F mk h b) as [h1 [x|]]; cbn [fst] in Hb.
    { inversion E; subst. split; [reflexivity|]. split; [auto|discriminate]. }
    assert (Hm1 : marked h1) by (intros v; rewrite Hb; apply Hm). destruct (ts_revised t) eqn:Er.
    + destruct (IH _ _ _ _ _ Hm1 E) as [A [B C]]. rewrite A. split; [exact Er|]. split; [exact B|]. intros _ X. discriminate.
    + match type of E with iter_o _ _ (_, ?x) = _ => set (t1 := x) in * end. destruct (IH _ _ _ _ _ Hm1 E) as [A [B C]].
      assert (G : forall d, M d = true -> In d (ts_adjdeps t) \/ In d (b_deps b) -> In d (ts_adjdeps t1)).
      { intros d Hd Hin. unfold t1. cbn [ts_adjdeps]. apply minus_In. split.
        - apply (fold_marks (fun d => bv_mark (h1 d))). rewrite Hm1. tauto.
        - intros X. apply filter_In in X as [_ X]. rewrite Hm1, Hd in X. discriminate. }
      split; [rewrite A; reflexivity|]. split; [auto|].
      intros He _ b' d [->|Hb'] Hd Hmd; [apply B; auto|]. apply (C He eq_refl b' d Hb' Hd Hmd).
Qed.
Lemma reverse_kinv : forall clear mk s k, marked (c_heap s) -> KInv s -> KInv (fst (reverse_step F clear mk s k)).
Proof.
  intros clear mk s k Hm H. unfold reverse_step. destruct (nth_error (t_steps (c_tape s)) k) as [cur|] eqn:E; [|exact H].
  destruct (KInv_nth s k cur H E) as [Hc Hk].
  destruct (iter_o (reverse_block F mk) (rev (ts_blocks cur)) (c_heap s, cur)) as [[h1 cur1] e] eqn:Ei.
  destruct (reverse_blocks F mk _ _ _ _ Ei) as [_ [B C]]. cbn [fst snd] in *. injection B as B1 B2.
  destruct (reverse_blocks_adj mk _ _ _ _ _ _ Hm Ei) as [R1 [R2 R3]].
  destruct e as [e|]; cbn [fst]; (eapply KInv_put; [exact H|reflexivity|reflexivity| |cbn; rewrite C; exact Hk]).
  - intros b d Hb Hd Hmd. rewrite B1 in Hb. specialize (Hc b d Hb Hd Hmd). apply adj_set_In in Hc. apply adj_set_In. rewrite R1, B2. destruct Hc as [Hc|Hc]; auto.
  - intros b d Hb Hd Hmd. cbn [ts_blocks] in Hb. rewrite B1 in Hb. apply adj_set_In. cbn [ts_adjdeps]. left. destruct (ts_revised cur) eqn:Er.
    + specialize (Hc b d Hb Hd Hmd). apply adj_set_In in Hc as [Hc|[Hc _]]; [auto|congruence].
    + apply (R3 eq_refl eq_refl b d); auto. now apply -> in_rev.
Qed.

Lemma process_kinv : forall func mk s a, match a with AReverse _ _ _ => marked (c_heap s) | _ => True end -> KInv s -> KInv (fst (process_op F func mk s a)).
Proof.
  intros func mk s a Ha H. destruct a as [n0 n1 ics adj st|n1 n0 clear|k st|k st| |]; cbn [process_op].
  - match goal with |- context[iter_o ?f ?l ?x] => destruct (iter_o f l x) as [s' e] eqn:Ei; refine (iter_o_inv f KInv l x s' e _ H Ei) end.
    intros s1 x s2 e2 _ H1 E1. pose proof (forward_kinv n0 ics adj st func s1 x H1) as K. now rewrite E1 in K.
  - match goal with |- context[iter_o ?f ?l ?x] => destruct (iter_o f l x) as [s' e] eqn:Ei; refine (proj1 (iter_o_inv f (fun z => KInv z /\ marked (c_heap z)) l x s' e _ (conj H Ha) Ei)) end.
    intros s1 x s2 e2 _ [H1 M1] E1. pose proof (reverse_kinv clear mk s1 x M1 H1) as K. pose proof (reverse_step_mark F clear mk s1 x) as Q. rewrite E1 in K, Q. split; [exact K|].
    intros v. exact (eq_trans (Q v) (M1 v)).
  - destruct (nth_error (t_steps (c_tape s)) k) as [cur|] eqn:E; [|exact H]. now apply (KInv_same s).
  - destruct (nth_error (t_steps (c_tape s)) k) as [cur|] eqn:E; [|exact H]. destruct (KInv_nth s k cur H E) as [Hc Hk].
    eapply KInv_put; [exact H|reflexivity|reflexivity| |constructor]. eapply adj_set_same; [..|exact Hc]; reflexivity.
  - now apply (KInv_same s).
  - now apply (KInv_same s).
Qed.
Lemma no_reverse : forall n k acts, covers n k acts -> forall a, In a acts -> match a with AReverse _ _ _ => False | _ => True end.
Proof. intros n k acts H. induction H as [|k n1 ics adj st rest _ _ _ IH]; intros a Ha; cbn in Ha; destruct Ha as [<-|Ha]; try exact I; [destruct Ha|exact (IH a Ha)]. Qed.
Lemma recompute_kinv : forall n func s, covers n 0 (cm_fwd (c_man s)) -> cm_mode (c_man s) <> MRecord -> KInv s -> KInv (fst (cm_recompute F func s)).
Proof.
  intros n func s Hc Hm H. unfold cm_recompute.
  replace (match cm_mode (c_man s) with MRecord => end_taping s | _ => (s, None) end) with (s, @None exn) by (destruct (cm_mode (c_man s)); congruence).
  cbn [andthen]. set (s2 := on_man (set_mode MRecompute) s). assert (H2 : KInv s2) by now apply (KInv_same s).
  change (cm_fwd (c_man s2)) with (cm_fwd (c_man s)). destruct (cm_fwd (c_man s)) as [|[n0 n1 ics adj st| | | | |] acts] eqn:Ef; try exact H2.
  destruct (nth_error (t_steps (c_tape s2)) n0) as [cur|] eqn:E; [|exact H2].
  match goal with |- context[iter_o ?f ?l ?x] => destruct (iter_o f l x) as [s' e] eqn:Ei; refine (iter_o_inv f KInv l x s' e _ _ Ei) end; [|now apply (KInv_same s2)].
  intros s3 a s4 e4 Ha H3 E3. pose proof (process_kinv func false (on_man (set_cur a) s3) a) as K. rewrite E3 in K. apply K; [|now apply (KInv_same s3)].
  pose proof (no_reverse _ _ _ Hc a Ha) as Z. destruct a; auto. destruct Z.
Qed.
Lemma acts_kinv : forall (g : action -> cman -> cman) acts s, (forall a m, cm_glob (g a m) = cm_glob m) -> marked (c_heap s) -> KInv s ->
  KInv (fst (iter_o (fun s a => process_op F None true (on_man (g a) s) a) acts s)).
Proof.
  intros g acts s Hg Hm H.
  match goal with |- context[iter_o ?f ?l ?x] => destruct (iter_o f l x) as [s' e] eqn:Ei; refine (proj1 (iter_o_inv f (fun z => KInv z /\ marked (c_heap z)) l x s' e _ (conj H Hm) Ei)) end.
  intros s1 a s2 e2 _ [H1 M1] E1. pose proof (process_kinv None true (on_man (g a) s1) a) as K. pose proof (process_mark F None true (on_man (g a) s1) a) as Q. rewrite E1 in K, Q.
  split; [|intros v; exact (eq_trans (Q v) (M1 v))]. apply K; [|apply (KInv_same s1); cbn; auto]. destruct a; auto.
Qed.
End Keep.

(** ** Forward *)
Section Forward.
Context {V : Type} (F : fops V).
Implicit Types (h : heap V) (s : cst V).
Variable sc : schedule.
Variable n : nat.
Variable fwd : list action.
Variable sk : list (list (block V) * list nat).
Variable r : nat -> V.
Variable cut M : nat -> bool.
Local Notation Fz := (fun v : nat => M v = false).
Local Notation bs := (flat_map fst sk).
Local Notation EI := (EInv sc n fwd sk r Fz cut).
Local Notation KI := (KInv (V := V) cut M).
Local Notation bks := (bks sk).
Local Notation stt := (stt sk).
Hypothesis SO : StepsOK n sk.
Hypothesis Hwf : wf_tape bs.
Hypothesis Hraw : forall b, In b bs -> raw_result (b_kind b) = false.
Hypothesis Hfz : forall b, In b bs -> frozen F r Fz cut b.
Hypothesis Hval : forall b, In b bs -> gives_value F b.
Hypothesis Hleaves : forall v, cut v = true -> ~ In v (outs_of bs).
Hypothesis Hrest : forall v, ~ In v (outs_of bs) -> cut v = true \/ Fz v.
Variable c0 : nat.
Hypothesis Hc0 : cut c0 = true.

Definition agreed (k : nat) h (e : nat -> V) : Prop := forall v, In v (stt k) \/ Fz v \/ cut v = true -> saved h v = e v.
Definition Stored (m : nat) (e : nat -> V) (l : list (tstep V)) : Prop :=
  forall k t b d, k < m -> nth_error l k = Some t -> In b (bks k) -> In d (b_deps b) -> M d = true -> dget d (ts_ckpt t) = Some (Some (e d, false)).

Lemma later_in : forall j k v, j <= k < n -> In v (outs_of (bks k)) -> In v (later n sk j).
Proof.
  intros j k v Hk Hv. unfold later, from. unfold outs_of in *. apply in_flat_map in Hv as [b [Hb Hv]]. apply in_flat_map. exists b. split; [|exact Hv].
  apply in_flat_map. exists k. split; [apply in_seq; lia|exact Hb].
Qed.
Lemma bks_outs : forall k v, In v (outs_of (bks k)) -> In v (outs_of bs).
Proof. intros k v H. unfold outs_of in *. apply in_flat_map in H as [b [Hb Hv]]. apply in_flat_map. exists b. split; [now apply (bks_in sk k)|exact Hv]. Qed.
Lemma wf_from : wf_tape (from n sk 0).
Proof. rewrite (from_all n sk (so_len _ _ SO)). exact Hwf. Qed.
Lemma cut_outs : forall b o, In b bs -> existsb cut (b_outs b) = true -> In o (b_outs b) -> cut o = true \/ Fz o.
Proof. intros b o Hb He Ho. exfalso. apply existsb_exists in He as [u [Hu Hc]]. apply (Hleaves u Hc). apply in_flat_map. eauto. Qed.

Lemma blocks_agreed : forall k h e, k < n -> HInv r Fz cut h -> agreed k h e ->
  snd (iter_o (recompute_block F) (bks k) h) = snd (geval F cut (bks k) e) /\
  (snd (geval F cut (bks k) e) = None -> forall v, In v (stt k) \/ Fz v \/ cut v = true \/ In v (outs_of (bks k)) ->
     saved (fst (iter_o (recompute_block F) (bks k) h)) v = fst (geval F cut (bks k) e) v).
Proof.
  intros k h e Hk H A.
  assert (G : forall J, cut J = true -> forall v, live n sk cut J k v \/ Fz v \/ In v (outs_of (@nil (block V))) -> saved h v = e v).
  { intros J HJ v [[K|[[-> _]|[K _]]]|[K|[]]]; apply A; auto. }
  pose proof (fun J HJ => step_agree F n sk r Fz cut Hraw Hfz (so_len _ _ SO) J (so_dep _ _ SO) wf_from Hval cut_outs k Hk (bks k) [] h e eq_refl H (G J HJ)) as S.
  destruct (S c0 Hc0) as [S1 S2]. split; [exact S1|]. intros N v Hv. specialize (S2 N).
  destruct Hv as [Hv|[Hv|[Hv|Hv]]]; [apply S2; left; now left|apply S2; auto| |apply S2; auto].
  destruct (S v Hv) as [_ S3]. apply (S3 N). left. right. left. split; [reflexivity|]. intros X. apply (Hleaves v Hv). unfold later in X. destruct (from_suffix n sk (so_len _ _ SO) k) as [pre E]; [lia|].
  rewrite <- (from_all n sk (so_len _ _ SO)), E, outs_app. apply in_or_app. now right.
Qed.

Lemma dep_later : forall j k b d, j < k < n -> In b (bks j) -> In d (b_deps b) -> ~ In d (outs_of (bks k)).
Proof. intros j k b d Hk Hb Hd X. refine (step_deps_disj n sk SO Hwf j b d _ Hb Hd _); [lia|]. eapply later_in; [|exact X]. lia. Qed.

Lemma forward_store : forall n0 ics st func s e k, k < n -> is_work st = false -> EI s -> KI s -> agreed k (c_heap s) e -> Stored k e (t_steps (c_tape s)) ->
  let res := forward_step F n0 ics true st func s k in let g := geval F cut (bks k) e in
  EI (fst res) /\ KI (fst res) /\ snd res = snd g /\ (snd g = None -> agreed (S k) (c_heap (fst res)) (fst g) /\ Stored (S k) (fst g) (t_steps (c_tape (fst res)))).
Proof.
  intros n0 ics st func s e k Hk Hst H HK A St. cbv zeta.
  assert (Ec : exists cur, nth_error (t_steps (c_tape s)) k = Some cur).
  { destruct (nth_error (t_steps (c_tape s)) k) as [cur|] eqn:E; [eauto|]. pose proof (nth_sk sc n fwd sk r Fz s cut k H) as N. rewrite E in N. cbn in N. apply nth_error_None in N. rewrite (so_len _ _ SO) in N. lia. }
  destruct Ec as [cur Ec]. destruct (blocks_agreed k (c_heap s) e Hk (ei_heap _ _ _ _ _ _ _ _ H) A) as [S1 S2].
  pose proof (forward_full F sc n fwd sk r Fz cut Hraw Hfz (so_len _ _ SO) n0 ics true st func s k cur H Hk Ec) as P.
  pose proof (forward_kinv F cut M n0 ics true st func s k HK) as HK1.
  destruct (iter_o (recompute_block F) (bks k) (c_heap s)) as [h1 x1] eqn:E1. cbn [fst snd] in *. destruct P as [P1 [P2 P3]].
  split; [exact P1|]. split; [exact HK1|]. split; [congruence|]. intros N. specialize (S2 N). rewrite S1, N in P3. destruct (P3 eq_refl) as [P4 P5]. rewrite Hst in P5.
  assert (H1 : HInv r Fz cut h1).
  { refine (recompute_list_inv F sk r Fz cut Hraw Hfz _ _ _ _ _ (ei_heap _ _ _ _ _ _ _ _ H) E1). intros b Hb. now apply (bks_in sk k). }
  split.
  - intros v Hv. destruct Hv as [Hv|[Hv|Hv]].
    + destruct (P4 v) as [P|[_ [_ [P _]]]]; [|contradiction]. unfold saved. rewrite P. apply S2. destruct (so_state _ _ SO k v Hv) as [K|K]; auto.
    + rewrite (fz_saved _ _ _ _ v (ei_heap _ _ _ _ _ _ _ _ P1) Hv), <- S2 by auto. symmetry. exact (fz_saved _ _ _ _ v H1 Hv).
    + destruct (P4 v) as [P|[_ [[[_ P]|P] _]]].
      * unfold saved. rewrite P. apply S2. auto.
      * elim P. apply (ki_glob _ _ _ HK v Hv).
      * elim (Hleaves v Hv). eapply bks_outs; eauto.
  - intros j t b d Hj Et Hb Hd Hm. rewrite P5, nth_list_set in Et. destruct (Nat.eqb_spec k j) as [<-|Ne].
    + rewrite Ec in Et. inversion Et; subst t. cbn [after_store ts_ckpt]. rewrite dget_put_all.
      destruct (KInv_nth cut M s k cur HK Ec) as [Hcov _].
      assert (Hin : In d (adj_set cur)).
      { apply (Hcov b d); auto. unfold CkptEval.bks in Hb. rewrite (nth_sk sc n fwd sk r Fz s cut k H), Ec in Hb. exact Hb. }
      apply mem_In in Hin. rewrite Hin. unfold keep_saved. do 3 f_equal. apply S2. destruct (so_dep _ _ SO k b d Hb Hd); auto.
    + assert (Hj' : j < k) by lia. rewrite (St j t b d Hj' Et Hb Hd Hm). do 3 f_equal. symmetry. apply geval_frame. intros X. apply computed_outs in X.
      exact (dep_later j k b d (conj Hj' Hk) Hb Hd X).
Qed.

Lemma run_store : forall n0 ics st func, is_work st = false -> forall j k s e, k + j <= n -> EI s -> KI s -> agreed k (c_heap s) e -> Stored k e (t_steps (c_tape s)) ->
  let res := iter_o (forward_step F n0 ics true st func) (seq k j) s in let g := geval F cut (flat_map bks (seq k j)) e in
  EI (fst res) /\ KI (fst res) /\ snd res = snd g /\ (snd g = None -> agreed (k + j) (c_heap (fst res)) (fst g) /\ Stored (k + j) (fst g) (t_steps (c_tape (fst res)))).
Proof.
  intros n0 ics st func Hst. induction j as [|j IH]; intros k s e Hk H HK A St; cbv zeta.
  - cbn. rewrite Nat.add_0_r. auto.
  - cbn [seq flat_map iter_o]. rewrite geval_app. destruct (forward_store n0 ics st func s e k) as [S1 [S2 [S3 S4]]]; auto; [lia|].
    destruct (forward_step F n0 ics true st func s k) as [s1 x1]. destruct (geval F cut (bks k) e) as [e1 y1]. cbn [fst snd] in *. subst x1.
    destruct y1 as [y|]; cbn [andthen fst snd]; [split; [exact S1|split; [exact S2|split; [reflexivity|discriminate]]]|].
    destruct (S4 eq_refl) as [S5 S6]. specialize (IH (S k) s1 e1). rewrite Nat.add_succ_comm in IH. apply IH; auto; lia.
Qed.

Lemma covers_store : forall func k acts, covers n k acts -> Forall storing acts -> forall s e, EI s -> KI s -> agreed k (c_heap s) e -> Stored k e (t_steps (c_tape s)) ->
  let res := iter_o (fun s a => process_op F func false (on_man (set_cur a) s) a) acts s in let g := geval F cut (from n sk k) e in
  snd res = snd g /\ (snd g = None -> agreed n (c_heap (fst res)) (fst g) /\ Stored n (fst g) (t_steps (c_tape (fst res)))).
Proof.
  intros func k acts Hc. induction Hc as [|k n1 ics adj st rest Hk Hb Hr IH]; intros Hs s e H HK A St; cbv zeta.
  - cbn [iter_o process_op]. rewrite (from_end n sk (so_len _ _ SO)) by lia. cbn. auto.
  - cbn [iter_o process_op]. set (s0 := on_man (set_cur (AForward k n1 ics adj st)) s). pose proof (Forall_inv Hs) as [Hadj Hst]. apply Forall_inv_tail in Hs. subst adj.
    assert (H0 : EI s0) by (apply EInv_man; [exact H|apply MFix_cur; apply (ei_man _ _ _ _ _ _ _ _ H)]).
    assert (HK0 : KI s0) by now apply (KInv_same cut M s).
    set (q := match n1 with Some b => Nat.min b n | None => n end) in *.
    assert (Fs : fwd_steps k n1 (c_man s0) (length (t_steps (c_tape s0))) = seq k (q - k)).
    { unfold fwd_steps. rewrite (mf_total _ _ _ _ (ei_man _ _ _ _ _ _ _ _ H0)). unfold q. destruct n1; reflexivity. }
    rewrite Fs. assert (Hq : k <= q <= n) by (unfold q; destruct n1; lia).
    destruct (run_store k ics st func Hst (q - k) k s0 e) as [R1 [R2 [R3 R4]]]; auto; [lia|].
    assert (Ef : from n sk k = flat_map bks (seq k (q - k)) ++ from n sk q).
    { unfold from. rewrite <- flat_map_app. f_equal. replace (n - k) with ((q - k) + (n - q)) by lia. rewrite seq_app. f_equal. f_equal. lia. }
    rewrite Ef, geval_app.
    destruct (iter_o _ (seq k (q - k)) s0) as [s1 x1]. destruct (geval F cut (flat_map bks (seq k (q - k))) e) as [e1 y1]. cbn [fst snd] in *. subst x1.
    destruct y1 as [y|]; cbn [andthen fst snd]; [split; [reflexivity|discriminate]|].
    destruct (R4 eq_refl) as [R5 R6]. replace (k + (q - k)) with q in * by lia. apply IH; auto.
Qed.

Hypothesis Hn : 1 <= n.
Hypothesis Hfwd : covers n 0 fwd.
Hypothesis Hsto : Forall storing fwd.
Lemma recompute_store : forall func s e, EI s -> KI s -> cm_mode (c_man s) <> MRecord -> (forall v, cut v = true -> saved (c_heap s) v = e v) -> (forall v, Fz v -> e v = r v) ->
  let res := cm_recompute F func s in let g := geval F cut bs e in
  snd res = snd g /\ (snd g = None -> agreed n (c_heap (fst res)) (fst g) /\ Stored n (fst g) (t_steps (c_tape (fst res)))).
Proof.
  intros func s e H HK Hm Hc He. cbv zeta. unfold cm_recompute.
  replace (match cm_mode (c_man s) with MRecord => end_taping s | _ => (s, None) end) with (s, @None exn) by (destruct (cm_mode (c_man s)); congruence).
  cbn [andthen]. set (s2 := on_man (set_mode MRecompute) s).
  assert (H2 : EI s2) by (apply EInv_man; [exact H|apply MFix_mode; apply (ei_man _ _ _ _ _ _ _ _ H)]).
  assert (HK2 : KI s2) by now apply (KInv_same cut M s).
  rewrite (mf_fwd _ _ _ _ (ei_man _ _ _ _ _ _ _ _ H2)).
  assert (Fw : exists n1 ics adj st acts, fwd = AForward 0 n1 ics adj st :: acts).
  { clear - Hfwd Hn. inversion Hfwd as [Hz|k n1 ics adj st rest Hk Hn1 Hr Hx Hy]; subst; [lia|]. exists n1, ics, adj, st, rest. reflexivity. }
  destruct Fw as [n1 [ics [adj [st [acts Ef]]]]].
  destruct (nth_error (t_steps (c_tape s2)) 0) as [cur|] eqn:Ec.
  2:{ apply nth_error_None in Ec. assert (L : length (map tsk (t_steps (c_tape s2))) = n) by (rewrite (ei_sk _ _ _ _ _ _ _ _ H2); apply SO). rewrite map_length in L. lia. }
  set (body := iter_o (fun s a => process_op F func false (on_man (set_cur a) s) a) fwd (on_heap (fun h => ts_restore h cur) s2)).
  match goal with |- snd ?x = _ /\ _ => replace x with body by (unfold body; rewrite Ef, Ec; reflexivity) end.
  unfold body. rewrite <- (from_all n sk (so_len _ _ SO)).
  assert (H3 : HInv r Fz cut (ts_restore (c_heap s2) cur)) by (apply HInv_restore; [apply (ei_heap _ _ _ _ _ _ _ _ H2)|eapply EInv_dict; eauto]).
  apply (covers_store func 0 fwd Hfwd Hsto); [apply (EInv_heap sc n fwd sk r Fz cut cut s2 _ H2 H3)|now apply (KInv_same cut M s2)| |intros j t b d Hj; lia].
  cbn [on_heap c_heap]. intros v Hv.
  assert (Q : cut v = true \/ Fz v).
  { destruct Hv as [Hv|[Hv|Hv]]; auto. apply Hrest. intros X. apply (so_disj _ _ SO 0 v Hv). unfold later. rewrite (from_all n sk (so_len _ _ SO)). exact X. }
  destruct Q as [Q|Q]; [|rewrite (He v Q); exact (fz_saved _ _ _ _ v H3 Q)].
  rewrite <- (Hc v Q). unfold saved. rewrite (restore_ctrl r Fz cut); auto. apply (ei_heap _ _ _ _ _ _ _ _ H2).
Qed.
End Forward.

(** ** Backward *)
Lemma restoring_reverses : forall n k acts, k <= n -> restoring k acts -> reverses n k acts.
Proof. intros n k acts Hk H. revert Hk. induction H as [|k st clear rest H IH|k st clear rest H IH]; intros Hk; [constructor| |]; (constructor; [lia|]); (constructor; [lia|]); apply IH; lia. Qed.

Section Backward.
Context {V : Type} (F : fops V).
Implicit Types (h : heap V) (s : cst V).
Variable sc : schedule.
Variable n : nat.
Variable fwd : list action.
Variable sk : list (list (block V) * list nat).
Variable r : nat -> V.
Variable cut M : nat -> bool.
Local Notation Fz := (fun v : nat => M v = false).
Local Notation bs := (flat_map fst sk).
Local Notation EI := (EInv sc n fwd sk r Fz cut).
Local Notation KI := (KInv (V := V) cut M).
Local Notation bks := (bks sk).
Hypothesis SO : StepsOK n sk.
Hypothesis Hwf : wf_tape bs.
Hypothesis Hraw : forall b, In b bs -> raw_result (b_kind b) = false.
Hypothesis Hfz : forall b, In b bs -> frozen F r Fz cut b.
Hypothesis Hleaves : forall v, cut v = true -> ~ In v (outs_of bs).
Variable e : nat -> V.
Hypothesis Hez : forall v, Fz v -> e v = r v.

Definition at_env (hp : heap V) : Prop := forall b d, In b bs -> In d (b_deps b) -> saved hp d = e d.
Lemma at_env_adj : forall l hp, at_env hp -> at_env (fst (iter_o (adj_block F true) l hp)).
Proof.
  intros l hp H b d Hb Hd. assert (C : same_core hp (fst (iter_o (adj_block F true) l hp))).
  { destruct (iter_o _ l hp) as [h1 x] eqn:E. refine (iter_o_inv _ (same_core hp) _ _ _ _ _ (same_core_refl _) E).
    intros h2 y h3 e3 _ H2 E2. eapply same_core_trans; [exact H2|]. pose proof (adj_block_core F true h2 y) as K. now rewrite E2 in K. }
  rewrite (core_saved _ _ d (C d)). eauto.
Qed.

Lemma reverse_out_other : forall clear keep l h v, ~ In v l -> fold_left (reverse_out clear keep) l h v = h v.
Proof.
  intros clear keep. induction l as [|o l IH]; intros h v Hv; [reflexivity|]. cbn [fold_left]. rewrite IH by (intros X; apply Hv; now right).
  assert (Ne : Nat.eqb v o = false) by (apply Nat.eqb_neq; intros ->; apply Hv; now left).
  unfold reverse_out, drop, upd. destruct (bv_ctrl (h o)), (clear && negb (mem o keep)); rewrite ?Ne; reflexivity.
Qed.
Lemma reverse_step_kept : forall clear s k, EI s -> (forall j, j <> k -> nth_error (t_steps (c_tape (fst (reverse_step F clear true s k)))) j = nth_error (t_steps (c_tape s)) j) /\
  (forall v, cut v = true -> saved (c_heap (fst (reverse_step F clear true s k))) v = saved (c_heap s) v).
Proof.
  intros clear s k H. unfold reverse_step. pose proof (nth_sk sc n fwd sk r Fz s cut k H) as N.
  destruct (nth_error (t_steps (c_tape s)) k) as [cur|] eqn:E; [|auto]. cbn in N.
  destruct (iter_o (reverse_block F true) (rev (ts_blocks cur)) (c_heap s, cur)) as [[h1 cur1] x] eqn:Ei.
  destruct (reverse_blocks F true _ _ _ _ Ei) as [C _]. cbn [fst] in C.
  destruct x as [x|]; cbn [fst put_step on_tape_ on_heap set_steps c_tape c_heap t_steps]; (split; [intros j Hj; rewrite nth_list_set; destruct (Nat.eqb_spec k j); [congruence|reflexivity]|]); intros v Hv.
  - apply core_saved. apply C.
  - unfold saved. rewrite reverse_out_other; [apply core_saved; apply C|]. intros X. apply (Hleaves v Hv). apply (bks_outs sk k). unfold CkptEval.bks. rewrite N. exact X.
Qed.

Lemma saved_put : forall (x : V) b, bv_ctrl b = false -> bv_ckpt (put_entry (Some (x, false)) b) = Some x.
Proof. intros x b H. unfold put_entry, put_ckpt. rewrite H. reflexivity. Qed.

Section Pass.
Variable g : action -> cman -> cman.
Hypothesis Hg : forall a m, MFix sc n fwd m -> MFix sc n fwd (g a m).
Hypothesis Hgg : forall a m, cm_glob (g a m) = cm_glob m.
Local Notation body := (fun s a => process_op F None true (on_man (g a) s) a).

(** Loading a step's checkpoint, then reversing it. *)
Lemma load_reverse : forall a k st clear s hp, a = ACopy k st \/ a = AMove k st -> k < n -> EI s -> KI s -> marked M (c_heap s) ->
  Rel sk cut (later n sk (S k)) (c_heap s) hp -> at_env hp -> Stored sk M (S k) e (t_steps (c_tape s)) -> (forall v, cut v = true -> saved (c_heap s) v = e v) ->
  let pl := iter_o (adj_block F true) (rev (bks k)) hp in
  let rs := iter_o body [a; AReverse (S k) k clear] s in
  snd rs = snd pl /\ (snd pl = None -> EI (fst rs) /\ KI (fst rs) /\ marked M (c_heap (fst rs)) /\ Rel sk cut (later n sk k) (c_heap (fst rs)) (fst pl) /\
    Stored sk M k e (t_steps (c_tape (fst rs))) /\ forall v, cut v = true -> saved (c_heap (fst rs)) v = e v).
Proof.
  intros a k st clear s hp Ha Hk H HK Hm R A St Hc. cbv zeta. cbn [iter_o].
  assert (Hg' : EI (on_man (g a) s)) by (apply EInv_man; [exact H|apply Hg; apply (ei_man _ _ _ _ _ _ _ _ H)]).
  assert (Kg' : KI (on_man (g a) s)) by (apply (KInv_same cut M s); cbn; auto).
  assert (Na : match a with AReverse _ _ _ => False | _ => True end) by (destruct Ha as [-> | ->]; exact I).
  pose proof (process_inv F sc n fwd sk r Fz cut Hraw Hfz (so_len _ _ SO) None true _ a Hg') as I1.
  pose proof (process_erase F None true (on_man (g a) s) a Na) as Er.
  pose proof (process_kinv F cut M None true (on_man (g a) s) a) as K1.
  assert (Ec : exists cur, nth_error (t_steps (c_tape s)) k = Some cur).
  { destruct (nth_error (t_steps (c_tape s)) k) as [cur|] eqn:E; [eauto|]. pose proof (nth_sk sc n fwd sk r Fz s cut k H) as N. rewrite E in N. cbn in N. apply nth_error_None in N. rewrite (so_len _ _ SO) in N. lia. }
  destruct Ec as [cur Ec].
  assert (L : snd (process_op F None true (on_man (g a) s) a) = None /\ c_heap (fst (process_op F None true (on_man (g a) s) a)) = ts_restore (c_heap s) cur /\
              forall j, j <> k -> nth_error (t_steps (c_tape (fst (process_op F None true (on_man (g a) s) a)))) j = nth_error (t_steps (c_tape s)) j).
  { destruct Ha as [-> | ->]; cbn [process_op on_man c_tape]; rewrite Ec; cbn [fst snd put_step on_tape_ on_heap set_steps c_heap c_tape t_steps]; (split; [reflexivity|]); (split; [reflexivity|]); intros j Hj; [reflexivity|].
    rewrite nth_list_set. destruct (Nat.eqb_spec k j); [congruence|reflexivity]. }
  destruct (process_op F None true (on_man (g a) s) a) as [s1 x1]. cbn [fst snd] in *. destruct L as [-> [L2 L3]].
  assert (KI1 : KI s1) by (apply K1; [destruct a; auto; destruct Na|exact Kg']). clear K1.
  destruct (KInv_nth cut M s k cur HK Ec) as [_ Nd].
  assert (Hv : forall b d, In b (bks k) -> In d (b_deps b) -> saved (c_heap s1) d = e d).
  { intros b d Hb Hd. destruct (M d) eqn:Em.
    - rewrite L2. destruct (cut d) eqn:Ecd.
      + unfold saved. rewrite (restore_ctrl r Fz cut _ cur d (ei_heap _ _ _ _ _ _ _ _ H) Ecd). apply (Hc d Ecd).
      + unfold saved. rewrite restore_at by exact Nd. rewrite (St k cur b d (Nat.lt_succ_diag_r k) Ec Hb Hd Em).
        rewrite saved_put; [reflexivity|]. rewrite (hi_ctrl _ _ _ _ (ei_heap _ _ _ _ _ _ _ _ H)). exact Ecd.
    - rewrite (Hez d Em). exact (fz_saved _ _ _ _ d (ei_heap _ _ _ _ _ _ _ _ I1) Em). }
  assert (Hc1 : forall v, cut v = true -> saved (c_heap s1) v = e v).
  { intros v Hcv. rewrite L2. unfold saved. rewrite (restore_ctrl r Fz cut _ cur v (ei_heap _ _ _ _ _ _ _ _ H) Hcv). now apply Hc. }
  assert (Hm1 : marked M (c_heap s1)) by (intros v; destruct (erase_fields _ _ (Er v)) as [_ [_ [_ [_ [Q _]]]]]; rewrite Q; apply Hm).
  pose proof (Rel_erase sk cut _ _ _ _ Er R) as R1.
  set (a2 := AReverse (S k) k clear). set (s2 := on_man (g a2) s1).
  assert (I2 : EI s2) by (apply EInv_man; [exact I1|apply Hg; apply (ei_man _ _ _ _ _ _ _ _ I1)]).
  assert (K2 : KI s2) by (apply (KInv_same cut M s1); cbn; auto).
  assert (Pr : process_op F None true s2 a2 = match reverse_step F clear true s2 k with (s', Some x) => (s', Some x) | (s', None) => (s', None) end).
  { unfold a2. cbn [process_op]. replace (S k - k) with 1 by lia. cbn [seq rev app iter_o]. reflexivity. }
  cbn [andthen]. rewrite Pr.
  destruct (reverse_step_sim F n sk cut SO Hwf clear s2 hp k Hk (ei_sk _ _ _ _ _ _ _ _ I2)) as [S1 S2]; [intros v; apply (hi_ctrl _ _ _ _ (ei_heap _ _ _ _ _ _ _ _ I2))|exact R1| |].
  { intros b d Hb Hd. transitivity (e d); [exact (Hv b d Hb Hd)|]. symmetry. apply (A b d); [now apply (bks_in sk k)|exact Hd]. }
  pose proof (reverse_inv F sc n fwd sk r Fz clear true s2 k cut I2) as I3. pose proof (reverse_kinv F cut M clear true s2 k Hm1 K2) as K3.
  pose proof (reverse_step_mark F clear true s2 k) as M3. destruct (reverse_step_kept clear s2 k I2) as [T3 C3].
  destruct (iter_o (adj_block F true) (rev (bks k)) hp) as [hp1 e1]. cbn [fst snd] in *.
  destruct (reverse_step F clear true s2 k) as [s3 x3]. cbn [fst snd] in *. subst x3.
  destruct e1 as [x|]; cbn [andthen fst snd]; [split; [reflexivity|discriminate]|].
  split; [reflexivity|]. intros _. split; [exact I3|]. split; [exact K3|]. split; [intros v; exact (eq_trans (M3 v) (Hm1 v))|]. split; [now apply S2|]. split.
  - intros j t b d Hj Et Hb Hd Hmd. rewrite T3 in Et by lia. cbn [s2 on_man c_tape] in Et. rewrite L3 in Et by lia. apply (St j t b d); auto.
  - intros v Hcv. rewrite (C3 v Hcv). now apply Hc1.
Qed.

Lemma restoring_acts : forall m acts, restoring m acts -> m <= n -> forall s hp, EI s -> KI s -> marked M (c_heap s) ->
  Rel sk cut (later n sk m) (c_heap s) hp -> at_env hp -> Stored sk M m e (t_steps (c_tape s)) -> (forall v, cut v = true -> saved (c_heap s) v = e v) ->
  let pl := iter_o (adj_block F true) (rev (upto sk m)) hp in
  let rs := iter_o body acts s in
  snd rs = snd pl /\ (snd pl = None -> Rel sk cut (later n sk 0) (c_heap (fst rs)) (fst pl)).
Proof.
  assert (G : forall a k st clear rest, a = ACopy k st \/ a = AMove k st ->
    (k <= n -> forall s hp, EI s -> KI s -> marked M (c_heap s) -> Rel sk cut (later n sk k) (c_heap s) hp -> at_env hp -> Stored sk M k e (t_steps (c_tape s)) -> (forall v, cut v = true -> saved (c_heap s) v = e v) ->
      snd (iter_o body rest s) = snd (iter_o (adj_block F true) (rev (upto sk k)) hp) /\
      (snd (iter_o (adj_block F true) (rev (upto sk k)) hp) = None -> Rel sk cut (later n sk 0) (c_heap (fst (iter_o body rest s))) (fst (iter_o (adj_block F true) (rev (upto sk k)) hp)))) ->
    S k <= n -> forall s hp, EI s -> KI s -> marked M (c_heap s) -> Rel sk cut (later n sk (S k)) (c_heap s) hp -> at_env hp -> Stored sk M (S k) e (t_steps (c_tape s)) -> (forall v, cut v = true -> saved (c_heap s) v = e v) ->
      snd (iter_o body ([a; AReverse (S k) k clear] ++ rest) s) = snd (iter_o (adj_block F true) (rev (upto sk (S k))) hp) /\
      (snd (iter_o (adj_block F true) (rev (upto sk (S k))) hp) = None -> Rel sk cut (later n sk 0) (c_heap (fst (iter_o body ([a; AReverse (S k) k clear] ++ rest) s))) (fst (iter_o (adj_block F true) (rev (upto sk (S k))) hp)))).
  { intros a k st clear rest Ha IH Hk s hp H HK Hm R A St Hc. rewrite upto_S, rev_app_distr, iter_o_app, iter_o_app.
    destruct (load_reverse a k st clear s hp Ha ltac:(lia) H HK Hm R A St Hc) as [S1 S2]. cbv zeta in S1, S2. pose proof (at_env_adj (rev (bks k)) hp A) as A1.
    destruct (iter_o body [a; AReverse (S k) k clear] s) as [s1 x1]. destruct (iter_o (adj_block F true) (rev (bks k)) hp) as [hp1 e1]. cbn [fst snd] in *. subst x1.
    destruct e1 as [x|]; cbn [andthen fst snd]; [split; [reflexivity|discriminate]|]. destruct (S2 eq_refl) as [B1 [B2 [B3 [B4 [B5 B6]]]]]. apply IH; auto. lia. }
  intros m acts Hr. induction Hr as [|k st clear rest Hr IH|k st clear rest Hr IH]; cbv zeta in *.
  - intros _ s hp H HK Hm R A St Hc. cbn. auto.
  - apply (G (ACopy k st) k st clear rest); auto.
  - apply (G (AMove k st) k st clear rest); auto.
Qed.
End Pass.
End Backward.

(** ** The end of the recording *)
Lemma finish_one : forall {V} (Z : nat -> Prop) sc n fwd (w : world V) m, covering sc n fwd -> 1 <= n -> TInv Z w -> RecPos sc n fwd n m -> steps_of w = n ->
  exists m' s', RecPos sc n fwd n m' /\ cm_glob m' = cm_glob m /\ end_taping (cw_cst w m) = (s', None) /\ cm_end_timestep n (cw_cst w m') = (s', None) /\ TInv Z (cww w s') /\ Done sc n fwd (c_man s').
Proof.
  intros V Z sc n fwd w m Hc Hn T R Hs.
  assert (G : forall m', RecPos sc n fwd n m' -> cm_total m' = Some n -> exists s', cm_end_timestep n (cw_cst w m') = (s', None) /\ TInv Z (cww w s') /\ Done sc n fwd (c_man s') /\
    forall f, end_taping_loop (S (S f)) (S (Z.to_nat (latest_timestep (w_tape w)))) (cw_cst w m') = (s', None)).
  { intros m' R' Ht. assert (R2 : RecPos sc n fwd (steps_of w) m') by now rewrite Hs. destruct (end_step_rec Z sc n fwd w m' Hc T R2 (fun _ => Ht)) as [s' [E1 [E2 [E3 [_ E5]]]]].
    destruct (E5 Hs) as [_ D]. exists s'. rewrite Hs in E1. split; [exact E1|]. split; [exact E2|]. split; [exact D|]. intros f.
    rewrite (latest_steps Z w T), Hs. cbn [end_taping_loop]. cbn [cw_cst c_man]. rewrite (rp_mode _ _ _ _ _ R'). fold (cw_cst w m'). rewrite E1. rewrite (dn_mode _ _ _ _ D). reflexivity. }
  unfold end_taping. cbn [cw_cst c_man c_tape]. destruct (rp_max _ _ _ _ _ R) as [[Mx Tt]|[Mx [Tt X]]]; rewrite Mx.
  - destruct (G m R Tt) as [s' [A [B [C D]]]]. exists m, s'. destruct n as [|n']; [lia|]. repeat (split; auto).
  - set (m' := set_total n m).
    assert (R' : RecPos sc n fwd n m') by (destruct R; constructor; auto; cbn; now left).
    destruct (G m' R' eq_refl) as [s' [A [B [C D]]]]. exists m', s'. split; [exact R'|]. split; [reflexivity|]. split; [|auto].
    change (length (t_steps (w_tape w))) with (steps_of w). rewrite Hs. apply D.
Qed.

Section Final.
Context {V : Type} (F : fops V).
Implicit Types (h : heap V) (s : cst V).
Variable sc : schedule.
Variable n : nat.
Variable fwd back : list action.
Hypothesis Hcov : covering sc n fwd.
Hypothesis Hn : 1 <= n.
Hypothesis Hback : reversing sc n fwd back.
Hypothesis Hsto : Forall storing fwd.
Hypothesis Hrst : restoring n back.
Variable pkg ann : bool.
Variable p : list (stmt V).
Hypothesis Hp : pure_program p.
Hypothesis Hcons : consistent p.
Hypothesis Hends : S (ends p) = n.
Variable s0 : cst V.
Hypothesis Hs0 : ckpt_session F pkg sc ann p s0.
Local Notation w := (exec F (world_new F ann) p).
Local Notation bs := (flat w).
Variable cs : list nat.
Hypothesis Hon : on_tape bs cs.
Hypothesis Hne : cs <> [].
Hypothesis Hlf : forall c, In c cs -> ~ In c (outs_of bs).
Hypothesis Hall : forall c t, In c cs -> In t (t_steps (c_tape s0)) -> In c (deps_of (ts_blocks t)).
Let r (v : nat) : V := bv_rec (w_heap w v).
Local Notation cut := (fun v => mem v cs).
Local Notation nodes := (find_relevant bs cs).
Local Notation M := (fun v => mem v nodes).
Local Notation Fz := (fun v : nat => mem v nodes = false).
Local Notation Inv := (Inv sc n fwd bs r Fz).
Local Notation Post := (Post sc n fwd bs r Fz).
Local Notation KI := (KInv (V := V) cut M).
Local Notation marks_in := (marks_in bs cs).

Lemma cut_nodes : forall v, mem v cs = true -> mem v nodes = true.
Proof. intros v H. apply mem_In in H. apply mem_In. now apply find_relevant_incl. Qed.
Lemma any_compat : forall vals, compat r Fz cs vals.
Proof. intros vals v x H. left. intros K. apply supplied_in in H. apply mem_In in H. apply cut_nodes in H. congruence. Qed.
Lemma all_frozen : forall b, In b bs -> frozen F r Fz cut b.
Proof.
  intros b Hb. right. destruct (existsb (fun o => negb (mem o nodes)) (b_outs b)) eqn:E.
  - right. split; [|apply (rec_blocks F ann p Hp Hcons b Hb)]. apply existsb_exists in E as [o [Ho Ho']]. apply negb_true_iff in Ho'. intros d Hd.
    destruct (mem d nodes) eqn:Ed; [|reflexivity]. apply mem_In in Ed.
    pose proof (find_relevant_upward bs cs (proj1 (wi_wf F [] _ (world_inv F ann p Hp Hcons))) b d o Hb Hd Ed Ho) as K. apply mem_In in K. congruence.
  - left. intros o Ho Hz. assert (X : existsb (fun o => negb (mem o nodes)) (b_outs b) = true) by (apply existsb_exists; exists o; rewrite Hz; auto). congruence.
Qed.
Lemma rest_cases : forall v, ~ In v (outs_of bs) -> mem v cs = true \/ Fz v.
Proof.
  intros v H. destruct (mem v nodes) eqn:E; [left|now right]. apply mem_In in E. apply find_relevant_cases in E as [E|E]; [now apply mem_In|contradiction].
Qed.
Lemma raw_ok : forall b, In b bs -> raw_result (b_kind b) = false.
Proof. exact (flat_raw F ann p Hp). Qed.

(** What the first evaluation or derivative starts from. *)
Lemma session_pre : Pre sc n fwd bs r s0.
Proof.
  destruct (session_ready F sc n fwd Hcov Hn pkg ann p Hp Hcons (fun _ => Hends) s0 Hs0 Fz) as [P|[_ Hm]]; [exact P|].
  destruct (session_rec F pkg sc n fwd ann p s0 Hcov Hn Hsto Hp Hends Hs0) as [w' [m [-> [_ [R _]]]]]. elim Hm. apply (rp_mode _ _ _ _ _ R).
Qed.
Lemma session_flat : t_flat (c_tape s0) = bs.
Proof. destruct (pr_world _ _ _ _ _ _ session_pre) as [w' [m [-> [_ [_ [_ E]]]]]]. exact E. Qed.
Lemma session_mode : cm_mode (c_man s0) = MRecord.
Proof. destruct (pr_world _ _ _ _ _ _ session_pre) as [w' [m [-> [_ [R _]]]]]. apply (rp_mode _ _ _ _ _ R). Qed.

Lemma start_ok : forall h t s1, t_steps t = t_steps (c_tape s0) -> t_flat t = t_flat (c_tape s0) -> near r Fz (c_heap s0) h -> end_taping (CS h t (c_man s0)) = (s1, None) ->
  KI s1 /\ forall c, In c cs -> c_heap s1 c = h c.
Proof.
  intros h t s1 Ht1 Ht2 Hh He. pose proof session_flat as Fl. pose proof (pr_rec _ _ _ _ _ _ session_pre) as Hr.
  destruct (session_rec F pkg sc n fwd ann p s0 Hcov Hn Hsto Hp Hends Hs0) as [w' [m [Es [C [R [Ln [Ky Us]]]]]]].
  rewrite Es in Ht1, Ht2, Hh, He, Fl, Hr. cbn [cw_cst c_heap c_tape c_man] in *.
  assert (Hall' : forall c, In c cs -> forall b, In b (map (@ts_blocks V) (t_steps (w_tape w'))) -> In c (deps_of b)).
  { intros c Hc b Hb. apply in_map_iff in Hb as [u [<- Hu]]. apply Hall; [exact Hc|]. rewrite Es. exact Hu. }
  pose proof (near_tinv r Fz w' h t C Hr Ht1 Ht2 Hh) as T1. set (w1 := with_tape (fun _ => t) (with_heap (fun _ => h) w')) in *.
  assert (L1 : steps_of w1 = n) by (unfold steps_of in *; cbn; now rewrite Ht1).
  destruct (finish_one _ sc n fwd w1 m Hcov Hn T1 R L1) as [m' [s' [R' [G' [E1 [E2 [T2 D2]]]]]]].
  assert (Es' : s1 = s') by (change (end_taping (CS h t m)) with (end_taping (cw_cst w1 m)) in He; congruence). subst s'.
  assert (Held : forall c, In c cs -> In c (cm_glob (c_man s1)) /\ c_heap s1 c = h c).
  { intros c Hc. pose proof (Us c) as Uc. rewrite <- G' in Uc. assert (R2 : RecPos sc n fwd (steps_of w') m') by now rewrite Ln.
    destruct (end_held sc n fwd w' m' c C R2 Hsto Uc h t Ht1) as [A B].
    - rewrite Fl. now apply Hlf.
    - now apply Hall'.
    - rewrite Ln in A, B. change (CS h t m') with (cw_cst w1 m') in A, B. rewrite E2 in A, B. auto. }
  split; [|intros c Hc; now apply Held]. constructor.
  - rewrite Forall_forall. intros x Hx b d Hb Hd _. apply In_nth_error in Hx as [k Hk]. pose proof (ti_ls _ _ T2) as LSx. cbn [cww w_tape w_heap] in LSx.
    apply adj_set_In. destruct (ls_dep _ _ _ _ LSx k x b d Hk Hb Hd) as [K|K]; [right|now left]. split; [exact (ls_rev _ _ _ _ LSx k x Hk)|exact K].
  - unfold cm_end_timestep in E2. cbn [cw_cst c_man] in E2. rewrite (rp_mode _ _ _ _ _ R') in E2.
    destruct (loop_frame n (left_acts m') (cw_cst w1 m')) as [_ [_ K]]. fold (cw_cst w1 m') in E2. rewrite E2 in K. apply K. cbn. rewrite Ht1. exact Ky.
  - intros v Hv. apply mem_In in Hv. now apply Held.
Qed.

(** ** Histories *)
Definition Kept s : Prop := Post s /\ marks_in (c_heap s) /\ RevOK fwd back (c_man s) /\ KI s.
Definition Hist2 s : Prop := s = s0 \/ Kept s.

Lemma hist_ready : forall s, Hist2 s -> ready sc n fwd bs r Fz s.
Proof. intros s [->|[K _]]; [left; exact session_pre|now right]. Qed.
Lemma session_marks : marks_in (c_heap s0).
Proof. exact (proj1 (proj2 (session_hist F sc n fwd back Hcov Hn pkg ann p Hp Hcons (fun _ => Hends) s0 Hs0 cs))). Qed.
Lemma hist_marks : forall s, Hist2 s -> marks_in (c_heap s).
Proof. intros s [->|[_ [K _]]]; [exact session_marks|exact K]. Qed.
Lemma hist_flat : forall s, Hist2 s -> t_flat (c_tape s) = bs.
Proof. intros s [->|[[K _] _]]; [exact session_flat|]. destruct K as [sk [E [_ B]]]. rewrite <- B. apply (ei_flat _ _ _ _ _ _ _ _ E). Qed.

Lemma near_entered : forall vals s, (forall v, bv_ctrl (c_heap s v) = false) -> near r Fz (c_heap s) (c_heap (entered cs vals s)).
Proof.
  intros vals s Hc v. cbn. rewrite upd_all_spec by reflexivity. rewrite update_controls_spec by exact Hc.
  destruct (supplied cs vals v) as [x|] eqn:Ex; [pose proof (any_compat vals v x Ex) as Hx|]; destruct (mem v cs); cbn; repeat split; auto; right; eauto.
Qed.
Lemma near_adjoint : forall J x s, near r Fz (c_heap s) (c_heap (adj_start cs J x s)).
Proof.
  intros J x s v. destruct (adj_start_core cs J x s) as [h [Hh Ea]]. rewrite Ea. cbn [on_heap c_heap]. rewrite upd_all_spec by reflexivity.
  specialize (Hh v). unfold core, set_adj, set_tlm, set_hess, set_mark in Hh. injection Hh. intros. destruct (mem v cs); cbn; auto 10.
Qed.

Lemma recompute_revok : forall func s, Inv cut s -> cm_mode (c_man s) <> MRecord -> RevOK fwd back (c_man s) -> RevOK fwd back (c_man (fst (cm_recompute F func s))).
Proof.
  intros func s [sk [E _]] Hm HR. pose proof (proj1 Hcov) as Hc.
  unfold cm_recompute. replace (match cm_mode (c_man s) with MRecord => end_taping s | _ => (s, None) end) with (s, @None exn) by (destruct (cm_mode (c_man s)); congruence).
  cbn [andthen on_man c_man set_mode cm_fwd c_tape].
  assert (Rm' : RevOK fwd back (c_man (on_man (set_mode MRecompute) s))) by exact HR.
  rewrite (mf_fwd _ _ _ _ (ei_man _ _ _ _ _ _ _ _ E)).
  destruct fwd as [|[n0 n1 ics adj st| | | | |] acts] eqn:Ef; try exact Rm'. destruct (nth_error (t_steps (c_tape s)) n0) as [cur|]; [|exact Rm']. rewrite <- Ef in *.
  match goal with |- context[iter_o ?f ?l ?x] => destruct (iter_o f l x) as [s' e] eqn:Ei; refine (iter_o_inv f (fun z => RevOK fwd back (c_man z)) l x s' e _ _ Ei) end; [|exact Rm'].
  intros s1 a s2 e2 Ha H1 E1. destruct (process_pos F func false (on_man (set_cur a) s1) a) as [P1 P2]. destruct (process_op_man F func false (on_man (set_cur a) s1) a) as [_ [P3 _]].
  rewrite E1 in P1, P2, P3. cbn [fst on_man c_man set_cur cm_pos cm_rev cm_cur] in P1, P2, P3. destruct H1 as [[K1 [K2 K3]]|K1]; [left|right; congruence].
  split; [congruence|]. split; [congruence|]. rewrite P3. eapply forward_not_rev; eauto.
Qed.

(** One evaluation. *)
Lemma call_start2 : forall vals s, Hist2 s -> length vals = length cs ->
  exists s1, Inv cut s1 /\ cm_mode (c_man s1) <> MRecord /\ (forall func, cm_recompute F func (entered cs vals s) = cm_recompute F func s1) /\
    RevOK fwd back (c_man s1) /\ KI s1 /\ marks_in (c_heap s1) /\ forall v, mem v cs = true -> saved (c_heap s1) v = value_env r cs vals v.
Proof.
  intros vals s H Hl.
  destruct (call_start_full F sc n fwd bs r Fz cs Hcov Hn s vals (hist_ready s H) (any_compat vals) Hl) as [s1 [I1 [M1 [G1 [G2 [G3 [G4 G5]]]]]]].
  assert (Nc : forall v, bv_ctrl (c_heap s v) = false).
  { destruct H as [->|[[K _] _]]; [exact (pr_ctrl _ _ _ _ _ _ session_pre)|]. destruct K as [sk [E _]]. exact (hi_ctrl _ _ _ _ (ei_heap _ _ _ _ _ _ _ _ E)). }
  assert (Ve : forall v, mem v cs = true -> saved (c_heap (entered cs vals s)) v = value_env r cs vals v).
  { intros v Hv. unfold saved, value_env. cbn. rewrite upd_all_spec by reflexivity. rewrite Hv. cbn [set_ctrl bv_ckpt]. rewrite update_controls_spec by exact Nc.
    pose proof (supplied_some cs vals v Hl) as S. rewrite Hv in S. destruct (supplied cs vals v); [reflexivity|discriminate]. }
  assert (Mk : marks_in (c_heap s1)).
  { intros v Hv. destruct (erase_fields _ _ (G4 v)) as [_ [_ [_ [_ [K _]]]]]. rewrite K in Hv. apply (hist_marks s H). cbn in Hv. rewrite upd_all_spec in Hv by reflexivity.
    rewrite update_controls_spec in Hv by exact Nc. destruct (mem v cs), (supplied cs vals v); exact Hv. }
  exists s1. split; [exact I1|]. split; [exact M1|]. split; [exact G1|].
  destruct H as [->|[Po [_ [Ro Ko]]]].
  - assert (Np : ~ Post s0) by (intros [_ X]; apply X; exact session_mode).
    destruct G3 as [G3|G3]; [contradiction|]. destruct G5 as [G5|G5]; [contradiction|].
    destruct (start_ok (c_heap (entered cs vals s0)) (c_tape (entered cs vals s0)) s1 eq_refl eq_refl (near_entered vals s0 Nc) G5) as [K1 K2].
    split; [now apply done_rev with (sc := sc) (n := n)|]. split; [exact K1|]. split; [exact Mk|]. intros v Hv. rewrite <- (Ve v Hv). unfold saved. rewrite K2 by now apply mem_In. reflexivity.
  - rewrite (G2 Po) in *. split; [exact Ro|]. split; [now apply (KInv_same cut M s)|]. split; [exact Mk|exact Ve].
Qed.

Lemma call_kept : forall rf vals s, Hist2 s -> rf_ctrls rf = cs -> length vals = length cs -> Kept (fst (c_call F rf vals s)).
Proof.
  intros rf vals s H Er Hl.
  pose proof (call_leaves F sc n fwd bs r Fz cs Hcov Hn raw_ok all_frozen rf vals s (hist_ready s H) Er (any_compat vals) Hl) as L.
  rewrite (c_call_entered F cs rf vals s Er Hl) in *. cbv zeta in *.
  destruct (call_start2 vals s H Hl) as [s1 [I1 [M1 [G1 [R1 [K1 [Mk _]]]]]]]. rewrite G1 in *.
  set (func := if truthy F (bv_out (c_heap s (rf_J rf))) then Some (rf_J rf) else None) in *.
  pose proof (recompute_revok func s1 I1 M1 R1) as R2. pose proof (recompute_mark F func s1 M1) as Q.
  assert (K2 : KI (fst (cm_recompute F func s1))).
  { apply (recompute_kinv F cut M n); auto. destruct I1 as [sk [E _]]. rewrite (mf_fwd _ _ _ _ (ei_man _ _ _ _ _ _ _ _ E)). apply Hcov. }
  destruct (cm_recompute F func s1) as [s2 e]. cbn [fst] in *. split; [exact L|]. split; [|split; [exact R2|now apply (KInv_same cut M s2)]].
  intros v Hv. cbn [on_heap c_heap] in Hv. rewrite upd_all_spec in Hv by reflexivity. apply Mk. rewrite <- (Q v). destruct (mem v cs); exact Hv.
Qed.

(** What an evaluation leaves behind. *)
Lemma call_stored : forall rf vals s y, Hist2 s -> rf_ctrls rf = cs -> length vals = length cs -> snd (c_call F rf vals s) = Ok y ->
  let g := geval F cut bs (value_env r cs vals) in let s2 := fst (c_call F rf vals s) in
  snd g = None /\ cm_mode (c_man s2) = MEvaluated /\ (forall v, Fz v -> fst g v = r v) /\ (forall v, mem v cs = true -> saved (c_heap s2) v = fst g v) /\
  Stored (map tsk (t_steps (c_tape s2))) M n (fst g) (t_steps (c_tape s2)).
Proof.
  intros rf vals s y H Er Hl Ok1. cbv zeta. rewrite (c_call_entered F cs rf vals s Er Hl) in *. cbv zeta in *.
  destruct (call_start2 vals s H Hl) as [s1 [I1 [M1 [G1 [R1 [K1 [Mk Vc]]]]]]]. rewrite G1 in *.
  set (func := if truthy F (bv_out (c_heap s (rf_J rf))) then Some (rf_J rf) else None) in *.
  destruct I1 as [sk [E1 [S1 B1]]].
  assert (E2 : EInv sc n fwd sk r Fz cut (fst (cm_recompute F func s1))).
  { apply recompute_pass_inv; auto; try (rewrite B1; auto using raw_ok, all_frozen). apply S1. }
  destruct cs as [|c0 cs'] eqn:Ecs; [now elim Hne|]. rewrite <- Ecs in *. assert (Hc0 : mem c0 cs = true) by (apply mem_In; rewrite Ecs; now left).
  assert (Hz : forall v, Fz v -> value_env r cs vals v = r v).
  { intros v Hv. unfold value_env. destruct (supplied cs vals v) as [x|] eqn:Ex; [|reflexivity]. destruct (any_compat vals v x Ex); [contradiction|auto]. }
  assert (X : let res := cm_recompute F func s1 in let g := geval F cut bs (value_env r cs vals) in
    snd res = snd g /\ (snd g = None -> agreed sk cut M n (c_heap (fst res)) (fst g) /\ Stored sk M n (fst g) (t_steps (c_tape (fst res))))).
  { pose proof (recompute_store F sc n fwd sk r cut M S1) as Y. rewrite B1 in Y. apply (fun a b c d e f => Y a b c d e f c0); auto.
    - apply (wi_wf F [] _ (world_inv F ann p Hp Hcons)).
    - exact raw_ok.
    - exact all_frozen.
    - exact (flat_vals F ann p Hcons).
    - intros v Hv. apply Hlf. now apply mem_In.
    - exact rest_cases.
    - apply Hcov. }
  cbv zeta in X. destruct X as [X1 X2].
  assert (Hi : MInv (c_man s1)).
  { split; [right|intros ?; contradiction]. rewrite (mf_fwd _ _ _ _ (ei_man _ _ _ _ _ _ _ _ E1)). pose proof (proj1 Hcov) as Hc. clear - Hc.
    induction Hc as [|k n1 ics adj st rest _ _ _ [l [-> IH]]]; [exists []; auto|]. exists (AForward k n1 ics adj st :: l). cbn. auto. }
  destruct (recompute_man F func s1 Hi M1) as [_ Rm]. cbv zeta in Rm.
  destruct (cm_recompute F func s1) as [s2 e]. cbn [fst snd] in *. destruct e as [e|]; [discriminate|].
  destruct (X2 (eq_sym X1)) as [A B]. split; [exact (eq_sym X1)|]. split; [exact Rm|]. split; [|split].
  - intros v Hv. rewrite <- (A v) by auto. exact (fz_saved _ _ _ _ v (ei_heap _ _ _ _ _ _ _ _ E2) Hv).
  - intros v Hv. rewrite <- (A v) by auto. unfold saved. cbn [on_heap c_heap]. rewrite upd_all_spec by reflexivity. destruct (mem v cs); reflexivity.
  - cbn [on_heap c_tape]. rewrite (ei_sk _ _ _ _ _ _ _ _ E2). exact B.
Qed.
(** One derivative. *)
Lemma derivative_start2 : forall J x s, Hist2 s -> may_adjoint (cm_mode (c_man s)) = true ->
  exists s1, Inv cut s1 /\ (cm_mode (c_man s1) = MEvaluated \/ cm_mode (c_man s1) = MFinished) /\ RevOK fwd back (c_man s1) /\ KI s1 /\ marked M (c_heap s1) /\
    cm_evaluate_adj F 0 true (adj_start cs J x s) = cm_evaluate_adj F 0 true s1 /\ (Post s -> s1 = adj_start cs J x s) /\
    (forall v, erase_ckpt (c_heap s1 v) = erase_ckpt (c_heap (adj_start cs J x s) v)).
Proof.
  intros J x s H May.
  destruct (derivative_start_full F sc n fwd bs r Fz cs Hcov Hn J x s (hist_ready s H)) as [s1 [I1 [M1 [G1 [G2 [G3 [G4 G5]]]]]]].
  assert (Mk : marked M (c_heap s1)).
  { intros v. destruct (erase_fields _ _ (G4 v)) as [_ [_ [_ [_ [K _]]]]]. rewrite K, (start_mark bs cs J x s v (hist_flat s H)). destruct (mem v nodes) eqn:E; [reflexivity|].
    destruct (bv_mark (c_heap s v)) eqn:Ev; [|reflexivity]. apply (hist_marks s H) in Ev. apply mem_In in Ev. congruence. }
  exists s1. split; [exact I1|].
  destruct H as [->|[Po [_ [Ro Ko]]]].
  - assert (Np : ~ Post s0) by (intros [_ X]; apply X; exact session_mode).
    destruct G3 as [G3|G3]; [contradiction|]. destruct G5 as [G5|G5]; [contradiction|].
    destruct (start_ok (c_heap (adj_start cs J x s0)) (c_tape (adj_start cs J x s0)) s1 eq_refl eq_refl (near_adjoint J x s0) G5) as [K1 K2].
    split; [left; apply (dn_mode _ _ _ _ G3)|]. split; [now apply done_rev with (sc := sc) (n := n)|]. auto 10.
  - rewrite (G2 Po) in *. split; [|split; [exact Ro|split; [now apply (KInv_same cut M s)|auto]]].
    cbn in M1 |- *. destruct (cm_mode (c_man s)); try discriminate; auto; congruence.
Qed.

Lemma derivative_kept : forall J scale x s l, Hist2 s -> snd (c_derivative F (RF J cs scale) x s) = Ok l -> Kept (fst (c_derivative F (RF J cs scale) x s)).
Proof.
  intros J scale x s l H Ok1.
  assert (May : may_adjoint (cm_mode (c_man s)) = true).
  { destruct (may_adjoint (cm_mode (c_man s))) eqn:Em; [reflexivity|]. destruct (derivative_refused F (RF J cs scale) x s Em) as [h [e [E _]]]. rewrite E in Ok1. discriminate. }
  pose proof (derivative_leaves F sc n fwd bs r Fz cs Hcov Hn raw_ok all_frozen (RF J cs scale) x s (hist_ready s H) eq_refl Hne) as L.
  rewrite (c_derivative_start F cs (RF J cs scale) x s eq_refl Hne) in *. cbn [rf_J rf_scale] in *. set (y := f_mul F x scale) in *.
  destruct (derivative_start2 J y s H May) as [s1 [[sk [E1 [S1 B1]]] [Md [R1 [K1 [Mk [G1 [_ G4]]]]]]]]. rewrite G1 in *.
  destruct (adjoint_runs F sc n fwd back sk r Fz cut S1) with (s := s1) as [g [Hg [Hgg [Ec Hrev]]]]; try (rewrite B1); auto using raw_ok, all_frozen.
  assert (M1 : cm_mode (c_man s1) <> MRecord) by (destruct Md as [-> | ->]; discriminate).
  pose proof (adjoint_mark F true s1 M1) as Q. rewrite Ec in *. pose proof (acts_kinv F cut M g back s1 Hgg Mk K1) as K2.
  destruct (iter_o (fun s a => process_op F None true (on_man (g a) s) a) back s1) as [s2 [e|]]; cbn [andthen fst snd] in *; [discriminate|].
  split; [exact L|]. split; [|split; [right; cbn; now apply Hrev|now apply (KInv_same cut M s2)]].
  intros v Hv. cbn [on_heap c_heap] in Hv. rewrite upd_all_spec in Hv by reflexivity. destruct (mem v (find_relevant (t_flat (c_tape s)) cs)); [discriminate|].
  rewrite upd_all_spec in Hv by reflexivity. assert (Hv' : bv_mark (c_heap s2 v) = true) by (destruct (mem v cs); exact Hv).
  specialize (Q v). cbn [on_man c_heap] in Q. rewrite Q, Mk in Hv'. now apply mem_In.
Qed.

Lemma hist_keep2 : forall ops s, Hist2 s -> Forall (on_controls cs) ops -> derivs_ok F s ops = true -> Hist2 (cop_hist F s ops).
Proof.
  induction ops as [|o ops IH]; intros s H H1 H3; [exact H|]. inversion H1 as [|? ? A1 A2]; subst.
  cbn [derivs_ok] in H3. apply andb_true_iff in H3 as [D1 D2]. cbn [cop_hist]. apply IH; auto.
  destruct o as [|rf vals|rf x]; cbn in A1; [contradiction| |].
  - cbn [cop_run fst]. destruct (Nat.eq_dec (length vals) (length cs)) as [Hl|Hl]; [right; now apply call_kept|].
    unfold c_call. rewrite A1. destruct (Nat.eqb_spec (length vals) (length cs)); [contradiction|]. exact H.
  - unfold ok in D1. cbn [cop_run fst snd] in *. destruct rf as [J cs' scale]. cbn in A1. subst cs'.
    destruct (snd (c_derivative F (RF J cs scale) x s)) as [l|] eqn:El; [|discriminate]. right. eapply derivative_kept; eauto.
Qed.

(** A derivative just after an evaluation is the plain derivative. *)
Lemma stored_derivative : forall ops rf vals y J scale x, Forall (on_controls cs) ops -> derivs_ok F s0 ops = true -> rf_ctrls rf = cs ->
  snd (c_call F rf vals (cop_hist F s0 ops)) = Ok y ->
  snd (c_derivative F (RF J cs scale) x (fst (c_call F rf vals (cop_hist F s0 ops)))) = snd (rf_derivative F bs (RF J cs scale) x (fst (rf_call F bs rf vals (w_heap w)))).
Proof.
  intros ops rf vals y J scale x H1 H2 Er Ok1. pose proof (hist_keep2 ops s0 (or_introl eq_refl) H1 H2) as H. set (s := cop_hist F s0 ops) in *.
  assert (Hl : length vals = length cs).
  { unfold c_call in Ok1. rewrite Er in Ok1. destruct (Nat.eqb_spec (length vals) (length cs)) as [E|E]; [exact E|discriminate]. }
  destruct (call_stored rf vals s y H Er Hl Ok1) as [_ [C1 [C2 [C3 C4]]]]. pose proof (call_kept rf vals s H Er Hl) as H'. set (s' := fst (c_call F rf vals s)) in *.
  pose proof (world_inv F ann p Hp Hcons) as W.
  set (g := geval F cut bs (value_env r cs vals)) in *. set (hw := fst (rf_call F bs rf vals (w_heap w))).
  assert (Nc : no_ctrl (w_heap w)) by (intros v; apply (wi_ctrl F [] _ W)).
  rewrite <- Er in Hl. destruct (rf_call_spec F bs rf vals (w_heap w) Nc Hl) as [_ [Sv Ee]]. fold hw in Sv, Ee. rewrite Er in Sv, Hl.
  assert (Hw1 : forall v, bv_mark (hw v) = false).
  { intros v. destruct (erase_fields _ _ (Ee v)) as [_ [_ [_ [_ [K _]]]]]. rewrite K. apply (wi_clean F [] _ W v). }
  assert (Hw2 : forall b d, In b bs -> In d (b_deps b) -> saved hw d = fst g d).
  { intros b d Hb Hd. rewrite Sv. symmetry.
    destruct (Replay.geval_agree F cut cut bs (value_env r cs vals) (start_env (w_heap w) cs vals) (fun u => In u (deps_of bs))) as [_ A2]; auto.
    - intros u Hu. unfold value_env, start_env. destruct (supplied cs vals u); [reflexivity|]. symmetry. apply (saved_rec F); [exact W|now left].
    - apply A2. apply in_flat_map. eauto. }
  rewrite (plain_derivative_start F bs cs Hon Hne hw J scale x). cbv zeta. rewrite (c_derivative_start F cs (RF J cs scale) x s' eq_refl Hne). cbn [rf_J rf_scale]. set (z := f_mul F x scale).
  destruct (derivative_start2 J z s' (or_intror H')) as [s1 [[sk [E1 [S1 B1]]] [Md [R1 [K1 [Mk [G1 [G2 G4]]]]]]]]; [rewrite C1; reflexivity|]. rewrite G1.
  specialize (G2 (proj1 H')). pose proof (hist_flat s' (or_intror H')) as Fl.
  assert (Tp : c_tape s1 = c_tape s') by (rewrite G2; reflexivity).
  assert (Sk : map tsk (t_steps (c_tape s')) = sk) by (rewrite <- Tp; apply (ei_sk _ _ _ _ _ _ _ _ E1)). rewrite Sk, <- Tp in C4.
  assert (Sd : forall v, mem v cs = true -> saved (c_heap s1) v = fst g v).
  { intros v Hv. rewrite <- (C3 v Hv). destruct (adj_start_core cs J z s') as [h [Hh Ea]]. rewrite G2, Ea. unfold saved. cbn [on_heap c_heap]. rewrite upd_all_spec by reflexivity. rewrite Hv. cbn.
    exact (core_saved _ _ v (Hh v)). }
  assert (Rl : Rel sk cut [] (c_heap s1) (plain_start bs cs hw J z)).
  { split; intros v.
    - rewrite Mk. symmetry. now apply plain_mark.
    - intros Hv. assert (Hv' : In v (vars_of bs)) by (destruct Hv as [[_ Hv]|Hv]; [rewrite <- B1; exact Hv|apply Hon; now apply mem_In]).
      destruct (erase_fields _ _ (G4 v)) as [_ [_ [_ [_ [_ K]]]]]. rewrite K, plain_adj, (CkptGrad.start_adj bs cs); auto. }
  destruct (adjoint_runs F sc n fwd back sk r Fz cut S1) with (s := s1) as [q [Hg [Hgg [Ec _]]]]; try (rewrite B1); auto using raw_ok, all_frozen. rewrite Ec.
  assert (Eb : upto sk n = bs) by (rewrite <- B1; unfold upto; rewrite <- (from_all n sk (so_len _ _ S1)); unfold from; now rewrite Nat.sub_0_r).
  assert (Ln : later n sk n = []) by (unfold later, from; now rewrite Nat.sub_diag).
  destruct (restoring_acts F sc n fwd sk r cut M S1) with (e := fst g) (g := q) (m := n) (acts := back) (s := s1) (hp := plain_start bs cs hw J z) as [A1 A2]; try (rewrite B1); auto using raw_ok, all_frozen.
  { apply (wi_wf F [] _ W). }
  { intros v Hv. apply Hlf. now apply mem_In. }
  { rewrite Ln. exact Rl. }
  { intros b d. rewrite B1. intros Hb Hd. rewrite plain_saved. eauto. }
  rewrite Eb in A1, A2. unfold evaluate_adj. cbn [skipn].
  destruct (iter_o (fun s a => process_op F None true (on_man (q a) s) a) back s1) as [s2 e]. cbn [fst snd andthen] in *. subst e.
  destruct (snd (iter_o (adj_block F true) (rev bs) (plain_start bs cs hw J z))) as [e|]; [reflexivity|]. specialize (A2 eq_refl). cbn [fst snd on_man c_heap].
  f_equal. apply map_ext_in. intros c Hc. unfold get_derivative. cbn [on_heap c_heap]. rewrite upd_all_spec by reflexivity.
  assert (E : bv_adj (c_heap s2 c) = bv_adj (fst (iter_o (adj_block F true) (rev bs) (plain_start bs cs hw J z)) c)) by (apply A2; right; now apply mem_In).
  rewrite <- E. destruct (mem c _); cbn; rewrite upd_all_spec by reflexivity; destruct (mem c cs); reflexivity.
Qed.

Lemma stored_succeeds : forall ops rf vals y, Forall (on_controls cs) ops -> derivs_ok F s0 ops = true -> rf_ctrls rf = cs ->
  snd (c_call F rf vals (cop_hist F s0 ops)) = Ok y -> exists y', snd (rf_call F bs rf vals (w_heap w)) = Ok y'.
Proof.
  intros ops rf vals y H1 H2 Er Ok1. pose proof (hist_keep2 ops s0 (or_introl eq_refl) H1 H2) as H.
  assert (Hl : length vals = length cs).
  { unfold c_call in Ok1. rewrite Er in Ok1. destruct (Nat.eqb_spec (length vals) (length cs)) as [E|E]; [exact E|discriminate]. }
  destruct (call_stored rf vals _ y H Er Hl Ok1) as [N _]. pose proof (world_inv F ann p Hp Hcons) as W.
  rewrite <- Er in Hl. destruct (rf_call_spec F bs rf vals (w_heap w) (wi_ctrl F [] _ W) Hl) as [Y _]. cbv zeta in Y. rewrite Er in Y. rewrite Y.
  destruct (Replay.geval_agree F cut cut bs (value_env r cs vals) (start_env (w_heap w) cs vals) (fun u => In u (deps_of bs))) as [A1 _]; auto.
  { intros u Hu. unfold value_env, start_env. destruct (supplied cs vals u); [reflexivity|]. symmetry. apply (saved_rec F); [exact W|now left]. }
  rewrite <- A1, N. eauto.
Qed.

(** The first evaluation too. *)
Lemma first_call : forall j ob J scale vals, nth_error (w_objs w) j = Some ob -> o_bv ob = Some J -> truthy F (o_val ob) = true -> length vals = length cs ->
  snd (c_call F (RF J cs scale) vals s0) = snd (rf_call F bs (RF J cs scale) vals (w_heap w)).
Proof.
  intros j ob J scale vals Ho Hb Ht Hl. pose proof (world_inv F ann p Hp Hcons) as W.
  destruct (rf_call_spec F bs (RF J cs scale) vals (w_heap w) (wi_ctrl F [] _ W) Hl) as [Y _]. cbn [rf_ctrls rf_J rf_scale] in Y. cbv zeta in Y. rewrite Y.
  destruct (start_agree F ann p Hp Hcons cs j ob J vals Ho Hb) as [A1 A2]. cbv zeta in A1, A2. fold r in A1, A2. rewrite <- A1.
  rewrite (c_call_entered F cs (RF J cs scale) vals s0 eq_refl Hl). cbv zeta. cbn [rf_J rf_scale].
  assert (Eo : bv_out (c_heap s0 J) = r J).
  { destruct (pr_world _ _ _ _ _ _ session_pre) as [w' [m [Es [C _]]]]. rewrite <- (pr_rec _ _ _ _ _ _ session_pre). rewrite Es. apply (ci_clean _ _ C). }
  assert (HtJ : truthy F (r J) = true).
  { destruct (wi_cur F [] _ W j ob J Ho Hb) as [_ [G _]]. unfold ghost in G. injection G as _ _ G. unfold r. now rewrite G. }
  rewrite Eo, HtJ. destruct (call_start2 vals s0 (or_introl eq_refl) Hl) as [s1 [I1 [M1 [G1 [_ [_ [_ Vc]]]]]]]. rewrite G1.
  destruct I1 as [sk [E [S B]]].
  assert (W0 : from n sk 0 = bs) by (rewrite <- B; apply from_all; apply S).
  destruct (recompute_agree F sc n fwd sk r Fz cut) with (J := J) (s := s1) (e := value_env r cs vals) as [Q1 [Q2 Q3]];
    try (rewrite B; assumption); try apply S; auto.
  - rewrite B. exact raw_ok.
  - rewrite B. exact all_frozen.
  - rewrite W0. apply (wi_wf F [] _ W).
  - rewrite B. exact (flat_vals F ann p Hcons).
  - rewrite B. intros b o Hbb He Hoo. exfalso. apply existsb_exists in He as [u [Hu Hc]]. apply (Hlf u); [now apply mem_In|]. apply in_flat_map. eauto.
  - intros v Hv. apply rest_cases. intros X. apply Hv. unfold later. now rewrite W0.
  - apply Hcov.
  - intros v Hv. unfold value_env. destruct (supplied cs vals v) as [x|] eqn:Ex; [|reflexivity]. destruct (any_compat vals v x Ex); [contradiction|auto].
  - rewrite W0 in Q2, Q3. destruct (cm_recompute F (Some J) s1) as [s2 e2]. cbn [fst snd] in *. subst e2.
    destruct (snd (geval F cut bs (value_env r cs vals))) as [e|]; [reflexivity|]. rewrite <- (A2 (eq_sym A1)), <- (Q3 eq_refl). f_equal. f_equal.
    unfold saved. cbn. rewrite upd_all_spec by reflexivity. destruct (mem J cs); reflexivity.
Qed.
Lemma idle_hist : forall ops, Forall (on_controls cs) ops -> ~ Exists (attempted cs) ops -> cop_hist F s0 ops = s0.
Proof.
  induction ops as [|o ops IH]; intros H1 H2; [reflexivity|]. inversion H1 as [|? ? A1 A2]; subst. cbn [cop_hist].
  assert (E : fst (cop_run F s0 o) = s0).
  { destruct o as [|rf vals|rf x]; cbn in A1; [contradiction| |elim H2; left; exact Hne]. cbn [cop_run fst]. unfold c_call. rewrite A1.
    destruct (Nat.eqb_spec (length vals) (length cs)) as [E|E]; [|reflexivity]. elim H2. left. exact E. }
  rewrite E. apply IH; [exact A2|]. intros X. apply H2. now right.
Qed.
Lemma stored_call : forall ops j ob J scale vals, Forall (on_controls cs) ops -> nth_error (w_objs w) j = Some ob -> o_bv ob = Some J -> truthy F (o_val ob) = true ->
  snd (c_call F (RF J cs scale) vals (cop_hist F s0 ops)) = snd (rf_call F bs (RF J cs scale) vals (w_heap w)).
Proof.
  intros ops j ob J scale vals Hops Ho Hb Ht.
  assert (D : Exists (attempted cs) ops \/ ~ Exists (attempted cs) ops).
  { clear - Hops Hne. induction Hops as [|o ops Ho Hops IH]; [right; intros X; inversion X|]. destruct IH as [IH|IH]; [left; now right|].
    destruct o as [|rf vals|rf x]; cbn in Ho; [contradiction| |left; left; exact Hne].
    destruct (Nat.eq_dec (length vals) (length cs)) as [E|E]; [left; left; exact E|right]. intros X. inversion X; subst; auto. }
  destruct D as [D|D]; [exact (ckpt_call F sc n fwd Hcov Hn pkg ann p Hp Hcons (fun _ => Hends) s0 Hs0 cs ops j ob J scale vals Hops D Ho Hb Ht)|].
  rewrite (idle_hist ops Hops D). destruct (Nat.eq_dec (length vals) (length cs)) as [Hl|Hl]; [now apply (first_call j ob)|].
  unfold c_call, rf_call. cbn [rf_ctrls]. destruct (Nat.eqb_spec (length vals) (length cs)); [contradiction|]. reflexivity.
Qed.
End Final.
