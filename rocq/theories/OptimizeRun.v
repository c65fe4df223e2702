(** Running evaluations and derivatives on an optimised tape (C13). *)
From Coq Require Import List Arith Bool Lia.
From Verif Require Import Base Model BaseFacts Graph Record Spec RecordFacts ReplayExec History Session Sweep SpecGraph Marks Calculus Surgery Optimize.
Import ListNotations.

Section Run.
Context {V : Type} (F : fops V).
Implicit Types (h : heap V) (bs : list (block V)) (b : block V).

(** The operations no control influences agree with the stored values, where those are read. *)
Definition at_rest bs (ctrls : list nat) (J : nat) h : Prop :=
  forall b, In b bs -> (forall o, In o (b_outs b) -> ~ In o ctrls) ->
  (forall c d, In c ctrls -> In d (b_deps b) -> ~ influences bs c d) ->
  forall k o, nth_error (b_outs b) k = Some o -> In o (deps_of bs) \/ o = J ->
    comp_recompute F (b_kind b) (map (saved h) (b_deps b)) k = Ok (Some (saved h o)).

Lemma at_rest_steady : forall bs ctrls J h, topo bs -> at_rest bs ctrls J h -> steady F bs ctrls J (saved h).
Proof.
  intros bs ctrls J h Ht H b Hb Hc Hd k o Hk Ho. left. apply (H b Hb Hc); auto.
  intros c d Hcc Hdd Hi. rewrite (proj2 (depends_iff bs ctrls b Ht)) in Hd; [discriminate Hd|]. eauto.
Qed.

Lemma geval_agree : forall cut bs e1 e2 (Sp : nat -> Prop), (forall b, In b bs -> gives_value F b) ->
  (forall d, In d (deps_of bs) -> Sp d) -> (forall v, Sp v -> e1 v = e2 v) ->
  snd (geval F cut bs e1) = snd (geval F cut bs e2) /\ (forall v, Sp v -> fst (geval F cut bs e1) v = fst (geval F cut bs e2) v).
Proof.
  intros cut bs e1 e2 Sp Hg Hd He. apply (iter_o_sim (geval_block F cut) (geval_block F cut) (fun x1 x2 => forall v, Sp v -> x1 v = x2 v)); [|exact He].
  intros x1 x2 b Hb R. destruct (geval_block_local F cut b x1 x2 Sp (Hg b Hb)) as [A [B _]]; auto.
  intros d Hdd. apply Hd. apply in_flat_map. eauto.
Qed.

Lemma call_at_rest : forall bs rf vals h y J, wf_tape bs -> (forall b, In b bs -> gives_value F b) -> no_ctrl h ->
  snd (rf_call F bs rf vals h) = Ok y -> forall ctrls, (forall o, In o (outs_of bs) -> In o (rf_ctrls rf) -> In o ctrls) ->
  at_rest bs ctrls J (fst (rf_call F bs rf vals h)).
Proof.
  intros bs rf vals h y J [Ht Hn] Hg Nc Hy ctrls Hcc b Hb Hc _ k o Hk _.
  destruct (Nat.eq_dec (length vals) (length (rf_ctrls rf))) as [Hl|Hl].
  2:{ rewrite rf_call_mismatch in Hy by exact Hl. discriminate Hy. }
  destruct (rf_call_spec F bs rf vals h Nc Hl) as [A [B _]]. set (h' := fst (rf_call F bs rf vals h)) in *.
  set (cut := fun v => mem v (rf_ctrls rf)) in *. set (e0 := start_env h (rf_ctrls rf) vals) in *.
  destruct (geval F cut bs e0) as [e x] eqn:E. cbn [fst snd] in *. destruct x; [rewrite A in Hy; discriminate Hy|].
  assert (Hc' : existsb cut (b_outs b) = false).
  { destruct (existsb cut (b_outs b)) eqn:Ex; [|reflexivity]. exfalso. apply existsb_exists in Ex as [o' [Ho Hm]]. apply mem_In in Hm.
    apply (Hc o' Ho). apply Hcc; [|exact Hm]. apply in_flat_map. eauto. }
  pose proof (geval_fixed F cut bs e0 e Ht Hn E b Hb Hc' k o Hk) as G.
  rewrite (B o), (map_ext (saved h') e) by exact B. destruct G as [G|G]; [exact G|]. exfalso. exact (Hg b Hb _ _ G).
Qed.

(** Two heaps, one per tape. *)
Record matched bs (rf : rfun V) h1 h2 : Prop := {
  m_nc1 : no_ctrl h1; m_nc2 : no_ctrl h2; m_nm : no_mark h2;
  m_rest : at_rest bs (rf_ctrls rf) (rf_J rf) h1;
  m_saved : forall v, In v (deps_of (opt_blocks bs (rf_ctrls rf) (rf_J rf))) \/ v = rf_J rf -> saved h1 v = saved h2 v;
  m_f1 : fresh_ctrls bs (rf_J rf) (rf_ctrls rf) h1;
  m_f2 : fresh_ctrls (opt_blocks bs (rf_ctrls rf) (rf_J rf)) (rf_J rf) (rf_ctrls rf) h2 }.

Lemma call_matched : forall bs rf vals h1 h2 y, wf_tape bs -> (forall b, In b bs -> gives_value F b) -> matched bs rf h1 h2 ->
  snd (rf_call F bs rf vals h1) = Ok y ->
  let bs' := opt_blocks bs (rf_ctrls rf) (rf_J rf) in
  snd (rf_call F bs' rf vals h2) = Ok y /\ matched bs rf (fst (rf_call F bs rf vals h1)) (fst (rf_call F bs' rf vals h2)).
Proof.
  intros bs rf vals h1 h2 y Hw Hg [N1 N2 M2 Hr Hs F1 F2] Hy bs'.
  destruct (Nat.eq_dec (length vals) (length (rf_ctrls rf))) as [Hl|Hl].
  2:{ rewrite rf_call_mismatch in Hy by exact Hl. discriminate Hy. }
  destruct (opt_call F bs rf vals h1 y Hw Hg N1 (at_rest_steady _ _ _ _ (proj1 Hw) Hr) Hy) as [C1 C2]. fold bs' in C1, C2.
  assert (Hg' : forall b, In b bs' -> gives_value F b) by (intros b Hb; apply filter_In in Hb as [Hb _]; auto).
  destruct (rf_call_spec F bs' rf vals h1 N1 Hl) as [A1 [B1 _]]. destruct (rf_call_spec F bs' rf vals h2 N2 Hl) as [A2 [B2 _]].
  destruct (geval_agree (fun v => mem v (rf_ctrls rf)) bs' (start_env h1 (rf_ctrls rf) vals) (start_env h2 (rf_ctrls rf) vals)
     (fun v => In v (deps_of bs') \/ v = rf_J rf) Hg') as [D1 D2].
  { auto. }
  { intros v Hv. unfold start_env. now rewrite (Hs v Hv). }
  destruct (rf_call_spec F bs rf vals h1 N1 Hl) as [_ [_ erase1]]. destruct (rf_call_spec F bs' rf vals h2 N2 Hl) as [_ [_ erase2]].
  split.
  - rewrite A2, <- D1, <- (D2 _ (or_intror eq_refl)), <- A1. exact C1.
  - pose proof (api_no_ctrl F bs h1 (ACall rf vals) N1) as P1. pose proof (api_no_ctrl F bs' h2 (ACall rf vals) N2) as P2.
    pose proof (api_clean F bs' h2 (ACall rf vals) N2 M2 (or_intror eq_refl)) as P3.
    cbn [api_run] in P1, P2, P3. 
    assert (Q1 : forall v, bv_adj (fst (rf_call F bs rf vals h1) v) = bv_adj (h1 v)) by (intros v; exact (f_equal (@bv_adj V) (erase1 v))).
    assert (Q2 : forall v, bv_adj (fst (rf_call F bs' rf vals h2) v) = bv_adj (h2 v)) by (intros v; exact (f_equal (@bv_adj V) (erase2 v))).
    destruct (rf_call F bs rf vals h1) as [k1 r1] eqn:E1, (rf_call F bs' rf vals h2) as [k2 r2] eqn:E2. cbn [fst snd] in *.
    constructor; auto.
    + change k1 with (fst (k1, r1)). rewrite <- E1. apply (call_at_rest bs rf vals h1 y); auto. rewrite E1. exact Hy.
    + intros v Hv. rewrite B2, <- (D2 v Hv), <- B1. auto.
    + intros c Hc. rewrite Q1. auto.
    + intros c Hc. rewrite Q2. auto.
Qed.

Lemma padj_frame : forall mk e bs a v, ~ In v (deps_of bs) -> fst (padj F mk e bs a) v = a v.
Proof.
  intros mk e bs a v Hv. destruct (padj F mk e bs a) as [a' x] eqn:E. cbn [fst]. unfold padj in E.
  refine (iter_o_inv _ (fun a1 : aenv => a1 v = a v) _ _ _ _ _ eq_refl E).
  intros s b s' x0 Hin Hs Hf. rewrite <- Hs. replace s' with (fst (padj_block F mk e s b)) by now rewrite Hf.
  apply padj_block_frame. left. intros K. apply Hv. apply in_flat_map. exists b. split; [now apply in_rev|exact K].
Qed.
Lemma grad_fresh : forall bs J ctrls adj h, no_ctrl h -> fresh_ctrls bs J ctrls h -> fresh_ctrls bs J ctrls (fst (compute_gradient F bs J ctrls adj h)).
Proof.
  intros bs J ctrls adj h N H c Hc. destruct (H c Hc) as [K|[K|K]]; [now left|right; now left|].
  destruct (in_dec Nat.eq_dec c (vars_of bs)) as [Hv|Hv]; [now left|]. destruct (Nat.eq_dec c J) as [HJ|HJ]; [right; now left|right; right].
  destruct (grad_spec F bs J ctrls adj h N) as [_ [A _]]. rewrite A, padj_frame.
  - unfold start_adj. rewrite (proj2 (Nat.eqb_neq c J) HJ). now rewrite (proj2 (mem_false _ _) Hv).
  - intros Kd. apply Hv. unfold vars_of. apply in_or_app. now left.
Qed.

Lemma deriv_matched : forall bs rf a h1 h2 g, wf_tape bs -> matched bs rf h1 h2 ->
  snd (rf_derivative F bs rf a h1) = Ok g ->
  let bs' := opt_blocks bs (rf_ctrls rf) (rf_J rf) in
  snd (rf_derivative F bs' rf a h2) = Ok g /\ matched bs rf (fst (rf_derivative F bs rf a h1)) (fst (rf_derivative F bs' rf a h2)).
Proof.
  intros bs rf a h1 h2 g Hw [N1 N2 M2 Hr Hs F1 F2] Hy bs'.
  assert (Hne : rf_ctrls rf <> []) by (intros Ec; unfold rf_derivative in Hy; rewrite Ec in Hy; discriminate Hy).
  assert (G : snd (rf_derivative F bs' rf a h2) = Ok g).
  { rewrite derivative_grad in * by exact Hne. apply (opt_gradient F bs (rf_J rf) (rf_ctrls rf) _ h1 h2 g); auto. apply Hw. }
  split; [exact G|].
  pose proof (api_no_ctrl F bs h1 (ADeriv rf a) N1) as P1. pose proof (api_no_ctrl F bs' h2 (ADeriv rf a) N2) as P2.
  pose proof (api_clean F bs' h2 (ADeriv rf a) N2 M2) as P3. unfold api_ok in P3. cbn [api_run] in P1, P2, P3.
  rewrite G in P3. specialize (P3 (or_introl eq_refl)).
  pose proof (hist_saved F bs [ADeriv rf a] h1 N1 eq_refl) as Q1. pose proof (hist_saved F bs' [ADeriv rf a] h2 N2 eq_refl) as Q2.
  unfold run_hist in Q1, Q2. cbn [fold_left api_run] in Q1, Q2.
  constructor; auto.
  - intros b Hb Hc Hd k o Hk Ho. rewrite Q1, (map_ext _ _ Q1). eapply Hr; eauto.
  - intros v Hv. rewrite Q1, Q2. auto.
  - rewrite derivative_grad by exact Hne. now apply grad_fresh.
  - rewrite derivative_grad by exact Hne. now apply grad_fresh.
Qed.

(** The results of a sequence of calls. *)
Fixpoint outcomes bs h (l : list (api V)) : list (res (list V)) :=
  match l with [] => [] | a :: r => snd (api_run F bs h a) :: outcomes bs (fst (api_run F bs h a)) r end.
Definition through (rf : rfun V) (a : api V) : Prop := (exists vals, a = ACall rf vals) \/ (exists x, a = ADeriv rf x).

Lemma session_matched : forall bs rf l h1 h2, wf_tape bs -> (forall b, In b bs -> gives_value F b) -> matched bs rf h1 h2 ->
  Forall (through rf) l -> all_ok F bs h1 l = true ->
  outcomes (opt_blocks bs (rf_ctrls rf) (rf_J rf)) h2 l = outcomes bs h1 l.
Proof.
  intros bs rf l. induction l as [|a l IH]; intros h1 h2 Hw Hg M Hl Ho; [reflexivity|].
  inversion Hl as [|? ? Ha Hl']; subst. cbn [outcomes all_ok] in *. apply andb_true_iff in Ho as [Ho Ho']. unfold api_ok in Ho.
  destruct Ha as [[vals ->]|[x ->]].
  - cbn [api_run] in *. pose proof (call_matched bs rf vals h1 h2) as C.
    destruct (rf_call F bs rf vals h1) as [k1 [y|e]] eqn:E1; [|discriminate Ho]. specialize (C y Hw Hg M eq_refl). cbv zeta in C.
    destruct (rf_call F _ rf vals h2) as [k2 r2] eqn:E2. cbn [fst snd] in *. destruct C as [-> C]. f_equal. now apply IH.
  - cbn [api_run] in *. pose proof (deriv_matched bs rf x h1 h2) as C.
    destruct (rf_derivative F bs rf x h1) as [k1 [y|e]] eqn:E1; [|discriminate Ho]. specialize (C y Hw M eq_refl). cbv zeta in C.
    destruct (rf_derivative F _ rf x h2) as [k2 r2] eqn:E2. cbn [fst snd] in *. destruct C as [-> C]. f_equal. now apply IH.
Qed.

Lemma fresh_mono : forall bs (f : block V -> bool) J ctrls h, fresh_ctrls (filter f bs) J ctrls h -> fresh_ctrls bs J ctrls h.
Proof.
  intros bs f J ctrls h H c Hc. destruct (H c Hc) as [K|K]; [left|now right]. unfold vars_of in *.
  assert (E : forall g : block V -> list nat, In c (flat_map g (filter f bs)) -> In c (flat_map g bs)).
  { intros g Hg. apply in_flat_map in Hg as [b [Hb Hg]]. apply filter_In in Hb as [Hb _]. apply in_flat_map. eauto. }
  apply in_app_iff in K as [K|K]; apply in_or_app; [left|right]; now apply E.
Qed.

Lemma optimized_session : forall bs rf l h, wf_tape bs -> (forall b, In b bs -> gives_value F b) -> no_ctrl h -> no_mark h ->
  at_rest bs (rf_ctrls rf) (rf_J rf) h ->
  let bs' := opt_blocks bs (rf_ctrls rf) (rf_J rf) in
  fresh_ctrls bs' (rf_J rf) (rf_ctrls rf) h ->
  Forall (through rf) l -> all_ok F bs h l = true -> outcomes bs' h l = outcomes bs h l.
Proof.
  intros bs rf l h Hw Hg N M Hr bs' Hf Hl Ho. apply session_matched; auto. constructor; auto. exact (fresh_mono _ _ _ _ _ Hf).
Qed.

(** The hypothesis [at_rest] holds after recording ... *)
Lemma recorded_at_rest : forall ann p j, consistent p -> disciplined ann p = true -> j < length (w_objs (exec F (world_new F ann) p)) ->
  let w := fst (recorded F ann p j) in
  forall ctrls, at_rest (t_flat (w_tape w)) ctrls (snd (recorded F ann p j)) (w_heap w).
Proof.
  intros ann p j Hc Hd Hj w ctrls b Hb _ _ k o Hk Ho. destruct (recorded_good F ann p j no_override Hc Hd Hj) as [[W S] [Hv C]]. fold w in W, S, Hv, C.
  assert (E : forall v, In v (deps_of (t_flat (w_tape w))) \/ v = snd (recorded F ann p j) -> saved (w_heap w) v = recs (w_heap w) v).
  { intros v [H| ->]; apply (saved_rec F w _ W); [now left|right; exists j; exact C]. }
  pose proof (wi_rec F [] w W) as Hr. rewrite Forall_forall in Hr. specialize (Hr b Hb k o Hk).
  rewrite (E o Ho). rewrite (map_ext_in _ (recs (w_heap w))); [exact Hr|]. intros d Hdd. apply E. left. apply in_flat_map. eauto.
Qed.

(** ... and after any calls through functionals with the same or leaf controls that did not raise. *)
Definition tame bs (ctrls : list nat) (a : api V) : Prop :=
  match a with ACall rf _ => forall o, In o (outs_of bs) -> In o (rf_ctrls rf) -> In o ctrls | _ => True end.
Fixpoint calls_ok bs h (l : list (api V)) : bool :=
  match l with [] => true | a :: r => (negb (is_call a) || api_ok F bs h a) && calls_ok bs (fst (api_run F bs h a)) r end.
Lemma hist_at_rest : forall bs ctrls J l h, wf_tape bs -> (forall b, In b bs -> gives_value F b) -> no_ctrl h ->
  at_rest bs ctrls J h -> Forall (tame bs ctrls) l -> calls_ok bs h l = true -> at_rest bs ctrls J (run_hist F bs h l).
Proof.
  intros bs ctrls J l. induction l as [|a l IH]; intros h Hw Hg N Hr Hl Ho; [exact Hr|].
  inversion Hl as [|? ? Ha Hl']; subst. cbn [calls_ok] in Ho. apply andb_true_iff in Ho as [Ho Ho'].
  unfold run_hist. cbn [fold_left]. apply IH; auto; [now apply api_no_ctrl|].
  destruct (is_call a) eqn:Ei.
  - destruct a; try discriminate Ei. cbn [negb orb] in Ho. unfold api_ok in Ho. cbn [api_run tame] in *.
    pose proof (call_at_rest bs rf vals h) as C. destruct (rf_call F bs rf vals h) as [k1 [y|e]] eqn:E1; [|discriminate Ho].
    cbn [fst snd] in *. exact (C y J Hw Hg N eq_refl ctrls Ha).
  - pose proof (hist_saved F bs [a] h N) as Q. cbn [forallb] in Q. rewrite Ei in Q. specialize (Q eq_refl). unfold run_hist in Q. cbn [fold_left] in Q.
    intros b Hb Hc Hd k o Hk Hoo. rewrite Q, (map_ext _ _ Q). eapply Hr; eauto.
Qed.
End Run.
