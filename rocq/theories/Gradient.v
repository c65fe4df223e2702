(** Derivatives returned by the sweeps on evaluated tapes and recorded programs, over the reals. *)
From Coq Require Import List Arith ZArith Lia Bool Reals Lra.
From Coquelicot Require Import Coquelicot.
From Verif Require Import Base Model BaseFacts Graph Record Spec RecordFacts Replay ReplayExec History Session Sweep SpecGraph Marks FreshAdj Dual TlmSweep RealInst Calculus.
Import ListNotations.
Open Scope R_scope.

(** ** The adjoint sweep does not fail at smooth points *)
Definition adjoint_runs (e : nat -> R) (b : block R) : Prop :=
  match b_kind b with
  | KUser u => forall ins i, length ins = length (b_outs b) -> existsb is_some ins = true -> (i < length (b_deps b))%nat ->
      exists o, u_adj u (map e (b_deps b)) ins i = Ok o
  | _ => True
  end.
Definition adjoints_run (bs : list (block R)) (ctrls : list nat) (e : nat -> R) : Prop :=
  forall b d, In b bs -> (forall o, In o (b_outs b) -> ~ In o ctrls) -> In d (b_deps b) -> influenced bs ctrls d -> adjoint_runs e b.

Lemma pow2_ok : forall x, x <> 0 -> exists p, f_pow RO x 2 = Ok p /\ p <> 0.
Proof.
  intros x Hx. exists (powerRZ x 2). split; [apply (Rpow_int x 2); now left|]. now apply powerRZ_NOR.
Qed.

Lemma builtin_adj_ok : forall N e b a i d, shaped b -> (forall u, b_kind b <> KUser u) -> fixed_block RO e b -> smooth_block N e b ->
  length (b_outs b) = 1%nat -> nth_error (b_deps b) i = Some d -> N d ->
  exists o, comp_adj RO (b_kind b) (map e (b_deps b)) [Some a] i = Ok o.
Proof.
  intros N e b a i d Hs Hu Hf Hsm Ho Hi Hd. unfold shaped in Hs. unfold fixed_block in Hf. unfold smooth_block in Hsm.
  assert (exists o, nth_error (b_outs b) 0 = Some o) as [o Eo] by (destruct (b_outs b); [discriminate Ho|cbn; eauto]).
  specialize (Hf 0%nat o Eo). clear Eo Ho.
  destruct (b_kind b); try (exfalso; exact (Hu _ eq_refl)); destruct Hs as [Hs _]; cbn [arity] in Hs;
    try (destruct (two_of _ _ Hs) as [d0 [d1 Ed]]); try (destruct (one_of _ _ Hs) as [d0 Ed]); rewrite Ed in *; clear Ed Hs Hu;
    cbn in Hf; cbn; try (eexists; reflexivity).
  - destruct (Nat.eqb i 0); eexists; reflexivity.
  - destruct (Nat.eqb i 1); eexists; reflexivity.
  - destruct (Req_EM_T (e d1) 0) as [|Hx]; [destruct Hf as [Hf|Hf]; discriminate Hf|]. destruct (Nat.eqb i 0); [eexists; reflexivity|].
    destruct (pow2_ok (e d1) Hx) as [p [E Hp]]. cbn in E. rewrite E. cbn. destruct (Req_EM_T p 0); [contradiction|]. eexists; reflexivity.
  - destruct Hsm as [Hp|[Hn [z [Ez Hz]]]].
    + unfold Rpow_res. destruct (Rlt_dec 0 (e d0)); [|contradiction]. destruct (Nat.eqb i 0); eexists; reflexivity.
    + destruct (Nat.eqb_spec i 0) as [Ei|Ei].
      * rewrite Ez. rewrite <- minus_IZR. rewrite Rpow_int; [eexists; reflexivity|]. destruct Hz as [Hz|Hz]; [now left|right; lia].
      * destruct i as [|[|i]]; [contradiction| |destruct i; discriminate Hi]. injection Hi as ->. contradiction.
  - destruct (Rlt_dec 0 (e d0)) as [H|H]; [|destruct Hf as [Hf|Hf]; discriminate Hf].
    destruct (Req_EM_T (e d0) 0) as [K|K]; [lra|]. eexists; reflexivity.
  - destruct (Nat.eqb _ _); eexists; reflexivity.
  - destruct (Nat.eqb _ _); eexists; reflexivity.
Qed.

Lemma loop_ok : forall k xs ins l (a : aenv), (forall iv, In iv l -> exists o, comp_adj RO k xs ins (fst iv) = Ok o) ->
  snd (iter_o (padj_step RO k xs ins) l a) = None.
Proof.
  intros k xs ins l. induction l as [|iv l IH]; intros a H; [reflexivity|]. cbn [iter_o]. unfold padj_step at 1.
  destruct (H iv (or_introl eq_refl)) as [[x|] ->]; apply IH; intros; apply H; now right.
Qed.

Lemma sweep_ok : forall mk e bs a, (forall b ins iv, In b bs -> length ins = length (b_outs b) -> existsb is_some ins = true ->
    In iv (marked mk (b_deps b)) -> exists o, comp_adj RO (b_kind b) (map e (b_deps b)) ins (fst iv) = Ok o) ->
  snd (padj RO mk e bs a) = None.
Proof.
  intros mk e bs a H. unfold padj.
  assert (H' : forall b, In b (rev bs) -> In b bs) by (intros b; apply in_rev). revert H'. generalize (rev bs). intros l.
  revert a. induction l as [|b l IH]; intros a Hl; [reflexivity|]. cbn [iter_o].
  assert (E : snd (padj_block RO mk e a b) = None).
  { unfold padj_block. destruct (existsb is_some (map a (b_outs b))) eqn:Ex; [|reflexivity]. cbn [negb].
    apply loop_ok. intros iv Hiv. apply (H b); auto. - apply Hl. now left. - apply map_length. }
  destruct (padj_block RO mk e a b) as [a' x]. cbn in E. subst x. apply IH. intros b' Hb'. apply Hl. now right.
Qed.

Lemma marked_in : forall mk (l : list nat) iv, In iv (marked mk l) -> nth_error l (fst iv) = Some (snd iv) /\ mk (snd iv) = true.
Proof.
  intros mk l [i v] H. unfold marked in H. apply filter_In in H as [H1 H2]. split; [|exact H2]. now apply enum_In.
Qed.

Lemma gradient_runs : forall bs J ctrls a h e, wf_tape bs -> List.Forall shaped bs -> independent bs ctrls -> no_ctrl h -> no_mark h ->
  (forall v, In v (deps_of bs) -> saved h v = e v) ->
  settled bs ctrls e -> smooth_at bs ctrls e -> adjoints_run bs ctrls e ->
  exists g, snd (compute_gradient RO bs J ctrls a h) = Ok g /\ length g = length ctrls.
Proof.
  intros bs J ctrls a h e [Ht Hn] Hsh Hi Nc Nm He Hst Hsm Hr.
  destruct (grad_spec RO bs J ctrls a h Nc) as [A _]. rewrite A. clear A.
  rewrite sweep_ok.
  { eexists. split; [reflexivity|]. apply map_length. }
  intros b ins iv Hb Hl Hx Hiv. apply marked_in in Hiv as [Hiv Hm]. rewrite (Nm (snd iv)) in Hm. cbn in Hm. apply mem_In in Hm.
  assert (Hd : In (snd iv) (b_deps b)) by (eapply nth_error_In; eauto).
  assert (Es : map (saved h) (b_deps b) = map e (b_deps b)).
  { apply map_ext_in. intros x Hx'. apply He. unfold deps_of. apply in_flat_map. eauto. }
  rewrite Es.
  assert (Hc : existsb (fun v => mem v ctrls) (b_outs b) = false).
  { destruct (existsb (fun v => mem v ctrls) (b_outs b)) eqn:Ec; [|reflexivity]. exfalso. exact (cut_unmarked bs ctrls b (snd iv) Ht Hi Hb Ec Hd Hm). }
  pose proof (not_cut b ctrls Hc) as Hnc.
  assert (Hinf : influenced bs ctrls (snd iv)) by (apply (find_relevant_influences bs ctrls (snd iv) Ht); exact Hm).
  specialize (Hsm b _ Hb Hnc Hd Hinf). specialize (Hr b _ Hb Hnc Hd Hinf). specialize (Hst b Hb Hnc).
  rewrite List.Forall_forall in Hsh. specialize (Hsh b Hb).
  assert (Hk : (exists u, b_kind b = KUser u) \/ (forall u, b_kind b <> KUser u)) by (destruct (b_kind b); (left; eexists; reflexivity) || (right; intros; discriminate)).
  destruct Hk as [[u Ek]|Hk].
  - unfold adjoint_runs in Hr. rewrite Ek in *. cbn [comp_adj]. apply Hr; auto. apply nth_error_Some. congruence.
  - assert (Lo : (length (b_outs b) <= 1)%nat).
    { unfold shaped in Hsh. destruct (b_kind b); try exact (proj2 Hsh). exfalso. exact (Hk _ eq_refl). }
    destruct ins as [|x [|? ?]]; cbn in Hl, Hx; try discriminate Hx; try lia. destruct x as [x|]; [|discriminate Hx].
    eapply builtin_adj_ok; eauto.
Qed.

(** ** After an evaluation *)
Lemma call_settled : forall bs J ctrls sc m h y, wf_tape bs -> NoDup ctrls -> no_ctrl h ->
  snd (rf_call RO bs (RF J ctrls sc) m h) = Ok y ->
  let h' := fst (rf_call RO bs (RF J ctrls sc) m h) in
  no_ctrl h' /\ settled bs ctrls (saved h') /\ map (saved h') ctrls = m.
Proof.
  intros bs J ctrls sc m h y [Ht Hn] Hnd Nc Hy h'.
  destruct (Nat.eq_dec (length m) (length ctrls)) as [Hl|Hl].
  2:{ rewrite (rf_call_mismatch RO bs (RF J ctrls sc) m h Hl) in Hy. discriminate Hy. }
  destruct (rf_call_spec RO bs (RF J ctrls sc) m h Nc Hl) as [A [B C]]. fold h' in B, C. cbn [rf_ctrls rf_J rf_scale] in *.
  split. { intros v. specialize (C v). apply erase_frame, frame_ctrl in C. rewrite C. apply Nc. }
  set (cut := fun v => mem v ctrls) in *. set (e0 := start_env h ctrls m) in *.
  destruct (geval RO cut bs e0) as [e x] eqn:E. cbn [fst snd] in *.
  destruct x; [rewrite A in Hy; discriminate Hy|]. split.
  - intros b Hb Hc. assert (Hc' : existsb cut (b_outs b) = false).
    { destruct (existsb cut (b_outs b)) eqn:Ex; [|reflexivity]. exfalso. apply existsb_exists in Ex as [o [Ho Hm]]. apply mem_In in Hm. exact (Hc o Ho Hm). }
    pose proof (geval_fixed RO cut bs e0 e Ht Hn E b Hb Hc') as G. unfold fixed_block in *.
    intros k o Ho. rewrite (B o). rewrite (map_ext (saved h') e) by exact B. exact (G k o Ho).
  - rewrite <- (supplied_nodup ctrls m Hnd Hl). apply map_ext_in. intros c Hc. rewrite B.
    assert (Ee : e c = e0 c).
    { change e with (fst (e, @None exn)). rewrite <- E. apply geval_frame. intros K. apply computed_not_cut in K. unfold cut in K. apply mem_false in K. contradiction. }
    rewrite Ee. unfold e0, start_env. pose proof (supplied_some ctrls m c Hl) as S. rewrite (proj2 (mem_In _ _) Hc) in S.
    destruct (supplied ctrls m c); [reflexivity|discriminate S].
Qed.

(** Nothing else than a value list is needed of the point at which the operations are smooth. *)
Lemma smooth_at_ext : forall bs ctrls e e', (forall v, In v (deps_of bs) -> e v = e' v) -> smooth_at bs ctrls e -> smooth_at bs ctrls e'.
Proof.
  intros bs ctrls e e' He H b d Hb Hc Hd Hi. specialize (H b d Hb Hc Hd Hi).
  assert (Hin : forall x, In x (b_deps b) -> e x = e' x) by (intros x Hx; apply He; unfold deps_of; apply in_flat_map; eauto).
  unfold smooth_block in *. destruct (b_kind b); auto.
  - destruct (b_deps b) as [|d0 [|d1 [|? ?]]]; auto. rewrite <- (Hin d0), <- (Hin d1) by (cbn; auto). exact H.
  - destruct (b_deps b) as [|d0 [|d1 [|? ?]]]; auto. rewrite <- (Hin d0), <- (Hin d1) by (cbn; auto). exact H.
  - destruct (b_deps b) as [|d0 [|d1 [|? ?]]]; auto. rewrite <- (Hin d0), <- (Hin d1) by (cbn; auto). exact H.
  - rewrite <- (map_ext_in e e' (b_deps b) Hin). exact H.
Qed.
Lemma adjoints_right_ext : forall bs ctrls e e', (forall v, In v (deps_of bs) -> e v = e' v) -> adjoints_right bs ctrls e -> adjoints_right bs ctrls e'.
Proof.
  intros bs ctrls e e' He H b d Hb Hc Hd Hi. specialize (H b d Hb Hc Hd Hi). unfold adjoint_right in *. destruct (b_kind b); auto.
  rewrite <- (map_ext_in e e' (b_deps b)); [exact H|]. intros x Hx. apply He. unfold deps_of. apply in_flat_map. eauto.
Qed.
Lemma tangents_right_ext : forall bs ctrls e e', (forall v, In v (deps_of bs) -> e v = e' v) -> tangents_right bs ctrls e -> tangents_right bs ctrls e'.
Proof.
  intros bs ctrls e e' He H b d Hb Hc Hd Hi. specialize (H b d Hb Hc Hd Hi). unfold tangent_right in *. destruct (b_kind b); auto.
  rewrite <- (map_ext_in e e' (b_deps b)); [exact H|]. intros x Hx. apply He. unfold deps_of. apply in_flat_map. eauto.
Qed.

Definition calm (l : list (api R)) : Prop := forallb (fun a => negb (is_call a)) l = true.

(** The derivative after an evaluation at [m] and any other calls that do not evaluate. *)
Lemma derivative_after_call_fresh : forall bs J ctrls sc m h0 y l d g, wf_tape bs -> List.Forall shaped bs -> NoDup ctrls -> independent bs ctrls ->
  (forall v, bv_ctrl (h0 v) = false) -> length d = length ctrls ->
  snd (rf_call RO bs (RF J ctrls sc) m h0) = Ok y -> calm l ->
  let h := run_hist RO bs (fst (rf_call RO bs (RF J ctrls sc) m h0)) l in
  fresh_ctrls bs J ctrls h -> smooth_at bs ctrls (saved h) -> adjoints_right bs ctrls (saved h) ->
  snd (rf_derivative RO bs (RF J ctrls sc) 1 h) = Ok g ->
  exists f : R -> R, locally 0 (fun s => snd (rf_call RO bs (RF J ctrls sc) (shift m d s) h) = Ok (f s)) /\ is_derive f 0 (dot RO g d).
Proof.
  intros bs J ctrls sc m h0 y l d g Hw Hsh Hnd Hi Nc Hd Hy Hl h Ho Hsm Har G.
  destruct (call_settled bs J ctrls sc m h0 y Hw Hnd Nc Hy) as [Nc' [St Em]].
  set (h1 := fst (rf_call RO bs (RF J ctrls sc) m h0)) in *.
  assert (Es : forall v, saved h v = saved h1 v) by (intros v; now apply hist_saved).
  rewrite <- Em. apply (derivative_exact bs J ctrls sc h (saved h1) d g); auto.
  - apply hist_frame. exact Nc'.
  - apply (smooth_at_ext bs ctrls (saved h)); auto.
  - apply (adjoints_right_ext bs ctrls (saved h)); auto.
Qed.

Lemma derivative_after_call : forall bs J ctrls sc m h0 y l d g, wf_tape bs -> List.Forall shaped bs -> NoDup ctrls -> independent bs ctrls ->
  (forall v, bv_ctrl (h0 v) = false) -> on_tape bs ctrls -> length d = length ctrls ->
  snd (rf_call RO bs (RF J ctrls sc) m h0) = Ok y -> calm l ->
  let h := run_hist RO bs (fst (rf_call RO bs (RF J ctrls sc) m h0)) l in
  smooth_at bs ctrls (saved h) -> adjoints_right bs ctrls (saved h) ->
  snd (rf_derivative RO bs (RF J ctrls sc) 1 h) = Ok g ->
  exists f : R -> R, locally 0 (fun s => snd (rf_call RO bs (RF J ctrls sc) (shift m d s) h) = Ok (f s)) /\ is_derive f 0 (dot RO g d).
Proof.
  intros bs J ctrls sc m h0 y l d g Hw Hsh Hnd Hi Nc Ho Hd Hy Hl h Hsm Har G.
  apply (derivative_after_call_fresh bs J ctrls sc m h0 y l d g); auto. now apply on_tape_fresh.
Qed.

Lemma derivative_runs_after_call : forall bs J ctrls sc m h0 y l a, wf_tape bs -> List.Forall shaped bs -> NoDup ctrls -> ctrls <> [] -> independent bs ctrls ->
  (forall v, bv_ctrl (h0 v) = false) ->
  snd (rf_call RO bs (RF J ctrls sc) m h0) = Ok y -> calm l ->
  let h := run_hist RO bs (fst (rf_call RO bs (RF J ctrls sc) m h0)) l in
  (forall v, bv_mark (h v) = false) ->
  smooth_at bs ctrls (saved h) -> adjoints_run bs ctrls (saved h) ->
  exists g, snd (rf_derivative RO bs (RF J ctrls sc) a h) = Ok g /\ length g = length ctrls.
Proof.
  intros bs J ctrls sc m h0 y l a Hw Hsh Hnd Hne Hi Nc Hy Hl h Nm Hsm Har.
  destruct (call_settled bs J ctrls sc m h0 y Hw Hnd Nc Hy) as [Nc' [St Em]].
  set (h1 := fst (rf_call RO bs (RF J ctrls sc) m h0)) in *.
  assert (Es : forall v, saved h v = saved h1 v) by (intros v; now apply hist_saved).
  rewrite derivative_grad by exact Hne. cbn [rf_J rf_ctrls rf_scale].
  apply (gradient_runs bs J ctrls _ h (saved h)); auto.
  - apply hist_frame. exact Nc'.
  - intros b Hb Hc k o Hk. rewrite Es, (map_ext (saved h) (saved h1)) by exact Es. exact (St b Hb Hc k o Hk).
Qed.

(** Tangents after an evaluation. *)
Lemma tangent_after_call : forall bs J ctrls sc m h0 y l d h', wf_tape bs -> List.Forall shaped bs -> NoDup ctrls -> independent bs ctrls ->
  (forall v, bv_ctrl (h0 v) = false) -> length d = length ctrls ->
  snd (rf_call RO bs (RF J ctrls sc) m h0) = Ok y -> calm l ->
  let h := run_hist RO bs (fst (rf_call RO bs (RF J ctrls sc) m h0)) l in
  tlm_clean bs ctrls h ->
  smooth_at bs ctrls (saved h) -> tangents_right bs ctrls (saved h) ->
  run_tlm RO bs ctrls d h = (h', None) ->
  exists f : R -> R, locally 0 (fun s => snd (rf_call RO bs (RF J ctrls sc) (shift m d s) h) = Ok (f s)) /\ is_derive f 0 (val RO (bv_tlm (h' J)) * sc).
Proof.
  intros bs J ctrls sc m h0 y l d h' Hw Hsh Hnd Hi Nc Hd Hy Hl h Hcl Hsm Htr G.
  destruct (call_settled bs J ctrls sc m h0 y Hw Hnd Nc Hy) as [Nc' [St Em]].
  set (h1 := fst (rf_call RO bs (RF J ctrls sc) m h0)) in *.
  assert (Es : forall v, saved h v = saved h1 v) by (intros v; now apply hist_saved).
  rewrite <- Em. apply (tangent_exact bs J ctrls sc h h' (saved h1) d); auto.
  - apply hist_frame. exact Nc'.
  - apply (smooth_at_ext bs ctrls (saved h)); auto.
  - apply (tangents_right_ext bs ctrls (saved h)); auto.
Qed.

(** ** Recorded programs *)
Lemma call_saved : forall bs rf m h1 h2, no_ctrl h1 -> no_ctrl h2 -> (forall v, saved h1 v = saved h2 v) ->
  snd (rf_call RO bs rf m h1) = snd (rf_call RO bs rf m h2).
Proof.
  intros bs rf m h1 h2 N1 N2 H. destruct (Nat.eq_dec (length m) (length (rf_ctrls rf))) as [Hl|Hl].
  2:{ now rewrite !rf_call_mismatch. }
  destruct (rf_call_spec RO bs rf m h1 N1 Hl) as [A1 _]. destruct (rf_call_spec RO bs rf m h2 N2 Hl) as [A2 _].
  rewrite A1, A2.
  destruct (geval_ext RO (fun v => mem v (rf_ctrls rf)) (fun v => mem v (rf_ctrls rf)) bs (start_env h1 (rf_ctrls rf) m) (start_env h2 (rf_ctrls rf) m)) as [C B].
  { reflexivity. } { intros v. unfold start_env. now rewrite H. }
  rewrite C. destruct (snd (geval RO _ bs (start_env h2 (rf_ctrls rf) m))); [reflexivity|]. now rewrite B.
Qed.

(** The value part: a function of the step that the re-run returns near 0. *)
Lemma rerun_curve : forall ann p j sc m d (f : R -> R) (D : R),
  locally 0 (fun s => rmap (fun x => x * sc) (spec_rerun RO ann p (shift m d s) j) = Ok (f s)) -> is_derive f 0 D ->
  exists y : R -> R, locally 0 (fun s => spec_rerun RO ann p (shift m d s) j = Ok (y s)) /\ is_derive (fun s => y s * sc) 0 D.
Proof.
  intros ann p j sc m d f D A B.
  exists (fun s => match spec_rerun RO ann p (shift m d s) j with Ok y => y | Err _ => 0 end). split.
  - revert A. apply filter_imp. intros s A. destruct (spec_rerun RO ann p (shift m d s) j); [reflexivity|discriminate A].
  - apply (is_derive_ext_loc f); [|exact B]. revert A. apply filter_imp. intros s A.
    destruct (spec_rerun RO ann p (shift m d s) j); [|discriminate A]. cbn in A. now injection A.
Qed.

Lemma recorded_point : forall ann p j, consistent p -> disciplined ann p = true ->
  (j < length (w_objs (exec RO (world_new RO ann) p)))%nat ->
  let w := fst (recorded RO ann p j) in
  let J := snd (recorded RO ann p j) in
  let bs := t_flat (w_tape w) in
  (forall v, In v (deps_of bs) \/ v = J -> saved (w_heap w) v = recs (w_heap w) v) /\
  (forall ctrls, settled bs ctrls (recs (w_heap w))) /\
  map (recs (w_heap w)) (w_ctrls w) = control_values RO ann p.
Proof.
  intros ann p j Hc Hd Hj w J bs. destruct (recorded_good RO ann p j no_override Hc Hd Hj) as [[W S] [Hv C]]. fold w J in W, S, Hv, C.
  split; [|split].
  - intros v [H| ->]; apply (saved_rec RO w _ W); [now left|right; exists j; exact C].
  - intros ctrls b Hb _ k o Hk. left. pose proof (wi_rec RO [] w W) as Hr. rewrite List.Forall_forall in Hr. exact (Hr b Hb k o Hk).
  - unfold control_values. rewrite (sm_ctrls RO _ _ _ S), map_map. reflexivity.
Qed.

Lemma derivative_recorded_fresh : forall ann p j sc l d g, consistent p -> disciplined ann p = true ->
  (j < length (w_objs (exec RO (world_new RO ann) p)))%nat ->
  let w := fst (recorded RO ann p j) in
  let rf := RF (snd (recorded RO ann p j)) (w_ctrls w) sc in
  let bs := t_flat (w_tape w) in
  let h := run_hist RO bs (w_heap w) l in
  NoDup (w_ctrls w) -> independent bs (w_ctrls w) -> fresh_ctrls bs (rf_J rf) (w_ctrls w) h -> calm l -> length d = length (w_ctrls w) ->
  smooth_at bs (w_ctrls w) (saved h) -> adjoints_right bs (w_ctrls w) (saved h) ->
  snd (rf_derivative RO bs rf 1 h) = Ok g ->
  exists y : R -> R, locally 0 (fun s => spec_rerun RO ann p (shift (control_values RO ann p) d s) j = Ok (y s)) /\
    is_derive (fun s => y s * sc) 0 (dot RO g d).
Proof.
  intros ann p j sc l d g Hc Hd Hj w rf bs h Hnd Hi Ho Hl Hld Hsm Har G.
  destruct (recorded_clean RO ann p j Hc Hd Hj) as [Hwf [_ [Nc [_ Z]]]]. fold w bs in Hwf, Nc, Z.
  pose proof (recorded_shaped RO ann p j Hc Hd Hj) as Hsh. fold w bs in Hsh.
  destruct (recorded_point ann p j Hc Hd Hj) as [P [Q M]]. fold w bs in P, Q, M.
  assert (Es : forall v, saved h v = saved (w_heap w) v) by (intros v; now apply hist_saved).
  assert (Nh : no_ctrl h) by (apply hist_frame; exact Nc).
  destruct (derivative_exact bs (rf_J rf) (w_ctrls w) sc h (recs (w_heap w)) d g) as [f [A B]]; auto.
  - intros v Hv. rewrite Es. now apply P.
  - apply (smooth_at_ext bs (w_ctrls w) (saved h)); [|exact Hsm]. intros v Hv. rewrite Es. apply P. now left.
  - apply (adjoints_right_ext bs (w_ctrls w) (saved h)); [|exact Har]. intros v Hv. rewrite Es. apply P. now left.
  - apply (rerun_curve ann p j sc _ d f); [|exact B]. rewrite M in A. revert A. apply filter_imp. intros s A.
    assert (Lm : length (shift (control_values RO ann p) d s) = length (w_ctrls w)).
    { rewrite <- M, shift_length; rewrite map_length; auto. }
    rewrite <- A. symmetry. rewrite (call_saved bs _ _ h (w_heap w) Nh Nc Es).
    exact (rf_call_rerun RO ann p j (shift (control_values RO ann p) d s) sc [] Hc Hd Hj Lm ltac:(intros ? ? []) (or_introl eq_refl)).
Qed.

Lemma derivative_recorded : forall ann p j sc l d g, consistent p -> disciplined ann p = true ->
  (j < length (w_objs (exec RO (world_new RO ann) p)))%nat ->
  let w := fst (recorded RO ann p j) in
  let rf := RF (snd (recorded RO ann p j)) (w_ctrls w) sc in
  let bs := t_flat (w_tape w) in
  let h := run_hist RO bs (w_heap w) l in
  NoDup (w_ctrls w) -> independent bs (w_ctrls w) -> on_tape bs (w_ctrls w) -> calm l -> length d = length (w_ctrls w) ->
  smooth_at bs (w_ctrls w) (saved h) -> adjoints_right bs (w_ctrls w) (saved h) ->
  snd (rf_derivative RO bs rf 1 h) = Ok g ->
  exists y : R -> R, locally 0 (fun s => spec_rerun RO ann p (shift (control_values RO ann p) d s) j = Ok (y s)) /\
    is_derive (fun s => y s * sc) 0 (dot RO g d).
Proof.
  intros ann p j sc l d g Hc Hd Hj w rf bs h Hnd Hi Ho Hl Hld Hsm Har G.
  apply (derivative_recorded_fresh ann p j sc l d g); auto. now apply on_tape_fresh.
Qed.

Lemma derivative_recorded_seeds : forall ann p j sc l d g, consistent p -> disciplined ann p = true ->
  (j < length (w_objs (exec RO (world_new RO ann) p)))%nat ->
  let w := fst (recorded RO ann p j) in
  let rf := RF (snd (recorded RO ann p j)) (w_ctrls w) sc in
  let bs := t_flat (w_tape w) in
  let h := run_hist RO bs (w_heap w) l in
  NoDup (w_ctrls w) -> independent bs (w_ctrls w) -> on_tape bs (w_ctrls w) \/ seeds_on bs (rf_J rf) l -> calm l -> length d = length (w_ctrls w) ->
  smooth_at bs (w_ctrls w) (saved h) -> adjoints_right bs (w_ctrls w) (saved h) ->
  snd (rf_derivative RO bs rf 1 h) = Ok g ->
  exists y : R -> R, locally 0 (fun s => spec_rerun RO ann p (shift (control_values RO ann p) d s) j = Ok (y s)) /\
    is_derive (fun s => y s * sc) 0 (dot RO g d).
Proof.
  intros ann p j sc l d g Hc Hd Hj w rf bs h Hnd Hi Ho Hl Hld Hsm Har G.
  apply (derivative_recorded_fresh ann p j sc l d g); auto. now apply recorded_fresh.
Qed.

Lemma derivative_recorded_runs : forall ann p j sc l a, consistent p -> disciplined ann p = true ->
  (j < length (w_objs (exec RO (world_new RO ann) p)))%nat ->
  let w := fst (recorded RO ann p j) in
  let rf := RF (snd (recorded RO ann p j)) (w_ctrls w) sc in
  let bs := t_flat (w_tape w) in
  let h := run_hist RO bs (w_heap w) l in
  w_ctrls w <> [] -> independent bs (w_ctrls w) -> calm l -> all_ok RO bs (w_heap w) l = true ->
  smooth_at bs (w_ctrls w) (saved h) -> adjoints_run bs (w_ctrls w) (saved h) ->
  exists g, snd (rf_derivative RO bs rf a h) = Ok g /\ length g = length (w_ctrls w).
Proof.
  intros ann p j sc l a Hc Hd Hj w rf bs h Hne Hi Hl Hok Hsm Har.
  destruct (recorded_clean RO ann p j Hc Hd Hj) as [Hwf [_ [Nc [Nm Z]]]]. fold w bs in Hwf, Nc, Nm, Z.
  pose proof (recorded_shaped RO ann p j Hc Hd Hj) as Hsh. fold w bs in Hsh.
  destruct (recorded_point ann p j Hc Hd Hj) as [P [Q M]]. fold w bs in P, Q, M.
  assert (Es : forall v, saved h v = saved (w_heap w) v) by (intros v; now apply hist_saved).
  assert (Ed : forall v, In v (deps_of bs) -> saved h v = recs (w_heap w) v) by (intros v Hv; rewrite Es; apply P; now left).
  unfold rf. rewrite derivative_grad by exact Hne. cbn [rf_J rf_ctrls rf_scale].
  apply (gradient_runs bs _ (w_ctrls w) _ h (recs (w_heap w))); auto.
  - apply hist_frame. exact Nc.
  - now apply (hist_clean RO bs l (w_heap w) Nc Nm).
  - apply (smooth_at_ext bs (w_ctrls w) (saved h)); auto.
  - intros b x Hb Hx Hin Hinf. specialize (Har b x Hb Hx Hin Hinf). unfold adjoint_runs in *. destruct (b_kind b); auto.
    rewrite <- (map_ext_in (saved h) (recs (w_heap w)) (b_deps b)); [exact Har|].
    intros u' Hu'. apply Ed. unfold deps_of. apply in_flat_map. eauto.
Qed.

Lemma derivative_evaluated_fresh : forall ann p j sc l1 m y0 l2 d g, consistent p -> disciplined ann p = true ->
  (j < length (w_objs (exec RO (world_new RO ann) p)))%nat ->
  let w := fst (recorded RO ann p j) in
  let rf := RF (snd (recorded RO ann p j)) (w_ctrls w) sc in
  let bs := t_flat (w_tape w) in
  let h1 := run_hist RO bs (w_heap w) l1 in
  let h := run_hist RO bs (fst (rf_call RO bs rf m h1)) l2 in
  NoDup (w_ctrls w) -> independent bs (w_ctrls w) -> fresh_ctrls bs (rf_J rf) (w_ctrls w) h -> closed (w_ctrls w) bs -> calls_controls w l1 ->
  snd (rf_call RO bs rf m h1) = Ok y0 -> calm l2 -> length d = length (w_ctrls w) ->
  smooth_at bs (w_ctrls w) (saved h) -> adjoints_right bs (w_ctrls w) (saved h) ->
  snd (rf_derivative RO bs rf 1 h) = Ok g ->
  exists y : R -> R, locally 0 (fun s => spec_rerun RO ann p (shift m d s) j = Ok (y s)) /\
    is_derive (fun s => y s * sc) 0 (dot RO g d).
Proof.
  intros ann p j sc l1 m y0 l2 d g Hc Hd Hj w rf bs h1 h Hnd Hi Ho Hcl Hcc Hy Hl Hld Hsm Har G.
  destruct (recorded_clean RO ann p j Hc Hd Hj) as [Hwf [_ [Nc _]]]. fold w bs in Hwf, Nc.
  pose proof (recorded_shaped RO ann p j Hc Hd Hj) as Hsh. fold w bs in Hsh.
  assert (Nh1 : no_ctrl h1) by (apply hist_frame; exact Nc).
  destruct (derivative_after_call_fresh bs (rf_J rf) (w_ctrls w) sc m h1 y0 l2 d g) as [f [A B]]; auto.
  apply (rerun_curve ann p j sc _ d f); [|exact B]. revert A. apply filter_imp. intros s A. rewrite <- A. symmetry.
  destruct (Nat.eq_dec (length m) (length (w_ctrls w))) as [Hm|Hm].
  2:{ rewrite (rf_call_mismatch RO bs rf m h1 Hm) in Hy. discriminate Hy. }
  assert (Lm : length (shift m d s) = length (w_ctrls w)) by (rewrite shift_length; congruence).
  assert (E : h = run_hist RO bs (w_heap w) (l1 ++ ACall rf m :: l2)).
  { unfold run_hist. rewrite fold_left_app. cbn [fold_left]. unfold h, run_hist. f_equal. cbn [api_run]. fold (run_hist RO bs (w_heap w) l1). fold h1.
    destruct (rf_call RO bs rf m h1). reflexivity. }
  change (run_hist RO bs (fst (rf_call RO bs {| rf_J := rf_J rf; rf_ctrls := w_ctrls w; rf_scale := sc |} m h1)) l2) with h. rewrite E.
  apply (rf_call_rerun RO ann p j (shift m d s) sc (l1 ++ ACall rf m :: l2) Hc Hd Hj Lm).
  - intros rf' v' Hin. apply in_app_or in Hin as [Hin|[Hin|Hin]]; [exact (Hcc rf' v' Hin)| |].
    + injection Hin as <- <-. auto.
    + exfalso. unfold calm in Hl. rewrite forallb_forall in Hl. specialize (Hl _ Hin). discriminate Hl.
  - right. exact Hcl.
Qed.

Lemma derivative_evaluated : forall ann p j sc l1 m y0 l2 d g, consistent p -> disciplined ann p = true ->
  (j < length (w_objs (exec RO (world_new RO ann) p)))%nat ->
  let w := fst (recorded RO ann p j) in
  let rf := RF (snd (recorded RO ann p j)) (w_ctrls w) sc in
  let bs := t_flat (w_tape w) in
  let h1 := run_hist RO bs (w_heap w) l1 in
  let h := run_hist RO bs (fst (rf_call RO bs rf m h1)) l2 in
  NoDup (w_ctrls w) -> independent bs (w_ctrls w) -> on_tape bs (w_ctrls w) -> closed (w_ctrls w) bs -> calls_controls w l1 ->
  snd (rf_call RO bs rf m h1) = Ok y0 -> calm l2 -> length d = length (w_ctrls w) ->
  smooth_at bs (w_ctrls w) (saved h) -> adjoints_right bs (w_ctrls w) (saved h) ->
  snd (rf_derivative RO bs rf 1 h) = Ok g ->
  exists y : R -> R, locally 0 (fun s => spec_rerun RO ann p (shift m d s) j = Ok (y s)) /\
    is_derive (fun s => y s * sc) 0 (dot RO g d).
Proof.
  intros ann p j sc l1 m y0 l2 d g Hc Hd Hj w rf bs h1 h Hnd Hi Ho Hcl Hcc Hy Hl Hld Hsm Har G.
  apply (derivative_evaluated_fresh ann p j sc l1 m y0 l2 d g); auto. now apply on_tape_fresh.
Qed.

Lemma derivative_evaluated_seeds : forall ann p j sc l1 m y0 l2 d g, consistent p -> disciplined ann p = true ->
  (j < length (w_objs (exec RO (world_new RO ann) p)))%nat ->
  let w := fst (recorded RO ann p j) in
  let rf := RF (snd (recorded RO ann p j)) (w_ctrls w) sc in
  let bs := t_flat (w_tape w) in
  let h1 := run_hist RO bs (w_heap w) l1 in
  let h := run_hist RO bs (fst (rf_call RO bs rf m h1)) l2 in
  NoDup (w_ctrls w) -> independent bs (w_ctrls w) -> on_tape bs (w_ctrls w) \/ seeds_on bs (rf_J rf) (l1 ++ l2) -> closed (w_ctrls w) bs -> calls_controls w l1 ->
  snd (rf_call RO bs rf m h1) = Ok y0 -> calm l2 -> length d = length (w_ctrls w) ->
  smooth_at bs (w_ctrls w) (saved h) -> adjoints_right bs (w_ctrls w) (saved h) ->
  snd (rf_derivative RO bs rf 1 h) = Ok g ->
  exists y : R -> R, locally 0 (fun s => spec_rerun RO ann p (shift m d s) j = Ok (y s)) /\
    is_derive (fun s => y s * sc) 0 (dot RO g d).
Proof.
  intros ann p j sc l1 m y0 l2 d g Hc Hd Hj w rf bs h1 h Hnd Hi Ho Hcl Hcc Hy Hl Hld Hsm Har G.
  apply (derivative_evaluated_fresh ann p j sc l1 m y0 l2 d g); auto. now apply evaluated_fresh.
Qed.

Lemma tangent_recorded : forall ann p j d hT, consistent p -> disciplined ann p = true ->
  (j < length (w_objs (exec RO (world_new RO ann) p)))%nat ->
  let w := fst (recorded RO ann p j) in
  let J := snd (recorded RO ann p j) in
  let bs := t_flat (w_tape w) in
  NoDup (w_ctrls w) -> independent bs (w_ctrls w) -> length d = length (w_ctrls w) ->
  smooth_at bs (w_ctrls w) (saved (w_heap w)) -> tangents_right bs (w_ctrls w) (saved (w_heap w)) ->
  run_tlm RO bs (w_ctrls w) d (w_heap w) = (hT, None) ->
  exists y : R -> R, locally 0 (fun s => spec_rerun RO ann p (shift (control_values RO ann p) d s) j = Ok (y s)) /\
    is_derive y 0 (val RO (bv_tlm (hT J))).
Proof.
  intros ann p j d hT Hc Hd Hj w J bs Hnd Hi Hld Hsm Htr G.
  destruct (recorded_clean RO ann p j Hc Hd Hj) as [Hwf [_ [Nc [_ Z]]]]. fold w bs in Hwf, Nc, Z.
  pose proof (recorded_shaped RO ann p j Hc Hd Hj) as Hsh. fold w bs in Hsh.
  destruct (recorded_point ann p j Hc Hd Hj) as [P [Q M]]. fold w bs in P, Q, M.
  destruct (tangent_exact bs J (w_ctrls w) 1 (w_heap w) hT (recs (w_heap w)) d) as [f [A B]]; auto.
  - intros v _ _. apply (Z v).
  - apply (smooth_at_ext bs (w_ctrls w) (saved (w_heap w))); [|exact Hsm]. intros v Hv. apply P. now left.
  - apply (tangents_right_ext bs (w_ctrls w) (saved (w_heap w))); [|exact Htr]. intros v Hv. apply P. now left.
  - assert (Y : exists y : R -> R, locally 0 (fun s => spec_rerun RO ann p (shift (control_values RO ann p) d s) j = Ok (y s)) /\
      is_derive (fun s => y s * 1) 0 (val RO (bv_tlm (hT J)) * 1)).
    2:{ destruct Y as [y [Y1 Y2]]. exists y. split; [exact Y1|]. rewrite Rmult_1_r in Y2.
        apply (is_derive_ext (fun s => y s * 1)); [intros; apply Rmult_1_r|exact Y2]. }
    apply (rerun_curve ann p j 1 _ d f); [|exact B]. rewrite M in A. revert A. apply filter_imp. intros s A.
    assert (Lm : length (shift (control_values RO ann p) d s) = length (w_ctrls w)).
    { rewrite <- M, shift_length; rewrite map_length; auto. }
    rewrite <- A. symmetry.
    exact (rf_call_rerun RO ann p j (shift (control_values RO ann p) d s) 1 [] Hc Hd Hj Lm ltac:(intros ? ? []) (or_introl eq_refl)).
Qed.
