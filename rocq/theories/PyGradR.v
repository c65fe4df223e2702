(** Derivatives of Python programs over the reals. *)
From Coq Require Import List Arith ZArith Bool Lia Reals Lra.
From Coquelicot Require Import Coquelicot.
From Verif Require Import Base Model BaseFacts Graph Record Spec RecordFacts Replay ReplayExec History Session Sweep SpecGraph Marks FreshAdj Dual TlmSweep RealInst Calculus Gradient PyExp SpecPy PyFacts PyProg.
Import ListNotations.
Open Scope R_scope.

Section PyGradR.
Variable P : pyops R.

Definition elem_kind (k : kind R) : bool := match k with KPow | KMin | KMax | KUser _ => false | _ => true end.
Lemma elementary_kinds : forall e : pexp R, elementary e = true -> kinds_in elem_kind e = true.
Proof.
  induction e as [i v|i|o a IHa b IHb|o a IHa|f a IHa|f a IHa b IHb]; cbn; intros H; try reflexivity; try discriminate.
  - destruct o; try discriminate; apply andb_true_iff in H as [Ha Hb]; rewrite (IHa Ha), (IHb Hb); reflexivity.
  - rewrite (IHa H). destruct o; reflexivity.
  - rewrite (IHa H). destruct f; reflexivity.
Qed.
Lemma elementary_all : forall es : list (pexp R), forallb elementary es = true -> forallb (kinds_in elem_kind) es = true.
Proof. intros es H. rewrite forallb_forall in *. intros e He. apply elementary_kinds. auto. Qed.

Lemma seq_independent : forall n (okk : kind R -> bool) bs, List.Forall (blk_ok n okk) bs -> independent bs (seq 0 n).
Proof.
  intros n okk bs H c c' Hc Hc' Hn K. inversion K as [|b d o Hb Hd Ho _]; [congruence|]. subst.
  apply (py_leaves n okk bs H c' Hc'). unfold outs_of. apply in_flat_map. eauto.
Qed.
Lemma elem_smooth : forall n bs ctrls e, List.Forall (blk_ok n elem_kind) bs -> smooth_at bs ctrls e /\ adjoints_right bs ctrls e /\ adjoints_run bs ctrls e.
Proof.
  intros n bs ctrls e H. rewrite List.Forall_forall in H. repeat split; intros b d Hb _ _ _; destruct (H b Hb) as [K _];
  [unfold smooth_block|unfold adjoint_right|unfold adjoint_runs]; destruct (b_kind b); try discriminate; exact I.
Qed.
Lemma no_user : forall n (okk : kind R -> bool) bs ctrls e, (forall u, okk (KUser u) = false) -> List.Forall (blk_ok n okk) bs -> adjoints_right bs ctrls e /\ adjoints_run bs ctrls e.
Proof.
  intros n okk bs ctrls e Hu H. rewrite List.Forall_forall in H. split; intros b d Hb _ _ _; destruct (H b Hb) as [K _];
  [unfold adjoint_right|unfold adjoint_runs]; destruct (b_kind b); try exact I; rewrite Hu in K; discriminate.
Qed.
Definition builtin (k : kind R) : bool := match k with KUser _ => false | _ => true end.
Lemma builtin_kinds : forall e : pexp R, kinds_in builtin e = true.
Proof.
  induction e as [i v|i|o a IHa b IHb|o a IHa|f a IHa|f a IHa b IHb]; cbn; try reflexivity; rewrite ?IHa, ?IHb; [destruct o|destruct o|destruct f|destruct f]; reflexivity.
Qed.

Lemma shift_len : forall m d s, length d = length m -> length (shift m d s) = length m.
Proof. induction m as [|x m IH]; intros [|y d] s H; try discriminate; [reflexivity|]. cbn. f_equal. apply IH. now injection H. Qed.
Lemma ctrl_nodup : forall n, NoDup (seq 0 n).
Proof. intros. apply seq_NoDup. Qed.

(** Before any evaluation. *)
Lemma py_gradient_recorded : forall xs es vars j o sc l d g, supported_program (repeat true (length xs)) es = true ->
  snd (py_run RO P true xs es) = Ok vars -> nth_error vars j = Some (PObj o) ->
  let w := fst (get_bv (fst (py_run RO P true xs es)) o) in
  let rf := RF (snd (get_bv (fst (py_run RO P true xs es)) o)) (w_ctrls w) sc in
  let bs := t_flat (w_tape w) in
  let h := run_hist RO bs (w_heap w) l in
  on_tape bs (w_ctrls w) \/ seeds_on bs (rf_J rf) l -> calm l -> length d = length xs -> smooth_at bs (w_ctrls w) (saved h) ->
  snd (rf_derivative RO bs rf 1 h) = Ok g ->
  exists y : R -> R, locally 0 (fun s => variable RO P (shift xs d s) es j = Ok (y s)) /\ is_derive (fun s => y s * sc) 0 (dot RO g d).
Proof.
  intros xs es vars j o sc l d g Hs Hv Hj.
  destruct (py_rerun RO P Rplus_comm Rmult_comm xs es vars j o Hs Hv Hj) as [p [Hc [Hd [Ew [Ho [Hctl [Hcv [Hk Hre]]]]]]]].
  cbv zeta. rewrite Ew. change (get_bv (exec RO (world_new RO true) p) o) with (recorded RO true p o). intros Hon Hcalm Hld Hsm Hg.
  pose proof (Hk builtin (proj2 (forallb_forall _ _) (fun e _ => builtin_kinds e))) as HB.
  destruct (derivative_recorded_seeds true p o sc l d g Hc Hd Ho) as [y [A B]]; auto.
  - rewrite Hctl. apply ctrl_nodup.
  - rewrite Hctl. exact (seq_independent _ _ _ HB).
  - rewrite Hctl, seq_length. exact Hld.
  - exact (proj1 (no_user _ builtin _ _ _ (fun _ => eq_refl) HB)).
  - exists y. split; [|exact B]. revert A. apply filter_imp. intros s A. rewrite Hcv in A. rewrite <- (Hre (shift xs d s)) by (now apply shift_len). exact A.
Qed.

Lemma py_gradient_returns : forall xs es vars j o sc l a, supported_program (repeat true (length xs)) es = true ->
  snd (py_run RO P true xs es) = Ok vars -> nth_error vars j = Some (PObj o) ->
  let w := fst (get_bv (fst (py_run RO P true xs es)) o) in
  let rf := RF (snd (get_bv (fst (py_run RO P true xs es)) o)) (w_ctrls w) sc in
  let bs := t_flat (w_tape w) in
  let h := run_hist RO bs (w_heap w) l in
  xs <> [] -> calm l -> all_ok RO bs (w_heap w) l = true -> smooth_at bs (w_ctrls w) (saved h) ->
  exists g, snd (rf_derivative RO bs rf a h) = Ok g /\ length g = length xs.
Proof.
  intros xs es vars j o sc l a Hs Hv Hj.
  destruct (py_rerun RO P Rplus_comm Rmult_comm xs es vars j o Hs Hv Hj) as [p [Hc [Hd [Ew [Ho [Hctl [Hcv [Hk Hre]]]]]]]].
  cbv zeta. rewrite Ew. change (get_bv (exec RO (world_new RO true) p) o) with (recorded RO true p o). intros Hne Hcalm Hok Hsm.
  pose proof (Hk builtin (proj2 (forallb_forall _ _) (fun e _ => builtin_kinds e))) as HB.
  destruct (derivative_recorded_runs true p o sc l a Hc Hd Ho) as [g [A B]]; auto.
  - rewrite Hctl. destruct xs; [congruence|discriminate].
  - rewrite Hctl. exact (seq_independent _ _ _ HB).
  - exact (proj2 (no_user _ builtin _ _ _ (fun _ => eq_refl) HB)).
  - exists g. split; [exact A|]. rewrite B, Hctl. apply seq_length.
Qed.

(** After any history that ends in an evaluation at [m] and calls that do not evaluate. *)
Lemma py_gradient_evaluated : forall xs es vars j o sc l1 m y0 l2 d g, supported_program (repeat true (length xs)) es = true ->
  snd (py_run RO P true xs es) = Ok vars -> nth_error vars j = Some (PObj o) ->
  let w := fst (get_bv (fst (py_run RO P true xs es)) o) in
  let rf := RF (snd (get_bv (fst (py_run RO P true xs es)) o)) (w_ctrls w) sc in
  let bs := t_flat (w_tape w) in
  let h1 := run_hist RO bs (w_heap w) l1 in
  let h := run_hist RO bs (fst (rf_call RO bs rf m h1)) l2 in
  on_tape bs (w_ctrls w) \/ seeds_on bs (rf_J rf) (l1 ++ l2) -> calls_controls w l1 -> snd (rf_call RO bs rf m h1) = Ok y0 -> calm l2 -> length m = length xs -> length d = length xs ->
  smooth_at bs (w_ctrls w) (saved h) ->
  snd (rf_derivative RO bs rf 1 h) = Ok g ->
  exists y : R -> R, locally 0 (fun s => variable RO P (shift m d s) es j = Ok (y s)) /\ is_derive (fun s => y s * sc) 0 (dot RO g d).
Proof.
  intros xs es vars j o sc l1 m y0 l2 d g Hs Hv Hj.
  destruct (py_rerun RO P Rplus_comm Rmult_comm xs es vars j o Hs Hv Hj) as [p [Hc [Hd [Ew [Ho [Hctl [Hcv [Hk Hre]]]]]]]].
  cbv zeta. rewrite Ew. change (get_bv (exec RO (world_new RO true) p) o) with (recorded RO true p o). intros Hon Hcc Hy Hcalm Hlm Hld Hsm Hg.
  pose proof (Hk builtin (proj2 (forallb_forall _ _) (fun e _ => builtin_kinds e))) as HB.
  destruct (derivative_evaluated_seeds true p o sc l1 m y0 l2 d g Hc Hd Ho) as [y [A B]]; auto.
  - rewrite Hctl. apply ctrl_nodup.
  - rewrite Hctl. exact (seq_independent _ _ _ HB).
  - intros b o1 Hb Ho1 Hin. exfalso. rewrite Hctl in Hin. apply (py_leaves _ _ _ HB o1 Hin). unfold outs_of. apply in_flat_map. exists b. auto.
  - rewrite Hctl, seq_length. exact Hld.
  - exact (proj1 (no_user _ builtin _ _ _ (fun _ => eq_refl) HB)).
  - exists y. split; [|exact B]. revert A. apply filter_imp. intros s A. rewrite <- (Hre (shift m d s)) by (rewrite shift_len; congruence). exact A.
Qed.

(** Without powers, min and max every point is one where the operations are differentiable. *)
Lemma elementary_smooth : forall xs es vars j o, supported_program (repeat true (length xs)) es = true -> forallb elementary es = true ->
  snd (py_run RO P true xs es) = Ok vars -> nth_error vars j = Some (PObj o) ->
  let w := fst (get_bv (fst (py_run RO P true xs es)) o) in
  forall e, smooth_at (t_flat (w_tape w)) (w_ctrls w) e.
Proof.
  intros xs es vars j o Hs He Hv Hj. destruct (py_rerun RO P Rplus_comm Rmult_comm xs es vars j o Hs Hv Hj) as [p [Hc [Hd [Ew [Ho [Hctl [Hcv [Hk Hre]]]]]]]].
  cbv zeta. rewrite Ew. change (get_bv (exec RO (world_new RO true) p) o) with (recorded RO true p o). intros e.
  exact (proj1 (elem_smooth _ _ _ e (Hk elem_kind (elementary_all es He)))).
Qed.
Theorem py_elementary_recorded : forall xs es vars j o sc, supported_program (repeat true (length xs)) es = true -> forallb elementary es = true ->
  snd (py_run RO P true xs es) = Ok vars -> nth_error vars j = Some (PObj o) -> xs <> [] ->
  let w := fst (get_bv (fst (py_run RO P true xs es)) o) in
  let rf := RF (snd (get_bv (fst (py_run RO P true xs es)) o)) (w_ctrls w) sc in
  let bs := t_flat (w_tape w) in
  exists g, snd (rf_derivative RO bs rf 1 (w_heap w)) = Ok g /\ length g = length xs /\
    forall d, length d = length xs ->
    exists y : R -> R, locally 0 (fun s => variable RO P (shift xs d s) es j = Ok (y s)) /\ is_derive (fun s => y s * sc) 0 (dot RO g d).
Proof.
  intros xs es vars j o sc Hs He Hv Hj Hne. pose proof (elementary_smooth xs es vars j o Hs He Hv Hj) as HS. cbv zeta in HS |- *.
  destruct (py_gradient_returns xs es vars j o sc [] 1 Hs Hv Hj Hne) as [g [A B]]; [reflexivity|reflexivity|apply HS|].
  exists g. split; [exact A|]. split; [exact B|]. intros d Hd. apply (py_gradient_recorded xs es vars j o sc [] d g Hs Hv Hj); [right; intros ? ? []|reflexivity|exact Hd|apply HS|exact A].
Qed.
Theorem py_elementary_evaluated : forall xs es vars j o sc l1 m y0 l2 d g, supported_program (repeat true (length xs)) es = true -> forallb elementary es = true ->
  snd (py_run RO P true xs es) = Ok vars -> nth_error vars j = Some (PObj o) ->
  let w := fst (get_bv (fst (py_run RO P true xs es)) o) in
  let rf := RF (snd (get_bv (fst (py_run RO P true xs es)) o)) (w_ctrls w) sc in
  let bs := t_flat (w_tape w) in
  let h1 := run_hist RO bs (w_heap w) l1 in
  let h := run_hist RO bs (fst (rf_call RO bs rf m h1)) l2 in
  on_tape bs (w_ctrls w) \/ seeds_on bs (rf_J rf) (l1 ++ l2) -> calls_controls w l1 -> snd (rf_call RO bs rf m h1) = Ok y0 -> calm l2 -> length m = length xs -> length d = length xs ->
  snd (rf_derivative RO bs rf 1 h) = Ok g ->
  exists y : R -> R, locally 0 (fun s => variable RO P (shift m d s) es j = Ok (y s)) /\ is_derive (fun s => y s * sc) 0 (dot RO g d).
Proof.
  intros xs es vars j o sc l1 m y0 l2 d g Hs He Hv Hj. pose proof (elementary_smooth xs es vars j o Hs He Hv Hj) as HS. cbv zeta in HS |- *.
  intros Hon Hcc Hy Hc Hm Hd Hg. apply (py_gradient_evaluated xs es vars j o sc l1 m y0 l2 d g Hs Hv Hj Hon Hcc Hy Hc Hm Hd); [apply HS|exact Hg].
Qed.
End PyGradR.
