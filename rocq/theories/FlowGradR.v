(** Programs with if and while over the reals: near numbers at which no recorded float meets a number compared with it, the
    decisions do not change, and the derivative is that of the program. *)
From Coq Require Import List Arith Bool Lia Reals Lra.
From Coquelicot Require Import Coquelicot.
From Verif Require Import Base Model BaseFacts Graph Record Spec RecordFacts Replay ReplayExec History Session Sweep SpecGraph Marks FreshAdj Dual TlmSweep RealInst Calculus Gradient PyExp SpecPy PyFacts PyProg PyGradR PyFlow SpecFlow FlowFacts.
Import ListNotations.
Open Scope R_scope.

Section FlowGradR.
Context (P : pyops R).
(** A value along a line: continuous, constant if it is not a recorded float. *)
Definition curve (b : bool) (f : R -> R) : Prop := continuous f 0 /\ (b = false -> forall s, f s = f 0).
Definition at_ (s : R) (fs : list (R -> R)) : list R := map (fun f => f s) fs.

Lemma curve_const : forall b v, curve b (fun _ => v).
Proof. intros b v. split; [apply continuous_const | reflexivity]. Qed.
Lemma near_pos : forall f : R -> R, continuous f 0 -> 0 < f 0 -> locally 0 (fun s => 0 < f s).
Proof. intros f H K. exact (H _ (open_gt 0 (f 0) K)). Qed.
Lemma near_neq : forall f : R -> R, continuous f 0 -> f 0 <> 0 -> locally 0 (fun s => f s <> 0).
Proof. intros f H K. exact (H _ (open_neq 0 (f 0) K)). Qed.
Lemma near_lt : forall f g : R -> R, continuous f 0 -> continuous g 0 -> f 0 < g 0 -> locally 0 (fun s => f s < g s).
Proof.
  intros f g Hf Hg K. assert (C : continuous (fun s => g s - f s) 0) by exact (@continuous_minus R_UniformSpace R_AbsRing R_NormedModule g f 0 Hg Hf).
  eapply filter_imp; [|exact (near_pos _ C ltac:(lra))]. cbn. intros s H. lra.
Qed.
Lemma curve_at : forall bl fs i b, List.Forall2 curve bl fs -> nth_error bl i = Some b -> exists f, nth_error fs i = Some f /\ curve b f.
Proof. intros bl fs i b H E. exact (Forall2_nth _ _ _ _ _ _ _ H E). Qed.
Lemma at_nth : forall s fs i f, nth_error fs i = Some f -> nth_error (at_ s fs) i = Some (f s).
Proof. intros s fs i f E. unfold at_. now rewrite (map_nth_error _ _ _ E). Qed.

Lemma number_curve : forall e bl fs v, List.Forall2 curve bl fs -> supported bl e = true -> elementary e = true -> number RO P (at_ 0 fs) e = Ok v ->
  exists f, f 0 = v /\ curve (recorded_float bl e) f /\ locally 0 (fun s => number RO P (at_ s fs) e = Ok (f s)).
Proof.
  induction e as [i v0|i|o a IHa b IHb|o a IHa|g a IHa|g a IHa b IHb]; intros bl fs v H S E N.
  - cbn in N. injection N as <-. exists (fun _ => v0). split; [reflexivity|]. split; [apply curve_const|]. apply filter_forall. reflexivity.
  - cbn [supported] in S. apply Nat.ltb_lt in S. destruct (nth_error bl i) as [b|] eqn:K; [|apply nth_error_None in K; lia].
    destruct (curve_at _ _ _ _ H K) as (f & Kf & Hf). cbn [number] in N. rewrite (at_nth _ _ _ _ Kf) in N. injection N as <-. exists f. split; [reflexivity|].
    cbn [recorded_float]. rewrite (nth_error_nth _ _ _ K). split; [exact Hf|]. apply filter_forall. intros s. cbn [number]. now rewrite (at_nth _ _ _ _ Kf).
  - cbn [supported] in S. apply andb_true_iff in S as [S So]. apply andb_true_iff in S as [Sa Sb].
    assert (E' : elementary a = true /\ elementary b = true /\ o <> BPow) by (cbn in E; destruct o; try discriminate E; apply andb_true_iff in E as [? ?]; repeat split; auto; discriminate).
    destruct E' as (Ea & Eb & Eo). cbn [number] in N. destruct (number RO P (at_ 0 fs) a) as [va|] eqn:Na; [|discriminate N]. destruct (number RO P (at_ 0 fs) b) as [vb|] eqn:Nb; [|discriminate N]. cbn [bind] in N.
    destruct (IHa _ _ _ H Sa Ea Na) as (fa & A0 & [Ac Ak] & Al). destruct (IHb _ _ _ H Sb Eb Nb) as (fb & B0 & [Bc Bk] & Bl).
    assert (Fin : forall f : R -> R, f 0 = v -> curve (recorded_float bl (PBin o a b)) f -> locally 0 (fun s => binary RO P o (fa s) (fb s) = Ok (f s)) ->
      exists f : R -> R, f 0 = v /\ curve (recorded_float bl (PBin o a b)) f /\ locally 0 (fun s => number RO P (at_ s fs) (PBin o a b) = Ok (f s))).
    { intros f F0 Fc Fl. exists f. split; [exact F0|]. split; [exact Fc|]. generalize (filter_and _ _ Al (filter_and _ _ Bl Fl)). apply filter_imp. intros s (Ha & Hb & Hf). cbn [number]. rewrite Ha, Hb. exact Hf. }
    assert (Both : recorded_float bl a || recorded_float bl b = false -> (forall s, fa s = fa 0) /\ (forall s, fb s = fb 0)).
    { intros K. apply orb_false_iff in K as [K1 K2]. auto. }
    destruct o; cbn [binary] in N, Fin.
    + cbn in N. injection N as <-. apply (Fin (fun s => fa s + fb s)); [now rewrite A0, B0 | | apply filter_forall; reflexivity].
      split; [exact (@continuous_plus R_UniformSpace R_AbsRing R_NormedModule fa fb 0 Ac Bc)|]. cbn [recorded_float]. intros K s. destruct (Both K) as [K1 K2]. now rewrite K1, K2.
    + cbn in N. injection N as <-. apply (Fin (fun s => fa s - fb s)); [now rewrite A0, B0 | | apply filter_forall; reflexivity].
      split; [exact (@continuous_minus R_UniformSpace R_AbsRing R_NormedModule fa fb 0 Ac Bc)|]. cbn [recorded_float]. intros K s. destruct (Both K) as [K1 K2]. now rewrite K1, K2.
    + cbn in N. injection N as <-. apply (Fin (fun s => fa s * fb s)); [now rewrite A0, B0 | | apply filter_forall; reflexivity].
      split; [exact (@continuous_mult R_UniformSpace R_AbsRing fa fb 0 Ac Bc)|]. cbn [recorded_float]. intros K s. destruct (Both K) as [K1 K2]. now rewrite K1, K2.
    + cbn in N. destruct (Req_EM_T vb 0) as [|Hb]; [discriminate N|]. injection N as <-. rewrite <- B0 in Hb. apply (Fin (fun s => fa s / fb s)); [now rewrite A0, B0 | |].
      * split; [exact (@continuous_mult R_UniformSpace R_AbsRing fa (fun s => / fb s) 0 Ac (continuous_Rinv_comp fb 0 Bc Hb))|]. cbn [recorded_float]. intros K s.
        rewrite K in So. cbn in So. apply negb_true_iff in So. now rewrite (Ak K), (Bk So).
      * generalize (near_neq _ Bc Hb). apply filter_imp. intros s Hs. cbn. destruct (Req_EM_T (fb s) 0); [contradiction|reflexivity].
    + contradiction.
    + apply andb_true_iff in So as [S1 S2]. apply negb_true_iff in S1, S2. apply (Fin (fun _ => v)); [reflexivity | apply curve_const|]. apply filter_forall. intros s. now rewrite (Ak S1), (Bk S2), A0, B0.
    + apply andb_true_iff in So as [S1 S2]. apply negb_true_iff in S1, S2. apply (Fin (fun _ => v)); [reflexivity | apply curve_const|]. apply filter_forall. intros s. now rewrite (Ak S1), (Bk S2), A0, B0.
  - cbn [supported] in S. apply andb_true_iff in S as [Sa So]. cbn [elementary] in E. cbn [number] in N. destruct (number RO P (at_ 0 fs) a) as [va|] eqn:Na; [|discriminate N]. cbn [bind] in N. injection N as <-.
    destruct (IHa _ _ _ H Sa E Na) as (fa & A0 & [Ac Ak] & Al). destruct o.
    + exists (fun s => - fa s). cbn [unary]. split; [now rewrite A0|]. split.
      * split; [exact (@continuous_opp R_UniformSpace R_AbsRing R_NormedModule fa 0 Ac)|]. cbn [recorded_float]. intros K s. now rewrite (Ak K).
      * generalize Al. apply filter_imp. intros s Hs. cbn [number]. rewrite Hs. reflexivity.
    + apply negb_true_iff in So. exists (fun _ => va). cbn [unary]. split; [reflexivity|]. split; [apply curve_const|]. generalize Al. apply filter_imp. intros s Hs. cbn [number]. rewrite Hs, (Ak So), A0. reflexivity.
    + apply negb_true_iff in So. exists (fun _ => py_abs P va). cbn [unary]. split; [reflexivity|]. split; [apply curve_const|]. generalize Al. apply filter_imp. intros s Hs. cbn [number]. rewrite Hs, (Ak So), A0. reflexivity.
  - cbn [supported] in S. apply andb_true_iff in S as [Sa So]. cbn [elementary] in E. destruct g; cbn [number] in N; (destruct (number RO P (at_ 0 fs) a) as [va|] eqn:Na; [|discriminate N]); cbn [bind sop] in N;
      destruct (IHa _ _ _ H Sa E Na) as (fa & A0 & [Ac Ak] & Al).
    + cbn in N. injection N as <-. exists (fun s => exp (fa s)). split; [now rewrite A0|]. split; [split; [exact (continuous_exp_comp fa 0 Ac) | discriminate]|].
      generalize Al. apply filter_imp. intros s Hs. cbn [number]. rewrite Hs. reflexivity.
    + cbn in N. destruct (Rlt_dec 0 va) as [Hp|]; [|discriminate N]. injection N as <-. rewrite <- A0 in Hp. exists (fun s => ln (fa s)). split; [now rewrite A0|]. split; [split; [|discriminate]|].
      * exact (continuous_comp fa ln 0 Ac (continuous_ln _ Hp)).
      * generalize (filter_and _ _ Al (near_pos _ Ac Hp)). apply filter_imp. intros s [Hs Hps]. cbn [number]. rewrite Hs. cbn. destruct (Rlt_dec 0 (fa s)); [reflexivity|contradiction].
  - discriminate E.
Qed.
Lemma numbers_curve : forall es bl fs l, List.Forall2 curve bl fs -> supported_program bl es = true -> forallb elementary es = true -> numbers RO P (at_ 0 fs) es = Ok l ->
  exists gs, l = at_ 0 gs /\ List.Forall2 curve (recorded_vars bl es) gs /\ locally 0 (fun s => numbers RO P (at_ s fs) es = Ok (at_ s gs)).
Proof.
  induction es as [|e es IH]; intros bl fs l H S E N; cbn [numbers] in N.
  - injection N as <-. exists fs. split; [reflexivity|]. split; [exact H|]. apply filter_forall. reflexivity.
  - cbn [supported_program] in S. apply andb_true_iff in S as [S1 S2]. cbn [forallb] in E. apply andb_true_iff in E as [E1 E2].
    destruct (number RO P (at_ 0 fs) e) as [v|] eqn:Ne; [|discriminate N]. cbn [bind] in N. destruct (number_curve _ _ _ _ H S1 E1 Ne) as (f & F0 & Fc & Fl).
    assert (A : forall s, at_ s fs ++ [f s] = at_ s (fs ++ [f])) by (intros s; unfold at_; now rewrite map_app). rewrite <- F0, A in N.
    destruct (IH (bl ++ [recorded_float bl e]) (fs ++ [f]) l) as (gs & -> & Hg & Lg); auto; [apply Forall2_app; auto|]. exists gs. split; [reflexivity|]. split; [exact Hg|].
    generalize (filter_and _ _ Fl Lg). apply filter_imp. intros s [Hs Hl]. cbn [numbers]. rewrite Hs. cbn [bind]. now rewrite A.
Qed.
Fixpoint lines (m d : list R) : list (R -> R) := match m, d with x :: m', y :: d' => (fun s => x + s * y) :: lines m' d' | _, _ => [] end.
Lemma lines_at : forall m d s, at_ s (lines m d) = shift m d s.
Proof. unfold at_. induction m as [|x m IH]; intros [|y d] s; cbn; [reflexivity..|]. now rewrite IH. Qed.
Lemma lines_curve : forall m d, length d = length m -> List.Forall2 curve (repeat true (length m)) (lines m d).
Proof.
  induction m as [|x m IH]; intros [|y d] L; cbn in L; try discriminate L; cbn; constructor; [|apply IH; lia]. split; [|discriminate].
  apply (ex_derive_continuous (fun s => x + s * y)). auto_derive. exact I.
Qed.
Lemma cmp_near : forall c (f g : R -> R) b1 b2, curve b1 f -> curve b2 g -> apart (b1 || b2) (f 0) (g 0) -> locally 0 (fun s => cmp_val RO c (f s) (g s) = cmp_val RO c (f 0) (g 0)).
Proof.
  intros c f g b1 b2 [Fc Fk] [Gc Gk] A. destruct (b1 || b2) eqn:B.
  - specialize (A eq_refl). assert (D : f 0 < g 0 \/ g 0 < f 0) by (destruct (Rtotal_order (f 0) (g 0)) as [?|[?|?]]; [now left | contradiction | now right]).
    destruct D as [D|D]; [generalize (near_lt _ _ Fc Gc D) | generalize (near_lt _ _ Gc Fc D)]; apply filter_imp; intros s Hs; destruct c; cbn; unfold Rle_b, Rlt_b;
      repeat match goal with |- context [Rle_dec ?x ?y] => destruct (Rle_dec x y) | |- context [Rlt_dec ?x ?y] => destruct (Rlt_dec x y) end; try reflexivity; exfalso; lra.
  - apply orb_false_iff in B as [B1 B2]. apply filter_forall. intros s. now rewrite (Fk B1), (Gk B2).
Qed.
Lemma checks_near : forall bl fs cs, List.Forall2 curve bl fs -> List.Forall (ok_check RO apart bl (at_ 0 fs)) cs -> locally 0 (fun s => List.Forall (holds_check RO (at_ s fs)) cs).
Proof.
  intros bl fs cs H C. induction C as [|k cs Hk C IH]; [apply filter_forall; intros; constructor|].
  destruct k as [[[c i] j] d]. destruct Hk as (u & v & b1 & b2 & Hu & Hv & H1 & H2 & E & A).
  destruct (curve_at _ _ _ _ H H1) as (f & Kf & Hf). destruct (curve_at _ _ _ _ H H2) as (g & Kg & Hg).
  rewrite (at_nth _ _ _ _ Kf) in Hu. injection Hu as <-. rewrite (at_nth _ _ _ _ Kg) in Hv. injection Hv as <-.
  generalize (filter_and _ _ IH (cmp_near c f g b1 b2 Hf Hg A)). apply filter_imp. intros s [I1 I2]. constructor; [|exact I1].
  exists (f s), (g s). split; [now apply at_nth|]. split; [now apply at_nth|]. now rewrite I2.
Qed.
(** Near [m] the program takes the decisions it takes at [m]. *)
Lemma same_near : forall okE (xs m d : list R) p ds es cs rho' rest env, sym (seq 0 (length xs)) (length xs) p ds es cs rho' rest ->
  supported_program (repeat true (length xs)) es = true -> forallb elementary es = true -> length m = length xs -> length d = length xs ->
  runs RO P okE apart (started m) p ds (Ok (env, rest)) -> locally 0 (fun s => exists env', runs RO P anyE anyC (started (shift m d s)) p ds (Ok (env', rest))).
Proof.
  intros okE xs m d p ds es cs rho' rest env Y S E Lm Ld R.
  pose proof (sym_rerun RO P okE apart _ _ _ _ _ _ _ _ Y m (repeat true (length m)) (started m) (Ok (env, rest)) Lm ltac:(now rewrite repeat_length) ) as H. rewrite started_fst, started_snd in H.
  specialize (H (start_through xs _ _ Lm) (start_through xs _ (repeat true (length m)) ltac:(rewrite repeat_length; exact Lm)) R).
  destruct H as (_ & l' & N & _ & _ & _ & C). assert (Ld' : length d = length m) by congruence. rewrite <- Lm in S.
  assert (N0 : numbers RO P (at_ 0 (lines m d)) es = Ok l') by (rewrite lines_at, shift_zero; auto).
  destruct (numbers_curve es _ _ _ (lines_curve m d Ld') S E N0) as (gs & -> & Hg & Lg).
  generalize (filter_and _ _ Lg (checks_near _ _ _ Hg C)). apply filter_imp. intros s [I1 I2]. rewrite lines_at in I1.
  assert (Ls : length (shift m d s) = length xs) by (rewrite shift_length; auto).
  destruct (sym_runs RO P _ _ _ _ _ _ _ _ Y (shift m d s) (at_ s gs) (started (shift m d s)) Ls) as (env' & R' & _); [rewrite started_fst; now apply start_through | exact I1 | exact I2 | eauto].
Qed.

Theorem flow_gradient : forall xs p ds env rest fuel w0 vars j o sc, runs RO P calculus apart (started xs) p ds (Ok (env, rest)) ->
  flow_run RO P fuel xs p = Some (w0, Ok vars) -> nth_error vars j = Some (PObj o) -> xs <> [] ->
  let w := fst (get_bv w0 o) in
  let rf := RF (snd (get_bv w0 o)) (w_ctrls w) sc in
  let bs := t_flat (w_tape w) in
  exists g, snd (rf_derivative RO bs rf 1 (w_heap w)) = Ok g /\ length g = length xs /\
    forall d, length d = length xs -> exists y : R -> R,
      locally 0 (fun s => exists r, runs RO P anyE anyC (started (shift xs d s)) p ds r /\ result_at r j = Ok (y s)) /\ is_derive (fun s => y s * sc) 0 (dot RO g d).
Proof.
  intros xs p ds env rest fuel w0 vars j o sc R E Hj Hne.
  destruct (flow_straight RO P Rplus_comm Rmult_comm xs true apart _ _ _ _ _ _ _ R E) as (es & cs & rho' & ps & l' & Y & Hs & He & Hr & Hn & T).
  destruct (through_at _ _ _ _ _ _ T Hj) as (k & Hk & Hpk).
  pose proof (py_elementary_recorded P xs es ps k o sc Hs He) as H. rewrite Hr in H. specialize (H eq_refl Hpk Hne). cbv zeta in H |- *. cbn [fst] in H.
  destruct H as (g & G1 & G2 & G3). exists g. split; [exact G1|]. split; [exact G2|]. intros d Hd. destruct (G3 d Hd) as (y & Y1 & Y2). exists y. split; [|exact Y2].
  generalize (filter_and _ _ Y1 (same_near _ _ xs d _ _ _ _ _ _ _ Y Hs He eq_refl Hd R)). apply filter_imp. intros s [I1 (env' & I2)]. eexists. split; [exact I2|].
  rewrite <- I1. symmetry. refine (rerun_variable RO P _ _ _ _ _ _ _ _ _ _ _ _ _ Y _ I2 Hk). rewrite shift_length; auto.
Qed.
Theorem flow_gradient_evaluated : forall xs p ds env rest fuel w0 vars j o sc l1 m envm l2 d g, runs RO P calculus anyC (started xs) p ds (Ok (env, rest)) ->
  flow_run RO P fuel xs p = Some (w0, Ok vars) -> nth_error vars j = Some (PObj o) ->
  let w := fst (get_bv w0 o) in
  let rf := RF (snd (get_bv w0 o)) (w_ctrls w) sc in
  let bs := t_flat (w_tape w) in
  let h1 := run_hist RO bs (w_heap w) l1 in
  let h := run_hist RO bs (fst (rf_call RO bs rf m h1)) l2 in
  on_tape bs (w_ctrls w) \/ seeds_on bs (rf_J rf) (l1 ++ l2) -> calls_controls w l1 -> calm l2 -> length m = length xs -> length d = length xs ->
  runs RO P anyE apart (started m) p ds (Ok (envm, rest)) -> snd (rf_derivative RO bs rf 1 h) = Ok g ->
  exists y : R -> R, locally 0 (fun s => exists r, runs RO P anyE anyC (started (shift m d s)) p ds r /\ result_at r j = Ok (y s)) /\ is_derive (fun s => y s * sc) 0 (dot RO g d).
Proof.
  intros xs p ds env rest fuel w0 vars j o sc l1 m envm l2 d g R E Hj.
  destruct (flow_straight RO P Rplus_comm Rmult_comm xs true anyC _ _ _ _ _ _ _ R E) as (es & cs & rho' & ps & l' & Y & Hs & He & Hr & Hn & T).
  destruct (through_at _ _ _ _ _ _ T Hj) as (k & Hk & Hpk). cbv zeta. intros Hon Hcc Hc Hm Hd Rm Hg.
  pose proof (rerun_variable RO P _ _ _ _ _ _ _ _ _ _ _ _ _ Y Hm Rm Hk) as Ev.
  pose proof (py_call RO P Rplus_comm Rmult_comm xs es ps k o m sc l1 Hs) as Hcall. rewrite Hr in Hcall. specialize (Hcall eq_refl Hpk Hm). cbv zeta in Hcall. cbn [fst] in Hcall. destruct Hcall as [_ Hcall].
  specialize (Hcall Hcc). rewrite Ev in Hcall.
  assert (Hy : exists y0, result_at (Ok (envm, rest)) j = Ok y0).
  { pose proof (sym_rerun RO P anyE apart _ _ _ _ _ _ _ _ Y m (repeat true (length m)) (started m) (Ok (envm, rest)) Hm ltac:(now rewrite repeat_length)) as H. rewrite started_fst, started_snd in H.
    specialize (H (start_through xs _ _ Hm) (start_through xs _ (repeat true (length m)) ltac:(rewrite repeat_length; exact Hm)) Rm).
    destruct H as (_ & lm & _ & _ & Tm & _ & _). pose proof (through_len _ _ _ _ Tm) as Lt. rewrite map_length in Lt.
    assert (K : (j < length rho')%nat) by (apply nth_error_Some; rewrite Hk; discriminate). unfold result_at. cbn. destruct (nth_error envm j) as [x|] eqn:Kx; [eauto|]. apply nth_error_None in Kx. lia. }
  destruct Hy as [y0 Hy]. rewrite Hy in Hcall. cbn [rmap] in Hcall.
  pose proof (py_elementary_evaluated P xs es ps k o sc l1 m (y0 * sc) l2 d g Hs He) as H. rewrite Hr in H. specialize (H eq_refl Hpk). cbv zeta in H. cbn [fst] in H.
  destruct (H Hon Hcc Hcall Hc Hm Hd Hg) as (y & Y1 & Y2). exists y. split; [|exact Y2].
  generalize (filter_and _ _ Y1 (same_near _ _ m d _ _ _ _ _ _ _ Y Hs He Hm Hd Rm)). apply filter_imp. intros s [I1 (env' & I2)]. eexists. split; [exact I2|].
  rewrite <- I1. symmetry. refine (rerun_variable RO P _ _ _ _ _ _ _ _ _ _ _ _ _ Y _ I2 Hk). rewrite shift_length; congruence.
Qed.
(** [if x == 2: y = 4 + 0*x else: y = x*x] *)
Definition tie_a : pexp R := PBin BAdd (PLit true 4) (PBin BMul (PLit true 0) (PVar 0)).
Definition tie_b : pexp R := PBin BMul (PVar 0) (PVar 0).
Definition tie : prog R := If CmpEq (PVar 0) (PLit true 2) (Assign 1 tie_a) (Assign 1 tie_b).
Lemma decided_eq : forall x y : R, decided RO CmpEq x y = if Req_EM_T x y then true else false.
Proof.
  intros x y. cbn. unfold Rle_b. destruct (Req_EM_T x y) as [->|H].
  - destruct (Rle_dec y y) as [_|K]; [reflexivity | exfalso; apply K; lra].
  - destruct (Rle_dec x y), (Rle_dec y x); try reflexivity. exfalso. apply H. lra.
Qed.
Lemma tie_runs : forall okE (okC : bool -> R -> R -> Prop) x, (forall e, supported [true] e = true -> okE [true] e = true) -> (forall b u v, okC b u v) -> exists r, runs RO P okE okC (started [x]) tie [if Req_EM_T x 2 then true else false] (Ok (r, [])) /\ result_at (Ok (r, [])) 1 = Ok (x * x).
Proof.
  intros okE okC x HE HC. rewrite <- decided_eq. eexists. split.
  - eapply (r_if RO P okE okC (started [x]) CmpEq (PVar 0) (PLit true 2) _ _ x 2); [now apply HE | now apply HE | reflexivity | reflexivity | apply HC |].
    rewrite decided_eq. instantiate (1 := [(x, true); (x * x, true)]). destruct (Req_EM_T x 2) as [->|K].
    + replace (2 * 2) with (4 + 0 * 2) by lra. exact (r_assign RO P okE okC (started [2]) 1 tie_a (4 + 0 * 2) [] (HE tie_a eq_refl) eq_refl (le_n 1)).
    + exact (r_assign RO P okE okC (started [x]) 1 tie_b (x * x) [] (HE tie_b eq_refl) eq_refl (le_n 1)).
  - reflexivity.
Qed.
Theorem flow_tie : exists (p : prog R) (xs : list R) (fuel : nat) (w0 : world R) (vars : list (pval R)) (o : nat) (g : list R),
  flow_run RO P fuel xs p = Some (w0, Ok vars) /\ nth_error vars 1 = Some (PObj o) /\
  (let w := fst (get_bv w0 o) in snd (rf_derivative RO (t_flat (w_tape w)) (RF (snd (get_bv w0 o)) (w_ctrls w) 1) 1 (w_heap w)) = Ok g) /\
  (forall d s, exists ds r, runs RO P anyE anyC (started (shift xs [d] s)) p ds r /\ result_at r 1 = Ok ((2 + s * d) * (2 + s * d))) /\
  ~ is_derive (fun s => (2 + s * 1) * (2 + s * 1)) 0 (dot RO g [1]).
Proof.
  exists tie, [2].
  assert (R : exists env, runs RO P (fun env e => supported env e && (if true then elementary e else true)) anyC (started [2]) tie [true] (Ok (env, []))).
  { eexists. assert (D : decided RO CmpEq 2 2 = true) by (rewrite decided_eq; destruct (Req_EM_T 2 2); [reflexivity|contradiction]). rewrite <- D.
    eapply (r_if RO P _ _ (started [2]) CmpEq (PVar 0) (PLit true 2) _ _ 2 2); [reflexivity | reflexivity | reflexivity | reflexivity | exact I |]. rewrite D.
    exact (r_assign RO P _ _ (started [2]) 1 tie_a (4 + 0 * 2) [] eq_refl eq_refl (le_n 1)). }
  destruct R as [env R]. pose proof (flow_recorded RO P Rplus_comm Rmult_comm [2] true anyC _ _ _ R) as H. cbn beta iota in H.
  destruct H as (es & cs & rho' & w' & ps' & l' & penv' & k & Y & Hst & T1 & T2 & T3 & Q).
  destruct (state_records RO P Rplus_comm Rmult_comm _ _ _ _ _ _ Hst) as [A B].
  inversion Y; subst. match goal with K : sym _ _ (Assign _ _) _ _ _ _ _ |- _ => inversion K; subst end. cbn [app length] in *.
  destruct Hst as [S E L N]. cbn in A.
  assert (Fl : exists a b c e, ps' = [a; b; c; e] /\ is_obj e = true).
  { destruct ps' as [|a [|b [|c [|e [|? ?]]]]]; cbn in A; try discriminate A. injection A as _ _ _ A. eauto 10. }
  destruct Fl as (a & b & c & e & -> & He). destruct e as [? ?|o]; [discriminate He|].
  inversion T3 as [|? va ? pe Ka T4]; subst. inversion T4 as [|? vb ? pf Kb T5]; subst. inversion T5; subst. cbn in Kb. injection Kb as <-.
  match type of L with py_lets _ _ _ _ ?x = _ => set (es := x) in * end. assert (L2 : py_run RO P true [2] es = (w', Ok [a; b; c; PObj o])) by (unfold py_run; exact L).
  pose proof (py_elementary_recorded P [2] es [a; b; c; PObj o] 3 o 1 S E) as H. cbv zeta in H. rewrite L2 in H. cbn [snd fst] in H. specialize (H eq_refl eq_refl ltac:(discriminate)).
  destruct H as (g & G1 & G2 & G3). exists k, w', [va; PObj o], o, g. split; [apply Q; lia|]. split; [reflexivity|]. split; [exact G1|]. split.
  - intros d s. destruct (tie_runs anyE anyC (2 + s * d)) as (r & R1 & R2); [reflexivity | intros; exact I |]. eexists. exists (Ok (r, [])). split; [exact R1 | exact R2].
  - intros K. destruct (G3 [1] eq_refl) as (y & Y1 & Y2).
    assert (Z : is_derive (fun s => y s * 1) 0 0).
    { apply (is_derive_ext_loc (fun _ => 4)); [|exact (@is_derive_const R_AbsRing R_NormedModule 4 0)].
      generalize Y1. apply filter_imp. intros s Hs. cbn in Hs. injection Hs as <-. lra. }
    assert (F : is_derive (fun s => (2 + s * 1) * (2 + s * 1)) 0 4) by (auto_derive; [exact I | lra]).
    pose proof (is_derive_unique _ _ _ K) as U1. pose proof (is_derive_unique _ _ _ F) as U2. pose proof (is_derive_unique _ _ _ Y2) as U3. pose proof (is_derive_unique _ _ _ Z) as U4.
    rewrite U1 in U2. rewrite U3 in U4. rewrite U2 in U4. lra.
Qed.
End FlowGradR.
