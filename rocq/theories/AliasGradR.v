(** Gradients through arrays in memory over the reals. *)
From Coq Require Import List Arith ZArith Bool Lia Reals.
From Coquelicot Require Import Coquelicot.
From Verif Require Import Base Model Record BaseFacts Spec RecordFacts Graph History Marks FreshAdj Session PyExp SpecArr Arrays ArrFacts ArrTape RealInst SpecArrR ArrProgR Alias SpecAlias AliasFacts AliasGrad SpecAliasGrad AliasGradFacts AliasGradRun.
Import ListNotations.
Open Scope nat_scope.

Theorem alias_gradient : forall (xs : list (aval R)) (es : list (astmt R)) (tys : list bool) (env : list (aval R)) (j : nat) (sc : R),
  atypes (map is_arr xs) es = Some tys -> avalues RO xs es = Ok env -> nth_error tys j = Some false -> xs <> [] ->
  let w := fst (get_bv (fst (arun RO true xs es)) j) in
  let v := snd (get_bv (fst (arun RO true xs es)) j) in
  forall rbs, Forall2 (same_block RO) rbs (t_flat (w_tape w)) ->
  forall gs0 evs1 vs evs2 args envm, sound (g_user gs0) -> apart (g_user gs0) -> agrees RO (u_tape (g_user gs0)) (w_heap w) -> untouched gs0 ->
  let call := GUse (ECall v (w_ctrls w) sc vs) in
  let gs1 := grun RO rbs gs0 evs1 in
  let gs := grun RO rbs gs0 (evs1 ++ call :: evs2) in
  let m := map (deref RO (r_mem (u_tape (g_user gs1)))) args in
  let r := gstep RO rbs gs (GDeriv v (w_ctrls w) sc 1%R) in
  gbehaves RO (w_ctrls w) rbs gs0 (evs1 ++ call :: evs2) -> forallb (fun ev => negb (evaluates ev)) evs2 = true ->
  used (length xs) j es \/ (forall J cs sc' a, In (GDeriv J cs sc' a) (evs1 ++ evs2) -> on_blocks rbs J = true \/ J = v) ->
  mapM (var_ref (g_user gs1)) vs = Ok args -> map is_arr m = map is_arr xs -> avalues RO m es = Ok envm -> unrepeated es envm -> gentle (length xs) es envm ->
  (returned RO rbs gs0 (evs1 ++ call :: evs2) = true -> snd r = None) /\
  (snd r = None -> exists g, length g = length xs /\ (forall i, i < length xs -> seen RO (g_user (fst r)) (length (u_vars (g_user gs)) + i) = nth_error g i) /\
    List.Forall2 (fun x y => direction x y \/ y = Num 0%R) m g /\
    forall d, List.Forall2 direction m d ->
    exists y : R -> R, locally 0%R (fun s => avariable RO (moves m d s) es j = Ok (Num (y s))) /\ is_derive (fun s => (y s * sc)%R) 0%R (apairs g d)).
Proof.
  intros xs es tys env j sc Ht Hv Hj Hne w v rbs Hb gs0 evs1 vs evs2 args envm S A G U call gs1 gs m r B Hq Hus Ea Hm Hvm Hu Hg.
  assert (Hj' : j < length env) by (eapply inside; eauto). pose proof (prog_typed RO xs es tys env j Ht Hv Hj' rbs Hb) as Hty. pose proof (prog_start RO xs es tys env j Ht Hv Hj' rbs gs0 Hb S A G U) as R0.
  set (bs := t_flat (w_tape w)) in *. set (T := fun u => is_arr (saved (w_heap w) u)) in *. set (l1 := gapis RO rbs gs0 evs1). set (gs2 := fst (gstep RO rbs gs1 call)). set (l2 := gapis RO rbs gs2 evs2).
  assert (El : gapis RO rbs gs0 (evs1 ++ call :: evs2) = l1 ++ ACall (RF v (w_ctrls w) (Num sc)) m :: l2).
  { rewrite gapis_app. f_equal. cbn [gapis call gapi api_of]. fold gs1. rewrite Ea. reflexivity. }
  destruct (grun_ok RO T rbs bs Hb Hty (w_ctrls w) _ gs0 _ R0 B) as [R1 [O1 _]]. fold gs in R1. rewrite El in R1, O1.
  assert (Eh : run_hist (AF RO) bs (w_heap w) (l1 ++ ACall (RF v (w_ctrls w) (Num sc)) m :: l2) = run_hist (AF RO) bs (fst (rf_call (AF RO) bs (RF v (w_ctrls w) (Num sc)) m (run_hist (AF RO) bs (w_heap w) l1))) l2).
  { unfold run_hist. rewrite fold_left_app. cbn [fold_left api_run]. destruct (rf_call (AF RO) bs _ m _). reflexivity. }
  match type of Eh with _ = ?hh => assert (R2 : related RO T rbs gs hh) by (rewrite <- Eh; exact R1) end. clear R1.
  pose proof B as B0. apply gbehaves_app in B0 as [B1 [Bc B2]]. fold gs1 in Bc, B2. fold gs2 in B2.
  assert (Cc : calls_controls w l1) by (intros rf vals Hi c Hc; exact (gapis_calls RO (w_ctrls w) rbs evs1 gs0 rf vals B1 Hi c Hc)).
  assert (Q2 : forallb (fun a => negb (is_call a)) l2 = true) by (now apply gapis_quiet).
  assert (Us : used (length xs) j es \/ seeds_on bs v (l1 ++ l2)).
  { destruct Hus as [K|K]; [now left|right]. intros a u Ha Hu'. apply in_app_iff in Ha as [Ha|Ha]; destruct (gapis_seeds _ _ _ _ _ _ Ha Hu') as [cs [sc' [x K1]]];
      (destruct (K u cs sc' x) as [K2|K2]; [apply in_app_iff; auto|left; apply mem_In; rewrite <- (on_blocks_spec RO rbs bs Hb); exact K2|now right]). }
  destruct (gstep_ok RO T rbs bs Hb Hty (w_ctrls w) gs _ (GDeriv v (w_ctrls w) sc 1%R) R2 I) as [_ [_ [_ [_ D]]]]. destruct (D _ _ _ _ eq_refl) as [_ D']. clear D. fold r in D'.
  set (h := run_hist (AF RO) bs (fst (rf_call (AF RO) bs (RF v (w_ctrls w) (Num sc)) m (run_hist (AF RO) bs (w_heap w) l1))) l2) in *. split.
  - intros Hret. specialize (O1 Hret). destruct (arr_gradient_returns xs es tys env j sc l1 m envm l2 Ht Hv Hj Hne Hm Hvm Hu Hg Us Cc Q2 O1) as [g Eg]. fold w v in Eg. fold bs h in Eg. rewrite Eg in D'. apply D'.
  - intros Hr. destruct (snd (rf_derivative (AF RO) bs (RF v (w_ctrls w) (Num sc)) (Num 1%R) h)) as [g|e] eqn:Eg; [|congruence]. destruct D' as [_ [rs [D1 D2]]]. exists g.
    assert (Gd : forall d, List.Forall2 direction m d -> List.Forall2 (fun x y => direction x y \/ y = Num 0%R) m g /\
      exists y : R -> R, locally 0%R (fun s => avariable RO (moves m d s) es j = Ok (Num (y s))) /\ is_derive (fun s => (y s * sc)%R) 0%R (apairs g d)).
    { intros d Hd. exact (arr_gradient_evaluated xs es tys env j sc l1 m envm l2 d g Ht Hv Hj Hm Hvm Hu Hg Hd Us Cc Q2 Eg). }
    assert (Dm : List.Forall2 direction m m) by (clear; induction m as [|[x|l] q IH]; constructor; auto; cbn; auto).
    destruct (Gd m Dm) as [G1 _]. assert (Lg : length g = length xs).
    { assert (Q : forall (X Y : Type) (P : X -> Y -> Prop) l l', List.Forall2 P l l' -> length l = length l') by (induction 1; cbn; congruence). rewrite <- (Q _ _ _ _ _ G1). apply (f_equal (@length _)) in Hm. now rewrite !map_length in Hm. }
    split; [exact Lg|]. split; [|split; [exact G1|intros d Hd; exact (proj2 (Gd d Hd))]].
    intros i Hi. unfold seen. rewrite D1, nth_error_app2 by lia. replace (length (u_vars (g_user gs)) + i - length (u_vars (g_user gs))) with i by lia. rewrite <- D2, !nth_error_map. destruct (nth_error rs i); reflexivity.
Qed.
