(** overload_function: one block with the call's dependencies and one output per result. *)
From Coq Require Import List Arith ZArith Lia Bool.
From Verif Require Import Base Model BaseFacts Graph Record Spec RecordFacts Replay ReplayStep ReplayExec Session Iso Over Observe Proc ProcFacts Instances.
Import ListNotations.

Section OverFacts.
Context {V : Type} (F : fops V).
Implicit Types (w : world V).

Definition has w (o : nat) := o < length (w_objs w).

Lemma create_eq : forall w o ob, nth_error (w_objs w) o = Some ob ->
  create_bv w o = (World (list_set (w_objs w) o (Obj (o_val ob) (Some (w_next w)) (o_gen ob)))
             (upd (w_heap w) (w_next w) (fun _ => bv_new o (o_gen ob) (o_val ob)))
             (S (w_next w)) (w_tape w) (w_ann w) (w_ctrls w), w_next w).
Proof. intros w o ob H. unfold create_bv. now rewrite H. Qed.

(** What [add_outs] does, also when a result is listed twice or already has a block variable. *)
Lemma add_outs_seq : forall os w, Forall (has w) os ->
  let '(w', vs) := add_outs w os in
  vs = seq (w_next w) (length os) /\ flat w' = flat w /\ vals w' = vals w /\
  (forall o v, ~ In o os -> (cur w' o v <-> cur w o v)) /\
  (NoDup os -> Forall2 (cur w') os vs) /\
  (forall v, v < w_next w -> ghost (w_heap w' v) = ghost (w_heap w v) /\ bv_out (w_heap w' v) = bv_out (w_heap w v)) /\
  Forall2 (fun o v => bv_obj (w_heap w' v) = o /\ nth_error (vals w) o = Some (bv_out (w_heap w' v))) os vs.
Proof.
  induction os as [|o r IH]; intros w H.
  - cbn. split; [reflexivity|]. split; [reflexivity|]. split; [reflexivity|]. split; [tauto|]. split; [constructor|]. split; [auto|constructor].
  - inversion H as [|? ? Ho Hr]; subst. cbn [add_outs].
    destruct (nth_error (w_objs w) o) as [ob|] eqn:E; [|apply nth_error_None in E; unfold has in Ho; lia].
    pose proof (create_eq w o ob E) as Ec. rewrite Ec. set (w1 := World _ _ _ _ _ _) in *.
    pose proof (will_out_touches w1 (w_next w)) as T.
    assert (V1 : vals w1 = vals w) by (pose proof (vals_create w o) as Q; rewrite Ec in Q; exact Q).
    assert (C1 : forall o' u, cur (will_out w1 (w_next w)) o' u <-> (if Nat.eqb o o' then u = w_next w else cur w o' u)).
    { intros o' u. unfold cur. rewrite (to_objs _ _ _ T). unfold w1. cbn [w_objs]. rewrite nth_list_set, E.
      destruct (Nat.eqb_spec o o'); [|reflexivity]. split; [intros [b [A B]]; injection A as <-; cbn in B; congruence|].
      intros ->. eexists. split; reflexivity. }
    specialize (IH (will_out w1 (w_next w))).
    assert (Vo : vals (will_out w1 (w_next w)) = vals w) by (rewrite vals_will_out; exact V1).
    destruct (add_outs (will_out w1 (w_next w)) r) as [w2 vs].
    destruct IH as [I1 [I2 [I3 [I4 [I5 [I6 I7]]]]]].
    { eapply Forall_impl; [|exact Hr]. intros a Ha. unfold has in *. rewrite (to_objs _ _ _ T). unfold w1. cbn. now rewrite length_list_set. }
    rewrite (to_next _ _ _ T) in *. change (w_next w1) with (S (w_next w)) in *.
    split; [cbn; f_equal; exact I1|]. split; [rewrite I2, (to_flat _ _ _ T); reflexivity|]. split; [congruence|]. split; [|split; [|split]].
    + intros o' u Hn. rewrite I4, C1 by (intros Q; apply Hn; now right). destruct (Nat.eqb_spec o o'); [exfalso; apply Hn; now left|reflexivity].
    + intros Nd. inversion Nd; subst. constructor; [|now apply I5]. apply I4; [assumption|]. apply C1. now rewrite Nat.eqb_refl.
    + intros v Hv. destruct (I6 v) as [Q1 Q2]; [lia|]. rewrite Q1, Q2, (to_other _ _ _ T) by lia. unfold w1. cbn. rewrite upd_other by lia. split; reflexivity.
    + constructor.
      * destruct (I6 (w_next w)) as [Q1 Q2]; [lia|]. rewrite Q2. destruct (to_rel _ _ _ T) as [G1 [G2 _]].
        rewrite G2. unfold ghost in *. assert (B : w_heap w1 (w_next w) = bv_new o (o_gen ob) (o_val ob)) by (unfold w1; cbn; now rewrite upd_same).
        rewrite B in *. split; [injection Q1 as -> _ _; injection G1 as -> _ _; reflexivity|]. rewrite vals_nth, E. reflexivity.
      * rewrite Vo in I7. exact I7.
Qed.

Lemma add_outs_ann : forall os w, w_ann (fst (add_outs w os)) = w_ann w.
Proof.
  induction os as [|o r IH]; intros w; [reflexivity|]. cbn [add_outs]. destruct (create_bv w o) as [w1 v] eqn:E.
  specialize (IH (will_out w1 v)). destruct (add_outs (will_out w1 v) r) as [w2 vs]. cbn [fst] in *. rewrite IH, (to_ann _ _ _ (will_out_touches w1 v)).
  unfold create_bv in E. destruct (nth_error (w_objs w) o); injection E as <- _; reflexivity.
Qed.

Definition old_ok (n : nat) (r : ret V) : Prop := match r with ROld o => o < n | RNew _ => True end.
(** The result objects: a new object with that value, or that object. *)
Definition result_of w w' (r : ret V) (o : nat) : Prop :=
  match r with RNew y => length (w_objs w) <= o /\ nth_error (vals w') o = Some y | ROld o' => o = o' end.
Lemma make_results_spec : forall rs w, Forall (old_ok (length (w_objs w))) rs ->
  let '(w', os) := make_results w rs in
  Forall (has w') os /\ w_heap w' = w_heap w /\ w_next w' = w_next w /\ w_tape w' = w_tape w /\ w_ann w' = w_ann w /\
  (exists l, w_objs w' = w_objs w ++ map (fun y => Obj y None 0) l) /\ Forall2 (result_of w w') rs os.
Proof.
  induction rs as [|[y|o] rs IH]; intros w H; cbn [make_results].
  - repeat split; auto. exists []. now rewrite app_nil_r.
  - inversion H as [|? ? _ Hr]; subst. unfold new_obj. set (w1 := with_objs _ w). specialize (IH w1).
    assert (L1 : length (w_objs w1) = S (length (w_objs w))) by (unfold w1; cbn; rewrite app_length; cbn; lia).
    destruct (make_results w1 rs) as [w2 os]. destruct IH as [B [C [D [E [A [[l G] K]]]]]].
    { eapply Forall_impl; [|exact Hr]. intros [y'|o']; unfold old_ok; [auto|]. intros Hlt. rewrite L1. lia. }
    assert (Hn : nth_error (w_objs w2) (length (w_objs w)) = Some (Obj y None 0)).
    { rewrite G. rewrite nth_error_app1 by lia. unfold w1. cbn. rewrite nth_error_app2, Nat.sub_diag; [reflexivity|lia]. }
    split; [constructor; [exact (nth_error_some_lt _ _ _ Hn)|exact B]|]. split; [exact C|]. split; [exact D|]. split; [exact E|]. split; [exact A|].
    split; [exists (y :: l); rewrite G; unfold w1; cbn; now rewrite <- app_assoc|].
    constructor; [split; [lia|rewrite vals_nth, Hn; reflexivity]|].
    clear - K L1. induction K as [|[y'|o'] o rs os Q K IH]; constructor; auto. cbn in *. split; [lia|tauto].
  - inversion H as [|? ? Ho Hr]; subst. specialize (IH w Hr). destruct (make_results w rs) as [w2 os]. destruct IH as [B [C [D [E [A [[l G] K]]]]]].
    split; [constructor; [|exact B]; unfold has; rewrite G, app_length; cbn in Ho; lia|]. repeat (split; [eauto|]). constructor; [reflexivity|exact K].
Qed.

(** One block. *)
Definition version_of w (o v : nat) h : Prop :=
  exists ob, nth_error (w_objs w) o = Some ob /\ bv_obj (h v) = o /\ bv_gen (h v) = o_gen ob /\ bv_rec (h v) = o_val ob /\ (forall u, o_bv ob = Some u -> v = u).
Lemma over_on : forall w u pops accepts func args a kwargs tag xs r,
  WInv F [] w -> w_ann w && a = true -> arg_vals w args = Ok xs ->
  call_func accepts func (filter (fun k => negb (mem k pops)) kwargs) xs = Ok r ->
  Forall (old_ok (length (w_objs w))) (enlist r) ->
  let '(w', res) := exec_over w u pops accepts func args a kwargs tag in
  exists deps outs os,
    flat w' = flat w ++ [Blk (KUser u) deps outs tag] /\
    Forall2 (fun o v => version_of w o v (w_heap w')) args deps /\
    length outs = length (enlist r) /\ NoDup outs /\ (forall v, In v outs -> ~ In v deps /\ ~ In v (vars_of (flat w))) /\
    res = delist r os /\ Forall2 (result_of w w') (enlist r) os /\
    Forall2 (fun o v => bv_obj (w_heap w' v) = o /\ nth_error (vals w') o = Some (bv_out (w_heap w' v))) os outs /\
    (NoDup os -> Forall2 (cur w') os outs) /\ w_ann w' = w_ann w.
Proof.
  intros w u pops accepts func args a kwargs tag xs r W An Av Cf Ok'. unfold exec_over. rewrite Av, An. 
  assert (Hlt : Forall (fun o => o < length (w_objs w)) args).
  { apply arg_vals_spec in Av. clear - Av. induction Av as [|o x l l' [ob [A B]] _ IH]; constructor; [exact (nth_error_some_lt _ _ _ A)|exact IH]. }
  pose proof (add_deps_spec F [] args w W Hlt) as Hd. pose proof (vals_add_deps args w) as Vd.
  destruct (add_deps w args) as [w1 deps]. destruct Hd as [W1 [E1 [C1 _]]]. cbn [fst] in Vd. rewrite Cf.
  pose proof (make_results_spec (enlist r) w1) as M. rewrite (ev_len _ _ E1) in M. specialize (M Ok').
  destruct (make_results w1 (enlist r)) as [w2 os]. destruct M as [M1 [M2 [M3 [M4 [M5 [[l M6] M7]]]]]].
  pose proof (add_outs_seq os w2 M1) as A. pose proof (add_outs_ann os w2) as Aa. destruct (add_outs w2 os) as [w3 outs]. cbn [fst] in Aa.
  destruct A as [A1 [A2 [A3 [A4 [A5 [A6 A7]]]]]].
  assert (Fl : flat w2 = flat w) by (unfold flat; rewrite M4; exact (ev_flat _ _ E1)).
  assert (Dl : forall v, In v deps -> v < w_next w1).
  { intros v Hv. clear - Hv C1 W1. induction C1 as [|o d os ds Q _ IH]; [destruct Hv|]. destruct Hv as [<-|Hv]; [|now apply IH]. exact (WInv_cur_lt F [] w1 o d W1 Q). }
  exists deps, outs, os. split.
  { rewrite <- Fl, <- A2. unfold flat. cbn. apply flat_add_block. }
  split.
  { clear - C1 W1 E1 A6 M2 M3 W. induction C1 as [|o v args deps Q _ IH]; constructor; [|exact IH]. clear IH.
    pose proof (WInv_cur_lt F [] w1 o v W1 Q) as Lv. destruct Q as [b1 [Q1 Q2]].
    destruct (wi_cur F [] w1 W1 o b1 v Q1 Q2) as [_ [G _]].
    destruct (nth_error (w_objs w) o) as [ob|] eqn:E.
    2:{ apply nth_error_None in E. apply nth_error_some_lt in Q1. rewrite (ev_len _ _ E1) in Q1. lia. }
    destruct (ev_objs _ _ E1 o ob E) as [ob' [B1 [B2 [B3 [B4 _]]]]]. rewrite Q1 in B1. injection B1 as <-.
    exists ob. split; [exact E|]. destruct (A6 v) as [G2 _]; [rewrite M3; exact Lv|]. rewrite M2, G in G2.
    unfold ghost in G2. injection G2 as G3 G4 G5. cbn [w_heap with_tape]. split; [exact G3|]. split; [congruence|]. split; [congruence|].
    intros u0 Hu. apply B4 in Hu. congruence. }
  split; [rewrite A1, seq_length; symmetry; exact (Iso.F2_length _ _ _ M7)|].
  split; [rewrite A1; apply seq_NoDup|].
  split.
  { intros v Hv. rewrite A1 in Hv. apply in_seq in Hv. rewrite M3 in Hv. split.
    - intros Q. apply Dl in Q. lia.
    - intros Q. rewrite <- (ev_flat _ _ E1) in Q.
      destruct (wi_live F [] w1 W1 v) as [L _]; [unfold refs; apply in_app_iff; now left|lia]. }
  split; [reflexivity|]. split.
  { assert (Vw : vals (with_tape (fun t => add_block t (Blk (KUser u) deps outs tag)) w3) = vals w2) by exact A3.
    revert Vw. generalize (with_tape (fun t => add_block t (Blk (KUser u) deps outs tag)) w3). intros w4 Vw.
    clear - M7 Vw E1. induction M7 as [|[y|o'] o rs os Q K IH]; constructor; auto. unfold result_of in *. rewrite <- (ev_len _ _ E1), Vw. exact Q. }
  split; [|split; [exact A5|cbn; rewrite Aa, M5; exact (ev_ann _ _ E1)]].
  clear - A7 A3. change (vals (with_tape (fun t => add_block t (Blk (KUser u) deps outs tag)) w3)) with (vals w3). rewrite A3. cbn [w_heap with_tape]. exact A7.
Qed.

(** Annotation off: nothing is recorded, and no variable exists that did not before. *)
Lemma over_off : forall w u pops accepts func args a kwargs tag,
  w_ann w && a = false ->
  let '(w', res) := exec_over w u pops accepts func args a kwargs tag in
  w_tape w' = w_tape w /\ w_heap w' = w_heap w /\ w_next w' = w_next w /\ w_ann w' = w_ann w /\
  (forall xs r, arg_vals w args = Ok xs -> call_func accepts func kwargs xs = Ok r -> Forall (old_ok (length (w_objs w))) (enlist r) ->
     exists os, res = delist r os /\ Forall2 (result_of w w') (enlist r) os).
Proof.
  intros w u pops accepts func args a kwargs tag An. unfold exec_over. destruct (arg_vals w args) as [xs|e]; [|repeat split; intros; discriminate].
  rewrite An. destruct (call_func accepts func kwargs xs) as [r|e] eqn:Ec.
  2:{ repeat split. intros xs' r' Q1 Q2 _. injection Q1 as <-. rewrite Ec in Q2. discriminate. }
  assert (K : let '(w2, _) := make_results w (enlist r) in w_tape w2 = w_tape w /\ w_heap w2 = w_heap w /\ w_next w2 = w_next w /\ w_ann w2 = w_ann w).
  { generalize (enlist r). clear. intros l. revert w. induction l as [|[y|o] l IH]; intros w; cbn [make_results]; [repeat split| |].
    - unfold new_obj. set (w1 := with_objs _ w). specialize (IH w1). destruct (make_results w1 l). exact IH.
    - specialize (IH w). destruct (make_results w l). exact IH. }
  pose proof (make_results_spec (enlist r) w) as M. destruct (make_results w (enlist r)) as [w2 os]. destruct K as [K1 [K2 [K3 K4]]]. repeat (split; [assumption|]).
  intros xs' r' Q1 Q2 Q3. injection Q1 as <-. rewrite Ec in Q2. injection Q2 as <-. exists os. split; [reflexivity|]. now apply M.
Qed.

(** A call that raises records nothing. *)
Lemma over_raise : forall w u pops accepts func args a kwargs tag e,
  WInv F [] w -> (forall xs r, func xs = Ok r -> Forall (old_ok (length (w_objs w))) (enlist r)) ->
  snd (exec_over w u pops accepts func args a kwargs tag) = Err e ->
  flat (fst (exec_over w u pops accepts func args a kwargs tag)) = flat w.
Proof.
  intros w u pops accepts func args a kwargs tag e W Hf H.
  destruct (w_ann w && a) eqn:An.
  - destruct (arg_vals w args) as [xs|e'] eqn:Av; [|unfold exec_over; now rewrite Av].
    destruct (call_func accepts func (filter (fun k => negb (mem k pops)) kwargs) xs) as [r|e'] eqn:Cf.
    + exfalso. assert (Hr : Forall (old_ok (length (w_objs w))) (enlist r)).
      { unfold call_func in Cf. destruct (forallb _ _); [|discriminate]. now apply (Hf xs). }
      pose proof (over_on w u pops accepts func args a kwargs tag xs r W An Av Cf Hr) as K.
      destruct (exec_over w u pops accepts func args a kwargs tag) as [w' q]. destruct K as [deps [outs [os [_ [_ [_ [_ [_ [K [K2 _]]]]]]]]]].
      cbn in H. rewrite K in H. pose proof (Iso.F2_length _ _ _ K2) as L. destruct r as [x|l|l]; cbn in *; try discriminate.
      destruct os as [|? [|? ?]]; try discriminate.
    + unfold exec_over. rewrite Av, An.
      assert (Hlt : Forall (fun o => o < length (w_objs w)) args).
      { apply arg_vals_spec in Av. clear - Av. induction Av as [|o x l l' [ob [A B]] _ IH]; constructor; [exact (nth_error_some_lt _ _ _ A)|exact IH]. }
      pose proof (add_deps_spec F [] args w W Hlt) as Hd. destruct (add_deps w args) as [w1 deps]. rewrite Cf. destruct Hd as [_ [E _]]. exact (ev_flat _ _ E).
  - pose proof (over_off w u pops accepts func args a kwargs tag An) as K. destruct (exec_over w u pops accepts func args a kwargs tag) as [w' q].
    cbn. unfold flat. now rewrite (proj1 K).
Qed.

(** The result keeps its shape unless it is a tuple. *)
Definition shaped_as (r : shape (ret V)) (q : shape nat) : Prop :=
  match r, q with One _, One _ | PList _, PList _ => True | _, _ => False end.
Lemma delist_shape : forall (r : shape (ret V)) (os : list nat), length os = length (enlist r) ->
  (forall l, r <> PTuple l) -> exists q, delist r os = Ok q /\ shaped_as r q /\ enlist q = os.
Proof.
  intros [x|l|l] os H Hn; cbn in *.
  - destruct os as [|o [|? ?]]; try discriminate. now exists (One o).
  - now exists (PList os).
  - now destruct (Hn l).
Qed.

Lemma over_on_program : forall p ann0 u pops accepts func args a kwargs tag xs r,
  consistent p -> disciplined ann0 p = true ->
  let w := exec F (world_new F ann0) p in
  w_ann w && a = true -> arg_vals w args = Ok xs ->
  call_func accepts func (filter (fun k => negb (mem k pops)) kwargs) xs = Ok r ->
  Forall (old_ok (length (w_objs w))) (enlist r) ->
  let '(w', res) := exec_over w u pops accepts func args a kwargs tag in
  exists deps outs os,
    flat w' = flat w ++ [Blk (KUser u) deps outs tag] /\
    Forall2 (fun o v => version_of w o v (w_heap w')) args deps /\
    length outs = length (enlist r) /\ NoDup outs /\ (forall v, In v outs -> ~ In v deps /\ ~ In v (vars_of (flat w))) /\
    res = delist r os /\ Forall2 (result_of w w') (enlist r) os /\
    Forall2 (fun o v => bv_obj (w_heap w' v) = o /\ nth_error (vals w') o = Some (bv_out (w_heap w' v))) os outs /\
    (NoDup os -> Forall2 (cur w') os outs) /\ w_ann w' = w_ann w.
Proof.
  intros p ann0 u pops accepts func args a kwargs tag xs r Hc Hd w. apply over_on. exact (proj1 (exec_sim F p no_override ann0 Hc Hd)).
Qed.
Lemma over_raise_program : forall p ann0 u pops accepts func args a kwargs tag e,
  consistent p -> disciplined ann0 p = true ->
  let w := exec F (world_new F ann0) p in
  (forall xs r, func xs = Ok r -> Forall (old_ok (length (w_objs w))) (enlist r)) ->
  snd (exec_over w u pops accepts func args a kwargs tag) = Err e ->
  flat (fst (exec_over w u pops accepts func args a kwargs tag)) = flat w.
Proof.
  intros p ann0 u pops accepts func args a kwargs tag e Hc Hd w. apply over_raise. exact (proj1 (exec_sim F p no_override ann0 Hc Hd)).
Qed.
Lemma kwargs_same : forall (pops accepts : list nat) (func : list V -> res (shape (ret V))) (kwargs : list nat) (xs : list V),
  (forall k, In k kwargs -> ~ In k pops) ->
  call_func accepts func (filter (fun k => negb (mem k pops)) kwargs) xs = call_func accepts func kwargs xs.
Proof.
  intros pops accepts func kwargs xs H. assert (E : filter (fun k => negb (mem k pops)) kwargs = kwargs); [|now rewrite E].
  induction kwargs as [|k l IH]; [reflexivity|]. cbn. assert (E : mem k pops = false) by (apply mem_false, H; now left). rewrite E. cbn.
  f_equal. apply IH. intros; apply H; now right.
Qed.
End OverFacts.

(** Nested calls: the wrapped function's own code runs with annotation stopped (Proc.v). *)
Definition over_code (kw : bool) (body : code) : code := Seq (WithNew None body) (OpKw kw).
Lemma over_nested : forall defs, (forall f, no_continue (defs f) = true) ->
  forall n s kw body s', wf s -> no_continue body = true -> run defs n s (over_code kw body) = Some (s', None) ->
  p_ann s' = p_ann s /\
  exists l, Forall silent l /\ p_log s' = (if p_ann s && kw then [Rec (p_work s')] else []) ++ l ++ p_log s.
Proof.
  intros defs D [|n] s kw body s' W N H; [discriminate H|]. cbn [run over_code] in H. unfold over_code in H. cbn [run] in H.
  destruct (run defs n s (WithNew None body)) as [[s1 [e|]]|] eqn:E; try discriminate H.
  destruct (withnew_silent defs D n s None body s1 None W N E) as [A [l [L Fl]]].
  destruct n as [|n]; [discriminate H|]. cbn [run] in H. injection H as <-. unfold op. rewrite A.
  destruct (p_ann s && kw); cbn; (split; [exact A|exists l; split; [exact Fl|]]); rewrite L; reflexivity.
Qed.
Lemma over_nested_raise : forall defs, (forall f, no_continue (defs f) = true) ->
  forall n s kw body s' e, wf s -> no_continue body = true -> run defs n s (over_code kw body) = Some (s', Some e) ->
  p_ann s' = p_ann s /\ exists l, Forall silent l /\ p_log s' = l ++ p_log s.
Proof.
  intros defs D [|n] s kw body s' e W N H; [discriminate H|]. unfold over_code in H. cbn [run] in H.
  destruct (run defs n s (WithNew None body)) as [[s1 [e'|]]|] eqn:E; try discriminate H.
  - injection H as <- <-. destruct (withnew_silent defs D n s None body s1 (Some e') W N E) as [A [l [L Fl]]]. split; [exact A|]. exists l. split; [exact Fl|exact L].
  - destruct n; discriminate H.
Qed.

Definition any_block : ublock Z := {| u_recompute := fun _ _ => Ok None; u_adj := fun _ _ _ => Ok None; u_tlm := fun _ _ _ => Ok None; u_hess := fun _ _ _ _ _ => Ok None |}.
Lemma tuple_becomes_list : exists (w : world Z) (u : ublock Z) (func : list Z -> res (shape (ret Z))),
  func [2%Z] = Ok (PTuple [RNew 3%Z; RNew 4%Z]) /\
  snd (exec_over w u [] [] func [0] true [] None) = Ok (PList [1; 2]).
Proof.
  exists (exec ZF (world_new ZF true) [SNew 2%Z]), any_block, (fun xs => match xs with [x] => Ok (PTuple [RNew (x + 1)%Z; RNew (x + x)%Z]) | _ => Err EType end).
  split; reflexivity.
Qed.
(** The block class takes keyword 7, the function takes none. *)
Lemma kwargs_differ : exists (w : world Z) (u : ublock Z) (pops accepts : list nat) (func : list Z -> res (shape (ret Z))) (kwargs : list nat),
  snd (exec_over w u pops accepts func [0] true kwargs None) = Ok (One 1) /\
  snd (exec_over (with_ann false w) u pops accepts func [0] true kwargs None) = Err EType.
Proof.
  exists (exec ZF (world_new ZF true) [SNew 2%Z]), any_block, [7], [], (fun xs => match xs with [x] => Ok (One (RNew (x + 1)%Z)) | _ => Err EType end), [7].
  split; reflexivity.
Qed.
