(** Facts about minimize and maximize: the run through the tape equals the run on the functions. *)
From Coq Require Import List Arith ZArith Bool Lia Reals Lra.
From Coquelicot Require Import Coquelicot.
From Verif Require Import Base Model BaseFacts Graph Record Spec RecordFacts Replay ReplayExec History Session Sweep SpecGraph Marks Iso Coll Opt SpecOpt OptFacts
  Solvers SpecSolvers SolverFacts Dual TlmSweep RealInst Calculus Gradient Minimise SpecMinimise.
Import ListNotations.

(** ** Hessian actions after a derivative depend only on the stored values *)
Section Hess.
Context {V : Type} (F : fops V).
Lemma hess_same : forall (bs : list (block V)) rf d h h', no_ctrl h -> no_ctrl h' -> no_mark h -> no_mark h' ->
  (forall v, saved h v = saved h' v) -> on_tape bs (rf_ctrls rf) -> In (rf_J rf) (vars_of bs) -> rf_ctrls rf <> [] ->
  snd (rf_hessian F bs rf d (fst (rf_derivative F bs rf (f_one F) h))) = snd (rf_hessian F bs rf d (fst (rf_derivative F bs rf (f_one F) h'))).
Proof.
  intros bs rf d h h' N N' M M' Es Ho HJ Hne.
  set (R := fun v v' : nat => v = v' /\ In v (vars_of bs)). set (Pd := fun _ : nat => True).
  assert (B : forall u u' v v', R u u' -> R v v' -> (u = v <-> u' = v')) by (unfold R; intros; intuition congruence).
  assert (Bl : brels (V := V) R Pd bs bs).
  { assert (G : forall l : list (block V), (forall b v, In b l -> In v (b_deps b) \/ In v (b_outs b) -> In v (vars_of bs)) -> brels (V := V) R Pd l l).
    { induction l as [|b l IH]; intros Hl; constructor.
      - split; [reflexivity| |].
        + assert (K : forall v, In v (b_deps b) -> In v (vars_of bs)) by (intros v Hv; apply (Hl b v); [now left|now left]).
          revert K. generalize (b_deps b). induction l0; constructor; [split; [split; [reflexivity|apply K; now left]|exact I]|]. apply IHl0. intros v Hv. apply K. now right.
        + assert (K : forall v, In v (b_outs b) -> In v (vars_of bs)) by (intros v Hv; apply (Hl b v); [now left|now right]).
          revert K. generalize (b_outs b). induction l0; constructor; [split; [reflexivity|apply K; now left]|]. apply IHl0. intros v Hv. apply K. now right.
      - apply IH. intros b' v Hb. apply Hl. now right. }
    apply G. intros b v Hb Hv. unfold vars_of, deps_of, outs_of. apply in_or_app. destruct Hv; [left|right]; apply in_flat_map; exists b; auto. }
  assert (HC : Forall2 R (rf_ctrls rf) (rf_ctrls rf)).
  { revert Ho. unfold on_tape. generalize (rf_ctrls rf). induction l; constructor; [split; [reflexivity|apply Ho; now left]|]. apply IHl. intros c Hc. apply Ho. now right. }
  unfold rf_hessian. apply (hessian_reset_rel F R Pd B bs bs Bl (rf_J rf) (rf_J rf) (rf_ctrls rf) (rf_ctrls rf) d); [split; auto | exact HC |].
  rewrite !derivative_grad by exact Hne. set (a := f_mul F (f_one F) (rf_scale rf)).
  destruct (grad_spec F bs (rf_J rf) (rf_ctrls rf) a h N) as [_ [A [K _]]]. destruct (grad_spec F bs (rf_J rf) (rf_ctrls rf) a h' N') as [_ [A' [K' _]]].
  pose proof (grad_core F bs (rf_J rf) (rf_ctrls rf) a h N) as C. pose proof (grad_core F bs (rf_J rf) (rf_ctrls rf) a h' N') as C'.
  destruct (padj_agree F (fun v => bv_mark (h v) || mem v (find_relevant bs (rf_ctrls rf))) (fun v => bv_mark (h' v) || mem v (find_relevant bs (rf_ctrls rf)))
     (saved h) (saved h') bs (start_adj bs (rf_J rf) a h) (start_adj bs (rf_J rf) a h') (fun v => In v (vars_of bs))) as [P1 P2].
  { intros v Hv. unfold vars_of. apply in_or_app. now right. }
  { intros v. now rewrite M, M'. }
  { exact Es. }
  { intros v Hv. unfold start_adj. destruct (Nat.eqb v (rf_J rf)); [reflexivity|]. apply mem_In in Hv. now rewrite Hv. }
  cbv zeta in A, A', K, K'.
  set (g := fst (compute_gradient F bs (rf_J rf) (rf_ctrls rf) a h)) in *. set (g' := fst (compute_gradient F bs (rf_J rf) (rf_ctrls rf) a h')) in *.
  intros v v' [<- Hv]. unfold reset_hess, reset_tlm. rewrite !reset_with_spec by reflexivity.
  apply mem_In in Hv. rewrite Hv. apply mem_In in Hv.
  split; [|split; [|split; [|split; [|split]]]].
  - intros _. change (saved g v = saved g' v). rewrite (core_saved _ _ v (C v)), (core_saved _ _ v (C' v)). apply Es.
  - cbn. rewrite A, A'. apply P2. exact Hv.
  - reflexivity.
  - reflexivity.
  - cbn. rewrite K, K', P1, M, M'. reflexivity.
  - cbn. rewrite (core_ctrl _ _ (C v)), (core_ctrl _ _ (C' v)), N, N'. reflexivity.
Qed.
End Hess.

(** ** The run of an algorithm *)
Section Play.
Context {V S : Type} (F : fops V).
Variables (t : tape V) (rf : rfun V) (h0 : heap V).
Notation bs := (t_flat t).
Hypothesis Ht : topo bs.
Hypothesis Hg : forall b, In b bs -> gives_value F b.
Hypothesis Hcl : closed (rf_ctrls rf) bs.
Hypothesis N0 : no_ctrl h0.
Hypothesis Ho : on_tape bs (rf_ctrls rf).
Hypothesis M0 : no_mark h0.
Hypothesis HJt : In (rf_J rf) (vars_of bs).
Variables (ks : list (ctl V S)) (cur : list V) (wbs : list (block V)) (jac hess : bool).
Hypothesis HL : List.Forall law ks.
Hypothesis HC : Forall2 (fun k v => k_ok k v) ks cur.
Notation VAL := (val_at F t rf h0).
Notation DER := (der_at F t rf h0).
Notation HES := (hes_at F t rf h0).
Notation okh := (okheap t rf h0).
Notation hold := (holds F t rf h0).

Lemma okheap_core : forall h h', okh h -> same_core h h' -> okh h'.
Proof.
  intros h h' (Nc & Eo & El) C. split; [|split].
  - intros v. rewrite (core_ctrl _ _ (C v)). apply Nc.
  - intros v. destruct (core_ckpt _ _ (C v)) as [_ E]. rewrite E. apply Eo.
  - intros v H1 H2. rewrite (core_saved _ _ v (C v)). auto.
Qed.
Lemma holds_core : forall h h' x, hold h x -> same_core h h' -> no_mark h' -> hold h' x.
Proof.
  intros h h' x (K & _ & E) C Nm. split; [exact (okheap_core h h' K C)|]. split; [exact Nm|].
  intros v. rewrite (core_saved _ _ v (C v)). apply E.
Qed.
Lemma hes_holds : forall h x d g H, hold h x -> DER x = Ok g -> HES x d = Ok H ->
  exists h1 h2, rf_derivative F bs rf (f_one F) h = (h1, Ok g) /\ rf_hessian F bs rf d h1 = (h2, Ok H) /\ hold h2 x.
Proof.
  intros h x d g H Hh Hd HH. destruct (holds_deriv F t rf h0 Ht Hg Hcl N0 Ho M0 h x g Hh Hd) as [E1 E2].
  assert (Hne : rf_ctrls rf <> []).
  { intros E. unfold rf_derivative in E1. rewrite E in E1. discriminate E1. }
  pose proof Hh as (Kh & Nmh & Esh). destruct (okheap_call F t rf h0 Ht Hg Hcl N0 h0 x (okheap_0 t rf h0 N0)) as (K0 & _ & _ & M').
  assert (EH : snd (rf_hessian F bs rf d (fst (rf_derivative F bs rf (f_one F) h))) = Ok H).
  { rewrite <- HH. apply hess_same; auto; [apply Kh | apply K0]. }
  destruct (rf_derivative F bs rf (f_one F) h) as [h1 r1]. cbn in E1, E2, EH. subst r1. exists h1.
  pose proof E2 as (K1 & Nm1 & _).
  pose proof (api_core F bs h1 (AHess rf d) (proj1 K1) eq_refl) as C. cbn [api_run] in C.
  assert (Nm2 : no_mark (fst (api_run F bs h1 (AHess rf d)))).
  { apply (api_clean F bs h1 (AHess rf d)); [apply K1 | exact Nm1 |]. left. unfold api_ok. cbn [api_run]. rewrite EH. reflexivity. }
  cbn [api_run] in Nm2. destruct (rf_hessian F bs rf d h1) as [h2 r2]. cbn in EH, C, Nm2. subst r2. exists h2.
  split; [reflexivity|]. split; [reflexivity|]. exact (holds_core h1 h2 x E2 C Nm2).
Qed.

Definition standing (h : heap V) (last : option (list V)) : Prop :=
  match last with None => okh h /\ no_mark h | Some x => hold h x end.
Lemma standing_ok : forall h last, standing h last -> okh h /\ no_mark h.
Proof. intros h [x|] H; [destruct H as (A & B & _); auto | exact H]. Qed.

Lemma run_plays : forall last a r,
  plays ks VAL (fun x g => DER x = Ok g) (fun x d H => HES x d = Ok H) jac hess last a r ->
  forall h, standing h last -> exists h', run_algo F bs wbs rf (types ks) cur jac hess a h = (h', r) /\ okh h' /\ no_mark h'.
Proof.
  intros last a r P. induction P as [last x Hx | last e | last x vs k r Hp P IH | x vs g arr k r Hj Hp Hd Hpg P IH | x vs dir d g H arr k r Hj Hp Hpd Hd Hgp HH HpH P IH]; intros h St; cbn [run_algo].
  - exists h. split; [reflexivity|]. exact (standing_ok h last St).
  - exists h. split; [reflexivity|]. exact (standing_ok h last St).
  - rewrite (np_call_packed F bs rf ks cur vs x h HL HC Hp). destruct (standing_ok h last St) as [K Nm].
    destruct (okheap_call F t rf h0 Ht Hg Hcl N0 h vs K) as (K1 & K2 & K3 & K4). destruct (rf_call F bs rf vs h) as [h1 r1]. cbn in K1, K2, K3, K4. subst r1.
    apply IH. destruct (VAL vs) as [y|e] eqn:Ev; [|split; auto]. split; [exact K1|]. split; [auto|]. intros u. apply (K3 y). reflexivity.
  - rewrite Hj in IH |- *. destruct (holds_deriv F t rf h0 Ht Hg Hcl N0 Ho M0 h vs g St Hd) as [E1 E2].
    rewrite (np_derivative_packed F bs rf ks h g arr HL E1 Hpg). apply IH. exact E2.
  - rewrite Hj in IH |- *. destruct (hes_holds h vs d g H St Hd HH) as (h1 & h2 & E1 & E2 & Hh2). destruct Hgp as (garr & Hgp). unfold np_hessian.
    rewrite (np_derivative_packed F bs rf ks h g garr HL) by (auto; now rewrite E1). rewrite E1. cbn [fst].
    rewrite (copies_ok ks cur HL HC). cbn [bind]. rewrite <- (app_nil_r dir), (set_local_packed ks d dir [] cur HL Hpd) by (symmetry; exact (F2_len _ _ _ HC)).
    rewrite E2. cbn [bind]. rewrite (get_global_packed ks H arr HL HpH). apply IH.
    apply (holds_core h2); [exact Hh2 | apply reset_with_core; reflexivity |]. intros v. unfold reset_adj. rewrite reset_with_spec by reflexivity.
    destruct Hh2 as (_ & Nm & _). destruct (mem v (vars_of wbs)); apply Nm.
Qed.
End Play.

(** answers that agree wherever the algorithm may ask *)
Lemma plays_mono : forall (V S : Type) (ks : list (ctl V S)) J J' (dJ dJ' : list V -> list V -> Prop) (HJ HJ' : list V -> list V -> list V -> Prop) jac hess last a r,
  (forall vs x, packed ks vs x -> J vs = J' vs) ->
  (forall vs x y g arr, packed ks vs x -> J vs = Ok y -> dJ vs g -> packed ks g arr -> dJ' vs g) ->
  (forall vs x y d da H, packed ks vs x -> J vs = Ok y -> packed ks d da -> HJ vs d H -> HJ' vs d H) ->
  (forall vs, last = Some vs -> exists y, J vs = Ok y) ->
  plays ks J dJ HJ jac hess last a r -> plays ks J' dJ' HJ' jac hess last a r.
Proof.
  intros V S ks J J' dJ dJ' HJ HJ' jac hess last a r E1 E2 E3 Hl P.
  induction P as [last x Hx | last e | last x vs k r Hp P IH | x vs g arr k r Hj Hp Hd Hpg P IH | x vs dir d g H arr k r Hj Hp Hpd Hd Hgp HH HpH P IH].
  - now constructor.
  - constructor.
  - apply (pl_value ks J' dJ' HJ' jac hess last x vs); [exact Hp|]. rewrite <- (E1 vs x Hp). apply IH.
    intros u Hu. destruct (J vs) as [y|] eqn:Ej; [|discriminate Hu]. injection Hu as <-. eauto.
  - destruct (Hl vs eq_refl) as [y Hy]. apply (pl_gradient ks J' dJ' HJ' jac hess x vs g arr); eauto.
  - destruct (Hl vs eq_refl) as [y Hy]. destruct Hgp as [garr Hgp]. apply (pl_hessian ks J' dJ' HJ' jac hess x vs dir d g H arr); eauto.
Qed.

(** ** The driver *)
Section Driver.
Context {V S : Type} (F : fops V).
Lemma minimise_plays : forall (t : tape V) (rf : rfun V) (h0 : heap V) wbs (bcs : list (@bctrl V S)) ks cur m s mkw b alg attr vs0 x0 b1 b2 r,
  let bs := t_flat t in
  let rf' := RF (rf_J rf) (rf_ctrls rf) s in
  topo bs -> (forall b, In b bs -> gives_value F b) -> closed (rf_ctrls rf) bs -> no_ctrl h0 -> no_mark h0 ->
  on_tape bs (rf_ctrls rf) -> In (rf_J rf) (vars_of bs) -> NoDup (rf_ctrls rf) ->
  List.Forall law ks -> map bc_type bcs = types ks -> length ks = length (rf_ctrls rf) -> Forall2 (fun k v => k_ok k v) ks cur ->
  m <> MUnknown -> map (saved h0) (rf_ctrls rf) = vs0 -> packed ks vs0 x0 -> passed_bounds m mkw b = Ok b1 -> serialised bcs b1 = Ok b2 ->
  plays ks (val_at F t rf' h0) (fun x g => der_at F t rf' h0 x = Ok g) (fun x d H => hes_at F t rf' h0 x d = Ok H) (has_jac m) (has_hess m) None (alg x0 b2) r ->
  let out := minimise F bs wbs bcs cur m s mkw b (Some alg) (ORF rf false attr) h0 in
  outcome ks r (snd out) (map (saved (snd (fst out))) (rf_ctrls rf)).
Proof.
  intros t rf h0 wbs bcs ks cur m s mkw b alg attr vs0 x0 b1 b2 r bs rf' Ht Hg Hcl N0 M0 Ho HJ Hnd HL Hty Hlen HC Hm Hv0 Hp0 Hb1 Hb2 P out.
  assert (E : out = (let '(h1, q) := run_algo F bs wbs rf' (types ks) cur (has_jac m) (has_hess m) (alg x0 b2) h0 in
      match q with
      | Err e => (ORF rf' false attr, h1, Err e)
      | Ok x => let '(h2, o) := np_set_controls rf' (types ks) x h1 in
              (ORF rf' false attr, h2, rmap (fun l => match l with [v] => POne v | _ => PList l end) o)
      end)).
  { unfold out, minimise. cbn [assign_scale or_wrap or_rf or_attr]. fold rf'. rewrite Hty.
    assert (Eg : np_get_controls rf' (types ks) h0 = Ok x0).
    { unfold np_get_controls. cbn [rf_ctrls rf']. rewrite Hv0. now apply get_global_packed. }
    rewrite Eg, Hb1. cbn [bind]. rewrite Hb2. cbn [bind].
    destruct (run_algo F bs wbs rf' (types ks) cur (has_jac m) (has_hess m) (alg x0 b2) h0) as [h1 [x|e]]; destruct m; auto; now contradict Hm. }
  destruct (run_plays F t rf' h0 Ht Hg Hcl N0 Ho M0 HJ ks cur wbs (has_jac m) (has_hess m) HL HC None (alg x0 b2) r P h0) as (h1 & E1 & K1 & Nm1).
  { split; [apply okheap_0; exact N0 | exact M0]. }
  rewrite E. fold bs in E1. rewrite E1. unfold outcome. destruct r as [x|e]; [|reflexivity].
  assert (Hx : length x = total ks).
  { clear - P. remember (Ok x) as r eqn:Er. remember (alg x0 b2) as a eqn:Ea. clear Ea. revert Er.
    induction P; intros Er; auto; [injection Er as <-; assumption | discriminate Er]. }
  destruct (np_set_get_controls rf' ks h1 x) as (vs & Hp & Es & _ & _); auto; [apply K1 |].
  rewrite Es. cbn [fst snd rmap bind]. exists vs. split; [exact Hp|]. split; [|reflexivity].
  apply saved_update_controls; auto; [apply K1 | destruct (packed_lengths ks vs x HL Hp); cbn; congruence].
Qed.

(** On a recorded program. *)
Lemma minimise_recorded : forall ann (p : list (stmt V)) j l wbs (bcs : list (@bctrl V S)) ks cur m s s0 mkw b alg attr vs0 x0 b1 b2 r,
  consistent p -> disciplined ann p = true -> (j < length (w_objs (exec F (world_new F ann) p)))%nat ->
  let w := fst (recorded F ann p j) in
  let bs := t_flat (w_tape w) in
  let J := snd (recorded F ann p j) in
  let rf := RF J (w_ctrls w) s in
  let h0 := run_hist F bs (w_heap w) l in
  closed (w_ctrls w) bs -> on_tape bs (w_ctrls w) -> In J (vars_of bs) -> NoDup (w_ctrls w) -> calls_controls w l -> no_mark h0 ->
  List.Forall law ks -> map bc_type bcs = types ks -> length ks = length (w_ctrls w) -> Forall2 (fun k v => k_ok k v) ks cur ->
  m <> MUnknown -> map (saved h0) (w_ctrls w) = vs0 -> packed ks vs0 x0 -> passed_bounds m mkw b = Ok b1 -> serialised bcs b1 = Ok b2 ->
  plays ks (fun x => rmap (fun y => f_mul F y s) (spec_rerun F ann p x j))
    (fun x g => der_at F (w_tape w) rf h0 x = Ok g) (fun x d H => hes_at F (w_tape w) rf h0 x d = Ok H) (has_jac m) (has_hess m) None (alg x0 b2) r ->
  let out := minimise F bs wbs bcs cur m s mkw b (Some alg) (ORF (RF J (w_ctrls w) s0) false attr) h0 in
  outcome ks r (snd out) (map (saved (snd (fst out))) (w_ctrls w)).
Proof.
  intros ann p j l wbs bcs ks cur m s s0 mkw b alg attr vs0 x0 b1 b2 r Hc Hd Hj w bs J rf h0 Hcl Ho HJ Hnd Hcc M0 HL Hty Hlen HC Hm Hv0 Hp0 Hb1 Hb2 P.
  destruct (recorded_clean F ann p j Hc Hd Hj) as [Hwf [Hgv [Nc _]]]. fold w bs in Hwf, Hgv, Nc.
  apply (minimise_plays (w_tape w) (RF J (w_ctrls w) s0) h0 wbs bcs ks cur m s mkw b alg attr vs0 x0 b1 b2 r); auto.
  - apply Hwf.
  - apply hist_frame. exact Nc.
  - revert P. apply plays_mono; auto; [|discriminate].
    intros vs x Hp. symmetry. apply (rf_call_rerun F ann p j vs s l Hc Hd Hj); auto.
    destruct (packed_lengths ks vs x HL Hp) as [A _]. fold w. rewrite A. exact Hlen.
Qed.
End Driver.

(** ** Over the reals: the derivative is the gradient *)
Open Scope R_scope.
Fixpoint unit_vec (n i : nat) : list R :=
  match n with O => [] | Datatypes.S n' => match i with O => 1 :: repeat 0 n' | Datatypes.S i' => 0 :: unit_vec n' i' end end.
Lemma unit_vec_length : forall n i, length (unit_vec n i) = n.
Proof. induction n as [|n IH]; intros [|i]; cbn; auto. now rewrite repeat_length. Qed.
Lemma dot_zeros : forall g n, dot RO g (repeat 0 n) = 0.
Proof. induction g as [|x g IH]; intros [|n]; cbn; auto. rewrite IH. ring. Qed.
Lemma dot_unit : forall g i, dot RO g (unit_vec (length g) i) = nth i g 0.
Proof.
  induction g as [|x g IH]; intros [|i]; cbn; auto.
  - rewrite dot_zeros. ring.
  - rewrite IH. ring.
Qed.
Lemma dotR_dot : forall g d, dotR g d = dot RO g d.
Proof. unfold dotR. induction g as [|x g IH]; intros [|y d]; cbn; auto. now rewrite IH. Qed.
Lemma moved_shift : forall m d s, moved m d s = shift m d s.
Proof. unfold moved. induction m as [|x m IH]; intros [|y d] s; cbn; auto. now rewrite IH. Qed.

Lemma gradient_der : forall ann p j sc l m y0 g, consistent p -> disciplined ann p = true ->
  (j < length (w_objs (exec RO (world_new RO ann) p)))%nat ->
  let w := fst (recorded RO ann p j) in
  let rf := RF (snd (recorded RO ann p j)) (w_ctrls w) sc in
  let bs := t_flat (w_tape w) in
  let h0 := run_hist RO bs (w_heap w) l in
  let h := fst (rf_call RO bs rf m h0) in
  NoDup (w_ctrls w) -> w_ctrls w <> [] -> independent bs (w_ctrls w) -> on_tape bs (w_ctrls w) -> closed (w_ctrls w) bs -> calls_controls w l -> no_mark h0 ->
  objective (fun x => spec_rerun RO ann p x j) sc m = Ok y0 -> length m = length (w_ctrls w) ->
  smooth_at bs (w_ctrls w) (saved h) -> adjoints_right bs (w_ctrls w) (saved h) -> adjoints_run bs (w_ctrls w) (saved h) ->
  gradient_at (fun x => spec_rerun RO ann p x j) sc m g ->
  der_at RO (w_tape w) rf h0 m = Ok g.
Proof.
  intros ann p j sc l m y0 g Hc Hd Hj w rf bs h0 h Hnd Hne Hi Ho Hcl Hcc M0 Hy Hlm Hsm Har Hrun [Hlg HG].
  destruct (recorded_clean RO ann p j Hc Hd Hj) as [Hwf [Hgv [Nc _]]]. fold w bs in Hwf, Hgv, Nc.
  pose proof (recorded_shaped RO ann p j Hc Hd Hj) as Hsh. fold w bs in Hsh.
  assert (Nh : no_ctrl h0) by (apply hist_frame; exact Nc).
  assert (Ey : snd (rf_call RO bs rf m h0) = Ok y0).
  { unfold objective in Hy. rewrite <- Hy. apply (rf_call_rerun RO ann p j m sc l Hc Hd Hj); auto. }
  assert (Nm : no_mark h).
  { destruct (okheap_call RO (w_tape w) rf h0 (proj1 Hwf) Hgv Hcl Nh h0 m (okheap_0 _ _ _ Nh)) as (_ & _ & _ & K). now apply K. }
  destruct (derivative_runs_after_call bs (rf_J rf) (w_ctrls w) sc m h0 y0 [] 1) as (g' & Eg & Lg); auto; [reflexivity|].
  cbn [run_hist fold_left] in Eg. assert (E : g' = g); [|subst g'; exact Eg].
  apply (nth_ext _ _ 0 0); [congruence|]. intros i Hi'.
  set (d := unit_vec (length m) i). assert (Ld : length d = length m) by apply unit_vec_length.
  destruct (derivative_evaluated ann p j sc l m y0 [] d g' Hc Hd Hj Hnd Hi Ho Hcl Hcc Ey eq_refl) as (y & Ly & Dy); auto; [exact (eq_trans Ld Hlm)|].
  destruct (HG d Ld) as (f & Lf & Df). rewrite dotR_dot in Df.
  assert (Ed : dot RO g' d = dot RO g d).
  { assert (Df' : is_derive (fun s => y s * sc) 0 (dot RO g d)).
    { apply (is_derive_ext_loc f); [|exact Df]. generalize (filter_and _ _ Ly Lf). apply filter_imp. intros s [A B].
      unfold objective in B. rewrite moved_shift, A in B. cbn in B. now injection B. }
    rewrite <- (is_derive_unique _ _ _ Dy). now apply is_derive_unique. }
  unfold d in Ed. rewrite <- (dot_unit g' i), <- (dot_unit g i). congruence.
Qed.

Lemma minimise_exact : forall (S : Type) ann p j l wbs (bcs : list (@bctrl R S)) ks cur m s s0 mkw b alg attr vs0 x0 b1 b2 r,
  consistent p -> disciplined ann p = true -> (j < length (w_objs (exec RO (world_new RO ann) p)))%nat ->
  let w := fst (recorded RO ann p j) in
  let bs := t_flat (w_tape w) in
  let J := snd (recorded RO ann p j) in
  let rf := RF J (w_ctrls w) s in
  let h0 := run_hist RO bs (w_heap w) l in
  closed (w_ctrls w) bs -> on_tape bs (w_ctrls w) -> In J (vars_of bs) -> NoDup (w_ctrls w) -> w_ctrls w <> [] -> independent bs (w_ctrls w) ->
  calls_controls w l -> no_mark h0 ->
  List.Forall law ks -> map bc_type bcs = types ks -> length ks = length (w_ctrls w) -> Forall2 (fun k v => k_ok k v) ks cur ->
  m <> MUnknown -> map (saved h0) (w_ctrls w) = vs0 -> packed ks vs0 x0 -> passed_bounds m mkw b = Ok b1 -> serialised bcs b1 = Ok b2 ->
  (forall x, length x = length (w_ctrls w) -> is_ok (spec_rerun RO ann p x j) = true ->
     let e := saved (fst (rf_call RO bs rf x h0)) in smooth_at bs (w_ctrls w) e /\ adjoints_right bs (w_ctrls w) e /\ adjoints_run bs (w_ctrls w) e) ->
  plays ks (objective (fun x => spec_rerun RO ann p x j) s) (gradient_at (fun x => spec_rerun RO ann p x j) s)
    (fun x d H => hes_at RO (w_tape w) rf h0 x d = Ok H) (has_jac m) (has_hess m) None (alg x0 b2) r ->
  let out := minimise RO bs wbs bcs cur m s mkw b (Some alg) (ORF (RF J (w_ctrls w) s0) false attr) h0 in
  outcome ks r (snd out) (map (saved (snd (fst out))) (w_ctrls w)).
Proof.
  intros S ann p j l wbs bcs ks cur m s s0 mkw b alg attr vs0 x0 b1 b2 r Hc Hd Hj w bs J rf h0 Hcl Ho HJ Hnd Hne Hi Hcc M0 HL Hty Hlen HC Hm Hv0 Hp0 Hb1 Hb2 Hreg P.
  apply (minimise_recorded RO ann p j l wbs bcs ks cur m s s0 mkw b alg attr vs0 x0 b1 b2 r); auto.
  revert P. apply plays_mono; auto; [|discriminate].
  intros vs x y g arr Hp Hy Hg _. destruct (packed_lengths ks vs x HL Hp) as [Lv _].
  destruct (Hreg vs) as (R1 & R2 & R3); [congruence| |].
  { unfold objective in Hy. destruct (spec_rerun RO ann p vs j); [reflexivity|discriminate Hy]. }
  apply (gradient_der ann p j s l vs y g); auto. exact (eq_trans Lv Hlen).
Qed.
