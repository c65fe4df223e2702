(** Facts about Moola's functional with Hessians. *)
From Coq Require Import List Arith ZArith Bool Lia Reals.
From Coquelicot Require Import Coquelicot.
From Verif Require Import Base Model BaseFacts Graph Record Spec RecordFacts Replay ReplayExec History Session Sweep SpecGraph Marks Iso Surgery TapeMore Coll
  Solvers SpecSolvers SolverFacts Dual TlmSweep RealInst Calculus Gradient RFullFacts SpecHess SpecMinimise MinimiseFacts RolFacts HessDer Moola SpecMoola.
Import ListNotations.
Local Open Scope nat_scope.

Section Run.
Variables T X A G D : Type.
Variable hash : X -> nat.
Variable ev : T -> X -> T * res A.
Variable dv : T -> T * res G.
Variable hv : T -> D -> T * res G.
Variable P : X -> Prop.
Hypothesis hash_inj : forall x y, P x -> P y -> hash x = hash y -> x = y.
Variables (J : X -> A -> Prop) (dJ : X -> G -> Prop) (HJ : X -> D -> G -> Prop).
Hypothesis Jfun : forall x y y', P x -> J x y -> J x y' -> y = y'.
Hypothesis dJfun : forall x y y', P x -> dJ x y -> dJ x y' -> y = y'.
(** the tape holds the point evaluated last and the adjoint values of the last gradient *)
Variable at_ : T -> option X -> option X -> Prop.
Hypothesis ev_spec : forall t p g x v, at_ t p g -> P x -> J x v -> snd (ev t x) = Ok v /\ at_ (fst (ev t x)) (Some x) g.
Hypothesis dv_spec : forall t g x d, at_ t (Some x) g -> P x -> dJ x d -> snd (dv t) = Ok d /\ at_ (fst (dv t)) (Some x) (Some x).
Hypothesis hv_spec : forall t x d w, at_ t (Some x) (Some x) -> P x -> HJ x d w -> snd (hv t d) = Ok w /\ at_ (fst (hv t d)) (Some x) (Some x).
Notation run := (mh_run T X A G D hash ev dv hv).
Notation moola := (moola T A G).

(** what is cached (memoize 0: nothing) *)
Definition cached (n : nat) (last g : option X) (s : moola) : Prop :=
  at_ (mo_t _ _ _ s) last g /\
  (n = 1 ->
    (match last with
     | None => mo_eh _ _ _ s = [] /\ mo_ee _ _ _ s = []
     | Some x => P x /\ exists v, J x v /\ mo_eh _ _ _ s = [hash x] /\ mo_ee _ _ _ s = [v]
     end) /\
    (match g with
     | None => mo_dh _ _ _ s = [] /\ mo_de _ _ _ s = []
     | Some y => P y /\ exists d, dJ y d /\ mo_dh _ _ _ s = [hash y] /\ mo_de _ _ _ s = [d]
     end)).

Lemma call_cached : forall n last g s x v, n <= 1 -> cached n last g s -> P x -> J x v ->
  snd (mo_call T X A G hash ev n x s) = Ok v /\ cached n (Some x) g (fst (mo_call T X A G hash ev n x s)).
Proof.
  intros n last g s x v Hn [Ht HC] Px Hv. destruct s as [eh ee dh de t]. cbn in Ht, HC. unfold mo_call. cbn [mo_eh mo_ee mo_dh mo_de mo_t].
  destruct (ev_spec t last g x v Ht Px Hv) as [E1 E2].
  destruct n as [|[|n]]; [| |lia]; cbn [Nat.eqb].
  - destruct (ev t x) as [t' r]. cbn in E1, E2. subst r. split; [reflexivity|]. split; [exact E2|discriminate].
  - destruct (HC eq_refl) as [He Hg].
    assert (STEP : forall t', at_ t' (Some x) g -> cached 1 (Some x) g (Mo T A G [hash x] [v] dh de t')).
    { intros t' K. split; [exact K|]. intros _. split; [split; [exact Px|]; exists v; auto | exact Hg]. }
    destruct last as [y|].
    + destruct He as (Py & u & Hu & -> & ->). cbn [index_of]. destruct (Nat.eqb_spec (hash y) (hash x)) as [E|E].
      * apply hash_inj in E; auto. subst y. cbn. rewrite (Jfun x u v) by assumption. split; [reflexivity|]. apply STEP. exact Ht.
      * cbn. destruct (ev t x) as [t' r]. cbn in E1, E2. subst r. cbn. split; [reflexivity|]. now apply STEP.
    + destruct He as (-> & ->). cbn. destruct (ev t x) as [t' r]. cbn in E1, E2. subst r. cbn. split; [reflexivity|]. now apply STEP.
Qed.
Lemma deriv_cached : forall n g s x d, n <= 1 -> cached n (Some x) g s -> P x -> dJ x d ->
  snd (mo_deriv T X A G hash dv n x s) = Ok d /\ cached n (Some x) (Some x) (fst (mo_deriv T X A G hash dv n x s)).
Proof.
  intros n g s x d Hn [Ht HC] Px Hd. destruct s as [eh ee dh de t]. cbn in Ht, HC. unfold mo_deriv. cbn [mo_eh mo_ee mo_dh mo_de mo_t].
  destruct (dv_spec t g x d Ht Px Hd) as [E1 E2].
  destruct n as [|[|n]]; [| |lia]; cbn [Nat.eqb].
  - destruct (dv t) as [t' r]. cbn in E1, E2. subst r. split; [reflexivity|]. split; [exact E2|discriminate].
  - destruct (HC eq_refl) as [He Hg].
    assert (STEP : forall t', at_ t' (Some x) (Some x) -> cached 1 (Some x) (Some x) (Mo T A G eh ee [hash x] [d] t')).
    { intros t' K. split; [exact K|]. intros _. split; [exact He|]. split; [exact Px|]. exists d. auto. }
    destruct g as [y|].
    + destruct Hg as (Py & u & Hu & -> & ->). cbn [index_of]. destruct (Nat.eqb_spec (hash y) (hash x)) as [E|E].
      * apply hash_inj in E; auto. subst y. cbn. rewrite (dJfun x u d) by assumption. split; [reflexivity|]. now apply STEP.
      * cbn. destruct (dv t) as [t' r]. cbn in E1, E2. subst r. cbn. split; [reflexivity|]. now apply STEP.
    + destruct Hg as (-> & ->). cbn. destruct (dv t) as [t' r]. cbn in E1, E2. subst r. cbn. split; [reflexivity|]. now apply STEP.
Qed.
Lemma moola_answers : forall n last g l os, n <= 1 -> answers J dJ HJ last g l os -> List.Forall (fun c => P (call_point c)) l ->
  forall s, cached n last g s -> run n s l = os.
Proof.
  intros n last g l os Hn H. induction H as [last g | last g x y l os Hy H IH | g x d l os Hd H IH | last g x y l os Hy H IH | x d h l os Hh H IH];
    intros HP s HC; [reflexivity| | | |]; inversion HP as [|c0 l0 Px HP']; subst; cbn in Px; cbn [mh_run mh_step mo_step].
  - destruct (call_cached n last g s x y Hn HC Px Hy) as [E1 E2]. destruct (mo_call T X A G hash ev n x s) as [s' r]. cbn in E1, E2. subst r.
    f_equal. now apply IH.
  - destruct (deriv_cached n g s x d Hn HC Px Hd) as [E1 E2]. destruct (mo_deriv T X A G hash dv n x s) as [s' r]. cbn in E1, E2. subst r.
    f_equal. now apply IH.
  - destruct (call_cached n last g s x y Hn HC Px Hy) as [E1 E2]. destruct (mo_call T X A G hash ev n x s) as [s' r]. cbn in E1, E2. subst r.
    f_equal. now apply IH.
  - destruct HC as [Ht HC]. destruct (hv_spec _ x d h Ht Px Hh) as [E1 E2]. destruct (hv (mo_t T A G s) d) as [t' r]. cbn in E1, E2. subst r.
    f_equal. apply IH; [exact HP'|]. split; [exact E2|exact HC].
Qed.
End Run.

(** ** On a tape *)
Section Tape.
Context {V : Type} (F : fops V).
Variables (t : tape V) (rf : rfun V) (h0 : heap V).
Notation bs := (t_flat t).
Hypothesis Ht : topo bs.
Hypothesis Hg : forall b, In b bs -> gives_value F b.
Hypothesis Hcl : closed (rf_ctrls rf) bs.
Hypothesis N0 : no_ctrl h0.
Hypothesis Ho : on_tape bs (rf_ctrls rf).
Hypothesis M0 : no_mark h0.
Hypothesis HJt : In (rf_J rf) (vars_of bs).
Hypothesis Hne : rf_ctrls rf <> [].
Variable hash : list V -> nat.
Notation run := (mh_run (heap V) (list V) V (list V) (list V) hash (fun h x => rf_call F bs rf x h) (fun h => rf_derivative F bs rf (f_one F) h)
  (fun h d => rf_hessian F bs rf d h)).
Notation VAL := (fun x y => val_at F t rf h0 x = Ok y).
Notation DER := (fun x d => der_at F t rf h0 x = Ok d).
Notation HES := (fun x d H => hes_at F t rf h0 x d = Ok H).
Definition holding (h : heap V) (last g : option (list V)) : Prop :=
  okheap t rf h0 h /\ no_mark h /\ (forall x, last = Some x -> holds F t rf h0 h x) /\
  (forall x, g = Some x -> derived F t rf h0 h x /\ exists d, DER x d).
Lemma moola_tape : forall n l os, n <= 1 ->
  (forall c1 c2, In c1 l -> In c2 l -> hash (call_point c1) = hash (call_point c2) -> call_point c1 = call_point c2) ->
  answers VAL DER HES None None l os -> run n (mo_new (heap V) V (list V) h0) l = os.
Proof.
  intros n l os Hn Hh HA.
  apply (moola_answers (heap V) (list V) V (list V) (list V) hash _ _ _ (fun x => exists c, In c l /\ x = call_point c)) with (J := VAL) (dJ := DER) (HJ := HES) (at_ := holding)
    (last := None) (g := None); auto.
  - intros x y (c1 & H1 & ->) (c2 & H2 & ->). now apply Hh.
  - intros x y y' _ E1 E2. congruence.
  - intros x y y' _ E1 E2. congruence.
  - intros h p g x v (K & M & HP & HG) _ Hv. destruct (holds_call F t rf h0 Ht Hg Hcl N0 h x v K M Hv) as [E1 E2]. split; [exact E1|].
    pose proof E2 as (K' & M' & _). split; [exact K'|]. split; [exact M'|]. split; [intros y E; injection E as <-; exact E2|].
    intros y E. destruct (HG y E) as [Dy Ey]. split; [|exact Ey]. intros u Hu. rewrite (call_adj F t rf x h u (proj1 K)). now apply Dy.
  - intros h g x d (K & M & HP & HG) _ Hd. specialize (HP x eq_refl). destruct (holds_deriv F t rf h0 Ht Hg Hcl N0 Ho M0 h x d HP Hd) as [E1 E2]. split; [exact E1|].
    pose proof E2 as (K' & M' & _). split; [exact K'|]. split; [exact M'|]. split; [intros y E; injection E as <-; exact E2|].
    intros y E. injection E as <-. split; [now apply deriv_derived | eauto].
  - intros h x d w (K & M & HP & HG) _ HH. destruct (HG x eq_refl) as [Dx Ex].
    destruct (hess_derived F t rf h0 Ht Hg Hcl N0 Ho M0 HJt h x d w (HP x eq_refl) Dx Ex HH) as (h' & E & H' & D'). rewrite E. split; [reflexivity|]. cbn [fst].
    pose proof H' as (K' & M' & _). split; [exact K'|]. split; [exact M'|]. split; [intros y Ey; injection Ey as <-; exact H'|].
    intros y Ey. injection Ey as <-. auto.
  - apply Forall_forall. intros c Hc. exists c. auto.
  - split; [|intros _; cbn; auto]. cbn. split; [now apply okheap_0|]. split; [exact M0|]. split; discriminate.
Qed.
End Tape.

Lemma answers_mono : forall (X A G D : Type) (J J' : X -> A -> Prop) (dJ dJ' : X -> G -> Prop) (HJ HJ' : X -> D -> G -> Prop) (Q : X -> Prop) last g l os,
  (forall x y, J x y -> J' x y /\ Q x) -> (forall x d, Q x -> dJ x d -> dJ' x d) -> (forall x d h, Q x -> HJ x d h -> HJ' x d h) ->
  (forall x, last = Some x -> Q x) -> answers J dJ HJ last g l os -> answers J' dJ' HJ' last g l os.
Proof.
  intros X A G D J J' dJ dJ' HJ HJ' Q last g l os E1 E2 E3 Hl H.
  induction H as [last g | last g x y l os Hy H IH | g x d l os Hd H IH | last g x y l os Hy H IH | x d h l os Hh H IH]; [constructor| | | |].
  - destruct (E1 x y Hy) as [Hy' Hq]. constructor; auto. apply IH. intros z E. now injection E as <-.
  - constructor; auto.
  - destruct (E1 x y Hy) as [Hy' Hq]. apply (an_hessian _ _ _ _ _ _ _ _ _ _ y); auto. apply IH. intros z E. now injection E as <-.
  - constructor; auto.
Qed.

(** ** On a recorded program *)
Lemma moola_recorded : forall (V : Type) (F : fops V) ann (p : list (stmt V)) j l s (hash : list V -> nat) n calls os,
  consistent p -> disciplined ann p = true -> j < length (w_objs (exec F (world_new F ann) p)) ->
  let w := fst (recorded F ann p j) in
  let bs := t_flat (w_tape w) in
  let J := snd (recorded F ann p j) in
  let rf := RF J (w_ctrls w) s in
  let h0 := run_hist F bs (w_heap w) l in
  closed (w_ctrls w) bs -> on_tape bs (w_ctrls w) -> In J (vars_of bs) -> w_ctrls w <> [] -> calls_controls w l -> no_mark h0 -> n <= 1 ->
  (forall c1 c2, In c1 calls -> In c2 calls -> hash (call_point c1) = hash (call_point c2) -> call_point c1 = call_point c2) ->
  answers (fun x y => length x = length (w_ctrls w) /\ rmap (fun y => f_mul F y s) (spec_rerun F ann p x j) = Ok y)
    (fun x d => der_at F (w_tape w) rf h0 x = Ok d) (fun x d H => hes_at F (w_tape w) rf h0 x d = Ok H) None None calls os ->
  mh_run (heap V) (list V) V (list V) (list V) hash (fun h x => rf_call F bs rf x h) (fun h => rf_derivative F bs rf (f_one F) h)
    (fun h d => rf_hessian F bs rf d h) n (mo_new (heap V) V (list V) h0) calls = os.
Proof.
  intros V F ann p j l s hash n calls os Hc Hd Hj w bs J rf h0 Hcl Ho HJ Hne Hcc M0 Hn Hh HA.
  destruct (recorded_clean F ann p j Hc Hd Hj) as [Hwf [Hgv [Nc _]]]. fold w bs in Hwf, Hgv, Nc.
  apply (moola_tape F (w_tape w) rf h0); auto; [apply Hwf | apply hist_frame; exact Nc |].
  revert HA. apply (answers_mono _ _ _ _ _ _ _ _ _ _ (fun _ => True)); auto. intros x y [L E]. split; [|exact I]. rewrite <- E.
  apply (rf_call_rerun F ann p j x s l Hc Hd Hj); auto.
Qed.
Lemma moola_exact : forall ann (p : list (stmt R)) j l s (hash : list R -> nat) n calls os,
  consistent p -> disciplined ann p = true -> j < length (w_objs (exec RO (world_new RO ann) p)) ->
  let w := fst (recorded RO ann p j) in
  let bs := t_flat (w_tape w) in
  let J := snd (recorded RO ann p j) in
  let rf := RF J (w_ctrls w) s in
  let h0 := run_hist RO bs (w_heap w) l in
  closed (w_ctrls w) bs -> on_tape bs (w_ctrls w) -> In J (vars_of bs) -> NoDup (w_ctrls w) -> w_ctrls w <> [] -> independent bs (w_ctrls w) ->
  calls_controls w l -> no_mark h0 -> n <= 1 ->
  (forall c1 c2, In c1 calls -> In c2 calls -> hash (call_point c1) = hash (call_point c2) -> call_point c1 = call_point c2) ->
  (forall x, length x = length (w_ctrls w) -> is_ok (spec_rerun RO ann p x j) = true ->
     let e := saved (fst (rf_call RO bs rf x h0)) in
     twice_smooth bs (w_ctrls w) e /\ adjoints_right bs (w_ctrls w) e /\ adjoints_run bs (w_ctrls w) e /\ tangents_right bs (w_ctrls w) e /\
     forall d, length d = length (w_ctrls w) -> is_ok (hes_at RO (w_tape w) rf h0 x d) = true) ->
  second_order_sound bs (w_ctrls w) J ->
  answers (fun x y => length x = length (w_ctrls w) /\ objective (fun x => spec_rerun RO ann p x j) s x = Ok y)
    (gradient_at (fun x => spec_rerun RO ann p x j) s) (hessian_at (fun x => spec_rerun RO ann p x j) s) None None calls os ->
  mh_run (heap R) (list R) R (list R) (list R) hash (fun h x => rf_call RO bs rf x h) (fun h => rf_derivative RO bs rf 1%R h)
    (fun h d => rf_hessian RO bs rf d h) n (mo_new (heap R) R (list R) h0) calls = os.
Proof.
  intros ann p j l s hash n calls os Hc Hd Hj w bs J rf h0 Hcl Ho HJ Hnd Hne Hi Hcc M0 Hn Hh Hreg Hso HA.
  apply (moola_recorded R RO ann p j l s hash n calls os); auto.
  revert HA. apply (answers_mono _ _ _ _ _ _ _ _ _ _ (fun x => length x = length (w_ctrls w) /\ exists y, objective (fun x => spec_rerun RO ann p x j) s x = Ok y));
    [| | |discriminate].
  - intros x y [L E]. split; [split; [exact L|exact E]|]. split; [exact L|]. eauto.
  - intros x d (L & y & Hy) Hdx. destruct (Hreg x L) as ([A1 _] & A2 & A3 & _).
    { unfold objective in Hy. destruct (spec_rerun RO ann p x j); [reflexivity|discriminate Hy]. }
    apply (gradient_der ann p j s l x y d); auto.
  - intros x d H (L & y & Hy) HH. apply (hessian_answer ann p j s l Hc Hd Hj Hnd Hne Hi Ho HJ Hcl Hcc M0 x d y H); auto.
Qed.
