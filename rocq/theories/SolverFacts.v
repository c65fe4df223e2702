(** Facts about the adapters to optimisation packages. *)
From Coq Require Import String Ascii List Arith Bool Lia.
From Verif Require Import Base Model BaseFacts Graph Record History Sweep Marks Surgery TapeMore Solvers SpecSolvers.
Import ListNotations.

(** * Moola *)
Section Moola.
Variables T X A G : Type.
Variable hash : X -> nat.
Variable ev : T -> X -> T * res A.
Variable dv : T -> T * res G.
Notation moola := (moola T A G).
Notation mo_run := (mo_run T X A G hash ev dv).
Variable P : X -> Prop.   (* the points of the run: different points have different hashes *)
Hypothesis hash_inj : forall x y, P x -> P y -> hash x = hash y -> x = y.
Notation pt c := (match c with MEval x => x | MDeriv x => x end).

Section InOrder.
(** the tape holds the state of point [x] *)
Variable at_ : T -> option X -> Prop.
Variable val : X -> res A.
Variable der : X -> res G.
Hypothesis ev_spec : forall t p x v, at_ t p -> val x = Ok v -> snd (ev t x) = Ok v /\ at_ (fst (ev t x)) (Some x).
Hypothesis dv_spec : forall t x d, at_ t (Some x) -> der x = Ok d -> snd (dv t) = Ok d /\ at_ (fst (dv t)) (Some x).

(** memoize = 1: what is cached *)
Definition one_inv (last : option X) (s : moola) : Prop :=
  at_ (mo_t _ _ _ s) last /\
  (match last with
   | None => mo_eh _ _ _ s = [] /\ mo_ee _ _ _ s = []
   | Some x => P x /\ exists v, val x = Ok v /\ mo_eh _ _ _ s = [hash x] /\ mo_ee _ _ _ s = [v]
   end) /\
  ((mo_dh _ _ _ s = [] /\ mo_de _ _ _ s = []) \/ exists y d, P y /\ der y = Ok d /\ mo_dh _ _ _ s = [hash y] /\ mo_de _ _ _ s = [d]).

Lemma one_run : forall l last s, one_inv last s -> in_order X last l -> List.Forall (succeeds X A G val der) l -> List.Forall (fun c => P (pt c)) l ->
  mo_run 1 s l = map (expected X A G val der) l.
Proof.
  intros l. induction l as [|c l IH]; intros last s HI HO HF HP; [reflexivity|]. inversion HP as [|c1 l1 Hpx HP']; subst.
  inversion HF as [|c' l' Hc HF']; subst. destruct s as [eh ee dh de t]. destruct HI as (Ht & He & Hd). cbn in Ht, He, Hd.
  destruct c as [x|x]; cbn in HO, Hc; cbn [Solvers.mo_run mo_step map expected].
  - destruct Hc as [v Hv]. unfold mo_call. cbn [Nat.eqb mo_eh mo_ee mo_dh mo_de mo_t].
    destruct last as [y|].
    + destruct He as (Py & w & Hw & -> & ->). cbn [index_of].
      destruct (Nat.eqb_spec (hash y) (hash x)) as [E|E].
      * apply hash_inj in E; [|exact Py|exact Hpx]. subst y. cbn. rewrite Hv in Hw. injection Hw as <-. rewrite Hv. f_equal.
        apply (IH (Some x)); [|exact HO|exact HF'|exact HP']. split; [exact Ht|]. split; [split; [exact Hpx | exists v; auto] | exact Hd].
      * cbn. destruct (ev_spec t (Some y) x v Ht Hv) as [E1 E2]. destruct (ev t x) as [t' r]. cbn in E1, E2. subst r. cbn. rewrite Hv.
        f_equal. apply (IH (Some x)); [|exact HO|exact HF'|exact HP']. split; [exact E2|]. split; [split; [exact Hpx | exists v; auto] | exact Hd].
    + destruct He as (-> & ->). cbn. destruct (ev_spec t None x v Ht Hv) as [E1 E2]. destruct (ev t x) as [t' r]. cbn in E1, E2. subst r. cbn. rewrite Hv.
      f_equal. apply (IH (Some x)); [|exact HO|exact HF'|exact HP']. split; [exact E2|]. split; [split; [exact Hpx | exists v; auto] | exact Hd].
  - destruct HO as [-> HO]. destruct Hc as [d Hdx]. destruct He as (_ & v & Hv & -> & ->). unfold mo_deriv. cbn [Nat.eqb mo_eh mo_ee mo_dh mo_de mo_t].
    destruct (dv_spec t x d Ht Hdx) as [E1 E2].
    destruct Hd as [[-> ->]|(y & d' & Py & Hy & -> & ->)]; cbn [index_of].
    + cbn. destruct (dv t) as [t' r]. cbn in E1, E2. subst r. cbn. rewrite Hdx. f_equal.
      apply (IH (Some x)); [|exact HO|exact HF'|exact HP']. split; [exact E2|]. split; [split; [exact Hpx | exists v; auto]|]. right. exists x, d. auto.
    + destruct (Nat.eqb_spec (hash y) (hash x)) as [E|E].
      * apply hash_inj in E; [|exact Py|exact Hpx]. subst y. cbn. rewrite Hdx. rewrite Hdx in Hy. injection Hy as <-. f_equal.
        apply (IH (Some x)); [|exact HO|exact HF'|exact HP']. split; [exact Ht|]. split; [split; [exact Hpx | exists v; auto]|]. right. exists x, d. auto.
      * cbn. destruct (dv t) as [t' r]. cbn in E1, E2. subst r. cbn. rewrite Hdx. f_equal.
        apply (IH (Some x)); [|exact HO|exact HF'|exact HP']. split; [exact E2|]. split; [split; [exact Hpx | exists v; auto]|]. right. exists x, d. auto.
Qed.
Lemma zero_run : forall l last s, at_ (mo_t _ _ _ s) last -> in_order X last l -> List.Forall (succeeds X A G val der) l ->
  mo_run 0 s l = map (expected X A G val der) l.
Proof.
  intros l. induction l as [|c l IH]; intros last s Ht HO HF; [reflexivity|].
  inversion HF as [|c' l' Hc HF']; subst. destruct s as [eh ee dh de t]. cbn in Ht.
  destruct c as [x|x]; cbn in HO, Hc; cbn.
  - destruct Hc as [v Hv]. destruct (ev_spec t last x v Ht Hv) as [E1 E2]. destruct (ev t x) as [t' r]. cbn in E1, E2. subst r. cbn. rewrite Hv.
    f_equal. apply (IH (Some x)); assumption.
  - destruct HO as [-> HO]. destruct Hc as [d Hd]. destruct (dv_spec t x d Ht Hd) as [E1 E2]. destruct (dv t) as [t' r]. cbn in E1, E2. subst r. cbn. rewrite Hd.
    f_equal. apply (IH (Some x)); assumption.
Qed.
End InOrder.

(** Any size: evaluations *)
Section Any.
Variable inv : T -> Prop.
Variable val : X -> res A.
Hypothesis ev_spec : forall t x, inv t -> snd (ev t x) = val x /\ inv (fst (ev t x)).
Hypothesis dv_inv : forall t, inv t -> inv (fst (dv t)).
Lemma index_nth : forall k l i, index_of k l = Some i -> nth_error l i = Some k.
Proof.
  intros k l. induction l as [|x l IH]; intros i H; [discriminate|]. cbn in H. destruct (Nat.eqb_spec x k) as [->|].
  - injection H as <-. reflexivity.
  - destruct (index_of k l) as [j|] eqn:E; [|discriminate]. cbn in H. injection H as <-. cbn. auto.
Qed.
Lemma F2_nth : forall {B C} (Q : B -> C -> Prop) l l' i b, Forall2 Q l l' -> nth_error l i = Some b -> exists c, nth_error l' i = Some c /\ Q b c.
Proof.
  intros B C Q l l' i b H. revert i. induction H as [|x y l l' Hp H IH]; intros i Hi; [destruct i; discriminate|].
  destruct i as [|i]; [injection Hi as <-; exists y; auto | apply IH; exact Hi].
Qed.
Lemma F2_tl : forall {B C} (Q : B -> C -> Prop) l l', Forall2 Q l l' -> Forall2 Q (tl l) (tl l').
Proof. intros B C Q l l' H. destruct H; cbn; auto. Qed.
Definition aligned (s : moola) : Prop :=
  inv (mo_t _ _ _ s) /\ Forall2 (fun k v => exists x, P x /\ hash x = k /\ val x = Ok v) (mo_eh _ _ _ s) (mo_ee _ _ _ s).
Lemma any_run : forall n l s, n <> 0 -> aligned s -> List.Forall (evaluations_succeed X A val) l -> List.Forall (fun c => P (pt c)) l ->
  List.Forall (fun xr => snd xr = val (fst xr)) (eval_results X A G l (mo_run n s l)).
Proof.
  intros n l. induction l as [|c l IH]; intros s Hn [Hi HA] HF HP; [constructor|]. inversion HP as [|c1 l1 Hpx HP']; subst.
  inversion HF as [|c' l' Hc HF']; subst. destruct s as [eh ee dh de t]. cbn in Hi, HA.
  destruct c as [x|x]; cbn [Solvers.mo_run mo_step].
  - destruct Hc as [v Hv]. unfold mo_call. destruct (Nat.eqb_spec n 0) as [|_]; [contradiction|]. cbn [mo_eh mo_ee mo_dh mo_de mo_t].
    destruct (index_of (hash x) eh) as [i|] eqn:Ei.
    + apply index_nth in Ei. destruct (F2_nth _ _ _ _ _ HA Ei) as (w & Hw & y & Py & Hy & Hyv). apply hash_inj in Hy; [|exact Py|exact Hpx]. subst y.
      cbn [mo_ee]. rewrite Hw. unfold eval_results. cbn [combine flat_map]. constructor; [cbn; congruence|].
      apply IH; auto. split; assumption.
    + destruct (ev_spec t x Hi) as [E1 E2].
      assert (Hgen : forall eh' ee', Forall2 (fun k v => exists x, P x /\ hash x = k /\ val x = Ok v) eh' ee' ->
        List.Forall (fun xr : X * res A => snd xr = val (fst xr))
          (eval_results X A G (MEval x :: l)
             (let '(s', o) := let '(s', r) := match ev t x with
                | (t', Ok v) => (Mo T A G (eh' ++ [hash x]) (ee' ++ [v]) dh de t', Ok v)
                | (t', Err e) => (Mo T A G (eh' ++ [hash x]) ee' dh de t', Err e) end in (s', inl r) in o :: mo_run n s' l))).
      { intros eh' ee' H'. destruct (ev t x) as [t' r]. cbn in E1, E2. rewrite Hv in E1. subst r.
        unfold eval_results. cbn [combine flat_map]. constructor; [cbn; congruence|].
        apply IH; auto. split; [exact E2|]. cbn. apply Forall2_app; [exact H'|]. constructor; [exists x; auto | constructor]. }
      destruct (length eh =? n) eqn:Ef.
      * destruct ee as [|w ee'].
        -- inversion HA; subst. apply Nat.eqb_eq in Ef. cbn in Ef. congruence.
        -- apply (Hgen (tl eh) ee'). exact (F2_tl _ _ _ HA).
      * apply (Hgen eh ee). exact HA.
  - unfold mo_deriv. destruct (Nat.eqb_spec n 0) as [|_]; [contradiction|]. cbn [mo_eh mo_ee mo_dh mo_de mo_t].
    assert (Hgen : forall s' o, aligned s' -> List.Forall (fun xr : X * res A => snd xr = val (fst xr)) (eval_results X A G (MDeriv x :: l) (inr o :: mo_run n s' l))).
    { intros s' o Hs. unfold eval_results. cbn [combine flat_map]. apply IH; auto. }
    pose proof (dv_inv t Hi) as E2.
    destruct (index_of (hash x) dh) as [i|]; [apply Hgen; split; assumption|].
    destruct (length dh =? n); [destruct de|]; try (apply Hgen; split; assumption);
      (destruct (dv t) as [t' r]; destruct r; apply Hgen; split; assumption).
Qed.
End Any.

(** Any size: derivatives after the first evaluation of their point *)
Section First.
Variable at_ : T -> option X -> Prop.
Variable val : X -> res A.
Variable der : X -> res G.
Hypothesis ev_spec : forall t p x v, at_ t p -> val x = Ok v -> snd (ev t x) = Ok v /\ at_ (fst (ev t x)) (Some x).
Hypothesis dv_spec : forall t x d, at_ t (Some x) -> der x = Ok d -> snd (dv t) = Ok d /\ at_ (fst (dv t)) (Some x).
Definition first_inv (seen : list X) (cur : option X) (s : moola) : Prop :=
  (exists p, at_ (mo_t _ _ _ s) p /\ forall x, cur = Some x -> p = Some x) /\
  Forall2 (fun k v => exists x, P x /\ In x seen /\ hash x = k /\ val x = Ok v) (mo_eh _ _ _ s) (mo_ee _ _ _ s) /\
  Forall2 (fun k d => exists x, P x /\ hash x = k /\ der x = Ok d) (mo_dh _ _ _ s) (mo_de _ _ _ s).
Lemma first_run : forall n l seen cur s, n <> 0 -> first_inv seen cur s -> first_time X seen cur l -> List.Forall (succeeds X A G val der) l ->
  List.Forall (fun c => P (pt c)) l -> mo_run n s l = map (expected X A G val der) l.
Proof.
  intros n l. induction l as [|c l IH]; intros seen cur s Hn HI HO HF HP; [reflexivity|]. inversion HP as [|c1 l1 Hpx HP']; subst.
  inversion HF as [|c' l' Hc HF']; subst. destruct s as [eh ee dh de t]. destruct HI as ((p & Hp & Hcur) & HE & HD). cbn in Hp, HE, HD.
  assert (MONO : forall x eh' ee', Forall2 (fun k v => exists y, P y /\ In y seen /\ hash y = k /\ val y = Ok v) eh' ee' ->
    Forall2 (fun k v => exists y, P y /\ In y (x :: seen) /\ hash y = k /\ val y = Ok v) eh' ee').
  { intros x eh' ee' H. induction H as [|k v eh' ee' (y & A1 & A2 & A3 & A4) H IHH]; constructor; [exists y; cbn; auto | exact IHH]. }
  destruct c as [x|x]; cbn [Solvers.mo_run mo_step map expected]; cbn in Hc.
  - destruct Hc as [v Hv]. unfold mo_call. destruct (Nat.eqb_spec n 0) as [|_]; [contradiction|]. cbn [mo_eh mo_ee mo_dh mo_de mo_t].
    assert (STEP : forall t' p' eh' ee', at_ t' p' -> ((cur = Some x \/ ~ In x seen) -> p' = Some x) ->
      Forall2 (fun k v => exists y, P y /\ In y (x :: seen) /\ hash y = k /\ val y = Ok v) eh' ee' ->
      mo_run n (Mo T A G eh' ee' dh de t') l = map (expected X A G val der) l).
    { intros t' p' eh' ee' Ht' Hp' HE'. cbn in HO. destruct HO as [[Hf HO]|HO].
      - apply (IH (x :: seen) (Some x)); auto. split; [exists p'; split; [exact Ht'|]; intros y Hy; injection Hy as <-; auto|]. split; assumption.
      - apply (IH (x :: seen) None); auto. split; [exists p'; split; [exact Ht' | discriminate]|]. split; assumption. }
    destruct (index_of (hash x) eh) as [i|] eqn:Ei.
    + apply index_nth in Ei. destruct (F2_nth _ _ _ _ _ HE Ei) as (w & Hw & y & Py & Hs & Hy & Hyv). apply hash_inj in Hy; [|exact Py|exact Hpx]. subst y.
      rewrite Hw, Hv. rewrite Hv in Hyv. injection Hyv as <-. f_equal. apply (STEP t p); [exact Hp| |apply MONO; exact HE].
      intros [Hc|Hc]; [auto | contradiction].
    + destruct (ev_spec t p x v Hp Hv) as [E1 E2].
      assert (Hgen : forall eh' ee', Forall2 (fun k v => exists y, P y /\ In y seen /\ hash y = k /\ val y = Ok v) eh' ee' ->
        (let '(s', o) := let '(s', r) := match ev t x with
           | (t', Ok v) => (Mo T A G (eh' ++ [hash x]) (ee' ++ [v]) dh de t', Ok v)
           | (t', Err e) => (Mo T A G (eh' ++ [hash x]) ee' dh de t', Err e) end in (s', inl r) in o :: mo_run n s' l) = inl (val x) :: map (expected X A G val der) l).
      { intros eh' ee' H'. destruct (ev t x) as [t' r]. cbn in E1, E2. subst r. rewrite Hv. f_equal. apply (STEP t' (Some x)); auto.
        apply Forall2_app; [apply MONO; exact H'|]. constructor; [|constructor]. exists x. cbn. auto. }
      destruct (length eh =? n) eqn:Ef.
      * destruct ee as [|w ee'].
        -- inversion HE; subst. apply Nat.eqb_eq in Ef. cbn in Ef. congruence.
        -- apply (Hgen (tl eh) ee'). exact (F2_tl _ _ _ HE).
      * apply (Hgen eh ee). exact HE.
  - cbn in HO. destruct HO as [-> HO]. destruct Hc as [d Hd]. specialize (Hcur x eq_refl). subst p. destruct (dv_spec t x d Hp Hd) as [E1 E2].
    unfold mo_deriv. destruct (Nat.eqb_spec n 0) as [|_]; [contradiction|]. cbn [mo_eh mo_ee mo_dh mo_de mo_t].
    assert (STEP : forall t' dh' de', at_ t' (Some x) -> Forall2 (fun k d => exists y, P y /\ hash y = k /\ der y = Ok d) dh' de' ->
      mo_run n (Mo T A G eh ee dh' de' t') l = map (expected X A G val der) l).
    { intros t' dh' de' Ht' HD'. apply (IH seen (Some x)); auto. split; [exists (Some x); auto|]. split; assumption. }
    destruct (index_of (hash x) dh) as [i|] eqn:Ei.
    + apply index_nth in Ei. destruct (F2_nth _ _ _ _ _ HD Ei) as (w & Hw & y & Py & Hy & Hyv). apply hash_inj in Hy; [|exact Py|exact Hpx]. subst y.
      rewrite Hw, Hd. rewrite Hd in Hyv. injection Hyv as <-. f_equal. apply STEP; assumption.
    + assert (Hgen : forall dh' de', Forall2 (fun k d => exists y, P y /\ hash y = k /\ der y = Ok d) dh' de' ->
        (let '(s', o) := let '(s', r) := match dv t with
           | (t', Ok d) => (Mo T A G eh ee (dh' ++ [hash x]) (de' ++ [d]) t', Ok d)
           | (t', Err e) => (Mo T A G eh ee dh' de' t', Err e) end in (s', inr r) in o :: mo_run n s' l) = inr (der x) :: map (expected X A G val der) l).
      { intros dh' de' H'. destruct (dv t) as [t' r]. cbn in E1, E2. subst r. rewrite Hd. f_equal. apply STEP; [exact E2|].
        apply Forall2_app; [exact H'|]. constructor; [exists x; auto | constructor]. }
      destruct (length dh =? n) eqn:Ef.
      * destruct de as [|w de'].
        -- inversion HD; subst. apply Nat.eqb_eq in Ef. cbn in Ef. congruence.
        -- apply (Hgen (tl dh) de'). exact (F2_tl _ _ _ HD).
      * apply (Hgen dh de). exact HD.
Qed.
End First.
End Moola.

(** * Points of a reduced functional *)
Section Points.
Context {V : Type} (F : fops V).
Variables (t : tape V) (rf : rfun V) (h0 : heap V).
Notation bs := (t_flat t).
Hypothesis Ht : topo bs.
Hypothesis Hg : forall b, In b bs -> gives_value F b.
Hypothesis Hcl : closed (rf_ctrls rf) bs.
Hypothesis N0 : no_ctrl h0.
Hypothesis Ho : on_tape bs (rf_ctrls rf).

Notation val_at := (SpecSolvers.val_at F t rf h0).
Notation der_at := (SpecSolvers.der_at F t rf h0).
Notation rol_run := (SpecSolvers.rol_run F t rf).
Notation rol_protocol := (SpecSolvers.rol_protocol F t rf h0).
(** states reachable by evaluations, sweeps and restores *)
Definition okheap (h : heap V) : Prop :=
  no_ctrl h /\ (forall v, bv_out (h v) = bv_out (h0 v)) /\ (forall v, ~ In v (outs_of bs) -> ~ In v (rf_ctrls rf) -> saved h v = saved h0 v).
Definition holds (h : heap V) (x : list V) : Prop :=
  okheap h /\ no_mark h /\ (forall v, saved h v = saved (fst (rf_call F bs rf x h0)) v).

Lemma okheap_0 : okheap h0.
Proof. split; [exact N0|]. split; auto. Qed.
Lemma okheap_call : forall h x, okheap h ->
  okheap (fst (rf_call F bs rf x h)) /\ snd (rf_call F bs rf x h) = val_at x /\
  (forall v, val_at x = Ok v -> forall u, saved (fst (rf_call F bs rf x h)) u = saved (fst (rf_call F bs rf x h0)) u) /\
  (no_mark h -> no_mark (fst (rf_call F bs rf x h))).
Proof.
  intros h x (Nc & Eo & El).
  assert (Esn : snd (rf_call F bs rf x h) = val_at x) by (apply rf_call_leaves; auto).
  destruct (Nat.eq_dec (length x) (length (rf_ctrls rf))) as [Hl|Hl].
  2:{ rewrite (rf_call_mismatch F bs rf x h Hl). split; [split; auto|]. unfold SpecSolvers.val_at. rewrite (rf_call_mismatch F bs rf x h0 Hl). cbn.
      split; [reflexivity|]. split; [intros v Hv; discriminate | auto]. }
  destruct (rf_call_spec F bs rf x h Nc Hl) as [A [B C]]. destruct (rf_call_spec F bs rf x h0 N0 Hl) as [A0 [B0 C0]].
  split; [|split; [exact Esn|split]].
  - split; [|split].
    + intros v. pose proof (f_equal (@bv_ctrl V) (C v)) as K. exact (eq_trans K (Nc v)).
    + intros v. pose proof (f_equal (@bv_out V) (C v)) as K. exact (eq_trans K (Eo v)).
    + intros v Hv Hv'. rewrite (call_touches F bs rf x h v Nc Hv Hv'). auto.
  - intros v Hv u. rewrite B, B0.
    destruct (geval_local F (fun v => mem v (rf_ctrls rf)) bs (start_env h (rf_ctrls rf) x) (start_env h0 (rf_ctrls rf) x) Ht Hg) as [B1 B2].
    { intros w Hw. unfold start_env. pose proof (supplied_some (rf_ctrls rf) x w Hl) as S.
      destruct (supplied (rf_ctrls rf) x w); [reflexivity|]. cbn in S. symmetry in S. apply mem_false in S.
      destruct (not_computed (rf_ctrls rf) bs w Hcl Hw) as [K|K]; [auto|contradiction]. }
    apply B2. unfold SpecSolvers.val_at in Hv. rewrite A0 in Hv. rewrite B1. destruct (snd (geval F _ bs (start_env h0 _ _))); [discriminate | reflexivity].
  - intros Nm v. pose proof (f_equal (@bv_mark V) (C v)) as K. exact (eq_trans K (Nm v)).
Qed.
Lemma holds_call : forall h x v, okheap h -> no_mark h -> val_at x = Ok v ->
  snd (rf_call F bs rf x h) = Ok v /\ holds (fst (rf_call F bs rf x h)) x.
Proof.
  intros h x v Hk Nm Hv. destruct (okheap_call h x Hk) as (K1 & K2 & K3 & K4). split; [congruence|].
  split; [exact K1|]. split; [auto|]. eauto.
Qed.
Lemma deriv_core : forall h, no_ctrl h -> same_core h (fst (rf_derivative F bs rf (f_one F) h)).
Proof. intros h Nc. exact (api_core F bs h (ADeriv rf (f_one F)) Nc eq_refl). Qed.
Lemma okheap_deriv : forall h, okheap h -> okheap (fst (rf_derivative F bs rf (f_one F) h)).
Proof.
  intros h (Nc & Eo & El). pose proof (deriv_core h Nc) as C. split; [|split].
  - intros v. rewrite (core_ctrl _ _ (C v)). apply Nc.
  - intros v. destruct (core_ckpt _ _ (C v)) as [_ E]. rewrite E. apply Eo.
  - intros v H1 H2. rewrite (core_saved _ _ v (C v)). auto.
Qed.
Lemma call_okh0 : forall x, okheap (fst (rf_call F bs rf x h0)).
Proof. intros x. apply okheap_call. exact okheap_0. Qed.

Section Marks.
Hypothesis M0 : no_mark h0.
Lemma der_holds : forall h x, holds h x -> snd (rf_derivative F bs rf (f_one F) h) = der_at x.
Proof.
  intros h x (K & Nm & E). unfold SpecSolvers.der_at, rf_derivative. destruct (rf_ctrls rf) as [|c cs] eqn:Ec; [reflexivity|]. rewrite <- Ec in *.
  destruct (okheap_call h0 x okheap_0) as (K' & _ & _ & M'). destruct K as (Nc & _). destruct K' as (Nc' & _).
  apply grad_same_marks; auto. intros v. rewrite Nm. symmetry. apply M'. exact M0.
Qed.
Lemma holds_deriv : forall h x d, holds h x -> der_at x = Ok d ->
  snd (rf_derivative F bs rf (f_one F) h) = Ok d /\ holds (fst (rf_derivative F bs rf (f_one F) h)) x.
Proof.
  intros h x d H Hd. pose proof (der_holds h x H) as E. rewrite Hd in E. split; [exact E|].
  destruct H as (K & Nm & Es). split; [apply okheap_deriv; exact K|]. destruct K as (Nc & Eo & El). split.
  - apply (api_clean F bs h (ADeriv rf (f_one F)) Nc Nm). left. unfold api_ok. cbn [api_run]. rewrite E. reflexivity.
  - intros v. rewrite (core_saved _ _ v (deriv_core h Nc v)). apply Es.
Qed.
(** restoring the snapshot of a state brings that state back *)
Definition snap_of (h : heap V) := checkpoint_block_vars (rf_ctrls rf) None t h.
Lemma holds_restore : forall h hx x, holds hx x -> okheap h -> no_mark h -> holds (restore_block_vars (snap_of hx) h) x.
Proof.
  intros h hx x ((Ncx & Eox & Elx) & Nmx & Ex) (Nc & Eo & El) Nm. unfold snap_of, checkpoint_block_vars.
  assert (R := restore_spec (snapshot_vars (rf_ctrls rf) None t) hx h).
  assert (Es : forall v, saved (restore_block_vars (map (fun u => (u, (bv_ckpt (hx u), bv_raw (hx u)))) (snapshot_vars (rf_ctrls rf) None t)) h) v = saved hx v).
  { intros v. destruct (R v) as [A [B _]]. unfold saved. rewrite A, B, Eo, Eox.
    destruct (mem v (snapshot_vars (rf_ctrls rf) None t)) eqn:Em; [reflexivity|].
    apply mem_false in Em. unfold snapshot_vars in Em. cbn [get_blocks] in Em. rewrite in_app_iff in Em.
    assert (K1 : ~ In v (outs_of bs)) by (unfold outs_of; tauto). assert (K2 : ~ In v (rf_ctrls rf)) by tauto.
    pose proof (El v K1 K2) as E1. pose proof (Elx v K1 K2) as E2. unfold saved in E1, E2. rewrite Eo in E1. rewrite Eox in E2. congruence. }
  split; [split; [|split]|split].
  - intros v. destruct (R v) as [_ [_ C]]. exact (eq_trans (f_equal (@bv_ctrl V) C) (Nc v)).
  - intros v. destruct (R v) as [A _]. rewrite A. apply Eo.
  - intros v H1 H2. rewrite Es. auto.
  - intros v. destruct (R v) as [_ [_ C]]. exact (eq_trans (f_equal (@bv_mark V) C) (Nm v)).
  - intros v. rewrite Es. apply Ex.
Qed.

(** ** ROL *)
Definition kept (s : rol V) (c : list V) : Prop :=
  (exists v, val_at c = Ok v /\ ro_cache s = Some v) /\ (exists d, der_at c = Ok d) /\ exists hc, holds hc c /\ ro_tcache s = Some (snap_of hc).
Definition current (s : rol V) (y : list V) : Prop :=
  (exists v, val_at y = Ok v /\ ro_val s = Some v) /\ (exists d, der_at y = Ok d) /\ holds (ro_h s) y.
Definition rol_inv (p : rstate (list V)) (s : rol V) : Prop :=
  match p with
  | RStart => s = rol_new (ro_h s) /\ okheap (ro_h s) /\ no_mark (ro_h s)
  | RReady c => kept s c /\ current s c
  | RTrial c y => kept s c /\ current s y /\ exists hy, holds hy y /\ ro_trial s = Some (snap_of hy)
  end.
Lemma rol_inv_heap : forall p s, rol_inv p s -> okheap (ro_h s) /\ no_mark (ro_h s).
Proof.
  intros p s H. destruct p as [ | c | c y ]; cbn in H.
  - tauto.
  - destruct H as (_ & _ & _ & H). destruct H as (K & N & _). auto.
  - destruct H as (_ & (_ & _ & H) & _). destruct H as (K & N & _). auto.
Qed.
Lemma rol_step : forall p f x p' s v d, rol_inv p s -> allowed p f x p' -> val_at x = Ok v -> der_at x = Ok d ->
  exists s', rol_update F t rf x f s = (s', None) /\ rol_inv p' s'.
Proof.
  intros p f x p' s v d HI HA Hv Hd. destruct (rol_inv_heap p s HI) as [K N].
  destruct (holds_call (ro_h s) x v K N Hv) as [E1 E2].
  destruct HA as [ p x | p f c x Hf Hp | c x | p c Hp ].
  - unfold rol_update. destruct (rf_call F bs rf x (ro_h s)) as [h r]. cbn in E1, E2. subst r. cbn.
    eexists. split; [reflexivity|]. cbn. split; (split; [exists v; auto|]); (split; [exists d; exact Hd|]); [exists h; auto | exact E2].
  - assert (Hk : kept s c). { destruct Hp as [->|[y ->]]; cbn in HI; tauto. }
    unfold rol_update. destruct (rf_call F bs rf x (ro_h s)) as [h r]. cbn in E1, E2. subst r. cbn.
    assert (Er : exists s', rol_inv (RTrial c x) s' /\ s' = Rol (Some v) (ro_cache s) (Some (snap_of h)) (ro_tcache s) h).
    { eexists. split; [|reflexivity]. cbn. split; [exact Hk|]. split; [split; [exists v; auto|]; split; [exists d; auto | exact E2]|]. exists h. auto. }
    destruct Er as (s' & Hs & ->). destruct Hf as [-> | ->]; (eexists; split; [reflexivity | exact Hs]).
  - cbn in HI. destruct HI as (_ & ((w & Hw & Ew) & _ & Hc) & hy & Hy & Ey). unfold rol_update. rewrite Ey. eexists. split; [reflexivity|]. cbn.
    split; [split; [exists w; auto|]; split; [exists d; auto|]; exists hy; auto | split; [exists w; auto|]; split; [exists d; auto | exact Hc]].
  - assert (Hk : kept s c). { destruct Hp as [->|[y ->]]; cbn in HI; tauto. }
    pose proof Hk as Hk'. destruct Hk' as ((w & Hw & Ew) & Hdc & hc & Hhc & Ec). unfold rol_update. rewrite Ec. eexists. split; [reflexivity|]. cbn.
    split; [split; [exists w; auto|]; split; [exact Hdc|]; exists hc; auto|].
    split; [exists w; auto|]. split; [exact Hdc|]. apply holds_restore; assumption.
Qed.
Lemma rol_sound : forall p l p', rol_protocol p l p' -> forall s, rol_inv p s -> exists s', rol_run l s = Some s' /\ rol_inv p' s'.
Proof.
  intros p l p' H. induction H as [p|p f x p1 l p2 v d Ha Hv Hd H IH|p l p2 Hp H IH]; intros s HI.
  - exists s. auto.
  - destruct (rol_step p f x p1 s v d HI Ha Hv Hd) as (s' & E & HI'). cbn [SpecSolvers.rol_run]. rewrite E. apply IH. exact HI'.
  - cbn. unfold rol_gradient.
    assert (Hc : exists y, current s y). { destruct p as [ | c | c y ]; [congruence | exists c | exists y]; cbn in HI; tauto. }
    destruct Hc as (y & Hyv & (d & Hd) & Hy). destruct (holds_deriv (ro_h s) y d Hy Hd) as [E1 E2].
    destruct (rf_derivative F bs rf (f_one F) (ro_h s)) as [h r]. cbn in E1, E2. subst r. apply IH.
    destruct p as [ | c | c y' ]; [congruence | |]; cbn in HI |- *.
    + destruct HI as (Hk & (Hv' & Hd' & Hh')). split; [exact Hk|]. split; [exact Hv'|]. split; [exact Hd'|].
      destruct Hd' as [d' Hd']. pose proof (holds_deriv (ro_h s) c d' Hh' Hd') as [_ Q].
      destruct Q as (Q1 & Q2 & Q3). destruct E2 as (R1 & R2 & R3). split; [exact R1|]. split; [exact R2|].
      intros u. rewrite R3. destruct Hy as (_ & _ & S3). destruct Hh' as (_ & _ & S3'). rewrite <- S3, <- S3'. reflexivity.
    + destruct HI as (Hk & (Hv' & Hd' & Hh') & Hs). split; [exact Hk|]. split; [|exact Hs]. split; [exact Hv'|]. split; [exact Hd'|].
      destruct E2 as (R1 & R2 & R3). split; [exact R1|]. split; [exact R2|].
      intros u. rewrite R3. destruct Hy as (_ & _ & S3). destruct Hh' as (_ & _ & S3'). rewrite <- S3, <- S3'. reflexivity.
Qed.
Lemma rol_value_gradient : forall l p, rol_protocol RStart l p -> forall h, okheap h -> no_mark h -> forall x, at_point p = Some x ->
  exists s, rol_run l (rol_new h) = Some s /\ Ok (rol_value s) = rmap Some (val_at x) /\ snd (rol_gradient F t rf s) = der_at x.
Proof.
  intros l p H h K N x Hx. destruct (rol_sound RStart l p H (rol_new h)) as (s & Es & HI); [cbn; auto|].
  exists s. split; [exact Es|].
  assert (Hc : current s x). { destruct p as [ | c | c y ]; [discriminate | |]; injection Hx as <-; cbn in HI; tauto. }
  destruct Hc as ((v & Hv & Ev) & Hd & Hh). split.
  - unfold rol_value. rewrite Ev, Hv. reflexivity.
  - unfold rol_gradient. pose proof (der_holds (ro_h s) x Hh) as E. destruct (rf_derivative F bs rf (f_one F) (ro_h s)) as [h' r]. exact E.
Qed.
Lemma rol_noflag : forall s x v, okheap (ro_h s) -> no_mark (ro_h s) -> val_at x = Ok v ->
  exists s', rol_update F t rf x NoFlag s = (s', None) /\ rol_value s' = Some v /\ snd (rol_gradient F t rf s') = der_at x.
Proof.
  intros s x v K N Hv. destruct (holds_call (ro_h s) x v K N Hv) as [E1 E2]. unfold rol_update.
  destruct (rf_call F bs rf x (ro_h s)) as [h r]. cbn in E1, E2. subst r. eexists. split; [reflexivity|]. split; [reflexivity|].
  unfold rol_gradient. cbn [ro_h]. pose proof (der_holds h x E2) as E. destruct (rf_derivative F bs rf (f_one F) h) as [h' r]. exact E.
Qed.
End Marks.
End Points.

(** ** Moola on a reduced functional *)
Section MoolaRF.
Context {V : Type} (F : fops V).
Variables (t : tape V) (rf : rfun V) (h0 : heap V).
Notation bs := (t_flat t).
Hypothesis Ht : topo bs.
Hypothesis Hg : forall b, In b bs -> gives_value F b.
Hypothesis Hcl : closed (rf_ctrls rf) bs.
Hypothesis N0 : no_ctrl h0.
Hypothesis Ho : on_tape bs (rf_ctrls rf).
Variable hash : list V -> nat.
Notation pt c := (match c with MEval x => x | MDeriv x => x end).
Notation run := (mo_run (heap V) (list V) V (list V) hash (fun h x => rf_call F bs rf x h) (fun h => rf_derivative F bs rf (f_one F) h)).
Notation new := (mo_new (heap V) V (list V) h0).
Notation VAL := (val_at F t rf h0).
Notation DER := (der_at F t rf h0).
Lemma moola_in_order : no_mark h0 -> forall n l, n <= 1 -> in_order (list V) None l -> List.Forall (succeeds (list V) V (list V) VAL DER) l ->
  (forall c1 c2, In c1 l -> In c2 l -> hash (pt c1) = hash (pt c2) -> pt c1 = pt c2) ->
  run n new l = map (expected (list V) V (list V) VAL DER) l.
Proof.
  intros M0 n l Hn HO HF Hh. set (P := fun x => exists c, In c l /\ x = pt c).
  assert (HI : forall x y, P x -> P y -> hash x = hash y -> x = y) by (intros x y (c1 & H1 & ->) (c2 & H2 & ->); apply Hh; assumption).
  assert (HP : List.Forall (fun c => P (pt c)) l) by (apply Forall_forall; intros c Hc; exists c; auto).
  set (at_ := fun (h : heap V) p => match p with None => okheap t rf h0 h /\ no_mark h | Some x => holds F t rf h0 h x end).
  assert (EV : forall h p x v, at_ h p -> VAL x = Ok v -> snd (rf_call F bs rf x h) = Ok v /\ at_ (fst (rf_call F bs rf x h)) (Some x)).
  { intros h p x v Hp Hv. apply holds_call; auto; destruct p; cbn in Hp; try tauto; destruct Hp as (K & N & _); auto. }
  assert (DV : forall h x d, at_ h (Some x) -> DER x = Ok d ->
     snd (rf_derivative F bs rf (f_one F) h) = Ok d /\ at_ (fst (rf_derivative F bs rf (f_one F) h)) (Some x)).
  { intros h x d Hp Hd. apply holds_deriv; auto. }
  destruct n as [|[|n]]; [|  |lia].
  - apply (zero_run _ _ _ _ hash _ _ at_ VAL DER EV DV l None); [split; [apply okheap_0; exact N0 | exact M0] | exact HO | exact HF].
  - apply (one_run _ _ _ _ hash _ _ P HI at_ VAL DER EV DV l None); [|exact HO|exact HF|exact HP].
    split; [split; [apply okheap_0; exact N0 | exact M0]|]. split; [split; reflexivity | left; split; reflexivity].
Qed.
Lemma moola_first : no_mark h0 -> forall n l, n <> 0 -> first_time (list V) [] None l -> List.Forall (succeeds (list V) V (list V) VAL DER) l ->
  (forall c1 c2, In c1 l -> In c2 l -> hash (pt c1) = hash (pt c2) -> pt c1 = pt c2) ->
  run n new l = map (expected (list V) V (list V) VAL DER) l.
Proof.
  intros M0 n l Hn HO HF Hh. set (P := fun x => exists c, In c l /\ x = pt c).
  assert (HI : forall x y, P x -> P y -> hash x = hash y -> x = y) by (intros x y (c1 & H1 & ->) (c2 & H2 & ->); apply Hh; assumption).
  assert (HP : List.Forall (fun c => P (pt c)) l) by (apply Forall_forall; intros c Hc; exists c; auto).
  set (at_ := fun (h : heap V) p => match p with None => okheap t rf h0 h /\ no_mark h | Some x => holds F t rf h0 h x end).
  assert (EV : forall h p x v, at_ h p -> VAL x = Ok v -> snd (rf_call F bs rf x h) = Ok v /\ at_ (fst (rf_call F bs rf x h)) (Some x)).
  { intros h p x v Hp Hv. apply holds_call; auto; destruct p; cbn in Hp; try tauto; destruct Hp as (K & N & _); auto. }
  assert (DV : forall h x d, at_ h (Some x) -> DER x = Ok d ->
     snd (rf_derivative F bs rf (f_one F) h) = Ok d /\ at_ (fst (rf_derivative F bs rf (f_one F) h)) (Some x)).
  { intros h x d Hp Hd. apply holds_deriv; auto. }
  apply (first_run _ _ _ _ hash _ _ P HI at_ VAL DER EV DV n l [] None); [exact Hn| |exact HO|exact HF|exact HP].
  split; [exists None; split; [split; [apply okheap_0; exact N0 | exact M0] | discriminate]|]. split; constructor.
Qed.
Lemma moola_values : forall n l, n <> 0 -> List.Forall (evaluations_succeed (list V) V VAL) l ->
  (forall c1 c2, In c1 l -> In c2 l -> hash (pt c1) = hash (pt c2) -> pt c1 = pt c2) ->
  List.Forall (fun xr => snd xr = VAL (fst xr)) (eval_results (list V) V (list V) l (run n new l)).
Proof.
  intros n l Hn HF Hh. set (P := fun x => exists c, In c l /\ x = pt c).
  assert (HI : forall x y, P x -> P y -> hash x = hash y -> x = y) by (intros x y (c1 & H1 & ->) (c2 & H2 & ->); apply Hh; assumption).
  assert (HP : List.Forall (fun c => P (pt c)) l) by (apply Forall_forall; intros c Hc; exists c; auto).
  apply (any_run _ _ _ _ hash _ _ P HI (okheap t rf h0) VAL); auto.
  - intros h x K. destruct (okheap_call F t rf h0 Ht Hg Hcl N0 h x K) as (K1 & K2 & _). auto.
  - intros h K. apply okheap_deriv; auto.
  - split; [apply okheap_0; exact N0 | constructor].
Qed.
End MoolaRF.

(** * PETSc *)
Section Petsc.
Variable S : Type.
Lemma fits_length : forall n (v : pval S) d, fits n v d -> length d = n.
Proof. intros n v d H. destruct v; cbn in H; [subst; apply repeat_length | destruct H; congruence | contradiction]. Qed.
Lemma put_sub_at : forall (pre mid post d : list S) n, length mid = n ->
  put_sub (pre ++ mid ++ post) (length pre, n) d = pre ++ d ++ post.
Proof.
  intros pre mid post d n H. unfold put_sub. cbn [fst snd]. rewrite firstn_app, firstn_all, Nat.sub_diag. cbn. rewrite app_nil_r. f_equal. f_equal.
  rewrite skipn_app, skipn_all2 by lia. cbn. replace (length pre + n - length pre) with n by lia.
  rewrite skipn_app, skipn_all2 by lia. cbn. rewrite H, Nat.sub_diag. reflexivity.
Qed.
Lemma to_petsc_loop_spec : forall sizes (vals : list (pval S)) ds, Forall2 (fun nv d => fits (fst nv) (snd nv) d) (combine sizes vals) ds -> length vals = length sizes ->
  forall pre x, length x = list_sum sizes -> to_petsc_loop true (isets_from (length pre) sizes) (pre ++ x) vals = (pre ++ concat ds, None).
Proof.
  intros sizes. induction sizes as [|n sizes IH]; intros vals ds H Hl pre x Hx.
  - destruct vals; [|discriminate]. inversion H; subst. destruct x; [reflexivity | discriminate].
  - destruct vals as [|v vals]; [discriminate|]. cbn [combine] in H. inversion H as [|a d l l' Hf H']; subst. cbn [fst snd] in Hf.
    change (list_sum (n :: sizes)) with (n + list_sum sizes) in Hx. cbn [isets_from to_petsc_loop].
    assert (Ex : x = firstn n x ++ skipn n x) by (symmetry; apply firstn_skipn).
    assert (Hf1 : length (firstn n x) = n) by (apply firstn_length_le; lia).
    assert (Hs : length (skipn n x) = list_sum sizes) by (rewrite skipn_length; lia).
    pose proof (fits_length _ _ _ Hf) as Hd.
    assert (W : put_sub (pre ++ x) (length pre, n) d = (pre ++ d) ++ skipn n x).
    { rewrite Ex at 1. rewrite put_sub_at by exact Hf1. rewrite app_assoc. reflexivity. }
    assert (G : to_petsc_loop true (isets_from (length pre + n) sizes) ((pre ++ d) ++ skipn n x) vals = (pre ++ concat (d :: l'), None)).
    { replace (length pre + n) with (length (pre ++ d)) by (rewrite app_length; lia).
      rewrite (IH vals l' H') by (auto; cbn in Hl; lia). cbn. rewrite <- app_assoc. reflexivity. }
    destruct v as [a|e|]; cbn in Hf; [| |contradiction].
    + subst d. cbn [snd]. rewrite W. exact G.
    + destruct Hf as [-> _]. rewrite W. exact G.
Qed.
Lemma to_petsc_spec : forall sizes (vals : list (pval S)) ds x, length vals = length sizes ->
  Forall2 (fun nv d => fits (fst nv) (snd nv) d) (combine sizes vals) ds -> length x = list_sum sizes ->
  to_petsc true sizes x vals = (concat ds, None).
Proof.
  intros sizes vals ds x Hl H Hx. unfold to_petsc. rewrite Hl, Nat.eqb_refl. cbn. exact (to_petsc_loop_spec sizes vals ds H Hl [] x Hx).
Qed.
Lemma from_loop : forall (ds : list (list S)) pre, map (get_sub (pre ++ concat ds)) (isets_from (length pre) (map (@length S) ds)) = ds.
Proof.
  intros ds. induction ds as [|d ds IH]; intros pre; [reflexivity|]. cbn [map isets_from concat]. f_equal.
  - unfold get_sub. cbn [fst snd]. rewrite skipn_app, skipn_all2 by lia. rewrite Nat.sub_diag. cbn. rewrite firstn_app, firstn_all, Nat.sub_diag. cbn. apply app_nil_r.
  - replace (length pre + length d) with (length (pre ++ d)) by apply app_length. rewrite app_assoc. apply IH.
Qed.
Lemma from_petsc_spec : forall (ds : list (list S)) sizes, map (@length S) ds = sizes -> from_petsc sizes (concat ds) (length ds) = Ok ds.
Proof.
  intros ds sizes <-. unfold from_petsc. rewrite map_length, Nat.eqb_refl. cbn. f_equal. exact (from_loop ds []).
Qed.
Lemma petsc_roundtrip : forall sizes (ds : list (list S)) x, map (@length S) ds = sizes -> length x = list_sum sizes ->
  exists y, to_petsc true sizes x (map PObj ds) = (y, None) /\ from_petsc sizes y (length ds) = Ok ds.
Proof.
  intros sizes ds x Hs Hx. exists (concat ds). split; [|apply from_petsc_spec; exact Hs].
  apply to_petsc_spec; [rewrite <- Hs, !map_length; reflexivity | | exact Hx].
  rewrite <- Hs. clear. induction ds as [|d ds IH]; cbn; constructor; [split; reflexivity | exact IH].
Qed.
Lemma to_from_petsc : forall sizes y ds, length y = list_sum sizes -> from_petsc sizes y (length sizes) = Ok ds ->
  y = concat ds /\ map (@length S) ds = sizes.
Proof.
  intros sizes y ds Hy H. unfold from_petsc in H. rewrite Nat.eqb_refl in H. cbn in H. injection H as <-. unfold isets.
  change y with ([] ++ y) at 2 3. change 0 with (length (@nil S)) at 1 2. generalize (@nil S) as pre. revert y Hy.
  induction sizes as [|n sizes IH]; intros y Hy pre; [destruct y; [auto | discriminate]|]. change (list_sum (n :: sizes)) with (n + list_sum sizes) in Hy. cbn [isets_from map concat].
  assert (Eg : get_sub (pre ++ y) (length pre, n) = firstn n y).
  { unfold get_sub. cbn [fst snd]. rewrite skipn_app, skipn_all2 by lia. rewrite Nat.sub_diag. reflexivity. }
  rewrite Eg. assert (Hf : length (firstn n y) = n) by (apply firstn_length_le; lia).
  destruct (IH (skipn n y) ltac:(rewrite skipn_length; lia) (pre ++ firstn n y)) as [I1 I2].
  rewrite app_length, Hf in I1, I2. rewrite <- app_assoc, firstn_skipn in I1, I2. split.
  - rewrite <- I1. symmetry. apply firstn_skipn.
  - rewrite Hf, I2. reflexivity.
Qed.
Lemma petsc_mismatch : forall shares sizes (x : list S) vals, length vals <> length sizes ->
  to_petsc shares sizes x vals = (x, Some EValue) /\ forall y n, n <> length sizes -> from_petsc (S := S) sizes y n = Err EValue.
Proof.
  intros shares sizes x vals H. apply Nat.eqb_neq in H. split; [unfold to_petsc; rewrite H; reflexivity|].
  intros y n Hn. apply Nat.eqb_neq in Hn. unfold from_petsc. rewrite Hn. reflexivity.
Qed.
Lemma to_petsc_copy : forall sizes (vals : list (pval S)) x, fst (to_petsc false sizes x vals) = x.
Proof.
  intros sizes vals x. unfold to_petsc. destruct (negb _); [reflexivity|]. generalize (isets sizes). intros is. revert vals.
  induction is as [|i is IH]; intros vals; [reflexivity|]. destruct vals as [|[a|d|] vals]; cbn; auto.
Qed.
End Petsc.

(** * Dictionaries *)
Section Dicts.
Context {B : Type}.
Lemma get_put : forall k v (d : dict B) k', d_get k' (d_put k v d) = if String.eqb k k' then Some v else d_get k' d.
Proof.
  intros k v d k'. induction d as [|[k1 v1] d IH]; cbn; [reflexivity|].
  destruct (String.eqb_spec k1 k) as [->|Hn]; cbn.
  - destruct (String.eqb k k'); reflexivity.
  - rewrite IH. destruct (String.eqb_spec k1 k') as [->|]; [|reflexivity]. destruct (String.eqb_spec k k'); [congruence | reflexivity].
Qed.
Lemma put_keys : forall k v (d : dict B) k', In k' (map fst (d_put k v d)) <-> k' = k \/ In k' (map fst d).
Proof.
  intros k v d k'. induction d as [|[k1 v1] d IH]; cbn; [intuition congruence|]. destruct (String.eqb_spec k1 k) as [->|Hn]; cbn; [intuition congruence|].
  rewrite IH. intuition congruence.
Qed.
Lemma put_nodup : forall k v (d : dict B), NoDup (map fst d) -> NoDup (map fst (d_put k v d)).
Proof.
  intros k v d. induction d as [|[k1 v1] d IH]; intros H; cbn; [repeat constructor; auto|]. inversion H; subst.
  destruct (String.eqb_spec k1 k) as [->|Hn]; cbn; constructor; auto. rewrite put_keys. intuition congruence.
Qed.
Lemma put_in : forall k v (d : dict B) k' v', In (k', v') (d_put k v d) -> (k', v') = (k, v) \/ In (k', v') d.
Proof.
  intros k v d k' v'. induction d as [|[k1 v1] d IH]; cbn; [intuition congruence|]. destruct (String.eqb_spec k1 k) as [->|Hn]; cbn; intuition congruence.
Qed.
Lemma get_in : forall (d : dict B) k v, d_get k d = Some v -> In (k, v) d.
Proof.
  intros d k v. induction d as [|[k1 v1] d IH]; cbn; [discriminate|]. destruct (String.eqb_spec k1 k) as [->|Hn]; intros H; [injection H as ->; auto | auto].
Qed.
Lemma in_get : forall (d : dict B) k v, NoDup (map fst d) -> In (k, v) d -> d_get k d = Some v.
Proof.
  intros d k v. induction d as [|[k1 v1] d IH]; intros Hn Hi; [destruct Hi|]. cbn in Hn. inversion Hn as [|a l Hx Hn']; subst. cbn. destruct Hi as [E|Hi].
  - injection E as -> ->. rewrite String.eqb_refl. reflexivity.
  - destruct (String.eqb_spec k1 k) as [->|]; [|auto]. exfalso. apply Hx. change k with (fst (k, v)). apply in_map. exact Hi.
Qed.
Lemma get_none : forall (d : dict B) k, d_get k d = None <-> ~ In k (map fst d).
Proof.
  intros d k. induction d as [|[k1 v1] d IH]; cbn; [tauto|]. destruct (String.eqb_spec k1 k) as [->|Hn]; [split; [discriminate | tauto]|]. rewrite IH. tauto.
Qed.
Lemma get_rem : forall k (d : dict B) k', d_get k' (d_rem k d) = if String.eqb k k' then None else d_get k' d.
Proof.
  intros k d k'. unfold d_rem. induction d as [|[k1 v1] d IH]; cbn; [destruct (String.eqb k k'); reflexivity|].
  destruct (String.eqb_spec k1 k) as [->|Hn]; cbn.
  - rewrite IH. destruct (String.eqb k k'); reflexivity.
  - rewrite IH. destruct (String.eqb_spec k1 k') as [->|]; [|reflexivity]. destruct (String.eqb_spec k k'); [congruence | reflexivity].
Qed.
End Dicts.

Section Flatten.
Context {A : Type}.
Local Open Scope string_scope.
Lemma param_ind2 : forall P : param A -> Prop, (forall a, P (PLeaf a)) -> (forall d, (forall k p, In (k, p) d -> P p) -> P (PDict d)) -> forall p, P p.
Proof.
  intros P HL HD. fix IH 1. intros [a|d]; [apply HL|]. apply HD. induction d as [|[k' p'] d IHd]; intros k p Hin; [destruct Hin|].
  destruct Hin as [E|Hin]; [injection E as <- <-; apply IH | apply (IHd k p Hin)].
Qed.
Lemma flatten_leaves : forall (p : param A) pre ks x, In (ks, x) (flatten p pre) <-> exists path, leaf_at p path x /\ ks = (rev path ++ pre)%list.
Proof.
  intros p. induction p as [a|d IH] using param_ind2; intros pre ks x.
  - cbn. split; [intros [E|[]]; injection E as <- <-; exists []; split; [constructor | reflexivity]|].
    intros (path & H & ->). inversion H; subst. left. reflexivity.
  - destruct d as [|kv d0] eqn:Ed.
    + cbn. split; [intros [E|[]]; injection E as <- <-; exists []; split; [constructor | reflexivity]|].
      intros (path & H & ->). inversion H as [| |k p d1 path' x' Hin]; subst; [left; reflexivity | destruct Hin].
    + rewrite <- Ed in *.
      assert (E1 : flatten (PDict d) pre = flat_map (fun kv => flatten (snd kv) (fst kv :: pre)) d) by (rewrite Ed; reflexivity).
      rewrite E1. rewrite in_flat_map. split.
      * intros ([k p] & Hin & H). cbn in H. apply (IH k p Hin) in H. destruct H as (path & Hl & ->). exists (k :: path). split; [econstructor; eauto|].
        cbn. rewrite <- app_assoc. reflexivity.
      * intros (path & H & ->). inversion H as [| |k p d' path' x' Hin Hl]; subst; [discriminate|]. exists (k, p). split; [exact Hin|]. cbn [fst snd].
        apply (IH k p Hin). exists path'. split; [exact Hl|]. cbn. rewrite <- app_assoc. reflexivity.
Qed.
Lemma append_assoc : forall a b c : string, (a ++ b) ++ c = a ++ (b ++ c).
Proof. induction a as [|x a IH]; intros b c; cbn; [reflexivity | rewrite IH; reflexivity]. Qed.
Lemma ends_with_iff : forall sep s, ends_with sep s = true <-> exists p, s = p ++ sep.
Proof.
  intros sep s. induction s as [|c s IH].
  - cbn. rewrite orb_false_r. split; [destruct sep; intros H; [exists ""; reflexivity | discriminate]|].
    intros [p E]. destruct p; [cbn in E; subst; reflexivity | discriminate].
  - change (ends_with sep (String c s)) with (String.eqb (String c s) sep || ends_with sep s).
    destruct (String.eqb_spec (String c s) sep) as [<-|Hn]; [split; [exists ""; reflexivity | reflexivity]|]. rewrite orb_false_l, IH. split.
    + intros [p ->]. exists (String c p). reflexivity.
    + intros [p E]. destruct p as [|c' p]; cbn in E; [congruence|]. injection E as _ ->. exists p. reflexivity.
Qed.
Lemma joined_spec : forall sep path s, joined sep path s <-> join_keys sep (rev path) = Ok s.
Proof.
  intros sep path. assert (J : forall p, p <> [] -> forall k, join_keys sep (rev (k :: p)) = rmap (fun s => munge_key sep k ++ s) (join_keys sep (rev p))).
  { intros p Hp k. cbn [rev]. destruct (rev p) as [|k0 ks] eqn:E; [destruct p; [contradiction|]; cbn in E; destruct (rev p); discriminate|].
    cbn. rewrite rev_app_distr. cbn. reflexivity. }
  assert (M : forall k, (k = "" /\ munge_key sep k = "") \/ (k <> "" /\ (exists p, k = p ++ sep) /\ munge_key sep k = k)
              \/ (k <> "" /\ ~ (exists p, k = p ++ sep) /\ munge_key sep k = k ++ sep)).
  { intros k. unfold munge_key. destruct (String.eqb_spec k "") as [->|Hn]; [left; split; reflexivity|]. right. cbn.
    destruct (ends_with sep k) eqn:E.
    - left. split; [exact Hn|]. split; [apply ends_with_iff; exact E | reflexivity].
    - right. split; [exact Hn|]. split; [intros C; apply ends_with_iff in C; congruence | reflexivity]. }
  induction path as [|k path IH]; intros s.
  - split; [intros H; inversion H | discriminate].
  - destruct path as [|k' path'].
    + cbn. split.
      * intros H. inversion H as [|r s' H'|k1 r s' ? ? H'|k1 r s' ? ? H']; subst; try reflexivity; inversion H'.
      * intros E. injection E as <-. constructor.
    + rewrite J by discriminate. remember (k' :: path') as p eqn:Ep. split.
      * intros H. inversion H as [k1|r s' H'|k1 r s' H1 H2 H'|k1 r s' H1 H2 H']; subst; try discriminate; apply IH in H'; rewrite H'; cbn; f_equal.
        -- destruct (M k) as [[C E]|[(_ & _ & E)|(_ & N & _)]]; [contradiction | rewrite E; reflexivity | contradiction].
        -- destruct (M k) as [[C E]|[(_ & Y & _)|(_ & _ & E)]]; [contradiction | contradiction | rewrite E; apply append_assoc].
      * destruct (join_keys sep (rev p)) as [s'|e]; [|discriminate]. cbn. intros E. injection E as <-.
        assert (Hj : joined sep p s') by (apply IH; reflexivity).
        destruct (M k) as [[-> E]|[(H1 & H2 & E)|(H1 & H2 & E)]]; rewrite E.
        -- constructor. exact Hj.
        -- apply jo_sep; assumption.
        -- rewrite append_assoc. apply jo_add; assumption.
Qed.
Lemma flatten_loop_spec : forall sep (l : list (list string * param A)) new new', flatten_loop sep l new = Ok new' ->
  (NoDup (map fst new) -> NoDup (map fst new')) /\
  (forall s x, In (s, x) new' -> In (s, x) new \/ exists ks, In (ks, x) l /\ join_keys sep ks = Ok s) /\
  (forall s, (In s (map fst new) \/ exists ks x, In (ks, x) l /\ join_keys sep ks = Ok s) -> In s (map fst new')).
Proof.
  intros sep l. induction l as [|[ks v] l IH]; intros new new' H; cbn in H.
  - injection H as <-. split; [auto|]. split; [auto|]. intros s [Hs|(ks & x & [] & _)]. exact Hs.
  - destruct (join_keys sep ks) as [k|e] eqn:E; [|discriminate]. destruct (IH _ _ H) as (I1 & I2 & I3). split; [|split].
    + intros Hn. apply I1. apply put_nodup. exact Hn.
    + intros s x Hin. destruct (I2 s x Hin) as [Hp|(ks' & Hk & Ej)].
      * apply put_in in Hp. destruct Hp as [Eq|Hp]; [|auto]. injection Eq as -> ->. right. exists ks. split; [left; reflexivity | exact E].
      * right. exists ks'. split; [right; exact Hk | exact Ej].
    + intros s [Hs|(ks' & x & [Eq|Hk] & Ej)]; apply I3.
      * left. apply put_keys. auto.
      * injection Eq as <- <-. left. apply put_keys. left. congruence.
      * right. exists ks', x. auto.
Qed.
Lemma flatten_ok : forall sep (l : list (list string * param A)) new, (forall ks x, In (ks, x) l -> ks <> []) -> exists new', flatten_loop sep l new = Ok new'.
Proof.
  intros sep l. induction l as [|[ks v] l IH]; intros new H; [exists new; reflexivity|]. cbn.
  destruct ks as [|k ks]; [exfalso; apply (H [] v); [left; reflexivity | reflexivity]|]. cbn. apply IH. intros ks' x Hin. apply (H ks' x). right. exact Hin.
Qed.
Lemma flatten_spec : forall sep (d : list (string * param A)), exists new, flatten_parameters sep d = Ok new /\ NoDup (map fst new) /\
  (forall s x, In (s, x) new -> exists path, leaf_at (PDict d) path x /\ joined sep path s) /\
  (forall path x s, leaf_at (PDict d) path x -> joined sep path s ->
     exists path' x', leaf_at (PDict d) path' x' /\ joined sep path' s /\ d_get s new = Some x') /\
  (forall path x s, leaf_at (PDict d) path x -> joined sep path s ->
     (forall path' x', leaf_at (PDict d) path' x' -> joined sep path' s -> x' = x) -> d_get s new = Some x).
Proof.
  intros sep d. destruct d as [|kv d0] eqn:Ed.
  - exists []. assert (N : forall path (x : param A) s, leaf_at (PDict []) path x -> joined sep path s -> False).
    { intros path x s H Hj. inversion H as [| |k p d1 path' x' Hin]; subst; [inversion Hj | destruct Hin]. }
    split; [reflexivity|]. split; [constructor|]. split; [intros s x []|]. split; intros path x s H Hj; destruct (N path x s H Hj).
  - rewrite <- Ed. assert (E : flatten_parameters sep d = flatten_loop sep (flatten (PDict d) []) []) by (rewrite Ed; reflexivity).
    destruct (flatten_ok sep (flatten (PDict d) []) []) as [new En].
    { intros ks x Hin Hk. apply flatten_leaves in Hin. destruct Hin as (path & Hl & E'). rewrite app_nil_r in E'. subst ks. inversion Hl as [| |k p d' path' x' Hi]; subst; [discriminate|].
      cbn in Hk. destruct (rev path'); discriminate. }
    exists new. rewrite E. split; [exact En|]. destruct (flatten_loop_spec _ _ _ _ En) as (I1 & I2 & I3). split; [apply I1; constructor|].
    assert (P1 : forall s x, In (s, x) new -> exists path, leaf_at (PDict d) path x /\ joined sep path s).
    { intros s x Hin. destruct (I2 s x Hin) as [[]|(ks & Hk & Ej)]. apply flatten_leaves in Hk. destruct Hk as (path & Hl & ->). rewrite app_nil_r in Ej.
      exists path. split; [exact Hl | apply joined_spec; exact Ej]. }
    assert (P2 : forall path x s, leaf_at (PDict d) path x -> joined sep path s ->
       exists path' x', leaf_at (PDict d) path' x' /\ joined sep path' s /\ d_get s new = Some x').
    { intros path x s Hl Hj. assert (Hi : In s (map fst new)).
      { apply I3. right. exists (rev path), x. split; [apply flatten_leaves; exists path; rewrite app_nil_r; auto | apply joined_spec; exact Hj]. }
      destruct (d_get s new) as [x'|] eqn:Eg; [|apply get_none in Eg; contradiction]. apply get_in in Eg as Hin. destruct (P1 s x' Hin) as (path' & H1 & H2).
      exists path', x'. auto. }
    split; [exact P1|]. split; [exact P2|]. intros path x s Hl Hj Hu. destruct (P2 path x s Hl Hj) as (path' & x' & H1 & H2 & ->). f_equal. eapply Hu; eauto.
Qed.
End Flatten.

(** * The options database *)
Section Options.
Context {B : Type}.
Local Open Scope string_scope.
Lemma append_inj : forall p a b : string, p ++ a = p ++ b -> a = b.
Proof. induction p as [|c p IH]; intros a b H; [exact H|]. cbn in H. injection H as H. auto. Qed.
Lemma substring_0 : forall s n, String.length s <= n -> substring 0 n s = s.
Proof. induction s as [|c s IH]; intros n H; [destruct n; reflexivity|]. destruct n as [|n]; cbn in H; [lia|]. cbn. rewrite IH by lia. reflexivity. Qed.
Lemma starts_drop : forall p s, starts_with p s = true -> p ++ drop_prefix p s = s.
Proof.
  unfold starts_with, drop_prefix. induction p as [|c p IH]; intros s H; cbn.
  - rewrite Nat.sub_0_r. apply substring_0. lia.
  - destruct s as [|c' s]; [discriminate|]. cbn in H. destruct (ascii_dec c c') as [<-|]; [|discriminate]. cbn. rewrite IH by exact H. reflexivity.
Qed.
Lemma starts_append : forall p r, starts_with p (p ++ r) = true.
Proof. unfold starts_with. induction p as [|c p IH]; intros r; cbn; [destruct r; reflexivity|]. destruct (ascii_dec c c); [apply IH | congruence]. Qed.

Lemma insert_all_get : forall p (l db : dict B) K, NoDup (map fst l) ->
  d_get K (fst (insert_all (fun _ _ => None) p l db)) =
    match find (fun kv => String.eqb (p ++ fst kv) K) l with Some kv => Some (snd kv) | None => d_get K db end.
Proof.
  intros p l. induction l as [|[k v] l IH]; intros db K Hn; [reflexivity|]. cbn. inversion Hn as [|a r Hx Hn']; subst. rewrite IH by exact Hn'. rewrite get_put.
  destruct (String.eqb_spec (p ++ k) K) as [<-|]; [|reflexivity].
  destruct (find (fun kv => String.eqb (p ++ fst kv) (p ++ k)) l) as [[k1 v1]|] eqn:Ef; [|reflexivity].
  apply find_some in Ef. destruct Ef as [Hi Ek]. apply String.eqb_eq in Ek. cbn in Ek. apply append_inj in Ek. subst k1. exfalso. apply Hx. change k with (fst (k, v1)). apply in_map. exact Hi.
Qed.
Lemma insert_all_ok : forall p (l db : dict B), snd (insert_all (fun _ _ => None) p l db) = None.
Proof. intros p l. induction l as [|[k v] l IH]; intros db; [reflexivity|]. cbn. apply IH. Qed.
Lemma set_default_spec : forall (m : manager B) (db : dict B) k v, NoDup (map fst (mg_params m)) -> incl (mg_delete m) (map fst (mg_params m)) ->
  let m' := set_default m db k v in
  mg_prefix m' = mg_prefix m /\ NoDup (map fst (mg_params m')) /\ incl (mg_delete m') (map fst (mg_params m')) /\
  (forall j, d_get j (mg_params m') = if (j =? k)%string then match d_get k (mg_params m), d_get (mg_prefix m ++ k) db with None, None => Some v | o, _ => o end else d_get j (mg_params m)) /\
  (forall j, In j (mg_delete m') <-> In j (mg_delete m) \/ j = k /\ d_get k (mg_params m) = None /\ d_get (mg_prefix m ++ k) db = None).
Proof.
  intros m db k v HN HI. cbv zeta. unfold set_default.
  destruct (d_get (mg_prefix m ++ k) db) as [w|] eqn:E1; [|destruct (d_get k (mg_params m)) as [w|] eqn:E2].
  - split; [reflexivity|]. split; [exact HN|]. split; [exact HI|]. split.
    + intros j. destruct (String.eqb_spec j k) as [->|]; [destruct (d_get k (mg_params m)); reflexivity | reflexivity].
    + intros j. split; [auto|]. intros [K|(_ & _ & K)]; [exact K | discriminate].
  - split; [reflexivity|]. split; [exact HN|]. split; [exact HI|]. split.
    + intros j. destruct (String.eqb_spec j k) as [->|]; [exact E2 | reflexivity].
    + intros j. split; [auto|]. intros [K|(_ & K & _)]; [exact K | discriminate].
  - cbn [mg_prefix mg_params mg_delete]. assert (NI : ~ In k (mg_delete m)) by (intros K; apply get_none in E2; apply E2, HI, K).
    assert (EX : existsb (String.eqb k) (mg_delete m) = false).
    { destruct (existsb (String.eqb k) (mg_delete m)) eqn:E; [|reflexivity]. apply existsb_exists in E. destruct E as (q & Hq & Eq). apply String.eqb_eq in Eq. subst q. contradiction. }
    rewrite EX. split; [reflexivity|]. split; [apply put_nodup; exact HN|]. split; [|split].
    + intros j Hj. apply put_keys. apply in_app_or in Hj. destruct Hj as [Hj|[<-|[]]]; [right; apply HI; exact Hj | left; reflexivity].
    + intros j. rewrite get_put. rewrite (String.eqb_sym k j). destruct (String.eqb j k); reflexivity.
    + intros j. rewrite in_app_iff. cbn. split; [intros [K|[<-|[]]]; auto | intros [K|(-> & _)]; auto].
Qed.
Lemma insert_find : forall p (l : dict B) k v, NoDup (map fst l) -> d_get k l = Some v -> find (fun kv => String.eqb (p ++ fst kv) (p ++ k)) l = Some (k, v).
Proof.
  intros p l k v Hn Hg. induction l as [|[k1 v1] l IH]; [discriminate|]. cbn in *. inversion Hn as [|a r Hx Hn']; subst.
  destruct (String.eqb_spec k1 k) as [->|Hne].
  - injection Hg as ->. rewrite String.eqb_refl. reflexivity.
  - destruct (String.eqb_spec (p ++ k1) (p ++ k)) as [E|]; [apply append_inj in E; contradiction | auto].
Qed.
Lemma delete_all_get : forall p ks (db : dict B) K, d_get K (delete_all p ks db) = if existsb (fun k => String.eqb (p ++ k) K) ks then None else d_get K db.
Proof.
  intros p ks. unfold delete_all. induction ks as [|k ks IH]; intros db K; [reflexivity|]. cbn. rewrite IH, get_rem.
  destruct (String.eqb (p ++ k) K); cbn; destruct (existsb _ ks); reflexivity.
Qed.

(** the block sees its options; afterwards only the manager's own are removed *)
Lemma with_options_spec : forall (m : manager B) body db, NoDup (map fst (mg_params m)) ->
  exists db1, 
    (forall k v, d_get k (mg_params m) = Some v -> d_get (mg_prefix m ++ k) db1 = Some v) /\
    (forall K, (forall k, In k (map fst (mg_params m)) -> K <> mg_prefix m ++ k) -> d_get K db1 = d_get K db) /\
    snd (with_options (fun _ _ => None) m body db) = snd (body db1) /\
    (forall k, In k (mg_delete m) -> d_get (mg_prefix m ++ k) (fst (with_options (fun _ _ => None) m body db)) = None) /\
    (forall K, (forall k, In k (mg_delete m) -> K <> mg_prefix m ++ k) ->
       d_get K (fst (with_options (fun _ _ => None) m body db)) = d_get K (fst (body db1))).
Proof.
  intros m body db Hn. exists (fst (insert_all (fun _ _ => None) (mg_prefix m) (mg_params m) db)).
  pose proof (insert_all_ok (mg_prefix m) (mg_params m) db) as Eo.
  assert (G : forall K, d_get K (fst (insert_all (fun _ _ => None) (mg_prefix m) (mg_params m) db)) = _) by (intros K; apply insert_all_get; exact Hn).
  split; [|split].
  - intros k v Hk. rewrite G, (insert_find _ _ k v) by auto. reflexivity.
  - intros K HK. rewrite G. destruct (find _ (mg_params m)) as [[k v]|] eqn:Ef; [|reflexivity]. apply find_some in Ef. destruct Ef as [Hi E]. apply String.eqb_eq in E. cbn in E.
    exfalso. apply (HK k); [change k with (fst (k, v)); apply in_map; exact Hi | congruence].
  - unfold with_options. destruct (insert_all _ (mg_prefix m) (mg_params m) db) as [db1 r]. cbn in Eo. subst r. cbn [fst]. destruct (body db1) as [db2 e]. cbn [fst snd].
    split; [reflexivity|]. split; intros K HK; rewrite delete_all_get.
    + assert (Ex : existsb (fun k => String.eqb (mg_prefix m ++ k) (mg_prefix m ++ K)) (mg_delete m) = true) by (apply existsb_exists; exists K; split; [exact HK | apply String.eqb_refl]).
      rewrite Ex. reflexivity.
    + destruct (existsb _ (mg_delete m)) eqn:Ex; [|reflexivity]. apply existsb_exists in Ex. destruct Ex as (k & Hi & E). apply String.eqb_eq in E. exfalso. apply (HK k Hi). congruence.
Qed.

(** a value PETSc refuses: the options inserted before it are removed, nothing else changes *)
Lemma insert_all_other : forall rfs p (l db : dict B) K, (forall k, In k (map fst l) -> K <> p ++ k) -> d_get K (fst (insert_all rfs p l db)) = d_get K db.
Proof.
  intros rfs p l. induction l as [|[k v] l IH]; intros db K HK; [reflexivity|]. cbn. destruct (rfs (p ++ k) v); [reflexivity|]. rewrite IH by (intros k' Hk'; apply HK; right; exact Hk').
  rewrite get_put. destruct (String.eqb_spec (p ++ k) K) as [E|]; [exfalso; apply (HK k); [left; reflexivity | congruence] | reflexivity].
Qed.
Lemma with_options_refused : forall rfs (m : manager B) body db db1 e, insert_all rfs (mg_prefix m) (mg_params m) db = (db1, Some e) ->
  snd (with_options rfs m body db) = Some e /\
  (forall k, In k (mg_delete m) -> d_get (mg_prefix m ++ k) (fst (with_options rfs m body db)) = None) /\
  (forall K, (forall k, In k (map fst (mg_params m)) \/ In k (mg_delete m) -> K <> mg_prefix m ++ k) -> d_get K (fst (with_options rfs m body db)) = d_get K db).
Proof.
  intros rfs m body db db1 e E. pose proof (insert_all_other rfs (mg_prefix m) (mg_params m) db) as O. unfold with_options. rewrite E in O |- *. cbn [fst snd] in *. split; [reflexivity|]. split.
  - intros k Hk. rewrite delete_all_get.
    assert (Ex : existsb (fun k0 => String.eqb (mg_prefix m ++ k0) (mg_prefix m ++ k)) (mg_delete m) = true) by (apply existsb_exists; exists k; split; [exact Hk | apply String.eqb_refl]).
    rewrite Ex. reflexivity.
  - intros K HK. rewrite delete_all_get. destruct (existsb _ (mg_delete m)) eqn:Ex.
    + apply existsb_exists in Ex. destruct Ex as (k & Hi & Ek). apply String.eqb_eq in Ek. exfalso. apply (HK k); auto.
    + apply O. intros k Hk. apply HK. auto.
Qed.

(** the manager built for a prefix *)
Lemma fold_db : forall p (db acc : dict B), NoDup (map fst db) -> NoDup (map fst acc) ->
  let r := fold_left (fun d kv => if starts_with p (fst kv) then d_put (drop_prefix p (fst kv)) (snd kv) d else d) db acc in
  NoDup (map fst r) /\ forall k, d_get k r = match d_get (p ++ k) db with Some v => Some v | None => d_get k acc end.
Proof.
  intros p db. induction db as [|[K v] db IH]; intros acc Hn Ha; [cbn; auto|]. cbn [fold_left fst snd d_get]. inversion Hn as [|a l Hx Hn']; subst.
  destruct (starts_with p K) eqn:Es.
  - destruct (IH (d_put (drop_prefix p K) v acc) Hn' (put_nodup _ _ _ Ha)) as [I1 I2]. split; [exact I1|]. intros k. rewrite I2, get_put.
    apply starts_drop in Es. destruct (String.eqb_spec K (p ++ k)) as [->|HK].
    + apply append_inj in Es. rewrite Es, String.eqb_refl. assert (E : d_get (p ++ k) db = None) by (apply get_none; exact Hx). rewrite E. reflexivity.
    + destruct (String.eqb_spec (drop_prefix p K) k) as [E|]; [subst k; congruence | reflexivity].
  - destruct (IH acc Hn' Ha) as [I1 I2]. split; [exact I1|]. intros k. rewrite I2. destruct (String.eqb_spec K (p ++ k)) as [->|HK]; [rewrite starts_append in Es; discriminate | reflexivity].
Qed.
Lemma filter_nodup : forall (f : string * B -> bool) (l : dict B), NoDup (map fst l) -> NoDup (map fst (filter f l)).
Proof.
  intros f l. induction l as [|[k v] l IH]; intros H; [constructor|]. inversion H as [|a r Hx Hn]; subst. cbn. destruct (f (k, v)); [|auto]. cbn. constructor; [|auto].
  intros C. apply Hx. apply in_map_iff in C. destruct C as ([k1 v1] & E & Hi). apply filter_In in Hi. cbn in E. subst k1. change k with (fst (k, v1)). apply in_map. tauto.
Qed.
Lemma manager_spec : forall count cmd (db params : dict B) p0, NoDup (map fst db) -> NoDup (map fst params) ->
  let p := full_prefix p0 in let m := manager_new count cmd db params (Some p0) in
  mg_prefix m = p /\ NoDup (map fst (mg_params m)) /\
  (forall k, In k (mg_delete m) <-> In k (map fst params) /\ ~ In (p ++ k) cmd) /\
  (forall k, d_get k (mg_params m) = match d_get (p ++ k) db with Some v => Some v | None => if existsb (String.eqb (p ++ k)) cmd then None else d_get k params end).
Proof.
  intros count cmd db params p0 Hd Hp p m. unfold m, manager_new. fold (full_prefix p0). fold p. set (kept := filter _ params). cbn [mg_prefix mg_params mg_delete].
  destruct (fold_db p db kept Hd (filter_nodup _ _ Hp)) as [F1 F2]. split; [reflexivity|]. split; [exact F1|]. split.
  - intros k. unfold kept. rewrite in_map_iff. split.
    + intros ([k1 v1] & E & Hi). cbn in E. subst k1. apply filter_In in Hi. destruct Hi as [Hi Hc]. split; [change k with (fst (k, v1)); apply in_map; exact Hi|].
      cbn in Hc. apply negb_true_iff in Hc. intros C. assert (X : existsb (String.eqb (p ++ k)) cmd = true) by (apply existsb_exists; exists (p ++ k); split; [exact C | apply String.eqb_refl]). congruence.
    + intros [Hi Hc]. apply in_map_iff in Hi. destruct Hi as ([k1 v1] & E & Hi). cbn in E. subst k1. exists (k, v1). split; [reflexivity|]. apply filter_In. split; [exact Hi|].
      cbn. apply negb_true_iff. destruct (existsb (String.eqb (p ++ k)) cmd) eqn:X; [|reflexivity]. apply existsb_exists in X. destruct X as (q & Hq & E). apply String.eqb_eq in E. subst q. contradiction.
  - intros k. rewrite F2. destruct (d_get (p ++ k) db); [reflexivity|]. unfold kept. clear. induction params as [|[k1 v1] l IH]; cbn; [destruct (existsb _ cmd); reflexivity|].
    destruct (existsb (String.eqb (p ++ k1)) cmd) eqn:X; cbn.
    + rewrite IH. destruct (String.eqb_spec k1 k) as [->|]; [rewrite X; reflexivity | reflexivity].
    + destruct (String.eqb_spec k1 k) as [->|]; [rewrite X; reflexivity | exact IH].
Qed.
(** with a prefix under which the user has set nothing but command-line options, the database is as before *)
Lemma options_restored : forall count cmd (db params : dict B) p0 e, NoDup (map fst db) -> NoDup (map fst params) ->
  (forall k, In k (map fst params) -> d_get (full_prefix p0 ++ k) db <> None -> In (full_prefix p0 ++ k) cmd) ->
  let m := manager_new count cmd db params (Some p0) in
  forall body, (forall d, body d = (d, e)) ->
  snd (with_options (fun _ _ => None) m body db) = e /\
  forall K, d_get K (fst (with_options (fun _ _ => None) m body db)) = d_get K db.
Proof.
  intros count cmd db params p0 e Hd Hp Hc m body Hb.
  destruct (manager_spec count cmd db params p0 Hd Hp) as (M1 & M2 & M3 & M4). fold m in M1, M2, M3, M4. set (p := full_prefix p0) in *.
  destruct (with_options_spec m body db M2) as (db1 & W1 & W2 & W3 & W4 & W5). rewrite M1 in *. split; [rewrite W3, Hb; reflexivity|].
  intros K. destruct (existsb (fun k => String.eqb (p ++ k) K) (mg_delete m)) eqn:Ed.
  - apply existsb_exists in Ed. destruct Ed as (k & Hk & E). apply String.eqb_eq in E. subst K. rewrite W4 by exact Hk. symmetry. apply M3 in Hk. destruct Hk as [Hk Hn].
    destruct (d_get (p ++ k) db) eqn:Eg; [|reflexivity]. exfalso. apply Hn. apply Hc; [exact Hk | congruence].
  - assert (ND : forall k, In k (mg_delete m) -> K <> p ++ k).
    { intros k Hk E. assert (X : existsb (fun k => String.eqb (p ++ k) K) (mg_delete m) = true) by (apply existsb_exists; exists k; split; [exact Hk | subst; apply String.eqb_refl]). congruence. }
    rewrite W5 by exact ND. rewrite Hb. cbn [fst]. destruct (existsb (fun k => String.eqb (p ++ k) K) (map fst (mg_params m))) eqn:Ek.
    + apply existsb_exists in Ek. destruct Ek as (k & Hk & E). apply String.eqb_eq in E. subst K.
      destruct (d_get k (mg_params m)) as [v|] eqn:Eg; [|apply get_none in Eg; contradiction]. rewrite (W1 k v Eg). rewrite M4 in Eg.
      destruct (d_get (p ++ k) db); [congruence|]. exfalso. destruct (existsb (String.eqb (p ++ k)) cmd) eqn:X; [discriminate|].
      apply (ND k); [|reflexivity]. apply M3. split; [apply get_in in Eg; change k with (fst (k, v)); apply in_map; exact Eg|].
      intros C. assert (X' : existsb (String.eqb (p ++ k)) cmd = true) by (apply existsb_exists; exists (p ++ k); split; [exact C | apply String.eqb_refl]). congruence.
    + apply W2. intros k Hk E. assert (X : existsb (fun k => String.eqb (p ++ k) K) (map fst (mg_params m)) = true) by (apply existsb_exists; exists k; split; [exact Hk | subst; apply String.eqb_refl]). congruence.
Qed.
End Options.
