(** Facts about ROL vectors and the run of ROLSolver. *)
From Coq Require Import List Arith Bool Lia Reals.
From Verif Require Import Base Model BaseFacts Graph Record Spec RecordFacts Replay ReplayExec History Session Sweep SpecGraph Marks Iso Surgery TapeMore Coll
  Solvers SpecSolvers SolverFacts FreshAdj Dual TlmSweep RealInst Calculus Gradient RFullFacts SpecMinimise MinimiseFacts Rol SpecRol.
Import ListNotations.
Local Open Scope nat_scope.

(** ** Lists *)
Lemma put_set : forall {A} (l : list A) i x, i < length l -> put l i x = list_set l i x.
Proof.
  intros A l. unfold put. induction l as [|y r IH]; intros [|i] x Hi; cbn in *; try lia; [reflexivity|].
  f_equal. apply IH. lia.
Qed.
Lemma ext_nth : forall {A} (l l' : list A), (forall i, nth_error l i = nth_error l' i) -> l = l'.
Proof.
  intros A l. induction l as [|x r IH]; intros [|y r'] H; [reflexivity | specialize (H 0); discriminate | specialize (H 0); discriminate |].
  pose proof (H 0) as E. cbn in E. injection E as ->. f_equal. apply IH. intros i. exact (H (S i)).
Qed.
Lemma in_concat_nth : forall {A} (l : list (list A)) i v x, nth_error l i = Some v -> In x v -> In x (concat l).
Proof. intros A l i v x H Hx. apply in_concat. exists v. split; [exact (nth_error_In _ _ H) | exact Hx]. Qed.
Lemma nodup_app : forall {A} (l m : list A), NoDup (l ++ m) <-> NoDup l /\ NoDup m /\ (forall x, In x l -> ~ In x m).
Proof.
  intros A l m. induction l as [|x l IH]; cbn.
  - split; [intros H; repeat split; auto; constructor | tauto].
  - split.
    + intros H. inversion H; subst. rewrite in_app_iff in H2. apply IH in H3. destruct H3 as (A1 & A2 & A3). repeat split; auto.
      * constructor; tauto.
      * intros y [->|Hy]; [tauto | auto].
    + intros (A1 & A2 & A3). inversion A1; subst. constructor; [rewrite in_app_iff; intros [K|K]; [tauto | exact (A3 x (or_introl eq_refl) K)]|].
      apply IH. repeat split; auto.
Qed.
Lemma nodup_nth : forall {A} (l : list (list A)) i v, NoDup (concat l) -> nth_error l i = Some v -> NoDup v.
Proof.
  intros A l. induction l as [|w l IH]; intros [|i] v N H; cbn in *; try discriminate; apply nodup_app in N; destruct N as (N1 & N2 & _).
  - now injection H as <-.
  - eauto.
Qed.
Lemma nodup_apart : forall {A} (l : list (list A)) i j v w x, NoDup (concat l) -> nth_error l i = Some v -> nth_error l j = Some w -> i <> j ->
  In x v -> ~ In x w.
Proof.
  intros A l. induction l as [|u l IH]; intros [|i] [|j] v w x N Hi Hj Hn Hx; cbn in *; try discriminate; try congruence;
    apply nodup_app in N; destruct N as (N1 & N2 & N3).
  - injection Hi as <-. intros K. apply (N3 x Hx). eapply in_concat_nth; eauto.
  - injection Hj as <-. intros K. apply (N3 x K). eapply in_concat_nth; eauto.
  - eauto.
Qed.
Lemma in_concat_set : forall {A} (l : list (list A)) i w x, In x (concat (list_set l i w)) -> In x (concat l) \/ In x w.
Proof.
  intros A l. induction l as [|u l IH]; intros [|i] w x H; cbn in *; auto; apply in_app_iff in H; rewrite in_app_iff.
  - tauto.
  - destruct H as [H|H]; [tauto|]. destruct (IH i w x H); tauto.
Qed.
Lemma nodup_set : forall {A} (l : list (list A)) i w, NoDup (concat l) -> NoDup w -> (forall x, In x w -> ~ In x (concat l)) -> NoDup (concat (list_set l i w)).
Proof.
  intros A l. induction l as [|u l IH]; intros [|i] w N Nw H; cbn in *; auto; apply nodup_app in N; destruct N as (N1 & N2 & N3); apply nodup_app.
  - repeat split; auto. intros x Hx K. apply (H x Hx). apply in_app_iff. tauto.
  - repeat split; auto.
    + apply IH; auto. intros x Hx K. apply (H x Hx). apply in_app_iff. tauto.
    + intros x Hx K. destruct (in_concat_set l i w x K) as [K'|K']; [exact (N3 x Hx K')|]. apply (H x K'). apply in_app_iff. tauto.
Qed.

(** ** Objects written in place *)
Section Objects.
Context {V : Type} (F : fops V).
Notation get := (Rol.get F).
Notation values := (Rol.values F).
Lemma get_set : forall m o x p, get (list_set m o x) p = if Nat.eqb o p then (if o <? length m then x else get m p) else get m p.
Proof.
  intros m. unfold Rol.get. induction m as [|y m IH]; intros [|o] x [|p]; cbn; try reflexivity.
  - destruct (Nat.eqb o p); reflexivity.
  - rewrite IH. reflexivity.
Qed.
Lemma get_app : forall m m' o, o < length m -> get (m ++ m') o = get m o.
Proof. intros. unfold Rol.get. now apply app_nth1. Qed.
Lemma each_spec : forall f v m, NoDup v -> (forall o, In o v -> o < length m) ->
  length (each F f m v) = length m /\ forall o, get (each F f m v) o = if mem o v then f (get m o) else get m o.
Proof.
  intros f v. unfold each. induction v as [|p v IH]; intros m N H; cbn [fold_left]; [split; reflexivity|].
  inversion N as [|? ? N1 N2]; subst. destruct (IH (list_set m p (f (get m p)))) as [L G]; [exact N2 | intros; rewrite length_list_set; apply H; now right |].
  rewrite length_list_set in L. split; [exact L|]. intros o. rewrite G, get_set. cbn [mem existsb].
  assert (Lp : (p <? length m) = true) by (apply Nat.ltb_lt, H; now left). rewrite Lp.
  change (existsb (Nat.eqb o) v) with (mem o v). destruct (Nat.eqb_spec p o) as [->|Np].
  - rewrite Nat.eqb_refl. cbn. apply mem_false in N1. now rewrite N1.
  - destruct (Nat.eqb_spec o p); [congruence|]. reflexivity.
Qed.
Lemma each2_spec : forall f v w m, NoDup v -> length v = length w -> (forall o, In o v -> o < length m) ->
  (forall i j o, nth_error v i = Some o -> nth_error w j = Some o -> i = j) ->
  length (each2 F f m v w) = length m /\ (forall o, ~ In o v -> get (each2 F f m v w) o = get m o) /\
  (forall i o p, nth_error v i = Some o -> nth_error w i = Some p -> get (each2 F f m v w) o = f (get m o) (get m p)).
Proof.
  intros f v. unfold each2. induction v as [|q v IH]; intros [|s w] m N L H A; cbn in L; try discriminate; cbn [combine fold_left fst snd].
  - split; [reflexivity|]. split; [reflexivity|]. intros [|i] o p E; discriminate E.
  - inversion N as [|? ? N1 N2]; subst. set (m1 := list_set m q (f (get m q) (get m s))).
    destruct (IH w m1) as (L1 & G1 & G2); [exact N2 | congruence | intros; unfold m1; rewrite length_list_set; apply H; now right | |].
    { intros i j o Hi Hj. specialize (A (S i) (S j) o Hi Hj). congruence. }
    assert (Lq : (q <? length m) = true) by (apply Nat.ltb_lt, H; now left).
    split; [unfold m1 in L1; rewrite length_list_set in L1; exact L1|]. split.
    + intros o Ho. rewrite G1 by (intros K; apply Ho; now right). unfold m1. rewrite get_set. destruct (Nat.eqb_spec q o); [|reflexivity]. subst. exfalso. apply Ho. now left.
    + intros [|i] o p Ho Hp; cbn in Ho, Hp.
      * injection Ho as <-. injection Hp as <-. rewrite G1 by exact N1. unfold m1. rewrite get_set, Nat.eqb_refl, Lq. reflexivity.
      * rewrite (G2 i o p Ho Hp). unfold m1. rewrite !get_set.
        destruct (Nat.eqb_spec q o) as [->|]; [exfalso; apply N1; exact (nth_error_In _ _ Ho)|].
        destruct (Nat.eqb_spec q p) as [->|]; [|reflexivity]. specialize (A 0 (S i) p eq_refl Hp). discriminate A.
Qed.
Lemma values_ext : forall m m' v, (forall o, In o v -> get m o = get m' o) -> values m v = values m' v.
Proof. intros m m' v H. unfold Rol.values. apply map_ext_in. exact H. Qed.
Lemma values_each : forall f v m, NoDup v -> (forall o, In o v -> o < length m) -> values (each F f m v) v = map f (values m v).
Proof.
  intros f v m N H. destruct (each_spec f v m N H) as [_ G]. unfold Rol.values. rewrite map_map. apply map_ext_in. intros o Ho. rewrite G.
  apply mem_In in Ho. now rewrite Ho.
Qed.
Lemma zip_nth : forall (A B D : Type) (f : A -> B -> D) x y i, nth_error (zip f x y) i = match nth_error x i, nth_error y i with Some a, Some b => Some (f a b) | _, _ => None end.
Proof.
  intros A B D f. unfold zip. induction x as [|a x IH]; intros [|b y] [|i]; cbn; try reflexivity.
  - destruct (nth_error x i); reflexivity.
  - apply IH.
Qed.
Lemma values_each2 : forall f v w m, NoDup v -> length v = length w -> (forall o, In o v -> o < length m) ->
  (forall i j o, nth_error v i = Some o -> nth_error w j = Some o -> i = j) -> values (each2 F f m v w) v = zip f (values m v) (values m w).
Proof.
  intros f v w m N L H A. destruct (each2_spec f v w m N L H A) as (_ & _ & G). apply ext_nth. intros i. rewrite zip_nth. unfold Rol.values. rewrite !nth_error_map.
  destruct (nth_error v i) as [o|] eqn:Ev; [|reflexivity]. destruct (nth_error w i) as [p|] eqn:Ew; cbn; [now rewrite (G i o p Ev Ew)|].
  exfalso. apply nth_error_None in Ew. apply nth_error_some_lt in Ev. lia.
Qed.
Lemma values_fresh : forall m d, values (m ++ d) (seq (length m) (length d)) = d.
Proof.
  intros m d. unfold Rol.values. apply ext_nth. intros i. rewrite nth_error_map.
  destruct (nth_error d i) as [x|] eqn:E.
  - pose proof (nth_error_some_lt _ _ _ E) as Hi. rewrite (nth_error_nth' _ 0) by (rewrite seq_length; exact Hi). cbn. f_equal. rewrite seq_nth by exact Hi.
    unfold Rol.get. rewrite app_nth2_plus. now apply nth_error_nth.
  - apply nth_error_None in E. assert (K : nth_error (seq (length m) (length d)) i = None) by (apply nth_error_None; now rewrite seq_length). now rewrite K.
Qed.

(** Vectors that share no object. *)
Definition apart (m : list V) (vecs : list (list nat)) : Prop := NoDup (concat vecs) /\ forall o, In o (concat vecs) -> o < length m.
Lemma apart_write : forall m m' vecs, apart m vecs -> length m' = length m -> apart m' vecs.
Proof. intros m m' vecs [A B] L. split; [exact A|]. rewrite L. exact B. Qed.
(** a write into vector [i] changes no other *)
Lemma write_linked : forall m m' vecs i v x, apart m vecs -> nth_error vecs i = Some v -> (forall o, ~ In o v -> get m' o = get m o) -> values m' v = x ->
  map (values m') vecs = put (map (values m) vecs) i x.
Proof.
  intros m m' vecs i v x [N _] Hi G E. rewrite put_set by (rewrite map_length; exact (nth_error_some_lt _ _ _ Hi)).
  apply ext_nth. intros k. rewrite nth_list_set, !nth_error_map, Hi. cbn. destruct (Nat.eqb_spec i k) as [<-|Hk].
  - rewrite Hi. cbn. now rewrite E.
  - destruct (nth_error vecs k) as [w|] eqn:Ek; [|reflexivity]. cbn. f_equal. apply values_ext. intros o Ho. apply G.
    exact (nodup_apart vecs k i w v o N Ek Hi (not_eq_sym Hk) Ho).
Qed.
Lemma old_linked : forall m d vecs, apart m vecs -> map (values (m ++ d)) vecs = map (values m) vecs.
Proof.
  intros m d vecs [_ B]. apply map_ext_in. intros v Hv. apply values_ext. intros o Ho. apply get_app, B. apply in_concat. eauto.
Qed.
Lemma fresh_apart : forall m d vecs, apart m vecs -> apart (m ++ d) (vecs ++ [seq (length m) (length d)]).
Proof.
  intros m d vecs [N B]. unfold apart. rewrite concat_app. cbn [concat]. rewrite app_nil_r. split.
  - apply nodup_app. repeat split; [exact N | apply seq_NoDup |]. intros o Ho K. apply in_seq in K. specialize (B o Ho). lia.
  - intros o Ho. rewrite app_length. apply in_app_iff in Ho. destruct Ho as [Ho|Ho]; [specialize (B o Ho); lia|]. apply in_seq in Ho. lia.
Qed.
Lemma rebound_apart : forall m d vecs g, apart m vecs -> apart (m ++ d) (list_set vecs g (seq (length m) (length d))).
Proof.
  intros m d vecs g [N B]. split.
  - apply nodup_set; [exact N | apply seq_NoDup |]. intros o Ho K. apply in_seq in Ho. specialize (B o K). lia.
  - intros o Ho. rewrite app_length. destruct (in_concat_set vecs g _ o Ho) as [K|K]; [specialize (B o K); lia|]. apply in_seq in K. lia.
Qed.
Lemma rebound_linked : forall m d vecs g, apart m vecs -> g < length vecs ->
  map (values (m ++ d)) (list_set vecs g (seq (length m) (length d))) = put (map (values m) vecs) g d.
Proof.
  intros m d vecs g A Hg. rewrite put_set by now rewrite map_length. rewrite <- (old_linked m d vecs A). apply ext_nth. intros k.
  rewrite nth_error_map, !nth_list_set, !nth_error_map. destruct (Nat.eqb_spec g k) as [<-|Hk]; [|reflexivity].
  destruct (nth_error vecs g) as [v|] eqn:E; [cbn; now rewrite values_fresh|]. apply nth_error_None in E. lia.
Qed.
End Objects.

(** ** Adjoint values that later evaluations leave alone *)
Section Derived.
Context {V : Type} (F : fops V).
Variables (t : tape V) (rf : rfun V) (h0 : heap V).
Notation bs := (t_flat t).
Hypothesis Ht : topo bs.
Hypothesis Hg : forall b, In b bs -> gives_value F b.
Hypothesis Hcl : closed (rf_ctrls rf) bs.
Hypothesis N0 : no_ctrl h0.
Hypothesis Ho : on_tape bs (rf_ctrls rf).
Hypothesis M0 : no_mark h0.
Hypothesis HJt : In (rf_J rf) (vars_of bs).
Hypothesis Hne : rf_ctrls rf <> [].
Notation hold := (holds F t rf h0).
Notation hx x := (fst (rf_call F bs rf x h0)).
Definition derived (h : heap V) (x : list V) : Prop :=
  forall v, In v (vars_of bs) -> bv_adj (h v) = bv_adj (fst (rf_derivative F bs rf (f_one F) (hx x)) v).

Lemma deriv_derived : forall h x, hold h x -> derived (fst (rf_derivative F bs rf (f_one F) h)) x.
Proof.
  intros h x (K & M & Es) v Hv. destruct (okheap_call F t rf h0 Ht Hg Hcl N0 h0 x (okheap_0 t rf h0 N0)) as (K' & _ & _ & M'). specialize (M' M0).
  rewrite !derivative_grad by exact Hne. set (a := f_mul F (f_one F) (rf_scale rf)).
  destruct (grad_spec F bs (rf_J rf) (rf_ctrls rf) a h (proj1 K)) as [_ [A _]]. destruct (grad_spec F bs (rf_J rf) (rf_ctrls rf) a (hx x) (proj1 K')) as [_ [A' _]].
  destruct (padj_agree F (fun v => bv_mark (h v) || mem v (find_relevant bs (rf_ctrls rf))) (fun v => bv_mark (hx x v) || mem v (find_relevant bs (rf_ctrls rf)))
     (saved h) (saved (hx x)) bs (start_adj bs (rf_J rf) a h) (start_adj bs (rf_J rf) a (hx x)) (fun v => In v (vars_of bs))) as [P1 P2].
  { intros u Hu. unfold vars_of. apply in_or_app. now right. }
  { intros u. now rewrite M, M'. }
  { exact Es. }
  { intros u Hu. unfold start_adj. destruct (Nat.eqb u (rf_J rf)); [reflexivity|]. apply mem_In in Hu. now rewrite Hu. }
  cbv zeta in A, A'. rewrite A, A'. now apply P2.
Qed.
Lemma hess_derived : forall h x d H, hold h x -> derived h x -> (exists g, der_at F t rf h0 x = Ok g) -> hes_at F t rf h0 x d = Ok H ->
  exists h', rf_hessian F bs rf d h = (h', Ok H) /\ hold h' x /\ derived h' x.
Proof.
  intros h x d H Hh D [g Hd] HH. pose proof Hh as (K & M & Es).
  assert (Hx : hold (hx x) x).
  { destruct (okheap_call F t rf h0 Ht Hg Hcl N0 h0 x (okheap_0 t rf h0 N0)) as (K' & _ & _ & M'). split; [exact K'|]. split; [exact (M' M0)|]. reflexivity. }
  destruct (holds_deriv F t rf h0 Ht Hg Hcl N0 Ho M0 (hx x) x g Hx Hd) as [_ Hx'].
  set (g' := fst (rf_derivative F bs rf (f_one F) (hx x))) in *. pose proof Hx' as (K' & M' & Es').
  assert (E : snd (rf_hessian F bs rf d h) = Ok H).
  { rewrite <- HH. unfold hes_at. fold g'.
    set (R := fun v v' : nat => v = v' /\ In v (vars_of bs)). set (Pd := fun _ : nat => True).
    assert (B : forall u u' v v', R u u' -> R v v' -> (u = v <-> u' = v')) by (unfold R; intros; intuition congruence).
    assert (Bl : brels (V := V) R Pd bs bs).
    { assert (G : forall l : list (block V), (forall b v, In b l -> In v (b_deps b) \/ In v (b_outs b) -> In v (vars_of bs)) -> brels (V := V) R Pd l l).
      { induction l as [|b l IH]; intros Hl; constructor.
        - split; [reflexivity| |].
          + assert (Q : forall v, In v (b_deps b) -> In v (vars_of bs)) by (intros v Hv; apply (Hl b v); [now left|now left]).
            revert Q. generalize (b_deps b). induction l0; constructor; [split; [split; [reflexivity|apply Q; now left]|exact I]|]. apply IHl0. intros v Hv. apply Q. now right.
          + assert (Q : forall v, In v (b_outs b) -> In v (vars_of bs)) by (intros v Hv; apply (Hl b v); [now left|now right]).
            revert Q. generalize (b_outs b). induction l0; constructor; [split; [reflexivity|apply Q; now left]|]. apply IHl0. intros v Hv. apply Q. now right.
        - apply IH. intros b' v Hb. apply Hl. now right. }
      apply G. intros b v Hb Hv. unfold vars_of, deps_of, outs_of. apply in_or_app. destruct Hv; [left|right]; apply in_flat_map; exists b; auto. }
    assert (HC : Forall2 R (rf_ctrls rf) (rf_ctrls rf)).
    { clear - Ho. revert Ho. unfold on_tape. generalize (rf_ctrls rf). induction l; constructor; [split; [reflexivity|apply Ho; now left]|]. apply IHl. intros c Hc. apply Ho. now right. }
    unfold rf_hessian. apply (hessian_reset_rel F R Pd B bs bs Bl (rf_J rf) (rf_J rf) (rf_ctrls rf) (rf_ctrls rf) d); [split; auto | exact HC |].
    intros v v' [<- Hv]. unfold reset_hess, reset_tlm. rewrite !reset_with_spec by reflexivity. pose proof Hv as Hm. apply mem_In in Hm. rewrite Hm.
    split; [|split; [|split; [|split; [|split]]]].
    - intros _. change (saved h v = saved g' v). rewrite Es, Es'. reflexivity.
    - cbn. apply D. exact Hv.
    - reflexivity.
    - reflexivity.
    - cbn. rewrite M, M'. reflexivity.
    - cbn. rewrite (proj1 K), (proj1 K'). reflexivity. }
  pose proof (api_core F bs h (AHess rf d) (proj1 K) eq_refl) as C. cbn [api_run] in C.
  assert (Nm2 : no_mark (fst (api_run F bs h (AHess rf d)))).
  { apply (api_clean F bs h (AHess rf d)); [apply K | exact M |]. left. unfold api_ok. cbn [api_run]. rewrite E. reflexivity. }
  cbn [api_run] in Nm2. pose proof (hess_adj F bs (rf_J rf) (rf_ctrls rf) d h) as HA. change (compute_hessian F bs (rf_J rf) (rf_ctrls rf) d h) with (rf_hessian F bs rf d h) in HA.
  destruct (rf_hessian F bs rf d h) as [h2 r2]. cbn in E, C, Nm2, HA. subst r2. exists h2. split; [reflexivity|]. split; [exact (holds_core F t rf h0 h h2 x Hh C Nm2)|].
  intros v Hv. rewrite HA. now apply D.
Qed.
Lemma restore_adj : forall p (h : heap V) v, bv_adj (restore_block_vars p h v) = bv_adj (h v).
Proof.
  intros p. unfold restore_block_vars. induction p as [|kv p IH]; intros h v; cbn [fold_left]; [reflexivity|]. rewrite IH. unfold upd.
  destruct (Nat.eqb v (fst kv)); reflexivity.
Qed.
Lemma call_adj : forall x h v, no_ctrl h -> bv_adj (fst (rf_call F bs rf x h) v) = bv_adj (h v).
Proof.
  intros x h v Nc. destruct (Nat.eq_dec (length x) (length (rf_ctrls rf))) as [Hl|Hl].
  - destruct (rf_call_spec F bs rf x h Nc Hl) as [_ [_ C]]. exact (f_equal (@bv_adj V) (C v)).
  - rewrite (rf_call_mismatch F bs rf x h Hl). reflexivity.
Qed.
Lemma update_adj : forall x f s v, no_ctrl (ro_h s) -> bv_adj (ro_h (fst (rol_update F t rf x f s)) v) = bv_adj (ro_h s v).
Proof.
  intros x f s v Nc. pose proof (call_adj x (ro_h s) v Nc) as E. unfold rol_update. destruct (rf_call F bs rf x (ro_h s)) as [h [y|e]]; cbn in E;
    destruct f; cbn; try exact E; try (destruct (ro_trial s); reflexivity); destruct (ro_tcache s); cbn; try apply restore_adj; try exact E.
  destruct (ro_trial s); exact E.
Qed.
(** the controls' stored objects written *)
Lemma through_spec : forall m h v, through F rf m h v = h v \/
  (In v (rf_ctrls rf) /\ exists x, through F rf m h v = set_ckpt (Some x) (bv_raw (h v)) (h v)).
Proof.
  intros m h v. unfold through.
  assert (G : forall l (h1 : heap V), (forall ic, In ic l -> In (snd ic) (rf_ctrls rf)) ->
    (h1 v = h v \/ (In v (rf_ctrls rf) /\ exists x, h1 v = set_ckpt (Some x) (bv_raw (h v)) (h v))) ->
    let h2 := fold_left (fun h' ic => upd h' (snd ic) (fun b => set_ckpt (Some (Rol.get F m (fst ic))) (bv_raw b) b)) l h1 in
    h2 v = h v \/ (In v (rf_ctrls rf) /\ exists x, h2 v = set_ckpt (Some x) (bv_raw (h v)) (h v))).
  { induction l as [|ic l IH]; intros h1 Hl H1; cbn [fold_left]; [exact H1|]. apply IH; [intros; apply Hl; now right|]. unfold upd.
    destruct (Nat.eqb_spec v (snd ic)) as [->|]; [|exact H1]. right. split; [apply Hl; now left|]. exists (Rol.get F m (fst ic)).
    destruct H1 as [E|[_ [x E]]]; rewrite E; reflexivity. }
  apply G; [|now left]. intros ic Hi. unfold enum in Hi.
  assert (K : forall l n, In ic (enum_from n l) -> In (snd ic) l).
  { induction l as [|c l IH]; intros n Hc; cbn in *; [tauto|]. destruct Hc as [<-|Hc]; [now left|]. right. eauto. }
  eapply K, Hi.
Qed.
End Derived.

(** ** The run *)
Section Run.
Context {V S : Type} (F : fops V).
Variables (t : tape V) (rf : rfun V) (h0 : heap V).
Notation bs := (t_flat t).
Hypothesis Ht : topo bs.
Hypothesis Hg : forall b, In b bs -> gives_value F b.
Hypothesis Hcl : closed (rf_ctrls rf) bs.
Hypothesis N0 : no_ctrl h0.
Hypothesis Ho : on_tape bs (rf_ctrls rf).
Hypothesis M0 : no_mark h0.
Hypothesis HJt : In (rf_J rf) (vars_of bs).
Hypothesis Hne : rf_ctrls rf <> [].
Variables (add : V -> V -> V) (mul : S -> V -> V) (dot : V -> V -> S) (dim : V -> nat)
  (unary : (S -> S) -> V -> V) (binary : (S -> S -> S) -> V -> V -> V) (reduce : (S -> S -> S) -> V -> S -> S) (asg : bool)
  (zero : S) (plus : S -> S -> S) (root : S -> S).
Notation T := (OT add mul true true (Some dot) (Some dim) (Some unary) (Some binary) (Some reduce) asg).
Notation C := (Sc zero plus root).
Notation VAL := (val_at F t rf h0).
Notation DER := (fun x d => der_at F t rf h0 x = Ok d).
Notation HES := (fun x v h => hes_at F t rf h0 x v = Ok h).
Notation does := (SpecRol.does add mul dot dim unary binary reduce zero plus root).
Notation plays := (SpecRol.plays add mul dot dim unary binary reduce zero plus root VAL DER HES).
Notation inv := (rol_inv F t rf h0).

Record sim (vs : list (list V)) (p : rstate (list V)) (g : option (list V)) (s : solver V) : Prop := Sim {
  si_apart : apart (so_objs s) (so_vecs s);
  si_vs : vs = map (values F (so_objs s)) (so_vecs s);
  si_rol : inv p (so_rol s);
  si_shared : so_shared s = true -> p = RStart;
  si_g : forall x, g = Some x -> derived F t rf h0 (ro_h (so_rol s)) x
}.

Lemma through_inv : forall p r m, inv p r -> p = RStart -> inv p (on_heap (through F rf m) r).
Proof.
  intros p r m H ->. cbn in *. destruct H as (E & (Nc & Eo & El) & Nm). split; [rewrite E; reflexivity|]. cbn. split; [split; [|split]|].
  - intros v. destruct (through_spec F rf m (ro_h r) v) as [K|[_ [x K]]]; rewrite K; apply Nc.
  - intros v. destruct (through_spec F rf m (ro_h r) v) as [K|[_ [x K]]]; rewrite K; apply Eo.
  - intros v H1 H2. unfold saved. destruct (through_spec F rf m (ro_h r) v) as [K|[Q _]]; [|contradiction]. rewrite K. now apply El.
  - intros v. destruct (through_spec F rf m (ro_h r) v) as [K|[_ [x K]]]; rewrite K; apply Nm.
Qed.
(** objects changed: the tape notices only before the first evaluation *)
Lemma sim_wrote : forall vs p g s m vs', sim vs p g s -> length m = length (so_objs s) -> vs' = map (values F m) (so_vecs s) -> sim vs' p g (wrote F rf s m).
Proof.
  intros vs p g s m vs' [A E R H G] L E'. unfold wrote. destruct (so_shared s) eqn:Es; split; cbn; auto.
  - eapply apart_write; eauto.
  - apply through_inv; auto.
  - intros x Hx v Hv. rewrite <- (G x Hx v Hv). destruct (through_spec F rf m (ro_h (so_rol s)) v) as [K|[_ [y K]]]; rewrite K; reflexivity.
  - eapply apart_write; eauto.
Qed.
Lemma vec_of : forall vs p g s i x, sim vs p g s -> nth_error vs i = Some x ->
  exists v, nth_error (so_vecs s) i = Some v /\ vec s i = Ok v /\ values F (so_objs s) v = x /\ NoDup v /\ (forall o, In o v -> o < length (so_objs s)).
Proof.
  intros vs p g s i x [A E R H G] Hi. rewrite E, nth_error_map in Hi. destruct (nth_error (so_vecs s) i) as [v|] eqn:Ev; [|discriminate Hi]. injection Hi as Hi.
  exists v. unfold vec. rewrite Ev. repeat split; auto.
  - destruct A as [N _]. exact (nodup_nth _ _ _ N Ev).
  - intros o Hoo. apply (proj2 A). eapply in_concat_nth; eauto.
Qed.
Lemma pair_apart : forall (m : list V) (vecs : list (list nat)) i j v w, apart m vecs -> nth_error vecs i = Some v -> nth_error vecs j = Some w ->
  forall a b o, nth_error v a = Some o -> nth_error w b = Some o -> a = b.
Proof.
  intros m vecs i j v w [N B] Hi Hj a b o Ha Hb. destruct (Nat.eq_dec i j) as [->|Hn].
  - assert (v = w) by congruence. subst w. pose proof (nodup_nth _ _ _ N Hi) as Nv. rewrite NoDup_nth_error in Nv. apply Nv; [exact (nth_error_some_lt _ _ _ Ha) | congruence].
  - exfalso. exact (nodup_apart vecs i j v w o N Hi Hj Hn (nth_error_In _ _ Ha) (nth_error_In _ _ Hb)).
Qed.
Lemma method_ok : forall (A B : Type) (f : A) e (v : list nat) (none : B) k, (v = [] -> none = k f) -> method (Some f) e v none k = Ok (k f).
Proof. intros A B f e [|o v] none k H; cbn; [now rewrite H | reflexivity]. Qed.
Lemma v_dot_ok : forall m v w, v_dot F T C m v w = Ok (product dot zero plus (values F m v) (values F m w)).
Proof.
  intros m v w. unfold v_dot. cbn [ot_dot]. rewrite method_ok.
  - f_equal. unfold product, zip. cbn [sc_add sc_zero].
    assert (Q : forall v w z, fold_left (fun r p => plus r (dot (get F m (fst p)) (get F m (snd p)))) (combine v w) z
      = fold_left plus (map (fun p => dot (fst p) (snd p)) (combine (values F m v) (values F m w))) z).
    { clear. induction v as [|o v IH]; intros [|p w] z; try reflexivity. cbn. apply IH. }
    apply Q.
  - intros E. destruct w; [destruct v; reflexivity|]. now rewrite E.
Qed.
Lemma step_vector : forall vs p g s o vs' a, sim vs p g s -> does vs o vs' a -> exists s', step F T C t rf s o = (s', Ok a) /\ sim vs' p g s'.
Proof.
  intros vs p g s o vs' a H D. destruct D.
  - destruct (vec_of vs p g s i x H H0) as (v & Hn & Ev & Ex & Nv & Bv). cbn [step]. rewrite Ev. unfold v_clone. cbn [ot_fresh]. unfold v_scale. cbn [ot_inplace].
    set (m := so_objs s) in *. set (w := seq (length m) (length v)). set (m' := m ++ values F m v).
    assert (Lv : length (values F m v) = length v) by (unfold values; apply map_length).
    pose proof (fresh_apart m (values F m v) (so_vecs s) (si_apart _ _ _ _ H)) as A. rewrite Lv in A. fold w m' in A.
    assert (Hw : nth_error (so_vecs s ++ [w]) (length (so_vecs s)) = Some w) by (rewrite nth_error_app2, Nat.sub_diag by lia; reflexivity).
    assert (Nw : NoDup w) by apply seq_NoDup.
    assert (Bw : forall o, In o w -> o < length m') by (intros o Hoo; apply (proj2 A); eapply in_concat_nth; eauto).
    destruct (each_spec F (mul zero) w m' Nw Bw) as [Le Ge]. cbn [ot_mul sc_zero].
    set (m2 := each F (mul zero) m' w) in *.
    assert (Hold : map (values F m2) (so_vecs s) = vs).
    { rewrite (si_vs _ _ _ _ H). fold m. apply map_ext_in. intros u Hu. apply values_ext. intros o Hoo.
      assert (Lo : o < length m) by (apply (proj2 (si_apart _ _ _ _ H)); apply in_concat; eauto).
      rewrite Ge. assert (Em : mem o w = false) by (apply mem_false; intros K; apply in_seq in K; lia). rewrite Em. unfold m'. now apply get_app. }
    assert (Hnew : values F m2 w = map (mul zero) x).
    { unfold m2. rewrite values_each by assumption. f_equal. rewrite <- Ex. unfold m', w. rewrite <- Lv. apply values_fresh. }
    eexists. split; [|].
    + f_equal. f_equal. f_equal. pose proof (si_vs _ _ _ _ H) as E. apply (f_equal (@length _)) in E. rewrite map_length in E. symmetry. exact E.
    + unfold wrote. destruct H as [A0 E0 R0 H1 G0]. split; cbn [so_objs so_vecs so_rol so_shared].
      * eapply apart_write; [exact A|exact Le].
      * rewrite map_app. cbn [map]. rewrite Hold, Hnew. reflexivity.
      * destruct (so_shared s); [apply through_inv; auto | exact R0].
      * exact H1.
      * intros y Hy u Hu. rewrite <- (G0 y Hy u Hu). destruct (so_shared s); [|reflexivity]. destruct (through_spec F rf m2 (ro_h (so_rol s)) u) as [K|[_ [z K]]]; cbn; rewrite K; reflexivity.
  - destruct (vec_of vs p g s i x H H0) as (v & Hn & Ev & Ex & Nv & Bv). destruct (vec_of vs p g s j y H H1) as (w & Hn' & Ew & Ey & _ & _). cbn [step]. rewrite Ev, Ew. cbn [bind].
    unfold v_plus. cbn [ot_inplace ot_add]. assert (L : length v = length w) by (rewrite <- Ex, <- Ey in H2; unfold values in H2; rewrite !map_length in H2; exact H2).
    pose proof (pair_apart _ _ i j v w (si_apart _ _ _ _ H) Hn Hn') as Q. destruct (each2_spec F add v w (so_objs s) Nv L Bv Q) as (Le & Ge & _).
    eexists. split; [reflexivity|]. eapply sim_wrote; [exact H | exact Le |]. rewrite (si_vs _ _ _ _ H). symmetry. apply (write_linked F _ _ _ i v); auto; [apply (si_apart _ _ _ _ H)|].
    rewrite values_each2 by assumption. now rewrite Ex, Ey.
  - destruct (vec_of vs p g s i x H H0) as (v & Hn & Ev & Ex & Nv & Bv). cbn [step]. rewrite Ev. cbn [bind]. unfold v_scale. cbn [ot_inplace ot_mul].
    destruct (each_spec F (mul a) v (so_objs s) Nv Bv) as (Le & Ge).
    eexists. split; [reflexivity|]. eapply sim_wrote; [exact H | exact Le |]. rewrite (si_vs _ _ _ _ H). symmetry. apply (write_linked F _ _ _ i v); auto; [apply (si_apart _ _ _ _ H)| |].
    + intros o Hoo. rewrite Ge. apply mem_false in Hoo. now rewrite Hoo.
    + rewrite values_each by assumption. now rewrite Ex.
  - destruct (vec_of vs p g s i x H H0) as (v & Hn & Ev & Ex & Nv & Bv). cbn [step]. rewrite Ev. cbn [bind]. unfold v_unary. cbn [ot_unary]. rewrite method_ok by (intros ->; reflexivity).
    destruct (each_spec F (unary f) v (so_objs s) Nv Bv) as (Le & Ge).
    eexists. split; [reflexivity|]. eapply sim_wrote; [exact H | exact Le |]. rewrite (si_vs _ _ _ _ H). symmetry. apply (write_linked F _ _ _ i v); auto; [apply (si_apart _ _ _ _ H)| |].
    + intros o Hoo. rewrite Ge. apply mem_false in Hoo. now rewrite Hoo.
    + rewrite values_each by assumption. now rewrite Ex.
  - destruct (vec_of vs p g s i x H H0) as (v & Hn & Ev & Ex & Nv & Bv). destruct (vec_of vs p g s j y H H1) as (w & Hn' & Ew & Ey & _ & _). cbn [step]. rewrite Ev, Ew. cbn [bind].
    assert (L : length v = length w) by (rewrite <- Ex, <- Ey in H2; unfold values in H2; rewrite !map_length in H2; exact H2).
    unfold v_binary. cbn [ot_binary]. rewrite method_ok by (destruct w; [destruct v; [reflexivity|discriminate L] | intros ->; reflexivity]).
    pose proof (pair_apart _ _ i j v w (si_apart _ _ _ _ H) Hn Hn') as Q. destruct (each2_spec F (binary f) v w (so_objs s) Nv L Bv Q) as (Le & Ge & _).
    eexists. split; [reflexivity|]. eapply sim_wrote; [exact H | exact Le |]. rewrite (si_vs _ _ _ _ H). symmetry. apply (write_linked F _ _ _ i v); auto; [apply (si_apart _ _ _ _ H)|].
    rewrite values_each2 by assumption. now rewrite Ex, Ey.
  - destruct (vec_of vs p g s i x H H0) as (v & _ & Ev & Ex & _). destruct (vec_of vs p g s j y H H1) as (w & _ & Ew & Ey & _). cbn [step]. rewrite Ev, Ew. cbn [bind].
    rewrite v_dot_ok, Ex, Ey. eauto.
  - destruct (vec_of vs p g s i x H H0) as (v & _ & Ev & Ex & _). cbn [step]. rewrite Ev. cbn [bind]. unfold v_norm. rewrite v_dot_ok, Ex. cbn. eauto.
  - destruct (vec_of vs p g s i x H H0) as (v & _ & Ev & Ex & _). cbn [step]. rewrite Ev. cbn [bind]. unfold v_dim. cbn [ot_dim].
    rewrite method_ok by (intros ->; reflexivity). cbn. rewrite <- Ex. unfold values. rewrite map_map. eauto.
  - destruct (vec_of vs p g s i x H H0) as (v & _ & Ev & Ex & _). cbn [step]. rewrite Ev. cbn [bind]. unfold v_reduce. cbn [ot_reduce].
    rewrite method_ok by (intros ->; reflexivity). cbn. rewrite <- Ex.
    assert (E : forall r, fold_left (fun r v0 => reduce f v0 r) (values F (so_objs s) v) r = fold_left (fun r o => reduce f (get F (so_objs s) o) r) v r).
    { clear. induction v as [|o v IH]; intros r; [reflexivity|]. cbn. apply IH. }
    rewrite E. eauto.
Qed.
Lemma inv_current : forall p x s, inv p s -> at_point p = Some x -> current F t rf h0 s x.
Proof. intros [|c|c y] x s H E; [discriminate | |]; injection E as <-; cbn in H; tauto. Qed.
Lemma inv_sweep : forall p x s h, inv p s -> at_point p = Some x -> holds F t rf h0 h x -> inv p (on_heap (fun _ => h) s).
Proof.
  intros [|c|c y] x s h H E Hh; [discriminate | |]; injection E as <-; cbn in H |- *.
  - destruct H as (K & (Hv & Hd & _)). split; [exact K|]. split; [exact Hv|]. split; [exact Hd | exact Hh].
  - destruct H as (K & (Hv & Hd & _) & Q). split; [exact K|]. split; [split; [exact Hv|]; split; [exact Hd | exact Hh] | exact Q].
Qed.
Lemma allowed_start : forall p f (x : list V) p', allowed p f x p' -> p' <> RStart.
Proof. intros p f x p' H. destruct H; discriminate. Qed.
Lemma run_plays : forall vs p g a r, plays vs p g a r -> forall s, sim vs p g s ->
  let o := play F T C t rf a s in
  match r with Err e => snd o = Some e | Ok x => snd o = None /\ exists v rest, so_vecs (fst o) = v :: rest /\ values F (so_objs (fst o)) v = x end.
Proof.
  intros vs p g a r P. induction P as [vs p g x Hx | vs p g o vs' a k r D P IH | vs p g f i x p' y d k r Hi Ha Hy Hd P IH | vs p g f i x e k Hi Hf He
    | vs p g x y k r Hp Hy P IH | vs p g i x d k r Hp Hi Hd P IH | vs p i j x v h k r Hp Hi Hj Hh P IH]; intros s H; cbv zeta.
  - cbn. split; [reflexivity|]. destruct (vec_of vs p g s 0 x H Hx) as (v & Hn & _ & Ex & _). destruct (so_vecs s) as [|v' rest]; [discriminate Hn|]. injection Hn as ->. eauto.
  - destruct (step_vector vs p g s o vs' a H D) as (s' & E & H'). cbn [play]. rewrite E. exact (IH s' H').
  - destruct (vec_of vs p g s i x H Hi) as (v & Hn & Ev & Ex & _). cbn [play step]. rewrite Ev, Ex.
    destruct (rol_step F t rf h0 Ht Hg Hcl N0 p f x p' (so_rol s) y d (si_rol _ _ _ _ H) Ha Hy Hd) as (r' & Er & HI').
    pose proof (fun v => update_adj F t rf x f (so_rol s) v (proj1 (proj1 (rol_inv_heap F t rf h0 p _ (si_rol _ _ _ _ H))))) as Ad.
    rewrite Er in Ad |- *. cbn [fst] in Ad. apply IH. destruct H as [A E R Hs G]. split; cbn; [exact A | exact E | exact HI' | |].
    + intros Q. apply andb_true_iff in Q. destruct Q as [Q1 Q2]. specialize (Hs Q1). subst p. destruct f; try discriminate Q2. exfalso. clear - Ha.
      inversion Ha as [|? ? ? ? [K|K]| |]; discriminate K.
    + intros z Hz. unfold derived. intros u Hu. rewrite Ad. now apply G.
  - destruct (vec_of vs p g s i x H Hi) as (v & Hn & Ev & Ex & _). cbn [play step]. rewrite Ev, Ex.
    destruct (rol_inv_heap F t rf h0 p _ (si_rol _ _ _ _ H)) as [K _]. destruct (okheap_call F t rf h0 Ht Hg Hcl N0 _ x K) as (_ & E & _). rewrite He in E.
    unfold rol_update. destruct (rf_call F bs rf x (ro_h (so_rol s))) as [h1 r1]. cbn in E. subst r1. destruct Hf as [-> | [-> | ->]]; reflexivity.
  - cbn [play step]. destruct (inv_current p x _ (si_rol _ _ _ _ H) Hp) as ((w & Hw & Ew) & _). unfold rol_value. rewrite Ew. replace w with y by congruence. now apply IH.
  - pose proof (inv_current p x _ (si_rol _ _ _ _ H) Hp) as (_ & _ & Hc). pose proof H as [A E R Hs G]. cbn [play step]. unfold vec.
    assert (Hi' : i < length (so_vecs s)) by (rewrite E, map_length in Hi; exact Hi).
    destruct (nth_error (so_vecs s) i) as [v|] eqn:En; [|apply nth_error_None in En; lia].
    unfold rol_gradient. destruct (holds_deriv F t rf h0 Ht Hg Hcl N0 Ho M0 _ x d Hc Hd) as [E1 E2].
    pose proof (deriv_derived F t rf h0 Ht Hg Hcl N0 M0 Hne _ x Hc) as E3.
    destruct (rf_derivative F bs rf (f_one F) (ro_h (so_rol s))) as [h1 r1]. cbn [fst snd] in E1, E2, E3. subst r1. apply IH. unfold rebound. split; cbn.
    + now apply rebound_apart.
    + rewrite E. symmetry. now apply rebound_linked.
    + exact (inv_sweep p x _ h1 R Hp E2).
    + exact Hs.
    + intros z Hz. injection Hz as <-. exact E3.
  - pose proof (inv_current p x _ (si_rol _ _ _ _ H) Hp) as (_ & Hd & Hc). pose proof H as [A E R Hs G]. cbn [play step].
    destruct (vec_of vs p (Some x) s j v H Hj) as (w & _ & Ew & Ex & _).
    assert (Hi' : i < length (so_vecs s)) by (rewrite E, map_length in Hi; exact Hi).
    assert (Evi : exists u, vec s i = Ok u). { unfold vec. destruct (nth_error (so_vecs s) i) eqn:En; [eauto|]. apply nth_error_None in En. lia. }
    destruct Evi as [u Evi]. rewrite Evi. cbn [bind]. rewrite Ew, Ex.
    destruct (hess_derived F t rf h0 Ht Hg Hcl N0 Ho M0 HJt _ x v h Hc (G x eq_refl) Hd Hh) as (h1 & E1 & E2 & E3). rewrite E1.
    apply IH. unfold rebound. split; cbn.
    + now apply rebound_apart.
    + rewrite E. symmetry. now apply rebound_linked.
    + exact (inv_sweep p x _ h1 R Hp E2).
    + exact Hs.
    + intros z Hz. injection Hz as <-. exact E3.
Qed.
Lemma start_sim : sim [map (saved h0) (rf_ctrls rf)] RStart None (rol_start rf h0).
Proof.
  unfold rol_start. split; cbn.
  - unfold apart. cbn [concat]. rewrite app_nil_r. split; [apply seq_NoDup|]. intros o Hoo. apply in_seq in Hoo. rewrite map_length. lia.
  - f_equal. pose proof (values_fresh F [] (map (saved h0) (rf_ctrls rf))) as E. cbn in E. rewrite map_length in E. symmetry. exact E.
  - split; [reflexivity|]. split; [apply okheap_0; exact N0 | exact M0].
  - reflexivity.
  - discriminate.
Qed.
Lemma solve_plays : forall (A : Type) (e : enlist A) a r, plays [map (saved h0) (rf_ctrls rf)] RStart None a r ->
  snd (rol_solve F T C t rf e a h0) = returned (el_listed e) r.
Proof.
  intros A e a r P. pose proof (run_plays _ _ _ a r P _ start_sim) as H. cbv zeta in H. unfold rol_solve. destruct (play F T C t rf a (rol_start rf h0)) as [s o]. cbn in H.
  destruct r as [x|er]; [|subst o; reflexivity]. destruct H as [-> (v & rest & Ev & Ex)]. rewrite Ev, Ex. reflexivity.
Qed.
End Run.

(** ** Bounds *)
Section Bounds.
Context {V S : Type} (F : fops V).
Variables (add : V -> V -> V) (mul : S -> V -> V) (dot : V -> V -> S) (dim : V -> nat)
  (unary : (S -> S) -> V -> V) (binary : (S -> S -> S) -> V -> V -> V) (reduce : (S -> S -> S) -> V -> S -> S)
  (zero : S) (plus : S -> S -> S) (root : S -> S).
Notation T := (OT add mul true true (Some dot) (Some dim) (Some unary) (Some binary) (Some reduce) true).
Notation C := (Sc zero plus root).
Notation get := (Rol.get F).
Definition filled (b : bnd V S) (x : V) : V := match b with BNum s => unary (fun _ => s) x | BObj v => v end.
Lemma set_bound_ok : forall m o b, set_bound F T m o b = Ok (list_set m o (filled b (get m o))).
Proof. intros m o [s|v]; reflexivity. Qed.
Lemma set_bounds_spec : forall lo up bs m, length lo = length up -> length lo <= length bs -> NoDup (lo ++ up) -> (forall o, In o (lo ++ up) -> o < length m) ->
  exists m', set_bounds F T m lo up bs = Ok m' /\ length m' = length m /\ (forall o, ~ In o (lo ++ up) -> get m' o = get m o) /\
    (forall i o b, nth_error lo i = Some o -> nth_error bs i = Some b -> get m' o = filled (fst b) (get m o)) /\
    (forall i o b, nth_error up i = Some o -> nth_error bs i = Some b -> get m' o = filled (snd b) (get m o)).
Proof.
  induction lo as [|o lo IH]; intros [|q up] bs m L Lb N B; cbn in L; try discriminate.
  - exists m. repeat split; auto; intros [|i] o b E; discriminate E.
  - destruct bs as [|[a b] bs]; cbn in Lb; [lia|]. cbn [set_bounds]. rewrite set_bound_ok. cbn [bind]. rewrite set_bound_ok. cbn [bind].
    set (m1 := list_set m o (filled a (get m o))). set (m2 := list_set m1 q (filled b (get m1 q))).
    assert (L2 : length m2 = length m) by (unfold m2, m1; now rewrite !length_list_set).
    cbn [app] in N, B. inversion N as [|? ? N1 N2]; subst. rewrite in_app_iff in N1. cbn in N1.
    apply nodup_app in N2. destruct N2 as (N3 & N4 & N5). inversion N4 as [|? ? N6 N7]; subst.
    assert (Nq : ~ In q lo) by (intros K; apply (N5 q K); now left).
    assert (Bo : o < length m) by (apply B; now left). assert (Bq : q < length m) by (apply B; right; apply in_app_iff; right; now left).
    assert (Eo : get m2 o = filled a (get m o)).
    { unfold m2, m1. rewrite !get_set. destruct (Nat.eqb_spec q o) as [->|]; [exfalso; tauto|]. rewrite Nat.eqb_refl. apply Nat.ltb_lt in Bo. now rewrite Bo. }
    assert (Eq : get m2 q = filled b (get m q)).
    { unfold m2. rewrite get_set, Nat.eqb_refl. unfold m1 at 1. rewrite length_list_set. pose proof Bq as Bq'. apply Nat.ltb_lt in Bq'. rewrite Bq'. f_equal.
      unfold m1. rewrite get_set. destruct (Nat.eqb_spec o q) as [->|]; [exfalso; tauto|]. reflexivity. }
    assert (E2 : forall p, p <> o -> p <> q -> get m2 p = get m p).
    { intros p P1 P2. unfold m2, m1. rewrite !get_set. destruct (Nat.eqb_spec q p); [congruence|]. destruct (Nat.eqb_spec o p); [congruence|]. reflexivity. }
    destruct (IH up bs m2) as (m' & E & L' & G0 & G1 & G2).
    + congruence.
    + lia.
    + apply nodup_app. split; [exact N3|]. split; [exact N7|]. intros x Hx K. apply (N5 x Hx). now right.
    + intros p Hp. rewrite L2. apply B. right. apply in_app_iff in Hp. apply in_app_iff. cbn. tauto.
    + exists m'. split; [exact E|]. split; [congruence|]. split; [|split].
      * intros p Hp. rewrite G0 by (intros K; apply Hp; right; apply in_app_iff in K; apply in_app_iff; cbn; tauto).
        apply E2; intros ->; apply Hp; [now left | right; apply in_app_iff; right; now left].
      * intros [|i] p c Hi Hc; cbn in Hi, Hc.
        -- injection Hi as <-. injection Hc as <-. rewrite G0; [exact Eo|]. rewrite in_app_iff. tauto.
        -- rewrite (G1 i p c Hi Hc). f_equal. apply nth_error_In in Hi. apply E2; intros ->; tauto.
      * intros [|i] p c Hi Hc; cbn in Hi, Hc.
        -- injection Hi as <-. injection Hc as <-. rewrite G0; [exact Eq|]. rewrite in_app_iff. tauto.
        -- rewrite (G2 i p c Hi Hc). f_equal. apply nth_error_In in Hi. apply E2; intros ->; tauto.
Qed.
Lemma clone_spec : forall m v, (forall o, In o v -> o < length m) -> exists m', v_clone F T C m v = (m', seq (length m) (length v)) /\
  length m' = length m + length v /\ (forall o, o < length m -> get m' o = get m o) /\ values F m' (seq (length m) (length v)) = map (mul zero) (values F m v).
Proof.
  intros m v Hv. unfold v_clone. cbn [ot_fresh]. unfold v_scale. cbn [ot_inplace ot_mul sc_zero]. eexists. split; [reflexivity|].
  assert (Lv : length (values F m v) = length v) by (unfold values; apply map_length).
  destruct (each_spec F (mul zero) (seq (length m) (length v)) (m ++ values F m v)) as [L G].
  - apply seq_NoDup.
  - intros o Hoo. apply in_seq in Hoo. rewrite app_length, Lv. lia.
  - split; [rewrite L, app_length; congruence|]. split.
    + intros o Hoo. rewrite G. assert (Em : mem o (seq (length m) (length v)) = false) by (apply mem_false; intros K; apply in_seq in K; lia). rewrite Em. now apply get_app.
    + rewrite values_each; [|apply seq_NoDup | intros o Hoo; apply in_seq in Hoo; rewrite app_length, Lv; lia]. f_equal. rewrite <- Lv. apply values_fresh.
Qed.
Lemma bounds_spec : forall m x bs, (forall o, In o x -> o < length m) -> length bs = length x ->
  exists m' lo up, rol_bounds F T C m x bs = Ok (m', lo, up) /\
    values F m' lo = zip (bound_value mul unary zero) (map fst bs) (values F m x) /\
    values F m' up = zip (bound_value mul unary zero) (map snd bs) (values F m x) /\
    (forall o, o < length m -> get m' o = get m o) /\ NoDup (lo ++ up) /\ (forall o, In o (lo ++ up) -> length m <= o).
Proof.
  intros m x bs Hx Lb. unfold rol_bounds. destruct (clone_spec m x Hx) as (m1 & E1 & L1 & G1 & V1). rewrite E1.
  destruct (clone_spec m1 x) as (m2 & E2 & L2 & G2 & V2); [intros o Hoo; specialize (Hx o Hoo); lia|]. rewrite E2.
  set (lo := seq (length m) (length x)) in *. set (up := seq (length m1) (length x)) in *.
  assert (Ex : values F m1 x = values F m x) by (apply values_ext; intros o Hoo; auto). rewrite Ex in V2.
  assert (El : values F m2 lo = map (mul zero) (values F m x)).
  { rewrite <- V1. apply values_ext. intros o Hoo. apply G2. unfold lo in Hoo. apply in_seq in Hoo. lia. }
  assert (Nd : NoDup (lo ++ up)).
  { apply nodup_app. split; [apply seq_NoDup|]. split; [apply seq_NoDup|]. intros o H1 H2. unfold lo, up in *. apply in_seq in H1. apply in_seq in H2. lia. }
  assert (Ll : length lo = length x) by (unfold lo; apply seq_length). assert (Lu : length up = length x) by (unfold up; apply seq_length).
  destruct (set_bounds_spec lo up bs m2) as (m3 & E3 & L3 & G0 & Glo & Gup).
  - congruence.
  - lia.
  - exact Nd.
  - intros o Hoo. apply in_app_iff in Hoo. unfold lo, up in Hoo. rewrite !in_seq in Hoo. lia.
  - rewrite E3. cbn [bind]. exists m3, lo, up. split; [reflexivity|].
    assert (Fin : forall (f : bnd V S * bnd V S -> bnd V S) w, length w = length x -> values F m2 w = map (mul zero) (values F m x) ->
      (forall i o b, nth_error w i = Some o -> nth_error bs i = Some b -> get m3 o = filled (f b) (get m2 o)) ->
      values F m3 w = zip (bound_value mul unary zero) (map f bs) (values F m x)).
    { intros f w Lw Ew Gw. apply ext_nth. intros i. rewrite zip_nth. pose proof (f_equal (fun l => nth_error l i) Ew) as Ei. cbn in Ei. unfold values in *.
      rewrite !nth_error_map in *. destruct (nth_error w i) as [o|] eqn:Eo.
      - pose proof (nth_error_some_lt _ _ _ Eo) as Hi. destruct (nth_error x i) as [q|] eqn:Eq; [|apply nth_error_None in Eq; lia].
        destruct (nth_error bs i) as [b|] eqn:Eb; [|apply nth_error_None in Eb; lia]. cbn in Ei |- *. injection Ei as Ei. f_equal. rewrite (Gw i o b Eo Eb), Ei.
        destruct (f b); reflexivity.
      - apply nth_error_None in Eo. assert (Eq : nth_error x i = None) by (apply nth_error_None; lia). assert (Eb : nth_error bs i = None) by (apply nth_error_None; lia).
        rewrite Eb. reflexivity. }
    split; [apply Fin; auto|]. split; [apply Fin; auto|]. split; [|split; [exact Nd|]].
    + intros o Hoo. rewrite G0, G2, G1; auto; [lia|]. rewrite in_app_iff. unfold lo, up. rewrite !in_seq. lia.
    + intros o Hoo. apply in_app_iff in Hoo. unfold lo, up in Hoo. rewrite !in_seq in Hoo. lia.
Qed.
End Bounds.

(** ** Answers that agree wherever ROL may ask *)
Section Mono.
Context {V S : Type}.
Variables (add : V -> V -> V) (mul : S -> V -> V) (dot : V -> V -> S) (dim : V -> nat)
  (unary : (S -> S) -> V -> V) (binary : (S -> S -> S) -> V -> V -> V) (reduce : (S -> S -> S) -> V -> S -> S)
  (zero : S) (plus : S -> S -> S) (root : S -> S).
Variables (n : nat) (J J' : list V -> res V) (dJ dJ' : list V -> list V -> Prop) (HJ HJ' : list V -> list V -> list V -> Prop).
Hypothesis EJ : forall x, length x = n -> J x = J' x.
Hypothesis ED : forall x y d, length x = n -> J x = Ok y -> dJ x d -> dJ' x d /\ length d = n.
Hypothesis EH : forall x y v h, length x = n -> J x = Ok y -> length v = n -> HJ x v h -> HJ' x v h /\ length h = n.
Notation does := (SpecRol.does add mul dot dim unary binary reduce zero plus root).
Notation plays := (SpecRol.plays add mul dot dim unary binary reduce zero plus root).
Definition sized (vs : list (list V)) : Prop := forall i x, nth_error vs i = Some x -> length x = n.
Definition good (p : rstate (list V)) : Prop :=
  match p with
  | RStart => True
  | RReady c => length c = n /\ exists y, J c = Ok y
  | RTrial c z => (length c = n /\ exists y, J c = Ok y) /\ (length z = n /\ exists y, J z = Ok y)
  end.
Lemma good_at : forall p x, good p -> at_point p = Some x -> length x = n /\ exists y, J x = Ok y.
Proof. intros [|c|c z] x H E; [discriminate | |]; injection E as <-; cbn in H; tauto. Qed.
Lemma sized_put : forall vs i x, sized vs -> length x = n -> i < length vs -> sized (put vs i x).
Proof.
  intros vs i x H L Hi k y Hk. rewrite put_set, nth_list_set in Hk by exact Hi. destruct (Nat.eqb i k); [|eauto]. destruct (nth_error vs i); [|discriminate]. now injection Hk as <-.
Qed.
Lemma zip_length : forall (A B D : Type) (f : A -> B -> D) x y, length x = length y -> length (zip f x y) = length x.
Proof. intros. unfold zip. rewrite map_length, combine_length. lia. Qed.
Lemma does_sized : forall vs o vs' a, does vs o vs' a -> sized vs -> sized vs'.
Proof.
  intros vs o vs' a D H. destruct D; auto; try (apply sized_put; [exact H | | exact (nth_error_some_lt _ _ _ H0)]).
  - intros k y Hk. destruct (Nat.lt_ge_cases k (length vs)) as [L|L]; [rewrite nth_error_app1 in Hk by exact L; eauto|].
    rewrite nth_error_app2 in Hk by exact L. destruct (k - length vs) as [|[|q]]; cbn in Hk; try discriminate. injection Hk as <-. rewrite map_length. eauto.
  - rewrite zip_length by assumption. eauto.
  - rewrite map_length. eauto.
  - rewrite map_length. eauto.
  - rewrite zip_length by assumption. eauto.
Qed.
Lemma rol_mono : forall vs p g a r, plays J dJ HJ vs p g a r -> sized vs -> good p -> plays J' dJ' HJ' vs p g a r.
Proof.
  intros vs p g a r P. induction P as [vs p g x Hx | vs p g o vs' a k r D P IH | vs p g f i x p' y d k r Hi Ha Hy Hd P IH | vs p g f i x e k Hi Hf He
    | vs p g x y k r Hp Hy P IH | vs p g i x d k r Hp Hi Hd P IH | vs p i j x v h k r Hp Hi Hj Hh P IH]; intros Hs Hgd.
  - now apply pl_stop.
  - eapply pl_vector; [exact D|]. apply IH; [eapply does_sized; eauto | exact Hgd].
  - pose proof (Hs i x Hi) as L. destruct (ED x y d L Hy Hd) as [Hd' _]. apply (pl_update _ _ _ _ _ _ _ _ _ _ _ _ _ vs p g f i x p' y d); auto; [now rewrite <- EJ|].
    apply IH; [exact Hs|]. destruct Ha as [q z | q f c z Hf Hq | c z | q c Hq]; cbn; eauto.
    split; [|eauto]. destruct Hq as [->|[w ->]]; cbn in Hgd; tauto.
  - apply (pl_raise _ _ _ _ _ _ _ _ _ _ _ _ _ vs p g f i x e); auto. rewrite <- EJ; auto. exact (Hs i x Hi).
  - destruct (good_at p x Hgd Hp) as [L _]. apply (pl_value _ _ _ _ _ _ _ _ _ _ _ _ _ vs p g x y); auto. now rewrite <- EJ.
  - destruct (good_at p x Hgd Hp) as [L [y Hy]]. destruct (ED x y d L Hy Hd) as [Hd' Ld]. apply (pl_gradient _ _ _ _ _ _ _ _ _ _ _ _ _ vs p g i x d); auto.
    apply IH; [now apply sized_put | exact Hgd].
  - destruct (good_at p x Hgd Hp) as [L [y Hy]]. destruct (EH x y v h L Hy (Hs j v Hj) Hh) as [Hh' Lh]. apply (pl_hessian _ _ _ _ _ _ _ _ _ _ _ _ _ vs p i j x v h); auto.
    apply IH; [now apply sized_put | exact Hgd].
Qed.
End Mono.

(** ** Recorded programs *)
Section Recorded.
Context {V S : Type} (F : fops V).
Variables (add : V -> V -> V) (mul : S -> V -> V) (dot : V -> V -> S) (dim : V -> nat)
  (unary : (S -> S) -> V -> V) (binary : (S -> S -> S) -> V -> V -> V) (reduce : (S -> S -> S) -> V -> S -> S) (asg : bool)
  (zero : S) (plus : S -> S -> S) (root : S -> S).
Lemma solve_recorded : forall ann (p : list (stmt V)) j l s (A : Type) (e : enlist A) a r,
  consistent p -> disciplined ann p = true -> (j < length (w_objs (exec F (world_new F ann) p)))%nat ->
  let w := fst (recorded F ann p j) in
  let bs := t_flat (w_tape w) in
  let J := snd (recorded F ann p j) in
  let rf := RF J (w_ctrls w) s in
  let h0 := run_hist F bs (w_heap w) l in
  closed (w_ctrls w) bs -> on_tape bs (w_ctrls w) -> In J (vars_of bs) -> NoDup (w_ctrls w) -> w_ctrls w <> [] -> calls_controls w l -> no_mark h0 ->
  SpecRol.plays add mul dot dim unary binary reduce zero plus root (fun x => rmap (fun y => f_mul F y s) (spec_rerun F ann p x j))
    (fun x d => der_at F (w_tape w) rf h0 x = Ok d) (fun x v h => hes_at F (w_tape w) rf h0 x v = Ok h) [map (saved h0) (w_ctrls w)] RStart None a r ->
  snd (rol_solve F (OT add mul true true (Some dot) (Some dim) (Some unary) (Some binary) (Some reduce) asg) (Sc zero plus root) (w_tape w) rf e a h0) = returned (el_listed e) r.
Proof.
  intros ann p j l s A e a r Hc Hd Hj w bs J rf h0 Hcl Ho HJ Hnd Hne Hcc M0 P.
  destruct (recorded_clean F ann p j Hc Hd Hj) as [Hwf [Hgv [Nc _]]]. fold w bs in Hwf, Hgv, Nc.
  apply (solve_plays F (w_tape w) rf h0); auto; [apply Hwf | apply hist_frame; exact Nc |].
  revert P. intros P. eapply (rol_mono add mul dot dim unary binary reduce zero plus root (length (w_ctrls w))); [| | |exact P| |exact I].
  - intros x Hx. symmetry. apply (rf_call_rerun F ann p j x s l Hc Hd Hj); auto.
  - intros x y d Hx _ Hdx. split; [exact Hdx|]. unfold der_at in Hdx. rewrite derivative_grad in Hdx by exact Hne. exact (grad_length F _ _ _ _ _ _ Hdx).
  - intros x y v h Hx _ _ Hh. split; [exact Hh|]. exact (hess_length F _ _ _ _ _ _ Hh).
  - intros [|[|i]] x Hx; cbn in Hx; try discriminate. injection Hx as <-. apply map_length.
Qed.
End Recorded.
Lemma solve_exact : forall (S : Type) (add : R -> R -> R) (mul : S -> R -> R) (dot : R -> R -> S) (dim : R -> nat)
  (unary : (S -> S) -> R -> R) (binary : (S -> S -> S) -> R -> R -> R) (reduce : (S -> S -> S) -> R -> S -> S) (asg : bool)
  (zero : S) (plus : S -> S -> S) (root : S -> S) ann (p : list (stmt R)) j l s (A : Type) (e : enlist A) a r,
  consistent p -> disciplined ann p = true -> (j < length (w_objs (exec RO (world_new RO ann) p)))%nat ->
  let w := fst (recorded RO ann p j) in
  let bs := t_flat (w_tape w) in
  let J := snd (recorded RO ann p j) in
  let rf := RF J (w_ctrls w) s in
  let h0 := run_hist RO bs (w_heap w) l in
  closed (w_ctrls w) bs -> on_tape bs (w_ctrls w) -> In J (vars_of bs) -> NoDup (w_ctrls w) -> w_ctrls w <> [] -> independent bs (w_ctrls w) -> calls_controls w l -> no_mark h0 ->
  (forall x, length x = length (w_ctrls w) -> is_ok (spec_rerun RO ann p x j) = true ->
     let e := saved (fst (rf_call RO bs rf x h0)) in smooth_at bs (w_ctrls w) e /\ adjoints_right bs (w_ctrls w) e /\ adjoints_run bs (w_ctrls w) e) ->
  SpecRol.plays add mul dot dim unary binary reduce zero plus root (objective (fun x => spec_rerun RO ann p x j) s)
    (gradient_at (fun x => spec_rerun RO ann p x j) s) (fun x v h => hes_at RO (w_tape w) rf h0 x v = Ok h) [map (saved h0) (w_ctrls w)] RStart None a r ->
  snd (rol_solve RO (OT add mul true true (Some dot) (Some dim) (Some unary) (Some binary) (Some reduce) asg) (Sc zero plus root) (w_tape w) rf e a h0) = returned (el_listed e) r.
Proof.
  intros S add mul dot dim unary binary reduce asg zero plus root ann p j l s A e a r Hc Hd Hj w bs J rf h0 Hcl Ho HJ Hnd Hne Hi Hcc M0 Hreg P.
  apply (solve_recorded RO add mul dot dim unary binary reduce asg zero plus root ann p j l s A e a r); auto.
  eapply (rol_mono add mul dot dim unary binary reduce zero plus root (length (w_ctrls w))); [| | |exact P| |exact I].
  - reflexivity.
  - intros x y d Hx Hy Hdx. split; [|destruct Hdx as [L _]; congruence]. destruct (Hreg x Hx) as (R1 & R2 & R3).
    { unfold objective in Hy. destruct (spec_rerun RO ann p x j); [reflexivity|discriminate Hy]. }
    apply (gradient_der ann p j s l x y d); auto.
  - intros x y v h Hx _ _ Hh. split; [exact Hh|]. exact (hess_length RO _ _ _ _ _ _ Hh).
  - intros [|[|i]] x Hx; cbn in Hx; try discriminate. injection Hx as <-. apply map_length.
Qed.
