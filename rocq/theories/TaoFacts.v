(** Runs of TAOSolver against runs on mathematical functions. *)
From Coq Require Import List Arith ZArith Lia Bool Reals.
From Coquelicot Require Import Coquelicot.
From Verif Require Import Base Model BaseFacts Graph Record RecordFacts Spec Replay ReplayExec History Session Sweep SpecGraph Marks FreshAdj Dual Coll Opt SpecOpt OptFacts
  Solvers SpecSolvers SolverFacts TlmSweep RealInst Calculus Gradient SpecMinimise MinimiseFacts Reach Tao SpecTao.
Import ListNotations.
Open Scope nat_scope.

Section Vec.
Context {V S : Type}.
Definition comps (ks : list (ctl V S)) (vs : list V) : list (list S) := map (fun kv => k_comp (fst kv) (snd kv)) (combine ks vs).
Lemma packed_ok : forall (ks : list (ctl V S)) vs x, packed ks vs x -> Forall2 (fun k v => k_ok k v) ks vs.
Proof. intros ks vs x H. induction H; constructor; auto. Qed.
Lemma packed_comps : forall (ks : list (ctl V S)) vs x, packed ks vs x -> x = concat (comps ks vs).
Proof. intros ks vs x H. induction H as [|k ks v vs x Hk H IH]; [reflexivity|]. unfold comps. cbn. f_equal. exact IH. Qed.
Lemma comps_sizes : forall (ks : list (ctl V S)) vs, List.Forall law ks -> Forall2 (fun k v => k_ok k v) ks vs -> map (@length S) (comps ks vs) = tsizes (types ks).
Proof.
  intros ks vs HL H. induction H as [|k v ks vs Hk H IH]; [reflexivity|]. inversion HL as [|? ? [Hl _] HL']; subst.
  unfold comps, tsizes in *. cbn. f_equal; [apply (Hl v Hk)|exact (IH HL')].
Qed.
Lemma make_all_ok : forall (ks : list (ctl V S)) vs, List.Forall law ks -> Forall2 (fun k v => k_ok k v) ks vs -> make_all (types ks) (comps ks vs) = Ok vs.
Proof.
  intros ks vs HL H. induction H as [|k v ks vs Hk H IH]; [reflexivity|]. inversion HL as [|? ? [Hl _] HL']; subst.
  unfold comps in *. cbn [combine map fst snd types make_all]. destruct (Hl v Hk) as (_ & _ & _ & E). rewrite E. cbn [bind].
  change (map k_type ks) with (types ks). rewrite (IH HL'). reflexivity.
Qed.
Lemma comps_length : forall (ks : list (ctl V S)) vs, Forall2 (fun k v => k_ok k v) ks vs -> length (comps ks vs) = length ks.
Proof. intros ks vs H. unfold comps. rewrite map_length, combine_length, (F2_len _ _ _ H). apply Nat.min_id. Qed.
Lemma read_packed : forall (ks : list (ctl V S)) vs x objs, List.Forall law ks -> packed ks vs x -> Forall2 (fun k v => k_ok k v) ks objs ->
  read_vec (types ks) x objs = Ok vs.
Proof.
  intros ks vs x objs HL HP HO. unfold read_vec. rewrite (copies_ok ks objs HL HO). cbn [bind].
  pose proof (packed_ok ks vs x HP) as Hok. rewrite (packed_comps ks vs x HP).
  replace (length objs) with (length (comps ks vs)) by (rewrite (comps_length ks vs Hok); exact (F2_len _ _ _ HO)).
  rewrite (from_petsc_spec S (comps ks vs) _ (comps_sizes ks vs HL Hok)). cbn [bind]. exact (make_all_ok ks vs HL Hok).
Qed.
Lemma pvals_ok : forall (ks : list (ctl V S)) vs, List.Forall law ks -> Forall2 (fun k v => k_ok k v) ks vs -> pvals (types ks) (map Some vs) = Ok (map PObj (comps ks vs)).
Proof.
  intros ks vs HL H. induction H as [|k v ks vs Hk H IH]; [reflexivity|]. inversion HL as [|? ? [Hl _] HL']; subst.
  cbn [types map pvals]. destruct (Hl v Hk) as (_ & E & _). rewrite E. cbn [bind]. change (map k_type ks) with (types ks). rewrite (IH HL'). reflexivity.
Qed.
Lemma total_sum : forall (ks : list (ctl V S)), total ks = list_sum (tsizes (types ks)).
Proof. intros ks. unfold total. induction ks as [|k ks IH]; [reflexivity|]. cbn. rewrite IH. reflexivity. Qed.
Lemma write_packed : forall (ks : list (ctl V S)) vs x g0, List.Forall law ks -> packed ks vs x -> length g0 = total ks ->
  write_vec true (types ks) g0 (map Some vs) = (x, None).
Proof.
  intros ks vs x g0 HL HP Hg. pose proof (packed_ok ks vs x HP) as Hok. unfold write_vec. rewrite (pvals_ok ks vs HL Hok).
  rewrite (packed_comps ks vs x HP).
  apply to_petsc_spec; [|clear - HL Hok|rewrite Hg; apply total_sum].
  - rewrite map_length, comps_length by exact Hok. unfold tsizes, types. now rewrite !map_length.
  - rewrite <- (comps_sizes ks vs HL Hok). generalize (comps ks vs). intros ds. induction ds as [|d ds IH]; cbn; constructor; [split; reflexivity | exact IH].
Qed.
End Vec.

(** ** The run *)
Section Run.
Context {V S : Type} (F : fops V).
Variables (sadd smul : S -> S -> S) (szero : S) (seqb : S -> S -> bool).
Hypothesis Hz : forall a b, sadd a (smul szero b) = a.
Hypothesis Heq : forall a b, seqb a b = true <-> a = b.
Variables (t : tape V) (rf : rfun V) (h0 : heap V).
Notation bs := (t_flat t).
Hypothesis Ht : topo bs.
Hypothesis Hg : forall b, In b bs -> gives_value F b.
Hypothesis Hcl : closed (rf_ctrls rf) bs.
Hypothesis N0 : no_ctrl h0.
Hypothesis Ho : on_tape bs (rf_ctrls rf).
Hypothesis M0 : no_mark h0.
Hypothesis HJt : In (rf_J rf) (vars_of bs).
Hypothesis Hsh : List.Forall shaped bs.
Hypothesis Hga : List.Forall gives_adj bs.
Hypothesis Hgh : List.Forall gives_hess bs.
Hypothesis Hinf : forall c, In c (rf_ctrls rf) -> influences bs c (rf_J rf).
Variables (ks : list (ctl V S)) (cur : list V) (riesz : list (V -> V)).
Hypothesis HL : List.Forall law ks.
Hypothesis HC : Forall2 (fun k v => k_ok k v) ks cur.
Hypothesis Hlen : length ks = length (rf_ctrls rf).
Hypothesis Hri : length riesz = length ks.
Notation VAL := (val_at F t rf h0).
Notation DER := (der_at F t rf h0).
Notation HES := (hes_at F t rf h0).
Notation okh := (okheap t rf h0).
Notation hold := (holds F t rf h0).

Lemma all_some : forall (f : nat -> option V) l, (forall c, In c l -> f c <> None) ->
  map f l = map Some (map (fun c => match f c with None => f_zero F | Some x => x end) l).
Proof.
  intros f l H. rewrite map_map. apply map_ext_in. intros c Hc. pose proof (H c Hc) as K. destruct (f c); [reflexivity|now contradict K].
Qed.
Lemma objective_step : forall h vs y g, okh h -> no_mark h -> Forall2 (fun k v => k_ok k v) ks vs -> VAL vs = Ok y -> DER vs = Ok g ->
  exists h1 h2, rf_call F bs rf vs h = (h1, Ok y) /\ rf_derivative F bs rf (f_one F) h1 = (h2, Ok g) /\ hold h1 vs /\ hold h2 vs /\
    (forall c, In c (rf_ctrls rf) -> bv_adj (h2 c) <> None) /\ map (fun c => bv_adj (h2 c)) (rf_ctrls rf) = map Some g.
Proof.
  intros h vs y g K Nm Hok Ev Ed. destruct (okheap_call F t rf h0 Ht Hg Hcl N0 h vs K) as (K1 & K2 & K3 & K4).
  destruct (rf_call F bs rf vs h) as [h1 r1]. cbn [fst snd] in *. rewrite Ev in K2. subst r1.
  assert (Hh : hold h1 vs) by (split; [exact K1|]; split; [auto|]; intros u; apply (K3 y Ev)).
  destruct (holds_deriv F t rf h0 Ht Hg Hcl N0 Ho M0 h1 vs g Hh Ed) as [E1 E2].
  destruct (rf_derivative F bs rf (f_one F) h1) as [h2 r2] eqn:E. cbn [fst snd] in E1, E2. subst r2. exists h1, h2.
  split; [reflexivity|]. split; [exact E|]. split; [exact Hh|]. split; [exact E2|].
  assert (A : forall c, In c (rf_ctrls rf) -> bv_adj (h2 c) <> None).
  { intros c Hc. apply (derivative_reaches F bs rf (f_one F) h1 h2 g c); auto. apply K1. }
  split; [exact A|]. rewrite (all_some (fun c => bv_adj (h2 c)) _ A). f_equal.
  unfold rf_derivative in E. destruct (rf_ctrls rf) as [|c0 cs] eqn:Ec; [discriminate E|]. rewrite <- Ec in *. unfold compute_gradient in E.
  destruct (with_marked_nodes _ _ _) as [h3 [e|]]; [discriminate E|]. injection E as <- <-. reflexivity.
Qed.

Definition tinv (m : option (list V)) (sh : S) (seen : bool) (s : tstate V S) : Prop :=
  ts_m s = m /\ ts_shift s = sh /\ okh (ts_h s) /\ no_mark (ts_h s) /\ (forall vs, m = Some vs -> Forall2 (fun k v => k_ok k v) ks vs) /\
  (seen = true -> exists g, Forall2 (fun k v => k_ok k v) ks g /\ map (fun c => bv_adj (ts_h s c)) (rf_ctrls rf) = map Some g).

Lemma new_dual_ok : forall (h : heap V) l g, map (fun c => bv_adj (h c)) l = map Some g -> new_dual l h = Ok g.
Proof.
  intros h. induction l as [|c l IH]; intros [|x g] H; cbn in H; try discriminate H; [reflexivity|]. cbn [new_dual].
  injection H as H1 H2. rewrite H1. cbn [bind]. rewrite (IH g H2). reflexivity.
Qed.
Lemma shifted : forall sh (arr x : list S), length arr = length x ->
  (if seqb sh szero then arr else axpy sadd smul sh x arr) = map (fun ab => sadd (fst ab) (smul sh (snd ab))) (combine arr x).
Proof.
  intros sh arr x Hl. destruct (seqb sh szero) eqn:E.
  - apply Heq in E. subst sh. revert x Hl. induction arr as [|a arr IH]; intros [|b x] Hl; try discriminate Hl; [reflexivity|].
    cbn. rewrite Hz, <- IH by (cbn in Hl; lia). reflexivity.
  - unfold axpy. revert x Hl. clear. induction arr as [|a arr IH]; intros [|b x] Hl; try discriminate Hl; [reflexivity|].
    cbn. rewrite IH by (cbn in Hl; lia). reflexivity.
Qed.

Lemma run_tplays : forall m sh seen a r,
  tplays ks sadd smul szero VAL (fun x g => DER x = Ok g) (fun x d H => HES x d = Ok H) riesz m sh seen a r ->
  forall s, tinv m sh seen s ->
  exists s', run_tao F sadd smul szero seqb true bs rf (types ks) cur (rf_ctrls rf) riesz a s = (s', r) /\ okh (ts_h s') /\ no_mark (ts_h s').
Proof.
  intros m sh seen a r P.
  induction P as [m sh seen x c Hx | m sh seen e | m sh seen x g0 vs y g arr k r Hp Hl0 Ev Ed Hpg P IH | m sh seen x g0 vs e k r Hp Ev P IH
    | m sh seen x vs k r Hp P IH | m sh seen al k r P IH | sh seen vs x y0 d y g ga H arr k r Hpd Hl0 Ev Ed Hpg EH HpH P IH | m sh x y0 g arr k r Hpg Hl0 Hpr P IH];
  intros s (I1 & I2 & I3 & I4 & I5 & I6); cbn [run_tao].
  - exists s. auto.
  - exists s. auto.
  - unfold cb_objective. rewrite (read_packed ks vs x cur HL Hp HC). unfold objective_gradient. pose proof (packed_ok ks vs x Hp) as Hok.
    rewrite (copies_ok ks vs HL Hok). destruct (objective_step (ts_h s) vs y g I3 I4 Hok Ev Ed) as (h1 & h2 & E1 & E2 & _ & Hh & _ & E3).
    rewrite E1, E2, E3, (write_packed ks g arr g0 HL Hpg Hl0). apply IH. destruct Hh as (A & B & _). do 5 (split; [cbn; auto|]).
    intros _. exists g. split; [exact (packed_ok ks g arr Hpg)|exact E3].
  - unfold cb_objective. rewrite (read_packed ks vs x cur HL Hp HC). unfold objective_gradient. pose proof (packed_ok ks vs x Hp) as Hok.
    rewrite (copies_ok ks vs HL Hok). destruct (okheap_call F t rf h0 Ht Hg Hcl N0 (ts_h s) vs I3) as (K1 & K2 & _ & K4).
    destruct (rf_call F bs rf vs (ts_h s)) as [h1 r1]. cbn [fst snd] in *. rewrite Ev in K2. subst r1. apply IH.
    do 5 (split; [cbn; auto|]); discriminate.
  - assert (E : (do m <- hess_point (types ks) cur s; read_vec (types ks) x m) = Ok vs).
    { unfold hess_point. rewrite I1. destruct m as [m|].
      - cbn [bind]. apply read_packed; auto.
      - rewrite (copies_ok ks cur HL HC). cbn [bind]. apply read_packed; auto. }
    rewrite E. apply IH. do 4 (split; [cbn; auto|]). split; [|exact I6]. intros vs' Hvs. injection Hvs as <-. exact (packed_ok ks vs x Hp).
  - apply IH. split; [exact I1|]. split; [cbn; now rewrite I2|]. cbn. auto.
  - unfold cb_mult. rewrite (read_packed ks d x cur HL Hpd HC). unfold hess_point. rewrite I1. unfold objective_hessian.
    pose proof (I5 vs eq_refl) as Hok. rewrite (copies_ok ks vs HL Hok).
    destruct (objective_step (ts_h s) vs y g I3 I4 Hok Ev Ed) as (h1 & h2 & E1 & E2 & Hh1 & Hh2 & A2 & E3).
    rewrite E1, E2, (copies_ok ks d HL (packed_ok ks d x Hpd)).
    destruct (hes_holds F t rf h0 Ht Hg Hcl N0 Ho M0 HJt h1 vs d g H Hh1 Ed EH) as (h2' & h3 & E2' & E4 & Hh3).
    rewrite E2 in E2'. injection E2' as <-. rewrite E4.
    assert (A3 : forall c, In c (rf_ctrls rf) -> bv_hess (h3 c) <> None).
    { intros c Hc. apply (hessian_reaches F bs rf d h2 h3 H c); auto. }
    assert (E5 : map (fun c => bv_hess (h3 c)) (rf_ctrls rf) = map Some H).
    { rewrite (all_some (fun c => bv_hess (h3 c)) _ A3). f_equal. unfold rf_hessian, compute_hessian in E4.
      destruct (andthen _ _) as [h5 [e|]] in E4; [discriminate E4|]. injection E4 as <- <-. reflexivity. }
    rewrite E5, (write_packed ks H arr y0 HL HpH Hl0), I2.
    rewrite shifted. 2:{ destruct (packed_lengths ks H arr HL HpH) as [_ L1]. destruct (packed_lengths ks d x HL Hpd) as [_ L2]. congruence. }
    apply IH. destruct Hh3 as (B1 & B2 & _). do 5 (split; [cbn; auto|]).
    intros _. exists g. split; [exact (packed_ok ks g ga Hpg)|]. rewrite <- E3. apply map_ext. intros c.
    change h3 with (fst (h3, Ok H)). rewrite <- E4. unfold rf_hessian. apply hess_adj.
  - unfold cb_norm. destruct (I6 eq_refl) as (g1 & Hok1 & E1). rewrite (new_dual_ok (ts_h s) (rf_ctrls rf) g1 E1). cbn [bind].
    rewrite (read_packed ks g x g1 HL Hpg Hok1). cbn [bind].
    destruct (packed_lengths ks g x HL Hpg) as [L1 _]. rewrite L1, <- Hri, Nat.eqb_refl. cbn [negb].
    replace (map (fun fv : (V -> V) * V => Some (fst fv (snd fv))) (combine riesz g)) with (map Some (represent riesz g)).
    2:{ unfold represent. now rewrite map_map. }
    rewrite (write_packed ks _ arr y0 HL Hpr Hl0). apply IH. do 5 (split; [auto|]). exact I6.
Qed.
End Run.

Lemma tplays_mono : forall (V S : Type) (ks : list (ctl V S)) sadd smul szero J J' (dJ dJ' : list V -> list V -> Prop) (HJ : list V -> list V -> list V -> Prop) riesz m sh seen a r,
  List.Forall law ks -> (forall vs, Forall2 (fun k v => k_ok k v) ks vs -> J vs = J' vs) ->
  (forall vs y g, Forall2 (fun k v => k_ok k v) ks vs -> J vs = Ok y -> dJ vs g -> dJ' vs g) ->
  (forall vs, m = Some vs -> Forall2 (fun k v => k_ok k v) ks vs) ->
  tplays ks sadd smul szero J dJ HJ riesz m sh seen a r -> tplays ks sadd smul szero J' dJ' HJ riesz m sh seen a r.
Proof.
  intros V S ks sadd smul szero J J' dJ dJ' HJ riesz m sh seen a r HL E1 E2 Hm P.
  induction P as [m sh seen x c Hx | m sh seen e | m sh seen x g0 vs y g arr k r Hp Hl0 Ev Ed Hpg P IH | m sh seen x g0 vs e k r Hp Ev P IH
    | m sh seen x vs k r Hp P IH | m sh seen al k r P IH | sh seen vs x y0 d y g ga H arr k r Hpd Hl0 Ev Ed Hpg EH HpH P IH | m sh x y0 g arr k r Hpg Hl0 Hpr P IH].
  - now constructor.
  - constructor.
  - pose proof (packed_ok ks vs x Hp) as Hok. apply (tp_objective _ _ _ _ _ _ _ _ _ _ _ _ _ vs y g arr); eauto. now rewrite <- (E1 vs Hok).
  - pose proof (packed_ok ks vs x Hp) as Hok. apply (tp_fails _ _ _ _ _ _ _ _ _ _ _ _ _ vs e); eauto. now rewrite <- (E1 vs Hok).
  - pose proof (packed_ok ks vs x Hp) as Hok. eapply tp_hess; eauto. apply IH. intros u Hu. injection Hu as <-. exact Hok.
  - apply tp_shift. auto.
  - pose proof (Hm vs eq_refl) as Hok. apply (tp_mult _ _ _ _ _ _ _ _ _ _ _ _ _ d y g ga H arr); eauto. now rewrite <- (E1 vs Hok).
  - eapply tp_norm; eauto.
Qed.
Lemma tplays_length : forall (V S : Type) (ks : list (ctl V S)) sadd smul szero J dJ HJ riesz m sh seen a x c,
  tplays ks sadd smul szero J dJ HJ riesz m sh seen a (Ok (x, c)) -> length x = total ks.
Proof.
  intros V S ks sadd smul szero J dJ HJ riesz m sh seen a x c P. remember (Ok (x, c)) as r eqn:Er. revert Er.
  induction P; intros Er; auto; [injection Er as <- _; assumption | discriminate Er].
Qed.

(** ** The driver *)
Section Driver.
Context {V S : Type} (F : fops V).
Variables (sadd smul : S -> S -> S) (szero : S) (seqb : S -> S -> bool).
Hypothesis Hz : forall a b, sadd a (smul szero b) = a.
Hypothesis Heq : forall a b, seqb a b = true <-> a = b.

Lemma tao_plays : forall (t : tape V) (rf : rfun V) (h0 : heap V) (bcs : list (@bctrl V S)) ks cur riesz lim bounds is_list x_old alg x0 b r,
  let bs := t_flat t in
  topo bs -> (forall b, In b bs -> gives_value F b) -> closed (rf_ctrls rf) bs -> no_ctrl h0 -> no_mark h0 ->
  on_tape bs (rf_ctrls rf) -> In (rf_J rf) (vars_of bs) -> List.Forall shaped bs -> List.Forall gives_adj bs -> List.Forall gives_hess bs ->
  (forall c, In c (rf_ctrls rf) -> influences bs c (rf_J rf)) ->
  List.Forall law ks -> map bc_type bcs = types ks -> length ks = length (rf_ctrls rf) -> Forall2 (fun k v => k_ok k v) ks cur ->
  length riesz = length ks -> packed ks (map (saved h0) (rf_ctrls rf)) x0 -> length x_old = total ks ->
  match bounds with
  | None => b = None
  | Some l => length l = length ks /\ exists lu, tao_bounds (snd lim) (fst lim) bcs l = Ok lu /\ b = Some lu
  end ->
  tplays ks sadd smul szero (val_at F t rf h0) (fun x g => der_at F t rf h0 x = Ok g) (fun x d H => hes_at F t rf h0 x d = Ok H) riesz None szero false (alg x0 b) r ->
  tao_outcome ks is_list r (snd (tao_solve F sadd smul szero seqb true bs rf bcs cur (rf_ctrls rf) riesz lim bounds is_list x_old alg h0)).
Proof.
  intros t rf h0 bcs ks cur riesz lim bounds is_list x_old alg x0 b r bs Ht Hg Hcl N0 M0 Ho HJ Hsh Hga Hgh Hinf HL Hty Hlen HC Hri Hp0 Hxo Hb P.
  unfold tao_solve. rewrite Hty. set (vs0 := map (saved h0) (rf_ctrls rf)) in *.
  assert (Hcur : exists xc, packed ks cur xc).
  { clear - HC. induction HC as [|k v ks cur Hk HC IH]; [exists []; constructor|]. destruct IH as [xc IH]. exists (k_comp k v ++ xc). now constructor. }
  destruct Hcur as [xc Hxc]. rewrite (get_global_packed ks cur xc HL Hxc). cbn [bind].
  assert (Eb : match bounds with None => Ok None | Some l => if negb (length l =? length bcs) then Err EAssert else rmap Some (tao_bounds (snd lim) (fst lim) bcs l) end = Ok b).
  { destruct bounds as [l|]; [|now rewrite Hb]. destruct Hb as (Hl & lu & E & ->).
    assert (Hbl : length bcs = length ks) by (apply (f_equal (@length _)) in Hty; unfold types in Hty; now rewrite !map_length in Hty).
    rewrite Hl, Hbl, Nat.eqb_refl. cbn [negb]. rewrite E. reflexivity. }
  rewrite Eb. cbn [bind]. pose proof (packed_ok ks vs0 x0 Hp0) as Hok0. rewrite (copies_ok ks vs0 HL Hok0). cbn [bind].
  rewrite (write_packed ks vs0 x0 x_old HL Hp0 Hxo).
  destruct (run_tplays F sadd smul szero seqb Hz Heq t rf h0 Ht Hg Hcl N0 Ho M0 HJ Hsh Hga Hgh Hinf ks cur riesz HL HC Hlen Hri None szero false (alg x0 b) r P (TS None szero h0)) as (s' & E & _ & _).
  { do 2 (split; [reflexivity|]). split; [apply okheap_0; exact N0|]. split; [exact M0|]. split; [discriminate|discriminate]. }
  fold bs in E. rewrite E. destruct r as [[x c]|e]; [|reflexivity].
  pose proof (tplays_length _ _ _ _ _ _ _ _ _ _ _ _ _ _ _ _ P) as Hx. destruct (packed_exists ks x HL Hx) as [vs Hp].
  cbn [snd]. rewrite (read_packed ks vs x vs0 HL Hp Hok0). cbn [bind]. destruct c; [|reflexivity]. exists vs. split; [exact Hp|].
  destruct vs as [|v [|u vs]]; [reflexivity | destruct is_list; reflexivity | reflexivity].
Qed.

(** On a recorded program. *)
Lemma tao_recorded : forall ann (p : list (stmt V)) j l s (bcs : list (@bctrl V S)) ks cur riesz lim bounds is_list x_old alg x0 b r,
  consistent p -> disciplined ann p = true -> (j < length (w_objs (exec F (world_new F ann) p)))%nat ->
  let w := fst (recorded F ann p j) in
  let bs := t_flat (w_tape w) in
  let J := snd (recorded F ann p j) in
  let rf := RF J (w_ctrls w) s in
  let h0 := run_hist F bs (w_heap w) l in
  closed (w_ctrls w) bs -> on_tape bs (w_ctrls w) -> In J (vars_of bs) -> calls_controls w l -> no_mark h0 ->
  List.Forall gives_adj bs -> List.Forall gives_hess bs -> (forall c, In c (w_ctrls w) -> influences bs c J) ->
  List.Forall law ks -> map bc_type bcs = types ks -> length ks = length (w_ctrls w) -> Forall2 (fun k v => k_ok k v) ks cur ->
  length riesz = length ks -> packed ks (map (saved h0) (w_ctrls w)) x0 -> length x_old = total ks ->
  match bounds with
  | None => b = None
  | Some l => length l = length ks /\ exists lu, tao_bounds (snd lim) (fst lim) bcs l = Ok lu /\ b = Some lu
  end ->
  tplays ks sadd smul szero (fun x => rmap (fun y => f_mul F y s) (spec_rerun F ann p x j))
    (fun x g => der_at F (w_tape w) rf h0 x = Ok g) (fun x d H => hes_at F (w_tape w) rf h0 x d = Ok H) riesz None szero false (alg x0 b) r ->
  tao_outcome ks is_list r (snd (tao_solve F sadd smul szero seqb true bs rf bcs cur (w_ctrls w) riesz lim bounds is_list x_old alg h0)).
Proof.
  intros ann p j l s bcs ks cur riesz lim bounds is_list x_old alg x0 b r Hc Hd Hj w bs J rf h0 Hcl Ho HJ Hcc M0 Hga Hgh Hinf HL Hty Hlen HC Hri Hp0 Hxo Hb P.
  destruct (recorded_clean F ann p j Hc Hd Hj) as [Hwf [Hgv [Nc _]]]. fold w bs in Hwf, Hgv, Nc.
  pose proof (recorded_shaped F ann p j Hc Hd Hj) as Hsh. fold w bs in Hsh.
  apply (tao_plays (w_tape w) rf h0 bcs ks cur riesz lim bounds is_list x_old alg x0 b r); auto.
  - apply Hwf.
  - apply hist_frame. exact Nc.
  - revert P. apply tplays_mono; auto; [|discriminate].
    intros vs Hok. symmetry. apply (rf_call_rerun F ann p j vs s l Hc Hd Hj); auto.
    fold w. rewrite <- (F2_len _ _ _ Hok). exact Hlen.
Qed.
End Driver.

(** Over the reals the derivatives are gradients. *)
Lemma tao_exact : forall (S : Type) (sadd smul : S -> S -> S) (szero : S) (seqb : S -> S -> bool) ann p j l s (bcs : list (@bctrl R S)) ks cur riesz lim bounds is_list x_old alg x0 b r,
  (forall a b, sadd a (smul szero b) = a) -> (forall a b, seqb a b = true <-> a = b) ->
  consistent p -> disciplined ann p = true -> (j < length (w_objs (exec RO (world_new RO ann) p)))%nat ->
  let w := fst (recorded RO ann p j) in
  let bs := t_flat (w_tape w) in
  let J := snd (recorded RO ann p j) in
  let rf := RF J (w_ctrls w) s in
  let h0 := run_hist RO bs (w_heap w) l in
  closed (w_ctrls w) bs -> on_tape bs (w_ctrls w) -> In J (vars_of bs) -> NoDup (w_ctrls w) -> w_ctrls w <> [] -> independent bs (w_ctrls w) ->
  calls_controls w l -> no_mark h0 ->
  List.Forall gives_adj bs -> List.Forall gives_hess bs -> (forall c, In c (w_ctrls w) -> influences bs c J) ->
  List.Forall law ks -> map bc_type bcs = types ks -> length ks = length (w_ctrls w) -> Forall2 (fun k v => k_ok k v) ks cur ->
  length riesz = length ks -> packed ks (map (saved h0) (w_ctrls w)) x0 -> length x_old = total ks ->
  match bounds with
  | None => b = None
  | Some l => length l = length ks /\ exists lu, tao_bounds (snd lim) (fst lim) bcs l = Ok lu /\ b = Some lu
  end ->
  (forall x, length x = length (w_ctrls w) -> is_ok (spec_rerun RO ann p x j) = true ->
     let e := saved (fst (rf_call RO bs rf x h0)) in smooth_at bs (w_ctrls w) e /\ adjoints_right bs (w_ctrls w) e /\ adjoints_run bs (w_ctrls w) e) ->
  tplays ks sadd smul szero (objective (fun x => spec_rerun RO ann p x j) s) (gradient_at (fun x => spec_rerun RO ann p x j) s)
    (fun x d H => hes_at RO (w_tape w) rf h0 x d = Ok H) riesz None szero false (alg x0 b) r ->
  tao_outcome ks is_list r (snd (tao_solve RO sadd smul szero seqb true bs rf bcs cur (w_ctrls w) riesz lim bounds is_list x_old alg h0)).
Proof.
  intros S sadd smul szero seqb ann p j l s bcs ks cur riesz lim bounds is_list x_old alg x0 b r Hz Heq Hc Hd Hj w bs J rf h0 Hcl Ho HJ Hnd Hne Hi Hcc M0
    Hga Hgh Hinf HL Hty Hlen HC Hri Hp0 Hxo Hb Hreg P.
  apply (tao_recorded RO sadd smul szero seqb Hz Heq ann p j l s bcs ks cur riesz lim bounds is_list x_old alg x0 b r); auto.
  revert P. apply tplays_mono; auto; [|discriminate].
  intros vs y g Hok Hy Hg. assert (Lv : length vs = length (w_ctrls w)) by (rewrite <- (F2_len _ _ _ Hok); exact Hlen).
  destruct (Hreg vs) as (R1 & R2 & R3); auto.
  { unfold objective in Hy. destruct (spec_rerun RO ann p vs j); [reflexivity|discriminate Hy]. }
  apply (gradient_der ann p j s l vs y g); auto.
Qed.
