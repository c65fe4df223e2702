(** Facts about constraints handed to ROL. *)
From Coq Require Import List Arith Bool Lia Reals.
From Verif Require Import Base Model BaseFacts Graph Record Spec RecordFacts Replay ReplayExec History Session Sweep SpecGraph Marks Iso Surgery TapeMore Coll
  Solvers SpecSolvers SolverFacts FreshAdj Dual TlmSweep RealInst Calculus Gradient RFullFacts SpecHess HessExact SpecMinimise MinimiseFacts Rol SpecRol RolFacts HessDer RolCon SpecRolCon.
Import ListNotations.
Local Open Scope nat_scope.

Lemma put_put : forall {A} (l : list A) i x y, i < length l -> put (put l i x) i y = put l i y.
Proof.
  intros A l i x y Hi. rewrite (put_set l i x Hi). rewrite !put_set by (rewrite ?length_list_set; exact Hi).
  apply ext_nth. intros k. rewrite !nth_list_set. destruct (Nat.eqb_spec i k) as [->|]; [|reflexivity]. rewrite Nat.eqb_refl. destruct (nth_error l k); reflexivity.
Qed.

Section Con.
Context {V S : Type} (F : fops V).
Variables (add : V -> V -> V) (mul : S -> V -> V) (dot : V -> V -> S) (dim : V -> nat)
  (unary : (S -> S) -> V -> V) (binary : (S -> S -> S) -> V -> V -> V) (reduce : (S -> S -> S) -> V -> S -> S) (asg : bool)
  (zero : S) (plus : S -> S -> S) (root : S -> S) (riesz : V -> V).
Notation T := (OT add mul true true (Some dot) (Some dim) (Some unary) (Some binary) (Some reduce) asg).
Notation C := (Sc zero plus root).
Notation get := (Rol.get F).
Notation values := (Rol.values F).

Lemma get_set_same : forall m o x, o < length m -> get (list_set m o x) o = x.
Proof. intros m o x H. rewrite get_set, Nat.eqb_refl. apply Nat.ltb_lt in H. now rewrite H. Qed.
Lemma get_set_other : forall m o x p, o <> p -> get (list_set m o x) p = get m p.
Proof. intros m o x p H. rewrite get_set. apply Nat.eqb_neq in H. now rewrite H. Qed.

Lemma jac_spec : forall cs m x d j, NoDup j -> length j = length cs -> (forall o, In o j -> o < length m) -> (forall o, In o x -> ~ In o j) -> ~ In d j ->
  match mapM (fun c => rc_jac c (values m x) (get m d)) cs with
  | Ok ys => exists m', con_jac F T cs m x d j = (m', None) /\ values m' j = ys /\ length m' = length m /\ (forall o, ~ In o j -> get m' o = get m o)
  | Err e => exists m', con_jac F T cs m x d j = (m', Some e)
  end.
Proof.
  induction cs as [|c cs IH]; intros m x d [|o j] N L B Hx Hd; try discriminate L; cbn [mapM con_jac].
  - exists m. repeat split; auto.
  - destruct (rc_jac c (values m x) (get m d)) as [y|e]; [|eauto]. unfold store. cbn [ot_inplace].
    inversion N as [|? ? N1 N2]; subst. assert (Bo : o < length m) by (apply B; now left).
    specialize (IH (list_set m o y) x d j N2 ltac:(now injection L)).
    assert (Ev : values (list_set m o y) x = values m x).
    { apply values_ext. intros p Hp. apply get_set_other. intros ->. exact (Hx p Hp (or_introl eq_refl)). }
    assert (Ed : get (list_set m o y) d = get m d) by (apply get_set_other; intros ->; apply Hd; now left).
    rewrite Ev, Ed in IH.
    destruct (mapM (fun c0 => rc_jac c0 (values m x) (get m d)) cs) as [ys|e].
    + destruct IH as (m' & E & Evs & Lm & G); [intros p Hp; rewrite length_list_set; apply B; now right | intros p Hp Q; apply (Hx p Hp); now right | intros Q; apply Hd; now right|].
      exists m'. rewrite E. split; [reflexivity|]. rewrite length_list_set in Lm. split; [|split; [exact Lm|]].
      * unfold Rol.values in *. cbn [map]. rewrite Evs, (G o N1), get_set_same by exact Bo. reflexivity.
      * intros p Hp. rewrite G by (intros Q; apply Hp; now right). apply get_set_other. intros ->. apply Hp. now left.
    + apply IH; [intros p Hp; rewrite length_list_set; apply B; now right | intros p Hp Q; apply (Hx p Hp); now right | intros Q; apply Hd; now right].
Qed.

Lemma sum_spec : forall act act0 tmp result, tmp <> result -> forall cs m dp, length dp = length cs -> tmp < length m -> result < length m ->
  ~ In tmp dp -> ~ In result dp ->
  (forall c m' d, (forall o, o <> tmp -> o <> result -> get m' o = get m o) -> act c m' d = act0 c d) ->
  match mapM (fun kp => act0 (fst kp) (snd kp)) (combine cs (values m dp)) with
  | Ok ys => exists m', con_sum F T act cs m dp tmp result = (m', None) /\ get m' result = fold_left add ys (get m result) /\ length m' = length m /\
               (forall o, o <> tmp -> o <> result -> get m' o = get m o)
  | Err e => exists m', con_sum F T act cs m dp tmp result = (m', Some e)
  end.
Proof.
  intros act act0 tmp result Nt. induction cs as [|c cs IH]; intros m [|d dp] L Bt Br Ht Hr Ha; try discriminate L; cbn [con_sum].
  - cbn. exists m. repeat split; auto.
  - unfold Rol.values. cbn [map combine mapM fst snd]. fold (values m dp). rewrite (Ha c m (get m d)) by auto. destruct (act0 c (get m d)) as [y|e]; [|eauto].
    unfold store. cbn [ot_inplace ot_add]. set (m1 := list_set m tmp y). rewrite (get_set_other m tmp y result Nt) || idtac.
    assert (E1 : get m1 tmp = y) by (apply get_set_same; exact Bt). assert (E2 : get m1 result = get m result) by (apply get_set_other; exact Nt).
    rewrite E1. fold m1. set (m2 := list_set m1 result (add (get m1 result) y)).
    assert (L2 : length m2 = length m) by (unfold m2, m1; now rewrite !length_list_set).
    assert (G2 : forall o, o <> tmp -> o <> result -> get m2 o = get m o).
    { intros o H1 H2. unfold m2, m1. rewrite !get_set_other by congruence. reflexivity. }
    assert (R2 : get m2 result = add (get m result) y).
    { unfold m2. rewrite get_set_same by (unfold m1; rewrite length_list_set; exact Br). now rewrite E2. }
    specialize (IH m2 dp ltac:(now injection L)). rewrite L2 in IH. specialize (IH Bt Br).
    assert (Ed : values m2 dp = values m dp).
    { apply values_ext. intros o Ho. apply G2; intros ->; [apply Ht | apply Hr]; now right. }
    rewrite Ed in IH.
    destruct (mapM (fun kp => act0 (fst kp) (snd kp)) (combine cs (values m dp))) as [ys|e].
    + destruct IH as (m' & E & Er & Lm & G); [intros Q; apply Ht; now right | intros Q; apply Hr; now right | |].
      { intros c' m' d' Hm. apply Ha. intros o H1 H2. rewrite Hm by assumption. now apply G2. }
      exists m'. split; [exact E|]. split; [cbn [fold_left]; rewrite Er, R2; reflexivity|]. split; [exact Lm|].
      intros o H1 H2. rewrite G by assumption. now apply G2.
    + apply IH; [intros Q; apply Ht; now right | intros Q; apply Hr; now right |].
      intros c' m' d' Hm. apply Ha. intros o H1 H2. rewrite Hm by assumption. now apply G2.
Qed.

Lemma act_spec : forall act act0 cs m dp result, length dp = length cs -> result < length m -> (forall o, In o dp -> o < length m) -> ~ In result dp ->
  (forall c m' d, (forall o, o < length m -> o <> result -> get m' o = get m o) -> act c m' d = act0 c d) ->
  match mapM (fun kp => act0 (fst kp) (snd kp)) (combine cs (values m dp)) with
  | Ok ys => exists m', con_act F T C act cs m dp result = (m', None) /\ get m' result = fold_left add ys (mul zero (get m result)) /\ length m <= length m' /\
               (forall o, o < length m -> o <> result -> get m' o = get m o)
  | Err e => exists m', con_act F T C act cs m dp result = (m', Some e)
  end.
Proof.
  intros act act0 cs m dp result L Br Bd Hr Ha. unfold con_act, v_scale. cbn [ot_inplace ot_mul sc_zero]. unfold each. cbn [fold_left].
  set (m1 := list_set m result (mul zero (get m result))). assert (L1 : length m1 = length m) by apply length_list_set.
  set (m2 := m1 ++ [get m1 result]). assert (L2 : length m2 = Datatypes.S (length m)) by (unfold m2; rewrite app_length, L1; cbn; lia).
  assert (G2 : forall o, o < length m -> o <> result -> get m2 o = get m o).
  { intros o Ho Hn. unfold m2. rewrite get_app by lia. unfold m1. apply get_set_other. congruence. }
  assert (R2 : get m2 result = mul zero (get m result)).
  { unfold m2. rewrite get_app by lia. unfold m1. apply get_set_same. exact Br. }
  pose proof (sum_spec act act0 (length m1) result ltac:(lia) cs m2 dp L ltac:(lia) ltac:(lia)) as H.
  assert (Ed : values m2 dp = values m dp) by (apply values_ext; intros o Ho; apply G2; [now apply Bd | intros ->; contradiction]).
  rewrite Ed, R2 in H.
  assert (H' := H ltac:(intros Q; specialize (Bd _ Q); lia) Hr
     ltac:(intros c m' d Hm; apply Ha; intros o Ho Hn; rewrite Hm by lia; now apply G2)). clear H.
  destruct (mapM (fun kp => act0 (fst kp) (snd kp)) (combine cs (values m dp))) as [ys|e]; [|exact H'].
  destruct H' as (m' & E & Er & Lm & G). exists m'. split; [exact E|]. split; [exact Er|]. split; [lia|]. intros o Ho Hn. rewrite G by lia. now apply G2.
Qed.

Section Run.
Variables (t : tape V) (rf : rfun V) (h0 : heap V).
Notation bs := (t_flat t).
Hypothesis Ht : topo bs.
Hypothesis Hg : forall b, In b bs -> gives_value F b.
Hypothesis Hcl : closed (rf_ctrls rf) bs.
Hypothesis N0 : no_ctrl h0.
Hypothesis Ho : on_tape bs (rf_ctrls rf).
Hypothesis M0 : no_mark h0.
Hypothesis HJt : In (rf_J rf) (vars_of bs).
Hypothesis Hne : rf_ctrls rf <> [].
Variable all : list (rcon V).
Notation VAL := (val_at F t rf h0).
Notation DER := (fun x d => der_at F t rf h0 x = Ok d).
Notation HES := (fun x v h => hes_at F t rf h0 x v = Ok h).
Notation con_does := (SpecRolCon.con_does add mul zero riesz all).
Notation cplays n := (SpecRolCon.cplays add mul dot dim unary binary reduce zero plus root riesz all n VAL DER HES).
Notation sim := (sim F t rf h0).
Notation inv := (rol_inv F t rf h0).

Lemma group_those : forall q, group all q = those all q.
Proof. intros []; unfold group, those, eq_cons, ineq_cons; apply filter_ext; intros c; unfold kind_is; destruct (rc_class c); reflexivity. Qed.
(** objects changed or added *)
Lemma sim_wrote_more : forall vs p g s m vs', sim vs p g s -> length (so_objs s) <= length m -> vs' = map (values m) (so_vecs s) -> sim vs' p g (wrote F rf s m).
Proof.
  intros vs p g s m vs' [A E R H G] L E'.
  assert (A' : apart m (so_vecs s)) by (destruct A as [A1 A2]; split; [exact A1|]; intros o Hoo; specialize (A2 o Hoo); lia).
  unfold wrote. destruct (so_shared s) eqn:Es; split; cbn; auto.
  - apply through_inv; auto.
  - intros x Hx v Hv. rewrite <- (G x Hx v Hv). destruct (through_spec F rf m (ro_h (so_rol s)) v) as [K|[_ [y K]]]; rewrite K; reflexivity.
Qed.
Lemma sim_rebound : forall vs p g s i d, sim vs p g s -> i < length vs -> sim (put vs i d) p g (rebound s i d (so_rol s)).
Proof.
  intros vs p g s i d [A E R H G] Hi. assert (Hi' : i < length (so_vecs s)) by (rewrite E, map_length in Hi; exact Hi). unfold rebound. split; cbn; auto.
  - now apply rebound_apart.
  - rewrite E. symmetry. now apply rebound_linked.
Qed.
Lemma vec_ok : forall vs p g s i, sim vs p g s -> i < length vs -> exists v, vec s i = Ok v.
Proof.
  intros vs p g s i [A E R H G] Hi. unfold vec. rewrite E, map_length in Hi. destruct (nth_error (so_vecs s) i) eqn:En; [eauto|]. apply nth_error_None in En. lia.
Qed.
Lemma apart_vecs : forall vs p g s i j v w, sim vs p g s -> nth_error (so_vecs s) i = Some v -> nth_error (so_vecs s) j = Some w -> i <> j -> forall o, In o v -> ~ In o w.
Proof. intros vs p g s i j v w [A _ _ _ _] Hi Hj Hn o Hoo. exact (nodup_apart (so_vecs s) i j v w o (proj1 A) Hi Hj Hn Hoo). Qed.
Lemma single : forall m v x, values m v = [x] -> exists o, v = [o] /\ get m o = x.
Proof. intros m [|o [|? ?]] x E; try discriminate E. injection E as E. eauto. Qed.

(** [mapped] after the sum over the constraints *)
Lemma mapped_sim : forall vs p g s jv r old act act0 cs dp ps, sim vs p g s -> nth_error (so_vecs s) jv = Some [r] -> get (so_objs s) r = old ->
  length dp = length cs -> values (so_objs s) dp = ps -> (forall o, In o dp -> o < length (so_objs s)) -> ~ In r dp ->
  (forall c m' d, (forall o, o < length (so_objs s) -> o <> r -> get m' o = get (so_objs s) o) -> act c m' d = act0 c d) ->
  match mapM (fun kp => act0 (fst kp) (snd kp)) (combine cs ps) with
  | Ok ys => exists s', mapped F riesz rf s jv (con_act F T C act cs (so_objs s) dp r) [r] = (s', Ok (@ANone V S)) /\
               sim (put vs jv [riesz (fold_left add ys (mul zero old))]) p g s'
  | Err e => exists s', mapped F riesz rf s jv (con_act F T C act cs (so_objs s) dp r) [r] = (s', Err e : res (vans V S))
  end.
Proof.
  intros vs p g s jv r old act act0 cs dp ps H Hj Eo L Ep Bd Hr Ha. pose proof H as [A E R Hs G].
  assert (Br : r < length (so_objs s)) by (apply (proj2 A); eapply in_concat_nth; [exact Hj|now left]).
  pose proof (act_spec act act0 cs (so_objs s) dp r L Br Bd Hr Ha) as K. rewrite Ep, Eo in K.
  destruct (mapM (fun kp => act0 (fst kp) (snd kp)) (combine cs ps)) as [ys|e]; destruct K as [m' K].
  - destruct K as (K1 & K2 & K3 & K4). rewrite K1. unfold mapped. cbn [fst snd]. eexists. split; [reflexivity|]. unfold Rol.values. cbn [map]. rewrite K2.
    set (z := fold_left add ys (mul zero old)).
    assert (W : map (values m') (so_vecs s) = put vs jv [z]).
    { rewrite E. rewrite put_set by (rewrite map_length; exact (nth_error_some_lt _ _ _ Hj)). apply ext_nth. intros k. rewrite nth_list_set, !nth_error_map, Hj. cbn.
      destruct (Nat.eqb_spec jv k) as [<-|Hk].
      - rewrite Hj. cbn. unfold Rol.values. cbn. now rewrite K2.
      - destruct (nth_error (so_vecs s) k) as [w|] eqn:Ek; [|reflexivity]. cbn. f_equal. apply values_ext. intros o Hoo. apply K4.
        + apply (proj2 A). eapply in_concat_nth; eauto.
        + intros ->. apply (nodup_apart (so_vecs s) k jv w [r] r (proj1 A) Ek Hj (not_eq_sym Hk) Hoo). now left. }
    assert (Lj : jv < length vs) by (rewrite E, map_length; exact (nth_error_some_lt _ _ _ Hj)).
    rewrite <- (put_put vs jv [z] [riesz z] Lj). apply sim_rebound.
    + eapply sim_wrote_more; [exact H | exact K3 | now rewrite W].
    + rewrite put_set, length_list_set by exact Lj. exact Lj.
  - rewrite K. unfold mapped. cbn. eauto.
Qed.

Lemma step_con : forall vs p g s o r, sim vs p g s -> con_does vs o r ->
  match r with
  | Ok vs' => exists s', con_step F T C riesz rf all s o = (s', Ok ANone) /\ sim vs' p g s'
  | Err e => exists s', con_step F T C riesz rf all s o = (s', Err e)
  end.
Proof.
  intros vs p g s o r H D. destruct D as [q c x xs Hc Hx | q jv v x xs d old Hx Hv Hj L N1 N2 | q jv v x xs ps old Hx Hv Hj L N1 N2 | q ah u v x xs d ps old Hx Hu Hv Hj L N1 N2 N3].
  - destruct (vec_of F t rf h0 vs p g s x xs H Hx) as (vx & _ & Ex & Vx & _). destruct (vec_ok vs p g s c H Hc) as [vc Ec]. cbn [con_step]. rewrite Ec, Ex. cbn [bind].
    unfold con_value. rewrite Vx, group_those. destruct (mapM (fun k => rc_fun k xs) (those all q)) as [ys|e]; cbn [rmap]; [|eauto]. eexists. split; [reflexivity|]. now apply sim_rebound.
  - destruct (vec_of F t rf h0 vs p g s x xs H Hx) as (vx & Nx & Ex & Vx & _). destruct (vec_of F t rf h0 vs p g s v [d] H Hv) as (vv & Nv & Ev & Vv & _).
    destruct (vec_of F t rf h0 vs p g s jv old H Hj) as (vj & Nj & Ej & Vj & Ndj & Bj). destruct (single _ _ _ Vv) as (od & -> & Ed).
    cbn [con_step]. rewrite Ej, Ev, Ex. cbn [bind v0]. rewrite group_those.
    assert (Lj : length vj = length (those all q)) by (rewrite <- L, <- Vj; unfold Rol.values; now rewrite map_length).
    pose proof (jac_spec (those all q) (so_objs s) vx od vj Ndj Lj Bj) as K. rewrite Vx, Ed in K.
    specialize (K (apart_vecs vs p g s x jv vx vj H Nx Nj (not_eq_sym N2)) (apart_vecs vs p g s v jv [od] vj H Nv Nj (not_eq_sym N1) od (or_introl eq_refl))).
    destruct (mapM (fun k => rc_jac k xs d) (those all q)) as [ys|e]; cbn [rmap]; destruct K as [m' K].
    + destruct K as (K1 & K2 & K3 & K4). rewrite K1. eexists. split; [reflexivity|]. eapply sim_wrote; [exact H | exact K3 |]. rewrite (si_vs _ _ _ _ _ _ _ _ H). symmetry.
      apply (write_linked F _ _ _ jv vj); auto. apply (si_apart _ _ _ _ _ _ _ _ H).
    + rewrite K. eauto.
  - destruct (vec_of F t rf h0 vs p g s x xs H Hx) as (vx & Nx & Ex & Vx & _ & Bx). destruct (vec_of F t rf h0 vs p g s v ps H Hv) as (vv & Nv & Ev & Vv & _ & Bv).
    destruct (vec_of F t rf h0 vs p g s jv [old] H Hj) as (vj & Nj & Ej & Vj & _). destruct (single _ _ _ Vj) as (r & -> & Er).
    cbn [con_step]. rewrite Ej, Ev, Ex. cbn [bind v0]. rewrite group_those.
    assert (Lp : length vv = length (those all q)) by (rewrite <- L, <- Vv; unfold Rol.values; now rewrite map_length).
    pose proof (mapped_sim vs p g s jv r old (fun c m d => rc_adj c (values m vx) d) (fun c d => rc_adj c xs d) (those all q) vv ps H Nj Er Lp Vv Bv) as K.
    specialize (K (fun Q => apart_vecs vs p g s v jv vv [r] H Nv Nj (not_eq_sym N1) r Q (or_introl eq_refl))).
    assert (Ha : forall (c : rcon V) m' d, (forall o, o < length (so_objs s) -> o <> r -> get m' o = get (so_objs s) o) -> rc_adj c (values m' vx) d = rc_adj c xs d).
    { intros c m' d Hm. rewrite <- Vx. f_equal. apply values_ext. intros o Hoo. apply Hm; [now apply Bx|]. intros ->.
      exact (apart_vecs vs p g s x jv vx [r] H Nx Nj (not_eq_sym N2) r Hoo (or_introl eq_refl)). }
    specialize (K Ha). destruct (mapM (fun kp => rc_adj (fst kp) xs (snd kp)) (combine (those all q) ps)) as [ys|e]; exact K.
  - destruct (vec_of F t rf h0 vs p g s x xs H Hx) as (vx & Nx & Ex & Vx & _ & Bx). destruct (vec_of F t rf h0 vs p g s v ps H Hv) as (vv & Nv & Ev & Vv & _ & Bv).
    destruct (vec_of F t rf h0 vs p g s u [d] H Hu) as (vu & Nu & Eu & Vu & _ & Bu). destruct (single _ _ _ Vu) as (od & -> & Ed).
    destruct (vec_of F t rf h0 vs p g s ah [old] H Hj) as (vj & Nj & Ej & Vj & _). destruct (single _ _ _ Vj) as (r & -> & Er).
    cbn [con_step]. rewrite Ej, Eu, Ev, Ex. cbn [bind v0]. rewrite group_those.
    assert (Lp : length vv = length (those all q)) by (rewrite <- L, <- Vv; unfold Rol.values; now rewrite map_length).
    pose proof (mapped_sim vs p g s ah r old (fun c m p => rc_hess c (values m vx) (get m od) p) (fun c p => rc_hess c xs d p) (those all q) vv ps H Nj Er Lp Vv Bv) as K.
    specialize (K (fun Q => apart_vecs vs p g s v ah vv [r] H Nv Nj (not_eq_sym N2) r Q (or_introl eq_refl))).
    assert (Ha : forall (c : rcon V) m' e, (forall o, o < length (so_objs s) -> o <> r -> get m' o = get (so_objs s) o) -> rc_hess c (values m' vx) (get m' od) e = rc_hess c xs d e).
    { intros c m' e Hm. rewrite <- Vx, <- Ed. f_equal.
      - apply values_ext. intros o Hoo. apply Hm; [now apply Bx|]. intros ->. exact (apart_vecs vs p g s x ah vx [r] H Nx Nj (not_eq_sym N3) r Hoo (or_introl eq_refl)).
      - apply Hm; [apply Bu; now left|]. intros ->. exact (apart_vecs vs p g s u ah [r] [r] H Nu Nj (not_eq_sym N1) r (or_introl eq_refl) (or_introl eq_refl)). }
    specialize (K Ha). destruct (mapM (fun kp => rc_hess (fst kp) xs d (snd kp)) (combine (those all q) ps)) as [ys|e]; exact K.
Qed.
Lemma crun_plays : forall n vs p g a r, cplays n vs p g a r -> forall s, sim vs p g s ->
  let o := cplay F T C riesz t rf all a s in
  match r with Err e => snd o = Some e | Ok x => snd o = None /\ exists v rest, so_vecs (fst o) = v :: rest /\ values (so_objs (fst o)) v = x end.
Proof.
  intros n vs p g a r P. induction P as [vs p g x Hx | vs p g o vs' a k r D P IH | vs p g o vs' k r D P IH | vs p g o e k D
    | vs p g f i x p' y d k r Hi Hn Ha Hy Hd P IH | vs p g f i x e k Hi Hn Hf He
    | vs p g x y k r Hp Hy P IH | vs p g i x d k r Hp Hi Hd P IH | vs p i j x v h k r Hp Hi Hj Hn Hh P IH]; intros s H; cbv zeta.
  - cbn. split; [reflexivity|]. destruct (vec_of F t rf h0 vs p g s 0 x H Hx) as (v & Hn & _ & Ex & _). destruct (so_vecs s) as [|v' rest]; [discriminate Hn|]. injection Hn as ->. eauto.
  - destruct (step_vector F t rf h0 add mul dot dim unary binary reduce asg zero plus root vs p g s o vs' a H D) as (s' & E & H'). cbn [cplay cstep]. rewrite E. exact (IH s' H').
  - destruct (step_con vs p g s o _ H D) as (s' & E & H'). cbn [cplay cstep]. rewrite E. exact (IH s' H').
  - destruct (step_con vs p g s o _ H D) as (s' & E). cbn [cplay cstep]. rewrite E. reflexivity.
  - destruct (vec_of F t rf h0 vs p g s i x H Hi) as (v & Hv & Ev & Ex & _). cbn [cplay cstep step]. rewrite Ev, Ex.
    destruct (rol_step F t rf h0 Ht Hg Hcl N0 p f x p' (so_rol s) y d (si_rol _ _ _ _ _ _ _ _ H) Ha Hy Hd) as (r' & Er & HI').
    pose proof (fun v => update_adj F t rf x f (so_rol s) v (proj1 (proj1 (rol_inv_heap F t rf h0 p _ (si_rol _ _ _ _ _ _ _ _ H))))) as Ad.
    rewrite Er in Ad |- *. cbn [fst] in Ad. apply IH. destruct H as [A E R Hs G]. split; cbn; [exact A | exact E | exact HI' | |].
    + intros Q. apply andb_true_iff in Q. destruct Q as [Q1 Q2]. specialize (Hs Q1). subst p. destruct f; try discriminate Q2. exfalso. clear - Ha.
      inversion Ha as [|? ? ? ? [K|K]| |]; discriminate K.
    + intros z Hz. unfold derived. intros u Hu. rewrite Ad. now apply G.
  - destruct (vec_of F t rf h0 vs p g s i x H Hi) as (v & Hv & Ev & Ex & _). cbn [cplay cstep step]. rewrite Ev, Ex.
    destruct (rol_inv_heap F t rf h0 p _ (si_rol _ _ _ _ _ _ _ _ H)) as [K _]. destruct (okheap_call F t rf h0 Ht Hg Hcl N0 _ x K) as (_ & E & _). rewrite He in E.
    unfold rol_update. destruct (rf_call F bs rf x (ro_h (so_rol s))) as [h1 r1]. cbn in E. subst r1. destruct Hf as [-> | [-> | ->]]; reflexivity.
  - cbn [cplay cstep step]. destruct (inv_current F t rf h0 mul zero plus root p x _ (si_rol _ _ _ _ _ _ _ _ H) Hp) as ((w & Hw & Ew) & _). unfold rol_value. rewrite Ew. replace w with y by congruence. now apply IH.
  - pose proof (inv_current F t rf h0 mul zero plus root p x _ (si_rol _ _ _ _ _ _ _ _ H) Hp) as (_ & _ & Hc). pose proof H as [A E R Hs G]. cbn [cplay cstep step].
    destruct (vec_ok vs p g s i H Hi) as [v Ev]. rewrite Ev. assert (Hi' : i < length (so_vecs s)) by (rewrite E, map_length in Hi; exact Hi).
    unfold rol_gradient. destruct (holds_deriv F t rf h0 Ht Hg Hcl N0 Ho M0 _ x d Hc Hd) as [E1 E2].
    pose proof (deriv_derived F t rf h0 Ht Hg Hcl N0 M0 Hne _ x Hc) as E3.
    destruct (rf_derivative F bs rf (f_one F) (ro_h (so_rol s))) as [h1 r1]. cbn [fst snd] in E1, E2, E3. subst r1. apply IH. unfold rebound. split; cbn.
    + now apply rebound_apart.
    + rewrite E. symmetry. now apply rebound_linked.
    + exact (inv_sweep F t rf h0 p x _ h1 R Hp E2).
    + exact Hs.
    + intros z Hz. injection Hz as <-. exact E3.
  - pose proof (inv_current F t rf h0 mul zero plus root p x _ (si_rol _ _ _ _ _ _ _ _ H) Hp) as (_ & Hd & Hc). pose proof H as [A E R Hs G]. cbn [cplay cstep step].
    destruct (vec_of F t rf h0 vs p (Some x) s j v H Hj) as (w & _ & Ew & Ex & _). destruct (vec_ok vs p _ s i H Hi) as [u Evi].
    assert (Hi' : i < length (so_vecs s)) by (rewrite E, map_length in Hi; exact Hi). rewrite Evi. cbn [bind]. rewrite Ew, Ex.
    destruct (hess_derived F t rf h0 Ht Hg Hcl N0 Ho M0 HJt _ x v h Hc (G x eq_refl) Hd Hh) as (h1 & E1 & E2 & E3). rewrite E1.
    apply IH. unfold rebound. split; cbn.
    + now apply rebound_apart.
    + rewrite E. symmetry. now apply rebound_linked.
    + exact (inv_sweep F t rf h0 p x _ h1 R Hp E2).
    + exact Hs.
    + intros z Hz. injection Hz as <-. exact E3.
Qed.

Notation first := (SpecRolCon.first_vectors mul zero all (map (saved h0) (rf_ctrls rf))).
Lemma cstart_sim : sim first RStart None (con_start F T C t rf all h0).
Proof.
  unfold con_start, SpecRolCon.first_vectors. rewrite <- (group_those true), <- (group_those false). cbn [group].
  set (es := map rc_space (eq_cons all)). set (ws := map rc_space (ineq_cons all)). set (x0 := map (saved h0) (rf_ctrls rf)). set (n := length (rf_ctrls rf)).
  assert (Lx : length x0 = n) by apply map_length.
  set (s0 := Sol (x0 ++ es ++ ws) [seq 0 n; seq n (length es); seq (n + length es) (length ws)] (rol_new h0) true).
  assert (H0 : sim [x0; es; ws] RStart None s0).
  { split; cbn.
    - split.
      + cbn [concat]. rewrite app_nil_r, <- !seq_app. replace (n + length es) with (n + length es) by reflexivity. 
        replace (seq n (length es) ++ seq (n + length es) (length ws)) with (seq n (length es + length ws)) by apply seq_app.
        replace (seq 0 n ++ seq n (length es + length ws)) with (seq 0 (n + (length es + length ws))) by (rewrite seq_app; reflexivity). apply seq_NoDup.
      + cbn [concat]. intros o Hoo. rewrite !in_app_iff, !in_seq in Hoo. cbn in Hoo. rewrite !app_length, Lx. lia.
    - pose proof (values_fresh F [] x0) as E1. pose proof (values_fresh F x0 es) as E2. pose proof (values_fresh F (x0 ++ es) ws) as E3. cbn in E1. rewrite app_length, Lx in *.
      f_equal; [|f_equal; [|f_equal]].
      + rewrite <- E1 at 1. apply values_ext. intros o Hoo. apply in_seq in Hoo. symmetry. apply get_app. lia.
      + rewrite <- E2 at 1. apply values_ext. intros o Hoo. apply in_seq in Hoo. rewrite app_assoc. symmetry. apply get_app. rewrite app_length. lia.
      + rewrite <- app_assoc in E3. symmetry. exact E3.
    - split; [reflexivity|]. split; [apply okheap_0; exact N0 | exact M0].
    - reflexivity.
    - discriminate. }
  unfold ws in *. clear ws. destruct (ineq_cons all) as [|c cs] eqn:Ei; cbn [map app]; [exact H0|].
  destruct (step_vector F t rf h0 add mul dot dim unary binary reduce asg zero plus root _ RStart None s0 (VClone 2) _ _ H0
    (do_clone _ _ _ _ _ _ _ _ _ _ [x0; es; map rc_space (c :: cs)] 2 _ eq_refl)) as (s1 & E & H1).
  cbn [map] in *. fold s0. rewrite E. exact H1.
Qed.
Lemma csolve_plays : forall n (A : Type) (e : enlist A) a r, (forall c, In c all -> rc_over c = true) -> cplays n first RStart None a r ->
  con_solve F T C riesz t rf all e a h0 = returned (el_listed e) r.
Proof.
  intros n A e a r Hov P. pose proof (crun_plays n _ _ _ a r P _ cstart_sim) as H. cbv zeta in H. unfold con_solve.
  assert (E : check_cons all = None).
  { unfold check_cons, eq_cons, ineq_cons. assert (Q : forall f, forallb rc_over (filter f all) = true) by (intros f; apply forallb_forall; intros c Hc; apply filter_In in Hc; now apply Hov). now rewrite !Q. }
  rewrite E. destruct (cplay F T C riesz t rf all a (con_start F T C t rf all h0)) as [s o]. cbn in H.
  destruct r as [x|er]; [|subst o; reflexivity]. destruct H as [-> (v & rest & Ev & Ex)]. rewrite Ev, Ex. reflexivity.
Qed.
End Run.
End Con.

Lemma good_point : forall {V} n (J : list V -> res V) p x, good n J p -> at_point p = Some x -> length x = n /\ exists y, J x = Ok y.
Proof. intros V n J [|c|c z] x H E; [discriminate | |]; injection E as <-; cbn in H; tauto. Qed.
Section Mono.
Context {V S : Type}.
Variables (add : V -> V -> V) (mul : S -> V -> V) (dot : V -> V -> S) (dim : V -> nat)
  (unary : (S -> S) -> V -> V) (binary : (S -> S -> S) -> V -> V -> V) (reduce : (S -> S -> S) -> V -> S -> S)
  (zero : S) (plus : S -> S -> S) (root : S -> S) (riesz : V -> V) (all : list (rcon V)).
Variables (n : nat) (J J' : list V -> res V) (dJ dJ' : list V -> list V -> Prop) (HJ HJ' : list V -> list V -> list V -> Prop).
Hypothesis EJ : forall x, length x = n -> J x = J' x.
Hypothesis ED : forall x y d, length x = n -> J x = Ok y -> dJ x d -> dJ' x d.
Hypothesis EH : forall x y v h, length x = n -> J x = Ok y -> length v = n -> HJ x v h -> HJ' x v h.
Notation cplays := (SpecRolCon.cplays add mul dot dim unary binary reduce zero plus root riesz all n).
Lemma cmono : forall vs p g a r, cplays J dJ HJ vs p g a r -> good n J p -> cplays J' dJ' HJ' vs p g a r.
Proof.
  intros vs p g a r P. induction P as [vs p g x Hx | vs p g o vs' a k r D P IH | vs p g o vs' k r D P IH | vs p g o e k D
    | vs p g f i x p' y d k r Hi Hn Ha Hy Hd P IH | vs p g f i x e k Hi Hn Hf He
    | vs p g x y k r Hp Hy P IH | vs p g i x d k r Hp Hi Hd P IH | vs p i j x v h k r Hp Hi Hj Hn Hh P IH]; intros Hgd.
  - now apply cp_stop.
  - eapply cp_vector; [exact D|]. now apply IH.
  - eapply cp_con; [exact D|]. now apply IH.
  - now apply cp_con_raise.
  - eapply cp_update; [exact Hi | exact Hn | exact Ha | rewrite <- EJ by exact Hn; exact Hy | exact (ED x y d Hn Hy Hd) |]. apply IH.
    destruct Ha as [q z | q f c z Hf Hq | c z | q c Hq]; cbn; eauto. split; [|eauto]. destruct Hq as [->|[w ->]]; cbn in Hgd; tauto.
  - eapply cp_raise; [exact Hi | exact Hn | exact Hf | now rewrite <- EJ].
  - destruct (good_point n J p x Hgd Hp) as [L _]. eapply cp_obj; [exact Hp | rewrite <- EJ by exact L; exact Hy | now apply IH].
  - destruct (good_point n J p x Hgd Hp) as [L [y Hy]]. eapply cp_gradient; [exact Hp | exact Hi | exact (ED x y d L Hy Hd) | now apply IH].
  - destruct (good_point n J p x Hgd Hp) as [L [y Hy]]. eapply cp_hessian; [exact Hp | exact Hi | exact Hj | exact Hn | exact (EH x y v h L Hy Hn Hh) | now apply IH].
Qed.
End Mono.

Section Recorded.
Context {V S : Type} (F : fops V).
Variables (add : V -> V -> V) (mul : S -> V -> V) (dot : V -> V -> S) (dim : V -> nat)
  (unary : (S -> S) -> V -> V) (binary : (S -> S -> S) -> V -> V -> V) (reduce : (S -> S -> S) -> V -> S -> S) (asg : bool)
  (zero : S) (plus : S -> S -> S) (root : S -> S) (riesz : V -> V) (all : list (rcon V)).
Lemma con_solve_recorded : forall ann (p : list (stmt V)) j l s (A : Type) (e : enlist A) a r,
  consistent p -> disciplined ann p = true -> (j < length (w_objs (exec F (world_new F ann) p)))%nat ->
  let w := fst (recorded F ann p j) in
  let bs := t_flat (w_tape w) in
  let J := snd (recorded F ann p j) in
  let rf := RF J (w_ctrls w) s in
  let h0 := run_hist F bs (w_heap w) l in
  closed (w_ctrls w) bs -> on_tape bs (w_ctrls w) -> In J (vars_of bs) -> NoDup (w_ctrls w) -> w_ctrls w <> [] -> calls_controls w l -> no_mark h0 ->
  (forall c, In c all -> rc_over c = true) ->
  SpecRolCon.cplays add mul dot dim unary binary reduce zero plus root riesz all (length (w_ctrls w)) (fun x => rmap (fun y => f_mul F y s) (spec_rerun F ann p x j))
    (fun x d => der_at F (w_tape w) rf h0 x = Ok d) (fun x v h => hes_at F (w_tape w) rf h0 x v = Ok h) (first_vectors mul zero all (map (saved h0) (w_ctrls w))) RStart None a r ->
  con_solve F (OT add mul true true (Some dot) (Some dim) (Some unary) (Some binary) (Some reduce) asg) (Sc zero plus root) riesz (w_tape w) rf all e a h0 = returned (el_listed e) r.
Proof.
  intros ann p j l s A e a r Hc Hd Hj w bs J rf h0 Hcl Ho HJ Hnd Hne Hcc M0 Hov P.
  destruct (recorded_clean F ann p j Hc Hd Hj) as [Hwf [Hgv [Nc _]]]. fold w bs in Hwf, Hgv, Nc.
  apply (csolve_plays F add mul dot dim unary binary reduce asg zero plus root riesz (w_tape w) rf h0) with (n := length (w_ctrls w)); auto; [apply Hwf | apply hist_frame; exact Nc |].
  eapply cmono; [| | |exact P|exact I].
  - intros x Hx. symmetry. apply (rf_call_rerun F ann p j x s l Hc Hd Hj); auto.
  - intros x y d Hx _ Hdx. exact Hdx.
  - intros x y v h Hx _ _ Hh. exact Hh.
Qed.
End Recorded.
Lemma con_solve_exact : forall (S : Type) (add : R -> R -> R) (mul : S -> R -> R) (dot : R -> R -> S) (dim : R -> nat)
  (unary : (S -> S) -> R -> R) (binary : (S -> S -> S) -> R -> R -> R) (reduce : (S -> S -> S) -> R -> S -> S) (asg : bool)
  (zero : S) (plus : S -> S -> S) (root : S -> S) (riesz : R -> R) (all : list (rcon R)) ann (p : list (stmt R)) j l s (A : Type) (e : enlist A) a r,
  consistent p -> disciplined ann p = true -> (j < length (w_objs (exec RO (world_new RO ann) p)))%nat ->
  let w := fst (recorded RO ann p j) in
  let bs := t_flat (w_tape w) in
  let J := snd (recorded RO ann p j) in
  let rf := RF J (w_ctrls w) s in
  let h0 := run_hist RO bs (w_heap w) l in
  closed (w_ctrls w) bs -> on_tape bs (w_ctrls w) -> In J (vars_of bs) -> NoDup (w_ctrls w) -> w_ctrls w <> [] -> independent bs (w_ctrls w) -> calls_controls w l -> no_mark h0 ->
  (forall x, length x = length (w_ctrls w) -> is_ok (spec_rerun RO ann p x j) = true ->
     let e := saved (fst (rf_call RO bs rf x h0)) in
     twice_smooth bs (w_ctrls w) e /\ adjoints_right bs (w_ctrls w) e /\ adjoints_run bs (w_ctrls w) e /\ tangents_right bs (w_ctrls w) e /\
     forall d, length d = length (w_ctrls w) -> is_ok (hes_at RO (w_tape w) rf h0 x d) = true) ->
  second_order_sound bs (w_ctrls w) J ->
  (forall c, In c all -> rc_over c = true) ->
  SpecRolCon.cplays add mul dot dim unary binary reduce zero plus root riesz all (length (w_ctrls w)) (objective (fun x => spec_rerun RO ann p x j) s)
    (gradient_at (fun x => spec_rerun RO ann p x j) s) (hessian_at (fun x => spec_rerun RO ann p x j) s)
    (first_vectors mul zero all (map (saved h0) (w_ctrls w))) RStart None a r ->
  con_solve RO (OT add mul true true (Some dot) (Some dim) (Some unary) (Some binary) (Some reduce) asg) (Sc zero plus root) riesz (w_tape w) rf all e a h0 = returned (el_listed e) r.
Proof.
  intros S add mul dot dim unary binary reduce asg zero plus root riesz all ann p j l s A e a r Hc Hd Hj w bs J rf h0 Hcl Ho HJ Hnd Hne Hi Hcc M0 Hreg Hso Hov P.
  apply (con_solve_recorded RO add mul dot dim unary binary reduce asg zero plus root riesz all ann p j l s A e a r); auto.
  eapply cmono; [| | |exact P|exact I].
  - reflexivity.
  - intros x y d Hx Hy Hdx. destruct (Hreg x Hx) as ([R1 _] & R2 & R3 & _).
    { unfold objective in Hy. destruct (spec_rerun RO ann p x j); [reflexivity|discriminate Hy]. }
    apply (gradient_der ann p j s l x y d); auto.
  - intros x y v h Hx Hy _ Hh. apply (hessian_answer ann p j s l Hc Hd Hj Hnd Hne Hi Ho HJ Hcl Hcc M0 x v y h); auto.
Qed.

(** Only the two kinds are passed on. *)
Section Others.
Context {V S : Type} (F : fops V) (T : otype V S) (C : scalars S) (riesz : V -> V) (t : tape V) (rf : rfun V).
Lemma con_solve_ext : forall all all' (A : Type) (e : enlist A) a h, eq_cons all = eq_cons all' -> ineq_cons all = ineq_cons all' ->
  con_solve F T C riesz t rf all e a h = con_solve F T C riesz t rf all' e a h.
Proof.
  intros all all' A e a h E1 E2. unfold con_solve. assert (Ec : check_cons all = check_cons all') by (unfold check_cons; now rewrite E1, E2). rewrite Ec.
  assert (Es : con_start F T C t rf all h = con_start F T C t rf all' h) by (unfold con_start; now rewrite E1, E2). rewrite Es.
  assert (Ep : forall a s, cplay F T C riesz t rf all a s = cplay F T C riesz t rf all' a s); [|now rewrite Ep].
  clear - E1 E2. induction a as [|o k IH]; intros s; [reflexivity|]. cbn [cplay].
  assert (Ex : cstep F T C riesz t rf all s o = cstep F T C riesz t rf all' s o).
  { destruct o as [o|o]; [reflexivity|]. cbn. unfold con_step. assert (Eg : forall q, group all q = group all' q) by (intros []; cbn; assumption). destruct o; now rewrite Eg. }
  rewrite Ex. destruct (cstep F T C riesz t rf all' s o) as [s' [x|er]]; [apply IH | reflexivity].
Qed.
Lemma csolve_refuses : forall all (A : Type) (e : enlist A) a h c, In c all -> rc_class c <> ROther -> rc_over c = false -> con_solve F T C riesz t rf all e a h = Err EType.
Proof.
  intros all A e a h c Hc Hk Hov. unfold con_solve.
  assert (E : check_cons all = Some EType); [|now rewrite E].
  unfold check_cons. assert (Q : forall f, f c = true -> forallb rc_over (filter f all) = false).
  { intros f Hf. destruct (forallb rc_over (filter f all)) eqn:E; [|reflexivity]. rewrite forallb_forall in E. rewrite <- Hov. symmetry. apply E. apply filter_In. auto. }
  destruct (rc_class c) eqn:K; [ | | congruence].
  - assert (E : forallb rc_over (eq_cons all) = false) by (unfold eq_cons; apply Q; now rewrite K). now rewrite E.
  - assert (E : forallb rc_over (ineq_cons all) = false) by (unfold ineq_cons; apply Q; now rewrite K). now rewrite E, andb_false_r.
Qed.
Lemma con_solve_others : forall all (A : Type) (e : enlist A) a h,
  con_solve F T C riesz t rf all e a h = con_solve F T C riesz t rf (filter (fun c => match rc_class c with ROther => false | _ => true end) all) e a h.
Proof.
  intros. apply con_solve_ext; unfold eq_cons, ineq_cons; (induction all as [|c l IH]; [reflexivity|]); cbn; destruct (rc_class c) eqn:K; cbn; rewrite ?K; congruence.
Qed.
End Others.
