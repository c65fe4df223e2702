(** The exported graph of recorded programs. *)
From Coq Require Import List Arith ZArith Bool Lia.
From Verif Require Import Base Model Record Spec BaseFacts Graph RecordFacts SpecGraph Replay ReplayExec History Session Dual Marks Instances TapeValues Export SpecExport ExportFacts.
Import ListNotations.

Section Run.
Context {V : Type} (F : fops V).

Lemma len_get_bvs : forall os (w : world V), length (snd (get_bvs w os)) = length os.
Proof. induction os as [|o r IH]; intros w; [reflexivity|]. cbn [get_bvs]. destruct (get_bv w o) as [w1 v]. specialize (IH w1). destruct (get_bvs w1 r). cbn in *. lia. Qed.
Lemma len_add_deps : forall os (w : world V), length (snd (add_deps w os)) = length os.
Proof. induction os as [|o r IH]; intros w; [reflexivity|]. cbn [add_deps]. destruct (add_dep w o) as [w1 v]. specialize (IH w1). destruct (add_deps w1 r). cbn in *. lia. Qed.
Lemma sized_last : forall (v : nat) (l : list (block V)), Forall sized l -> Forall sized (map_last (push_out v) l).
Proof. intros v l H. induction H as [|b r Hb Hr IH]; [constructor|]. cbn. destruct r; [constructor; [exact Hb|constructor]|constructor; auto]. Qed.

Lemma sized_stmt : forall (w : world V) c, Forall sized (flat w) -> Forall sized (flat (fst (exec_stmt F w c))).
Proof.
  intros w c H.
  assert (Hadd : forall t b, Forall sized (t_flat t) -> sized b -> Forall sized (t_flat (add_block (V := V) t b))).
  { intros t b Ht Hb. rewrite flat_add_block. apply Forall_app. auto. }
  destruct c; cbn [exec_stmt]; cbn [fst].
  - exact H.
  - unfold exec_op. destruct (negb _) eqn:En; [exact H|]. apply negb_false_iff, andb_true_iff in En as [Hk Hl]. apply Nat.eqb_eq in Hl.
    destruct (arg_vals w args) as [xs|]; [|exact H]. destruct (op_value F k xs); [|exact H].
    cbn [new_obj]. set (w1 := with_objs _ w). destruct (w_ann w); [|exact H].
    pose proof (flat_get_bvs args w1) as A. pose proof (len_get_bvs args w1) as L. destruct (get_bvs w1 args) as [w2 ts].
    pose proof (flat_add_deps args w2) as B. destruct (add_deps w2 args) as [w3 ds]. cbn [fst snd] in *.
    set (w4 := with_tape _ w3). pose proof (flat_get_bv w4 (length (w_objs w))) as C.
    destruct (get_bv w4 _) as [w5 v]. cbn [fst] in *. pose proof (flat_will_out w5 v) as D.
    unfold flat in *. cbn [fst].
    change (Forall sized (map_last (push_out v) (t_flat (w_tape (will_out w5 v))))).
    apply sized_last. rewrite D, C. apply Hadd; [rewrite B, A; exact H|].
    unfold sized. cbn [b_kind b_deps]. destruct k; cbn in *; auto; try discriminate; lia.
  - unfold exec_fun. destruct (negb _) eqn:En; [exact H|]. apply negb_false_iff, andb_true_iff in En as [Hk _].
    destruct (arg_vals w args) as [xs|]; [|exact H].
    match goal with |- context[new_obj ?x _] => set (w1 := x) end.
    assert (H1 : Forall sized (flat w1)).
    { unfold w1. destruct (w_ann w && annotate); [|exact H].
      pose proof (flat_add_deps args w) as B. destruct (add_deps w args) as [w3 ds]. cbn [fst] in B.
      unfold flat in *. cbn. apply Hadd; [rewrite B; exact H|]. unfold sized. cbn. destruct k; cbn in *; auto; discriminate. }
    destruct (op_value F k xs); [|exact H1]. cbn [new_obj]. set (w2 := with_objs _ w1).
    destruct (w_ann w && annotate); [|exact H1].
    pose proof (flat_get_bv w2 (length (w_objs w1))) as C. destruct (get_bv w2 _) as [w5 v]. cbn [fst] in *.
    pose proof (flat_will_out w5 v) as D. unfold flat in *. cbn [fst].
    change (Forall sized (map_last (push_out v) (t_flat (w_tape (will_out w5 v))))).
    apply sized_last. rewrite D, C. exact H1.
  - unfold exec_user. destruct (arg_vals w args) as [xs|]; [|exact H].
    set (r := if w_ann w && annotate then add_deps w args else (w, [])).
    assert (B : flat (fst r) = flat w) by (unfold r; destruct (w_ann w && annotate); [apply flat_add_deps|reflexivity]).
    destruct r as [w1 deps]. cbn [fst] in *. destruct (func xs) as [ys|]; cbn [fst]; [|rewrite B; exact H].
    pose proof (flat_new_objs ys w1) as C. destruct (new_objs w1 ys) as [w2 os]. cbn [fst] in *.
    destruct (w_ann w && annotate); [|cbn [fst]; rewrite C, B; exact H].
    pose proof (flat_add_outs os w2) as D. destruct (add_outs w2 os) as [w3 vs]. cbn [fst] in *.
    unfold flat in *. cbn. apply Hadd; [rewrite D, C, B; exact H|exact I].
  - unfold exec_inpl. destruct (arg_vals w args) as [xs|]; [|exact H]. destruct (nth_error (w_objs w) o); [|exact H].
    set (r := if w_ann w && annotate then add_deps w args else (w, [])).
    assert (B : flat (fst r) = flat w) by (unfold r; destruct (w_ann w && annotate); [apply flat_add_deps|reflexivity]).
    destruct r as [w1 deps]. cbn [fst] in *. destruct (func xs) as [y|]; cbn [fst]; [|rewrite B; exact H].
    assert (C : flat (assign_obj w1 o y) = flat w1) by (unfold assign_obj; destruct (nth_error _ _); reflexivity).
    destruct (w_ann w && annotate); [|cbn [fst]; rewrite C, B; exact H].
    pose proof (flat_add_outs [o] (assign_obj w1 o y)) as D. destruct (add_outs (assign_obj w1 o y) [o]) as [w3 vs]. cbn [fst] in *.
    unfold flat in *. cbn. apply Hadd; [rewrite D, C, B; exact H|exact I].
  - destruct (nth_error (w_objs w) o) eqn:E; [|exact H]. cbn [fst].
    assert (B : forall w', flat (clear_bv (V := V) w' o) = flat w') by (intros w'; unfold clear_bv; destruct (nth_error (w_objs w') o); reflexivity).
    rewrite B. unfold assign_obj. rewrite E. exact H.
  - exact H.
  - exact H.
  - exact H.
  - destruct (nth_error (w_objs w) o) as [ob|] eqn:E; [|exact H]. destruct (o_bv ob); [|exact H]. destruct (referenced w _); [exact H|].
    cbn. unfold clear_bv. rewrite E. exact H.
  - destruct (nth_error (w_objs w) o); [|exact H]. pose proof (flat_get_bv w o) as A. destruct (get_bv w o) as [w1 v]. cbn [fst] in *.
    unfold flat in *. cbn. rewrite A. exact H.
  - destruct (nth_error (w_objs w) o); [|exact H]. cbn [fst]. rewrite flat_get_bv. exact H.
Qed.
Lemma sized_exec : forall p (w : world V), Forall sized (flat w) -> Forall sized (flat (exec F w p)).
Proof.
  induction p as [|c r IH]; intros w H; [exact H|].
  change (exec F w (c :: r)) with (exec F (fst (exec_stmt F w c)) r). apply IH. now apply sized_stmt.
Qed.
Lemma sized_recorded : forall ann p j, Forall sized (flat (fst (recorded F ann p j))).
Proof. intros. unfold recorded. rewrite flat_get_bv. apply sized_exec. constructor. Qed.

Theorem recorded_graph : forall ann p j h, let w := fst (recorded F ann p j) in
  let bs := t_flat (w_tape w) in
  let show := shown w h in
  (create_graph w h = Err EKey /\ exists b, In b bs /\ b_deps b = [] /\ b_outs b = []) \/
  (exists g, create_graph w h = Ok g /\ (forall b, In b bs -> b_deps b <> [] \/ b_outs b <> []) /\ NoDup (map fst (g_nodes g)) /\ NoDup (g_edges g) /\
    (forall a b, In (a, b) (g_edges g) <-> flows bs a b) /\
    (forall i, find_node (NBlk i) g = option_map (fun b => Some (Attr (block_label show i b) 0 (- 2 * Z.of_nat i) true)) (nth_error bs i)) /\
    (forall v, find_node (NVar v) g = option_map (fun p => Some (Attr (LNum (show v)) (fst p) (snd p) false)) (first_place bs v)) /\
    (forall v, first_place bs v <> None <-> exists b, In b bs /\ (In v (b_deps b) \/ In v (b_outs b)))).
Proof. intros ann p j h. apply graph_of_tape. apply sized_recorded. Qed.

Lemma graph_edges : forall ann p j h g, create_graph (fst (recorded F ann p j)) h = Ok g ->
  forall a b, In (a, b) (g_edges g) <-> flows (t_flat (w_tape (fst (recorded F ann p j)))) a b.
Proof.
  intros ann p j h g E. destruct (recorded_graph ann p j h) as [[K _]|[g' [E' [_ [_ [_ [K _]]]]]]]; [congruence|]. rewrite E in E'. injection E' as <-. exact K.
Qed.

Lemma path_first : forall (g : graph V) a b, path g a b -> a = b \/ exists m, In (a, m) (g_edges g) /\ path g m b.
Proof.
  intros g a b Q. induction Q as [|b c Q IH He]; [now left|]. right. destruct IH as [->|[m [Hm Q']]].
  - exists c. split; [exact He|constructor].
  - exists m. split; [exact Hm|]. now apply path_step with b.
Qed.

(** No cycles. *)
Theorem graph_acyclic : forall ann p j h g, consistent p -> disciplined ann p = true -> j < length (w_objs (exec F (world_new F ann) p)) ->
  create_graph (fst (recorded F ann p j)) h = Ok g -> forall a b, In (a, b) (g_edges g) -> ~ path g b a.
Proof.
  intros ann p j h g Hc Hd Hj E. destruct (recorded_good F ann p j no_override Hc Hd Hj) as [[W _] _].
  pose proof (proj1 (wi_wf F [] _ W)) as Ht. pose proof (graph_edges ann p j h g E) as K. set (bs := t_flat _) in K.
  assert (Kt : topo bs) by exact Ht.
  assert (P : forall k i o d, nth_error bs i = Some k -> In o (b_outs k) -> In d (b_deps k) -> ~ path g (NVar o) (NVar d)).
  { intros k i o d Hk Ho Hd' Q. apply (path_influences bs g K) in Q. apply (acyclic bs k o d Kt); auto. now apply nth_error_In in Hk. }
  intros a b Hab Q. pose proof (proj1 (K a b) Hab) as [i [k [Hk [[d [Hd' [-> ->]]]|[o [Ho [-> ->]]]]]]].
  - apply path_first in Q as [Q|[m [Hm Q]]]; [discriminate|]. pose proof (proj1 (K _ _) Hm) as [i2 [k2 [H2 [[d2 [_ [E2 _]]]|[o2 [Ho2 [E2 ->]]]]]]]; [discriminate|].
    injection E2 as <-. rewrite Hk in H2. injection H2 as <-. exact (P k i o2 d Hk Ho2 Hd' Q).
  - inversion Q as [|b c Q' He]; subst. pose proof (proj1 (K _ _) He) as [i2 [k2 [H2 [[d2 [Hd2 [-> E2]]]|[o2 [_ [_ E2]]]]]]]; [|discriminate].
    injection E2 as <-. rewrite Hk in H2. injection H2 as <-. exact (P k i o d2 Hk Ho Hd2 Q').
Qed.

(** *** Without a path the answer does not depend on the control *)
Lemma some_out : forall (S : nat -> Prop) l, (forall v, S v \/ ~ S v) -> (exists o, In o l /\ S o) \/ (forall o, In o l -> ~ S o).
Proof.
  intros S l Hd. induction l as [|a r [[o [Ho So]]|IH]].
  - right. intros o [].
  - left. exists o. split; [now right|exact So].
  - destruct (Hd a) as [Sa|Na]; [left; exists a; split; [now left|exact Sa]|]. right. intros o [<-|Ho]; auto.
Qed.
Lemma geval_indep : forall cut (S : nat -> Prop) bs e1 e2, (forall b, In b bs -> gives_value F b) ->
  (forall b o, In b bs -> In o (b_outs b) -> S o -> forall d, In d (b_deps b) -> S d) ->
  (forall v, S v \/ ~ S v) ->
  (forall v, S v -> e1 v = e2 v) -> snd (geval F cut bs e1) = None -> snd (geval F cut bs e2) = None ->
  forall v, S v -> fst (geval F cut bs e1) v = fst (geval F cut bs e2) v.
Proof.
  intros cut S. induction bs as [|b r IH]; intros e1 e2 Hg Hs Hdec He N1 N2 v Hv; [now apply He|].
  assert (K : forall u, S u -> fst (geval_block F cut e1 b) u = fst (geval_block F cut e2 b) u).
  { intros u Su. destruct (some_out S (b_outs b) Hdec) as [[o [Ho So]]|Hx].
    - refine (proj1 (proj2 (geval_block_local F cut b e1 e2 S _ _ He)) u Su); [apply Hg; now left|]. intros d Hd'. apply (Hs b o); auto. now left.
    - rewrite !geval_block_frame; auto; intros Hu; exact (Hx u Hu Su). }
  unfold geval in *. cbn [iter_o] in *. destruct (geval_block F cut e1 b) as [a1 [x1|]]; [discriminate|]. destruct (geval_block F cut e2 b) as [a2 [x2|]]; [discriminate|].
  cbn [fst] in K. apply IH; auto; [intros; apply Hg; now right|]. intros b' o Hb. apply Hs. now right.
Qed.

Lemma supplied_same : forall cs (vals vals' : list V) v, length vals = length vals' ->
  (forall i, nth_error cs i = Some v -> nth_error vals i = nth_error vals' i) -> supplied cs vals v = supplied cs vals' v.
Proof.
  induction cs as [|c r IH]; intros [|x xs] [|y ys] v Hl H; try discriminate; try reflexivity. cbn [supplied].
  rewrite (IH xs ys v); [|now injection Hl|intros i Hi; exact (H (S i) Hi)].
  destruct (supplied r ys v); [reflexivity|]. destruct (Nat.eqb_spec v c) as [->|]; [|reflexivity]. exact (H 0 eq_refl).
Qed.
Theorem call_independent : forall ann p j scale l vals vals' y y' h g, consistent p -> disciplined ann p = true ->
  j < length (w_objs (exec F (world_new F ann) p)) ->
  let w := fst (recorded F ann p j) in
  let J := snd (recorded F ann p j) in
  let h1 := run_hist F (flat w) (w_heap w) l in
  let rf := RF J (w_ctrls w) scale in
  create_graph w h = Ok g ->
  (forall i c, nth_error (w_ctrls w) i = Some c -> path g (NVar c) (NVar J) -> nth_error vals i = nth_error vals' i) ->
  snd (rf_call F (flat w) rf vals h1) = Ok y -> snd (rf_call F (flat w) rf vals' h1) = Ok y' -> y = y'.
Proof.
  intros ann p j scale l vals vals' y y' h g Hc Hd Hj w J h1 rf E Hv R R'.
  destruct (recorded_clean F ann p j Hc Hd Hj) as [Hwf [Hg [Nc _]]]. fold w in Hwf, Hg, Nc. pose proof (proj1 Hwf) as Ht.
  assert (N1 : no_ctrl h1) by (apply (hist_frame F); exact Nc).
  assert (Hl : length vals = length (rf_ctrls rf)).
  { destruct (Nat.eq_dec (length vals) (length (rf_ctrls rf))) as [X|X]; [exact X|]. rewrite rf_call_mismatch in R by exact X. discriminate. }
  assert (Hl' : length vals' = length (rf_ctrls rf)).
  { destruct (Nat.eq_dec (length vals') (length (rf_ctrls rf))) as [X|X]; [exact X|]. rewrite rf_call_mismatch in R' by exact X. discriminate. }
  pose proof (path_influences _ g (graph_edges ann p j h g E)) as K.
  destruct (rf_call_spec F (flat w) rf vals h1 N1 Hl) as [A _]. destruct (rf_call_spec F (flat w) rf vals' h1 N1 Hl') as [A' _].
  rewrite R in A. rewrite R' in A'. clear R R'.
  set (cut := fun v => mem v (rf_ctrls rf)) in *.
  destruct (snd (geval F cut (flat w) (start_env h1 (rf_ctrls rf) vals))) eqn:G; [discriminate|].
  destruct (snd (geval F cut (flat w) (start_env h1 (rf_ctrls rf) vals'))) eqn:G'; [discriminate|].
  injection A as ->. injection A' as ->. f_equal.
  apply geval_indep with (S := fun v => influences (flat w) v J); auto.
  - intros b o Hb Ho HJ d Hd'. apply (influences_trans _ d o J); [|exact HJ]. apply inf_step with b d; auto. constructor.
  - intros v. destruct (in_dec Nat.eq_dec J (find_relevant (flat w) [v])) as [X|X].
    + left. apply find_relevant_influences in X as [c' [[<-|[]] X]]; auto.
    + right. intros Y. apply X. apply find_relevant_influences; [exact Ht|]. exists v. split; [now left|exact Y].
  - intros v HJ. unfold start_env. cbn [rf_ctrls rf]. rewrite (supplied_same (w_ctrls w) vals vals' v); [reflexivity|congruence|].
    intros i Hi. apply (Hv i v Hi). now apply K.
  - constructor.
Qed.

(** Without a path from a control that is on the tape, the derivative with respect to it is zero. *)
Theorem no_path_zero : forall ann p j scale a l h g gs i c, consistent p -> disciplined ann p = true ->
  j < length (w_objs (exec F (world_new F ann) p)) ->
  let w := fst (recorded F ann p j) in
  let J := snd (recorded F ann p j) in
  create_graph w h = Ok g -> nth_error (w_ctrls w) i = Some c -> find_node (NVar c) g <> None -> ~ path g (NVar c) (NVar J) ->
  snd (rf_derivative F (flat w) (RF J (w_ctrls w) scale) a (run_hist F (flat w) (w_heap w) l)) = Ok gs ->
  nth_error gs i = Some (f_zero F).
Proof.
  intros ann p j scale a l h g gs i c Hc Hd Hj w J E Hi Hf Hp R.
  destruct (recorded_clean F ann p j Hc Hd Hj) as [Hwf [Hg [Nc _]]]. fold w in Hwf, Hg, Nc.
  destruct (recorded_graph ann p j h) as [[K _]|[g' [E' [_ [_ [_ [K [_ [L M]]]]]]]]]; [fold w in K; congruence|]. fold w in E', K, L, M. rewrite E in E'. injection E' as <-.
  apply (no_influence_zero F (flat w) (RF J (w_ctrls w) scale) a (w_heap w) l gs i c); auto; [exact (proj1 Hwf)| |].
  - apply vars_cases, M. rewrite L in Hf. intros X. rewrite X in Hf. now apply Hf.
  - intros X. apply Hp. now apply (path_influences _ g K).
Qed.

(** After an evaluation the labels are the values of the re-run program. *)
Theorem labels_rerun : forall ann p j vals scale l1 l2 y k ob v g u,
  consistent p -> disciplined ann p = true -> j < length (w_objs (exec F (world_new F ann) p)) ->
  let w := fst (recorded F ann p j) in
  let rf := RF (snd (recorded F ann p j)) (w_ctrls w) scale in
  let r := rf_call F (flat w) rf vals (run_hist F (flat w) (w_heap w) l1) in
  length vals = length (w_ctrls w) -> calls_controls w l1 -> (l1 = [] \/ closed (w_ctrls w) (flat w)) ->
  snd r = Ok y -> forallb (fun a => negb (is_call a)) l2 = true ->
  create_graph w (run_hist F (flat w) (fst r) l2) = Ok g ->
  find_node (NVar v) g <> None -> bv_obj (w_heap w v) = k -> nth_error (w_objs w) k = Some ob -> o_bv ob = Some u ->
  exists x xp yp, find_node (NVar v) g = Some (Some (Attr (LNum x) xp yp false)) /\ spec_rerun F ann p vals k = Ok x.
Proof.
  intros ann p j vals scale l1 l2 y k ob v g u Hc Hd Hj w rf r Hl Hcc Hcl Hr Hn E Hf Hk Hob Hu.
  pose proof (evaluated_values F ann p j vals scale l1 l2 y k ob u Hc Hd Hj Hl Hcc Hcl Hr Hn Hob Hu) as Q. cbv zeta in Q. fold w rf r in Q.
  destruct (recorded_clean F ann p j Hc Hd Hj) as [_ [_ [Nc _]]]. fold w in Nc.
  assert (Ho : bv_obj (run_hist F (flat w) (fst r) l2 v) = k).
  { pose proof (proj2 (hist_frame F (flat w) (l1 ++ ACall rf vals :: l2) (w_heap w) Nc) v) as X.
    assert (Y : run_hist F (flat w) (w_heap w) (l1 ++ ACall rf vals :: l2) = run_hist F (flat w) (fst r) l2).
    { unfold run_hist. rewrite fold_left_app. cbn [fold_left]. f_equal. unfold r, run_hist, api_run. destruct (rf_call F _ rf vals _). reflexivity. }
    rewrite Y in X. unfold frame in X. injection X. intros. congruence. }
  destruct (recorded_graph ann p j (run_hist F (flat w) (fst r) l2)) as [[K _]|[g' [E' [_ [_ [_ [K [_ [L M]]]]]]]]]; [fold w in K; congruence|].
  fold w in E', L. rewrite E in E'. injection E' as <-.
  rewrite L in Hf |- *. destruct (first_place _ v) as [[xp yp]|]; [|now destruct Hf]. cbn [option_map fst snd].
  unfold shown. rewrite Ho, Hob, Hu. eauto.
Qed.
End Run.

(** *** Witnesses *)
Definition empty_user : ublock Z := {| u_recompute := fun _ _ => Err EIndex; u_adj := fun _ _ _ => Ok None; u_tlm := fun _ _ _ => Ok None; u_hess := fun _ _ _ _ _ => Ok None |}.
Theorem unlinked_witness : exists (p : list (stmt Z)) (j : nat),
  let w := fst (recorded ZF true p j) in
  let rf := RF (snd (recorded ZF true p j)) (w_ctrls w) 1%Z in
  consistent p /\ disciplined true p = true /\ snd (rf_call ZF (t_flat (w_tape w)) rf [5%Z] (w_heap w)) = Ok 25%Z /\
  create_graph w (w_heap w) = Err EKey.
Proof.
  exists [SNew 3%Z; SControl 0; SUser empty_user (fun _ => Ok []) [] true None; SOp KMul [0; 0]], 1. cbv zeta. split; [|vm_conj].
  repeat constructor. intros xs i. destruct i; reflexivity.
Qed.
Theorem operands_witness : exists (p : list (stmt Z)) (j : nat) (g : graph Z) (a b c : Z) (xp yp : nat * Z),
  let w := fst (recorded ZF true p j) in
  let rf := RF (snd (recorded ZF true p j)) (w_ctrls w) 1%Z in
  let r := rf_call ZF (t_flat (w_tape w)) rf [10%Z] (w_heap w) in
  consistent p /\ disciplined true p = true /\ snd r = Ok 14%Z /\ create_graph w (fst r) = Ok g /\
  find_node (NBlk 0) g = Some (Some (Attr (LTerm KMul [a; b]) (fst xp) (snd xp) true)) /\
  (exists o, In (NBlk 0, NVar o) (g_edges g) /\ find_node (NVar o) g = Some (Some (Attr (LNum c) (fst yp) (snd yp) false))) /\
  (a * b <> c)%Z.
Proof.
  set (p := [SNew 2%Z; SOp KMul [0; 0]; SUpdate 0 2%Z; SControl 0; SOp KAdd [0; 1]]).
  set (w := fst (recorded ZF true p 2)).
  set (rr := fst (rf_call ZF (t_flat (w_tape w)) (RF (snd (recorded ZF true p 2)) (w_ctrls w) 1%Z) [10%Z] (w_heap w))).
  destruct (create_graph w rr) as [g|] eqn:E; [|vm_compute in E; discriminate].
  exists p, 2, g, 10%Z, 10%Z, 4%Z, (0, 0%Z), (0, (-1)%Z). cbv zeta. fold w.
  split; [repeat constructor|]. split; [reflexivity|]. split; [vm_compute; reflexivity|]. split; [exact E|].
  vm_compute in E. injection E as <-. split; [reflexivity|]. split; [|discriminate].
  eexists. split; [right; left; reflexivity|reflexivity].
Qed.
