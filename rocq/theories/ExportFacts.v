(** The exported graph is the tape. *)
From Coq Require Import List Arith ZArith Bool Lia.
From Verif Require Import Base Model Record BaseFacts Graph SpecGraph Export SpecExport.
Import ListNotations.

Lemma node_eqb_spec : forall a b, reflect (a = b) (node_eqb a b).
Proof.
  intros [u|i] [v|j]; cbn; try (constructor; discriminate).
  - destruct (Nat.eqb_spec u v); constructor; congruence.
  - destruct (Nat.eqb_spec i j); constructor; congruence.
Qed.
Lemma node_eqb_refl : forall a, node_eqb a a = true.
Proof. intros a. destruct (node_eqb_spec a a); congruence. Qed.
Lemma find_app' : forall (A : Type) (f : A -> bool) l m, find f (l ++ m) = match find f l with Some x => Some x | None => find f m end.
Proof. induction l as [|x l IH]; intros m; [reflexivity|]. cbn. destruct (f x); auto. Qed.

Section Facts.
Context {V : Type}.
Implicit Types (g : graph V).

Lemma find_none_in : forall n g, find_node n g = None <-> ~ In n (map fst (g_nodes g)).
Proof.
  intros n g. unfold find_node. induction (g_nodes g) as [|[m a] r IH]; cbn; [tauto|]. destruct (node_eqb_spec m n) as [->|H]; cbn.
  - split; [discriminate|tauto].
  - rewrite IH. intuition congruence.
Qed.
Lemma find_add_node : forall n m g, find_node m (add_node n g) =
  if node_eqb n m then Some (match find_node n g with Some a => a | None => None end) else find_node m g.
Proof.
  intros n m g. unfold add_node. destruct (find_node n g) as [a|] eqn:E.
  - destruct (node_eqb_spec n m) as [<-|]; [exact E|reflexivity].
  - unfold find_node in *. cbn [g_nodes]. rewrite find_app'. destruct (node_eqb_spec n m) as [<-|H].
    + destruct (find _ (g_nodes g)); [discriminate|]. cbn. rewrite node_eqb_refl. reflexivity.
    + clear E. destruct (find _ (g_nodes g)); [reflexivity|]. cbn. destruct (node_eqb_spec n m); [contradiction|reflexivity].
Qed.
Lemma nodup_add_node : forall n g, NoDup (map fst (g_nodes g)) -> NoDup (map fst (g_nodes (add_node n g))).
Proof.
  intros n g H. unfold add_node. destruct (find_node n g) eqn:E; [exact H|]. cbn. rewrite map_app. cbn.
  apply find_none_in in E. clear -H E. induction (map fst (g_nodes g)) as [|m r IH]; cbn; [constructor; [auto|constructor]|].
  inversion H; subst. constructor; [|apply IH; [assumption|cbn in E; tauto]]. rewrite in_app_iff. cbn in *. intuition.
Qed.
Lemma add_node_edges : forall n g, g_edges (add_node n g) = g_edges g.
Proof. intros n g. unfold add_node. destruct (find_node n g); reflexivity. Qed.
Lemma find_add_edge : forall a b m g, find_node m (add_edge a b g) = find_node m (add_node b (add_node a g)).
Proof. intros a b m g. unfold add_edge. destruct (has_edge _ _ _); reflexivity. Qed.
Lemma nodup_add_edge : forall a b g, NoDup (map fst (g_nodes g)) -> NoDup (map fst (g_nodes (add_edge a b g))).
Proof. intros a b g H. unfold add_edge. destruct (has_edge _ _ _); cbn; now apply nodup_add_node, nodup_add_node. Qed.
Lemma has_edge_in : forall a b g, has_edge a b g = true <-> In (a, b) (g_edges g).
Proof.
  intros a b g. unfold has_edge. rewrite existsb_exists. split.
  - intros [[x y] [H E]]. apply andb_true_iff in E as [E1 E2]. cbn in *.
    destruct (node_eqb_spec x a); [|discriminate]. destruct (node_eqb_spec y b); [|discriminate]. now subst.
  - intros H. exists (a, b). split; [exact H|]. cbn. now rewrite !node_eqb_refl.
Qed.
Lemma edges_add_edge : forall a b g e, In e (g_edges (add_edge a b g)) <-> In e (g_edges g) \/ e = (a, b).
Proof.
  intros a b g e. unfold add_edge. destruct (has_edge a b (add_node b (add_node a g))) eqn:E.
  - apply has_edge_in in E. rewrite !add_node_edges in *. split; [now left|]. intros [H| ->]; assumption.
  - cbn. rewrite in_app_iff, !add_node_edges. cbn. intuition.
Qed.
Lemma nodup_edges_add : forall a b g, NoDup (g_edges g) -> NoDup (g_edges (add_edge a b g)).
Proof.
  intros a b g H. unfold add_edge. destruct (has_edge a b (add_node b (add_node a g))) eqn:E; cbn; rewrite ?add_node_edges; [exact H|].
  assert (K : ~ In (a, b) (g_edges g)).
  { intros K. rewrite <- (add_node_edges a), <- (add_node_edges b) in K. apply has_edge_in in K. congruence. }
  clear E. induction (g_edges g) as [|m r IH]; cbn; [constructor; [auto|constructor]|].
  inversion H; subst. constructor; [|apply IH; [assumption|cbn in K; tauto]]. rewrite in_app_iff. cbn in *. intuition.
Qed.
Lemma set_attr_ok : forall n a g, find_node n g <> None -> exists g', set_attr n a g = Ok g' /\ g_edges g' = g_edges g /\ map fst (g_nodes g') = map fst (g_nodes g) /\
  forall m, find_node m g' = if node_eqb n m then Some (Some a) else find_node m g.
Proof.
  intros n a g H. unfold set_attr. destruct (find_node n g) as [x|] eqn:E; [|congruence]. eexists. split; [reflexivity|]. split; [reflexivity|]. split.
  - cbn. rewrite map_map. apply map_ext. intros [m y]. cbn. destruct (node_eqb m n); reflexivity.
  - intros m. clear H. unfold find_node in *. cbn [g_nodes]. induction (g_nodes g) as [|[q y] r IH]; cbn in *; [discriminate|].
    destruct (node_eqb_spec q n) as [->|Hq]; cbn.
    + destruct (node_eqb_spec n m) as [->|Hm]; cbn; [reflexivity|]. clear IH E.
      induction r as [|[s z] r IH]; cbn; [reflexivity|]. destruct (node_eqb_spec s n) as [->|Hs]; cbn.
      * destruct (node_eqb_spec n m); [contradiction|exact IH].
      * destruct (node_eqb_spec s m); [reflexivity|exact IH].
    + destruct (node_eqb_spec q m) as [->|Hm]; cbn.
      * destruct (node_eqb_spec n m); [congruence|reflexivity].
      * apply IH. exact E.
Qed.

Section Inv.
Variables (show : nat -> V) (B : nat -> attr V).
Definition place (os : list (nat * (nat * Z))) (v : nat) : option (option (attr V)) :=
  option_map (fun p => Some (Attr (LNum (show v)) (fst (snd p)) (snd (snd p)) false)) (find (fun p => Nat.eqb (fst p) v) os).

(** State while block [k] is drawn: occurrences [os] and edges [es] so far, [pres]: the node of block [k] is there. *)
Record inv (os : list (nat * (nat * Z))) (k : nat) (pres : bool) (es : list (node * node)) g : Prop := {
  iv_var : forall v, find_node (NVar v) g = place os v;
  iv_blk : forall i, find_node (NBlk i) g = if i <? k then Some (Some (B i)) else if (i =? k) && pres then Some None else None;
  iv_nodes : NoDup (map fst (g_nodes g));
  iv_edup : NoDup (g_edges g);
  iv_edges : forall e, In e (g_edges g) <-> In e es }.

Lemma place_app : forall os v p u, place (os ++ [(v, p)]) u = if Nat.eqb v u then match place os v with Some a => Some a | None =>
  Some (Some (Attr (LNum (show v)) (fst p) (snd p) false)) end else place os u.
Proof.
  intros os v p u. unfold place. rewrite find_app'. cbn [find fst]. destruct (Nat.eqb_spec v u) as [<-|H].
  - destruct (find _ os); reflexivity.
  - destruct (find _ os); reflexivity.
Qed.

Lemma mark_ok : forall os k pres es g v p e, inv os k pres es g -> e = (NVar v, NBlk k) \/ e = (NBlk k, NVar v) ->
  exists g', set_new (NVar v) (Attr (LNum (show v)) (fst p) (snd p) false) (add_edge (fst e) (snd e) g) = Ok g' /\
    inv (os ++ [(v, p)]) k true (es ++ [e]) g'.
Proof.
  intros os k pres es g v p e I He.
  assert (Fv : forall u, find_node (NVar u) (add_edge (fst e) (snd e) g) = if Nat.eqb v u then match place os v with Some a => Some a | None => Some None end else place os u).
  { intros u. rewrite find_add_edge. destruct He as [-> | ->]; cbn [fst snd]; rewrite !find_add_node; cbn [node_eqb]; rewrite ?(iv_var _ _ _ _ _ I);
      destruct (Nat.eqb_spec v u) as [<-|]; destruct (place os v); reflexivity. }
  assert (Fb : forall i, find_node (NBlk i) (add_edge (fst e) (snd e) g) = if i <? k then Some (Some (B i)) else if (i =? k) && true then Some None else None).
  { intros i. rewrite find_add_edge. destruct He as [-> | ->]; cbn [fst snd]; rewrite !find_add_node; cbn [node_eqb]; rewrite ?find_add_node; cbn [node_eqb]; rewrite !(iv_blk _ _ _ _ _ I);
      rewrite Nat.ltb_irrefl, (Nat.eqb_sym k i); destruct (Nat.eqb_spec i k) as [->|]; rewrite ?Nat.ltb_irrefl, ?Nat.eqb_refl; destruct pres; cbn [andb]; reflexivity. }
  assert (Ed : forall x, In x (g_edges (add_edge (fst e) (snd e) g)) <-> In x (es ++ [e])).
  { intros x. rewrite edges_add_edge, in_app_iff, (iv_edges _ _ _ _ _ I). destruct e. cbn. intuition. }
  assert (N1 := nodup_add_edge (fst e) (snd e) g (iv_nodes _ _ _ _ _ I)).
  assert (N2 := nodup_edges_add (fst e) (snd e) g (iv_edup _ _ _ _ _ I)).
  set (g1 := add_edge (fst e) (snd e) g) in *. unfold set_new. rewrite (Fv v), Nat.eqb_refl.
  destruct (place os v) as [[a|]|] eqn:Ep.
  - exists g1. split; [reflexivity|]. constructor; auto.
    intros u. rewrite place_app, Ep, (Fv u). reflexivity.
  - exfalso. unfold place in Ep. destruct (find _ os); discriminate.
  - destruct (set_attr_ok (NVar v) (Attr (LNum (show v)) (fst p) (snd p) false) g1) as [g' [E1 [E2 [E3 E4]]]]; [rewrite (Fv v), Nat.eqb_refl; discriminate|].
    exists g'. split; [exact E1|]. constructor; try congruence.
    + intros u. rewrite E4, place_app, Ep. cbn [node_eqb]. destruct (Nat.eqb_spec v u); [reflexivity|]. rewrite (Fv u). destruct (Nat.eqb_spec v u); [contradiction|reflexivity].
    + intros i. rewrite E4. cbn [node_eqb]. apply Fb.
    + intros x. rewrite E2. apply Ed.
Qed.
Lemma deps_ok : forall ds os k pres es g x, inv os k pres es g -> exists g', dep_edges show k x ds g = Ok g' /\
  inv (os ++ spread (1 - 2 * Z.of_nat k) x ds) k (match ds with [] => pres | _ => true end) (es ++ map (fun d => (NVar d, NBlk k)) ds) g'.
Proof.
  induction ds as [|d r IH]; intros os k pres es g x I; cbn [dep_edges spread map].
  - exists g. rewrite !app_nil_r. auto.
  - destruct (mark_ok os k pres es g d (x, (1 - 2 * Z.of_nat k)%Z) (NVar d, NBlk k) I (or_introl eq_refl)) as [g1 [E1 I1]]. cbn [fst snd] in E1. rewrite E1. cbn [bind].
    destruct (IH _ _ _ _ _ (S x) I1) as [g' [E2 I2]]. exists g'. split; [exact E2|]. rewrite <- !app_assoc in I2. destruct r; exact I2.
Qed.
Lemma outs_ok : forall ds os k pres es g x, inv os k pres es g -> exists g', out_edges show k x ds g = Ok g' /\
  inv (os ++ spread (-1 - 2 * Z.of_nat k) x ds) k (match ds with [] => pres | _ => true end) (es ++ map (fun d => (NBlk k, NVar d)) ds) g'.
Proof.
  induction ds as [|d r IH]; intros os k pres es g x I; cbn [out_edges spread map].
  - exists g. rewrite !app_nil_r. auto.
  - destruct (mark_ok os k pres es g d (x, (-1 - 2 * Z.of_nat k)%Z) (NBlk k, NVar d) I (or_intror eq_refl)) as [g1 [E1 I1]]. cbn [fst snd] in E1. rewrite E1. cbn [bind].
    destruct (IH _ _ _ _ _ (S x) I1) as [g' [E2 I2]]. exists g'. split; [exact E2|]. rewrite <- !app_assoc in I2. destruct r; exact I2.
Qed.
End Inv.

Lemma inv_next : forall show B os k es g, inv show B os k false es g -> forall B', (forall i, i < k -> B' i = B i) -> inv show B' os k false es g.
Proof.
  intros show B os k es g I B' H. destruct I as [I1 I2 I3 I4 I5]. constructor; auto.
  intros i. rewrite I2. destruct (Nat.ltb_spec i k); [rewrite H by assumption|]; reflexivity.
Qed.

Definition edges_of (i : nat) (bs : list (block V)) : list (node * node) :=
  concat (map (fun p => map (fun d => (NVar d, NBlk (fst p))) (b_deps (snd p)) ++ map (fun o => (NBlk (fst p), NVar o)) (b_outs (snd p))) (combine (seq i (length bs)) bs)).

Lemma str_ok : forall (show : nat -> V) i b, sized b -> block_str show i b = Ok (block_label show i b).
Proof.
  intros show i [k ds os tag] H. unfold block_str, block_label, sized in *. cbn [b_kind b_deps] in *.
  destruct k; try reflexivity; destruct ds as [|x [|y [|z r]]]; cbn in *; try discriminate; reflexivity.
Qed.

Definition linked (b : block V) : Prop := b_deps b <> [] \/ b_outs b <> [].

Lemma blocks_ok : forall (show : nat -> V) (bs pre : list (block V)) os es g, Forall sized bs -> Forall linked bs ->
  let B := fun i => match nth_error (pre ++ bs) i with Some b => Attr (block_label show i b) 0 (- 2 * Z.of_nat i) true | None => Attr (LBlock i) 0 0 true end in
  inv show B os (length pre) false es g ->
  exists g', blocks_graph show (length pre) bs g = Ok g' /\
    inv show B (os ++ occurrences (length pre) bs) (length pre + length bs) false (es ++ edges_of (length pre) bs) g'.
Proof.
  intros show. induction bs as [|b r IH]; intros pre os es g Hs Hk B I; cbn [blocks_graph occurrences length].
  - exists g. unfold edges_of. cbn. rewrite !app_nil_r, Nat.add_0_r. auto.
  - inversion Hs as [|? ? S1 S2]; subst. inversion Hk as [|? ? K1 K2]; subst.
    unfold block_graph. destruct (deps_ok show B (b_deps b) os _ _ es g 0 I) as [g1 [E1 I1]]. rewrite E1. cbn [bind].
    destruct (outs_ok show B (b_outs b) _ _ _ _ g1 0 I1) as [g2 [E2 I2]]. rewrite E2. cbn [bind].
    rewrite (str_ok show (length pre) b S1). cbn [bind].
    destruct (set_attr_ok (NBlk (length pre)) (Attr (block_label show (length pre) b) 0 (- 2 * Z.of_nat (length pre)) true) g2) as [g3 [E3 [E4 [E5 E6]]]].
    { rewrite (iv_blk _ _ _ _ _ _ _ I2), Nat.ltb_irrefl, Nat.eqb_refl. unfold linked in K1. destruct (b_deps b), (b_outs b); cbn; try discriminate. destruct K1; congruence. }
    rewrite E3. cbn [bind].
    assert (EB : B (length pre) = Attr (block_label show (length pre) b) 0 (- 2 * Z.of_nat (length pre)) true).
    { unfold B. rewrite nth_error_app2, Nat.sub_diag by lia. reflexivity. }
    specialize (IH (pre ++ [b]) ((os ++ spread (1 - 2 * Z.of_nat (length pre)) 0 (b_deps b)) ++ spread (-1 - 2 * Z.of_nat (length pre)) 0 (b_outs b))
      ((es ++ map (fun d => (NVar d, NBlk (length pre))) (b_deps b)) ++ map (fun d => (NBlk (length pre), NVar d)) (b_outs b)) g3 S2 K2).
    cbv zeta in IH. rewrite <- app_assoc in IH. cbn [app] in IH. fold B in IH. rewrite app_length in IH. cbn [length] in IH. rewrite Nat.add_1_r in IH.
    destruct IH as [g' [E7 I7]].
    + constructor; try (rewrite ?E4, ?E5; destruct I2; assumption).
      * intros v. rewrite E6. cbn [node_eqb]. apply (iv_var _ _ _ _ _ _ _ I2).
      * intros i. rewrite E6. cbn [node_eqb]. rewrite (iv_blk _ _ _ _ _ _ _ I2). destruct (Nat.eqb_spec (length pre) i) as [<-|Hi].
        { destruct (Nat.ltb_spec (length pre) (S (length pre))); [now rewrite EB|lia]. }
        { destruct (Nat.ltb_spec i (length pre)); destruct (Nat.ltb_spec i (S (length pre))); try lia; [reflexivity|].
          destruct (Nat.eqb_spec i (length pre)); [lia|]. rewrite andb_false_r. reflexivity. }
    + exists g'. split; [exact E7|]. rewrite <- !app_assoc in I7. unfold edges_of. cbn [length seq combine map concat fst snd]. rewrite <- !app_assoc.
      replace (length pre + S (length r)) with (S (length pre + length r)) by lia. exact I7.
Qed.
Lemma blocks_key : forall (show : nat -> V) (bs pre : list (block V)) os es g, Forall sized bs -> ~ Forall linked bs ->
  let B := fun i => match nth_error (pre ++ bs) i with Some b => Attr (block_label show i b) 0 (- 2 * Z.of_nat i) true | None => Attr (LBlock i) 0 0 true end in
  inv show B os (length pre) false es g -> blocks_graph show (length pre) bs g = Err EKey.
Proof.
  intros show bs pre os es g Hs Hk B I.
  assert (D : forall b : block V, linked b \/ ~ linked b).
  { intros b. unfold linked. destruct (b_deps b), (b_outs b); [right; intros [H|H]; congruence|left; right; discriminate|left; left; discriminate..]. }
  assert (Hsplit : exists l1 b l2, bs = l1 ++ b :: l2 /\ Forall linked l1 /\ ~ linked b).
  { clear - Hk D. induction bs as [|b r IH]; [destruct Hk; constructor|]. destruct (D b) as [Hb|Hb].
    - destruct IH as [l1 [b' [l2 [E [H1 H2]]]]]; [intros K; apply Hk; now constructor|]. exists (b :: l1), b', l2. subst. repeat split; auto.
    - exists [], b, r. auto. }
  destruct Hsplit as [l1 [b [l2 [-> [H1 H2]]]]]. clear Hk.
  assert (Happ : forall i l m g0, blocks_graph show i (l ++ m) g0 = do g1 <- blocks_graph show i l g0; blocks_graph show (i + length l) m g1).
  { clear. intros i l. revert i. induction l as [|c l IH]; intros i m g0; cbn; [now rewrite Nat.add_0_r|]. destruct (block_graph show i c g0); cbn; [|reflexivity].
    rewrite IH. replace (S i + length l) with (i + S (length l)) by lia. reflexivity. }
  apply Forall_app in Hs as [S1 S2]. inversion S2 as [|? ? S3 S4]; subst.
  destruct (blocks_ok show l1 pre os es g S1 H1) as [g1 [E1 I1]].
  { apply (inv_next show B); [exact I|]. intros i Hi. unfold B. rewrite !nth_error_app1 by lia. reflexivity. }
  rewrite Happ, E1. cbn [bind blocks_graph]. unfold block_graph.
  destruct (b_deps b) eqn:Ed; [|destruct H2; left; rewrite Ed; discriminate]. destruct (b_outs b) eqn:Eo; [|destruct H2; right; rewrite Eo; discriminate].
  cbn [dep_edges out_edges bind]. rewrite (str_ok show _ b S3). cbn [bind]. unfold set_attr.
  rewrite (iv_blk _ _ _ _ _ _ _ I1), Nat.ltb_irrefl, andb_false_r. reflexivity.
Qed.

Lemma inv_new : forall show B, inv show B [] 0 false [] (graph_new (V := V)).
Proof. intros. constructor; try constructor; try (intros []); reflexivity. Qed.

Lemma edges_flows : forall (bs : list (block V)) a b, In (a, b) (edges_of 0 bs) <-> flows bs a b.
Proof.
  intros bs a b. unfold edges_of, flows. rewrite in_concat. 
  assert (C : forall (l : list (block V)) n i k, In (i, k) (combine (seq n (length l)) l) <-> n <= i /\ nth_error l (i - n) = Some k).
  { induction l as [|c l IH]; intros n i k; cbn.
    - split; [tauto|]. intros [_ H]. destruct (i - n); discriminate.
    - rewrite IH. split.
      + intros [E|[H1 H2]]; [injection E as -> ->; split; [lia|now rewrite Nat.sub_diag]|]. split; [lia|]. replace (i - n) with (S (i - S n)) by lia. exact H2.
      + intros [H1 H2]. destruct (Nat.eq_dec n i) as [->|Hn]; [rewrite Nat.sub_diag in H2; injection H2 as ->; now left|].
        right. replace (i - n) with (S (i - S n)) in H2 by lia. split; [lia|exact H2]. }
  split.
  - intros [l [Hl Hi]]. apply in_map_iff in Hl as [[i k] [<- Hk]]. apply C in Hk as [_ Hk]. rewrite Nat.sub_0_r in Hk. exists i, k. split; [exact Hk|].
    cbn [fst snd] in Hi. apply in_app_iff in Hi as [Hi|Hi]; apply in_map_iff in Hi as [d [E Hd]]; injection E as <- <-; [left|right]; exists d; auto.
  - intros [i [k [Hk H]]]. eexists. split; [apply in_map_iff; exists (i, k); split; [reflexivity|apply C; rewrite Nat.sub_0_r; split; [lia|exact Hk]]|].
    cbn [fst snd]. apply in_app_iff. destruct H as [[d [Hd [-> ->]]]|[o [Ho [-> ->]]]]; [left|right]; apply in_map_iff; eauto.
Qed.
Lemma occ_in : forall (bs : list (block V)) i v, In v (vars_of bs) <-> exists p, In (v, p) (occurrences i bs).
Proof.
  assert (Sp : forall vs y x v, In v vs <-> exists p, In (v, p) (spread y x vs)).
  { induction vs as [|u r IH]; intros y x v; cbn; [split; [tauto|intros [p []]]|]. split.
    - intros [->|H]; [eexists; now left|]. destruct (proj1 (IH y (S x) v) H) as [p Hp]. exists p. now right.
    - intros [p [E|H]]; [injection E as -> _; now left|]. right. apply (IH y (S x) v). eauto. }
  intros bs. assert (K : forall v, In v (vars_of bs) <-> exists b, In b bs /\ (In v (b_deps b) \/ In v (b_outs b))).
  { intros v. unfold vars_of, deps_of, outs_of. rewrite in_app_iff, !in_flat_map. split.
    - intros [[b [H1 H2]]|[b [H1 H2]]]; exists b; auto.
    - intros [b [H1 [H2|H2]]]; [left|right]; exists b; auto. }
  intros i v. rewrite K. clear K. revert i. induction bs as [|b r IH]; intros i; cbn [occurrences].
  - split; [intros [b [[] _]]|intros [p []]].
  - split.
    + intros [b' [[<-|Hb] Hv]].
      * destruct Hv as [Hv|Hv].
        { destruct (proj1 (Sp (b_deps b) (1 - 2 * Z.of_nat i)%Z 0 v) Hv) as [p Hp]. exists p. rewrite !in_app_iff. auto. }
        { destruct (proj1 (Sp (b_outs b) (-1 - 2 * Z.of_nat i)%Z 0 v) Hv) as [p Hp]. exists p. rewrite !in_app_iff. auto. }
      * destruct (proj1 (IH (S i))) as [p Hp]; [eauto|]. exists p. rewrite !in_app_iff. auto.
    + intros [p Hp]. rewrite !in_app_iff in Hp. destruct Hp as [Hp|[Hp|Hp]].
      * exists b. split; [now left|]. left. apply (Sp _ (1 - 2 * Z.of_nat i)%Z 0 v). eauto.
      * exists b. split; [now left|]. right. apply (Sp _ (-1 - 2 * Z.of_nat i)%Z 0 v). eauto.
      * destruct (proj2 (IH (S i)) (ex_intro _ p Hp)) as [b' [H1 H2]]. exists b'. split; [now right|exact H2].
Qed.

Lemma vars_cases : forall (bs : list (block V)) v, In v (vars_of bs) <-> exists b, In b bs /\ (In v (b_deps b) \/ In v (b_outs b)).
Proof.
  intros bs v. unfold vars_of, deps_of, outs_of. rewrite in_app_iff, !in_flat_map. split.
  - intros [[b [H1 H2]]|[b [H1 H2]]]; exists b; auto.
  - intros [b [H1 [H2|H2]]]; [left|right]; exists b; auto.
Qed.
Theorem graph_of_tape : forall (w : world V) (h : heap V), Forall sized (t_flat (w_tape w)) ->
  let bs := t_flat (w_tape w) in
  let show := shown w h in
  (create_graph w h = Err EKey /\ exists b, In b bs /\ b_deps b = [] /\ b_outs b = []) \/
  (exists g, create_graph w h = Ok g /\ (forall b, In b bs -> b_deps b <> [] \/ b_outs b <> []) /\ NoDup (map fst (g_nodes g)) /\ NoDup (g_edges g) /\
    (forall a b, In (a, b) (g_edges g) <-> flows bs a b) /\
    (forall i, find_node (NBlk i) g = option_map (fun b => Some (Attr (block_label show i b) 0 (- 2 * Z.of_nat i) true)) (nth_error bs i)) /\
    (forall v, find_node (NVar v) g = option_map (fun p => Some (Attr (LNum (show v)) (fst p) (snd p) false)) (first_place bs v)) /\
    (forall v, first_place bs v <> None <-> exists b, In b bs /\ (In v (b_deps b) \/ In v (b_outs b)))).
Proof.
  intros w h Hs bs show. unfold create_graph. fold bs show.
  set (B := fun i => match nth_error ([] ++ bs) i with Some b => Attr (block_label show i b) 0 (- 2 * Z.of_nat i) true | None => Attr (LBlock i) 0 0 true end).
  pose proof (inv_new show B) as I.
  assert (D : Forall linked bs \/ ~ Forall linked bs).
  { clear. induction bs as [|b r [IH|IH]]; [now left| |right; intros K; inversion K; auto].
    unfold linked in *. destruct (b_deps b) eqn:E1, (b_outs b) eqn:E2.
    - right. intros K. inversion K as [|? ? [H|H] _]; congruence.
    - left. constructor; [right; congruence|assumption].
    - left. constructor; [left; congruence|assumption].
    - left. constructor; [left; congruence|assumption]. }
  destruct D as [D|D].
  - right. destruct (blocks_ok show bs [] [] [] graph_new Hs D I) as [g [E J]]. exists g. split; [exact E|]. cbn [app length] in J. split; [rewrite List.Forall_forall in D; exact D|].
    split; [apply (iv_nodes _ _ _ _ _ _ _ J)|]. split; [apply (iv_edup _ _ _ _ _ _ _ J)|]. split; [|split; [|split]].
    + intros a b. rewrite (iv_edges _ _ _ _ _ _ _ J). apply edges_flows.
    + intros i. rewrite (iv_blk _ _ _ _ _ _ _ J). cbn [Nat.add]. destruct (Nat.ltb_spec i (length bs)) as [Hi|Hi].
      * destruct (nth_error bs i) eqn:En; [reflexivity|]. apply nth_error_None in En. lia.
      * rewrite andb_false_r. rewrite (proj2 (nth_error_None bs i)) by lia. reflexivity.
    + intros v. rewrite (iv_var _ _ _ _ _ _ _ J). unfold place, first_place. destruct (find _ _); reflexivity.
    + intros v. rewrite <- (vars_cases bs v), (occ_in bs 0 v). unfold first_place. destruct (find _ _) as [[u p]|] eqn:Ef; cbn.
      * apply find_some in Ef as [H1 H2]. apply Nat.eqb_eq in H2. cbn in H2. subst. split; [eauto|discriminate].
      * split; [congruence|]. intros [p Hp]. exfalso. pose proof (find_none _ _ Ef _ Hp) as K. cbn in K. rewrite Nat.eqb_refl in K. discriminate.
  - left. split; [exact (blocks_key show bs [] [] [] graph_new Hs D I)|].
    clear - D. induction bs as [|b r IH]; [destruct D; constructor|]. unfold linked in D. destruct (b_deps b) eqn:E1, (b_outs b) eqn:E2.
    { exists b. split; [now left|auto]. }
    all: destruct IH as [b' [H1 H2]]; [intros K; apply D; constructor; [|exact K]; rewrite ?E1, ?E2; (right; discriminate) || (left; discriminate)|exists b'; split; [now right|exact H2]].
Qed.

(** Paths between variables are influences. *)
Lemma path_influences : forall (bs : list (block V)) g, (forall a b, In (a, b) (g_edges g) <-> flows bs a b) ->
  forall c v, path g (NVar c) (NVar v) <-> influences bs c v.
Proof.
  intros bs g H c v. split.
  - assert (K : forall n, path g (NVar c) n -> match n with NVar u => influences bs c u | NBlk i => exists b d, nth_error bs i = Some b /\ In d (b_deps b) /\ influences bs c d end).
    { intros n P. induction P as [|b e P IH He]; [constructor|]. apply H in He as [i [k [Hk [[d [Hd [-> ->]]]|[o [Ho [-> ->]]]]]]].
      - exists k, d. auto.
      - destruct IH as [b [d [H1 [H2 H3]]]]. rewrite H1 in Hk. injection Hk as ->. apply (inf_step bs c k d o); auto. now apply nth_error_In in H1. }
    intros P. exact (K _ P).
  - intros I. induction I as [|b d o Hb Hd Ho I IH]; [constructor|]. apply In_nth_error in Hb as [i Hi].
    apply (path_step g _ (NBlk i)); [apply (path_step g _ (NVar d)); [exact IH|]|]; apply H; exists i, b; (split; [exact Hi|]); [left|right]; eauto.
Qed.
Lemma path_trans : forall g a b c, path g a b -> path g b c -> path g a c.
Proof. intros g a b c P Q. induction Q; [exact P|]. eapply path_step; eauto. Qed.
End Facts.
