(** Facts about arrays sharing memory. *)
From Coq Require Import List Arith ZArith Bool Lia.
From Verif Require Import Base Model Record BaseFacts Spec RecordFacts Graph History Session PyExp SpecArr Arrays ArrFacts ArrTape Alias SpecAlias.
Import ListNotations.

Section AliasFacts.
Context {V : Type} (F : fops V).
Notation AF := (AF F).
Notation read := (read F).
Notation deref := (deref F).

Lemma read_app : forall (m t : memory V) b p, b < length m -> read (m ++ t) b p = read m b p.
Proof. intros m t b p H. unfold Alias.read. now rewrite app_nth1. Qed.
Lemma lies_app : forall (m t : memory V) r, lies m r -> lies (m ++ t) r.
Proof. intros m t [x|b ps] H; [exact I|]. destruct H as [H1 [H2 H3]]. cbn. rewrite app_length, app_nth1 by assumption. repeat split; auto; lia. Qed.
Lemma deref_app : forall (m t : memory V) r, lies m r -> deref (m ++ t) r = deref m r.
Proof. intros m t [x|b ps] H; [reflexivity|]. destruct H as [H1 _]. cbn. f_equal. apply map_ext. intros p. now apply read_app. Qed.
Lemma map_nth_seq : forall (l : list V) d, map (fun p => nth p l d) (seq 0 (length l)) = l.
Proof. induction l as [|x l IH]; intros d; [reflexivity|]. cbn. f_equal. rewrite <- seq_shift, map_map. cbn. apply IH. Qed.
Lemma alloc_spec : forall (m : memory V) l, let '(m', r) := alloc m l in m' = m ++ [l] /\ lies m' r /\ deref m' r = Arr l /\ exists ps, r = RArr (length m) ps.
Proof.
  intros m l. cbn. split; [reflexivity|]. rewrite app_length, app_nth2, Nat.sub_diag by lia. cbn. split; [|split].
  - split; [lia|]. split; [|apply seq_NoDup]. apply Forall_forall. intros p Hp. apply in_seq in Hp. lia.
  - f_equal. transitivity (map (fun p => nth p l (f_zero F)) (seq 0 (length l))); [|apply map_nth_seq]. apply map_ext. intros p. unfold Alias.read. rewrite app_nth2, Nat.sub_diag by lia. reflexivity.
  - eauto.
Qed.
(** The memory of [r'] is that of [r] or new. *)
Definition from (m : memory V) (r r' : rval V) : Prop := forall b ps, r' = RArr b ps -> length m <= b \/ exists ps0, r = RArr b ps0.
Lemma copy_spec : forall (m : memory V) r, let '(m', r') := copy F m r in
  (exists t, m' = m ++ t) /\ lies m' r' /\ deref m' r' = deref m r /\ forall b ps, r' = RArr b ps -> length m <= b.
Proof.
  intros m [x|b ps].
  - cbn. split; [exists []; now rewrite app_nil_r|]. repeat split; auto. discriminate.
  - unfold copy. pose proof (alloc_spec m (map (read m b) ps)) as A. destruct (alloc m (map (read m b) ps)) as [m' r']. destruct A as [A1 [A2 [A3 [q A4]]]].
    split; [eauto|]. split; [exact A2|]. split; [exact A3|]. intros b' ps' E. rewrite A4 in E. injection E. lia.
Qed.
Lemma place_spec : forall (m : memory V) x, let '(m', r') := place m x in
  (exists t, m' = m ++ t) /\ lies m' r' /\ deref m' r' = x /\ forall b ps, r' = RArr b ps -> length m <= b.
Proof.
  intros m [x|l].
  - cbn. split; [exists []; now rewrite app_nil_r|]. repeat split; auto. discriminate.
  - unfold place. pose proof (alloc_spec m l) as A. destruct (alloc m l) as [m' r']. destruct A as [A1 [A2 [A3 [q A4]]]].
    split; [eauto|]. split; [exact A2|]. split; [exact A3|]. intros b' ps' E. rewrite A4 in E. injection E. lia.
Qed.
Lemma mapM_nth_gen : forall (A : Type) (d : A) (l : list A) ps, Forall (fun p => p < length l) ps -> mapM (nth_res l) ps = Ok (map (fun p => nth p l d) ps).
Proof.
  intros A d l ps H. induction H as [|p ps Hp _ IH]; [reflexivity|]. cbn [mapM map]. unfold nth_res at 1.
  rewrite (nth_error_nth' l d) by assumption. now rewrite IH.
Qed.
Lemma nodup_nths : forall (l : list nat) ps d, NoDup l -> NoDup ps -> Forall (fun p => p < length l) ps -> NoDup (map (fun p => nth p l d) ps).
Proof.
  intros l ps d Hl Hn H. induction Hn as [|p ps Hp Hn IH]; cbn; [constructor|]. inversion H as [|? ? H1 H2]; subst. constructor; [|auto].
  intros K. apply in_map_iff in K as [q [E Hq]]. apply Hp. rewrite Forall_forall in H2. specialize (H2 q Hq).
  replace p with q; [exact Hq|]. exact (proj1 (NoDup_nth l d) Hl q p H2 H1 E).
Qed.
Lemma map_picked : forall (m : memory V) b ps qs, Forall (fun q => q < length ps) qs ->
  map (fun q => nth q (map (read m b) ps) (f_zero F)) qs = map (read m b) (map (fun q => nth q ps 0) qs).
Proof.
  intros m b ps qs H. rewrite map_map. apply map_ext_in. intros q Hq. rewrite Forall_forall in H. specialize (H q Hq).
  rewrite (nth_indep _ (f_zero F) (read m b 0)) by now rewrite map_length. apply map_nth.
Qed.
Lemma rgetitem_spec : forall (m : memory V) it r, lies m r ->
  match rgetitem F m it r with
  | Err e => getitem it (deref m r) = Err e
  | Ok (m', r') => (exists t, m' = m ++ t) /\ lies m' r' /\ getitem it (deref m r) = Ok (deref m' r') /\ from m r r'
  end.
Proof.
  intros m it [x|b ps] H; [reflexivity|]. destruct H as [H1 [H2 H3]]. cbn [rgetitem]. rewrite (getitem_pick F). unfold pick. cbn [Alias.deref]. rewrite map_length.
  destruct (picks it (length ps)) as [qs|e] eqn:Ep; [|reflexivity]. pose proof (picks_range _ _ _ Ep) as Hr. cbn [bind].
  rewrite (mapM_nth_gen nat 0 ps qs Hr). cbn [bind]. set (rs := map (fun q => nth q ps 0) qs).
  assert (Hrs : Forall (fun p => p < length (nth b m [])) rs).
  { unfold rs. rewrite Forall_forall in *. intros p Hp. apply in_map_iff in Hp as [q [E Hq]]. subst p. apply H2. apply nth_In. auto. }
  destruct it as [z|s e step|zs|ms]; cbn [is_int].
  - unfold rs. destruct qs as [|q qs]; [reflexivity|]. cbn [map]. split; [exists []; now rewrite app_nil_r|]. split; [exact I|]. split; [|discriminate].
    cbn [Alias.deref]. f_equal. f_equal. inversion Hr as [|? ? Hq _]; subst. rewrite (nth_indep _ (f_zero F) (read m b 0)) by now rewrite map_length. apply map_nth.
  - split; [exists []; now rewrite app_nil_r|]. split; [|split].
    + split; [exact H1|]. split; [exact Hrs|]. apply nodup_nths; auto. eapply picks_nodup; [|exact Ep]. exact I.
    + cbn [Alias.deref]. now rewrite map_picked.
    + intros b' ps' E. injection E as E1 E2. right. exists ps. now rewrite E1.
  - pose proof (alloc_spec m (map (read m b) rs)) as A. destruct (alloc m (map (read m b) rs)) as [m' r']. destruct A as [A1 [A2 [A3 [q A4]]]].
    split; [eauto|]. split; [exact A2|]. split; [rewrite A3, map_picked by assumption; reflexivity|]. intros b' ps' E. rewrite A4 in E. injection E. left. lia.
  - pose proof (alloc_spec m (map (read m b) rs)) as A. destruct (alloc m (map (read m b) rs)) as [m' r']. destruct A as [A1 [A2 [A3 [q A4]]]].
    split; [eauto|]. split; [exact A2|]. split; [rewrite A3, map_picked by assumption; reflexivity|]. intros b' ps' E. rewrite A4 in E. injection E. left. lia.
Qed.

(** ** The tape *)
(** State [s] grew from memory [m0] with references [r0]; its stored values are [e]. *)
Definition grown (m0 : memory V) (r0 : nat -> rval V) (s : rstate V) (e : nat -> aval V) : Prop :=
  (exists t, r_mem s = m0 ++ t) /\
  forall v, lies (r_mem s) (r_ref s v) /\ deref (r_mem s) (r_ref s v) = e v /\
            forall b ps, r_ref s v = RArr b ps -> length m0 <= b \/ exists u ps', r0 u = RArr b ps'.
Lemma grown_set : forall m0 r0 s e m' v r x, grown m0 r0 s e -> (exists t, m' = r_mem s ++ t) -> lies m' r -> deref m' r = x ->
  (forall b ps, r = RArr b ps -> length (r_mem s) <= b \/ exists u ps', r_ref s u = RArr b ps') ->
  grown m0 r0 (r_set s m' v r) (eset e v x).
Proof.
  intros m0 r0 s e m' v r x [[t0 G1] G2] [t Em] Hl Hd Hf. split.
  - exists (t0 ++ t). cbn. rewrite Em, G1. now rewrite app_assoc.
  - intros u. cbn. unfold eset. destruct (Nat.eqb_spec u v) as [->|Hn].
    + split; [exact Hl|]. split; [exact Hd|]. intros b ps E. destruct (Hf b ps E) as [K|[u [ps' K]]].
      * left. rewrite G1, app_length in K. lia.
      * exact (proj2 (proj2 (G2 u)) b ps' K).
    + destruct (G2 u) as [A [B C]]. subst m'. split; [now apply lies_app|]. split; [now rewrite deref_app|exact C].
Qed.
Lemma rrecompute_sim : forall m0 r0 cut s e rb b, same_block F rb b -> grown m0 r0 s e ->
  snd (rrecompute F cut s rb) = snd (geval_block AF cut e b) /\ grown m0 r0 (fst (rrecompute F cut s rb)) (fst (geval_block AF cut e b)).
Proof.
  intros m0 r0 cut s e rb b Hb G. pose proof G as [G1 G2]. unfold rrecompute, geval_block.
  destruct rb as [it d o|k ds o]; destruct Hb as [Hk [Hd Ho]]; rewrite Ho, Hd, Hk; cbn [existsb r_out enum]; destruct (cut o) eqn:Ec; cbn [orb fst snd]; auto.
  - pose proof (rgetitem_spec (r_mem s) it (r_ref s d) (proj1 (G2 d))) as R. rewrite (proj1 (proj2 (G2 d))) in R.
    destruct (rgetitem F (r_mem s) it (r_ref s d)) as [[m' r']|x]; cbn [enum iter_o map fst snd].
    + destruct R as [R1 [R2 [R3 R4]]]. cbn. unfold bind. rewrite R3. cbn. split; [reflexivity|]. apply grown_set; auto.
      intros b' ps' E. destruct (R4 b' ps' E) as [K|[ps0 K]]; [left; exact K|right; eauto].
    + cbn. unfold bind. rewrite R. cbn. auto.
  - assert (Ei : map (fun d => deref (r_mem s) (r_ref s d)) ds = map e ds) by (apply map_ext; intros d; apply (proj1 (proj2 (G2 d)))).
    rewrite Ei. cbn [enum iter_o map fst snd combine seq length]. destruct (comp_recompute AF (akind k) (map e ds) 0) as [[y|]|x] eqn:Ek; cbn -[comp_recompute]; rewrite ?Ek; cbn; auto.
    pose proof (place_spec (r_mem s) y) as P. destruct (place (r_mem s) y) as [m' r']. destruct P as [P1 [P2 [P3 P4]]]. cbn. split; [reflexivity|].
    apply grown_set; auto. intros b' ps' E. left. eauto.
Qed.
Lemma rrun_sim : forall rbs bs, Forall2 (same_block F) rbs bs -> forall m0 r0 cut s e, grown m0 r0 s e ->
  snd (iter_o (rrecompute F cut) rbs s) = snd (geval AF cut bs e) /\ grown m0 r0 (fst (iter_o (rrecompute F cut) rbs s)) (fst (geval AF cut bs e)).
Proof.
  induction 1 as [|rb b rbs bs Hb _ IH]; intros m0 r0 cut s e G; [cbn; auto|]. unfold geval. cbn [iter_o].
  destruct (rrecompute_sim m0 r0 cut s e rb b Hb G) as [A B]. destruct (rrecompute F cut s rb) as [s1 x1], (geval_block AF cut e b) as [e1 x2]. cbn [fst snd] in A, B. subst x2.
  destruct x1; [cbn; auto|]. now apply IH.
Qed.
Lemma grown_ext : forall m0 r0 s e e', grown m0 r0 s e -> (forall v, e v = e' v) -> grown m0 r0 s e'.
Proof. intros m0 r0 s e e' [A B] H. split; [exact A|]. intros v. rewrite <- H. apply B. Qed.
Lemma rupdate_sim : forall m0 r0 cs args s e, grown m0 r0 s e -> Forall (lies (r_mem s)) args -> length args = length cs ->
  grown m0 r0 (rupdate F s cs args) (fun v => match supplied cs (map (deref (r_mem s)) args) v with Some x => x | None => e v end).
Proof.
  intros m0 r0. induction cs as [|c cs IH]; intros [|a args] s e G Hl El; try discriminate El; [exact G|]. cbn [rupdate supplied map].
  inversion Hl as [|? ? Ha Hl']; subst. pose proof (copy_spec (r_mem s) a) as P. destruct (copy F (r_mem s) a) as [m' r']. destruct P as [[t P1] [P2 [P3 P4]]].
  assert (G' : grown m0 r0 (r_set s m' c r') (eset e c (deref (r_mem s) a))).
  { apply grown_set; eauto. }
  assert (Hl2 : Forall (lies m') args) by (subst m'; eapply Forall_impl; [|exact Hl']; intros; now apply lies_app).
  eapply grown_ext; [apply (IH args _ _ G'); [exact Hl2|now injection El]|]. intros v. cbn [r_set r_mem].
  replace (map (deref m') args) with (map (deref (r_mem s)) args).
  - destruct (supplied cs (map (deref (r_mem s)) args) v) eqn:Es; [reflexivity|]. unfold eset. destruct (Nat.eqb v c); reflexivity.
  - apply map_ext_in. intros r Hr. subst m'. symmetry. apply deref_app. rewrite Forall_forall in Hl'. auto.
Qed.

(** Writing. *)
Lemma nth_list_set_eq : forall (A : Type) (l : list A) i x j d, nth j (list_set l i x) d = if Nat.eqb i j then (if i <? length l then x else d) else nth j l d.
Proof.
  intros A l i x j d. rewrite <- !nth_default_eq. unfold nth_default. rewrite nth_list_set. destruct (Nat.eqb_spec i j) as [->|Hn]; [|reflexivity].
  destruct (Nat.ltb_spec j (length l)) as [Hl|Hl]; [destruct (nth_error l j) eqn:E; [reflexivity|apply nth_error_None in E; lia]|].
  destruct (nth_error l j) eqn:E; [|reflexivity]. apply nth_error_None in Hl. congruence.
Qed.
Lemma write_len : forall (m : memory V) b p x, length (write m b p x) = length m.
Proof. intros. apply length_list_set. Qed.
Lemma write_row : forall (m : memory V) b p x b', length (nth b' (write m b p x) []) = length (nth b' m []).
Proof.
  intros m b p x b'. unfold write. rewrite nth_list_set_eq. destruct (Nat.eqb_spec b b') as [->|]; [|reflexivity].
  destruct (Nat.ltb_spec b' (length m)) as [H|H]; [apply length_list_set|]. rewrite (nth_overflow m) by assumption. reflexivity.
Qed.
Lemma read_write : forall (m : memory V) b p x b' p', b < length m -> p < length (nth b m []) ->
  read (write m b p x) b' p' = if Nat.eqb b b' && Nat.eqb p p' then x else read m b' p'.
Proof.
  intros m b p x b' p' Hb Hp. unfold Alias.read, write. rewrite nth_list_set_eq. destruct (Nat.eqb_spec b b') as [->|Hn]; [|reflexivity].
  destruct (Nat.ltb_spec b' (length m)); [|lia]. rewrite nth_list_set_eq. destruct (Nat.eqb_spec p p') as [->|]; [|reflexivity].
  destruct (Nat.ltb_spec p' (length (nth b' m []))); [reflexivity|lia].
Qed.
Lemma lies_write : forall (m : memory V) b p x r, lies m r -> lies (write m b p x) r.
Proof.
  intros m b p x [y|b' ps] H; [exact I|]. destruct H as [H1 [H2 H3]]. cbn. rewrite write_len. split; [exact H1|]. split; [|exact H3].
  eapply Forall_impl; [|exact H2]. intros q Hq. cbv beta. now rewrite write_row.
Qed.
Lemma deref_write_other : forall (m : memory V) b p x r, (forall ps, r <> RArr b ps) -> deref (write m b p x) r = deref m r.
Proof.
  intros m b p x [y|b' ps] H; [reflexivity|]. cbn. f_equal. apply map_ext. intros q. unfold Alias.read, write. rewrite nth_list_set_eq.
  destruct (Nat.eqb_spec b b') as [->|]; [destruct (H ps eq_refl)|reflexivity].
Qed.
Lemma write_same : forall (m : memory V) b p, b < length m -> p < length (nth b m []) -> write m b p (read m b p) = m.
Proof.
  intros m b p Hb Hp. unfold write, Alias.read. assert (E : forall (A : Type) (l : list A) i d, i < length l -> list_set l i (nth i l d) = l).
  { induction l as [|y l IH]; intros [|i] d H; cbn in *; try lia; [reflexivity|]. f_equal. apply IH. lia. }
  rewrite (E _ (nth b m [])) by assumption. now apply E.
Qed.
Lemma write_all_neutral : forall f ps (m : memory V) b, (forall x, f x = x) -> b < length m -> Forall (fun p => p < length (nth b m [])) ps -> write_all F m b ps f = m.
Proof.
  intros f ps m b Hf Hb Hp. unfold write_all. induction Hp as [|p ps Hp _ IH]; [reflexivity|]. cbn [fold_left]. rewrite Hf, write_same by assumption. exact IH.
Qed.
Lemma write_all_read : forall f ps (m : memory V) b, NoDup ps -> b < length m -> Forall (fun p => p < length (nth b m [])) ps ->
  length (write_all F m b ps f) = length m /\ (forall b', length (nth b' (write_all F m b ps f) []) = length (nth b' m [])) /\
  forall p, read (write_all F m b ps f) b p = if existsb (Nat.eqb p) ps then f (read m b p) else read m b p.
Proof.
  intros f ps. unfold write_all. induction ps as [|q ps IH]; intros m b Hn Hb Hp; [cbn; auto|]. cbn [fold_left existsb].
  inversion Hn as [|? ? Hq Hn']; subst. inversion Hp as [|? ? Hq' Hp']; subst. set (m1 := write m b q (f (read m b q))).
  destruct (IH m1 b Hn') as [A [B C]].
  { unfold m1. now rewrite write_len. }
  { eapply Forall_impl; [|exact Hp']. intros p Hp0. unfold m1. now rewrite write_row. }
  split; [rewrite A; apply write_len|]. split; [intros b'; rewrite B; apply write_row|]. intros p. rewrite C. unfold m1. rewrite read_write by assumption.
  rewrite Nat.eqb_refl. cbn [andb]. destruct (Nat.eqb_spec p q) as [->|Hne]; cbn [orb].
  - rewrite Nat.eqb_refl. destruct (existsb (Nat.eqb q) ps) eqn:Ex; [|reflexivity]. apply existsb_exists in Ex as [z [Hz Ez]]. apply Nat.eqb_eq in Ez. subst z. contradiction.
  - destruct (Nat.eqb_spec q p) as [->|]; [congruence|]. reflexivity.
Qed.
Lemma deref_scaled : forall f ps (m : memory V) b, lies m (RArr b ps) -> deref (write_all F m b ps f) (RArr b ps) = Arr (map (fun p => f (read m b p)) ps).
Proof.
  intros f ps m b [H1 [H2 H3]]. cbn. f_equal. destruct (write_all_read f ps m b H3 H1 H2) as [_ [_ C]]. apply map_ext_in. intros p Hp. rewrite C.
  replace (existsb (Nat.eqb p) ps) with true; [reflexivity|]. symmetry. apply existsb_exists. exists p. split; [exact Hp|apply Nat.eqb_refl].
Qed.

(** ** One evaluation *)
Lemma grown_start : forall s e, (forall v, lies (r_mem s) (r_ref s v)) -> (forall v, deref (r_mem s) (r_ref s v) = e v) -> grown (r_mem s) (r_ref s) s e.
Proof.
  intros s e Hl He. split; [exists []; now rewrite app_nil_r|]. intros v. split; [apply Hl|]. split; [apply He|]. intros b ps E. right. eauto.
Qed.
Lemma rcall_sim : forall rbs bs, Forall2 (same_block F) rbs bs -> forall J cs sc args s h, no_ctrl h -> agrees F s h -> (forall v, lies (r_mem s) (r_ref s v)) ->
  Forall (lies (r_mem s)) args ->
  let c := rcall F rbs J cs sc args s in
  let c' := rf_call AF bs (RF J cs (Num sc)) (map (deref (r_mem s)) args) h in
  rmap (deref (r_mem (fst c))) (snd c) = snd c' /\
  (forall r, snd c = Ok r -> lies (r_mem (fst c)) r) /\
  ((forall b ps, snd c = Ok (RArr b ps) -> neutral F sc) -> grown (r_mem s) (r_ref s) (fst c) (saved (fst c')) /\ forall b ps, snd c = Ok (RArr b ps) -> exists v, r_ref (fst c) v = RArr b ps).
Proof.
  intros rbs bs Hb J cs sc args s h Hn Ha Hl Hargs. unfold rcall. destruct (Nat.eqb_spec (length args) (length cs)) as [El|Hne].
  - cbn [negb]. destruct (rf_call_spec AF bs (RF J cs (Num sc)) (map (deref (r_mem s)) args) h Hn) as [R1 [R2 _]]; [cbn; now rewrite map_length|].
    cbn [rf_ctrls rf_J rf_scale] in R1, R2. pose proof (grown_start s (saved h) Hl Ha) as G0. pose proof (rupdate_sim _ _ cs args s _ G0 Hargs El) as G1.
    change (fun v => match supplied cs (map (deref (r_mem s)) args) v with Some x => x | None => saved h v end) with (start_env h cs (map (deref (r_mem s)) args)) in G1.
    destruct (rrun_sim rbs bs Hb _ _ (fun v => mem v cs) _ _ G1) as [A B]. set (g := geval AF (fun v => mem v cs) bs (start_env h cs (map (deref (r_mem s)) args))) in *.
    destruct (iter_o (rrecompute F (fun v => mem v cs)) rbs (rupdate F s cs args)) as [s2 e]. cbn [fst snd] in A, B. rewrite R1, <- A. cbv zeta.
    assert (GG : grown (r_mem s) (r_ref s) s2 (saved (fst (rf_call AF bs (RF J cs (Num sc)) (map (deref (r_mem s)) args) h)))) by (eapply grown_ext; [exact B|]; intros v; symmetry; apply R2).
    destruct e as [x|]; cbn [fst snd].
    + split; [reflexivity|]. split; [discriminate|]. intros _. split; [exact GG|discriminate].
    + destruct B as [_ B]. destruct (B J) as [B1 [B2 _]]. rewrite <- B2. destruct (r_ref s2 J) as [x|b ps] eqn:EJ; cbn [fst snd].
      * split; [reflexivity|]. split; [intros r Er; injection Er as <-; exact I|]. intros _. split; [exact GG|discriminate].
      * split; [|split].
        -- cbn [rmap]. f_equal. cbn [r_mem]. rewrite deref_scaled by exact B1. cbn. now rewrite map_map.
        -- intros r Er. injection Er as <-. cbn [r_mem]. destruct B1 as [H1 [H2 H3]]. destruct (write_all_read (fun x => f_mul F x sc) ps (r_mem s2) b H3 H1 H2) as [K1 [K2 _]].
           split; [now rewrite K1|]. split; [|exact H3]. eapply Forall_impl; [|exact H2]. intros p Hp. cbv beta. now rewrite K2.
        -- intros Hneu. specialize (Hneu b ps eq_refl). destruct B1 as [H1 [H2 H3]]. rewrite write_all_neutral by (auto; exact Hneu).
           split; [destruct s2; exact GG|]. intros b' ps' E. injection E as <- <-. exists J. exact EJ.
  - cbn [negb fst snd]. rewrite rf_call_mismatch by (cbn; rewrite map_length; exact Hne). cbn. split; [reflexivity|]. split; [discriminate|]. intros _. split; [|discriminate].
    apply grown_start; auto.
Qed.

(** ** The user *)
(** Memory [m'] grew from [m]. *)
Definition kept (us us' : ustate V) : Prop := exists t, r_mem (u_tape us') = r_mem (u_tape us) ++ t.
Lemma kept_seen : forall (us us' : ustate V) more, sound us -> kept us us' -> u_vars us' = u_vars us ++ more -> forall u, u < length (u_vars us) -> seen F us' u = seen F us u.
Proof.
  intros us us' more [_ S] [t Et] Ev u Hu. unfold seen. rewrite Ev, nth_error_app1 by assumption. destruct (nth_error (u_vars us) u) as [[own r]|] eqn:E; [|reflexivity].
  cbn. f_equal. rewrite Et. apply deref_app. apply nth_error_In in E. rewrite Forall_forall in S. exact (S _ E).
Qed.
Lemma push_ok : forall (us : ustate V) t own r h, sound us -> apart us -> agrees F (u_tape us) h -> lies (r_mem (u_tape us) ++ t) r ->
  (forall b ps, r = RArr b ps -> length (r_mem (u_tape us)) <= b \/
     (own = true -> exists ps', In (true, RArr b ps') (u_vars us)) /\
     (own = false -> (exists v ps', r_ref (u_tape us) v = RArr b ps') \/ exists ps', In (false, RArr b ps') (u_vars us))) ->
  let us' := u_push us (r_mem (u_tape us) ++ t) own r in sound us' /\ apart us' /\ agrees F (u_tape us') h.
Proof.
  intros us t own r h [S1 S2] A G Hl Hr. cbn. rewrite Forall_forall in S2. split; [split|split].
  - intros v. cbn. now apply lies_app.
  - apply Forall_forall. intros p Hp. cbn in *. apply in_app_iff in Hp as [Hp|[<-|[]]]; [apply lies_app; auto|exact Hl].
  - intros r1 Hr1. cbn in *. apply in_app_iff in Hr1 as [Hr1|[E|[]]].
    + destruct (A r1 Hr1) as [A1 A2]. split; [exact A1|]. intros r' Hr'. apply in_app_iff in Hr' as [Hr'|[E|[]]]; [auto|]. injection E as E1 E2. subst own r'.
      intros [b [ps [ps' [E1 E2]]]]. subst r r1. destruct (Hr b ps eq_refl) as [K|[_ K]].
      * specialize (S2 _ Hr1). cbn in S2. destruct S2 as [S2 _]. lia.
      * destruct (K eq_refl) as [[v [q K1]]|[q K1]]; [apply (A1 v); exists b, q, ps'; auto|apply (A2 _ K1); exists b, q, ps'; auto].
    + injection E as E1 E2. subst own r1. split.
      * intros v [b [ps [ps' [E1 E2]]]]. destruct (Hr b ps' E2) as [K|[K _]].
        -- specialize (S1 v). rewrite E1 in S1. destruct S1 as [S1 _]. lia.
        -- destruct (K eq_refl) as [q K1]. apply (proj1 (A _ K1) v). exists b, ps, q. auto.
      * intros r' Hr'. apply in_app_iff in Hr' as [Hr'|[E|[]]]; [|discriminate]. intros [b [ps [ps' [E1 E2]]]]. subst r r'. destruct (Hr b ps' eq_refl) as [K|[K _]].
        -- specialize (S2 _ Hr'). cbn in S2. destruct S2 as [S2 _]. lia.
        -- destruct (K eq_refl) as [q K1]. apply (proj2 (A _ K1) _ Hr'). exists b, ps, q. auto.
  - intros v. cbn. rewrite deref_app by apply S1. apply G.
Qed.
Lemma vars_lie : forall (us : ustate V) vs args, sound us -> mapM (var_ref us) vs = Ok args -> Forall (lies (r_mem (u_tape us))) args.
Proof.
  intros us vs args [_ S] H. revert args H. induction vs as [|u vs IH]; intros args H; cbn in H; [injection H as <-; constructor|].
  unfold var_ref at 1 in H. destruct (nth_error (u_vars us) u) as [[own r]|] eqn:E; [|discriminate]. destruct (mapM (var_ref us) vs) as [args'|]; [|discriminate]. injection H as <-.
  constructor; [|auto]. apply nth_error_In in E. rewrite Forall_forall in S. exact (S _ E).
Qed.
(** What an event does to the values of the tape. *)
Definition api_of (us : ustate V) (ev : event V) : list (api (aval V)) :=
  match ev with
  | ECall J cs sc vs => match mapM (var_ref us) vs with Ok args => [ACall (RF J cs (Num sc)) (map (deref (r_mem (u_tape us))) args)] | Err _ => [] end
  | _ => []
  end.
Lemma step_ok : forall rbs bs, Forall2 (same_block F) rbs bs -> forall cs us h ev, no_ctrl h -> sound us -> apart us -> agrees F (u_tape us) h -> well_behaved F cs rbs us ev ->
  let us' := fst (estep F rbs us ev) in
  sound us' /\ apart us' /\ agrees F (u_tape us') (run_hist AF bs h (api_of us ev)) /\ (exists more, u_vars us' = u_vars us ++ more) /\
  ((forall u i x, ev <> ESet u i x) -> kept us us') /\ (forall u r, nth_error (u_vars us) u = Some (false, r) -> seen F us' u = seen F us u).
Proof.
  intros rbs bs Hb cs us h ev Hn S A G W. pose proof S as [S1 S2]. rewrite Forall_forall in S2. cbv zeta.
  assert (Same : forall more, u_vars us = u_vars us ++ more -> more = []) by (intros more E; apply (f_equal (@length _)) in E; rewrite app_length in E; destruct more; [reflexivity|cbn in E; lia]).
  assert (Id : sound us /\ apart us /\ agrees F (u_tape us) h /\ (exists more, u_vars us = u_vars us ++ more) /\ ((forall u i x, ev <> ESet u i x) -> kept us us) /\
     (forall u r, nth_error (u_vars us) u = Some (false, r) -> seen F us u = seen F us u)).
  { do 3 (split; [assumption|]). split; [exists []; now rewrite app_nil_r|]. split; [intros _; exists []; now rewrite app_nil_r|reflexivity]. }
  assert (Push : forall t own r, sound (u_push us (r_mem (u_tape us) ++ t) own r) /\ apart (u_push us (r_mem (u_tape us) ++ t) own r) /\ agrees F (u_tape (u_push us (r_mem (u_tape us) ++ t) own r)) h ->
     let us' := u_push us (r_mem (u_tape us) ++ t) own r in
     sound us' /\ apart us' /\ agrees F (u_tape us') h /\ (exists more, u_vars us' = u_vars us ++ more) /\ ((forall u i x, ev <> ESet u i x) -> kept us us') /\
     (forall u r, nth_error (u_vars us) u = Some (false, r) -> seen F us' u = seen F us u)).
  { intros t own r [P1 [P2 P3]]. cbv zeta. assert (K : kept us (u_push us (r_mem (u_tape us) ++ t) own r)) by (exists t; reflexivity). do 3 (split; [assumption|]).
    split; [cbn; eauto|]. split; [intros _; exact K|]. intros u r0 Hu. eapply kept_seen; [exact S|exact K|reflexivity|]. apply nth_error_Some. congruence. }
  destruct ev as [l|x|u it|u i x|J ctrls sc vs|c]; cbn [estep api_of run_hist fold_left].
  - unfold alloc. cbn [fst]. apply Push, push_ok; auto.
    + exact (proj1 (proj2 (alloc_spec (r_mem (u_tape us)) l))).
    + intros b ps E. injection E. left. lia.
  - cbn [fst]. replace (u_push us (r_mem (u_tape us)) true (RNum x)) with (u_push us (r_mem (u_tape us) ++ []) true (RNum x)) by now rewrite app_nil_r.
    apply Push, push_ok; auto. discriminate.
  - destruct (nth_error (u_vars us) u) as [[own r]|] eqn:E; [|exact Id]. apply nth_error_In in E. pose proof (rgetitem_spec (r_mem (u_tape us)) it r (S2 _ E)) as R.
    destruct (rgetitem F (r_mem (u_tape us)) it r) as [[m' r']|e]; [|exact Id]. destruct R as [[t R1] [R2 [_ R4]]]. cbn [fst]. subst m'. apply Push, push_ok; auto.
    intros b ps Eb. destruct (R4 b ps Eb) as [K|[q K]]; [left; exact K|right]. subst r. destruct own; split; try discriminate; eauto.
  - destruct (nth_error (u_vars us) u) as [[own [y|b ps]]|] eqn:E; try exact Id. destruct (nth_error ps i) as [q|] eqn:Ei; [|exact Id]. cbn [fst].
    destruct own; [|destruct (W _ E)]. apply nth_error_In in E. destruct (A _ E) as [A1 A2]. split; [|split; [|split; [|split; [|split]]]].
    + split; [intros v; cbn; apply lies_write, S1|]. apply Forall_forall. intros p Hp. cbn in *. apply lies_write. auto.
    + intros r Hr. cbn in *. exact (A r Hr).
    + intros v. cbn. rewrite deref_write_other; [apply G|]. intros ps' K. apply (A1 v). exists b, ps', ps. auto.
    + exists []. cbn. now rewrite app_nil_r.
    + intros H. destruct (H u i x eq_refl).
    + intros u' r Hu'. unfold seen. cbn. rewrite Hu'. cbn. f_equal. apply deref_write_other. intros ps' K. apply (A2 r); [eapply nth_error_In; exact Hu'|]. exists b, ps', ps. auto.
  - destruct W as [_ W]. destruct (mapM (var_ref us) vs) as [args|e] eqn:Ea; [|exact Id]. pose proof (vars_lie us vs args S Ea) as La.
    destruct (rcall_sim rbs bs Hb J ctrls sc args (u_tape us) h Hn G S1 La) as [C1 [C2 C3]]. specialize (W args). cbn [fold_left api_run] in *.
    destruct (C3 (fun b ps K => W b ps eq_refl K)) as [[[t C4] C5] C6]. clear C3.
    destruct (rf_call AF bs (RF J ctrls (Num sc)) (map (deref (r_mem (u_tape us))) args) h) as [h' rr]. cbn [fst snd] in *.
    destruct (rcall F rbs J ctrls sc args (u_tape us)) as [s y]. cbn [fst snd] in *.
    assert (Fin : forall more, (forall own r, In (own, r) more -> own = false /\ lies (r_mem s) r /\ forall b ps, r = RArr b ps -> exists v, r_ref s v = RArr b ps) ->
      sound (USt s (u_vars us ++ more)) /\ apart (USt s (u_vars us ++ more)) /\ agrees F s h' /\ (exists more', u_vars us ++ more = u_vars us ++ more') /\
      ((forall u i x, ECall J ctrls sc vs <> ESet u i x) -> kept us (USt s (u_vars us ++ more))) /\
      (forall u r, nth_error (u_vars us) u = Some (false, r) -> seen F (USt s (u_vars us ++ more)) u = seen F us u)).
    { intros more Hm. assert (K : kept us (USt s (u_vars us ++ more))) by (exists t; exact C4). split; [split|split; [|split; [|split; [|split]]]].
      - intros v. cbn. apply C5.
      - apply Forall_forall. intros [own r] Hp. cbn in *. apply in_app_iff in Hp as [Hp|Hp]; [|now destruct (Hm _ _ Hp) as [_ [K1 _]]]. rewrite C4. apply lies_app. exact (S2 _ Hp).
      - intros r Hr. cbn in *. apply in_app_iff in Hr as [Hr|Hr]; [|destruct (Hm _ _ Hr); discriminate]. destruct (A r Hr) as [A1 A2].
        assert (A3 : forall v, ~ overlap (r_ref s v) r).
        { intros v [b [ps [ps' [E1 E2]]]]. subst r. destruct (proj2 (proj2 (C5 v)) b ps E1) as [K1|[u [q K1]]].
          - specialize (S2 _ Hr). cbn in S2. destruct S2 as [S2 _]. lia.
          - apply (A1 u). exists b, q, ps'. auto. }
        split; [exact A3|]. intros r' Hr'. apply in_app_iff in Hr' as [Hr'|Hr']; [auto|]. intros [b [ps [ps' [E1 E2]]]]. destruct (Hm _ _ Hr') as [_ [_ K1]]. destruct (K1 b ps E1) as [v K2].
        apply (A3 v). exists b, ps, ps'. auto.
      - intros v. apply C5.
      - eauto.
      - intros _. exact K.
      - intros u r Hu. eapply kept_seen; [exact S|exact K|reflexivity|]. apply nth_error_Some. congruence. }
    destruct y as [r|e]; cbn [fst u_tape u_vars].
    + apply Fin. intros own r0 [Er|[]]. injection Er as <- <-. split; [reflexivity|]. split; [auto|]. intros b ps Eb. apply C6. now f_equal.
    + specialize (Fin [] (fun _ _ K => match K with end)). rewrite app_nil_r in Fin. exact Fin.
  - cbn [fst]. replace (u_push us (r_mem (u_tape us)) false (r_ref (u_tape us) c)) with (u_push us (r_mem (u_tape us) ++ []) false (r_ref (u_tape us) c)) by now rewrite app_nil_r.
    apply Push, push_ok; auto; [rewrite app_nil_r; apply S1|]. intros b ps E. right. split; [discriminate|]. intros _. left. eauto.
Qed.
Lemma run_ok : forall rbs bs, Forall2 (same_block F) rbs bs -> forall cs evs us h, no_ctrl h -> sound us -> apart us -> agrees F (u_tape us) h -> behaves F cs rbs us evs ->
  let us' := erun F rbs us evs in
  sound us' /\ apart us' /\ (exists l, agrees F (u_tape us') (run_hist AF bs h l) /\ forall rf vals, In (ACall rf vals) l -> incl (rf_ctrls rf) cs) /\
  (exists more, u_vars us' = u_vars us ++ more) /\ (forall u r, nth_error (u_vars us) u = Some (false, r) -> seen F us' u = seen F us u).
Proof.
  intros rbs bs Hb cs. induction evs as [|ev evs IH]; intros us h Hn S A G B; cbv zeta.
  - split; [exact S|]. split; [exact A|]. split; [exists []; split; [exact G|intros rf vals []]|]. split; [exists []; now rewrite app_nil_r|reflexivity].
  - change (erun F rbs us (ev :: evs)) with (erun F rbs (fst (estep F rbs us ev)) evs). destruct B as [W B]. destruct (step_ok rbs bs Hb cs us h ev Hn S A G W) as [S' [A' [G' [[more E] [_ K]]]]]. destruct (hist_frame AF bs (api_of us ev) h Hn) as [Hn' _].
    destruct (IH _ _ Hn' S' A' G' B) as [S2 [A2 [[l [G2 C2]] [[more2 E2] K2]]]]. split; [exact S2|]. split; [exact A2|]. split; [|split].
    + exists (api_of us ev ++ l). split; [unfold run_hist in *; now rewrite fold_left_app|]. intros rf vals Hi. apply in_app_iff in Hi as [Hi|Hi]; [|eauto].
      destruct ev; try destruct Hi. cbn in Hi. destruct (mapM (var_ref us) us0); [|destruct Hi]. destruct Hi as [Hi|[]]. injection Hi as <- _. exact (proj1 W).
    + rewrite E2, E, <- app_assoc. eauto.
    + intros u r Hu. rewrite (K2 u r); [eapply K; exact Hu|]. rewrite E. now rewrite nth_error_app1 by (apply nth_error_Some; congruence).
Qed.

(** ** Recorded programs *)
Lemma blocks_exist : forall xs es tys env j, atypes (map is_arr xs) es = Some tys -> avalues F xs es = Ok env -> j < length env ->
  exists rbs, Forall2 (same_block F) rbs (t_flat (w_tape (fst (get_bv (fst (arun F true xs es)) j)))).
Proof.
  intros xs es tys env j Ht Hv Hj. destruct (arr_rerun F xs es tys env j Ht Hv Hj) as [_ [_ [Ew _]]]. rewrite Ew.
  assert (H : forall b, In b (flat (fst (recorded AF true (program F xs es) j))) -> exists rb, same_block F rb b).
  { intros b Hb. destruct (arr_made F xs es tys env j Ht Hv Hj b Hb) as [es1 [s [es2 [_ M]]]]. destruct s as [x|a it|k args|k args]; cbn in M; [destruct M| | |];
      destruct M as [M1 [M2 M3]]; inversion M3 as [|? o ? ? _ M4 M5]; inversion M4; subst.
    - inversion M2 as [|? d ? ? _ M6 M7]; inversion M6; subst. exists (RItem it d o). cbn. auto.
    - exists (RKind k (b_deps b) o). cbn. auto.
    - exists (RKind k (b_deps b) o). cbn. auto. }
  change (get_bv (exec AF (world_new AF true) (declare 0 xs ++ map (to_stmt F) es)) j) with (recorded AF true (program F xs es) j).
  change (t_flat (w_tape (fst (recorded AF true (program F xs es) j)))) with (flat (fst (recorded AF true (program F xs es) j))).
  induction (flat (fst (recorded AF true (program F xs es) j))) as [|b bs IH]; [exists []; constructor|].
  destruct IH as [rbs R]; [intros b' Hb'; apply H; now right|]. destruct (H b (or_introl eq_refl)) as [rb Hrb]. exists (rb :: rbs). now constructor.
Qed.
Lemma supplied_seq_nth : forall (l : list (aval V)) k i, supplied (seq k (length l)) l (k + i) = nth_error l i.
Proof.
  induction l as [|x l IH]; intros k i; [destruct i; reflexivity|]. cbn [length seq supplied]. destruct i as [|i].
  - rewrite Nat.add_0_r, Nat.eqb_refl. assert (E : supplied (seq (S k) (length l)) l k = None); [|now rewrite E].
    clear. assert (H : forall (l : list (aval V)) k' , k < k' -> supplied (seq k' (length l)) l k = None); [|apply H; lia].
    induction l0 as [|y l0 IH]; intros k' Hk; [reflexivity|]. cbn. rewrite IH by lia. destruct (Nat.eqb_spec k k'); [lia|reflexivity].
  - replace (k + S i) with (S k + i) by lia. rewrite IH. cbn [nth_error]. destruct (nth_error l i); [reflexivity|]. destruct (Nat.eqb_spec (S k + i) k); [lia|reflexivity].
Qed.

Theorem alias_call : forall xs es tys env j, atypes (map is_arr xs) es = Some tys -> avalues F xs es = Ok env -> j < length env ->
  let w := fst (get_bv (fst (arun F true xs es)) j) in
  let v := snd (get_bv (fst (arun F true xs es)) j) in
  exists rbs, Forall2 (same_block F) rbs (t_flat (w_tape w)) /\
  forall us0 evs vs scale args, sound us0 -> apart us0 -> agrees F (u_tape us0) (w_heap w) -> behaves F (w_ctrls w) rbs us0 evs ->
  let us := erun F rbs us0 evs in
  let m := map (deref (r_mem (u_tape us))) args in
  let r := estep F rbs us (ECall v (w_ctrls w) scale vs) in
  mapM (var_ref us) vs = Ok args -> map is_arr m = map is_arr xs ->
  match avariable F m es j with
  | Ok y => snd r = None /\ seen F (fst r) (length (u_vars us)) = Some (lift2 (f_mul F) y (Num scale))
  | Err e => snd r = Some e
  end /\
  (well_behaved F (w_ctrls w) rbs us (ECall v (w_ctrls w) scale vs) ->
    (forall i, i < length xs -> Some (stored F (fst r) (nth i (w_ctrls w) 0)) = nth_error m i) /\
    (forall u, u < length (u_vars us) -> seen F (fst r) u = seen F us u) /\
    (snd r = None -> forall evs', behaves F (w_ctrls w) rbs (fst r) evs' -> seen F (erun F rbs (fst r) evs') (length (u_vars us)) = seen F (fst r) (length (u_vars us)))).
Proof.
  intros xs es tys env j Ht Hv Hj w v. destruct (blocks_exist xs es tys env j Ht Hv Hj) as [rbs Hb]. fold w in Hb. exists rbs. split; [exact Hb|].
  intros us0 evs vs scale args S A G B us m r Ea Hm.
  assert (Hn : no_ctrl (w_heap w)).
  { unfold w. destruct (arr_rerun F xs es tys env j Ht Hv Hj) as [_ [_ [Ew _]]]. rewrite Ew.
    destruct (arr_good F xs es tys env j Ht Hv Hj no_override) as [[W _] _]. intros u. apply (wi_ctrl AF [] _ W). }
  destruct (run_ok rbs _ Hb (w_ctrls w) evs us0 _ Hn S A G B) as [S' [A' [[l [G' C']] _]]]. fold us in S', A', G'.
  destruct (arr_call F xs es tys env j m scale l Ht Hv Hj Hm) as [Hctl Hcall]. fold w v in Hctl, Hcall. specialize (Hcall C').
  destruct (hist_frame AF (t_flat (w_tape w)) l (w_heap w) Hn) as [Hn' _].
  destruct (rcall_sim rbs _ Hb v (w_ctrls w) scale args (u_tape us) _ Hn' G' (proj1 S') (vars_lie us vs args S' Ea)) as [C1 _]. fold m in C1. rewrite Hcall in C1. split.
  - unfold r. cbn [estep]. rewrite Ea. destruct (rcall F rbs v (w_ctrls w) scale args (u_tape us)) as [s y]. cbn [fst snd] in C1.
    destruct (avariable F m es j) as [z|e]; destruct y as [y|e']; try discriminate C1; cbn in C1; injection C1 as C1; cbn [fst snd].
    + split; [reflexivity|]. unfold seen. cbn. rewrite nth_error_app2, Nat.sub_diag by lia. cbn. now rewrite C1.
    + now rewrite C1.
  - intros W. destruct (step_ok rbs _ Hb (w_ctrls w) us _ _ Hn' S' A' G' W) as [S2 [A2 [G2 [[more E2] [K2 _]]]]]. fold r in S2, A2, G2, E2, K2. split; [|split].
    + intros i Hi. unfold stored. rewrite G2. set (h1 := run_hist AF (t_flat (w_tape w)) (w_heap w) l) in *. cbn [api_of]. rewrite Ea. fold m. unfold run_hist. cbn [fold_left api_run].
      assert (Lm : length m = length xs) by (rewrite <- (map_length is_arr m), Hm, map_length; reflexivity).
      assert (Lc : length m = length (w_ctrls w)) by (rewrite Hctl, seq_length; exact Lm).
      destruct (rf_call_spec AF (t_flat (w_tape w)) (RF v (w_ctrls w) (Num scale)) m _ Hn' Lc) as [_ [R _]]. cbn [rf_ctrls] in R.
      match goal with |- context [let '(_, _) := ?c in _] => destruct c as [h' rr] eqn:Ec end.
      cbn [fst] in *. rewrite R, geval_frame.
      * unfold start_env. rewrite Hctl, seq_nth by exact Hi. cbn [plus]. rewrite <- Lm. pose proof (supplied_seq_nth m 0 i) as Q. cbn [plus] in Q. rewrite Q.
        destruct (nth_error m i) eqn:En; [reflexivity|]. apply nth_error_None in En. lia.
      * intros K. unfold computed in K. apply in_flat_map in K as [b [Hb1 Hb2]]. destruct (existsb (fun v0 => mem v0 (w_ctrls w)) (b_outs b)) eqn:Ex; [destruct Hb2|].
        assert (T : existsb (fun v0 => mem v0 (w_ctrls w)) (b_outs b) = true); [|congruence]. apply existsb_exists. eexists. split; [exact Hb2|]. apply existsb_exists.
        exists (nth i (w_ctrls w) 0). split; [apply nth_In; rewrite Hctl, seq_length; exact Hi|apply Nat.eqb_refl].
    + intros u Hu. eapply kept_seen; [exact S'| |exact E2|exact Hu]. apply K2. discriminate.
    + intros Hr evs' B'. destruct (hist_frame AF (t_flat (w_tape w)) (api_of us (ECall v (w_ctrls w) scale vs)) _ Hn') as [Hn2 _].
      destruct (run_ok rbs _ Hb (w_ctrls w) evs' _ _ Hn2 S2 A2 G2 B') as [_ [_ [_ [_ K3]]]].
      unfold r in Hr, K3 |- *. cbn [estep] in *. rewrite Ea in *. destruct (rcall F rbs v (w_ctrls w) scale args (u_tape us)) as [s [y|e]]; [|discriminate Hr].
      cbn [fst snd] in *. eapply K3. cbn. rewrite nth_error_app2, Nat.sub_diag by lia. reflexivity.
Qed.

(** A float is returned for a float. *)
Lemma kinds_of : forall es env0 env tys, atypes (map is_arr env0) es = Some tys -> avalues F env0 es = Ok env -> map is_arr env = tys.
Proof.
  induction es as [|s es IH]; intros env0 env tys Ht Hv; cbn in Ht, Hv; [congruence|].
  destruct (atype (map is_arr env0) s) as [t|] eqn:Et; [|discriminate]. destruct (avalue F env0 s) as [x|] eqn:Ex; [|discriminate]. cbn in Hv.
  apply (IH (env0 ++ [x])); [|exact Hv]. rewrite map_app. cbn. now rewrite (avalue_kind F env0 s t x Et Ex).
Qed.
Theorem alias_float : forall xs es tys env j, atypes (map is_arr xs) es = Some tys -> avalues F xs es = Ok env -> nth_error tys j = Some false ->
  let w := fst (get_bv (fst (arun F true xs es)) j) in
  let v := snd (get_bv (fst (arun F true xs es)) j) in
  forall rbs us0 evs vs scale, Forall2 (same_block F) rbs (t_flat (w_tape w)) -> sound us0 -> apart us0 -> agrees F (u_tape us0) (w_heap w) -> behaves F (w_ctrls w) rbs us0 evs ->
  let us := erun F rbs us0 evs in
  (forall args, mapM (var_ref us) vs = Ok args -> map is_arr (map (deref (r_mem (u_tape us))) args) = map is_arr xs) ->
  well_behaved F (w_ctrls w) rbs us (ECall v (w_ctrls w) scale vs).
Proof.
  intros xs es tys env j Ht Hv Hty w v rbs us0 evs vs scale Hb S A G B us Hm. split; [apply incl_refl|]. intros args b ps Ea Hr. exfalso. specialize (Hm args Ea).
  assert (Hj : j < length env) by (rewrite <- (map_length is_arr env), (kinds_of es xs env tys Ht Hv); apply nth_error_Some; congruence).
  assert (Hn : no_ctrl (w_heap w)).
  { unfold w. destruct (arr_rerun F xs es tys env j Ht Hv Hj) as [_ [_ [Ew _]]]. rewrite Ew.
    destruct (arr_good F xs es tys env j Ht Hv Hj no_override) as [[W _] _]. intros u. apply (wi_ctrl AF [] _ W). }
  destruct (run_ok rbs _ Hb (w_ctrls w) evs us0 _ Hn S A G B) as [S' [A' [[l [G' C']] _]]]. fold us in S', A', G'. set (m := map (deref (r_mem (u_tape us))) args) in *.
  destruct (arr_call F xs es tys env j m scale l Ht Hv Hj Hm) as [Hctl Hcall]. fold w v in Hctl, Hcall. specialize (Hcall C').
  destruct (hist_frame AF (t_flat (w_tape w)) l (w_heap w) Hn) as [Hn' _].
  destruct (rcall_sim rbs _ Hb v (w_ctrls w) scale args (u_tape us) _ Hn' G' (proj1 S') (vars_lie us vs args S' Ea)) as [C1 _]. fold m in C1. rewrite Hcall, Hr in C1.
  unfold avariable in C1. destruct (avalues F m es) as [envm|e] eqn:Em; [|discriminate C1]. cbn in C1. unfold lookup in C1. destruct (nth_error envm j) as [y|] eqn:Ey; [|discriminate C1].
  rewrite <- Hm in Ht. pose proof (kinds_of es m envm tys Ht Em) as K. rewrite <- K, nth_error_map, Ey in Hty. cbn in Hty. destruct y; [discriminate C1|discriminate Hty].
Qed.
End AliasFacts.

Section Start.
Context {V : Type} (F : fops V).
(** The arrays the recorder copied: one buffer each. *)
Lemma copies_start : forall (h : heap (aval V)) n, (forall v, n <= v -> is_arr (saved h v) = false) ->
  sound (USt (copies h n) []) /\ apart (USt (copies h n) []) /\ agrees F (copies h n) h.
Proof.
  intros h n H. assert (N : forall v l, saved h v = Arr l -> nth v (map (fun u => entries (saved h u)) (seq 0 n)) [] = l /\ v < n).
  { intros v l E. destruct (lt_dec v n) as [K|K]; [|specialize (H v ltac:(lia)); rewrite E in H; discriminate]. split; [|exact K].
    rewrite nth_indep with (d' := entries (saved h 0)) by (now rewrite map_length, seq_length). change (entries (saved h 0)) with ((fun u => entries (saved h u)) 0). rewrite map_nth, seq_nth by exact K. cbn. now rewrite E. }
  split; [split; [|constructor]|split; [intros r []|]].
  - intros v. cbn. destruct (saved h v) as [x|l] eqn:E; [exact I|]. destruct (N v l E) as [K1 K2]. cbn. rewrite map_length, seq_length, K1. repeat split; [exact K2| |apply seq_NoDup].
    apply Forall_forall. intros p Hp. apply in_seq in Hp. lia.
  - intros v. cbn. destruct (saved h v) as [x|l] eqn:E; [reflexivity|]. cbn. f_equal. unfold read. rewrite (proj1 (N v l E)). clear.
    apply nth_ext with (d := nth 0 l (f_zero F)) (d' := f_zero F); [now rewrite map_length, seq_length|]. intros i Hi. rewrite map_length, seq_length in Hi.
    change (nth 0 l (f_zero F)) with ((fun p => nth p l (f_zero F)) 0). rewrite map_nth, seq_nth by exact Hi. reflexivity.
Qed.
End Start.
