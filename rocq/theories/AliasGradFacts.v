(** Facts about adjoint values that are arrays in memory. *)
From Coq Require Import List Arith ZArith Bool Lia.
From Verif Require Import Base Model Record BaseFacts Spec RecordFacts Graph History Session PyExp SpecArr Arrays ArrFacts ArrTape Alias SpecAlias AliasFacts AliasGrad SpecAliasGrad.
Import ListNotations.

Section GradFacts.
Context {V : Type} (F : fops V).
Notation AF := (AF F).
Notation read := (read F).
Notation deref := (deref F).

(** ** Writing at the end of memory *)
Definition ends_in (m0 m : memory V) : Prop := exists t, m = m0 ++ t.
Lemma ends_refl : forall m, ends_in m m.
Proof. intros m. exists []. now rewrite app_nil_r. Qed.
Lemma ends_trans : forall m1 m2 m3, ends_in m1 m2 -> ends_in m2 m3 -> ends_in m1 m3.
Proof. intros m1 m2 m3 [t1 ->] [t2 ->]. exists (t1 ++ t2). now rewrite app_assoc. Qed.
Lemma list_set_app : forall (A : Type) (l t : list A) i x, length l <= i -> list_set (l ++ t) i x = l ++ list_set t (i - length l) x.
Proof. induction l as [|y l IH]; intros t i x H; [cbn; now rewrite Nat.sub_0_r|]. destruct i as [|i]; [cbn in H; lia|]. cbn. f_equal. apply IH. cbn in H. lia. Qed.
Lemma write_ends : forall m0 m b p x, ends_in m0 m -> length m0 <= b -> ends_in m0 (write m b p x).
Proof. intros m0 m b p x [t ->] H. unfold write. rewrite list_set_app by assumption. eexists. reflexivity. Qed.
Lemma write_all_ends : forall f ps m0 m b, ends_in m0 m -> length m0 <= b -> ends_in m0 (write_all F m b ps f).
Proof. intros f. unfold write_all. induction ps as [|p ps IH]; intros m0 m b H Hb; [exact H|]. cbn. apply IH; auto. now apply write_ends. Qed.
Lemma write_each_ends : forall ps vs m0 m b, ends_in m0 m -> length m0 <= b -> ends_in m0 (write_each m b ps vs).
Proof. induction ps as [|p ps IH]; intros [|v vs] m0 m b H Hb; try exact H. cbn. apply IH; auto. now apply write_ends. Qed.
Lemma write_all_other : forall f ps (m : memory V) b r, (forall q, r <> RArr b q) -> deref (write_all F m b ps f) r = deref m r.
Proof. intros f. unfold write_all. induction ps as [|p ps IH]; intros m b r H; [reflexivity|]. cbn [fold_left]. rewrite IH by exact H. now apply deref_write_other. Qed.
Lemma write_each_other : forall ps vs (m : memory V) b r, (forall q, r <> RArr b q) -> deref (write_each m b ps vs) r = deref m r.
Proof. induction ps as [|p ps IH]; intros [|v vs] m b r H; try reflexivity. cbn [write_each]. rewrite IH by exact H. now apply deref_write_other. Qed.
Lemma write_all_lies : forall f ps (m : memory V) b r, lies m r -> lies (write_all F m b ps f) r.
Proof. intros f. unfold write_all. induction ps as [|p ps IH]; intros m b r H; [exact H|]. cbn [fold_left]. apply IH. now apply lies_write. Qed.
Lemma write_each_lies : forall ps vs (m : memory V) b r, lies m r -> lies (write_each m b ps vs) r.
Proof. induction ps as [|p ps IH]; intros [|v vs] m b r H; try exact H. cbn. apply IH. now apply lies_write. Qed.
Lemma write_each_read : forall ps vs (m : memory V) b p, ~ In p ps -> read (write_each m b ps vs) b p = read m b p.
Proof.
  induction ps as [|q ps IH]; intros [|v vs] m b p H; try reflexivity. cbn [write_each]. rewrite IH by (intros K; apply H; now right).
  unfold Alias.read, write. rewrite nth_list_set_eq, Nat.eqb_refl. destruct (Nat.ltb_spec b (length m)) as [Hb|Hb]; [|now rewrite (nth_overflow m)].
  rewrite nth_list_set_eq. destruct (Nat.eqb_spec q p) as [->|]; [destruct H; now left|reflexivity].
Qed.
Lemma write_each_deref : forall ps vs (m : memory V) b, lies m (RArr b ps) -> length vs = length ps -> deref (write_each m b ps vs) (RArr b ps) = Arr vs.
Proof.
  induction ps as [|q ps IH]; intros [|v vs] m b [H1 [H2 H3]] L; try discriminate L; [reflexivity|]. cbn [write_each Alias.deref map].
  inversion H2 as [|? ? Hq H2']; subst. inversion H3 as [|? ? Hn H3']; subst. rewrite write_each_read by exact Hn. rewrite read_write by assumption. rewrite !Nat.eqb_refl. cbn [andb].
  assert (Hl : lies (write m b q v) (RArr b ps)) by (apply lies_write; repeat split; assumption). injection L as L. specialize (IH vs _ _ Hl L). cbn in IH. injection IH as IH. now rewrite IH.
Qed.
Lemma zip_length : forall f (l m : list V), length m = length l -> length (zip_with f l m) = length l.
Proof. intros f. induction l as [|x l IH]; intros [|y m] H; try discriminate H; [reflexivity|]. cbn. f_equal. apply IH. now injection H. Qed.

(** ** One accumulation *)
Definition buffer (o : option (rval V)) (b : nat) : Prop := exists ps, o = Some (RArr b ps).
Lemma radd_spec : forall m0 m o r, ends_in m0 m -> lies m r -> (forall b ps, o = Some (RArr b ps) -> length m0 <= b /\ lies m (RArr b ps)) ->
  (forall b ps b' ps', o = Some (RArr b ps) -> r = RArr b' ps' -> length ps' = length ps) ->
  exists m' r', radd F m o r = Ok (m', r') /\ ends_in m0 m' /\ deref m' r' = match option_map (deref m) o with None => deref m r | Some x => f_add AF x (deref m r) end /\ lies m' r' /\
    (forall q, lies m q -> (forall b ps, q = RArr b ps -> ~ buffer o b) -> deref m' q = deref m q) /\ (forall q, lies m q -> lies m' q) /\
    (forall b ps, r' = RArr b ps -> o = Some r' \/ (o = None /\ r' = r) \/ (length m <= b /\ exists b' ps', r = RArr b' ps' /\ length ps = length ps')).
Proof.
  intros m0 m o r E Hr Ho Hlen. destruct o as [[a|b ps]|].
  - destruct r as [x|b ps]; cbn [radd].
    + eexists _, _. split; [reflexivity|]. cbn. repeat split; auto. discriminate.
    + pose proof (alloc_spec F m (map (fun p => f_add F a (read m b p)) ps)) as A. unfold alloc in *. destruct A as [_ [A2 [A3 _]]].
      eexists _, _. split; [reflexivity|]. split; [eapply ends_trans; [exact E|]; eexists; reflexivity|]. split; [rewrite A3; cbn; now rewrite map_map|]. split; [exact A2|].
      split; [intros q Hq _; now apply deref_app|]. split; [intros q Hq; now apply lies_app|]. intros b' ps' K. injection K as <- <-. right. right. split; [lia|].
      exists b, ps. split; [reflexivity|]. now rewrite seq_length, map_length.
  - destruct (Ho b ps eq_refl) as [Hb Hl]. destruct r as [x|b' ps']; cbn [radd].
    + eexists _, _. split; [reflexivity|]. split; [now apply write_all_ends|]. split; [rewrite deref_scaled by exact Hl; cbn; now rewrite map_map|]. split; [now apply write_all_lies|].
      split; [intros q _ Hq; apply write_all_other; intros ps' K; apply (Hq b ps' K); exists ps; reflexivity|]. split; [intros q Hq; now apply write_all_lies|]. intros b' ps' K. now left.
    + specialize (Hlen b ps b' ps' eq_refl eq_refl). rewrite Hlen, Nat.eqb_refl. eexists _, _. split; [reflexivity|]. split; [now apply write_each_ends|].
      split; [rewrite write_each_deref; [reflexivity|exact Hl|]; now rewrite zip_length; rewrite !map_length|]. split; [now apply write_each_lies|].
      split; [intros q _ Hq; apply write_each_other; intros ps'' K; apply (Hq b ps'' K); exists ps; reflexivity|]. split; [intros q Hq; now apply write_each_lies|]. intros b'' ps'' K. now left.
  - cbn [radd]. eexists _, _. split; [reflexivity|]. split; [exact E|]. cbn. repeat split; auto.
Qed.

(** ** The sweep *)
Definition typed_block (T : nat -> bool) (rb : rblk V) : Prop :=
  match rb with RItem it d o => T d = true /\ T o = negb (is_int it) | RKind _ ds o => Forall (fun d => T d = false) ds /\ T o = false end.

Section Sweep.
Variables (m0 : memory V) (ref : nat -> rval V) (on : nat -> bool).
Hypothesis Lref : forall v, lies m0 (ref v).

Record asim (s : dstate V) (h : heap (aval V)) : Prop := {
  as_mem : ends_in m0 (d_mem s);
  as_mark : forall v, d_mark s v = bv_mark (h v);
  as_saved : forall v, deref m0 (ref v) = saved h v;
  as_adj : forall v, option_map (deref (d_mem s)) (d_adj s v) = bv_adj (h v);
  as_arr : forall v b ps, d_adj s v = Some (RArr b ps) -> on v = true /\ length m0 <= b /\ lies (d_mem s) (RArr b ps) /\ exists l, saved h v = Arr l /\ length ps = length l;
  as_own : forall u v b ps ps', d_adj s u = Some (RArr b ps) -> d_adj s v = Some (RArr b ps') -> u = v }.

Lemma asim_adj_lies : forall s h v r, asim s h -> d_adj s v = Some r -> lies (d_mem s) r.
Proof. intros s h v [x|b ps] A E; [exact I|]. exact (proj1 (proj2 (proj2 (as_arr s h A v b ps E)))). Qed.
Lemma asim_ref : forall s h v, asim s h -> deref (d_mem s) (ref v) = saved h v.
Proof. intros s h v A. destruct (as_mem s h A) as [t ->]. rewrite deref_app by apply Lref. apply (as_saved s h A). Qed.

Lemma asim_add : forall s h v t r, asim s h -> on v = true -> lies (d_mem s ++ t) r ->
  (forall b ps, r = RArr b ps -> length (d_mem s) <= b /\ exists l, saved h v = Arr l /\ length ps = length l) ->
  exists m' r', radd F (d_mem s ++ t) (d_adj s v) r = Ok (m', r') /\
    asim (DSt m' (set_at (d_adj s) v (Some r')) (d_mark s)) (upd h v (add_adj AF (deref (d_mem s ++ t) r))).
Proof.
  intros s h v t r A Hon Hl Hr. set (m1 := d_mem s ++ t) in *. assert (E1 : ends_in m0 m1) by (eapply ends_trans; [apply (as_mem s h A)|eexists; reflexivity]).
  assert (Lm : length m1 = length (d_mem s) + length t) by apply app_length.
  assert (Lm0 : length m0 <= length (d_mem s)) by (destruct (as_mem s h A) as [t0 ->]; rewrite app_length; lia).
  destruct (radd_spec m0 m1 (d_adj s v) r E1 Hl) as [m' [r' [R1 [R2 [R3 [R4 [R5 [R6 R7]]]]]]]].
  { intros b ps K. destruct (as_arr s h A v b ps K) as [_ [K1 [K2 _]]]. split; [exact K1|now apply lies_app]. }
  { intros b ps b' ps' K1 K2. destruct (as_arr s h A v b ps K1) as [_ [_ [_ [l [K3 K4]]]]]. destruct (Hr b' ps' K2) as [_ [l' [K5 K6]]]. congruence. }
  exists m', r'. split; [exact R1|].
  assert (Dm : forall u q, d_adj s u = Some q -> deref m1 q = deref (d_mem s) q) by (intros u q K; apply deref_app; eapply asim_adj_lies; eauto).
  assert (Lq : forall u q, d_adj s u = Some q -> lies m1 q) by (intros u q K; apply lies_app; eapply asim_adj_lies; eauto).
  assert (Hs : forall u, saved (upd h v (add_adj AF (deref m1 r))) u = saved h u) by (intros u; unfold saved, upd; destruct (Nat.eqb u v); reflexivity).
  constructor; cbn [d_mem d_adj d_mark].
  - exact R2.
  - intros u. rewrite (as_mark s h A). unfold upd. destruct (Nat.eqb u v); reflexivity.
  - intros u. rewrite Hs. apply (as_saved s h A).
  - intros u. unfold set_at, upd. destruct (Nat.eqb_spec u v) as [->|Hne].
    + cbn. rewrite R3. unfold accum. rewrite <- (as_adj s h A v). destruct (d_adj s v) as [q|] eqn:Eq; [|reflexivity]. cbn. now rewrite (Dm v q Eq).
    + rewrite <- (as_adj s h A u). destruct (d_adj s u) as [q|] eqn:Eq; [|reflexivity]. cbn. f_equal. rewrite <- (Dm u q Eq). apply R5; [eauto|].
      intros b ps -> [ps' K]. apply Hne. eapply (as_own s h A); eauto.
  - intros u b ps. unfold set_at. destruct (Nat.eqb_spec u v) as [->|Hne].
    + intros K. injection K as K. split; [exact Hon|]. rewrite Hs. rewrite K in R4. destruct (R7 b ps K) as [K1|[[_ K1]|[K1 [b' [ps' [K2 K3]]]]]].
      * rewrite K in K1. destruct (as_arr s h A v b ps K1) as [_ [A1 [A2 A3]]]. auto.
      * rewrite K in K1. destruct (Hr b ps (eq_sym K1)) as [A1 A2]. split; [lia|auto].
      * destruct (Hr b' ps' K2) as [_ [l [A1 A2]]]. split; [lia|]. split; [exact R4|]. exists l. split; [exact A1|congruence].
    + intros K. rewrite Hs. destruct (as_arr s h A u b ps K) as [A0 [A1 [A2 A3]]]. split; [exact A0|]. split; [exact A1|]. split; [|exact A3]. apply R6. now apply lies_app.
  - intros u w b ps ps'. unfold set_at. assert (G : forall z q, z <> v -> d_adj s z = Some (RArr b q) -> Some r' = Some (RArr b ps) \/ Some r' = Some (RArr b ps') -> z = v).
    { intros z q Hz Kz Kr. assert (Kr' : exists qs, r' = RArr b qs) by (destruct Kr as [Kr|Kr]; injection Kr as Kr; eauto). destruct Kr' as [qs Kr'].
      pose proof (as_arr s h A z b q Kz) as [_ [_ [[Az _] _]]]. destruct (R7 b qs Kr') as [K1|[[_ K1]|[K1 _]]].
      - rewrite Kr' in K1. eapply (as_own s h A); eauto.
      - rewrite Kr' in K1. destruct (Hr b qs (eq_sym K1)) as [A1 _]. lia.
      - lia. }
    destruct (Nat.eqb_spec u v) as [->|Hu], (Nat.eqb_spec w v) as [->|Hw]; intros K1 K2; auto; [symmetry; eapply G; eauto|eapply G; eauto|eapply (as_own s h A); eauto].
Qed.

Lemma comp_num : forall k xs x i y, Forall (fun z => is_arr z = false) xs -> comp_adj AF (akind k) xs [Some (Num x)] i = Ok (Some y) -> is_arr y = false.
Proof.
  intros k xs x i y H E. assert (Hn : forall j z, nth_res xs j = Ok z -> exists u, z = Num u).
  { intros j z K. unfold nth_res in K. destruct (nth_error xs j) as [z'|] eqn:Ej; [|discriminate]. injection K as <-. apply nth_error_In in Ej. rewrite Forall_forall in H. specialize (H _ Ej). destruct z'; [eauto|discriminate]. }
  assert (D : forall a b z, num2 (f_div F) a b = Ok z -> exists u, z = Num u).
  { intros [a|a] [b|b] z K; try discriminate K. cbn in K. destruct (f_div F a b); [|discriminate]. injection K as <-. eauto. }
  assert (P : forall a b z, num2 (f_pow F) a b = Ok z -> exists u, z = Num u).
  { intros [a|a] [b|b] z K; try discriminate K. cbn in K. destruct (f_pow F a b); [|discriminate]. injection K as <-. eauto. }
  assert (X : forall a z, num1 (f_exp F) a = Ok z -> exists u, z = Num u).
  { intros [a|a] z K; try discriminate K. cbn in K. destruct (f_exp F a); [|discriminate]. injection K as <-. eauto. }
  destruct k; cbn [akind comp_adj] in E; unfold need_nth, need in E; cbn [nth_res nth_error bind] in E;
  repeat match type of E with
  | context [nth_res xs ?j] => destruct (nth_res xs j) as [z|] eqn:?Ez; cbn [bind] in E; [destruct (Hn _ _ Ez) as [? ->]; clear Ez|discriminate E]
  | context [nth_res [_] ?j] => change (nth_res [Some (Num x)] j) with (@Ok (option (aval V)) (Some (Num x))) in E; cbn [bind] in E
  | context [f_div AF ?a ?b] => destruct (f_div AF a b) as [z|] eqn:?Ez; cbn [bind] in E; [destruct (D _ _ _ Ez) as [? ->]; clear Ez|discriminate E]
  | context [f_pow AF ?a ?b] => destruct (f_pow AF a b) as [z|] eqn:?Ez; cbn [bind] in E; [destruct (P _ _ _ Ez) as [? ->]; clear Ez|discriminate E]
  | context [f_exp AF ?a] => destruct (f_exp AF a) as [z|] eqn:?Ez; cbn [bind] in E; [destruct (X _ _ Ez) as [? ->]; clear Ez|discriminate E]
  | context [if ?c then _ else _] => destruct c
  | _ => progress cbn [bind] in E
  end; try discriminate E; try (injection E as <-; reflexivity).
Qed.

Lemma assign_length : forall (l : list V) ps vs, length (assign l ps vs) = length l.
Proof. intros l ps. revert l. induction ps as [|p ps IH]; intros l [|v vs]; try reflexivity. cbn. now rewrite IH, length_list_set. Qed.
Lemma filter_ext_on : forall (A : Type) (f g : A -> bool) l, (forall x, f x = g x) -> filter f l = filter g l.
Proof. intros A f g l H. induction l as [|x l IH]; [reflexivity|]. cbn. rewrite H, IH. reflexivity. Qed.

(** Adding the component [x], which lies in new memory. *)
Lemma asim_place : forall s h v x, asim s h -> on v = true -> (forall l, x = Arr l -> exists l', saved h v = Arr l' /\ length l = length l') ->
  let '(m, r) := place (d_mem s) x in
  exists m' r', radd F m (d_adj s v) r = Ok (m', r') /\ asim (DSt m' (set_at (d_adj s) v (Some r')) (d_mark s)) (upd h v (add_adj AF x)).
Proof.
  intros s h v [y|l] A Hon Hx; cbn [place].
  - destruct (asim_add s h v [] (RNum y) A Hon I) as [m' [r' [R1 R2]]]; [discriminate|]. rewrite app_nil_r in R1, R2. eauto.
  - pose proof (alloc_spec F (d_mem s) l) as P. unfold alloc in *. destruct P as [_ [P2 [P3 _]]]. destruct (asim_add s h v [l] _ A Hon P2) as [m' [r' [R1 R2]]].
    + intros b ps K. injection K as <- <-. split; [lia|]. destruct (Hx l eq_refl) as [l' [K1 K2]]. exists l'. now rewrite seq_length.
    + rewrite P3 in R2. eauto.
Qed.
Lemma passes_num : forall k xs x i y, comp_adj AF (akind k) xs [Some (Num x)] i = Ok (Some y) -> passes F k xs i = true -> y = Num x.
Proof.
  intros k xs x i y E P. destruct k; cbn [akind comp_adj passes] in *; try discriminate P.
  - cbn in E. congruence.
  - rewrite P in E. cbn in E. congruence.
  - destruct xs as [|a [|b xs]]; try discriminate P. cbn in E, P. rewrite P in E. congruence.
  - destruct xs as [|a [|b xs]]; try discriminate P. cbn in E, P. rewrite P in E. congruence.
Qed.

Variable T : nat -> bool.
Lemma block_sim : forall rb b s h, same_block F rb b -> typed_block T rb -> (forall v, is_arr (saved h v) = T v) -> (forall d, In d (r_deps rb) -> on d = true) -> asim s h ->
  snd (radj_block F ref s rb) = snd (adj_block AF true h b) /\ asim (fst (radj_block F ref s rb)) (fst (adj_block AF true h b)) /\
  forall v, saved (fst (adj_block AF true h b)) v = saved h v.
Proof.
  intros rb b s h Hb Ht HT Hon A.
  assert (Hd : b_deps b = r_deps rb) by (destruct rb; apply Hb). assert (Ho : b_outs b = [r_out rb]) by (destruct rb; apply Hb).
  unfold radj_block, adj_block. rewrite Ho. cbn [map existsb]. pose proof (as_adj s h A (r_out rb)) as Ea. destruct (d_adj s (r_out rb)) as [a|] eqn:Eo; cbn [option_map] in Ea; rewrite <- Ea; cbn [is_some orb negb]; [|auto].
  unfold relevant. rewrite (filter_ext_on _ (fun iv : nat * nat => bv_mark (h (snd iv)) || negb true) (fun iv => d_mark s (snd iv))) by (intros iv; rewrite (as_mark s h A); apply orb_false_r).
  rewrite Hd. destruct rb as [it d o|k ds o]; destruct Hb as [Hk _]; rewrite Hk; cbn [r_deps r_out] in *.
  - cbn [enum enum_from filter snd]. destruct (d_mark s d); [|cbn; auto]. cbn [iter_o fst snd map]. unfold rcomp. cbn [r_deps map]. rewrite (asim_ref s h d A). cbn [comp_adj].
    destruct Ht as [Ht _]. rewrite <- HT in Ht. destruct (saved h d) as [z|l] eqn:Ed; [discriminate|]. destruct (u_adj (slice_block F it) [Arr l] [Some (deref (d_mem s) a)] 0) as [[x|]|e] eqn:Eu; cbn [bind].
    + assert (Hx : forall l', x = Arr l' -> exists l0, saved h d = Arr l0 /\ length l' = length l0).
      { intros l' ->. exists l. split; [exact Ed|]. cbn in Eu. destruct (picks it (length l)) as [ps|]; [|discriminate]. cbn in Eu. destruct (written it (length ps) (deref (d_mem s) a)); [|discriminate].
        cbn in Eu. injection Eu as <-. now rewrite assign_length, repeat_length. }
      pose proof (asim_place s h d x A (Hon d (or_introl eq_refl)) Hx) as P. destruct (place (d_mem s) x) as [m r]. destruct P as [m' [r' [P1 P2]]]. rewrite P1. cbn [fst snd].
      split; [reflexivity|]. split; [exact P2|]. intros v. unfold saved, upd. destruct (Nat.eqb v d); reflexivity.
    + cbn [fst snd]. split; [reflexivity|]. split; [destruct s; exact A|reflexivity].
    + cbn [fst snd]. auto.
  - destruct Ht as [Ht1 Ht2]. assert (Na : exists x, a = RNum x).
    { destruct a as [x|b' ps]; [eauto|]. destruct (as_arr s h A o b' ps Eo) as [_ [_ [_ [l [K _]]]]]. specialize (HT o). rewrite K, Ht2 in HT. discriminate. }
    destruct Na as [x ->]. cbn [Alias.deref] in Ea |- *. assert (Hl : forall iv, In iv (filter (fun iv => d_mark s (snd iv)) (enum ds)) -> on (snd iv) = true).
    { intros [i d] K. apply filter_In in K as [K _]. apply Hon. cbn. clear -K. unfold enum in K. revert K. generalize 0. induction ds as [|d' ds IH]; intros n K; [destruct K|]. cbn in K. destruct K as [K|K]; [injection K as _ <-; now left|right; eauto]. }
    clear Hon Eo Ea Hd Ho Hk. remember (filter (fun iv => d_mark s (snd iv)) (enum ds)) as l eqn:El. clear El. set (xs := map (saved h) ds).
    assert (Hxs : forall h', (forall v, saved h' v = saved h v) -> map (saved h') ds = xs) by (intros h' K; apply map_ext; exact K).
    assert (Nx : Forall (fun z => is_arr z = false) xs).
    { unfold xs. apply Forall_forall. intros z Kz. apply in_map_iff in Kz as [d [<- Kd]]. rewrite HT. rewrite Forall_forall in Ht1. auto. }
    match goal with |- snd (iter_o ?f l s) = snd (iter_o ?g l h) /\ _ =>
      assert (G : forall l, (forall iv, In iv l -> on (snd iv) = true) -> forall s' h', (forall v, saved h' v = saved h v) -> asim s' h' ->
        snd (iter_o f l s') = snd (iter_o g l h') /\ asim (fst (iter_o f l s')) (fst (iter_o g l h')) /\ forall v, saved (fst (iter_o g l h')) v = saved h v)
    end; [|exact (G l Hl s h (fun v => eq_refl) A)].
    clear l Hl s A. intros l. induction l as [|[i d] l IH]; intros Hl s' h' Hs' A; [cbn; auto|].
    cbn [iter_o fst snd]. unfold rcomp. cbn [r_deps]. rewrite (map_ext _ (saved h') (fun v => asim_ref s' h' v A)), (Hxs h' Hs'). cbn [Alias.deref].
    destruct (comp_adj AF (akind k) xs [Some (Num x)] i) as [[y|]|e] eqn:Ec; cbn [bind].
    + assert (Ny : is_arr y = false) by (eapply comp_num; eauto). destruct y as [y|]; [|discriminate]. assert (Hon : on d = true) by (apply (Hl (i, d)); now left).
      pose proof (asim_place s' h' d (Num y) A Hon) as P. cbn [place] in P. destruct P as [m' [r' [P1 P2]]]; [discriminate|].
      assert (E : (if passes F k xs i then (d_mem s', Some (RNum x)) else let '(m, r) := place (d_mem s') (Num y) in (m, Some r)) = (d_mem s', Some (RNum y))).
      { destruct (passes F k xs i) eqn:Ep; [|reflexivity]. pose proof (passes_num k xs x i _ Ec Ep) as K. injection K as ->. reflexivity. }
      rewrite E, P1. apply IH; [|intros v; unfold saved, upd; destruct (Nat.eqb v d); apply Hs'|exact P2]. intros iv K. apply Hl. now right.
    + apply IH; [intros iv K; apply Hl; now right|exact Hs'|destruct s'; exact A].
    + cbn [fst snd]. auto.
Qed.

Lemma sweep_sim : forall rbs bs, Forall2 (same_block F) rbs bs -> Forall (typed_block T) rbs -> (forall b d, In b rbs -> In d (r_deps b) -> on d = true) ->
  forall s h, (forall v, is_arr (saved h v) = T v) -> asim s h ->
  snd (iter_o (radj_block F ref) rbs s) = snd (iter_o (adj_block AF true) bs h) /\ asim (fst (iter_o (radj_block F ref) rbs s)) (fst (iter_o (adj_block AF true) bs h)).
Proof.
  induction 1 as [|rb b rbs bs Hb _ IH]; intros Ht Hon s h HT A; [cbn; auto|]. inversion Ht as [|? ? Ht1 Ht2]; subst. cbn [iter_o].
  destruct (block_sim rb b s h Hb Ht1 HT (fun d => Hon rb d (or_introl eq_refl)) A) as [B1 [B2 B3]].
  destruct (radj_block F ref s rb) as [s1 e1], (adj_block AF true h b) as [h1 e2]. cbn [fst snd] in B1, B2, B3. subst e2. destruct e1; [cbn; auto|].
  apply IH; auto; [intros b' d Hb' Hd; eapply Hon; [right; exact Hb'|exact Hd]|]. intros v. now rewrite B3.
Qed.
Lemma asim_ext : forall s h h', asim s h -> (forall v, bv_mark (h' v) = bv_mark (h v)) -> (forall v, saved h' v = saved h v) -> (forall v, bv_adj (h' v) = bv_adj (h v)) -> asim s h'.
Proof.
  intros s h h' A H1 H2 H3. constructor.
  - apply (as_mem s h A).
  - intros v. rewrite H1. apply (as_mark s h A).
  - intros v. rewrite H2. apply (as_saved s h A).
  - intros v. rewrite H3. apply (as_adj s h A).
  - intros v b ps K. rewrite H2. exact (as_arr s h A v b ps K).
  - apply (as_own s h A).
Qed.
End Sweep.

(** ** Derivatives *)
Lemma on_blocks_spec : forall rbs bs, Forall2 (same_block F) rbs bs -> forall v, on_blocks rbs v = mem v (vars_of bs).
Proof.
  intros rbs bs H v. apply eq_true_iff_eq. rewrite mem_In. unfold on_blocks. rewrite existsb_exists. unfold vars_of, deps_of, outs_of. rewrite in_app_iff, !in_flat_map.
  assert (G : forall rb b, same_block F rb b -> b_deps b = r_deps rb /\ b_outs b = [r_out rb]) by (intros [it d o|k ds o] b Hb; cbn in *; tauto).
  split.
  - intros [rb [Hrb Hv]]. assert (Q : exists b, In b bs /\ same_block F rb b).
    { clear Hv. induction H as [|rb' b' rbs bs Hb' _ IH]; [destruct Hrb|]. destruct Hrb as [->|Hrb]; [exists b'; split; [now left|exact Hb']|]. destruct (IH Hrb) as [b [K1 K2]]. exists b. split; [now right|exact K2]. }
    destruct Q as [b [K1 K2]]. destruct (G rb b K2) as [G1 G2]. apply orb_true_iff in Hv as [Hv|Hv].
    + left. exists b. split; [exact K1|]. rewrite G1. now apply mem_In.
    + right. exists b. split; [exact K1|]. rewrite G2. apply Nat.eqb_eq in Hv. subst v. now left.
  - assert (Q : forall b, In b bs -> exists rb, In rb rbs /\ same_block F rb b).
    { clear v. intros b Hb. induction H as [|rb' b' rbs bs Hb' _ IH]; [destruct Hb|]. destruct Hb as [->|Hb]; [exists rb'; split; [now left|exact Hb']|]. destruct (IH Hb) as [rb [K1 K2]]. exists rb. split; [now right|exact K2]. }
    intros [[b [Hb Hv]]|[b [Hb Hv]]]; destruct (Q b Hb) as [rb [K1 K2]]; destruct (G rb b K2) as [G1 G2]; exists rb; (split; [exact K1|]); apply orb_true_iff.
    + left. apply mem_In. now rewrite <- G1.
    + right. rewrite G2 in Hv. destruct Hv as [->|[]]. apply Nat.eqb_refl.
Qed.
Lemma rrelevant_spec : forall rbs bs, Forall2 (same_block F) rbs bs -> forall c, rrelevant rbs c = find_relevant bs c.
Proof.
  unfold rrelevant, find_relevant. induction 1 as [|rb b rbs bs Hb _ IH]; intros c; [reflexivity|]. cbn [fold_left].
  assert (E : b_deps b = r_deps rb /\ b_outs b = [r_out rb]) by (destruct rb; cbn in *; tauto). destruct E as [-> ->]. apply IH.
Qed.
(** Between calls: marks, values, and adjoints of variables that are not on the tape. *)
Definition settled (rbs : list (rblk V)) (m : memory V) (ref : nat -> rval V) (adj : nat -> option (rval V)) (mark : nat -> bool) (h : heap (aval V)) : Prop :=
  (forall v, mark v = bv_mark (h v)) /\ (forall v, deref m (ref v) = saved h v) /\
  (forall v, on_blocks rbs v = false -> option_map (deref m) (adj v) = bv_adj (h v) /\ forall b ps, adj v <> Some (RArr b ps)).
Lemma derivative_sim : forall rbs bs, Forall2 (same_block F) rbs bs -> forall T, Forall (typed_block T) rbs ->
  forall m ref adj mark h J cs sc a, (forall v, lies m (ref v)) -> (forall v, is_arr (saved h v) = T v) -> settled rbs m ref adj mark h ->
  let r := rderivative F rbs ref J cs sc a (DSt m adj mark) in
  let r' := rf_derivative AF bs (RF J cs (Num sc)) (Num a) h in
  ends_in m (d_mem (fst r)) /\ rmap (map (deref (d_mem (fst r)))) (snd r) = snd r' /\ settled rbs (d_mem (fst r)) ref (d_adj (fst r)) (d_mark (fst r)) (fst r') /\
  (forall rs q, snd r = Ok rs -> In q rs -> lies (d_mem (fst r)) q /\ forall b ps, q = RArr b ps -> length m <= b).
Proof.
  intros rbs bs Hb T Ht m ref adj mark h J cs sc a Hl HT [S1 [S2 S3]]. cbv zeta. unfold rderivative, rf_derivative. cbn [rf_ctrls rf_J rf_scale].
  destruct cs as [|c cs]; [cbn [fst snd d_mem d_adj d_mark]; split; [apply ends_refl|]; split; [reflexivity|]; split; [repeat split; auto; now apply S3|discriminate]|].
  remember (c :: cs) as ctrls eqn:Ec. clear Ec c cs. change (f_mul AF (Num a) (Num sc)) with (Num (f_mul F a sc)). set (x := f_mul F a sc).
  unfold rgradient, compute_gradient. cbn [d_mem d_adj d_mark]. rewrite (rrelevant_spec rbs bs Hb). set (nodes := find_relevant bs ctrls). unfold with_marked_nodes, with_marked_controls, evaluate_adj.
  change (skipn 0 bs) with bs. set (h2 := upd (reset_adj bs h) J (set_adj (Some (Num x)))). set (h3 := upd_all (upd_all h2 nodes (set_mark true)) ctrls (set_ctrl true)).
  set (s2 := rmark nodes true _).
  assert (Hsv : forall v, saved h3 v = saved h v).
  { intros v. unfold h3. unfold saved. rewrite !upd_all_spec by reflexivity. unfold h2, upd, reset_adj. rewrite reset_with_spec by reflexivity.
    destruct (mem v ctrls), (mem v nodes), (Nat.eqb v J), (mem v (vars_of bs)); reflexivity. }
  assert (A : asim m ref (on_blocks rbs) s2 h3).
  { constructor; unfold s2; cbn [rmark d_mem d_adj d_mark].
    - apply ends_refl.
    - intros v. unfold h3. rewrite !upd_all_spec by reflexivity. unfold h2, upd, reset_adj. rewrite reset_with_spec by reflexivity. rewrite S1.
      destruct (mem v ctrls), (mem v nodes), (Nat.eqb v J), (mem v (vars_of bs)); reflexivity.
    - intros v. rewrite Hsv. apply S2.
    - intros v. unfold h3. rewrite !upd_all_spec by reflexivity. unfold h2, upd, reset_adj. rewrite reset_with_spec by reflexivity. pose proof (on_blocks_spec rbs bs Hb v) as Ov. unfold set_at.
      destruct (Nat.eqb v J); [destruct (mem v ctrls), (mem v nodes); reflexivity|]. destruct (on_blocks rbs v) eqn:Eo; rewrite <- Ov.
      + destruct (mem v ctrls), (mem v nodes); reflexivity.
      + destruct (S3 v Eo) as [K _]. rewrite K. destruct (mem v ctrls), (mem v nodes); reflexivity.
    - intros v b ps. unfold set_at. destruct (Nat.eqb v J); [discriminate|]. destruct (on_blocks rbs v) eqn:Eo; [discriminate|]. intros K. destruct (proj2 (S3 v Eo) b ps K).
    - intros u v b ps ps'. unfold set_at. destruct (Nat.eqb u J); [discriminate|]. destruct (on_blocks rbs u) eqn:Eo; [discriminate|]. intros K. destruct (proj2 (S3 u Eo) b ps K). }
  assert (Hr : Forall2 (same_block F) (rev rbs) (rev bs)).
  { clear -Hb. induction Hb as [|rb b rbs bs Hb _ IH]; [constructor|]. cbn. apply Forall2_app; [exact IH|repeat constructor; exact Hb]. }
  destruct (sweep_sim m ref (on_blocks rbs) Hl T (rev rbs) (rev bs) Hr (Forall_rev Ht)) with (s := s2) (h := h3) as [W1 W2].
  { intros b d Kb Kd. apply in_rev in Kb. unfold on_blocks. apply existsb_exists. exists b. split; [exact Kb|]. apply orb_true_iff. left. now apply mem_In. }
  { intros v. now rewrite Hsv. }
  { exact A. }
  destruct (iter_o (radj_block F ref) (rev rbs) s2) as [s3 e], (iter_o (adj_block AF true) (rev bs) h3) as [h4 e']. cbn [fst snd] in W1, W2. subst e'.
  assert (Off : forall s h', asim m ref (on_blocks rbs) s h' -> settled rbs (d_mem s) ref (d_adj s) (d_mark s) h').
  { intros s h' As. split; [apply (as_mark _ _ _ _ _ As)|]. split; [intros v; eapply asim_ref; eauto|]. intros v Kv. split; [apply (as_adj _ _ _ _ _ As)|].
    intros b ps K. destruct (as_arr _ _ _ _ _ As v b ps K) as [K1 _]. congruence. }
  assert (W3 : asim m ref (on_blocks rbs) s3 (upd_all h4 ctrls (set_ctrl false))).
  { eapply asim_ext; [exact W2| | |]; intros v; unfold saved; rewrite upd_all_spec by reflexivity; destruct (mem v ctrls); reflexivity. }
  destruct e as [e|]; cbn [fst snd].
  - split; [apply (as_mem _ _ _ _ _ W3)|]. split; [reflexivity|]. split; [now apply Off|discriminate].
  - assert (W4 : asim m ref (on_blocks rbs) (rmark nodes false s3) (upd_all (upd_all h4 ctrls (set_ctrl false)) nodes (set_mark false))).
    { constructor; cbn [rmark d_mem d_adj d_mark].
      - apply (as_mem _ _ _ _ _ W3).
      - intros v. rewrite upd_all_spec by reflexivity. pose proof (as_mark _ _ _ _ _ W3 v) as K. destruct (mem v nodes); [reflexivity|exact K].
      - intros v. rewrite (as_saved _ _ _ _ _ W3). unfold saved. rewrite (upd_all_spec nodes) by reflexivity. destruct (mem v nodes); reflexivity.
      - intros v. rewrite (as_adj _ _ _ _ _ W3). rewrite (upd_all_spec nodes) by reflexivity. destruct (mem v nodes); reflexivity.
      - intros v b ps K. destruct (as_arr _ _ _ _ _ W3 v b ps K) as [K1 [K2 [K3 K4]]]. repeat split; auto; try apply K3. unfold saved. rewrite (upd_all_spec nodes) by reflexivity. destruct (mem v nodes); exact K4.
      - apply (as_own _ _ _ _ _ W3). }
    split; [apply (as_mem _ _ _ _ _ W4)|]. split; [|split; [now apply Off|]].
    + cbn [rmap]. f_equal. rewrite map_map. apply map_ext. intros v. unfold rget, get_derivative. rewrite <- (as_adj _ _ _ _ _ W4 v). cbn [rmark d_adj d_mem]. destruct (d_adj s3 v); reflexivity.
    + intros rs q K Hq. injection K as <-. apply in_map_iff in Hq as [v [<- _]]. cbn [rmark d_mem]. unfold rget. destruct (d_adj s3 v) as [[y|b ps]|] eqn:E; [split; [exact I|discriminate]| |split; [exact I|discriminate]].
      destruct (as_arr _ _ _ _ _ W3 v b ps E) as [_ [K1 [K2 _]]]. split; [exact K2|]. intros b' ps' K. injection K as <- <-. exact K1.
Qed.
End GradFacts.
