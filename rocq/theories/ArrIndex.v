(** Which positions an index selects, characterised without following the computation of [picks]. *)
From Coq Require Import List Arith ZArith Bool Lia Sorting.Sorted.
From Verif Require Import Base Arrays SpecArr.
Import ListNotations.

Lemma position_ok : forall n z p, position n z = Ok p <-> names n z p.
Proof.
  intros n z p. unfold position, names. destruct (Z.ltb_spec z 0) as [H | H].
  - destruct (Z.leb_spec 0 (z + Z.of_nat n)); destruct (Z.ltb_spec (z + Z.of_nat n) (Z.of_nat n)); cbn [andb]; split; intro E; try discriminate; try lia.
    + injection E as E. lia.
    + f_equal. lia.
  - destruct (Z.leb_spec 0 z); destruct (Z.ltb_spec z (Z.of_nat n)); cbn [andb]; split; intro E; try discriminate; try lia.
    + injection E as E. lia.
    + f_equal. lia.
Qed.
Lemma position_err : forall n z e, position n z = Err e -> e = EIndex.
Proof. intros n z e. unfold position. destruct (_ && _); congruence. Qed.
Lemma positions_ok : forall n zs ps, mapM (position n) zs = Ok ps <-> Forall2 (names n) zs ps.
Proof.
  intros n. induction zs as [| z r IH]; intros ps; cbn [mapM].
  - split; intro E; [injection E as E; subst; constructor | inversion E; reflexivity].
  - destruct (position n z) as [p | e] eqn:Ep.
    + destruct (mapM (position n) r) as [q | e] eqn:Er.
      * split; intro E.
        { injection E as E; subst. constructor; [apply position_ok; exact Ep | apply IH; reflexivity]. }
        { inversion E as [| z' p' r' q' H1 H2]; subst. apply position_ok in H1. apply IH in H2. congruence. }
      * split; intro E; [discriminate |]. inversion E as [| z' p' r' q' H1 H2]; subst. apply IH in H2. discriminate.
    + split; intro E; [discriminate |]. inversion E as [| z' p' r' q' H1 H2]; subst. apply position_ok in H1. congruence.
Qed.
Lemma mask_in : forall ms i p, In p (mask_from i ms) <-> i <= p /\ nth_error ms (p - i) = Some true.
Proof.
  induction ms as [| m r IH]; intros i p; cbn [mask_from].
  - split; [intros [] | intros [_ H]; destruct (p - i); discriminate].
  - assert (K : In p (mask_from (S i) r) <-> i < p /\ nth_error (m :: r) (p - i) = Some true).
    { rewrite IH. split; intros [H1 H2]; split; try lia.
      - replace (p - i) with (S (p - S i)) by lia. exact H2.
      - replace (p - i) with (S (p - S i)) in H2 by lia. exact H2. }
    destruct m; cbn [In]; rewrite K; split.
    + intros [-> | [H1 H2]]; [split; [lia | rewrite Nat.sub_diag; reflexivity] | split; [lia | exact H2]].
    + intros [H1 H2]. destruct (Nat.eq_dec i p) as [E | E]; [left; exact E | right; split; [lia | exact H2]].
    + intros [H1 H2]. split; [lia | exact H2].
    + intros [H1 H2]. destruct (Nat.eq_dec i p) as [-> | E]; [rewrite Nat.sub_diag in H2; discriminate | split; [lia | exact H2]].
Qed.
Lemma mask_sorted : forall ms i, StronglySorted lt (mask_from i ms).
Proof.
  induction ms as [| m r IH]; intros i; cbn [mask_from]; [constructor |]. destruct m; [| apply IH].
  constructor; [apply IH |]. apply Forall_forall. intros p Hp. apply mask_in in Hp. lia.
Qed.
Lemma map_seq_sorted : forall (R : nat -> nat -> Prop) (f : nat -> nat) n k, (forall i j, k <= i -> i < j -> j < k + n -> R (f i) (f j)) ->
  StronglySorted R (map f (seq k n)).
Proof.
  intros R f n. induction n as [| n IH]; intros k H; cbn [seq map]; constructor.
  - apply IH. intros i j H1 H2 H3. apply H; lia.
  - apply Forall_forall. intros x Hx. apply in_map_iff in Hx. destruct Hx as [j [<- Hj]]. apply in_seq in Hj. apply H; lia.
Qed.

Section Slice.
Variables (n : nat) (s e : option Z) (step : Z).
Let N := Z.of_nat n.

Lemma start_up : (0 < step)%Z -> (0 <= slice_start N s step <= N)%Z /\ forall p, (0 <= p < N)%Z ->
  ((slice_start N s step <= p)%Z /\ (step | p - slice_start N s step)%Z <-> (first_up n s <= p)%Z /\ (step | p - first_up n s)%Z).
Proof.
  intros Hs. unfold slice_start, first_up, clamp, from_end. fold N. assert (HN : (0 <= N)%Z) by apply Zle_0_nat.
  assert (E : (step <? 0)%Z = false) by (apply Z.ltb_ge; lia). rewrite E. destruct s as [z |]; [| split; [lia | tauto]].
  destruct (Z.ltb_spec z 0); repeat match goal with |- context [Z.ltb ?a ?b] => destruct (Z.ltb_spec a b) | |- context [Z.leb ?a ?b] => destruct (Z.leb_spec a b) end; try (exfalso; lia); split; try lia;
    intros p Hp; first [rewrite Z.max_l by lia; tauto | rewrite Z.max_r by lia; tauto | split; intros [? ?]; lia].
Qed.
Lemma stop_up : (0 < step)%Z -> (0 <= slice_stop N e step <= N)%Z /\ forall p, (0 <= p < N)%Z -> ((p < slice_stop N e step)%Z <-> (p < last_up n e)%Z).
Proof.
  intros Hs. unfold slice_stop, last_up, clamp, from_end. fold N. assert (HN : (0 <= N)%Z) by apply Zle_0_nat.
  assert (E : (step <? 0)%Z = false) by (apply Z.ltb_ge; lia). rewrite E. destruct e as [z |]; [| split; [lia | tauto]].
  destruct (Z.ltb_spec z 0); repeat match goal with |- context [Z.ltb ?a ?b] => destruct (Z.ltb_spec a b) | |- context [Z.leb ?a ?b] => destruct (Z.leb_spec a b) end;
    split; intros; lia.
Qed.
Lemma start_down : (step < 0)%Z -> (-1 <= slice_start N s step <= N - 1)%Z /\ forall p, (0 <= p < N)%Z ->
  ((p <= slice_start N s step)%Z /\ (step | slice_start N s step - p)%Z <-> (p <= first_down n s)%Z /\ (step | first_down n s - p)%Z).
Proof.
  intros Hs. unfold slice_start, first_down, clamp, from_end. fold N. assert (HN : (0 <= N)%Z) by apply Zle_0_nat.
  assert (E : (step <? 0)%Z = true) by (apply Z.ltb_lt; lia). rewrite E. destruct s as [z |]; [| split; [lia | tauto]].
  destruct (Z.ltb_spec z 0); repeat match goal with |- context [Z.ltb ?a ?b] => destruct (Z.ltb_spec a b) | |- context [Z.leb ?a ?b] => destruct (Z.leb_spec a b) end; try (exfalso; lia); split; try lia;
    intros p Hp; first [rewrite Z.min_l by lia; tauto | rewrite Z.min_r by lia; tauto | split; intros [? ?]; lia].
Qed.
Lemma stop_down : (step < 0)%Z -> (-1 <= slice_stop N e step <= N - 1)%Z /\ forall p, (0 <= p < N)%Z -> ((slice_stop N e step < p)%Z <-> (last_down n e < p)%Z).
Proof.
  intros Hs. unfold slice_stop, last_down, clamp, from_end. fold N. assert (HN : (0 <= N)%Z) by apply Zle_0_nat.
  assert (E : (step <? 0)%Z = true) by (apply Z.ltb_lt; lia). rewrite E. destruct e as [z |]; [| split; [lia | intros; lia]].
  destruct (Z.ltb_spec z 0); repeat match goal with |- context [Z.ltb ?a ?b] => destruct (Z.ltb_spec a b) | |- context [Z.leb ?a ?b] => destruct (Z.leb_spec a b) end;
    split; intros; lia.
Qed.

Lemma count_up : forall a b, (0 < step)%Z -> forall k, (0 <= k)%Z -> ((k < slice_count a b step)%Z <-> (a + k * step < b)%Z).
Proof.
  intros a b Hs k Hk. unfold slice_count. assert (E : (step <? 0)%Z = false) by (apply Z.ltb_ge; lia). rewrite E.
  destruct (Z.ltb_spec a b) as [H | H]; [| split; intro; nia].
  assert (D := Z.div_mod (b - a - 1) step ltac:(lia)). assert (M := Z.mod_pos_bound (b - a - 1) step Hs).
  set (q := ((b - a - 1) / step)%Z) in *. set (r := ((b - a - 1) mod step)%Z) in *. split; intro; nia.
Qed.
Lemma count_down : forall a b, (step < 0)%Z -> forall k, (0 <= k)%Z -> ((k < slice_count a b step)%Z <-> (b < a + k * step)%Z).
Proof.
  intros a b Hs k Hk. unfold slice_count. assert (E : (step <? 0)%Z = true) by (apply Z.ltb_lt; lia). rewrite E.
  destruct (Z.ltb_spec b a) as [H | H]; [| split; intro; nia].
  assert (D := Z.div_mod (a - b - 1) (- step) ltac:(lia)). assert (M := Z.mod_pos_bound (a - b - 1) (- step) ltac:(lia)).
  set (q := ((a - b - 1) / - step)%Z) in *. set (r := ((a - b - 1) mod - step)%Z) in *. split; intro; nia.
Qed.

Lemma slice_ups : (0 < step)%Z -> exists ps, picks (ISlice s e step) n = Ok ps /\ StronglySorted lt ps /\
  forall p, In p ps <-> p < n /\ (first_up n s <= Z.of_nat p < last_up n e)%Z /\ (step | Z.of_nat p - first_up n s)%Z.
Proof.
  intros Hs. unfold picks. assert (E : (step =? 0)%Z = false) by (apply Z.eqb_neq; lia). rewrite E. fold N. cbv zeta.
  destruct (start_up Hs) as [Ra Sa]. destruct (stop_up Hs) as [Rb Sb].
  set (a := slice_start N s step) in *. set (b := slice_stop N e step) in *. eexists. split; [reflexivity |]. split.
  - apply map_seq_sorted. intros i j Hi Hij Hj. nia.
  - intros p. rewrite in_map_iff. split.
    + intros [k [<- Hk]]. apply in_seq in Hk.
      assert (Hc : (Z.of_nat k < slice_count a b step)%Z) by lia. apply count_up in Hc; [| exact Hs | lia].
      assert (P : (0 <= a + Z.of_nat k * step < N)%Z) by nia. rewrite Z2Nat.id by lia.
      assert (Q : (a <= a + Z.of_nat k * step)%Z /\ (step | a + Z.of_nat k * step - a)%Z) by (split; [nia | exists (Z.of_nat k); ring]).
      apply Sa in Q; [| exact P]. assert (B := proj1 (Sb _ P) Hc). repeat split; unfold N in *; try tauto; lia.
    + intros [H1 [[H2 H3] H4]]. assert (P : (0 <= Z.of_nat p < N)%Z) by (unfold N; lia).
      destruct (proj2 (Sa _ P) (conj H2 H4)) as [A1 [k A2]]. apply (Sb _ P) in H3.
      assert (K : (0 <= k)%Z) by nia. exists (Z.to_nat k). rewrite Z2Nat.id by lia. split; [replace (a + k * step)%Z with (Z.of_nat p) by lia; apply Nat2Z.id |].
      apply in_seq. assert (C := proj2 (count_up a b Hs k K)). lia.
Qed.
Lemma slice_downs : (step < 0)%Z -> exists ps, picks (ISlice s e step) n = Ok ps /\ StronglySorted gt ps /\
  forall p, In p ps <-> p < n /\ (last_down n e < Z.of_nat p <= first_down n s)%Z /\ (step | first_down n s - Z.of_nat p)%Z.
Proof.
  intros Hs. unfold picks. assert (E : (step =? 0)%Z = false) by (apply Z.eqb_neq; lia). rewrite E. fold N. cbv zeta.
  destruct (start_down Hs) as [Ra Sa]. destruct (stop_down Hs) as [Rb Sb].
  set (a := slice_start N s step) in *. set (b := slice_stop N e step) in *. eexists. split; [reflexivity |]. split.
  - apply map_seq_sorted. intros i j Hi Hij Hj.
    assert (Hc : (Z.of_nat j < slice_count a b step)%Z) by lia. apply count_down in Hc; [| exact Hs | lia]. unfold gt. nia.
  - intros p. rewrite in_map_iff. split.
    + intros [k [<- Hk]]. apply in_seq in Hk.
      assert (Hc : (Z.of_nat k < slice_count a b step)%Z) by lia. apply count_down in Hc; [| exact Hs | lia].
      assert (P : (0 <= a + Z.of_nat k * step < N)%Z) by nia. rewrite Z2Nat.id by lia.
      assert (Q : (a + Z.of_nat k * step <= a)%Z /\ (step | a - (a + Z.of_nat k * step))%Z) by (split; [nia | exists (- Z.of_nat k)%Z; ring]).
      apply Sa in Q; [| exact P]. assert (B := proj1 (Sb _ P) Hc). repeat split; unfold N in *; try tauto; lia.
    + intros [H1 [[H2 H3] H4]]. assert (P : (0 <= Z.of_nat p < N)%Z) by (unfold N; lia).
      destruct (proj2 (Sa _ P) (conj H3 H4)) as [A1 [k A2]]. apply (Sb _ P) in H2.
      assert (K : (0 <= - k)%Z) by nia. exists (Z.to_nat (- k)). rewrite Z2Nat.id by lia. split; [replace (a + - k * step)%Z with (Z.of_nat p) by lia; apply Nat2Z.id |].
      apply in_seq. assert (C := proj2 (count_down a b Hs (- k)%Z K)). lia.
Qed.
End Slice.

Theorem index_picks : forall (it : item) (n : nat), indexes it n (picks it n).
Proof.
  intros [z | s e step | zs | ms] n; unfold indexes.
  - cbn [picks]. destruct (position n z) as [p | x] eqn:E; cbn [rmap].
    + exists p. split; [reflexivity | apply position_ok; exact E].
    + split; [apply position_err in E; subst; reflexivity |]. intros p Hp. apply position_ok in Hp. congruence.
  - destruct (Z.lt_trichotomy step 0) as [H | [H | H]].
    + destruct (slice_downs n s e step H) as [ps [-> [H1 H2]]]. split; [lia |]. split; intro K; [lia |]. split; assumption.
    + subst. cbn. split; reflexivity.
    + destruct (slice_ups n s e step H) as [ps [-> [H1 H2]]]. split; [lia |]. split; intro K; [|lia]. split; assumption.
  - cbn [picks]. destruct (mapM (position n) zs) as [ps | x] eqn:E.
    + apply positions_ok. exact E.
    + split; [| intros ps Hps; apply positions_ok in Hps; congruence].
      clear - E. revert x E. induction zs as [| z r IH]; intros x; cbn [mapM]; [discriminate |].
      destruct (position n z) eqn:Ep; [| intro H; apply position_err in Ep; congruence].
      destruct (mapM (position n) r); [discriminate |]. intro H. apply IH. exact H.
  - cbn [picks]. destruct (Nat.eqb_spec (length ms) n) as [H | H].
    + split; [exact H |]. split; [apply mask_sorted |]. intros p. rewrite mask_in. rewrite Nat.sub_0_r. intuition lia.
    + split; [reflexivity | exact H].
Qed.
