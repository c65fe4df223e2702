(** Copies of tapes: C20. *)
From Coq Require Import List Arith ZArith Bool Lia.
From Verif Require Import Base Model BaseFacts Record Surgery Optimize TapeFacts.
Import ListNotations.

Section Copies.
Context {V : Type}.
Implicit Types (t c : atape V) (s : store) (b : block V).

Definition a_split t : list (list (block V)) := map a_blocks (at_steps t).
Lemma view_split : forall s t, split_of (a_view s t) = a_split t.
Proof. intros s t. unfold split_of, a_view, a_split. cbn [t_steps]. rewrite map_map. reflexivity. Qed.

Lemma NoDup_app_intro : forall {A} (l m : list A), NoDup l -> NoDup m -> (forall x, In x l -> In x m -> False) -> NoDup (l ++ m).
Proof.
  induction l as [|x l IH]; intros m Hl Hm Hd; [exact Hm|]. inversion Hl; subst. cbn. constructor.
  - intros K. apply in_app_iff in K as [K|K]; [contradiction|]. apply (Hd x); [now left|exact K].
  - apply IH; auto. intros y Hy. apply Hd. now right.
Qed.
Lemma NoDup_app_elim : forall {A} (l m : list A), NoDup (l ++ m) -> NoDup l /\ NoDup m /\ (forall x, In x l -> In x m -> False).
Proof.
  induction l as [|x l IH]; intros m H; [cbn in H; repeat split; [constructor|exact H|easy]|]. inversion H as [|? ? Hx Hr]; subst.
  destruct (IH m Hr) as [A1 [A2 A3]]. split; [constructor; [|exact A1]; intros K; apply Hx; apply in_or_app; now left|].
  split; [exact A2|]. intros y [<-|Hy] Hm; [apply Hx; apply in_or_app; now right|eauto].
Qed.

(** *** One tape in the store behaves as the tape of Record.v. *)
Definition addrs t := flat_map (fun x => [a_state x; a_adjdeps x]) (at_steps t).
Definition own s t := NoDup (addrs t) /\ forall a, In a (addrs t) -> a < st_next s.
Definition steps_of s (l : list (astep V)) := map (fun x => TS (a_blocks x) (st_sets s (a_state x)) (st_sets s (a_adjdeps x)) (a_ckpt x) (a_revised x)) l.

Lemma steps_of_ext : forall s s' l, (forall a, In a (flat_map (fun x => [a_state x; a_adjdeps x]) l) -> st_sets s' a = st_sets s a) -> steps_of s' l = steps_of s l.
Proof.
  intros s s' l H. apply map_ext_in. intros x Hx. rewrite !H; [reflexivity| |]; apply in_flat_map; exists x; (split; [exact Hx|]); cbn; tauto.
Qed.

Lemma append_view : forall s t, own s t -> let '(s1, t1) := a_append_step s t in
  a_view s1 t1 = append_step (a_view s t) /\ own s1 t1 /\ at_flat t1 = at_flat t.
Proof.
  intros s t [Hn Hl]. unfold a_append_step. cbn [st_alloc st_next]. set (s1 := Store _ _).
  assert (K : forall a, In a (addrs t) -> st_sets s1 a = st_sets s a).
  { intros a Ha. apply Hl in Ha. cbn. rewrite (proj2 (Nat.eqb_neq a (S (st_next s)))), (proj2 (Nat.eqb_neq a (st_next s))) by lia. reflexivity. }
  split; [|split; [|reflexivity]].
  - unfold a_view, append_step, set_steps. cbn [at_steps at_flat at_latest at_eager at_count t_steps t_flat t_latest t_eager t_count]. f_equal.
    rewrite map_app. f_equal.
    + exact (steps_of_ext s s1 (at_steps t) K).
    + cbn [map a_blocks a_state a_adjdeps a_ckpt a_revised]. unfold s1. cbn. rewrite !Nat.eqb_refl.
      rewrite (proj2 (Nat.eqb_neq (st_next s) (S (st_next s)))) by lia. reflexivity.
  - unfold own, addrs. cbn [at_steps]. rewrite flat_map_app. cbn. split.
    + apply NoDup_app_intro; [exact Hn| |].
      * constructor; [intros [K2|[]]; lia|constructor; [easy|constructor]].
      * intros a Ha [<-|[<-|[]]]; apply Hl in Ha; lia.
    + intros a Ha. apply in_app_iff in Ha as [Ha|[<-|[<-|[]]]]; [apply Hl in Ha; lia|lia|lia].
Qed.

Lemma oadd_oadd : forall v l, oadd v (oadd v l) = oadd v l.
Proof.
  intros v l. unfold oadd at 1. unfold oadd at 1. destruct (mem v l) eqn:E; [rewrite E; unfold oadd; now rewrite E|].
  rewrite (proj2 (mem_In v (l ++ [v]))); [unfold oadd; now rewrite E|]. apply in_or_app. right. now left.
Qed.
Lemma fold_add : forall v (f : astep V -> nat) l s a,
  st_sets (fold_left (fun s' x => st_add v s' (f x)) l s) a = (if mem a (map f l) then oadd v (st_sets s a) else st_sets s a) /\
  st_next (fold_left (fun s' x => st_add v s' (f x)) l s) = st_next s.
Proof.
  intros v f l. induction l as [|x l IH]; intros s a; [auto|]. cbn [fold_left map]. destruct (IH (st_add v s (f x)) a) as [-> ->]. split; [|reflexivity].
  change (mem a (f x :: map f l)) with (Nat.eqb a (f x) || mem a (map f l)). cbn [st_add st_sets]. destruct (Nat.eqb_spec a (f x)) as [->|]; [|reflexivity].
  cbn [orb]. destruct (mem (f x) (map f l)); [apply oadd_oadd|reflexivity].
Qed.

Lemma state_view : forall v k l s, NoDup (flat_map (fun x => [a_state x; a_adjdeps x]) l) ->
  steps_of (fold_left (fun s' x => st_add v s' (a_state x)) (skipn k l) s) l = map_from k (ts_add_state v) (steps_of s l).
Proof.
  intros v k l s Hn.
  assert (G : forall l k sx, NoDup (flat_map (fun x => [a_state x; a_adjdeps x]) l) ->
    (forall a, In a (flat_map (fun x => [a_state x; a_adjdeps x]) l) -> st_sets sx a = if mem a (map a_state (skipn k l)) then oadd v (st_sets s a) else st_sets s a) ->
    steps_of sx l = map_from k (ts_add_state v) (steps_of s l)).
  { clear. induction l as [|x l IH]; intros k sx Hn Hs; [reflexivity|].
    cbn [flat_map app] in *. inversion Hn as [|? ? N1 Hn1]; subst. inversion Hn1 as [|? ? N2 Hn2]; subst.
    assert (P : forall j a, In a (map a_state (skipn j l)) -> In a (flat_map (fun x => [a_state x; a_adjdeps x]) l)).
    { intros j a Ha. apply in_map_iff in Ha as [y [<- Hy]]. apply in_flat_map. exists y. split; [|now left].
      rewrite <- (firstn_skipn j l). apply in_or_app. now right. }
    destruct k as [|k]; cbn [steps_of map map_from skipn] in *; fold (steps_of sx l) (steps_of s l).
    - rewrite (IH 0 sx Hn2).
      2:{ intros a Ha. rewrite Hs by (right; now right). change (mem a (a_state x :: map a_state l)) with (Nat.eqb a (a_state x) || mem a (map a_state l)).
          rewrite (proj2 (Nat.eqb_neq a (a_state x))); [reflexivity|]. intros ->. apply N1. now right. }
      f_equal. unfold ts_add_state. cbn [ts_blocks ts_state ts_adjdeps ts_ckpt ts_revised]. f_equal.
      + rewrite Hs by now left. change (mem (a_state x) (a_state x :: map a_state l)) with (Nat.eqb (a_state x) (a_state x) || mem (a_state x) (map a_state l)). now rewrite Nat.eqb_refl.
      + rewrite Hs by (right; now left). change (mem (a_adjdeps x) (a_state x :: map a_state l)) with (Nat.eqb (a_adjdeps x) (a_state x) || mem (a_adjdeps x) (map a_state l)).
        rewrite (proj2 (Nat.eqb_neq (a_adjdeps x) (a_state x))) by (intros K; apply N1; left; exact K).
        rewrite (proj2 (mem_false (a_adjdeps x) (map a_state l))); [reflexivity|]. intros K. apply N2. exact (P 0 _ K).
    - rewrite (IH k sx Hn2) by (intros a Ha; apply Hs; right; now right). f_equal. f_equal.
      + rewrite Hs by now left. rewrite (proj2 (mem_false _ _)); [reflexivity|]. intros K. apply N1. right. exact (P k _ K).
      + rewrite Hs by (right; now left). rewrite (proj2 (mem_false _ _)); [reflexivity|]. intros K. apply N2. exact (P k _ K). }
  apply G; [exact Hn|]. intros a _. apply fold_add.
Qed.
Lemma adj_view : forall v k l s, NoDup (flat_map (fun x => [a_state x; a_adjdeps x]) l) ->
  steps_of (fold_left (fun s' x => st_add v s' (a_adjdeps x)) (skipn k l) s) l = map_from k (ts_add_adjdep v) (steps_of s l).
Proof.
  intros v k l s Hn.
  assert (G : forall l k sx, NoDup (flat_map (fun x => [a_state x; a_adjdeps x]) l) ->
    (forall a, In a (flat_map (fun x => [a_state x; a_adjdeps x]) l) -> st_sets sx a = if mem a (map a_adjdeps (skipn k l)) then oadd v (st_sets s a) else st_sets s a) ->
    steps_of sx l = map_from k (ts_add_adjdep v) (steps_of s l)).
  { clear. induction l as [|x l IH]; intros k sx Hn Hs; [reflexivity|].
    cbn [flat_map app] in *. inversion Hn as [|? ? N1 Hn1]; subst. inversion Hn1 as [|? ? N2 Hn2]; subst.
    assert (P : forall j a, In a (map a_adjdeps (skipn j l)) -> In a (flat_map (fun x => [a_state x; a_adjdeps x]) l)).
    { intros j a Ha. apply in_map_iff in Ha as [y [<- Hy]]. apply in_flat_map. exists y. split; [|right; now left].
      rewrite <- (firstn_skipn j l). apply in_or_app. now right. }
    destruct k as [|k]; cbn [steps_of map map_from skipn] in *; fold (steps_of sx l) (steps_of s l).
    - rewrite (IH 0 sx Hn2).
      2:{ intros a Ha. rewrite Hs by (right; now right). change (mem a (a_adjdeps x :: map a_adjdeps l)) with (Nat.eqb a (a_adjdeps x) || mem a (map a_adjdeps l)).
          rewrite (proj2 (Nat.eqb_neq a (a_adjdeps x))); [reflexivity|]. intros ->. now apply N2. }
      f_equal. unfold ts_add_adjdep. cbn [ts_blocks ts_state ts_adjdeps ts_ckpt ts_revised]. f_equal.
      + rewrite Hs by now left. change (mem (a_state x) (a_adjdeps x :: map a_adjdeps l)) with (Nat.eqb (a_state x) (a_adjdeps x) || mem (a_state x) (map a_adjdeps l)).
        rewrite (proj2 (Nat.eqb_neq (a_state x) (a_adjdeps x))) by (intros K; apply N1; left; now symmetry).
        rewrite (proj2 (mem_false (a_state x) (map a_adjdeps l))); [reflexivity|]. intros K. apply N1. right. exact (P 0 _ K).
      + rewrite Hs by (right; now left). change (mem (a_adjdeps x) (a_adjdeps x :: map a_adjdeps l)) with (Nat.eqb (a_adjdeps x) (a_adjdeps x) || mem (a_adjdeps x) (map a_adjdeps l)). now rewrite Nat.eqb_refl.
    - rewrite (IH k sx Hn2) by (intros a Ha; apply Hs; right; now right). f_equal. f_equal.
      + rewrite Hs by now left. rewrite (proj2 (mem_false _ _)); [reflexivity|]. intros K. apply N1. right. exact (P k _ K).
      + rewrite Hs by (right; now left). rewrite (proj2 (mem_false _ _)); [reflexivity|]. intros K. apply N2. exact (P k _ K). }
  apply G; [exact Hn|]. intros a _. apply fold_add.
Qed.

Lemma ensure_view : forall s t, own s t -> let '(s1, t1) := a_ensure_step s t in
  a_view s1 t1 = ensure_step (a_view s t) /\ own s1 t1 /\ at_flat t1 = at_flat t.
Proof.
  intros s t H. unfold a_ensure_step. destruct (at_steps t) as [|x l] eqn:E.
  - pose proof (append_view s t H) as A. destruct (a_append_step s t) as [s1 t1]. destruct A as [A B]. split; [|exact B].
    rewrite A. unfold ensure_step, a_view. cbn [t_steps]. rewrite E. reflexivity.
  - split; [|auto]. unfold ensure_step, a_view. cbn [t_steps]. rewrite E. reflexivity.
Qed.
Lemma map_last_map : forall {A B} (g : A -> B) f f' l, (forall x, g (f x) = f' (g x)) -> map g (map_last f l) = map_last f' (map g l).
Proof. intros A B g f f' l H. induction l as [|x [|y l] IH]; [reflexivity|cbn; now rewrite H|]. cbn [map_last map] in *. now rewrite IH. Qed.

(** Refinement: a tape alone in the store is the tape of Record.v. *)
Lemma a_run_top_view : forall s t o, own s t -> let '(s1, t1) := a_run_top s t o in a_view s1 t1 = run_top (a_view s t) o /\ own s1 t1.
Proof.
  intros s t [b| |v z|v z] H; cbn [a_run_top run_top].
  - pose proof (ensure_view s t H) as A. destruct (a_ensure_step s t) as [s1 t1]. destruct A as [A [[B B'] C]]. split.
    + unfold add_block. rewrite <- A. unfold a_view. cbn [at_steps at_flat at_latest at_eager at_count t_steps t_flat t_latest t_eager t_count]. f_equal.
      apply map_last_map. reflexivity.
    + assert (E : addrs (ATape (map_last (fun x : astep V => AS (a_blocks x ++ [b]) (a_state x) (a_adjdeps x) (a_ckpt x) (a_revised x)) (at_steps t1))
                 (at_flat t1 ++ [b]) (at_latest t1) (at_eager t1) (at_count t1)) = addrs t1).
      { unfold addrs. cbn [at_steps]. rewrite !flat_map_concat_map. f_equal. rewrite (map_last_map _ _ (fun y => y)) by reflexivity.
        generalize (map (fun x : astep V => [a_state x; a_adjdeps x]) (at_steps t1)). induction l as [|y [|y' l] IH]; [reflexivity|reflexivity|]. cbn [map_last] in *. now rewrite IH. }
      unfold own. rewrite E. auto.
  - pose proof (append_view s t H) as A. destruct (a_append_step s t) as [s1 t1]. tauto.
  - pose proof (ensure_view s t H) as A. destruct (a_ensure_step s t) as [s1 t1]. destruct A as [A [[B B'] C]].
    set (s2 := fold_left _ _ s1). assert (En : st_next s2 = st_next s1) by (apply (fold_add v (@a_state V) _ s1 0)).
    split; [|split; [exact B|intros a Ha; rewrite En; auto]].
    unfold add_to_state. rewrite <- A. unfold a_view, set_steps. cbn [t_steps t_flat t_latest t_eager t_count]. f_equal. apply (state_view v _ _ s1 B).
  - pose proof (ensure_view s t H) as A. destruct (a_ensure_step s t) as [s1 t1]. destruct A as [A [[B B'] C]].
    set (s2 := fold_left _ _ s1). assert (En : st_next s2 = st_next s1) by (apply (fold_add v (@a_adjdeps V) _ s1 0)).
    split; [|split; [exact B|intros a Ha; rewrite En; auto]].
    unfold add_to_adjdeps. rewrite <- A. unfold a_view, set_steps. cbn [t_steps t_flat t_latest t_eager t_count]. f_equal. apply (adj_view v _ _ s1 B).
Qed.

(** *** Blocks and time steps of the two tapes: no aliasing. *)
Lemma ensure_a_split : forall s t, a_split (snd (a_ensure_step s t)) = some_step (a_split t) /\ at_flat (snd (a_ensure_step s t)) = at_flat t.
Proof.
  intros s t. unfold a_ensure_step, a_split. destruct (at_steps t) eqn:E; [|cbn [snd]; rewrite E; auto]. unfold a_append_step. cbn. rewrite E. auto.
Qed.
Lemma a_run_top_split : forall s t o, a_split (snd (a_run_top s t o)) = split_step (a_split t) o /\ at_flat (snd (a_run_top s t o)) = at_flat t ++ added [o].
Proof.
  intros s t [b| |v z|v z]; cbn [a_run_top]; pose proof (ensure_a_split s t) as K.
  - destruct (a_ensure_step s t) as [s1 t1]. cbn [snd] in *. destruct K as [K1 K2]. split; [|cbn; now rewrite K2].
    unfold a_split in *. cbn [at_steps]. rewrite (map_last_map a_blocks _ (fun l => l ++ [b])) by reflexivity. rewrite K1. cbn [split_step].
    unfold push_last, some_step. destruct (map a_blocks (at_steps t)) as [|l ls] eqn:E; [reflexivity|].
    destruct (@exists_last _ (l :: ls)) as [ls' [x Ex]]; [discriminate|]. rewrite Ex, map_last_app, rev_app_distr. cbn. now rewrite rev_involutive.
  - unfold a_append_step. cbn [st_alloc snd at_flat added flat_map app]. unfold a_split. cbn [at_steps]. rewrite map_app, app_nil_r. auto.
  - destruct (a_ensure_step s t). cbn [snd] in *. cbn [split_step added flat_map app]. rewrite app_nil_r. exact K.
  - destruct (a_ensure_step s t). cbn [snd] in *. cbn [split_step added flat_map app]. rewrite app_nil_r. exact K.
Qed.
Definition ops_of (side : bool) (l : list (bool * top V)) : list (top V) := map snd (filter (fun o => Bool.eqb (fst o) side) l).
Lemma boths_split : forall l s t c, let '(s', t', c') := run_boths (s, t, c) l in
  a_split t' = fold_left split_step (ops_of false l) (a_split t) /\ at_flat t' = at_flat t ++ added (ops_of false l) /\
  a_split c' = fold_left split_step (ops_of true l) (a_split c) /\ at_flat c' = at_flat c ++ added (ops_of true l).
Proof.
  induction l as [|[side o] l IH]; intros s t c; [cbn; rewrite !app_nil_r; auto|].
  unfold run_boths. cbn [fold_left]. unfold run_both at 2. cbn [fst snd]. unfold ops_of. cbn [filter fst].
  assert (Ad : forall x (r : list (top V)) (m : list (block V)), m ++ added (x :: r) = (m ++ added [x]) ++ added r).
  { intros x r m. unfold added. cbn [flat_map]. rewrite app_nil_r, <- app_assoc. reflexivity. }
  destruct side; cbn [Bool.eqb map snd fold_left].
  - destruct (a_run_top_split s c o) as [A B]. destruct (a_run_top s c o) as [s1 c1]. cbn [snd] in *. specialize (IH s1 t c1). unfold run_boths in IH.
    destruct (fold_left run_both l (s1, t, c1)) as [[s' t'] c']. destruct IH as [I1 [I2 [I3 I4]]]. rewrite A, B in *. rewrite Ad. auto.
  - destruct (a_run_top_split s t o) as [A B]. destruct (a_run_top s t o) as [s1 t1]. cbn [snd] in *. specialize (IH s1 t1 c). unfold run_boths in IH.
    destruct (fold_left run_both l (s1, t1, c)) as [[s' t'] c']. destruct IH as [I1 [I2 [I3 I4]]]. rewrite A, B in *. rewrite Ad. auto.
Qed.

(** *** Adjoint dependencies: a copy gets sets of its own. *)
Definition adjs t := map a_adjdeps (at_steps t).
Definition sts t := map a_state (at_steps t).
Definition some_set (l : list (list nat)) := match l with [] => [[]] | _ => l end.
Definition adj_step (l : list (list nat)) (o : top V) : list (list nat) :=
  match o with
  | TAdd _ | TState _ _ => some_set l
  | TEnd => l ++ [[]]
  | TAdjdep v z => map_from (Z.to_nat (z + 1)) (oadd v) (some_set l)
  end.
Lemma map_map_from : forall {A B} (g : A -> B) f f' k l, (forall x, g (f x) = f' (g x)) -> map g (map_from k f l) = map_from k f' (map g l).
Proof. intros A B g f f' k l H. revert k. induction l as [|x l IH]; intros [|k]; [reflexivity|reflexivity| |]; cbn [map_from map]; now rewrite ?H, IH. Qed.
Lemma map_from_id : forall {A} k (l : list A), map_from k (fun x => x) l = l.
Proof. intros A k l. revert k. induction l as [|x l IH]; intros [|k]; cbn; [reflexivity|reflexivity| |]; now rewrite IH. Qed.
Lemma map_last_id : forall {A} (l : list A), map_last (fun x => x) l = l.
Proof. intros A. induction l as [|x [|y l] IH]; [reflexivity|reflexivity|]. cbn [map_last] in *. now rewrite IH. Qed.
Lemma run_top_adj : forall (t : tape V) o, map (@ts_adjdeps V) (t_steps (run_top t o)) = adj_step (map (@ts_adjdeps V) (t_steps t)) o.
Proof.
  intros t o. assert (E : map (@ts_adjdeps V) (t_steps (ensure_step t)) = some_set (map (@ts_adjdeps V) (t_steps t))).
  { unfold ensure_step. destruct (t_steps t) as [|x l] eqn:E; [|rewrite E; reflexivity]. cbn. now rewrite E. }
  destruct o; cbn [run_top adj_step].
  - unfold add_block. cbn [t_steps]. rewrite (map_last_map _ _ (fun y => y)) by reflexivity. now rewrite map_last_id.
  - cbn. now rewrite map_app.
  - unfold add_to_state. cbn [t_steps set_steps]. rewrite (map_map_from _ _ (fun y => y)) by reflexivity. now rewrite map_from_id.
  - unfold add_to_adjdeps. cbn [t_steps set_steps]. rewrite (map_map_from _ _ (oadd v)) by reflexivity. now rewrite E.
Qed.
Definition grows (s : store) t (s1 : store) t1 := exists na ns, adjs t1 = adjs t ++ na /\ sts t1 = sts t ++ ns /\ st_next s <= st_next s1 /\
  NoDup na /\ (forall a, In a (na ++ ns) -> st_next s <= a < st_next s1) /\ (forall a, In a na -> ~ In a ns).
Lemma append_grows : forall s t, let '(s1, t1) := a_append_step s t in grows s t s1 t1 /\ (exists a, adjs t1 = adjs t ++ [a] /\ st_sets s1 a = []) /\
  (forall a, a < st_next s -> st_sets s1 a = st_sets s a).
Proof.
  intros s t. unfold a_append_step. cbn [st_alloc]. split; [|split].
  - exists [S (st_next s)], [st_next s]. unfold adjs, sts. cbn [at_steps st_next]. rewrite !map_app. cbn. split; [reflexivity|]. split; [reflexivity|]. split; [lia|].
    split; [constructor; [easy|constructor]|]. split; [intros a [<-|[<-|[]]]; lia|]. intros a [<-|[]] [K|[]]. lia.
  - exists (S (st_next s)). unfold adjs. cbn [at_steps]. rewrite map_app. cbn. now rewrite Nat.eqb_refl.
  - intros a Ha. cbn. rewrite (proj2 (Nat.eqb_neq a (S (st_next s)))), (proj2 (Nat.eqb_neq a (st_next s))) by lia. reflexivity.
Qed.
Lemma grows_refl : forall s t, grows s t s t.
Proof. intros s t. exists [], []. rewrite !app_nil_r. split; [reflexivity|]. split; [reflexivity|]. split; [lia|]. split; [constructor|]. split; easy. Qed.
Lemma ensure_grows : forall s t, let '(s1, t1) := a_ensure_step s t in grows s t s1 t1 /\
  map (st_sets s1) (adjs t1) = some_set (map (st_sets s1) (adjs t)) /\ (forall a, a < st_next s -> st_sets s1 a = st_sets s a).
Proof.
  intros s t. unfold a_ensure_step. destruct (at_steps t) as [|x l] eqn:E.
  - pose proof (append_grows s t) as K. destruct (a_append_step s t) as [s1 t1]. destruct K as [A [[a [B1 B2]] C]]. split; [exact A|]. split; [|exact C].
    rewrite B1. unfold adjs. rewrite E. cbn. now rewrite B2.
  - split; [apply grows_refl|]. split; [|reflexivity]. unfold adjs. rewrite E. reflexivity.
Qed.
Lemma adj_fold : forall v k l s, NoDup l -> map (fun a => if mem a (skipn k l) then oadd v (st_sets s a) else st_sets s a) l = map_from k (oadd v) (map (st_sets s) l).
Proof.
  intros v k l s. revert k. induction l as [|x l IH]; intros k Hn; [now destruct k|]. inversion Hn as [|? ? Hx Hl]; subst.
  assert (P : forall j, mem x (skipn j l) = false). { intros j. apply mem_false. intros K. apply Hx. rewrite <- (firstn_skipn j l). apply in_or_app. now right. }
  destruct k as [|k]; cbn [skipn map map_from].
  - rewrite <- (IH 0 Hl). f_equal; [unfold mem; cbn; now rewrite Nat.eqb_refl|]. apply map_ext_in. intros a Ha.
    change (mem a (x :: l)) with (Nat.eqb a x || mem a l). destruct (Nat.eqb_spec a x) as [->|]; [contradiction|reflexivity].
  - rewrite P. f_equal. now apply IH.
Qed.
Lemma a_run_top_adj : forall s t o, NoDup (adjs t) -> (forall a, In a (adjs t) -> ~ In a (sts t)) -> (forall a, In a (adjs t ++ sts t) -> a < st_next s) ->
  let '(s1, t1) := a_run_top s t o in
  grows s t s1 t1 /\ map (st_sets s1) (adjs t1) = adj_step (map (st_sets s) (adjs t)) o /\
  (forall a, a < st_next s -> ~ In a (adjs t ++ sts t) -> st_sets s1 a = st_sets s a).
Proof.
  intros s t o Hn Hd Hlt.
  assert (Old : forall s1, (forall a, a < st_next s -> st_sets s1 a = st_sets s a) -> map (st_sets s1) (adjs t) = map (st_sets s) (adjs t)).
  { intros s1 H. apply map_ext_in. intros a Ha. apply H, Hlt, in_or_app. now left. }
  destruct o as [b| |v z|v z]; cbn [a_run_top adj_step].
  - pose proof (ensure_grows s t) as K. destruct (a_ensure_step s t) as [s1 t1]. destruct K as [A [B C]]. rewrite (Old s1 C) in B.
    assert (Ea : forall f, (forall x : astep V, f (AS (a_blocks x ++ [b]) (a_state x) (a_adjdeps x) (a_ckpt x) (a_revised x)) = f x) ->
       map (B:=nat) f (map_last (fun x => AS (a_blocks x ++ [b]) (a_state x) (a_adjdeps x) (a_ckpt x) (a_revised x)) (at_steps t1)) = map f (at_steps t1)).
    { intros f Hf. rewrite (map_last_map f _ (fun y => y)) by exact Hf. apply map_last_id. }
    unfold grows, adjs, sts in *. cbn [at_steps]. rewrite !Ea by reflexivity. split; [exact A|]. split; [exact B|]. intros a Ha _. now apply C.
  - pose proof (append_grows s t) as K. destruct (a_append_step s t) as [s1 t1]. destruct K as [A [[a [B1 B2]] C]]. split; [exact A|]. split; [|intros; now apply C].
    rewrite B1, map_app, (Old s1 C). cbn. now rewrite B2.
  - pose proof (ensure_grows s t) as K. destruct (a_ensure_step s t) as [s1 t1]. destruct K as [A [B C]]. rewrite (Old s1 C) in B.
    destruct A as [na [ns [A1 [A2 [A3 [A4 [A5 A6]]]]]]]. set (s2 := fold_left _ _ s1).
    assert (F : forall a, st_sets s2 a = if mem a (map a_state (skipn (Z.to_nat (z + 1)) (at_steps t1))) then oadd v (st_sets s1 a) else st_sets s1 a) by (intros a; apply (fold_add v (@a_state V) _ s1 a)).
    assert (En : st_next s2 = st_next s1) by (apply (fold_add v (@a_state V) _ s1 0)).
    assert (Sub : forall a, In a (map a_state (skipn (Z.to_nat (z + 1)) (at_steps t1))) -> In a (sts t1)).
    { intros a Ha. apply in_map_iff in Ha as [x [<- Hx]]. apply in_map. rewrite <- (firstn_skipn (Z.to_nat (z + 1)) (at_steps t1)). apply in_or_app. now right. }
    assert (Dj : forall a, In a (adjs t1) -> st_sets s2 a = st_sets s1 a).
    { intros a Ha. rewrite F. rewrite (proj2 (mem_false _ _)); [reflexivity|]. intros K. apply Sub in K. rewrite A1 in Ha. rewrite A2 in K.
      apply in_app_iff in Ha, K. destruct Ha as [Ha|Ha], K as [K|K].
      - exact (Hd a Ha K).
      - specialize (Hlt a ltac:(apply in_or_app; now left)). specialize (A5 a ltac:(apply in_or_app; now right)). lia.
      - specialize (Hlt a ltac:(apply in_or_app; now right)). specialize (A5 a ltac:(apply in_or_app; now left)). lia.
      - exact (A6 a Ha K). }
    split; [|split].
    + exists na, ns. rewrite En. auto 10.
    + rewrite <- B. apply map_ext_in. exact Dj.
    + intros a Ha Hna. rewrite F, (proj2 (mem_false _ _)); [now apply C|]. intros K. apply Sub in K. rewrite A2 in K. apply in_app_iff in K as [K|K].
      * apply Hna, in_or_app. now right.
      * specialize (A5 a ltac:(apply in_or_app; now right)). lia.
  - pose proof (ensure_grows s t) as K. destruct (a_ensure_step s t) as [s1 t1]. destruct K as [A [B C]]. rewrite (Old s1 C) in B.
    destruct A as [na [ns [A1 [A2 [A3 [A4 [A5 A6]]]]]]].
    assert (N1 : NoDup (adjs t1)).
    { rewrite A1. apply NoDup_app_intro; auto. intros a H1 H2. specialize (Hlt a ltac:(apply in_or_app; now left)). specialize (A5 a ltac:(apply in_or_app; now left)). lia. }
    set (s2 := fold_left _ _ s1).
    assert (F : forall a, st_sets s2 a = if mem a (skipn (Z.to_nat (z + 1)) (adjs t1)) then oadd v (st_sets s1 a) else st_sets s1 a).
    { intros a. unfold adjs. rewrite skipn_map. apply (fold_add v (@a_adjdeps V) _ s1 a). }
    assert (En : st_next s2 = st_next s1) by (apply (fold_add v (@a_adjdeps V) _ s1 0)).
    assert (V2 : map (st_sets s2) (adjs t1) = map_from (Z.to_nat (z + 1)) (oadd v) (some_set (map (st_sets s) (adjs t)))).
    { rewrite <- B, <- adj_fold by exact N1. apply map_ext. exact F. }
    split; [|split; [exact V2|]].
    + exists na, ns. rewrite En. auto 10.
    + intros a Ha Hna. rewrite F, (proj2 (mem_false _ _)); [now apply C|]. intros K.
      assert (K' : In a (adjs t1)) by (rewrite <- (firstn_skipn (Z.to_nat (z + 1)) (adjs t1)); apply in_or_app; now right).
      rewrite A1 in K'. apply in_app_iff in K' as [K'|K'].
      * apply Hna, in_or_app. now left.
      * specialize (A5 a ltac:(apply in_or_app; now left)). lia.
Qed.

Definition apart s t c := NoDup (adjs t ++ adjs c) /\ (forall a, In a (adjs t ++ adjs c) -> ~ In a (sts t ++ sts c)) /\
  forall a, In a ((adjs t ++ sts t) ++ (adjs c ++ sts c)) -> a < st_next s.
Lemma apart_sym : forall s t c, apart s t c -> apart s c t.
Proof.
  intros s t c [A [B C]]. split; [|split].
  - apply NoDup_app_elim in A as [A1 [A2 A3]]. apply NoDup_app_intro; auto. intros x Hx Hy. now apply (A3 x).
  - intros a Ha K. apply (B a); rewrite in_app_iff in *; tauto.
  - intros a Ha. apply C. rewrite !in_app_iff in *. tauto.
Qed.
Lemma apart_step : forall s t c o, apart s t c -> let '(s1, t1) := a_run_top s t o in
  apart s1 t1 c /\ map (st_sets s1) (adjs t1) = adj_step (map (st_sets s) (adjs t)) o /\ map (st_sets s1) (adjs c) = map (st_sets s) (adjs c).
Proof.
  intros s t c o [A [B C]]. pose proof (NoDup_app_elim _ _ A) as [A1 [A2 A3]].
  pose proof (a_run_top_adj s t o A1) as K. destruct (a_run_top s t o) as [s1 t1].
  destruct K as [[na [ns [G1 [G2 [G3 [G4 [G5 G6]]]]]]] [K1 K2]].
  { intros a Ha Hs. apply (B a); apply in_or_app; now left. }
  { intros a Ha. apply C. apply in_or_app. now left. }
  assert (Old : forall a, In a ((adjs t ++ sts t) ++ (adjs c ++ sts c)) -> ~ In a (na ++ ns)) by (intros a Ha K; specialize (C a Ha); specialize (G5 a K); lia).
  split; [|split; [exact K1|]].
  - unfold apart. rewrite G1, G2. split; [|split].
    + apply NoDup_app_intro; [apply NoDup_app_intro; auto|auto|].
      * intros a H1 H2. apply (Old a); rewrite !in_app_iff; tauto.
      * intros a H1 H2. apply in_app_iff in H1 as [H1|H1]; [exact (A3 a H1 H2)|]. apply (Old a); rewrite !in_app_iff; tauto.
    + intros a Ha Hs. rewrite !in_app_iff in Ha, Hs.
      assert (Q : In a na -> In a ns -> False) by (intros Q1 Q2; exact (G6 a Q1 Q2)).
      assert (Q' : In a (adjs t ++ adjs c) -> In a (sts t ++ sts c) -> False) by exact (B a).
      assert (Q2 : ((In a (adjs t) \/ In a (sts t)) \/ In a (adjs c) \/ In a (sts c)) -> In a na \/ In a ns -> False).
      { intros H1 H2. apply (Old a); rewrite !in_app_iff; tauto. }
      rewrite !in_app_iff in Q'. tauto.
    + intros a Ha. rewrite !in_app_iff in Ha.
      assert (Q1 : (In a (adjs t) \/ In a (sts t)) \/ In a (adjs c) \/ In a (sts c) -> a < st_next s1).
      { intros Q. specialize (C a ltac:(rewrite !in_app_iff; exact Q)). lia. }
      assert (Q2 : In a na \/ In a ns -> a < st_next s1) by (intros Q; apply G5; rewrite in_app_iff; exact Q).
      tauto.
  - apply map_ext_in. intros a Ha. apply K2.
    + apply C. rewrite !in_app_iff. tauto.
    + rewrite in_app_iff. intros [Q|Q]; [exact (A3 a Q Ha)|]. apply (B a); rewrite in_app_iff; tauto.
Qed.
Lemma boths_adj : forall l s t c, apart s t c -> let '(s', t', c') := run_boths (s, t, c) l in
  map (st_sets s') (adjs t') = fold_left adj_step (ops_of false l) (map (st_sets s) (adjs t)) /\
  map (st_sets s') (adjs c') = fold_left adj_step (ops_of true l) (map (st_sets s) (adjs c)).
Proof.
  induction l as [|[side o] l IH]; intros s t c Ha; [split; reflexivity|]. unfold run_boths. cbn [fold_left]. cbn [run_both fst snd].
  unfold ops_of. cbn [filter fst]. destruct side; cbn [Bool.eqb map snd fold_left].
  - pose proof (apart_step s c t o (apart_sym _ _ _ Ha)) as K. destruct (a_run_top s c o) as [s1 c1]. destruct K as [K1 [K2 K3]].
    specialize (IH s1 t c1 (apart_sym _ _ _ K1)). unfold run_boths in IH. rewrite K2, K3 in IH. exact IH.
  - pose proof (apart_step s t c o Ha) as K. destruct (a_run_top s t o) as [s1 t1]. destruct K as [K1 [K2 K3]].
    specialize (IH s1 t1 c K1). unfold run_boths in IH. rewrite K2, K3 in IH. exact IH.
Qed.
Lemma copy_apart : forall s t, own s t -> let '(s1, c) := a_copy s t in
  apart s1 t c /\ map (st_sets s1) (adjs t) = map (st_sets s) (adjs t) /\ map (st_sets s1) (adjs c) = map (fun _ => []) (at_steps t).
Proof.
  intros s t [Ho Hl]. unfold a_copy.
  assert (G : forall l s, let '(s1, l1) := a_copy_steps s l in map (@a_state V) l1 = map a_state l /\ st_next s <= st_next s1 /\ NoDup (map (@a_adjdeps V) l1) /\
     (forall a, In a (map a_adjdeps l1) -> st_next s <= a < st_next s1) /\ (forall a, a < st_next s -> st_sets s1 a = st_sets s a) /\
     map (fun x => st_sets s1 (a_adjdeps x)) l1 = map (fun _ => []) l).
  { clear. induction l as [|x l IH]; intros s; [cbn; repeat split; auto; try easy; constructor|]. cbn [a_copy_steps st_alloc]. set (s2 := Store _ _).
    specialize (IH s2). destruct (a_copy_steps s2 l) as [s3 l3]. destruct IH as [I1 [I2 [I3 [I4 [I5 I6]]]]]. cbn [map a_state a_adjdeps st_next s2] in *.
    split; [now rewrite I1|]. split; [lia|]. split; [constructor; [intros K; apply I4 in K; lia|exact I3]|].
    split; [intros a [<-|Ha]; [lia|apply I4 in Ha; lia]|]. split.
    - intros a Ha. rewrite I5 by lia. cbn. rewrite (proj2 (Nat.eqb_neq a (S (st_next s)))), (proj2 (Nat.eqb_neq a (st_next s))) by lia. reflexivity.
    - rewrite I6. f_equal. rewrite I5 by lia. cbn. now rewrite Nat.eqb_refl. }
  specialize (G (at_steps t) s). destruct (a_copy_steps s (at_steps t)) as [s1 l]. destruct G as [G1 [G2 [G3 [G4 [G5 G6]]]]].
  assert (Hn : NoDup (adjs t) /\ (forall a, In a (adjs t) -> ~ In a (sts t))).
  { unfold addrs in Ho. unfold adjs, sts. clear - Ho. induction (at_steps t) as [|x r IH]; [split; [constructor|easy]|]. cbn in *.
    inversion Ho as [|? ? H1 Ho1]; subst. inversion Ho1 as [|? ? H2 Ho2]; subst. destruct (IH Ho2) as [I1 I2].
    assert (P : forall a, In a (map a_adjdeps r) \/ In a (map a_state r) -> In a (flat_map (fun x => [a_state x; a_adjdeps x]) r)).
    { intros a [H|H]; apply in_map_iff in H as [y [<- Hy]]; apply in_flat_map; exists y; cbn; tauto. }
    split; [constructor; [intros K; apply H2, P; now left|exact I1]|].
    intros a [<-|Ha] [K|K].
    - apply H1. left. now symmetry.
    - apply H2, P. now right.
    - subst. apply H1. right. apply P. now left.
    - exact (I2 a Ha K). }
  destruct Hn as [N1 N2].
  assert (Lt : forall a, In a (adjs t ++ sts t) -> a < st_next s).
  { intros a Ha. apply Hl. unfold addrs. apply in_flat_map. apply in_app_iff in Ha as [Ha|Ha]; apply in_map_iff in Ha as [y [<- Hy]]; exists y; cbn; tauto. }
  set (c := ATape l _ None false 0). change (adjs c) with (map a_adjdeps l). assert (Es : sts c = sts t) by exact G1.
  unfold apart. change (adjs c) with (map a_adjdeps l). rewrite Es.
  split; [split; [|split]|split].
  - apply NoDup_app_intro; auto. intros a H1 H2. apply G4 in H2. specialize (Lt a ltac:(apply in_or_app; now left)). lia.
  - intros a Ha Hs. assert (Hs' : In a (sts t)) by (rewrite in_app_iff in Hs; tauto). apply in_app_iff in Ha as [Ha|Ha]; [exact (N2 a Ha Hs')|].
    apply G4 in Ha. specialize (Lt a ltac:(apply in_or_app; now right)). lia.
  - intros a Ha. rewrite !in_app_iff in Ha. destruct Ha as [Ha|[Ha|Ha]].
    + specialize (Lt a ltac:(rewrite in_app_iff; exact Ha)). lia.
    + now apply G4.
    + specialize (Lt a ltac:(rewrite in_app_iff; now right)). lia.
  - apply map_ext_in. intros a Ha. apply G5, Lt, in_or_app. now left.
  - rewrite map_map. exact G6.
Qed.
Lemma run_tops_adj : forall l (t : tape V), map (@ts_adjdeps V) (t_steps (run_tops t l)) = fold_left adj_step l (map (@ts_adjdeps V) (t_steps t)).
Proof. induction l as [|o l IH]; intros t; [reflexivity|]. cbn [run_tops fold_left]. fold (run_tops (run_top t o) l). now rewrite IH, run_top_adj. Qed.
Lemma view_adj : forall s t, map (@ts_adjdeps V) (t_steps (a_view s t)) = map (st_sets s) (adjs t).
Proof. intros s t. unfold a_view, adjs. cbn [t_steps]. now rewrite !map_map. Qed.
Lemma copies_adjdeps : forall s t l, own s t -> 
  let mine (side : bool) := map snd (filter (fun o => Bool.eqb (fst o) side) l) in
  let '(s0, c) := a_copy s t in
  let '(s1, t1, c1) := run_boths (s0, t, c) l in
  let deps u := map (@ts_adjdeps V) (t_steps u) in
  deps (a_view s0 c) = map (fun _ => []) (t_steps (a_view s t)) /\
  deps (a_view s1 t1) = deps (run_tops (a_view s t) (mine false)) /\ deps (a_view s1 c1) = deps (run_tops (a_view s0 c) (mine true)).
Proof.
  intros s t l Ho mine. pose proof (copy_apart s t Ho) as K. destruct (a_copy s t) as [s0 c]. destruct K as [K1 [K2 K3]].
  pose proof (boths_adj l s0 t c K1) as B. destruct (run_boths (s0, t, c) l) as [[s1 t1] c1]. destruct B as [B1 B2]. cbv zeta beta.
  rewrite !run_tops_adj, !view_adj, B1, B2, K2. split; [|split; reflexivity]. rewrite K3. unfold a_view. cbn [t_steps]. now rewrite map_map.
Qed.

Lemma copy_same : forall s t, let '(s1, c) := a_copy s t in
  a_split c = a_split t /\ at_flat c = concat (a_split t).
Proof.
  intros s t. unfold a_copy. assert (G : forall l s, map a_blocks (snd (a_copy_steps s l)) = map (@a_blocks V) l).
  { induction l as [|x l IH]; intros s0; [reflexivity|]. cbn [a_copy_steps st_alloc]. match goal with |- context[a_copy_steps ?q l] => specialize (IH q); destruct (a_copy_steps q l) end.
    cbn in *. now rewrite IH. }
  specialize (G (at_steps t) s). destruct (a_copy_steps s (at_steps t)) as [s1 l]. cbn [snd] in G. unfold a_split. cbn [at_steps at_flat].
  rewrite flat_map_concat_map, G. auto.
Qed.
End Copies.

Section Views.
Context {V : Type}.
Lemma copy_view : forall s (t : atape V), let '(s1, c) := a_copy s t in
  map (@ts_blocks V) (t_steps (a_view s1 c)) = map (@ts_blocks V) (t_steps (a_view s t)) /\
  t_flat (a_view s1 c) = concat (map (@ts_blocks V) (t_steps (a_view s t))).
Proof.
  intros s t. pose proof (copy_same s t) as K. destruct (a_copy s t) as [s1 c]. destruct K as [A B].
  pose proof (view_split s t) as P. pose proof (view_split s1 c) as Q. unfold split_of in P, Q. rewrite P, Q, A. split; [reflexivity|exact B].
Qed.
Lemma copies_independent : forall s (t c : atape V) (l : list (bool * top V)),
  let mine (side : bool) := map snd (filter (fun o => Bool.eqb (fst o) side) l) in
  let '(s1, t1, c1) := run_boths (s, t, c) l in
  let steps u := map (@ts_blocks V) (t_steps u) in
  steps (a_view s1 t1) = steps (run_tops (a_view s t) (mine false)) /\ t_flat (a_view s1 t1) = t_flat (run_tops (a_view s t) (mine false)) /\
  steps (a_view s1 c1) = steps (run_tops (a_view s c) (mine true)) /\ t_flat (a_view s1 c1) = t_flat (run_tops (a_view s c) (mine true)).
Proof.
  intros s t c l mine. pose proof (boths_split l s t c) as K. destruct (run_boths (s, t, c) l) as [[s1 t1] c1].
  destruct K as [A [B [C D]]]. cbv beta zeta.
  pose proof (view_split s1 t1) as P1. pose proof (view_split s1 c1) as P2. unfold split_of in P1, P2. rewrite P1, P2.
  destruct (run_tops_spec (mine false) (a_view s t)) as [Q1 [Q2 _]]. destruct (run_tops_spec (mine true) (a_view s c)) as [R1 [R2 _]].
  unfold split_of at 1 in Q1. unfold split_of at 1 in R1. rewrite Q1, R1, Q2, R2, !view_split. cbn [a_view t_flat]. auto.
Qed.
End Views.
