(** Tapes of array programs seen as tapes over single numbers: evaluation and adjoint sweep agree entry by entry. *)
From Coq Require Import List Arith ZArith Lia Bool FinFun.
From Coq.Arith Require Import Cantor.
From Verif Require Import Base Model BaseFacts Graph Record RecordFacts Spec History Sweep SpecGraph Marks Dual Arrays SpecArr ArrFacts.
Import ListNotations.

(** One number for a variable and a position in it. *)
Definition code (v i : nat) : nat := Cantor.to_nat (v, i).
Arguments code : simpl never.
Lemma code_inj : forall v i v' i', code v i = code v' i' -> v = v' /\ i = i'.
Proof. intros v i v' i' H. unfold code in H. apply Cantor.to_nat_inj in H. injection H as -> ->. auto. Qed.
Lemma code_of : forall n, exists v i, n = code v i.
Proof. intros n. exists (fst (Cantor.of_nat n)), (snd (Cantor.of_nat n)). unfold code. rewrite <- surjective_pairing. symmetry. apply Cantor.cancel_to_of. Qed.

Section Flat.
Context {V : Type} (F : fops V).
Notation AF := (AF F).
Notation zero := (f_zero F).

Definition entries (x : aval V) : list V := match x with Num v => [v] | Arr l => l end.
Definition size (x : aval V) : nat := length (entries x).
Implicit Types (e : nat -> aval V).
Definition vars e (v : nat) : list nat := map (code v) (seq 0 (size (e v))).
Definition evals e (n : nat) : V := nth (snd (Cantor.of_nat n)) (entries (e (fst (Cantor.of_nat n)))) zero.

Lemma evals_code : forall e v i, evals e (code v i) = nth i (entries (e v)) zero.
Proof. intros e v i. unfold evals, code. rewrite Cantor.cancel_of_to. reflexivity. Qed.
Lemma map_nth_seq : forall (A : Type) (l : list A) d, map (fun i => nth i l d) (seq 0 (length l)) = l.
Proof.
  intros A l d. apply nth_ext with (d := d) (d' := d); [now rewrite map_length, seq_length|]. intros n Hn. rewrite map_length, seq_length in Hn.
  rewrite (nth_indep _ d (nth 0 l d)) by now rewrite map_length, seq_length. rewrite (map_nth (fun i => nth i l d)). now rewrite seq_nth.
Qed.
Lemma evals_vars : forall e v, map (evals e) (vars e v) = entries (e v).
Proof.
  intros e v. unfold vars. rewrite map_map. transitivity (map (fun i => nth i (entries (e v)) zero) (seq 0 (size (e v)))); [|apply map_nth_seq]. apply map_ext. intros i. apply evals_code.
Qed.
Lemma in_vars : forall e v n, In n (vars e v) <-> exists i, n = code v i /\ i < size (e v).
Proof.
  intros e v n. unfold vars. rewrite in_map_iff. split; intros [i [A B]]; exists i.
  - apply in_seq in B. split; [congruence|lia].
  - split; [congruence|]. apply in_seq. lia.
Qed.
Lemma in_all : forall e l v i, In (code v i) (flat_map (vars e) l) <-> In v l /\ i < size (e v).
Proof.
  intros e l v i. rewrite in_flat_map. split.
  - intros [w [H1 H2]]. apply in_vars in H2 as [k [H2 H3]]. apply code_inj in H2 as [-> ->]. auto.
  - intros [H1 H2]. exists v. split; [exact H1|]. apply in_vars. eauto.
Qed.
Lemma in_some : forall e l n, In n (flat_map (vars e) l) -> exists v i, n = code v i /\ In v l /\ i < size (e v).
Proof. intros e l n H. destruct (code_of n) as [v [i ->]]. apply in_all in H. eauto. Qed.
Lemma vars_nodup : forall e v, NoDup (vars e v).
Proof. intros e v. unfold vars. apply FinFun.Injective_map_NoDup; [|apply seq_NoDup]. intros i j H. now apply code_inj in H. Qed.
Lemma NoDup_app' : forall (A : Type) (l m : list A), NoDup l -> NoDup m -> (forall x, In x l -> ~ In x m) -> NoDup (l ++ m).
Proof.
  induction l as [|x l IH]; intros m Hl Hm H; [exact Hm|]. inversion Hl as [|? ? Hx Hl']; subst. cbn. constructor.
  - intros K. apply in_app_iff in K as [K|K]; [contradiction|]. exact (H x (or_introl eq_refl) K).
  - apply IH; auto. intros y Hy. apply H. now right.
Qed.
Lemma all_nodup : forall e l, NoDup l -> NoDup (flat_map (vars e) l).
Proof.
  intros e l H. induction H as [|v r Hv Hr IH]; [constructor|]. cbn. apply NoDup_app'; [apply vars_nodup|exact IH|].
  intros n Hn K. apply in_vars in Hn as [i [-> Hi]]. apply in_all in K as [K _]. contradiction.
Qed.
Lemma vars_num : forall e v, is_arr (e v) = false -> vars e v = [code v 0].
Proof. intros e v H. unfold vars, size. destruct (e v); [reflexivity|discriminate]. Qed.
Lemma all_num : forall e l, Forall (fun v => is_arr (e v) = false) l -> flat_map (vars e) l = map (fun v => code v 0) l.
Proof. intros e l H. induction H as [|v r Hv Hr IH]; [reflexivity|]. cbn. rewrite vars_num by exact Hv. now rewrite IH. Qed.
Lemma flat_outs_app : forall e l m, flat_map (vars e) (l ++ m) = flat_map (vars e) l ++ flat_map (vars e) m.
Proof. intros. apply flat_map_app. Qed.

(** Selecting positions [ps] out of [n] numbers. *)
Definition gather (n : nat) (ps : list nat) : ublock V := {|
  u_recompute := fun xs idx => match nth_error ps idx with Some p => Ok (Some (nth p xs zero)) | None => Err EIndex end;
  u_adj := fun xs adjs idx => Ok (Some (nth idx (assign (repeat zero n) ps (map (val F) adjs)) zero));
  u_tlm := fun _ _ _ => Err ENotImpl;
  u_hess := fun _ _ _ _ _ => Err ENotImpl |}.

(** The same operation on numbers; [e] are values that fit it. *)
Inductive flat_block e : block (aval V) -> block V -> Prop :=
| FB_scalar : forall k ds o tag, (forall u, k <> KUser u) -> Forall (fun d => is_arr (e d) = false) (o :: ds) -> length ds = arity k ->
    comp_recompute AF (akind k) (map e ds) 0 = Ok (Some (e o)) ->
    flat_block e (Blk (akind k) ds [o] tag) (Blk k (flat_map (vars e) ds) (flat_map (vars e) [o]) tag)
| FB_slice : forall it a o tag l ps, e a = Arr l -> picks it (length l) = Ok ps -> NoDup ps -> pick F it (Arr l) = Ok (e o) ->
    flat_block e (Blk (KUser (slice_block F it)) [a] [o] tag) (Blk (KUser (gather (length l) ps)) (flat_map (vars e) [a]) (flat_map (vars e) [o]) tag).

Lemma flat_deps : forall e b b', flat_block e b b' -> b_deps b' = flat_map (vars e) (b_deps b).
Proof. intros e b b' []; reflexivity. Qed.
Lemma flat_outs : forall e b b', flat_block e b b' -> b_outs b' = flat_map (vars e) (b_outs b).
Proof. intros e b b' []; reflexivity. Qed.
Lemma outs_flat : forall e bs bs', Forall2 (flat_block e) bs bs' -> outs_of bs' = flat_map (vars e) (outs_of bs).
Proof. intros e bs bs' H. induction H as [|b b' r r' Hb Hr IH]; [reflexivity|]. cbn. rewrite flat_map_app. unfold outs_of in *. now rewrite IH, (flat_outs _ _ _ Hb). Qed.
Lemma deps_flat : forall e bs bs', Forall2 (flat_block e) bs bs' -> deps_of bs' = flat_map (vars e) (deps_of bs).
Proof. intros e bs bs' H. induction H as [|b b' r r' Hb Hr IH]; [reflexivity|]. cbn. rewrite flat_map_app. unfold deps_of in *. now rewrite IH, (flat_deps _ _ _ Hb). Qed.
Lemma topo_flat : forall e bs bs', Forall2 (flat_block e) bs bs' -> topo bs -> topo bs'.
Proof.
  intros e bs bs' H. induction H as [|b b' r r' Hb Hr IH]; intros Ht; [exact I|]. destruct Ht as [A B]. split; [|now apply IH].
  intros d Hd K. rewrite (flat_deps _ _ _ Hb) in Hd. apply in_some in Hd as [v [i [-> [Hv Hi]]]].
  rewrite (outs_flat e (b :: r) (b' :: r')) in K by now constructor. apply in_all in K as [K _]. exact (A v Hv K).
Qed.
Lemma wf_flat : forall e bs bs', Forall2 (flat_block e) bs bs' -> wf_tape bs -> wf_tape bs'.
Proof. intros e bs bs' H [A B]. split; [exact (topo_flat e bs bs' H A)|]. rewrite (outs_flat e bs bs' H). now apply all_nodup. Qed.
Lemma shaped_flat : forall e b b', flat_block e b b' -> shaped b'.
Proof.
  intros e b b' H. destruct H as [k ds o tag Hk Hn Ha Hv|it a o tag l ps Ea Ep Ed Eo]; [|exact I]. inversion Hn as [|? ? Ho Hd]; subst.
  unfold shaped. cbn [b_kind b_deps b_outs]. rewrite (all_num e ds Hd). cbn [flat_map]. rewrite (vars_num e o Ho). rewrite map_length, Ha. cbn. destruct k; auto.
Qed.

(** ** Influence *)
Lemma slice_size : forall it (l : list V) x ps, picks it (length l) = Ok ps -> pick F it (Arr l) = Ok x -> entries x = map (fun p => nth p l zero) ps.
Proof.
  intros it l x ps Ep Eo. unfold pick in Eo. rewrite Ep in Eo. destruct (is_int it) eqn:Ei; [|injection Eo as <-; reflexivity].
  destruct it; try discriminate. cbn in Ep. destruct (position (length l) z); [|discriminate]. injection Ep as <-. injection Eo as <-. reflexivity.
Qed.
Lemma deps_nonempty : forall e b b' d o, flat_block e b b' -> In d (b_deps b) -> In o (b_outs b) -> 0 < size (e o) -> 0 < size (e d).
Proof.
  intros e b b' d o H Hd Ho Hs. destruct H as [k ds o0 tag Hk Hn Ha Hv|it a o0 tag l ps Ea Ep Ed Eo]; cbn [b_deps b_outs] in *.
  - inversion Hn as [|? ? Hno Hnd]; subst. rewrite Forall_forall in Hnd. specialize (Hnd d Hd). unfold size. destruct (e d); [cbn; lia|discriminate].
  - destruct Ho as [<-|[]]. destruct Hd as [<-|[]]. unfold size in *. rewrite (slice_size _ _ _ _ Ep Eo), map_length in Hs. rewrite Ea. cbn.
    pose proof (picks_range _ _ _ Ep) as R. destruct ps as [|p ps]; [cbn in Hs; lia|]. inversion R; subst. lia.
Qed.
Lemma Forall2_in_l : forall (A B : Type) (R : A -> B -> Prop) l m x, Forall2 R l m -> In x l -> exists y, In y m /\ R x y.
Proof. intros A B R l m x H. induction H as [|a b r r' Hab Hr IH]; intros Hx; [destruct Hx|]. destruct Hx as [<-|Hx]; [exists b; split; [now left|exact Hab]|]. destruct (IH Hx) as [y [A1 A2]]. exists y. split; [now right|exact A2]. Qed.
Lemma Forall2_in_r : forall (A B : Type) (R : A -> B -> Prop) l m y, Forall2 R l m -> In y m -> exists x, In x l /\ R x y.
Proof. intros A B R l m y H. induction H as [|a b r r' Hab Hr IH]; intros Hx; [destruct Hx|]. destruct Hx as [<-|Hx]; [exists a; split; [now left|exact Hab]|]. destruct (IH Hx) as [x [A1 A2]]. exists x. split; [now right|exact A2]. Qed.

Lemma influence_down : forall e bs bs' c k n, Forall2 (flat_block e) bs bs' -> k < size (e c) -> influences bs' (code c k) n ->
  exists v i, n = code v i /\ i < size (e v) /\ influences bs c v.
Proof.
  intros e bs bs' c k n H Hk Hi. induction Hi as [|b' d o Hb Hd Ho Hi IH]; [exists c, k; repeat split; [exact Hk|constructor]|].
  destruct IH as [v [i [-> [Hs Hv]]]]. destruct (Forall2_in_r _ _ _ _ _ _ H Hb) as [b [Hb0 Hf]]. rewrite (flat_deps _ _ _ Hf) in Hd. apply in_all in Hd as [Hd _].
  rewrite (flat_outs _ _ _ Hf) in Ho. apply in_some in Ho as [u [m [-> [Hu Hm]]]]. exists u, m. repeat split; [exact Hm|]. eapply inf_step; eauto.
Qed.
Lemma influence_up : forall e bs bs' c v, Forall2 (flat_block e) bs bs' -> influences bs c v ->
  forall i, i < size (e v) -> exists k, k < size (e c) /\ influences bs' (code c k) (code v i).
Proof.
  intros e bs bs' c v H Hi. induction Hi as [|b d o Hb Hd Ho Hi IH]; intros i Hs; [exists i; split; [exact Hs|constructor]|].
  destruct (Forall2_in_l _ _ _ _ _ _ H Hb) as [b' [Hb0 Hf]]. assert (P : 0 < size (e d)) by (eapply deps_nonempty; eauto; lia).
  destruct (IH 0 P) as [k [Hk Hi']]. exists k. split; [exact Hk|]. apply (inf_step bs' (code c k) b' (code d 0) (code o i)); auto.
  - rewrite (flat_deps _ _ _ Hf). now apply in_all.
  - rewrite (flat_outs _ _ _ Hf). now apply in_all.
Qed.
Lemma relevant_flat : forall e bs bs' ctrls v i, Forall2 (flat_block e) bs bs' -> topo bs -> i < size (e v) ->
  mem (code v i) (find_relevant bs' (flat_map (vars e) ctrls)) = mem v (find_relevant bs ctrls).
Proof.
  intros e bs bs' ctrls v i H Ht Hi. apply eq_true_iff_eq. rewrite !mem_In.
  rewrite (find_relevant_influences bs' _ _ (topo_flat e bs bs' H Ht)), (find_relevant_influences bs _ _ Ht). split.
  - intros [n [Hn Hf]]. apply in_some in Hn as [c [k [-> [Hc Hk]]]]. destruct (influence_down e bs bs' c k _ H Hk Hf) as [v0 [i0 [E [_ Hv]]]]. apply code_inj in E as [-> _]. eauto.
  - intros [c [Hc Hf]]. destruct (influence_up e bs bs' c v H Hf i Hi) as [k [Hk Hf']]. exists (code c k). split; [now apply in_all|exact Hf'].
Qed.
Lemma influenced_num : forall e bs bs' ctrls v, Forall2 (flat_block e) bs bs' -> is_arr (e v) = false ->
  (exists n, In n (flat_map (vars e) ctrls) /\ influences bs' n (code v 0)) -> exists c, In c ctrls /\ influences bs c v.
Proof.
  intros e bs bs' ctrls v H Hn [n [Hc Hf]]. apply in_some in Hc as [c [k [-> [Hc Hk]]]]. destruct (influence_down e bs bs' c k _ H Hk Hf) as [v0 [i0 [E [_ Hv]]]]. apply code_inj in E as [-> _]. eauto.
Qed.

(** ** Numbers inside the larger type *)
Lemma recompute_num : forall k xs i, (forall u, k <> KUser u) -> comp_recompute AF (akind k) (map Num xs) i = rmap (option_map Num) (comp_recompute F k xs i).
Proof.
  intros k xs i Hk. destruct k; try (exfalso; eapply Hk; reflexivity); destruct xs as [|a [|b r]]; try reflexivity; cbn.
  - destruct (f_div F a b); reflexivity.
  - destruct (f_pow F a b); reflexivity.
  - destruct (f_exp F a); reflexivity.
  - destruct (f_exp F a); reflexivity.
  - destruct (f_log F a); reflexivity.
  - destruct (f_log F a); reflexivity.
  - unfold py_min. cbn. destruct (f_lt F b a); reflexivity.
  - unfold py_max. cbn. destruct (f_lt F a b); reflexivity.
Qed.
Lemma adj_num : forall k xs y i, (forall u, k <> KUser u) -> comp_adj AF (akind k) (map Num xs) [Some (Num y)] i = rmap (option_map Num) (comp_adj F k xs [Some y] i).
Proof.
  intros k xs y i Hk. destruct k; try (exfalso; eapply Hk; reflexivity); cbn [akind comp_adj]; cbn [need_nth nth_res nth_error bind need].
  - reflexivity.
  - destruct (Nat.eqb i 0); reflexivity.
  - cbn. unfold nth_res. rewrite nth_error_map. destruct (nth_error xs _); reflexivity.
  - cbn. unfold nth_res. rewrite !nth_error_map. destruct (nth_error xs 0) as [x0|]; [|reflexivity]. destruct (nth_error xs 1) as [x1|]; [|reflexivity]. cbn.
    destruct (Nat.eqb i 0); [destruct (f_div F (f_one F) x1); reflexivity|]. destruct (f_pow F x1 (f_two F)) as [p|]; [|reflexivity]. cbn. destruct (f_div F x0 p); reflexivity.
  - cbn. unfold nth_res. rewrite !nth_error_map. destruct (nth_error xs 0) as [x0|]; [|reflexivity]. destruct (nth_error xs 1) as [x1|]; [|reflexivity]. cbn.
    destruct (Nat.eqb i 0); [destruct (f_pow F x0 (f_sub F x1 (f_one F))); reflexivity|]. destruct (f_pow F x0 x1); reflexivity.
  - reflexivity.
  - cbn. unfold nth_res. rewrite nth_error_map. destruct (nth_error xs 0) as [x0|]; [|reflexivity]. cbn. destruct (f_exp F x0); reflexivity.
  - cbn. unfold nth_res. rewrite nth_error_map. destruct (nth_error xs 0) as [x0|]; [|reflexivity]. cbn. destruct (f_div F y x0); reflexivity.
  - cbn. unfold nth_res. rewrite !nth_error_map. destruct (nth_error xs 0) as [x0|]; [|reflexivity]. destruct (nth_error xs 1) as [x1|]; [|reflexivity]. cbn.
    destruct (Nat.eqb i (if f_le F x0 x1 then 0 else 1)); reflexivity.
  - cbn. unfold nth_res. rewrite !nth_error_map. destruct (nth_error xs 0) as [x0|]; [|reflexivity]. destruct (nth_error xs 1) as [x1|]; [|reflexivity]. cbn.
    destruct (Nat.eqb i (if f_le F x1 x0 then 0 else 1)); reflexivity.
Qed.

(** ** Evaluation *)
Definition fit (T : nat -> Prop) e (E : nat -> aval V) (E' : nat -> V) : Prop := forall v, T v -> is_arr (E v) = is_arr (e v) /\ map E' (vars e v) = entries (E v).

Lemma fit_nums : forall T e E E' ds, fit T e E E' -> (forall d, In d ds -> T d) -> Forall (fun d => is_arr (e d) = false) ds ->
  map E ds = map Num (map E' (flat_map (vars e) ds)).
Proof.
  intros T e E E' ds Hf HT Hn. rewrite (all_num e ds Hn), !map_map. apply map_ext_in. intros d Hd. rewrite Forall_forall in Hn. specialize (Hn d Hd).
  destruct (Hf d (HT d Hd)) as [A B]. rewrite (vars_num e d Hn) in B. rewrite Hn in A. destruct (E d) as [x|]; [|discriminate]. cbn [map entries] in B. injection B as B. now rewrite B.
Qed.
Lemma write_all : forall (rec : nat -> res (option V)) g o n k (E' : nat -> V), (forall i, k <= i < k + n -> rec i = Ok (Some (g i))) ->
  exists E2, iter_o (fun (q : nat -> V) (io : nat * nat) => match rec (fst io) with Err x => (q, Some x) | Ok None => (q, None) | Ok (Some x) => (eset q (snd io) x, None) end)
     (enum_from k (map (code o) (seq k n))) E' = (E2, None) /\ (forall i, k <= i < k + n -> E2 (code o i) = g i) /\ (forall u, (forall i, k <= i < k + n -> u <> code o i) -> E2 u = E' u).
Proof.
  intros rec g o n. induction n as [|n IH]; intros k E' H; cbn [seq map enum_from iter_o].
  - exists E'. repeat split; auto. intros; lia.
  - cbn [fst snd]. rewrite (H k ltac:(lia)). destruct (IH (S k) (eset E' (code o k) (g k)) ltac:(intros; apply H; lia)) as [E2 [A [B C]]]. exists E2. split; [exact A|]. split.
    + intros i Hi. destruct (Nat.eq_dec i k) as [->|N]; [|apply B; lia]. rewrite C; [unfold eset; now rewrite Nat.eqb_refl|]. intros j Hj K. apply code_inj in K as [_ K]. lia.
    + intros u Hu. rewrite C by (intros i Hi; apply Hu; lia). unfold eset. rewrite (proj2 (Nat.eqb_neq u (code o k))); [reflexivity|]. apply Hu. lia.
Qed.
Lemma nth_error_some_nth : forall (A : Type) (l : list A) i d, i < length l -> nth_error l i = Some (nth i l d).
Proof. intros A l i d H. destruct (nth_error l i) eqn:E; [now rewrite (nth_error_nth _ _ d E)|apply nth_error_None in E; lia]. Qed.

Lemma geval_block_flat : forall T e E E' b b' (cut cut' : nat -> bool), flat_block e b b' -> fit T e E E' -> (forall d, In d (b_deps b) -> T d) ->
  existsb cut (b_outs b) = false -> existsb cut' (b_outs b') = false ->
  snd (geval_block AF cut E b) = snd (geval_block F cut' E' b') /\ fit T e (fst (geval_block AF cut E b)) (fst (geval_block F cut' E' b')).
Proof.
  intros T e E E' b b' cut cut' Hb Hf HT Hc Hc'. unfold geval_block. rewrite Hc, Hc'. destruct Hb as [k ds o tag Hk Hn Ha Hv|it a o tag l ps Ea Ep Ed Eo]; cbn [b_kind b_deps b_outs] in *.
  - inversion Hn as [|? ? Ho Hd]; subst. cbn [flat_map]. rewrite (vars_num e o Ho). cbn [app enum enum_from iter_o fst snd].
    rewrite (fit_nums T e E E' ds Hf HT Hd), recompute_num by exact Hk. destruct (comp_recompute F k _ 0) as [[y|]|x]; cbn; auto. split; [reflexivity|].
    intros v Hv'. unfold eset. destruct (Nat.eqb_spec v o) as [->|N].
    + rewrite (vars_num e o Ho). cbn. rewrite Nat.eqb_refl. split; [now rewrite Ho|reflexivity].
    + destruct (Hf v Hv') as [A B]. split; [exact A|]. rewrite <- B. apply map_ext_in. intros n Hin. apply in_vars in Hin as [i [-> Hi]].
      rewrite (proj2 (Nat.eqb_neq _ _)); [reflexivity|]. intros K. apply code_inj in K as [K _]. contradiction.
  - cbn [map flat_map]. rewrite app_nil_r. cbn [enum enum_from iter_o fst snd comp_recompute slice_block u_recompute].
    destruct (Hf a (HT a (or_introl eq_refl))) as [Ka Kb]. rewrite Ea in Ka. destruct (E a) as [|m] eqn:Em; [discriminate|]. cbn [entries] in Kb.
    assert (Lm : length m = length l) by (rewrite <- Kb, map_length; unfold vars, size; now rewrite map_length, seq_length, Ea).
    rewrite (getitem_pick F). assert (Ep' : picks it (length m) = Ok ps) by (rewrite Lm; exact Ep).
    assert (Eo' : exists y, pick F it (Arr m) = Ok y /\ is_arr y = is_arr (e o)).
    { unfold pick in Eo |- *. rewrite Ep in Eo. rewrite Ep'. destruct (is_int it); [destruct ps as [|p ps]; [discriminate|]|]; injection Eo as <-; eexists; split; reflexivity. }
    destruct Eo' as [y [Ey Ky]]. rewrite Ey. cbn [bind Nat.eqb]. pose proof (slice_size _ _ _ _ Ep' Ey) as Sy. pose proof (slice_size _ _ _ _ Ep Eo) as So.
    assert (Ls : size (e o) = length ps) by (unfold size; now rewrite So, map_length).
    rewrite app_nil_r. destruct (write_all (fun i => u_recompute (gather (length l) ps) (map E' (vars e a)) i) (fun i => nth (nth i ps 0) m zero) o (size (e o)) 0 E') as [E2 [A [B C]]].
    { intros i Hi. cbn [gather u_recompute]. rewrite (nth_error_some_nth _ ps i 0) by lia. now rewrite Kb. }
    cbn [comp_recompute]. change (enum (vars e o)) with (enum_from 0 (map (code o) (seq 0 (size (e o))))). unfold env in *. rewrite A. cbn [fst snd]. split; [reflexivity|]. intros v Hv'. unfold eset. destruct (Nat.eqb_spec v o) as [->|N].
    + split; [exact Ky|]. rewrite Sy. unfold vars. rewrite map_map, Ls. rewrite <- (map_nth_seq _ ps 0) at 2. rewrite map_map. apply map_ext_in. intros i Hi. apply in_seq in Hi. apply B. lia.
    + destruct (Hf v Hv') as [A' B']. split; [exact A'|]. rewrite <- B'. apply map_ext_in. intros n Hin. apply in_vars in Hin as [i [-> Hi]]. apply C.
      intros j _ K. apply code_inj in K as [K _]. contradiction.
Qed.
Lemma geval_flat : forall e bs bs' T E E' (cut cut' : nat -> bool), Forall2 (flat_block e) bs bs' -> fit T e E E' -> (forall d, In d (deps_of bs) -> T d) ->
  (forall o, In o (outs_of bs) -> cut o = false) -> (forall o, In o (outs_of bs') -> cut' o = false) ->
  snd (geval AF cut bs E) = snd (geval F cut' bs' E') /\ fit T e (fst (geval AF cut bs E)) (fst (geval F cut' bs' E')).
Proof.
  intros e bs bs' T E E' cut cut' H. revert E E'. induction H as [|b b' r r' Hb Hr IH]; intros E E' Hf HT Hc Hc'; [split; [reflexivity|exact Hf]|].
  unfold geval in *. cbn [iter_o].
  assert (C1 : existsb cut (b_outs b) = false).
  { destruct (existsb cut (b_outs b)) eqn:X; [|reflexivity]. apply existsb_exists in X as [o [Ho X]]. rewrite Hc in X; [discriminate|]. cbn. apply in_app_iff. now left. }
  assert (C2 : existsb cut' (b_outs b') = false).
  { destruct (existsb cut' (b_outs b')) eqn:X; [|reflexivity]. apply existsb_exists in X as [o [Ho X]]. rewrite Hc' in X; [discriminate|]. cbn. apply in_app_iff. now left. }
  destruct (geval_block_flat T e E E' b b' cut cut' Hb Hf) as [A B]; auto.
  { intros d Hd. apply HT. cbn. apply in_app_iff. now left. }
  destruct (geval_block AF cut E b) as [E1 x]. destruct (geval_block F cut' E' b') as [E1' x']. cbn [fst snd] in *. subst x'. destruct x; [split; [reflexivity|exact B]|].
  apply IH; auto.
  - intros d Hd. apply HT. cbn. apply in_app_iff. now right.
  - intros o Ho. apply Hc. cbn. apply in_app_iff. now right.
  - intros o Ho. apply Hc'. cbn. apply in_app_iff. now right.
Qed.

(** ** Adjoint sweep *)
Definition afit (U : nat -> Prop) e (a : nat -> option (aval V)) (a' : nat -> option V) : Prop := forall v, U v ->
  match a v with
  | None => forall i, i < size (e v) -> a' (code v i) = None
  | Some x => 0 < size (e v) /\ is_arr x = is_arr (e v) /\ size x = size (e v) /\ forall i, i < size (e v) -> a' (code v i) = Some (nth i (entries x) zero)
  end.

Lemma afit_none : forall U e a a' v, afit U e a a' -> U v -> a v = None -> existsb is_some (map a' (vars e v)) = false.
Proof.
  intros U e a a' v H Hv N. specialize (H v Hv). rewrite N in H. unfold vars. rewrite map_map. destruct (existsb _ _) eqn:X; [|reflexivity].
  apply existsb_exists in X as [y [Hy X]]. apply in_map_iff in Hy as [i [<- Hi]]. apply in_seq in Hi. rewrite H in X by lia. discriminate.
Qed.
Lemma afit_some : forall U e a a' v x, afit U e a a' -> U v -> a v = Some x ->
  map a' (vars e v) = map Some (entries x) /\ is_arr x = is_arr (e v) /\ size x = size (e v) /\ existsb is_some (map Some (entries x)) = true.
Proof.
  intros U e a a' v x H Hv N. specialize (H v Hv). rewrite N in H. destruct H as [P [K [L H]]]. split; [|repeat split; auto].
  - unfold vars. rewrite map_map. rewrite <- L. transitivity (map Some (map (fun i => nth i (entries x) zero) (seq 0 (size x)))); [|f_equal; apply map_nth_seq]. rewrite map_map. apply map_ext_in. intros i Hi. apply in_seq in Hi. apply H. lia.
  - rewrite <- L in P. unfold size in P. destruct (entries x); [cbn in P; lia|reflexivity].
Qed.
Lemma enum_map : forall (A B : Type) (c : A -> B) l k, enum_from k (map c l) = map (fun iv => (fst iv, c (snd iv))) (enum_from k l).
Proof. induction l as [|x l IH]; intros k; [reflexivity|]. cbn. now rewrite IH. Qed.
Lemma marked_map : forall (mk mk' : nat -> bool) c ds, (forall d, In d ds -> mk' (c d) = mk d) -> marked mk' (map c ds) = map (fun iv => (fst iv, c (snd iv))) (marked mk ds).
Proof.
  intros mk mk' c ds. unfold marked, enum. generalize 0. induction ds as [|d ds IH]; intros k H; [reflexivity|]. cbn. rewrite (H d (or_introl eq_refl)).
  destruct (mk d); cbn; rewrite IH; auto; intros; apply H; now right.
Qed.
Lemma iter_map : forall (A B S : Type) (f : S -> B -> S * option exn) (h : A -> B) l s, iter_o f (map h l) s = iter_o (fun s x => f s (h x)) l s.
Proof. induction l as [|x l IH]; intros s; [reflexivity|]. cbn. destruct (f s (h x)) as [s1 [e|]]; [reflexivity|]. apply IH. Qed.
Lemma marked_in : forall mk ds iv, In iv (marked mk ds) -> In (snd iv) ds.
Proof.
  intros mk ds iv H. unfold marked in H. apply filter_In in H as [H _]. unfold enum in H. revert H. generalize 0. induction ds as [|d ds IH]; intros k H; [destruct H|].
  destruct H as [<-|H]; [now left|right; eauto].
Qed.
Lemma add_num : forall U e a a' d z, afit U e a a' -> is_arr (e d) = false -> afit U e (aadd AF a d (Num z)) (aadd F a' (code d 0) z).
Proof.
  intros U e a a' d z H Hd v Hv. pose proof (H v Hv) as Hf. unfold aadd. destruct (Nat.eqb_spec v d) as [->|N].
  - assert (L : size (e d) = 1) by (unfold size; destruct (e d); [reflexivity|discriminate]).
    destruct (a d) as [x|] eqn:Ed; cbn [accum].
    + destruct Hf as [P [K [L' Hf]]]. rewrite Hd in K. destruct x as [y|]; [|discriminate]. cbn. repeat split; auto.
      intros i Hi. assert (i = 0) by lia. subst i. rewrite Nat.eqb_refl, Hf by lia. reflexivity.
    + repeat split; [lia|now rewrite Hd|now rewrite L|]. intros i Hi. assert (i = 0) by lia. subst i. rewrite Nat.eqb_refl, Hf by lia. reflexivity.
  - assert (O : forall i, Nat.eqb (code v i) (code d 0) = false) by (intros i; apply Nat.eqb_neq; intros K; apply code_inj in K as [K _]; contradiction).
    destruct (a v); [destruct Hf as [P [K [L Hf]]]; repeat split; auto|]; intros i Hi; rewrite O; now apply Hf.
Qed.
Lemma add_all : forall (rec : nat -> res (option V)) g o n k (a' : nat -> option V), (forall i, k <= i < k + n -> rec i = Ok (Some (g i))) ->
  exists a2, iter_o (fun (q : nat -> option V) (iv : nat * nat) => match rec (fst iv) with Err x => (q, Some x) | Ok None => (q, None) | Ok (Some x) => (aadd F q (snd iv) x, None) end)
     (enum_from k (map (code o) (seq k n))) a' = (a2, None) /\ (forall i, k <= i < k + n -> a2 (code o i) = accum F (a' (code o i)) (g i)) /\
     (forall u, (forall i, k <= i < k + n -> u <> code o i) -> a2 u = a' u).
Proof.
  intros rec g o n. induction n as [|n IH]; intros k a' H; cbn [seq map enum_from iter_o].
  - exists a'. repeat split; auto. intros; lia.
  - cbn [fst snd]. rewrite (H k ltac:(lia)). destruct (IH (S k) (aadd F a' (code o k) (g k)) ltac:(intros; apply H; lia)) as [a2 [A [B C]]]. exists a2. split; [exact A|]. split.
    + intros i Hi. destruct (Nat.eq_dec i k) as [->|N].
      * rewrite C; [unfold aadd; now rewrite Nat.eqb_refl|]. intros j Hj K. apply code_inj in K as [_ K]. lia.
      * rewrite B by lia. unfold aadd. rewrite (proj2 (Nat.eqb_neq _ _)); [reflexivity|]. intros K. apply code_inj in K as [_ K]. lia.
    + intros u Hu. rewrite C by (intros i Hi; apply Hu; lia). unfold aadd. rewrite (proj2 (Nat.eqb_neq u (code o k))); [reflexivity|]. apply Hu. lia.
Qed.
Lemma list_set_length : forall (l : list V) p v, length (list_set l p v) = length l.
Proof. induction l as [|x l IH]; intros [|p] v; cbn; auto. Qed.
Lemma assign_length : forall ps (l vs : list V), length (assign l ps vs) = length l.
Proof. induction ps as [|p ps IH]; intros l [|v vs]; try reflexivity. cbn. rewrite IH. apply list_set_length. Qed.
Lemma zip_nth : forall (f : V -> V -> V) l m i, length l = length m -> i < length l -> nth i (zip_with f l m) zero = f (nth i l zero) (nth i m zero).
Proof. induction l as [|x l IH]; intros [|y m] [|i] L H; cbn in *; try lia; auto. apply IH; lia. Qed.
Lemma zip_length : forall (f : V -> V -> V) l m, length l = length m -> length (zip_with f l m) = length l.
Proof. induction l as [|x l IH]; intros [|y m] L; cbn in *; try lia. f_equal. apply IH. lia. Qed.
Lemma written_entries : forall it (l : list V) x y ps, picks it (length l) = Ok ps -> pick F it (Arr l) = Ok x -> is_arr y = is_arr x -> size y = size x ->
  written it (length ps) y = Ok (entries y).
Proof.
  intros it l x y ps Ep Eo Hk Hs. pose proof (slice_size _ _ _ _ Ep Eo) as S. unfold size in Hs. rewrite S, map_length in Hs. pose proof (pick_kind F it l x Eo) as K. rewrite <- Hk in K.
  destruct y as [z|m]; cbn [written entries] in *; [rewrite <- Hs; reflexivity|]. destruct m as [|z [|z2 m]]; [|rewrite <- Hs; reflexivity|]; cbn in K; rewrite <- K, <- Hs, Nat.eqb_refl; reflexivity.
Qed.

Lemma padj_block_flat : forall U e a a' b b' (mk mk' : nat -> bool), flat_block e b b' -> afit U e a a' -> (forall v, In v (b_deps b ++ b_outs b) -> U v) ->
  (forall v i, i < size (e v) -> mk' (code v i) = mk v) ->
  snd (padj_block AF mk e a b) = snd (padj_block F mk' (evals e) a' b') /\ afit U e (fst (padj_block AF mk e a b)) (fst (padj_block F mk' (evals e) a' b')).
Proof.
  intros U e a a' b b' mk mk' Hb Hf HU Hm. unfold padj_block. destruct Hb as [k ds o tag Hk Hn Ha Hv|it a0 o tag l ps Ea Ep Ed Eo]; cbn [b_kind b_deps b_outs] in *.
  - inversion Hn as [|? ? Ho Hd]; subst. assert (Uo : U o) by (apply HU; apply in_app_iff; right; now left). cbn [flat_map map]. rewrite !app_nil_r.
    destruct (a o) as [x|] eqn:Eo.
    2:{ rewrite (afit_none U e a a' o Hf Uo Eo). cbn. auto. }
    destruct (afit_some U e a a' o x Hf Uo Eo) as [-> [K [L ->]]]. rewrite Ho in K. destruct x as [y|]; [|discriminate]. cbn [entries map existsb is_some orb negb].
    rewrite (all_num e ds Hd). rewrite (marked_map mk mk'), iter_map.
    2:{ intros d Hin. apply Hm. rewrite Forall_forall in Hd. specialize (Hd d Hin). unfold size. destruct (e d); [cbn; lia|discriminate]. }
    apply iter_o_sim; [|exact Hf]. intros q q' iv Hin Hq. unfold padj_step. cbn [fst snd].
    assert (Hx : map e ds = map Num (map (evals e) (map (fun d => code d 0) ds))).
    { rewrite !map_map. apply map_ext_in. intros d Hd'. rewrite evals_code. rewrite Forall_forall in Hd. specialize (Hd d Hd'). destruct (e d); [reflexivity|discriminate]. }
    rewrite Hx, adj_num by exact Hk. destruct (comp_adj F k _ _ (fst iv)) as [[z|]|x]; cbn [rmap option_map fst snd]; auto. split; [reflexivity|].
    apply add_num; [exact Hq|]. rewrite Forall_forall in Hd. apply Hd. eapply marked_in; eauto.
  - assert (Uo : U o) by (apply HU; right; now left). assert (Ua : U a0) by (apply HU; now left). cbn [flat_map map]. rewrite !app_nil_r.
    destruct (a o) as [x|] eqn:Ex.
    2:{ rewrite (afit_none U e a a' o Hf Uo Ex). cbn. auto. }
    pose proof (deps_nonempty e _ _ a0 o (FB_slice e it a0 o tag l ps Ea Ep Ed Eo) (or_introl eq_refl) (or_introl eq_refl)) as P.
    assert (Po : 0 < size (e o)) by (pose proof (Hf o Uo) as W; rewrite Ex in W; apply W). specialize (P Po).
    destruct (afit_some U e a a' o x Hf Uo Ex) as [-> [K [L ->]]]. cbn [existsb is_some orb negb].
    destruct (mk a0) eqn:Em.
    2:{ assert (M : marked mk' (vars e a0) = []).
        { unfold vars. rewrite (marked_map (fun _ => false) mk'); [|intros d Hd; apply in_seq in Hd; rewrite Hm by lia; exact Em]. unfold marked. generalize (enum (seq 0 (size (e a0)))). intros q. induction q; auto. }
        rewrite M. unfold marked. cbn. rewrite Em. cbn. auto. }
    assert (M : marked mk' (vars e a0) = enum_from 0 (map (code a0) (seq 0 (size (e a0))))).
    { unfold vars. rewrite (marked_map (fun _ => true) mk'); [|intros d Hd; apply in_seq in Hd; rewrite Hm by lia; exact Em]. rewrite enum_map. f_equal. unfold marked, enum. generalize (enum_from 0 (seq 0 (size (e a0)))).
      intros q. induction q as [|? ? IH]; [reflexivity|]. cbn. cbn in IH. now rewrite IH. }
    rewrite M. unfold marked. cbn [enum enum_from filter snd]. rewrite Em. cbn [iter_o]. unfold padj_step at 1 3. cbn [comp_adj slice_block u_adj fst snd]. rewrite Ea, Ep. cbn [bind].
    rewrite (written_entries it l (e o) x ps Ep Eo K L). cbn [bind]. set (z := assign (repeat zero (length l)) ps (entries x)).
    assert (Lz : length z = size (e a0)) by (unfold z; rewrite assign_length, repeat_length, Ea; reflexivity).
    destruct (add_all (fun i => u_adj (gather (length l) ps) (map (evals e) (vars e a0)) (map Some (entries x)) i) (fun i => nth i z zero) a0 (size (e a0)) 0 a') as [a2 [A [B C]]].
    { intros i Hi. cbn [gather u_adj]. rewrite map_map. cbn [val]. rewrite map_id. reflexivity. }
    unfold padj_step, comp_adj. unfold aenv in *. replace (size (Arr l)) with (size (e a0)) by now rewrite Ea. rewrite A. cbn [fst snd]. split; [reflexivity|].
    intros v Hv. pose proof (Hf v Hv) as Hfv. unfold aadd. destruct (Nat.eqb_spec v a0) as [->|N].
    + destruct (a a0) as [y|] eqn:Ey; cbn [accum].
      * destruct Hfv as [P' [K' [L' Hf']]]. rewrite Ea in K'. destruct y as [|y]; [discriminate|]. cbn [f_add AF lift2]. unfold size at 1 in L'. cbn [entries] in L', Hf'.
        repeat split; [exact P|now rewrite Ea|unfold size; cbn [entries]; rewrite zip_length by congruence; exact L'|]. intros i Hi. cbn [entries]. rewrite B, Hf', zip_nth by (auto; congruence || lia). reflexivity.
      * repeat split; [exact P|now rewrite Ea|exact Lz|]. intros i Hi. rewrite B, Hfv by (auto; lia). reflexivity.
    + assert (O : forall i, a2 (code v i) = a' (code v i)) by (intros i; apply C; intros j _ Hc; apply code_inj in Hc as [Hc _]; contradiction).
      destruct (a v); [destruct Hfv as [P' [K' [L' Hf']]]; repeat split; auto|]; intros i Hi; rewrite O; auto.
Qed.
Lemma Forall2_rev' : forall (A B : Type) (R : A -> B -> Prop) l m, Forall2 R l m -> Forall2 R (rev l) (rev m).
Proof. intros A B R l m H. induction H as [|x y l m Hx Hl IH]; [constructor|]. cbn. apply Forall2_app; [exact IH|]. constructor; [exact Hx|constructor]. Qed.
Lemma padj_flat : forall U e bs bs' a a' (mk mk' : nat -> bool), Forall2 (flat_block e) bs bs' -> afit U e a a' -> (forall v, In v (vars_of bs) -> U v) ->
  (forall v i, i < size (e v) -> mk' (code v i) = mk v) ->
  snd (padj AF mk e bs a) = snd (padj F mk' (evals e) bs' a') /\ afit U e (fst (padj AF mk e bs a)) (fst (padj F mk' (evals e) bs' a')).
Proof.
  intros U e bs bs' a a' mk mk' H Hf HU Hm. unfold padj. assert (HU' : forall b, In b (rev bs) -> forall v, In v (b_deps b ++ b_outs b) -> U v).
  { intros b Hb v Hv. apply HU. apply in_rev in Hb. apply in_app_iff in Hv as [Hv|Hv]; apply in_app_iff; [left|right]; apply in_flat_map; exists b; auto. }
  apply Forall2_rev' in H. clear HU. revert a a' Hf HU'. induction H as [|b b' r r' Hb Hr IH]; intros a a' Hf HU; [split; [reflexivity|exact Hf]|]. cbn [iter_o].
  destruct (padj_block_flat U e a a' b b' mk mk' Hb Hf (HU b (or_introl eq_refl)) Hm) as [A B].
  destruct (padj_block AF mk e a b) as [a1 x]. destruct (padj_block F mk' (evals e) a' b') as [a1' x']. cbn [fst snd] in *. subst x'. destruct x; [split; [reflexivity|exact B]|].
  apply IH; [exact B|]. intros b0 Hb0. apply HU. now right.
Qed.

(** ** Gradients *)
Definition flat_heap e (h : heap (aval V)) : heap V := fun n =>
  BV 0 0 zero zero None None None (Some (evals e n)) false false (bv_mark (h (fst (Cantor.of_nat n)))) 0%Z 0%Z.

Lemma flat_saved : forall e h n, saved (flat_heap e h) n = evals e n.
Proof. reflexivity. Qed.
Lemma supplied_app : forall l1 (m1 : list V) l2 m2 v, length m1 = length l1 ->
  supplied (l1 ++ l2) (m1 ++ m2) v = match supplied l2 m2 v with Some x => Some x | None => supplied l1 m1 v end.
Proof.
  induction l1 as [|c l1 IH]; intros [|x m1] l2 m2 v L; try discriminate; cbn [app supplied]; [now destruct (supplied l2 m2 v)|].
  rewrite IH by (cbn in L; lia). destruct (supplied l2 m2 v); reflexivity.
Qed.
Lemma supplied_seq : forall c v i (l : list V) k, supplied (map (code c) (seq k (length l))) l (code v i) =
  if Nat.eqb v c && (Nat.leb k i && Nat.ltb i (k + length l)) then Some (nth (i - k) l zero) else None.
Proof.
  intros c v i l. induction l as [|x l IH]; intros k; cbn [length seq map supplied].
  - destruct (Nat.leb_spec k i), (Nat.ltb_spec i (k + 0)); try (exfalso; lia); cbn; rewrite ?andb_false_r; reflexivity.
  - rewrite IH. destruct (Nat.eqb_spec v c) as [->|N]; cbn [andb].
    + destruct (Nat.leb_spec (S k) i), (Nat.ltb_spec i (S k + length l)); cbn [andb].
      * destruct (Nat.leb_spec k i), (Nat.ltb_spec i (k + S (length l))); try lia. cbn [andb]. destruct (i - k) as [|q] eqn:E; [lia|]. cbn [nth]. repeat f_equal. lia.
      * rewrite (proj2 (Nat.eqb_neq _ _)); [|intros K; apply code_inj in K as [_ K]; lia]. destruct (Nat.ltb_spec i (k + S (length l))); [lia|]. now rewrite andb_false_r.
      * destruct (Nat.eq_dec i k) as [->|Q].
        -- rewrite Nat.eqb_refl, Nat.leb_refl, Nat.sub_diag. destruct (Nat.ltb_spec k (k + S (length l))); [reflexivity|lia].
        -- rewrite (proj2 (Nat.eqb_neq _ _)); [|intros K; apply code_inj in K as [_ K]; lia]. destruct (Nat.leb_spec k i); [lia|]. reflexivity.
      * exfalso. lia.
    + rewrite (proj2 (Nat.eqb_neq _ _)); [reflexivity|]. intros K. apply code_inj in K as [K _]. contradiction.
Qed.
(** Values of the same kinds and lengths. *)
Definition alike (x y : aval V) : Prop := is_arr x = is_arr y /\ size x = size y.
Lemma alike_length : forall e ctrls vals, Forall2 alike (map e ctrls) vals -> length (flat_map entries vals) = length (flat_map (vars e) ctrls).
Proof.
  intros e ctrls. induction ctrls as [|c r IH]; intros vals H; inversion H as [|? ? ? ? Hx Hr]; subst; [reflexivity|]. cbn. rewrite !app_length, (IH _ Hr).
  f_equal. unfold vars. rewrite map_length, seq_length. symmetry. apply Hx.
Qed.
Lemma supplied_flat : forall e ctrls vals v i, Forall2 alike (map e ctrls) vals -> i < size (e v) ->
  supplied (flat_map (vars e) ctrls) (flat_map entries vals) (code v i) = option_map (fun x => nth i (entries x) zero) (supplied ctrls vals v).
Proof.
  intros e ctrls. induction ctrls as [|c r IH]; intros vals v i H Hi; inversion H as [|? x ? vals' Hx Hr]; subst; [reflexivity|]. cbn [flat_map supplied].
  assert (L : size (e c) = length (entries x)) by apply Hx. unfold vars at 1. rewrite L.
  rewrite supplied_app by now rewrite map_length, seq_length. rewrite IH by assumption. destruct (supplied r vals' v); [reflexivity|]. cbn [option_map]. rewrite supplied_seq.
  destruct (Nat.eqb_spec v c) as [->|N]; [|reflexivity]. rewrite (proj2 (Nat.leb_le 0 i)), (proj2 (Nat.ltb_lt i (0 + length (entries x)))), Nat.sub_0_r by lia. reflexivity.
Qed.
Lemma supplied_alike : forall e ctrls vals v x, Forall2 alike (map e ctrls) vals -> supplied ctrls vals v = Some x -> alike (e v) x.
Proof.
  intros e ctrls. induction ctrls as [|c r IH]; intros vals v x H S; inversion H as [|? y ? vals' Hx Hr]; subst; [discriminate|]. cbn [supplied] in S.
  destruct (supplied r vals' v) eqn:Es; [injection S as ->; eauto|]. destruct (Nat.eqb_spec v c) as [->|]; [|discriminate]. now injection S as ->.
Qed.
Lemma flat_no_ctrl : forall e h, no_ctrl (flat_heap e h).
Proof. intros e h v. reflexivity. Qed.

Lemma call_flat : forall e bs bs' J ctrls sc vals h, Forall2 (flat_block e) bs bs' -> (forall o, In o (outs_of bs) -> ~ In o ctrls) -> no_ctrl h ->
  is_arr (e J) = false -> (forall v, In v (deps_of bs) \/ v = J -> saved h v = e v) -> Forall2 alike (map e ctrls) vals ->
  snd (rf_call AF bs (RF J ctrls (Num sc)) vals h) =
  rmap Num (snd (rf_call F bs' (RF (code J 0) (flat_map (vars e) ctrls) sc) (flat_map entries vals) (flat_heap e h))).
Proof.
  intros e bs bs' J ctrls sc vals h H Hl Nc HJ He Ha. assert (La : length ctrls = length vals) by (rewrite <- (map_length e ctrls); revert Ha; generalize (map e ctrls); intros q Q; induction Q; cbn; congruence).
  destruct (rf_call_spec AF bs (RF J ctrls (Num sc)) vals h Nc (eq_sym La)) as [-> _].
  destruct (rf_call_spec F bs' (RF (code J 0) (flat_map (vars e) ctrls) sc) (flat_map entries vals) (flat_heap e h) (flat_no_ctrl e h) (alike_length e ctrls vals Ha)) as [-> _].
  cbn [rf_ctrls rf_J rf_scale]. set (T := fun v => In v (deps_of bs) \/ v = J).
  destruct (geval_flat e bs bs' T (start_env h ctrls vals) (start_env (flat_heap e h) (flat_map (vars e) ctrls) (flat_map entries vals))
    (fun v => mem v ctrls) (fun v => mem v (flat_map (vars e) ctrls)) H) as [A B].
  - intros v Hv. unfold start_env at 1 3. destruct (supplied ctrls vals v) as [x|] eqn:Es.
    + destruct (supplied_alike e ctrls vals v x Ha Es) as [K L]. split; [now symmetry|]. change (vars e v) with (map (code v) (seq 0 (size (e v)))). rewrite map_map, L. transitivity (map (fun i => nth i (entries x) zero) (seq 0 (size x))); [|apply map_nth_seq].
      apply map_ext_in. intros i Hi. apply in_seq in Hi. unfold start_env. rewrite supplied_flat by (auto; rewrite L; lia). rewrite Es. reflexivity.
    + rewrite He by exact Hv. split; [reflexivity|]. rewrite <- evals_vars. apply map_ext_in. intros n Hn. apply in_vars in Hn as [i [-> Hi]]. unfold start_env. rewrite supplied_flat by auto. now rewrite Es.
  - intros d Hd. now left.
  - intros o Ho. apply mem_false. now apply Hl.
  - intros o Ho. apply mem_false. intros K. rewrite (outs_flat e bs bs' H) in Ho. apply in_some in Ho as [v [i [-> [Ho Hi]]]]. apply in_all in K as [K _]. exact (Hl v Ho K).
  - rewrite A. destruct (snd (geval F _ bs' _)); [reflexivity|]. cbn [rmap]. destruct (B J (or_intror eq_refl)) as [K L]. rewrite HJ in K. rewrite (vars_num e J HJ) in L.
    destruct (fst (geval AF _ bs _) J) as [y|]; [|discriminate]. cbn [map entries] in L. injection L as L. cbn. now rewrite L.
Qed.

Lemma padj_agree : forall (W : Type) (G : fops W) mk (e1 e2 : nat -> W) bs a, (forall v, In v (deps_of bs) -> e1 v = e2 v) -> padj G mk e1 bs a = padj G mk e2 bs a.
Proof.
  intros W G mk e1 e2 bs a H. unfold padj. assert (H' : forall b, In b (rev bs) -> map e1 (b_deps b) = map e2 (b_deps b)).
  { intros b Hb. apply map_ext_in. intros d Hd. apply H. apply in_rev in Hb. apply in_flat_map. eauto. }
  revert a H'. clear H. induction (rev bs) as [|b r IH]; intros a H; [reflexivity|]. cbn [iter_o]. unfold padj_block at 1 3. rewrite (H b (or_introl eq_refl)).
  destruct (if negb _ then _ else _) as [a1 [x|]]; [reflexivity|]. apply IH. intros b0 Hb0. apply H. now right.
Qed.

(** A derivative entry by entry; the float [0.] stands for an array of zeros. *)
Definition spread (x g : aval V) : list V := match x, g with Arr l, Num z => repeat z (length l) | _, _ => entries g end.
Lemma spread_flat : forall U e a a' cs, afit U e a a' -> (forall c, In c cs -> U c) ->
  map (grad_of F a') (flat_map (vars e) cs) = flat_map (fun cx => spread (e (fst cx)) (snd cx)) (combine cs (map (grad_of AF a) cs)).
Proof.
  intros U e a a' cs H. induction cs as [|c r IH]; intros HU; [reflexivity|]. cbn [flat_map map combine fst snd]. rewrite map_app. rewrite IH by (intros; apply HU; now right). f_equal.
  specialize (H c (HU c (or_introl eq_refl))). unfold grad_of at 2. destruct (a c) as [x|] eqn:Ea.
  - destruct H as [P [K [L H]]]. assert (S : spread (e c) x = entries x) by (unfold spread; destruct (e c), x; try reflexivity; discriminate). rewrite S.
    unfold vars. rewrite map_map, <- L. transitivity (map (fun i => nth i (entries x) zero) (seq 0 (size x))); [|apply map_nth_seq]. apply map_ext_in. intros i Hi. apply in_seq in Hi. unfold grad_of. rewrite H by lia. reflexivity.
  - assert (S : spread (e c) (f_zero AF) = repeat zero (size (e c))) by (unfold spread, size; destruct (e c); reflexivity). rewrite S. unfold vars. rewrite map_map.
    rewrite <- (seq_length (size (e c)) 0) at 2. assert (Q : forall i, In i (seq 0 (size (e c))) -> a' (code c i) = None) by (intros i Hi; apply in_seq in Hi; apply H; lia).
    induction (seq 0 (size (e c))) as [|i l IH2]; [reflexivity|]. cbn. unfold grad_of at 1. rewrite (Q i (or_introl eq_refl)). f_equal. apply IH2. intros; apply Q; now right.
Qed.
Lemma grad_alike : forall U e a a' cs, afit U e a a' -> (forall c, In c cs -> U c) -> Forall2 (fun c x => alike (e c) x \/ x = Num zero) cs (map (grad_of AF a) cs).
Proof.
  intros U e a a' cs H. induction cs as [|c r IH]; intros HU; [constructor|]. cbn. constructor; [|apply IH; intros; apply HU; now right].
  specialize (H c (HU c (or_introl eq_refl))). unfold grad_of. destruct (a c) as [x|]; [left|now right]. destruct H as [P [K [L H]]]. split; congruence.
Qed.
Lemma grad_flat : forall e bs bs' J ctrls sc h g, Forall2 (flat_block e) bs bs' -> topo bs -> no_ctrl h -> fresh_ctrls bs J ctrls h ->
  is_arr (e J) = false -> (forall v, In v (deps_of bs) -> saved h v = e v) -> 
  snd (rf_derivative AF bs (RF J ctrls (Num sc)) (Num (f_one F)) h) = Ok g ->
  Forall2 (fun c x => alike (e c) x \/ x = Num zero) ctrls g /\
  (flat_map (vars e) ctrls <> [] -> snd (rf_derivative F bs' (RF (code J 0) (flat_map (vars e) ctrls) sc) (f_one F) (flat_heap e h)) = Ok (flat_map (fun cx => spread (e (fst cx)) (snd cx)) (combine ctrls g))).
Proof.
  intros e bs bs' J ctrls sc h g H Ht Nc Hf HJ He G. unfold rf_derivative in *. cbn [rf_ctrls rf_J rf_scale] in *.
  assert (G' : snd (compute_gradient AF bs J ctrls (Num (f_mul F (f_one F) sc)) h) = Ok g) by (destruct ctrls; [discriminate G|exact G]). clear G.
  set (adj := f_mul F (f_one F) sc) in *.
  destruct (grad_spec AF bs J ctrls (Num adj) h Nc) as [G _]. cbv zeta in G. rewrite G' in G. clear G'.
  assert (Q : forall r, r = Ok (flat_map (fun cx => spread (e (fst cx)) (snd cx)) (combine ctrls g)) -> flat_map (vars e) ctrls <> [] ->
    snd (compute_gradient F bs' (code J 0) (flat_map (vars e) ctrls) adj (flat_heap e h)) = r ->
    snd (match flat_map (vars e) ctrls with [] => (flat_heap e h, Err EValue) | _ :: _ => compute_gradient F bs' (code J 0) (flat_map (vars e) ctrls) adj (flat_heap e h) end) =
      Ok (flat_map (fun cx => spread (e (fst cx)) (snd cx)) (combine ctrls g))).
  { intros r Hr Hn Hx. subst r. destruct (flat_map (vars e) ctrls); [contradiction|exact Hx]. }
  set (mk := fun v => bv_mark (h v) || mem v (find_relevant bs ctrls)) in *.
  set (mk' := fun v => bv_mark (flat_heap e h v) || mem v (find_relevant bs' (flat_map (vars e) ctrls))).
  rewrite (padj_agree _ AF mk (saved h) e bs) in G by exact He.
  set (U := fun v => In v (vars_of bs) \/ In v ctrls \/ v = J).
  destruct (padj_flat U e bs bs' (start_adj bs J (Num adj) h) (start_adj bs' (code J 0) adj (flat_heap e h)) mk mk' H) as [A B].
  - intros v Hv. unfold start_adj. destruct (Nat.eqb_spec v J) as [->|N].
    + assert (L : size (e J) = 1) by (unfold size; destruct (e J); [reflexivity|discriminate]). repeat split; [lia|now rewrite HJ|now rewrite L|].
      intros i Hi. assert (i = 0) by lia. subst i. now rewrite Nat.eqb_refl.
    + assert (O : forall i, Nat.eqb (code v i) (code J 0) = false) by (intros i; apply Nat.eqb_neq; intros K; apply code_inj in K as [K _]; contradiction).
      assert (Z : (if mem v (vars_of bs) then None else bv_adj (h v)) = None).
      { destruct (mem v (vars_of bs)) eqn:Em; [reflexivity|]. apply mem_false in Em. destruct Hv as [Hv|[Hv|Hv]]; try contradiction. destruct (Hf v Hv) as [K|[K|K]]; try contradiction. exact K. }
      rewrite Z. intros i Hi. rewrite O. destruct (mem (code v i) _); reflexivity.
  - intros v Hv. now left.
  - intros v i Hi. unfold mk, mk'. cbn [flat_heap bv_mark]. unfold code at 1. rewrite Cantor.cancel_of_to. cbn [fst]. f_equal. now apply relevant_flat.
  - destruct (snd (padj AF mk e bs _)) eqn:Es; [discriminate|]. injection G as ->.
    assert (HU : forall c, In c ctrls -> U c) by (intros c Hc; right; now left). split; [exact (grad_alike U e _ _ ctrls B HU)|]. intros Hn. eapply Q; [reflexivity|exact Hn|].
    destruct (grad_spec F bs' (code J 0) (flat_map (vars e) ctrls) adj (flat_heap e h) (flat_no_ctrl e h)) as [X _]. cbv zeta in X. rewrite X. fold mk'.
    change (saved (flat_heap e h)) with (evals e). rewrite <- A. f_equal. exact (spread_flat U e _ _ ctrls B HU).
Qed.
(** The sweep over the original tape returns if the one over numbers does. *)
Lemma grad_flat_ok : forall e bs bs' J ctrls adj h g', Forall2 (flat_block e) bs bs' -> topo bs -> no_ctrl h -> fresh_ctrls bs J ctrls h ->
  is_arr (e J) = false -> (forall v, In v (deps_of bs) -> saved h v = e v) ->
  snd (compute_gradient F bs' (code J 0) (flat_map (vars e) ctrls) adj (flat_heap e h)) = Ok g' ->
  exists g, snd (compute_gradient AF bs J ctrls (Num adj) h) = Ok g.
Proof.
  intros e bs bs' J ctrls adj h g' H Ht Nc Hf HJ He G'.
  destruct (grad_spec AF bs J ctrls (Num adj) h Nc) as [G _]. cbv zeta in G. rewrite G. clear G.
  set (mk := fun v => bv_mark (h v) || mem v (find_relevant bs ctrls)) in *.
  set (mk' := fun v => bv_mark (flat_heap e h v) || mem v (find_relevant bs' (flat_map (vars e) ctrls))).
  rewrite (padj_agree _ AF mk (saved h) e bs) by exact He.
  set (U := fun v => In v (vars_of bs) \/ In v ctrls \/ v = J).
  destruct (padj_flat U e bs bs' (start_adj bs J (Num adj) h) (start_adj bs' (code J 0) adj (flat_heap e h)) mk mk' H) as [A B].
  - intros v Hv. unfold start_adj. destruct (Nat.eqb_spec v J) as [->|N].
    + assert (L : size (e J) = 1) by (unfold size; destruct (e J); [reflexivity|discriminate]). repeat split; [lia|now rewrite HJ|now rewrite L|].
      intros i Hi. assert (i = 0) by lia. subst i. now rewrite Nat.eqb_refl.
    + assert (O : forall i, Nat.eqb (code v i) (code J 0) = false) by (intros i; apply Nat.eqb_neq; intros K; apply code_inj in K as [K _]; contradiction).
      assert (Z : (if mem v (vars_of bs) then None else bv_adj (h v)) = None).
      { destruct (mem v (vars_of bs)) eqn:Em; [reflexivity|]. apply mem_false in Em. destruct Hv as [Hv|[Hv|Hv]]; try contradiction. destruct (Hf v Hv) as [K|[K|K]]; try contradiction. exact K. }
      rewrite Z. intros i Hi. rewrite O. destruct (mem (code v i) _); reflexivity.
  - intros v Hv. now left.
  - intros v i Hi. unfold mk, mk'. cbn [flat_heap bv_mark]. unfold code at 1. rewrite Cantor.cancel_of_to. cbn [fst]. f_equal. now apply relevant_flat.
  - destruct (grad_spec F bs' (code J 0) (flat_map (vars e) ctrls) adj (flat_heap e h) (flat_no_ctrl e h)) as [X _]. cbv zeta in X. rewrite X in G'. fold mk' in G'.
    change (saved (flat_heap e h)) with (evals e) in G'. rewrite <- A in G'. destruct (snd (padj AF mk e bs _)); [discriminate|]. eexists. reflexivity.
Qed.
End Flat.
