(** Programs that index arrays: recorded as one statement list, values, re-evaluation. *)
From Coq Require Import List Arith ZArith Lia Bool.
From Verif Require Import Base Model BaseFacts Graph Record Spec SpecTape SpecPlain RecordFacts Replay Observe Session History Dual PyExp SpecPy PyFacts PyProg Arrays SpecArr.
Import ListNotations.

(** ** Positions *)
Lemma position_range : forall n z p, position n z = Ok p -> p < n.
Proof.
  intros n z p. unfold position. set (z1 := if Z.ltb z 0 then _ else _). destruct (Z.leb_spec 0 z1) as [A|A]; [|discriminate]. destruct (Z.ltb_spec z1 (Z.of_nat n)) as [B|B]; [|discriminate].
  cbn. intros [= <-]. lia.
Qed.
Lemma mapM_forall : forall A B (f : A -> res B) (P : B -> Prop), (forall a b, f a = Ok b -> P b) -> forall l m, mapM f l = Ok m -> Forall P m.
Proof.
  intros A B f P H. induction l as [|a r IH]; intros m E; cbn in E; [injection E as <-; constructor|].
  destruct (f a) as [b|] eqn:Ea; [|discriminate]. destruct (mapM f r) as [bs|]; [|discriminate]. injection E as <-. constructor; eauto.
Qed.
Lemma mask_range : forall ms i, Forall (fun p => i <= p < i + length ms) (mask_from i ms).
Proof.
  induction ms as [|m r IH]; intros i; [constructor|]. cbn [mask_from length].
  assert (A : Forall (fun p => i <= p < i + S (length r)) (mask_from (S i) r)) by (eapply Forall_impl; [|apply IH]; intros; cbn in *; lia).
  destruct m; [constructor; [lia|exact A]|exact A].
Qed.
Lemma mask_nodup : forall ms i, NoDup (mask_from i ms).
Proof.
  induction ms as [|m r IH]; intros i; [constructor|]. cbn. destruct m; [|apply IH]. constructor; [|apply IH]. intros K.
  pose proof (mask_range r (S i)) as A. rewrite Forall_forall in A. specialize (A _ K). lia.
Qed.
Lemma clamp_range : forall n step z, (0 <= n)%Z -> (if Z.ltb step 0 then (-1 <= clamp n step z <= n - 1)%Z else (0 <= clamp n step z <= n)%Z).
Proof.
  intros n step z Hn. unfold clamp. destruct (Z.ltb_spec step 0) as [S|S];
  match goal with |- context [if ?b then _ else _] => destruct b eqn:?E end; repeat match goal with |- context [if ?b then _ else _] => destruct b eqn:?E end;
  repeat match goal with H : Z.ltb _ _ = true |- _ => apply Z.ltb_lt in H | H : Z.ltb _ _ = false |- _ => apply Z.ltb_ge in H
                       | H : Z.leb _ _ = true |- _ => apply Z.leb_le in H | H : Z.leb _ _ = false |- _ => apply Z.leb_gt in H end; lia.
Qed.
Lemma slice_range : forall n s e step, step <> 0%Z ->
  let a := slice_start (Z.of_nat n) s step in let b := slice_stop (Z.of_nat n) e step in
  forall k, k < Z.to_nat (slice_count a b step) -> (0 <= a + Z.of_nat k * step < Z.of_nat n)%Z.
Proof.
  intros n s e step Hs a b k Hk.
  assert (Ha : if Z.ltb step 0 then (-1 <= a <= Z.of_nat n - 1)%Z else (0 <= a <= Z.of_nat n)%Z).
  { unfold a, slice_start. destruct s as [z|]; [apply clamp_range; lia|]. destruct (Z.ltb step 0); lia. }
  assert (Hb : if Z.ltb step 0 then (-1 <= b <= Z.of_nat n - 1)%Z else (0 <= b <= Z.of_nat n)%Z).
  { unfold b, slice_stop. destruct e as [z|]; [apply clamp_range; lia|]. destruct (Z.ltb step 0); lia. }
  unfold slice_count in Hk. destruct (Z.ltb_spec step 0) as [S|S].
  - destruct (Z.ltb_spec b a) as [L|L]; [|cbn in Hk; lia].
    assert (Q : (Z.of_nat k <= (a - b - 1) / - step)%Z) by lia. pose proof (Z.mul_div_le (a - b - 1) (- step)). nia.
  - destruct (Z.ltb_spec a b) as [L|L]; [|cbn in Hk; lia].
    assert (Q : (Z.of_nat k <= (b - a - 1) / step)%Z) by lia. pose proof (Z.mul_div_le (b - a - 1) step). nia.
Qed.
Lemma picks_range : forall it n ps, picks it n = Ok ps -> Forall (fun p => p < n) ps.
Proof.
  intros [z|s e step|zs|ms] n ps; cbn [picks].
  - destruct (position n z) eqn:E; cbn; intros [= <-]. constructor; [|constructor]. exact (position_range _ _ _ E).
  - destruct (Z.eqb_spec step 0); [discriminate|]. intros [= <-]. apply Forall_map, Forall_forall. intros k Hk. apply in_seq in Hk.
    pose proof (slice_range n s e step n0 k ltac:(lia)). lia.
  - apply mapM_forall. apply position_range.
  - destruct (Nat.eqb_spec (length ms) n) as [<-|]; [|discriminate]. intros [= <-]. eapply Forall_impl; [|apply mask_range]. intros p Hp. cbn in Hp. lia.
Qed.
Lemma nodup_map_seq : forall (f : nat -> nat) n k, (forall i j, k <= i < k + n -> k <= j < k + n -> f i = f j -> i = j) -> NoDup (map f (seq k n)).
Proof.
  intros f n. induction n as [|n IH]; intros k H; [constructor|]. cbn. constructor.
  - intros K. apply in_map_iff in K as [j [E Hj]]. apply in_seq in Hj. assert (j = k) by (apply H; [lia|lia|exact E]). lia.
  - apply IH. intros i j Hi Hj. apply H; lia.
Qed.
Lemma picks_nodup : forall it n ps, distinct it n -> picks it n = Ok ps -> NoDup ps.
Proof.
  intros it n ps D E. unfold distinct in D. destruct it as [z|s e step|zs|ms]; [| |rewrite E in D; exact D|]; cbn [picks] in E.
  - destruct (position n z); cbn in E; [|discriminate]. injection E as <-. repeat constructor. intros [].
  - destruct (Z.eqb_spec step 0) as [|Hs]; [discriminate|]. injection E as <-. apply nodup_map_seq. intros i j Hi Hj Q.
    pose proof (slice_range n s e step Hs i ltac:(lia)). pose proof (slice_range n s e step Hs j ltac:(lia)). nia.
  - destruct (Nat.eqb_spec (length ms) n); [|discriminate]. injection E as <-. apply mask_nodup.
Qed.

Section ArrFacts.
Context {V : Type} (F : fops V).
Notation AF := (AF F).

Lemma nth_res_ok : forall (l : list V) p, p < length l -> nth_res l p = Ok (nth p l (f_zero F)).
Proof. intros l p H. unfold nth_res. destruct (nth_error l p) eqn:E; [now rewrite (nth_error_nth _ _ _ E)|apply nth_error_None in E; lia]. Qed.
Lemma mapM_nth : forall (l : list V) ps, Forall (fun p => p < length l) ps -> mapM (nth_res l) ps = Ok (map (fun p => nth p l (f_zero F)) ps).
Proof. intros l ps H. induction H as [|p r Hp Hr IH]; [reflexivity|]. cbn. now rewrite nth_res_ok, IH. Qed.
Lemma getitem_pick : forall it x, getitem it x = pick F it x.
Proof.
  intros it [x|l]; [reflexivity|]. unfold getitem, pick. destruct (picks it (length l)) as [ps|] eqn:E; [|reflexivity]. cbn [bind].
  rewrite mapM_nth by exact (picks_range _ _ _ E). cbn [bind]. destruct (is_int it); [|reflexivity]. destruct ps; reflexivity.
Qed.
Lemma pick_kind : forall it l y, pick F it (Arr l) = Ok y -> is_arr y = negb (is_int it).
Proof. intros it l y. cbn. destruct (picks it (length l)) as [[|p ps]|]; [| |discriminate]; destruct (is_int it); try discriminate; intros [= <-]; reflexivity. Qed.

(** ** Indexing is a user-defined operation of one result *)
Definition item_fun (it : item) (xs : list (aval V)) : res (list (aval V)) :=
  match xs with [x] => rmap (fun y => [y]) (getitem it x) | _ => Err EIndex end.
Definition to_stmt (s : astmt V) : stmt (aval V) :=
  match s with
  | ALit x => SNew x
  | AItem a it => SUser (slice_block F it) (item_fun it) [a] true None
  | AOp k args => SOp (akind k) args
  | AFun k args => SFun (akind k) args true
  end.

Lemma map_last_from : forall (A : Type) (f1 f2 f3 g : A -> A) l k, (forall x, f1 (g (f2 x)) = f3 (g x)) -> (forall x, f1 (f2 x) = f3 x) ->
  map_last f1 (map_from k g (map_last f2 l)) = map_last f3 (map_from k g l).
Proof.
  intros A f1 f2 f3 g l. induction l as [|x r IH]; intros k H1 H2; [destruct k; reflexivity|].
  destruct r as [|y r]; [destruct k; cbn; now rewrite ?H1, ?H2|]. destruct k as [|k].
  - specialize (IH 0 H1 H2). change (map_last f2 (x :: y :: r)) with (x :: map_last f2 (y :: r)). cbn [map_from].
    destruct (map_last f2 (y :: r)) as [|y' r'] eqn:E; [destruct r; discriminate|]. cbn [map_from] in IH |- *. cbn [map_last] in IH |- *. f_equal. exact IH.
  - specialize (IH k H1 H2). change (map_last f2 (x :: y :: r)) with (x :: map_last f2 (y :: r)). cbn [map_from].
    destruct (map_last f2 (y :: r)) as [|y' r'] eqn:E; [destruct r; discriminate|]. destruct k as [|k]; cbn [map_from] in IH |- *; cbn [map_last] in IH |- *; f_equal; exact IH.
Qed.
Lemma map_last_length : forall (A : Type) (f : A -> A) l, length (map_last f l) = length l.
Proof. intros A f l. induction l as [|x r IH]; [reflexivity|]. cbn in *. destruct r; cbn in *; [reflexivity|]. now rewrite IH. Qed.
Lemma push_after : forall (t : tape (aval V)) k ds tag v z, t_steps t <> [] ->
  last_push_out v (add_to_adjdeps (add_block t (Blk k ds [] tag)) v z) = add_block (add_to_adjdeps t v z) (Blk k ds [v] tag).
Proof.
  intros [ss fl la ea co] k ds tag v z H. cbn in H. destruct ss as [|s0 ss]; [congruence|]. unfold add_block, add_to_adjdeps, last_push_out, ensure_step, set_steps. cbn [t_steps t_flat t_latest t_eager t_count].
  destruct (map_last (ts_push (Blk k ds [] tag)) (s0 :: ss)) as [|a r] eqn:E; [destruct ss; discriminate|]. rewrite <- E. clear a r E.
  destruct (map_from (Z.to_nat (z + 1)) (ts_add_adjdep v) (s0 :: ss)) as [|a r] eqn:E; [destruct (Z.to_nat (z + 1)); discriminate|]. rewrite <- E. clear a r E.
  cbn [t_steps t_flat t_latest t_eager t_count]. rewrite map_last_app. f_equal. apply map_last_from; intros [bs st ad ck rv]; unfold ts_add_adjdep, ts_push; cbn; now rewrite map_last_app.
Qed.
Lemma steps_will_dep : forall (w : world (aval V)) v, t_steps (w_tape (will_dep w v)) <> [].
Proof.
  intros w v. unfold will_dep, with_heap, with_tape. cbn [w_tape w_heap]. destruct (match t_latest _ with None => true | Some _ => _ end); cbn [w_tape]; unfold add_to_state, set_steps; cbn [t_steps].
  all: unfold ensure_step; destruct (t_steps (w_tape w)) as [|s r] eqn:E; cbn; rewrite ?E; cbn; destruct (Z.to_nat _); discriminate.
Qed.
Lemma getitem_user : forall (w : world (aval V)) o ob it y, nth_error (w_objs w) o = Some ob -> getitem it (o_val ob) = Ok y ->
  exec_getitem F w o it = exec_stmt AF w (to_stmt (AItem o it)).
Proof.
  intros w o ob it y Eo Ey. unfold exec_getitem, to_stmt. cbn [exec_stmt]. unfold exec_user, arg_vals. cbn [mapM]. rewrite Eo, Ey. destruct (o_val ob) as [x|l] eqn:Eb; [discriminate|].
  unfold item_fun. rewrite Ey. cbn [rmap]. rewrite andb_true_r. destruct (w_ann w); [|reflexivity].
  cbn [add_deps]. unfold add_dep. destruct (get_bv w o) as [w1 d]. pose proof (steps_will_dep w1 d) as Hs. set (w2 := will_dep w1 d) in *. clearbody w2.
  cbn [new_objs new_obj add_outs]. unfold create_bv, with_objs, with_tape. cbn [w_objs w_tape w_heap w_next w_ann w_ctrls].
  rewrite nth_error_app2, Nat.sub_diag by lia. cbn [nth_error]. unfold will_out, with_heap, with_tape. cbn [w_objs w_tape w_heap w_next w_ann w_ctrls o_val o_bv o_gen].
  assert (L : latest_timestep (add_block (w_tape w2) (Blk (KUser (slice_block F it)) [d] [] None)) = latest_timestep (w_tape w2)).
  { unfold latest_timestep, add_block, ensure_step. cbn [t_steps]. destruct (t_steps (w_tape w2)) as [|s r] eqn:E; [congruence|]. rewrite E. now rewrite map_last_length. }
  rewrite L. assert (EE : t_eager (add_block (w_tape w2) (Blk (KUser (slice_block F it)) [d] [] None)) = t_eager (w_tape w2)) by (unfold add_block, ensure_step; cbn; destruct (t_steps (w_tape w2)); reflexivity).
  rewrite EE. destruct (t_eager (w_tape w2)); cbn [w_objs w_tape w_heap w_next w_ann w_ctrls]; rewrite push_after by exact Hs; reflexivity.
Qed.

(** ** Floats inside the larger type of values *)
Lemma sop_num : forall k vs, sop AF (akind k) (map Num vs) = rmap Num (sop F k vs).
Proof.
  intros k vs. destruct k; destruct vs as [|a [|b [|c r]]]; try reflexivity; cbn.
  - destruct (f_lt F b a); reflexivity.
  - destruct (f_lt F a b); reflexivity.
Qed.
Lemma numbers_of : forall vs : list V, mapM number_of (map Num vs) = Ok vs.
Proof. induction vs as [|v r IH]; [reflexivity|]. cbn. now rewrite IH. Qed.
Lemma args_num : forall (env : list (aval V)) args, forallb (holds (map is_arr env) false) args = true ->
  exists vs, look env args = Some (map Num vs) /\ mapM (lookup env) args = Ok (map Num vs).
Proof.
  intros env. induction args as [|a r IH]; intros H; [exists []; auto|]. cbn in H. apply andb_true_iff in H as [Ha Hr]. destruct (IH Hr) as [vs [E1 E2]].
  unfold holds in Ha. rewrite nth_error_map in Ha. destruct (nth_error env a) as [[x|l]|] eqn:E; try discriminate. exists (x :: vs). cbn. unfold lookup at 1. rewrite E, E1. split; [reflexivity|]. now rewrite E2.
Qed.
Lemma args_arr : forall (env : list (aval V)) a, holds (map is_arr env) true a = true -> exists l, nth_error env a = Some (Arr l).
Proof.
  intros env a H. unfold holds in H. rewrite nth_error_map in H. destruct (nth_error env a) as [[x|l]|]; try discriminate. now exists l.
Qed.
Lemma operator_ok : forall k args, operator k args = sargs_ok (V := aval V) (akind k) true args.
Proof. intros k args. destruct k; destruct args as [|a [|b [|c r]]]; reflexivity. Qed.
Lemma function_ok : forall k args, function k args = sargs_ok (V := aval V) (akind k) false args.
Proof. intros k args. destruct k; destruct args as [|a [|b [|c r]]]; reflexivity. Qed.

Lemma avalue_kind : forall env s t x, atype (map is_arr env) s = Some t -> avalue F env s = Ok x -> is_arr x = t.
Proof.
  intros env [y|a it|k args|k args] t x Ht Hx; cbn in Ht, Hx.
  - congruence.
  - destruct (holds (map is_arr env) true a) eqn:E; [|discriminate]. destruct (args_arr _ _ E) as [l El]. unfold lookup in Hx. rewrite El in Hx. cbn in Hx.
    injection Ht as <-. now apply pick_kind in Hx.
  - destruct (operator k args && forallb (holds (map is_arr env) false) args) eqn:E; [|discriminate]. apply andb_true_iff in E as [_ E]. destruct (args_num _ _ E) as [vs [_ E2]].
    rewrite E2 in Hx. cbn in Hx. rewrite numbers_of in Hx. cbn in Hx. destruct (sop F k vs); [|discriminate]. injection Hx as <-. injection Ht as <-. reflexivity.
  - destruct (function k args && forallb (holds (map is_arr env) false) args) eqn:E; [|discriminate]. apply andb_true_iff in E as [_ E]. destruct (args_num _ _ E) as [vs [_ E2]].
    rewrite E2 in Hx. cbn in Hx. rewrite numbers_of in Hx. cbn in Hx. destruct (sop F k vs); [|discriminate]. injection Hx as <-. injection Ht as <-. reflexivity.
Qed.

(** What a statement computes, as an operation on the values of its arguments. *)
Lemma plain_value : forall env s t, atype (map is_arr env) s = Some t ->
  plain AF env (to_stmt s) = match avalue F env s with Ok x => (env ++ [x], None) | Err e => (env, Some e) end.
Proof.
  intros env [y|a it|k args|k args] t Ht; cbn [atype] in Ht; cbn [to_stmt plain avalue].
  - reflexivity.
  - destruct (holds (map is_arr env) true a) eqn:E; [|discriminate]. destruct (args_arr _ _ E) as [l El]. unfold plain_call. rewrite (look_one _ _ _ El).
    unfold lookup. rewrite El. cbn [bind]. unfold item_fun. rewrite getitem_pick. destruct (pick F it (Arr l)); reflexivity.
  - destruct (operator k args && forallb (holds (map is_arr env) false) args) eqn:E; [|discriminate]. apply andb_true_iff in E as [E1 E]. destruct (args_num _ _ E) as [vs [E2 E3]].
    rewrite <- operator_ok, E1. unfold plain_call. rewrite E2, E3. cbn [bind]. rewrite numbers_of, sop_num. cbn [bind]. destruct (sop F k vs); reflexivity.
  - destruct (function k args && forallb (holds (map is_arr env) false) args) eqn:E; [|discriminate]. apply andb_true_iff in E as [E1 E]. destruct (args_num _ _ E) as [vs [E2 E3]].
    rewrite <- function_ok, E1. unfold plain_call. rewrite E2, E3. cbn [bind]. rewrite numbers_of, sop_num. cbn [bind]. destruct (sop F k vs); reflexivity.
Qed.

Lemma no_arr : forall vs : list V, existsb is_arr (map Num vs) = false.
Proof. induction vs; [reflexivity|assumption]. Qed.
Lemma aexec_value : forall (w : world (aval V)) s t, atype (map is_arr (vals w)) s = Some t ->
  match avalue F (vals w) s with
  | Ok x => aexec_stmt F w s = exec_stmt AF w (to_stmt s) /\ snd (aexec_stmt F w s) = None /\ vals (fst (aexec_stmt F w s)) = vals w ++ [x]
  | Err e => snd (aexec_stmt F w s) = Some e
  end.
Proof.
  intros w s t Ht. pose proof (plain_value _ _ _ Ht) as Hp. rewrite <- exec_plain in Hp.
  assert (G : (forall x, avalue F (vals w) s = Ok x -> aexec_stmt F w s = exec_stmt AF w (to_stmt s)) /\
              (forall e, avalue F (vals w) s = Err e -> snd (aexec_stmt F w s) = Some e)).
  { clear Hp. destruct s as [y|a it|k args|k args]; cbn [atype] in Ht.
    - split; [reflexivity|discriminate].
    - destruct (holds (map is_arr (vals w)) true a) eqn:E; [|discriminate]. destruct (args_arr _ _ E) as [l El]. cbn [avalue]. unfold lookup. rewrite El. cbn [bind]. rewrite <- getitem_pick.
      unfold vals in El. rewrite nth_error_map in El. destruct (nth_error (w_objs w) a) as [ob|] eqn:Eo; [|discriminate]. cbn in El. injection El as El. split; intros z Hz.
      + cbn [aexec_stmt]. apply (getitem_user w a ob it z Eo). now rewrite El.
      + cbn [aexec_stmt]. unfold exec_getitem. rewrite Eo, El, Hz. reflexivity.
    - destruct (operator k args && forallb (holds (map is_arr (vals w)) false) args) eqn:E; [|discriminate]. pose proof E as E0. apply andb_true_iff in E as [E1 E]. destruct (args_num _ _ E) as [vs [E2 E3]].
      assert (Q : aexec_stmt F w (AOp k args) = exec_stmt AF w (to_stmt (AOp k args))) by (cbn [aexec_stmt to_stmt exec_stmt]; rewrite arg_vals_look, E2, no_arr; reflexivity).
      split; [intros; exact Q|]. intros e He. rewrite Q. pose proof (exec_plain AF w (to_stmt (AOp k args))) as Hp. rewrite (plain_value _ (AOp k args) t) in Hp by (cbn [atype]; rewrite E0; exact Ht).
      rewrite He in Hp. now injection Hp.
    - destruct (function k args && forallb (holds (map is_arr (vals w)) false) args) eqn:E; [|discriminate]. pose proof E as E0. apply andb_true_iff in E as [E1 E]. destruct (args_num _ _ E) as [vs [E2 E3]].
      assert (Q : aexec_stmt F w (AFun k args) = exec_stmt AF w (to_stmt (AFun k args))) by (cbn [aexec_stmt to_stmt exec_stmt]; rewrite arg_vals_look, E2, no_arr; reflexivity).
      split; [intros; exact Q|]. intros e He. rewrite Q. pose proof (exec_plain AF w (to_stmt (AFun k args))) as Hp. rewrite (plain_value _ (AFun k args) t) in Hp by (cbn [atype]; rewrite E0; exact Ht).
      rewrite He in Hp. now injection Hp. }
  destruct G as [G1 G2]. destruct (avalue F (vals w) s) as [x|e]; [|now apply G2]. rewrite (G1 x eq_refl). injection Hp as H1 H2. auto.
Qed.

Lemma avalues_run : forall es (w : world (aval V)) tys, atypes (map is_arr (vals w)) es = Some tys ->
  match avalues F (vals w) es with
  | Ok env => iter_o (aexec_stmt F) es w = (exec AF w (map to_stmt es), None) /\ vals (exec AF w (map to_stmt es)) = env
  | Err e => snd (iter_o (aexec_stmt F) es w) = Some e
  end.
Proof.
  induction es as [|s r IH]; intros w tys Ht; [cbn; auto|]. cbn [atypes] in Ht. destruct (atype (map is_arr (vals w)) s) as [t|] eqn:Et; [|discriminate].
  pose proof (aexec_value w s t Et) as A. cbn [avalues iter_o map]. destruct (avalue F (vals w) s) as [x|e] eqn:Ex; cbn [bind].
  - destruct A as [A1 [A2 A3]]. pose proof (avalue_kind _ _ _ _ Et Ex) as Hk. change (exec AF w (to_stmt s :: map to_stmt r)) with (exec AF (fst (exec_stmt AF w (to_stmt s))) (map to_stmt r)).
    rewrite <- A1. destruct (aexec_stmt F w s) as [w1 o]. cbn [fst snd] in *. subst o. specialize (IH w1 tys). rewrite A3 in IH. apply IH. rewrite map_app. cbn. now rewrite Hk.
  - destruct (aexec_stmt F w s) as [w1 o]. cbn [snd] in A. subst o. reflexivity.
Qed.

(** ** The re-run *)
Lemma rep_args : forall (s : sst (aval V)) args, get_args s_rep s args = look (map s_rep (s_objs s)) args.
Proof.
  intros s args. induction args as [|a r IH]; [reflexivity|]. cbn. fold (get_args (@s_rep (aval V)) s r). rewrite IH, nth_error_map. destruct (nth_error (s_objs s) a); [|reflexivity].
  cbn. destruct (look _ r); reflexivity.
Qed.
Lemma err_kept : forall ov q (s : sst (aval V)) e, s_err s = Some e -> s_err (spec_run AF ov s q) = Some e.
Proof.
  assert (R : forall (s : sst (aval V)) e e', s_err s = Some e -> s_err (raise e' s) = Some e) by (intros s e e' H; cbn; now rewrite H).
  assert (C : forall ov a func args (s : sst (aval V)) e, s_err s = Some e -> s_err (spec_call ov a func args s) = Some e).
  { intros ov a func args s e H. unfold spec_call. destruct (get_args s_rec s args) as [xs|]; [|exact H]. destruct (get_args s_rep s args) as [ps|]; [|exact H].
    destruct (func xs); [|exact H]. destruct (results _ _ _ _ _); [exact H|]. apply (R s e e0 H). }
  intros ov q. induction q as [|c r IH]; intros s e H; [exact H|]. change (spec_run AF ov s (c :: r)) with (spec_run AF ov (spec_stmt AF ov s c) r). apply IH.
  destruct c; cbn [spec_stmt]; try exact H; try (now apply C).
  - destruct (sargs_ok k true args); [now apply C|exact H].
  - destruct (sargs_ok k false args); [now apply C|exact H].
  - unfold spec_inpl. destruct (get_args s_rec s args) as [xs|]; [|exact H]. destruct (get_args s_rep s args) as [ps|]; [|exact H]. destruct (nth_error (s_objs s) o); [|exact H].
    destruct (func xs); [|exact H]. destruct (results _ _ _ _ _) as [[|z [|]]|]; try exact H. apply (R s e e0 H).
  - destruct (nth_error (s_objs s) o); exact H.
  - destruct (nth_error (s_objs s) o); exact H.
Qed.
Lemma call_one : forall ov func args (s : sst (aval V)) xs ps y, s_ann s = true -> ov (length (s_objs s), 0) = None ->
  get_args s_rec s args = Some xs -> get_args s_rep s args = Some ps -> func xs = Ok [y] ->
  (forall l, func ps = Ok l -> length l = 1) ->
  spec_call ov true func args s = match func ps with
                                  | Ok (z :: _) => push [SObj y z 0] s
                                  | Ok [] => s
                                  | Err e => push [SObj y y 0] (raise e s)
                                  end.
Proof.
  intros ov func args s xs ps y Ha Ho Hx Hp Hy Hl. unfold spec_call. rewrite Hx, Hp, Hy. unfold results. cbn [length next_vers seq map existsb]. rewrite Ho. cbn [is_some orb negb andb Nat.eqb].
  destruct (func ps) as [l|e]; [|reflexivity]. specialize (Hl l eq_refl). destruct l as [|z [|]]; try discriminate. reflexivity.
Qed.

Lemma spec_value_step : forall ov (s : sst (aval V)) st t x, atype (map is_arr (svals s)) st = Some t -> map is_arr (map s_rep (s_objs s)) = map is_arr (svals s) ->
  s_ann s = true -> s_err s = None -> ov (length (s_objs s), 0) = None -> avalue F (svals s) st = Ok x ->
  let s' := spec_stmt AF ov s (to_stmt st) in
  s_ctrls s' = s_ctrls s /\
  match avalue F (map s_rep (s_objs s)) st with
  | Ok y => svals s' = svals s ++ [x] /\ map s_rep (s_objs s') = map s_rep (s_objs s) ++ [y] /\ s_ann s' = true /\ s_err s' = None
  | Err e => s_err s' = Some e
  end.
Proof.
  intros ov s st t x Ht Hk Ha He Ho Hx. cbv zeta. destruct st as [y|a it|k args|k args]; cbn [atype] in Ht; cbn [to_stmt spec_stmt avalue] in *.
  - injection Hx as ->. unfold prescribed. rewrite Ho. unfold svals. cbn. rewrite !map_app. auto.
  - destruct (holds (map is_arr (svals s)) true a) eqn:E; [|discriminate]. pose proof E as E'. rewrite <- Hk in E'. destruct (args_arr _ _ E) as [l El]. destruct (args_arr _ _ E') as [m Em].
    unfold lookup in *. rewrite El in Hx. rewrite Em. cbn [bind] in *. rewrite Ha. cbn [andb].
    rewrite (call_one ov (item_fun it) [a] s [Arr l] [Arr m] x Ha Ho).
    + unfold item_fun. rewrite getitem_pick. destruct (pick F it (Arr m)) as [z|e]; cbn [rmap]; [|split; [reflexivity|]; cbn; now rewrite He].
      unfold svals, push. cbn. rewrite !map_app. cbn. auto.
    + rewrite <- look_args. now apply look_one.
    + rewrite rep_args. now apply look_one.
    + unfold item_fun. now rewrite getitem_pick, Hx.
    + unfold item_fun. intros l0. destruct (getitem it (Arr m)); [|discriminate]. now intros [= <-].
  - destruct (operator k args && forallb (holds (map is_arr (svals s)) false) args) eqn:E; [|discriminate]. apply andb_true_iff in E as [E1 E]. pose proof E as E'. rewrite <- Hk in E'.
    destruct (args_num _ _ E) as [vs [E2 E3]]. destruct (args_num _ _ E') as [rs [E4 E5]]. rewrite E3 in Hx. rewrite E5. cbn [bind] in *. rewrite numbers_of in *. cbn [bind] in *.
    rewrite <- operator_ok, E1, Ha. rewrite (call_one ov _ args s (map Num vs) (map Num rs) x Ha Ho); rewrite ?sop_num.
    + destruct (sop F k rs) as [z|e]; cbn [rmap]; [|split; [reflexivity|]; cbn; now rewrite He]. unfold svals, push. cbn. rewrite !map_app. cbn. auto.
    + now rewrite <- look_args.
    + now rewrite rep_args.
    + destruct (sop F k vs); [|discriminate]. cbn in *. congruence.
    + intros l0. destruct (sop F k rs); [|discriminate]. now intros [= <-].
  - destruct (function k args && forallb (holds (map is_arr (svals s)) false) args) eqn:E; [|discriminate]. apply andb_true_iff in E as [E1 E]. pose proof E as E'. rewrite <- Hk in E'.
    destruct (args_num _ _ E) as [vs [E2 E3]]. destruct (args_num _ _ E') as [rs [E4 E5]]. rewrite E3 in Hx. rewrite E5. cbn [bind] in *. rewrite numbers_of in *. cbn [bind] in *.
    rewrite <- function_ok, E1, Ha. cbn [andb]. rewrite (call_one ov _ args s (map Num vs) (map Num rs) x Ha Ho); rewrite ?sop_num.
    + destruct (sop F k rs) as [z|e]; cbn [rmap]; [|split; [reflexivity|]; cbn; now rewrite He]. unfold svals, push. cbn. rewrite !map_app. cbn. auto.
    + now rewrite <- look_args.
    + now rewrite rep_args.
    + destruct (sop F k vs); [|discriminate]. cbn in *. congruence.
    + intros l0. destruct (sop F k rs); [|discriminate]. now intros [= <-].
Qed.
Lemma spec_values : forall es ov (s : sst (aval V)) tys env, atypes (map is_arr (svals s)) es = Some tys -> map is_arr (map s_rep (s_objs s)) = map is_arr (svals s) ->
  s_ann s = true -> s_err s = None -> (forall i, length (s_objs s) <= i -> ov (i, 0) = None) -> avalues F (svals s) es = Ok env ->
  let s' := spec_run AF ov s (map to_stmt es) in
  match avalues F (map s_rep (s_objs s)) es with
  | Ok renv => s_err s' = None /\ map s_rep (s_objs s') = renv /\ svals s' = env /\ s_ctrls s' = s_ctrls s
  | Err e => s_err s' = Some e
  end.
Proof.
  induction es as [|st r IH]; intros ov s tys env Ht Hk Ha He Ho Hv; cbv zeta.
  - cbn in *. injection Hv as <-. auto.
  - cbn [atypes] in Ht. destruct (atype (map is_arr (svals s)) st) as [t|] eqn:Et; [|discriminate]. cbn [avalues] in Hv |- *. destruct (avalue F (svals s) st) as [x|] eqn:Ex; [|discriminate]. cbn [bind] in Hv.
    destruct (spec_value_step ov s st t x Et Hk Ha He (Ho _ (le_n _)) Ex) as [C S]. cbv zeta in C, S. cbn [map]. change (spec_run AF ov s (to_stmt st :: map to_stmt r)) with (spec_run AF ov (spec_stmt AF ov s (to_stmt st)) (map to_stmt r)).
    set (s1 := spec_stmt AF ov s (to_stmt st)) in *. pose proof Et as Et'. rewrite <- Hk in Et'.
    destruct (avalue F (map s_rep (s_objs s)) st) as [y|e] eqn:Ey; cbn [bind]; [|now apply err_kept]. destruct S as [S1 [S2 [S3 S4]]].
    pose proof (avalue_kind _ _ _ _ Et Ex) as K1. pose proof (avalue_kind _ _ _ _ Et' Ey) as K2.
    assert (L : length (s_objs s1) = S (length (s_objs s))) by (transitivity (length (map s_rep (s_objs s1))); [now rewrite map_length|rewrite S2, app_length, map_length; cbn; lia]).
    specialize (IH ov s1 tys env). cbv zeta in IH. rewrite S1, S2, C in IH. apply IH; auto.
    + rewrite map_app. cbn. now rewrite K1.
    + rewrite !map_app. cbn. rewrite K1, K2, Hk. reflexivity.
    + intros i Hi. apply Ho. lia.
Qed.

(** ** What is on the tape *)
Definition kind_of (s : astmt V) : option (kind (aval V)) :=
  match s with ALit _ => None | AItem _ it => Some (KUser (slice_block F it)) | AOp k _ | AFun k _ => Some (akind k) end.
(** The kind is that of a statement; the results are not among the first [n] variables; one result at most. *)
Definition from_stmt n (Q : kind (aval V) -> Prop) (b : block (aval V)) : Prop := Q (b_kind b) /\ Forall (le n) (b_outs b).
Definition leafyQ n Q (w : world (aval V)) : Prop := lb n w /\ Forall (from_stmt n Q) (flat w).

Lemma map_last_Q : forall n Q v (l : list (block (aval V))), n <= v -> Forall (from_stmt n Q) l -> Forall (from_stmt n Q) (map_last (push_out v) l).
Proof.
  intros n Q v l Hv H. induction H as [|b r Hb Hr IH]; [constructor|]. cbn. destruct r; [constructor; [|constructor]|constructor; auto].
  destruct Hb as [A B]. split; [exact A|]. cbn. apply Forall_app. auto.
Qed.
Lemma leafyQ_out : forall n Q w o, n <= o -> leafyQ n Q w -> leafyQ n Q (let '(w5, v) := get_bv w o in with_tape (last_push_out v) (will_out w5 v)).
Proof.
  intros n Q w o Ho [H1 H2]. pose proof (lb_get_bv n w o H1) as A. pose proof (lb_get_snd n w o Ho H1) as B. pose proof (flat_get_bv w o) as C.
  destruct (get_bv w o) as [w5 v]. cbn [fst snd] in *. split; [exact (lb_same n _ _ eq_refl eq_refl (lb_will_out n w5 v A))|].
  change (Forall (from_stmt n Q) (map_last (push_out v) (flat (will_out w5 v)))). apply map_last_Q; [exact B|]. rewrite flat_will_out, C. exact H2.
Qed.
Lemma leafyQ_block : forall n (Q : kind (aval V) -> Prop) w k ds, Q k -> leafyQ n Q w -> leafyQ n Q (with_tape (fun t => add_block t (Blk k ds [] None)) w).
Proof.
  intros n Q w k ds Hk [H1 H2]. split; [exact (lb_same n w _ eq_refl eq_refl H1)|]. unfold flat in *. cbn [with_tape w_tape]. rewrite flat_add_block. apply Forall_app. split; [exact H2|].
  repeat constructor. exact Hk.
Qed.
Lemma leafyQ_new : forall n Q w x, leafyQ n Q w -> leafyQ n Q (fst (new_obj w x)).
Proof. intros n Q w x [H1 H2]. split; [now apply lb_new|exact H2]. Qed.
Lemma leafyQ_op : forall n (Q : kind (aval V) -> Prop) w k args, Q k -> leafyQ n Q w -> leafyQ n Q (fst (exec_op AF w k args)).
Proof.
  intros n Q w k args Hk H. unfold exec_op. destruct (negb _); [exact H|]. destruct (arg_vals w args) as [xs|]; [|exact H]. destruct (op_value AF k xs) as [y|]; [|exact H].
  destruct H as [H1 H2]. cbn [new_obj]. pose proof (lb_new n w y H1) as Hn. set (w1 := with_objs _ w) in *. change (fst (new_obj w y)) with w1 in Hn.
  destruct (w_ann w); [|split; assumption].
  pose proof (lb_get_bvs n args w1 Hn) as A. pose proof (flat_get_bvs args w1) as A'. destruct (get_bvs w1 args) as [w2 ts].
  pose proof (lb_add_deps n args w2 A) as B. pose proof (flat_add_deps args w2) as B'. destruct (add_deps w2 args) as [w3 ds]. cbn [fst] in *.
  pose proof (leafyQ_out n Q (with_tape (fun t => add_block t (Blk k ts [] None)) w3) (length (w_objs w)) (proj1 (proj2 H1))) as O.
  destruct (get_bv _ (length (w_objs w))) as [w5 v]. apply O. apply leafyQ_block; [exact Hk|]. split; [exact B|]. rewrite B', A'. exact H2.
Qed.
Lemma leafyQ_fun : forall n (Q : kind (aval V) -> Prop) w k args a, Q k -> leafyQ n Q w -> leafyQ n Q (fst (exec_fun AF w k args a)).
Proof.
  intros n Q w k args a Hk H. unfold exec_fun. destruct (negb _); [exact H|]. destruct (arg_vals w args) as [xs|]; [|exact H].
  set (w1 := if w_ann w && a then _ else w).
  assert (H1 : leafyQ n Q w1).
  { unfold w1. destruct (w_ann w && a); [|exact H]. destruct H as [H1 H2]. pose proof (lb_add_deps n args w H1) as B. pose proof (flat_add_deps args w) as B'.
    destruct (add_deps w args) as [w3 ds]. cbn [fst] in *. apply leafyQ_block; [exact Hk|]. split; [exact B|]. rewrite B'. exact H2. }
  destruct (op_value AF k xs) as [y|]; [|exact H1]. cbn [new_obj]. pose proof (leafyQ_new n Q w1 y H1) as H2. set (w2 := with_objs _ w1) in *. change (fst (new_obj w1 y)) with w2 in H2.
  destruct (w_ann w && a); [|exact H2]. pose proof (leafyQ_out n Q w2 (length (w_objs w1)) (proj1 (proj2 (proj1 H1))) H2) as O. destruct (get_bv w2 _) as [w5 v]. exact O.
Qed.
Lemma leafyQ_item : forall n (Q : kind (aval V) -> Prop) w o it, Q (KUser (slice_block F it)) -> leafyQ n Q w -> leafyQ n Q (fst (exec_getitem F w o it)).
Proof.
  intros n Q w o it Hk H. unfold exec_getitem. destruct (nth_error (w_objs w) o) as [ob|]; [|exact H]. destruct (o_val ob) as [x|l] eqn:Ev; [exact H|].
  set (w1 := if w_ann w then _ else w).
  assert (H1 : leafyQ n Q w1).
  { unfold w1. destruct (w_ann w); [|exact H]. destruct H as [H1 H2]. unfold add_dep. pose proof (lb_get_bv n w o H1) as B. pose proof (flat_get_bv w o) as B'.
    destruct (get_bv w o) as [w3 d]. cbn [fst] in *. apply leafyQ_block; [exact Hk|]. split; [now apply lb_will_dep|]. rewrite flat_will_dep, B'. exact H2. }
  destruct (getitem it (Arr l)) as [y|]; [|exact H1]. cbn [new_obj]. pose proof (leafyQ_new n Q w1 y H1) as H2. set (w2 := with_objs _ w1) in *. change (fst (new_obj w1 y)) with w2 in H2.
  destruct (w_ann w); [|exact H2]. pose proof (leafyQ_out n Q w2 (length (w_objs w1)) (proj1 (proj2 (proj1 H1))) H2) as O. unfold get_bv in O.
  destruct (nth_error (w_objs w2) (length (w_objs w1))) as [ob2|] eqn:E2.
  - assert (Eb : o_bv ob2 = None). { unfold w2 in E2. cbn in E2. rewrite nth_error_app2, Nat.sub_diag in E2 by lia. cbn in E2. injection E2 as <-. reflexivity. }
    rewrite Eb in O. destruct (create_bv w2 (length (w_objs w1))) as [w5 v]. exact O.
  - unfold create_bv. rewrite E2. exact O.
Qed.
Lemma leafyQ_stmt : forall n (Q : kind (aval V) -> Prop) w s, (forall k, kind_of s = Some k -> Q k) -> leafyQ n Q w -> leafyQ n Q (fst (aexec_stmt F w s)).
Proof.
  intros n Q w [x|a it|k args|k args] Hk H; cbn [aexec_stmt].
  - now apply leafyQ_new.
  - apply leafyQ_item; [now apply Hk|exact H].
  - destruct (arg_vals w args) as [xs|]; [|exact H]. destruct (existsb is_arr xs); [|apply leafyQ_op; [now apply Hk|exact H]]. destruct (array_op F k xs); [now apply leafyQ_new|exact H].
  - destruct (arg_vals w args) as [xs|]; [|exact H]. destruct (existsb is_arr xs); [exact H|]. apply leafyQ_fun; [now apply Hk|exact H].
Qed.
Lemma leafyQ_run : forall n (Q : kind (aval V) -> Prop) es w, (forall s k, In s es -> kind_of s = Some k -> Q k) -> leafyQ n Q w -> leafyQ n Q (fst (iter_o (aexec_stmt F) es w)).
Proof.
  intros n Q es. induction es as [|s r IH]; intros w Hk H; [exact H|]. cbn [iter_o]. pose proof (leafyQ_stmt n Q w s (fun k => Hk s k (or_introl eq_refl)) H) as A.
  destruct (aexec_stmt F w s) as [w1 [e|]]; [exact A|]. apply IH; [|exact A]. intros s0 k Hs. apply Hk. now right.
Qed.
Lemma declare_leafyQ : forall ann xs Q, leafyQ (length xs) Q (exec AF (world_new AF ann) (declare 0 xs)).
Proof.
  intros ann xs Q. destruct (declare_world AF xs (world_new AF ann) eq_refl) as [I1 [I2 [I3 I4]]]. cbn in I1, I2, I3, I4.
  set (w := exec _ _ _) in *. split; [|rewrite I4; constructor]. repeat split; [lia|lia|]. intros o ob v Ho E. apply nth_error_some_lt in E. lia.
Qed.

(** ** Whole programs *)
Lemma program_ok : forall (xs : list (aval V)) es, consistent (declare 0 xs ++ map to_stmt es) /\ disciplined true (declare 0 xs ++ map to_stmt es) = true.
Proof.
  intros xs es. assert (G : forall k, consistent (declare k xs ++ map to_stmt es) /\ disciplined true (declare k xs ++ map to_stmt es) = true).
  { induction xs as [|x r IH]; intros k; cbn [declare app].
    - induction es as [|s r [A B]]; [split; [constructor|reflexivity]|]. split; [constructor; [|exact A]|destruct s; exact B].
      destruct s; try exact I. cbn. intros [|x [|]] i; try reflexivity. unfold item_fun. destruct (getitem it x); cbn; [|reflexivity]. destruct i as [|[|i]]; reflexivity.
    - destruct (IH (S k)) as [A B]. split; [repeat constructor; exact A|exact B]. }
  apply G.
Qed.
Lemma map_snd_combine : forall (l : list (aval V)) k, map (fun x : nat * aval V => snd x) (combine (seq k (length l)) l) = l.
Proof. induction l as [|x r IH]; intros k; [reflexivity|]. cbn. f_equal. apply IH. Qed.
Lemma declare_reps : forall vals xs : list (aval V), length vals = length xs ->
  map s_rep (s_objs (spec_exec AF (prescribe (map (fun i => (i, 0)) (seq 0 (length xs))) vals no_override) true (declare 0 xs))) = vals.
Proof.
  intros vals xs Hl. pose proof (declare_rep AF vals xs Hl) as H. pose proof (declare_svals AF (prescribe (map (fun i => (i, 0)) (seq 0 (length xs))) vals no_override) xs) as L.
  set (s := spec_exec _ _ _ _) in *. assert (Ls : length (s_objs s) = length xs) by (transitivity (length (svals s)); [unfold svals; now rewrite map_length|now rewrite L]). clearbody s. clear L.
  apply nth_ext with (d := f_zero AF) (d' := f_zero AF); [rewrite map_length; congruence|]. intros i Hi. rewrite map_length in Hi.
  assert (E : nth_error (map PObj (seq 0 (length xs))) i = Some (PObj (V := aval V) i)).
  { rewrite nth_error_map. rewrite (nth_error_nth' _ 0) by (rewrite seq_length; lia). cbn. now rewrite seq_nth by lia. }
  destruct (Forall2_nth _ _ _ _ _ _ _ H E) as [y [Ey [so [Eso Hso]]]]. rewrite (nth_error_nth _ _ _ Ey).
  apply nth_error_nth. rewrite nth_error_map, Eso. cbn. now rewrite Hso.
Qed.

Lemma stmt_ctrls : forall (w : world (aval V)) s, w_ctrls (fst (exec_stmt AF w (to_stmt s))) = w_ctrls w.
Proof.
  intros w s. destruct s as [x|a it|k args|k args]; [exact (ctrls_moves AF [to_stmt (ALit x)] w eq_refl)| |exact (ctrls_moves AF [to_stmt (AOp k args)] w eq_refl)|exact (ctrls_moves AF [to_stmt (AFun k args)] w eq_refl)].
  cbn [to_stmt exec_stmt]. unfold exec_user. destruct (arg_vals w [a]) as [xs|]; [|reflexivity]. rewrite andb_true_r.
  assert (Hd : forall (w : world (aval V)) v, w_ctrls (will_dep w v) = w_ctrls w) by (intros; unfold will_dep, with_heap, with_tape; cbn; destruct (match t_latest _ with None => true | Some _ => _ end); reflexivity).
  assert (Hou : forall (w : world (aval V)) v, w_ctrls (will_out w v) = w_ctrls w) by (intros; unfold will_out, with_heap, with_tape; cbn; destruct (t_eager _); reflexivity).
  assert (Hg : w_ctrls (fst (get_bv w a)) = w_ctrls w) by (unfold get_bv, create_bv; destruct (nth_error _ _) as [ob|]; [destruct (o_bv ob)|]; reflexivity).
  assert (H1 : w_ctrls (fst (if w_ann w then add_deps w [a] else (w, []))) = w_ctrls w).
  { destruct (w_ann w); [|reflexivity]. cbn [add_deps]. unfold add_dep. destruct (get_bv w a) as [w1 v]. cbn [fst] in *. now rewrite Hd. }
  destruct (if w_ann w then add_deps w [a] else (w, [])) as [w1 ds]. cbn [fst] in H1. unfold item_fun. destruct xs as [|x [|]]; try exact H1. destruct (getitem it x); [|exact H1].
  cbn [rmap new_objs new_obj]. destruct (w_ann w); [|exact H1]. cbn [add_outs]. set (w2 := with_objs _ w1). assert (Hc : w_ctrls (fst (create_bv w2 (length (w_objs w1)))) = w_ctrls w1) by (unfold create_bv; destruct (nth_error _ _); reflexivity).
  destruct (create_bv w2 (length (w_objs w1))) as [w3 v]. cbn [fst] in Hc. change (w_ctrls (will_out w3 v) = w_ctrls w). rewrite Hou, Hc. exact H1.
Qed.
Lemma program_ctrls : forall es (w : world (aval V)), w_ctrls (exec AF w (map to_stmt es)) = w_ctrls w.
Proof.
  induction es as [|s r IH]; intros w; [reflexivity|]. cbn [map]. change (exec AF w (to_stmt s :: map to_stmt r)) with (exec AF (fst (exec_stmt AF w (to_stmt s))) (map to_stmt r)). rewrite IH. apply stmt_ctrls.
Qed.

Theorem arr_records : forall xs es tys, atypes (map is_arr xs) es = Some tys ->
  match avalues F xs es with
  | Ok env => snd (arun F true xs es) = None /\ map o_val (w_objs (fst (arun F true xs es))) = env
  | Err e => snd (arun F true xs es) = Some e
  end.
Proof.
  intros xs es tys Ht. unfold arun. pose proof (avalues_run es (exec AF (world_new AF true) (declare 0 xs)) tys) as H. rewrite new_world_vals in H. specialize (H Ht).
  destruct (avalues F xs es) as [env|e]; [|exact H]. destruct H as [-> H]. auto.
Qed.

Theorem arr_rerun : forall xs es tys env j, atypes (map is_arr xs) es = Some tys -> avalues F xs es = Ok env -> j < length env ->
  let p := declare 0 xs ++ map to_stmt es in
  consistent p /\ disciplined true p = true /\ fst (arun F true xs es) = exec AF (world_new AF true) p /\ vals (exec AF (world_new AF true) p) = env /\
  j < length (w_objs (exec AF (world_new AF true) p)) /\ w_ctrls (fst (recorded AF true p j)) = seq 0 (length xs) /\ control_values AF true p = xs /\
  (forall Q : kind (aval V) -> Prop, (forall s k, In s es -> kind_of s = Some k -> Q k) -> Forall (from_stmt (length xs) Q) (flat (fst (recorded AF true p j)))) /\
  forall vs, map is_arr vs = map is_arr xs -> spec_rerun AF true p vs j = avariable F vs es j.
Proof.
  intros xs es tys env j Ht Hv Hj p. destruct (program_ok xs es) as [Hc Hd]. fold p in Hc, Hd.
  pose proof (avalues_run es (exec AF (world_new AF true) (declare 0 xs)) tys) as Hr. rewrite new_world_vals in Hr. specialize (Hr Ht). rewrite Hv in Hr. destruct Hr as [Hr1 Hr2].
  assert (Ew : fst (arun F true xs es) = exec AF (world_new AF true) p) by (unfold arun, p; rewrite Hr1, exec_app; reflexivity).
  assert (Ev : vals (exec AF (world_new AF true) p) = env) by (unfold p; rewrite exec_app; exact Hr2).
  assert (Lo : j < length (w_objs (exec AF (world_new AF true) p))) by (rewrite <- (map_length (@o_val (aval V))); fold (vals (exec AF (world_new AF true) p)); now rewrite Ev).
  assert (HS : forall vs, map is_arr vs = map is_arr xs ->
    let s := spec_exec AF (prescribe (map (fun i => (i, 0)) (seq 0 (length xs))) vs no_override) true p in
    match avalues F vs es with
    | Ok renv => s_err s = None /\ map s_rep (s_objs s) = renv
    | Err e => s_err s = Some e
    end).
  { intros vs Hk. cbv zeta. unfold p, spec_exec. rewrite fold_left_app. set (ov := prescribe _ _ _).
    destruct (declare_ctrls AF ov xs) as [A [B _]]. assert (Hl : length vs = length xs) by (rewrite <- (map_length is_arr vs), Hk, map_length; reflexivity).
    pose proof (declare_reps vs xs Hl) as R. pose proof (declare_svals AF ov xs) as S. fold ov in R. unfold spec_exec in A, B, R, S. set (s0 := fold_left _ (declare 0 xs) _) in *.
    pose proof (spec_values es ov s0 tys env) as G. rewrite S, R in G. cbv zeta in G. fold (spec_run AF ov s0 (map to_stmt es)). assert (Q := G Ht Hk B A). clear G.
    destruct (avalues F vs es) as [renv|e].
    - destruct Q as [Q1 [Q2 _]]; [|exact Hv|auto]. intros i Hi. unfold ov. rewrite prescribe_other; [reflexivity|]. intros K. apply in_map_iff in K as [z [K1 K2]]. injection K1 as <-. apply in_seq in K2.
      rewrite <- (map_length (@s_rec (aval V))) in Hi. fold (svals s0) in Hi. rewrite S in Hi. lia.
    - apply Q; [|exact Hv]. intros i Hi. unfold ov. rewrite prescribe_other; [reflexivity|]. intros K. apply in_map_iff in K as [z [K1 K2]]. injection K1 as <-. apply in_seq in K2.
      rewrite <- (map_length (@s_rec (aval V))) in Hi. fold (svals s0) in Hi. rewrite S in Hi. lia. }
  assert (HC : s_ctrls (spec_exec AF no_override true p) = map (fun ix => ((fst ix, 0), snd ix)) (combine (seq 0 (length xs)) xs)).
  { unfold p, spec_exec. rewrite fold_left_app. destruct (declare_spec AF no_override xs (SSt [] true None []) eq_refl) as [A [B [C D]]]. cbn in A, B, C, D.
    pose proof (declare_svals AF no_override xs) as S. unfold spec_exec in S. set (s0 := fold_left _ (declare 0 xs) _) in *.
    assert (R : map s_rep (s_objs s0) = xs).
    { rewrite C, map_map. cbn. apply map_snd_combine. }
    pose proof (spec_values es no_override s0 tys env) as G. rewrite S, R in G. cbv zeta in G. specialize (G Ht eq_refl B A (fun _ _ => eq_refl) Hv). rewrite Hv in G.
    destruct G as [_ [_ [_ G]]]. unfold spec_run in G. rewrite G. exact D. }
  repeat split; auto.
  - unfold recorded. set (W := exec AF (world_new AF true) p). transitivity (w_ctrls W).
    + unfold get_bv, create_bv. destruct (nth_error (w_objs W) j) as [ob|]; [destruct (o_bv ob)|]; reflexivity.
    + unfold W, p. rewrite exec_app, program_ctrls. exact (proj2 (declare_leafy AF true xs (fun _ => true))).
  - unfold control_values. rewrite HC, map_map. cbn. apply map_snd_combine.
  - intros Q HQ. unfold recorded. rewrite flat_get_bv, <- Ew. exact (proj2 (leafyQ_run (length xs) Q es _ HQ (declare_leafyQ true xs Q))).
  - intros vs Hk. specialize (HS vs Hk). cbv zeta in HS. unfold spec_rerun.
    assert (HM : map fst (s_ctrls (spec_exec AF no_override true p)) = map (fun i => (i, 0)) (seq 0 (length xs))).
    { rewrite HC, map_map. rewrite <- (combine_fst _ _ (seq 0 (length xs)) xs) at 2 by apply seq_length. rewrite map_map. reflexivity. }
    rewrite HM.
    unfold avariable. set (s := spec_exec AF _ true p) in *. destruct (avalues F vs es) as [renv|e]; cbn [bind].
    + destruct HS as [-> HS]. rewrite <- HS. unfold lookup. rewrite nth_error_map. destruct (nth_error (s_objs s) j); reflexivity.
    + now rewrite HS.
Qed.

Lemma arr_leaves : forall n Q (bs : list (block (aval V))), Forall (from_stmt n Q) bs -> forall v, In v (seq 0 n) -> ~ In v (outs_of bs).
Proof.
  intros n Q bs H v Hv K. unfold outs_of in K. apply in_flat_map in K as [b [Hb Ho]]. rewrite Forall_forall in H. destruct (H b Hb) as [_ G].
  rewrite Forall_forall in G. specialize (G v Ho). apply in_seq in Hv. lia.
Qed.

(** Evaluating the reduced functional of variable [j]. *)
Theorem arr_call : forall xs es tys env j vs scale l, atypes (map is_arr xs) es = Some tys -> avalues F xs es = Ok env -> j < length env -> map is_arr vs = map is_arr xs ->
  let w := fst (get_bv (fst (arun F true xs es)) j) in
  let v := snd (get_bv (fst (arun F true xs es)) j) in
  w_ctrls w = seq 0 (length xs) /\
  (calls_controls w l -> snd (rf_call AF (t_flat (w_tape w)) (RF v (w_ctrls w) (Num scale)) vs (run_hist AF (t_flat (w_tape w)) (w_heap w) l)) =
    rmap (fun y => lift2 (f_mul F) y (Num scale)) (avariable F vs es j)).
Proof.
  intros xs es tys env j vs scale l Ht Hv Hj Hk. destruct (arr_rerun xs es tys env j Ht Hv Hj) as [Hc [Hd [Ew [_ [Ho [Hctl [_ [HQ Hre]]]]]]]]. set (p := declare 0 xs ++ map to_stmt es) in *.
  cbv zeta. rewrite Ew. change (get_bv (exec AF (world_new AF true) p) j) with (recorded AF true p j). split; [exact Hctl|]. intros Hcc.
  pose proof (rf_call_rerun AF true p j vs (Num scale) l Hc Hd Ho) as R. cbv zeta in R. unfold flat in R.
  rewrite R; [now rewrite (Hre vs Hk)| |exact Hcc|right].
  - rewrite Hctl, seq_length, <- (map_length is_arr vs), Hk, map_length. reflexivity.
  - intros b o1 Hb Ho1 Hin. exfalso. rewrite Hctl in Hin. apply (arr_leaves _ _ _ (HQ (fun _ => True) (fun _ _ _ _ => I)) o1 Hin). unfold outs_of. apply in_flat_map. exists b. auto.
Qed.
End ArrFacts.
