(** Recording under a checkpoint manager: same blocks and recorded values as without, and what the time
    steps know about the variables. *)
From Coq Require Import List Arith ZArith Lia Bool.
From Verif Require Import Base Model BaseFacts Graph Record Spec RecordFacts Replay ReplayExec History Session Ckpt SpecCkpt.
Import ListNotations.

(** ** Worlds that differ only in stored values, use times and step metadata *)
Section Twin.
Context {V : Type} (F : fops V).
Implicit Types (w : world V) (h : heap V).

Definition skel (b : bvar V) : bvar V := set_times 0 0 (set_ckpt None false b).
Definition same_skel h h' := forall v, skel (h v) = skel (h' v).
Record twin w w' : Prop := {
  tw_objs : w_objs w = w_objs w';
  tw_next : w_next w = w_next w';
  tw_ann : w_ann w = w_ann w';
  tw_ctrls : w_ctrls w = w_ctrls w';
  tw_flat : flat w = flat w';
  tw_heap : same_skel (w_heap w) (w_heap w')
}.

Lemma same_skel_upd : forall h h' v f f', same_skel h h' -> (forall b b', skel b = skel b' -> skel (f b) = skel (f' b')) ->
  same_skel (upd h v f) (upd h' v f').
Proof. intros h h' v f f' H Hf u. unfold upd. destruct (Nat.eqb u v); auto. Qed.
Lemma skel_save : forall ow ow' b b', skel b = skel b' -> skel (save_output ow b) = skel (save_output ow' b').
Proof.
  intros ow ow' b b' H. unfold save_output.
  assert (A : forall x r (c : bvar V), skel (set_ckpt x r c) = skel c) by reflexivity.
  destruct (ow || _), (ow' || _); rewrite ?A; exact H.
Qed.
Lemma skel_times : forall c l c' l' b b', skel b = skel b' -> skel (set_times c l b) = skel (set_times c' l' b').
Proof. intros c l c' l' b b' H. exact H. Qed.
Lemma skel_obj : forall b b', skel b = skel b' -> bv_obj b = bv_obj b'.
Proof. intros b b' H. unfold skel, set_times, set_ckpt in H. cbn in H. congruence. Qed.
Lemma skel_out : forall b b', skel b = skel b' -> bv_out b = bv_out b'.
Proof. intros b b' H. unfold skel, set_times, set_ckpt in H. cbn in H. congruence. Qed.
Lemma skel_rec : forall b b', skel b = skel b' -> bv_rec b = bv_rec b'.
Proof. intros b b' H. unfold skel, set_times, set_ckpt in H. cbn in H. congruence. Qed.
Lemma skel_flags : forall b b', skel b = skel b' -> bv_ctrl b = bv_ctrl b' /\ bv_mark b = bv_mark b' /\
  bv_adj b = bv_adj b' /\ bv_tlm b = bv_tlm b' /\ bv_hess b = bv_hess b'.
Proof. intros b b' H. unfold skel, set_times, set_ckpt in H. cbn in H. repeat split; congruence. Qed.
Lemma skel_set_out : forall x b b', skel b = skel b' -> skel (set_out x b) = skel (set_out x b').
Proof. intros x b b' H. unfold skel, set_times, set_ckpt, set_out in *. cbn in *. congruence. Qed.

Lemma twin_refl : forall w, twin w w.
Proof. intros w. constructor; try reflexivity. intros v. reflexivity. Qed.

Lemma twin_create : forall w w' o, twin w w' ->
  twin (fst (create_bv w o)) (fst (create_bv w' o)) /\ snd (create_bv w o) = snd (create_bv w' o).
Proof.
  intros w w' o T. destruct T as [t1 t2 t3 t4 t5 t6]. unfold create_bv. rewrite <- t1, <- t2.
  destruct (nth_error (w_objs w) o) as [ob|]; cbn; [|split; [constructor|]; auto].
  split; [|reflexivity]. constructor; cbn; try congruence.
  - exact t5.
  - apply same_skel_upd; [exact t6|]. reflexivity.
Qed.
Lemma twin_get : forall w w' o, twin w w' ->
  twin (fst (get_bv w o)) (fst (get_bv w' o)) /\ snd (get_bv w o) = snd (get_bv w' o).
Proof.
  intros w w' o T. unfold get_bv. rewrite <- (tw_objs _ _ T). destruct (nth_error (w_objs w) o) as [ob|].
  - destruct (o_bv ob); [split; [exact T|reflexivity]|]. now apply twin_create.
  - split; [exact T|]. apply T.
Qed.

Lemma twin_heap : forall w w' (f f' : heap V -> heap V), twin w w' ->
  (forall h h', same_skel h h' -> same_skel (f h) (f' h')) -> twin (with_heap f w) (with_heap f' w').
Proof. intros w w' f f' T Hf. destruct T. constructor; cbn; auto. Qed.
Lemma twin_tape : forall w w' (f f' : tape V -> tape V), twin w w' ->
  (forall t t', t_flat t = t_flat t' -> t_flat (f t) = t_flat (f' t')) -> twin (with_tape f w) (with_tape f' w').
Proof. intros w w' f f' T Hf. destruct T as [t1 t2 t3 t4 t5 t6]. constructor; cbn; auto. apply Hf. exact t5. Qed.
Lemma twin_objs : forall w w' f, twin w w' -> twin (with_objs f w) (with_objs f w').
Proof. intros w w' f T. destruct T. constructor; cbn; auto. congruence. Qed.

Lemma twin_will_dep : forall w w' v, twin w w' -> twin (will_dep w v) (will_dep w' v).
Proof.
  intros w w' v T. unfold will_dep. apply twin_heap.
  2:{ intros h h' H. apply same_skel_upd; [exact H|]. intros. now apply skel_times. }
  apply twin_tape; [|intros t t' H; now rewrite !flat_add_to_state].
  assert (S : forall h h', same_skel h h' -> same_skel (upd h v (save_output false)) (upd h' v (save_output false))).
  { intros h h' H. apply same_skel_upd; [exact H|]. intros. now apply skel_save. }
  assert (I : forall h h', same_skel h h' -> same_skel (upd h v (save_output false)) h').
  { intros h h' H u. unfold upd. destruct (Nat.eqb u v); [|apply H]. rewrite <- (H u).
    unfold save_output. destruct (_ || _); reflexivity. }
  assert (I' : forall h h', same_skel h h' -> same_skel h (upd h' v (save_output false))).
  { intros h h' H u. symmetry. apply I. intros x. symmetry. apply H. }
  assert (A : twin (with_heap (fun h => upd h v (save_output false)) w) (with_heap (fun h => upd h v (save_output false)) w')) by (apply twin_heap; auto).
  destruct (match t_latest _ with None => true | Some _ => _ end), (match t_latest _ with None => true | Some _ => _ end); auto.
  - apply twin_heap; auto.
  - destruct A as [t1 t2 t3 t4 t5 t6]. constructor; cbn in *; auto.
  - destruct A as [t1 t2 t3 t4 t5 t6]. constructor; cbn in *; auto.
Qed.
Lemma twin_will_out : forall w w' v, twin w w' -> twin (will_out w v) (will_out w' v).
Proof.
  intros w w' v T. unfold will_out. apply twin_tape; [|intros t t' H; now rewrite !flat_add_to_adjdeps].
  set (u := with_heap _ w). set (u' := with_heap _ w').
  assert (A : twin u u').
  { apply twin_heap; [exact T|]. intros h h' H. apply same_skel_upd; [exact H|]. intros. now apply skel_times. }
  assert (I : forall h h', same_skel h h' -> same_skel (upd h v (save_output true)) h').
  { intros h h' H x. unfold upd. destruct (Nat.eqb x v); [|apply H]. rewrite <- (H x). reflexivity. }
  assert (I' : forall h h', same_skel h h' -> same_skel h (upd h' v (save_output true))).
  { intros h h' H x. symmetry. apply I. intros y. symmetry. apply H. }
  destruct A as [t1 t2 t3 t4 t5 t6].
  destruct (t_eager (w_tape u)), (t_eager (w_tape u')); constructor; cbn in *; auto.
Qed.

Lemma twin_add_deps : forall os w w', twin w w' ->
  twin (fst (add_deps w os)) (fst (add_deps w' os)) /\ snd (add_deps w os) = snd (add_deps w' os).
Proof.
  induction os as [|o r IH]; intros w w' T; [split; [exact T|reflexivity]|]. cbn [add_deps]. unfold add_dep.
  destruct (twin_get w w' o T) as [A B]. destruct (get_bv w o) as [w1 v], (get_bv w' o) as [w1' v']. cbn [fst snd] in *. subst v'.
  destruct (IH _ _ (twin_will_dep _ _ v A)) as [C D].
  destruct (add_deps (will_dep w1 v) r), (add_deps (will_dep w1' v) r). cbn [fst snd] in *. split; [exact C|congruence].
Qed.
Lemma twin_get_bvs : forall os w w', twin w w' ->
  twin (fst (get_bvs w os)) (fst (get_bvs w' os)) /\ snd (get_bvs w os) = snd (get_bvs w' os).
Proof.
  induction os as [|o r IH]; intros w w' T; [split; [exact T|reflexivity]|]. cbn [get_bvs].
  destruct (twin_get w w' o T) as [A B]. destruct (get_bv w o) as [w1 v], (get_bv w' o) as [w1' v']. cbn [fst snd] in *. subst v'.
  destruct (IH _ _ A) as [C D].
  destruct (get_bvs w1 r), (get_bvs w1' r). cbn [fst snd] in *. split; [exact C|congruence].
Qed.
Lemma twin_add_outs : forall os w w', twin w w' ->
  twin (fst (add_outs w os)) (fst (add_outs w' os)) /\ snd (add_outs w os) = snd (add_outs w' os).
Proof.
  induction os as [|o r IH]; intros w w' T; [split; [exact T|reflexivity]|]. cbn [add_outs].
  destruct (twin_create w w' o T) as [A B]. destruct (create_bv w o) as [w1 v], (create_bv w' o) as [w1' v']. cbn [fst snd] in *. subst v'.
  destruct (IH _ _ (twin_will_out _ _ v A)) as [C D].
  destruct (add_outs (will_out w1 v) r), (add_outs (will_out w1' v) r). cbn [fst snd] in *. split; [exact C|congruence].
Qed.
Lemma twin_new_objs : forall ys w w', twin w w' ->
  twin (fst (new_objs w ys)) (fst (new_objs w' ys)) /\ snd (new_objs w ys) = snd (new_objs w' ys).
Proof.
  induction ys as [|y r IH]; intros w w' T; [split; [exact T|reflexivity]|]. cbn [new_objs]. unfold new_obj. cbv beta iota zeta.
  destruct (IH _ _ (twin_objs w w' (fun l => l ++ [Obj y None 0]) T)) as [C D].
  pose proof (tw_objs _ _ T) as E.
  destruct (new_objs _ r), (new_objs _ r). cbn [fst snd] in *. split; [exact C|congruence].
Qed.

Lemma flat_last_push : forall v (t : tape V), t_flat (last_push_out v t) = map_last (push_out v) (t_flat t).
Proof. reflexivity. Qed.

Lemma twin_stmt : forall w w' c, (forall o, c <> SGC o) -> c <> SEndStep -> twin w w' ->
  twin (fst (exec_stmt F w c)) (fst (exec_stmt F w' c)) /\ snd (exec_stmt F w c) = snd (exec_stmt F w' c).
Proof.
  intros w w' c Hg He T. pose proof T as [t1 t2 t3 t4 t5 t6].
  assert (AV : forall args, arg_vals w args = arg_vals w' args) by (intros; unfold arg_vals; now rewrite t1).
  assert (AB : forall u u' b, twin u u' -> twin (with_tape (fun t => add_block t b) u) (with_tape (fun t => add_block t b) u')).
  { intros u u' b Tu. apply twin_tape; [exact Tu|]. intros t t' E. now rewrite !flat_add_block, E. }
  assert (PO : forall u u' v, twin u u' -> twin (with_tape (last_push_out v) u) (with_tape (last_push_out v) u')).
  { intros u u' v Tu. apply twin_tape; [exact Tu|]. intros t t' E. now rewrite !flat_last_push, E. }
  destruct c; cbn [exec_stmt].
  - cbn. split; [now apply twin_objs|reflexivity].
  - unfold exec_op. destruct (negb _); [split; [exact T|reflexivity]|]. rewrite <- AV.
    destruct (arg_vals w args) as [xs|]; [|split; [exact T|reflexivity]].
    destruct (op_value F k xs) as [y|]; [|split; [exact T|reflexivity]].
    unfold new_obj. cbv beta iota zeta. pose proof (twin_objs w w' (fun l => l ++ [Obj y None 0]) T) as T1.
    rewrite <- t3, <- t1. destruct (w_ann w); [|split; [exact T1|reflexivity]].
    destruct (twin_get_bvs args _ _ T1) as [A B].
    destruct (get_bvs _ args) as [w2 ts], (get_bvs _ args) as [w2' ts']. cbn [fst snd] in *. subst ts'.
    destruct (twin_add_deps args _ _ A) as [C D].
    destruct (add_deps w2 args) as [w3 ds], (add_deps w2' args) as [w3' ds']. cbn [fst snd] in *.
    destruct (twin_get _ _ (length (w_objs w)) (AB _ _ (Blk k ts [] None) C)) as [G H].
    destruct (get_bv _ _) as [w5 v], (get_bv _ _) as [w5' v']. cbn [fst snd] in *. subst v'.
    split; [|reflexivity]. apply PO. now apply twin_will_out.
  - unfold exec_fun. destruct (negb _); [split; [exact T|reflexivity]|]. rewrite <- AV.
    destruct (arg_vals w args) as [xs|]; [|split; [exact T|reflexivity]]. rewrite <- t3.
    match goal with |- context[new_obj ?x _] => set (w1 := x) end.
    match goal with |- _ /\ snd (match _ with Ok _ => let '(_, _) := new_obj w1 _ in _ | Err _ => _ end) = snd (match _ with Ok _ => let '(_, _) := new_obj ?x _ in _ | Err _ => _ end) => set (w1' := x) end.
    assert (T1 : twin w1 w1').
    { unfold w1, w1'. destruct (w_ann w && annotate); [|exact T].
      destruct (twin_add_deps args _ _ T) as [C D].
      destruct (add_deps w args) as [w3 ds], (add_deps w' args) as [w3' ds']. cbn [fst snd] in *. subst ds'. now apply AB. }
    clearbody w1 w1'. destruct (op_value F k xs) as [y|]; [|split; [exact T1|reflexivity]].
    unfold new_obj. cbv beta iota zeta. pose proof (twin_objs w1 w1' (fun l => l ++ [Obj y None 0]) T1) as T2.
    rewrite <- (tw_objs _ _ T1). destruct (w_ann w && annotate); [|split; [exact T2|reflexivity]].
    destruct (twin_get _ _ (length (w_objs w1)) T2) as [G H].
    destruct (get_bv _ _) as [w5 v], (get_bv _ _) as [w5' v']. cbn [fst snd] in *. subst v'.
    split; [|reflexivity]. apply PO. now apply twin_will_out.
  - unfold exec_user. rewrite <- AV. destruct (arg_vals w args) as [xs|]; [|split; [exact T|reflexivity]]. rewrite <- t3.
    assert (E : twin (fst (if w_ann w && annotate then add_deps w args else (w, []))) (fst (if w_ann w && annotate then add_deps w' args else (w', []))) /\
                snd (if w_ann w && annotate then add_deps w args else (w, [])) = snd (if w_ann w && annotate then add_deps w' args else (w', []))).
    { destruct (w_ann w && annotate); [now apply twin_add_deps|split; [exact T|reflexivity]]. }
    destruct (if w_ann w && annotate then add_deps w args else (w, [])) as [w1 ds], (if w_ann w && annotate then add_deps w' args else (w', [])) as [w1' ds'].
    cbn [fst snd] in E. destruct E as [T1 <-]. destruct (func xs) as [ys|]; [|split; [exact T1|reflexivity]].
    destruct (twin_new_objs ys _ _ T1) as [A B].
    destruct (new_objs w1 ys) as [w2 os], (new_objs w1' ys) as [w2' os']. cbn [fst snd] in *. subst os'.
    destruct (w_ann w && annotate); [|split; [exact A|reflexivity]].
    destruct (twin_add_outs os _ _ A) as [C D].
    destruct (add_outs w2 os) as [w3 vs], (add_outs w2' os) as [w3' vs']. cbn [fst snd] in *. subst vs'.
    split; [now apply AB|reflexivity].
  - unfold exec_inpl. rewrite <- AV. destruct (arg_vals w args) as [xs|]; [|split; [exact T|reflexivity]]. rewrite <- t3, <- t1.
    destruct (nth_error (w_objs w) o) as [ob0|] eqn:Eo; [|split; [exact T|reflexivity]].
    assert (E : twin (fst (if w_ann w && annotate then add_deps w args else (w, []))) (fst (if w_ann w && annotate then add_deps w' args else (w', []))) /\
                snd (if w_ann w && annotate then add_deps w args else (w, [])) = snd (if w_ann w && annotate then add_deps w' args else (w', []))).
    { destruct (w_ann w && annotate); [now apply twin_add_deps|split; [exact T|reflexivity]]. }
    destruct (if w_ann w && annotate then add_deps w args else (w, [])) as [w1 ds], (if w_ann w && annotate then add_deps w' args else (w', [])) as [w1' ds'].
    cbn [fst snd] in E. destruct E as [T1 <-]. destruct (func xs) as [y|]; [|split; [exact T1|reflexivity]].
    assert (A : twin (assign_obj w1 o y) (assign_obj w1' o y)).
    { unfold assign_obj. rewrite <- (tw_objs _ _ T1). destruct (nth_error (w_objs w1) o) as [ob|]; [|exact T1].
      apply twin_objs. apply twin_heap; [exact T1|]. intros h h' H v. rewrite <- (skel_obj _ _ (H v)).
      destruct (Nat.eqb _ o); [|apply H]. apply skel_set_out. apply H. }
    destruct (w_ann w && annotate); [|split; [exact A|reflexivity]].
    destruct (twin_add_outs [o] _ _ A) as [C D].
    destruct (add_outs _ [o]) as [w3 vs], (add_outs _ [o]) as [w3' vs']. cbn [fst snd] in *. subst vs'.
    split; [now apply AB|reflexivity].
  - rewrite <- t1. destruct (nth_error (w_objs w) o) as [ob|] eqn:Eo; [|split; [exact T|reflexivity]]. cbn [fst snd]. split; [|reflexivity].
    assert (A : twin (assign_obj w o x) (assign_obj w' o x)).
    { unfold assign_obj. rewrite <- t1, Eo. apply twin_objs. apply twin_heap; [exact T|]. intros h h' H v. rewrite <- (skel_obj _ _ (H v)).
      destruct (Nat.eqb _ o); [|apply H]. apply skel_set_out. apply H. }
    unfold clear_bv. rewrite <- (tw_objs _ _ A). destruct (nth_error (w_objs (assign_obj w o x)) o); [|exact A]. now apply twin_objs.
  - split; [|reflexivity]. constructor; cbn; auto.
  - split; [|reflexivity]. constructor; cbn; auto.
  - exfalso. now apply He.
  - exfalso. now apply (Hg o).
  - rewrite <- t1. destruct (nth_error (w_objs w) o); [|split; [exact T|reflexivity]].
    destruct (twin_get w w' o T) as [G H]. destruct (get_bv w o) as [w1 v], (get_bv w' o) as [w1' v']. cbn [fst snd] in *. subst v'.
    split; [|reflexivity]. destruct G as [g1 g2 g3 g4 g5 g6]. constructor; cbn; auto. congruence.
  - rewrite <- t1. destruct (nth_error (w_objs w) o); [|split; [exact T|reflexivity]].
    destruct (twin_get w w' o T) as [G H]. split; [exact G|reflexivity].
Qed.
End Twin.

(** ** What the time steps know about the variables while recording *)
Section Steps.
Context {V : Type}.
Implicit Types (l : list (tstep V)) (lu : nat -> Z) (pend : list nat).

Definition outs_in (s : tstep V) : list nat := flat_map (@b_outs V) (ts_blocks s).
Definition known (s : tstep V) v : Prop := In v (ts_state s) \/ In v (ts_adjdeps s).

(** [lu v] is the last step in which variable [v] was used, -1 if none; [pend] are outputs announced
    to the last step whose block is not complete yet. *)
Record LS l lu pend (bs : list (block V)) : Prop := {
  ls_ne : l <> [];
  ls_flat : flat_map (@ts_blocks V) l = bs;
  ls_adj : forall k s, nth_error l k = Some s ->
    forall v, In v (ts_adjdeps s) <-> In v (outs_in s) \/ (S k = length l /\ In v pend);
  ls_dep : forall k s b d, nth_error l k = Some s -> In b (ts_blocks s) -> In d (b_deps b) -> known s d;
  ls_state : forall k s s' v, nth_error l k = Some s -> nth_error l (S k) = Some s' -> In v (ts_state s') -> known s v;
  ls_last : forall v, (0 <= lu v)%Z -> exists s, nth_error l (Z.to_nat (lu v)) = Some s /\ known s v;
  ls_max : forall k s v, nth_error l k = Some s -> known s v -> (Z.of_nat k <= lu v)%Z;
  ls_lo : forall v, (-1 <= lu v)%Z;
  ls_disj : forall k s j s' v, nth_error l k = Some s -> nth_error l j = Some s' ->
    In v (ts_state s) -> In v (ts_adjdeps s') -> j < k;
  ls_rev : forall k s, nth_error l k = Some s -> ts_revised s = false
}.

Lemma nth_map_from : forall {A} (f : A -> A) (l : list A) k i,
  nth_error (map_from k f l) i = if Nat.leb k i then option_map f (nth_error l i) else nth_error l i.
Proof.
  intros A f l. induction l as [|x r IH]; intros k i; cbn.
  - destruct (Nat.leb k i), i; reflexivity.
  - destruct k as [|k]; destruct i as [|i]; cbn; try reflexivity.
    + rewrite IH. reflexivity.
    + rewrite IH. reflexivity.
Qed.
Lemma length_map_from : forall {A} (f : A -> A) (l : list A) k, length (map_from k f l) = length l.
Proof. intros A f l. induction l as [|x r IH]; intros [|k]; cbn; auto. Qed.
Lemma flat_map_from : forall {A B} (f : A -> A) (g : A -> list B) (l : list A) k, (forall x, g (f x) = g x) ->
  flat_map g (map_from k f l) = flat_map g l.
Proof. intros A B f g l. induction l as [|x r IH]; intros [|k] H; cbn; rewrite ?H, ?IH; auto. Qed.
Lemma In_oadd : forall v u s, In u (oadd v s) <-> In u s \/ u = v.
Proof.
  intros v u s. unfold oadd. destruct (mem v s) eqn:E.
  - apply mem_In in E. split; [auto|]. intros [H| ->]; auto.
  - rewrite in_app_iff. cbn. split; [intros [H|[H|[]]]; auto|intros [H|H]; auto].
Qed.
Lemma nth_last : forall {A} (l : list A) x, nth_error (l ++ [x]) (length l) = Some x.
Proof. intros. rewrite nth_error_app2, Nat.sub_diag by lia. reflexivity. Qed.
Lemma last_cases : forall {A} (l : list A) x k s, nth_error (l ++ [x]) k = Some s ->
  (k < length l /\ nth_error l k = Some s) \/ (k = length l /\ s = x).
Proof.
  intros A l x k s H. destruct (Nat.lt_ge_cases k (length l)) as [L|L].
  - left. split; [exact L|]. now rewrite nth_error_app1 in H.
  - right. rewrite nth_error_app2 in H by exact L. destruct (k - length l) as [|m] eqn:E; cbn in H; [|destruct m; discriminate].
    split; [lia|congruence].
Qed.

Definition set_last lu v (k : Z) : nat -> Z := fun u => if Nat.eqb u v then k else lu u.

Lemma ls_known_lt : forall l lu pend bs v, LS l lu pend bs -> (0 <= lu v)%Z -> Z.to_nat (lu v) < length l.
Proof. intros l lu pend bs v H Hv. destruct (ls_last _ _ _ _ H v Hv) as [s [A _]]. eapply nth_error_some_lt; eauto. Qed.

Lemma ls_add_dep : forall l lu pend bs v, LS l lu pend bs ->
  LS (map_from (Z.to_nat (lu v + 1)) (ts_add_state v) l) (set_last lu v (Z.of_nat (length l - 1))) pend bs.
Proof.
  intros l lu pend bs v H. destruct H as [h1 h2 h3 h4 h5 h6 h7 h8 h9 h10].
  set (k0 := Z.to_nat (lu v + 1)).
  assert (Hk0 : Z.of_nat k0 = (lu v + 1)%Z) by (unfold k0; specialize (h8 v); lia).
  assert (Hlen : 0 < length l) by (destruct l; [now elim h1|cbn; lia]).
  assert (Hlu : (lu v < Z.of_nat (length l))%Z).
  { destruct (Z_le_gt_dec 0 (lu v)) as [G|G]; [|lia]. destruct (h6 v G) as [s [A _]]. apply nth_error_some_lt in A. lia. }
  assert (N : forall k s, nth_error (map_from k0 (ts_add_state v) l) k = Some s -> exists s0, nth_error l k = Some s0 /\
     s = if Nat.leb k0 k then ts_add_state v s0 else s0).
  { intros k s E. rewrite nth_map_from in E. destruct (Nat.leb k0 k); destruct (nth_error l k) as [s0|]; cbn in E; inversion E; eauto. }
  assert (St : forall k (s s0 : tstep V) u, s = (if Nat.leb k0 k then ts_add_state v s0 else s0) ->
     (In u (ts_state s) <-> In u (ts_state s0) \/ (u = v /\ k0 <= k))).
  { intros k s s0 u ->. destruct (Nat.leb_spec k0 k); cbn [ts_add_state ts_state]; rewrite ?In_oadd; split; intros G; tauto || (destruct G as [G|[_ G]]; [tauto|lia]). }
  assert (Ad : forall k (s s0 : tstep V), s = (if Nat.leb k0 k then ts_add_state v s0 else s0) ->
     ts_adjdeps s = ts_adjdeps s0 /\ ts_blocks s = ts_blocks s0 /\ ts_revised s = ts_revised s0).
  { intros k s s0 ->. destruct (Nat.leb k0 k); auto. }
  constructor.
  - intros E. apply (f_equal (@length _)) in E. rewrite length_map_from in E. cbn in E. lia.
  - rewrite flat_map_from by reflexivity. exact h2.
  - intros k s E u. destruct (N k s E) as [s0 [E0 Es]]. destruct (Ad _ _ _ Es) as [A [B _]].
    rewrite length_map_from. unfold outs_in. rewrite A, B. now apply h3.
  - intros k s b d E Hb Hd. destruct (N k s E) as [s0 [E0 Es]]. destruct (Ad _ _ _ Es) as [A [B _]]. rewrite B in Hb.
    destruct (h4 k s0 b d E0 Hb Hd) as [G|G]; [left; apply (St _ _ _ _ Es); tauto|right; now rewrite A].
  - intros k s s' u E E' Hu. destruct (N k s E) as [s0 [E0 Es]], (N _ s' E') as [s0' [E0' Es']].
    destruct (Ad _ _ _ Es) as [A _]. unfold known. rewrite A, (St _ _ _ u Es).
    apply (St _ _ _ _ Es') in Hu. destruct Hu as [Hu|[-> Hk]].
    + destruct (h5 k s0 s0' u E0 E0' Hu); tauto.
    + destruct (Nat.le_gt_cases k0 k) as [G|G]; [tauto|].
      assert (k = Z.to_nat (lu v)) by lia. assert (G0 : (0 <= lu v)%Z) by lia.
      destruct (h6 v G0) as [s1 [B1 B2]]. replace (Z.to_nat (lu v)) with k in B1. assert (s1 = s0) by congruence. subst s1. destruct B2; tauto.
  - intros u Hu. unfold set_last in Hu |- *. destruct (Nat.eqb_spec u v) as [Huv|Hne]; [subst u|].
    + rewrite Nat2Z.id. destruct (nth_error l (length l - 1)) as [s0|] eqn:E0; [|apply nth_error_None in E0; lia].
      exists (if Nat.leb k0 (length l - 1) then ts_add_state v s0 else s0). split; [rewrite nth_map_from, E0; destruct (Nat.leb k0 (length l - 1)); reflexivity|].
      destruct (Nat.leb_spec k0 (length l - 1)) as [G|G].
      * left. cbn. apply In_oadd. now right.
      * assert (K : Z.to_nat (lu v) = length l - 1) by lia. assert (G0 : (0 <= lu v)%Z) by lia.
        destruct (h6 v G0) as [s1 [B1 B2]]. rewrite K in B1. assert (s1 = s0) by congruence. subst s1. exact B2.
    + destruct (h6 u Hu) as [s0 [B1 B2]]. exists (if Nat.leb k0 (Z.to_nat (lu u)) then ts_add_state v s0 else s0).
      split; [rewrite nth_map_from, B1; destruct (Nat.leb k0 (Z.to_nat (lu u))); reflexivity|].
      destruct (Nat.leb k0 (Z.to_nat (lu u))); [|exact B2]. unfold known in *. cbn. rewrite In_oadd. tauto.
  - intros k s u E Hu. destruct (N k s E) as [s0 [E0 Es]]. destruct (Ad _ _ _ Es) as [A _]. unfold known in Hu.
    rewrite A, (St _ _ _ u Es) in Hu. unfold set_last. destruct (Nat.eqb_spec u v) as [Huv|Hne]; [subst u|].
    + apply nth_error_some_lt in E0. lia.
    + apply (h7 k s0 u E0). unfold known. tauto.
  - intros u. unfold set_last. destruct (Nat.eqb u v); [lia|apply h8].
  - intros k s j s' u E E' Hu Hu'. destruct (N k s E) as [s0 [E0 Es]], (N _ s' E') as [s0' [E0' Es']].
    destruct (Ad _ _ _ Es') as [A _]. rewrite A in Hu'. apply (St _ _ _ _ Es) in Hu. destruct Hu as [Hu|[-> Hk]].
    + eapply h9; eauto.
    + assert (Z.of_nat j <= lu v)%Z by (apply (h7 j s0' v E0'); now right). lia.
  - intros k s E. destruct (N k s E) as [s0 [E0 Es]]. destruct (Ad _ _ _ Es) as [_ [_ R]]. rewrite R. eauto.
Qed.

Lemma ls_add_out : forall l lu pend bs v, LS l lu pend bs -> lu v = (-1)%Z ->
  LS (map_from (length l - 1) (ts_add_adjdep v) l) (set_last lu v (Z.of_nat (length l - 1))) (v :: pend) bs.
Proof.
  intros l lu pend bs v H Hv. destruct H as [h1 h2 h3 h4 h5 h6 h7 h8 h9 h10].
  set (k0 := length l - 1).
  assert (Hlen : 0 < length l) by (destruct l; [now elim h1|cbn; lia]).
  assert (Un : forall k s, nth_error l k = Some s -> ~ known s v).
  { intros k s E K. pose proof (h7 k s v E K). lia. }
  assert (N : forall k s, nth_error (map_from k0 (ts_add_adjdep v) l) k = Some s -> exists s0, nth_error l k = Some s0 /\
     s = if Nat.leb k0 k then ts_add_adjdep v s0 else s0).
  { intros k s E. rewrite nth_map_from in E. destruct (Nat.leb k0 k); destruct (nth_error l k) as [s0|]; cbn in E; inversion E; eauto. }
  assert (Ad : forall k (s s0 : tstep V) u, s = (if Nat.leb k0 k then ts_add_adjdep v s0 else s0) ->
     (In u (ts_adjdeps s) <-> In u (ts_adjdeps s0) \/ (u = v /\ k0 <= k))).
  { intros k s s0 u ->. destruct (Nat.leb_spec k0 k); cbn [ts_add_adjdep ts_adjdeps]; rewrite ?In_oadd; split; intros G; tauto || (destruct G as [G|[_ G]]; [tauto|lia]). }
  assert (St : forall k (s s0 : tstep V), s = (if Nat.leb k0 k then ts_add_adjdep v s0 else s0) ->
     ts_state s = ts_state s0 /\ ts_blocks s = ts_blocks s0 /\ ts_revised s = ts_revised s0).
  { intros k s s0 ->. destruct (Nat.leb k0 k); auto. }
  constructor.
  - intros E. apply (f_equal (@length _)) in E. rewrite length_map_from in E. cbn in E. lia.
  - rewrite flat_map_from by reflexivity. exact h2.
  - intros k s E u. destruct (N k s E) as [s0 [E0 Es]]. destruct (St _ _ _ Es) as [_ [B _]].
    rewrite length_map_from. rewrite (Ad _ _ _ u Es). unfold outs_in. rewrite B. rewrite (h3 k s0 E0 u).
    apply nth_error_some_lt in E0. unfold outs_in. cbn [In]. split.
    + intros [[G|[G1 G2]]|[-> G]]; [tauto|tauto|]. right. split; [lia|auto].
    + intros [G|[G1 [G2|G2]]]; [tauto| |tauto]. right. split; [auto|lia].
  - intros k s b d E Hb Hd. destruct (N k s E) as [s0 [E0 Es]]. destruct (St _ _ _ Es) as [A [B _]]. rewrite B in Hb.
    unfold known. rewrite A, (Ad _ _ _ d Es). destruct (h4 k s0 b d E0 Hb Hd); tauto.
  - intros k s s' u E E' Hu. destruct (N k s E) as [s0 [E0 Es]], (N _ s' E') as [s0' [E0' Es']].
    destruct (St _ _ _ Es) as [A _], (St _ _ _ Es') as [A' _]. unfold known. rewrite A, (Ad _ _ _ u Es). rewrite A' in Hu.
    destruct (h5 k s0 s0' u E0 E0' Hu); tauto.
  - intros u Hu. unfold set_last in Hu |- *. destruct (Nat.eqb_spec u v) as [Huv|Hne]; [subst u|].
    + rewrite Nat2Z.id. destruct (nth_error l (length l - 1)) as [s0|] eqn:E0; [|apply nth_error_None in E0; lia].
      rewrite nth_map_from. fold k0 in E0. fold k0. rewrite E0, Nat.leb_refl. cbn. eexists. split; [reflexivity|]. right. cbn. apply In_oadd. now right.
    + destruct (h6 u Hu) as [s0 [B1 B2]]. exists (if Nat.leb k0 (Z.to_nat (lu u)) then ts_add_adjdep v s0 else s0).
      split; [rewrite nth_map_from, B1; destruct (Nat.leb k0 (Z.to_nat (lu u))); reflexivity|].
      destruct (Nat.leb k0 (Z.to_nat (lu u))); [|exact B2]. unfold known in *. cbn. rewrite In_oadd. tauto.
  - intros k s u E Hu. destruct (N k s E) as [s0 [E0 Es]]. destruct (St _ _ _ Es) as [A _]. unfold known in Hu.
    rewrite A, (Ad _ _ _ u Es) in Hu. unfold set_last. destruct (Nat.eqb_spec u v) as [Huv|Hne]; [subst u|].
    + apply nth_error_some_lt in E0. lia.
    + apply (h7 k s0 u E0). unfold known. tauto.
  - intros u. unfold set_last. destruct (Nat.eqb u v); [lia|apply h8].
  - intros k s j s' u E E' Hu Hu'. destruct (N k s E) as [s0 [E0 Es]], (N _ s' E') as [s0' [E0' Es']].
    destruct (St _ _ _ Es) as [A _]. rewrite A in Hu. apply (Ad _ _ _ _ Es') in Hu'. destruct Hu' as [Hu'|[-> Hk]].
    + eapply h9; eauto.
    + exfalso. apply (Un k s0 E0). now left.
  - intros k s E. destruct (N k s E) as [s0 [E0 Es]]. destruct (St _ _ _ Es) as [_ [_ R]]. rewrite R. eauto.
Qed.

(** A change of the last step that only adds to its blocks. *)
Lemma ls_last_step : forall l x lu pend pend' bs bs' (y : tstep V), LS (l ++ [x]) lu pend bs ->
  ts_state y = ts_state x -> ts_adjdeps y = ts_adjdeps x -> ts_revised y = ts_revised x ->
  flat_map (@ts_blocks V) l ++ ts_blocks y = bs' ->
  (forall v, In v (outs_in x) \/ In v pend <-> In v (outs_in y) \/ In v pend') ->
  (forall b d, In b (ts_blocks y) -> In d (b_deps b) -> known x d) ->
  LS (l ++ [y]) lu pend' bs'.
Proof.
  intros l x lu pend pend' bs bs' y H Hs Ha Hr Hf Ho Hd. destruct H as [h1 h2 h3 h4 h5 h6 h7 h8 h9 h10].
  assert (N : forall k s, nth_error (l ++ [y]) k = Some s -> exists s0, nth_error (l ++ [x]) k = Some s0 /\
     ts_state s = ts_state s0 /\ ts_adjdeps s = ts_adjdeps s0 /\ ts_revised s = ts_revised s0 /\ ((s = s0 /\ k < length l) \/ (k = length l /\ s = y /\ s0 = x))).
  { intros k s E. destruct (last_cases _ _ _ _ E) as [[L E']|[-> ->]].
    - exists s. rewrite nth_error_app1 by exact L. repeat split; auto.
    - exists x. rewrite nth_last. repeat split; auto. }
  assert (Lx : nth_error (l ++ [x]) (length l) = Some x) by apply nth_last.
  assert (Len : length (l ++ [y]) = length (l ++ [x])) by (rewrite !app_length; reflexivity).
  constructor.
  - destruct l; discriminate.
  - rewrite flat_map_app. cbn. rewrite app_nil_r. exact Hf.
  - intros k s E v. destruct (N k s E) as [s0 [E0 [A [B [_ C]]]]]. rewrite B, (h3 k s0 E0 v), Len. rewrite app_length. cbn [length].
    destruct C as [[-> L]|[-> [-> ->]]].
    + split; (intros [G|[G _]]; [tauto|lia]).
    + replace (S (length l)) with (length l + 1) by lia. specialize (Ho v). tauto.
  - intros k s b d E Hb Hdd. destruct (N k s E) as [s0 [E0 [A [B [_ C]]]]]. unfold known. rewrite A, B.
    destruct C as [[-> L]|[-> [-> ->]]]; [eapply h4; eauto|eapply Hd; eauto].
  - intros k s s' v E E' Hv. destruct (N k s E) as [s0 [E0 [A [B _]]]], (N _ s' E') as [s0' [E0' [A' _]]].
    unfold known. rewrite A, B. rewrite A' in Hv. eapply h5; eauto.
  - intros v Hv. destruct (h6 v Hv) as [s0 [E0 K]]. destruct (last_cases _ _ _ _ E0) as [[L E']|[Ek ->]].
    + exists s0. rewrite nth_error_app1 by exact L. auto.
    + exists y. rewrite Ek, nth_last. split; [reflexivity|]. unfold known. rewrite Hs, Ha. exact K.
  - intros k s v E K. destruct (N k s E) as [s0 [E0 [A [B _]]]]. unfold known in K. rewrite A, B in K. eapply h7; eauto.
  - exact h8.
  - intros k s j s' v E E' Hv Hv'. destruct (N k s E) as [s0 [E0 [A [B _]]]], (N _ s' E') as [s0' [E0' [A' [B' _]]]].
    rewrite A in Hv. rewrite B' in Hv'. eapply h9; eauto.
  - intros k s E. destruct (N k s E) as [s0 [E0 [_ [_ [R _]]]]]. rewrite R. eauto.
Qed.

Lemma ls_append : forall l lu bs, LS l lu [] bs -> LS (l ++ [ts_new]) lu [] bs.
Proof.
  intros l lu bs H. destruct H as [h1 h2 h3 h4 h5 h6 h7 h8 h9 h10].
  assert (E0 : forall v, ~ known (@ts_new V) v) by (intros v [K|K]; destruct K).
  constructor; auto.
  - destruct l; discriminate.
  - rewrite flat_map_app. cbn. now rewrite app_nil_r.
  - intros k s E v. destruct (last_cases _ _ _ _ E) as [[L E']|[-> ->]]; [rewrite (h3 k s E' v)|]; cbn; tauto.
  - intros k s b d E Hb Hd. destruct (last_cases _ _ _ _ E) as [[L E']|[-> ->]]; [eapply h4; eauto|destruct Hb].
  - intros k s s' v E E' Hv. destruct (last_cases _ _ _ _ E') as [[L E'']|[Ek ->]]; [|destruct Hv].
    rewrite nth_error_app1 in E by lia. eapply h5; eauto.
  - intros v Hv. destruct (h6 v Hv) as [s [E K]]. exists s. split; [|exact K]. rewrite nth_error_app1; [exact E|]. eapply nth_error_some_lt; eauto.
  - intros k s v E K. destruct (last_cases _ _ _ _ E) as [[L E']|[-> ->]]; [eapply h7; eauto|elim (E0 v K)].
  - intros k s j s' v E E' Hv Hv'. destruct (last_cases _ _ _ _ E) as [[L F1]|[-> ->]]; [|destruct Hv].
    destruct (last_cases _ _ _ _ E') as [[L' F2]|[-> ->]]; [|destruct Hv']. eapply h9; eauto.
  - intros k s E. destruct (last_cases _ _ _ _ E) as [[L E']|[-> ->]]; [eauto|reflexivity].
Qed.

(** Stored checkpoints do not matter. *)
Definition ts_core (s : tstep V) := (ts_blocks s, ts_state s, ts_adjdeps s, ts_revised s).
Lemma ls_core : forall l l' lu pend bs, map ts_core l' = map ts_core l -> LS l lu pend bs -> LS l' lu pend bs.
Proof.
  intros l l' lu pend bs M H. destruct H as [h1 h2 h3 h4 h5 h6 h7 h8 h9 h10].
  assert (Len : length l' = length l) by (rewrite <- (map_length ts_core l'), M; apply map_length).
  assert (N : forall k s, nth_error l' k = Some s -> exists s0, nth_error l k = Some s0 /\ ts_core s = ts_core s0).
  { intros k s E. pose proof (map_nth_error ts_core k l' E) as A. rewrite M, nth_error_map in A.
    destruct (nth_error l k) as [s0|]; [|discriminate]. exists s0. split; [reflexivity|]. cbn in A. congruence. }
  assert (N' : forall k s, nth_error l k = Some s -> exists s0, nth_error l' k = Some s0 /\ ts_core s0 = ts_core s).
  { intros k s E. pose proof (map_nth_error ts_core k l E) as A. rewrite <- M, nth_error_map in A.
    destruct (nth_error l' k) as [s0|]; [|discriminate]. exists s0. split; [reflexivity|]. cbn in A. congruence. }
  assert (P : forall s s0, ts_core s = ts_core s0 -> ts_blocks s = ts_blocks s0 /\ ts_state s = ts_state s0 /\ ts_adjdeps s = ts_adjdeps s0 /\ ts_revised s = ts_revised s0).
  { intros s s0 E. unfold ts_core in E. repeat split; congruence. }
  assert (FM : forall a b, map ts_core a = map ts_core b -> flat_map (@ts_blocks V) a = flat_map (@ts_blocks V) b).
  { induction a as [|x a IH]; intros [|y b] E; try discriminate; [reflexivity|]. cbn in *. inversion E. f_equal; auto. }
  constructor.
  - intros ->. destruct l; [now elim h1|discriminate].
  - rewrite (FM _ _ M). exact h2.
  - intros k s E v. destruct (N k s E) as [s0 [E0 C]]. destruct (P _ _ C) as [A1 [A2 [A3 A4]]]. rewrite Len. unfold outs_in. rewrite A1, A3. now apply h3.
  - intros k s b d E Hb Hd. destruct (N k s E) as [s0 [E0 C]]. destruct (P _ _ C) as [A1 [A2 [A3 A4]]]. unfold known. rewrite A1 in Hb. rewrite A2, A3. eapply h4; eauto.
  - intros k s s' v E E' Hv. destruct (N k s E) as [s0 [E0 C]], (N _ s' E') as [s1 [E1 C1]]. destruct (P _ _ C) as [A1 [A2 [A3 A4]]], (P _ _ C1) as [B1 [B2 [B3 B4]]].
    unfold known. rewrite A2, A3. rewrite B2 in Hv. eapply h5; eauto.
  - intros v Hv. destruct (h6 v Hv) as [s [E K]]. destruct (N' _ s E) as [s0 [E0 C]]. destruct (P _ _ C) as [A1 [A2 [A3 A4]]]. exists s0. split; [exact E0|]. unfold known. rewrite A2, A3. exact K.
  - intros k s v E K. destruct (N k s E) as [s0 [E0 C]]. destruct (P _ _ C) as [A1 [A2 [A3 A4]]]. unfold known in K. rewrite A2, A3 in K. eapply h7; eauto.
  - exact h8.
  - intros k s j s' v E E' Hv Hv'. destruct (N k s E) as [s0 [E0 C]], (N _ s' E') as [s1 [E1 C1]]. destruct (P _ _ C) as [A1 [A2 [A3 A4]]], (P _ _ C1) as [B1 [B2 [B3 B4]]].
    rewrite A2 in Hv. rewrite B3 in Hv'. eapply h9; eauto.
  - intros k s E. destruct (N k s E) as [s0 [E0 C]]. destruct (P _ _ C) as [A1 [A2 [A3 A4]]]. rewrite A4. eauto.
Qed.

Lemma ls_ext : forall l lu lu' pend bs, (forall v, lu' v = lu v) -> LS l lu pend bs -> LS l lu' pend bs.
Proof.
  intros l lu lu' pend bs E H. destruct H as [h1 h2 h3 h4 h5 h6 h7 h8 h9 h10]. constructor; auto; intros; rewrite E in *; eauto.
Qed.
End Steps.
