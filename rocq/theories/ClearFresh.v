(** After any history, a cleared tape and new objects: nothing of the history shows. *)
From Coq Require Import List Arith ZArith Lia Bool.
From Verif Require Import Base Model BaseFacts Graph Record Spec RecordFacts Replay ReplayStep ReplayExec History Session Surgery Coll RFull SpecClear ClearTape.
Import ListNotations.

Section Twin.
Context {V : Type} (F : fops V).
Context (n0 x0 : nat) (old : list nat).
Implicit Types (w : world V) (h : heap V).

(** Two worlds that differ only in objects below [n0], block variables below [x0] and old controls. *)
Record twin w w' : Prop := {
  tw_next : w_next w = w_next w';
  tw_tape : w_tape w = w_tape w';
  tw_ann : w_ann w = w_ann w';
  tw_len : length (w_objs w) = length (w_objs w');
  tw_objs : forall o, n0 <= o -> nth_error (w_objs w) o = nth_error (w_objs w') o;
  tw_heap : forall v, x0 <= v -> v < w_next w -> w_heap w v = w_heap w' v;
  tw_ctrls : w_ctrls w = old ++ w_ctrls w';
  tw_n0 : n0 <= length (w_objs w);
  tw_x0 : x0 <= w_next w;
  tw_bv : forall o ob v, n0 <= o -> nth_error (w_objs w) o = Some ob -> o_bv ob = Some v -> x0 <= v;
  tw_vars : forall v, In v (vars_of (flat w)) -> x0 <= v
}.
Context (Hold : forall v, In v old -> v < x0).

Lemma tw_with_tape : forall f w w', twin w w' -> (forall v, In v (vars_of (t_flat (f (w_tape w)))) -> x0 <= v) -> twin (with_tape f w) (with_tape f w').
Proof. intros f w w' T. destruct T. constructor; cbn; auto. now rewrite tw_tape0. Qed.
Lemma flat_state : forall (t : tape V) v z, t_flat (add_to_state t v z) = t_flat t.
Proof. intros. unfold add_to_state. cbn. apply flat_ensure'. Qed.
Lemma flat_adjdeps : forall (t : tape V) v z, t_flat (add_to_adjdeps t v z) = t_flat t.
Proof. intros. unfold add_to_adjdeps. cbn. apply flat_ensure'. Qed.
Lemma vars_add : forall w w' b, twin w w' -> (forall v, In v (b_deps b) -> x0 <= v) -> (forall v, In v (b_outs b) -> x0 <= v) ->
  forall v, In v (vars_of (t_flat (add_block (w_tape w) b))) -> x0 <= v.
Proof.
  intros w w' b T H1 H2 v H. rewrite flat_add_block in H. pose proof (tw_vars _ _ T v) as Q. unfold flat in Q.
  unfold vars_of, deps_of, outs_of in *. rewrite !flat_map_app, !in_app_iff in H. rewrite in_app_iff in Q. cbn in H. rewrite !app_nil_r in H. firstorder.
Qed.
Lemma vars_push : forall (l : list (block V)) u v, In v (vars_of (map_last (push_out u) l)) -> In v (vars_of l) \/ v = u.
Proof.
  induction l as [|b r IH]; intros u v H; [left; exact H|]. unfold vars_of, deps_of, outs_of in *. cbn in H. destruct r as [|b2 r].
  - cbn in *. rewrite !app_nil_r, !in_app_iff in *. cbn in H. firstorder.
  - cbn [flat_map] in *. rewrite !in_app_iff in *. specialize (IH u v). cbn [flat_map] in IH. rewrite !in_app_iff in IH. tauto.
Qed.

Lemma tw_upd : forall f v w w', twin w w' -> x0 <= v -> twin (with_heap (fun h => upd h v f) w) (with_heap (fun h => upd h v f) w').
Proof.
  intros f v w w' T Hv. destruct T. constructor; cbn; auto.
  intros u A B. unfold upd. destruct (Nat.eqb u v) eqn:E; [|auto]. apply Nat.eqb_eq in E. subst u. now rewrite tw_heap0.
Qed.

Lemma tw_create : forall w w' o, twin w w' -> n0 <= o ->
  twin (fst (create_bv w o)) (fst (create_bv w' o)) /\ snd (create_bv w o) = snd (create_bv w' o) /\ x0 <= snd (create_bv w o) /\
  (o < length (w_objs w) -> snd (create_bv w o) < w_next (fst (create_bv w o))).
Proof.
  intros w w' o T Ho. unfold create_bv. rewrite (tw_objs _ _ T o Ho).
  destruct (nth_error (w_objs w') o) as [ob|] eqn:E; cbn [fst snd].
  - split; [|split; [exact (tw_next _ _ T)|split; [exact (tw_x0 _ _ T)|cbn; lia]]].
    destruct T. constructor; cbn; auto; try congruence.
    + now rewrite !length_list_set.
    + intros i Hi. rewrite !nth_list_set. destruct (Nat.eqb o i); [|auto]. rewrite tw_objs0 by exact Ho. now rewrite tw_next0.
    + intros v A B. rewrite <- tw_next0. unfold upd. destruct (Nat.eqb_spec v (w_next w)); [reflexivity|]. apply tw_heap0; lia.
    + now rewrite length_list_set.
    + intros i b v Hi. rewrite nth_list_set. destruct (Nat.eqb_spec o i) as [->|]; [|intros A B; eapply tw_bv0; eauto].
      rewrite tw_objs0 by exact Ho. rewrite E. intros A B. injection A as <-. cbn in B. injection B as <-. exact tw_x1.
  - split; [exact T|]. split; [exact (tw_next _ _ T)|]. split; [exact (tw_x0 _ _ T)|].
    intros H. rewrite (tw_len _ _ T) in H. apply nth_error_None in E. lia.
Qed.

Lemma tw_get : forall w w' o, twin w w' -> n0 <= o ->
  twin (fst (get_bv w o)) (fst (get_bv w' o)) /\ snd (get_bv w o) = snd (get_bv w' o) /\ x0 <= snd (get_bv w o).
Proof.
  intros w w' o T Ho. unfold get_bv. pose proof (tw_create w w' o T Ho) as [C1 [C2 [C3 _]]]. rewrite (tw_objs _ _ T o Ho).
  destruct (nth_error (w_objs w') o) as [ob|] eqn:E.
  - destruct (o_bv ob) as [v|] eqn:Eb; [|now rewrite C2 in *].
    cbn. split; [exact T|]. split; [reflexivity|]. rewrite <- (tw_objs _ _ T o Ho) in E. exact (tw_bv _ _ T o ob v Ho E Eb).
  - cbn. split; [exact T|]. split; [exact (tw_next _ _ T)|exact (tw_x0 _ _ T)].
Qed.

(** Writes to the cell of a variable that may not exist yet are harmless. *)
Lemma tw_will_dep : forall w w' v, twin w w' -> x0 <= v -> v < w_next w -> twin (will_dep w v) (will_dep w' v).
Proof.
  intros w w' v T Hv Hlt. unfold will_dep.
  pose proof (tw_upd (save_output false) v w w' T Hv) as T1.
  set (w1 := with_heap (fun h => upd h v (save_output false)) w) in *. set (w1' := with_heap (fun h => upd h v (save_output false)) w') in *.
  assert (Eb : w_heap w1 v = w_heap w1' v) by (apply (tw_heap _ _ T1); [exact Hv|exact Hlt]).
  rewrite Eb, (tw_tape _ _ T1).
  set (c := match t_latest (w_tape w1') with None => true | Some c => Z.ltb (bv_last (w_heap w1' v)) c end).
  assert (T2 : twin (if c then with_heap (fun h => upd h v (save_output false)) w1 else w1)
                    (if c then with_heap (fun h => upd h v (save_output false)) w1' else w1')).
  { destruct c; [apply tw_upd|]; assumption. }
  set (w2 := if c then _ else w1) in *. set (w2' := if c then _ else w1') in *.
  assert (T3 : twin (with_tape (fun t => add_to_state t v (bv_last (w_heap w1' v))) w2) (with_tape (fun t => add_to_state t v (bv_last (w_heap w1' v))) w2')).
  { apply tw_with_tape; [exact T2|]. intros u. rewrite flat_state. exact (tw_vars _ _ T2 u). }
  rewrite (tw_tape _ _ T3). apply tw_upd; assumption.
Qed.
Lemma tw_will_out : forall w w' v, twin w w' -> x0 <= v -> twin (will_out w v) (will_out w' v).
Proof.
  intros w w' v T Hv. unfold will_out. rewrite (tw_tape _ _ T).
  pose proof (tw_upd (set_times (latest_timestep (w_tape w')) (latest_timestep (w_tape w'))) v w w' T Hv) as T1.
  cbn [w_tape with_heap] in *. rewrite (tw_tape _ _ T).
  assert (T2 : forall c : bool, twin (if c then with_heap (fun h => upd h v (save_output true)) (with_heap (fun h => upd h v (set_times (latest_timestep (w_tape w')) (latest_timestep (w_tape w')))) w)
      else with_heap (fun h => upd h v (set_times (latest_timestep (w_tape w')) (latest_timestep (w_tape w')))) w)
    (if c then with_heap (fun h => upd h v (save_output true)) (with_heap (fun h => upd h v (set_times (latest_timestep (w_tape w')) (latest_timestep (w_tape w')))) w')
      else with_heap (fun h => upd h v (set_times (latest_timestep (w_tape w')) (latest_timestep (w_tape w')))) w')).
  { intros [|]; [apply tw_upd|]; assumption. }
  apply tw_with_tape; [apply T2|]. intros u. rewrite flat_adjdeps. exact (tw_vars _ _ (T2 _) u).
Qed.

Lemma get_bv_next : forall w o, o < length (w_objs w) -> (forall ob v, nth_error (w_objs w) o = Some ob -> o_bv ob = Some v -> v < w_next w) ->
  snd (get_bv w o) < w_next (fst (get_bv w o)).
Proof.
  intros w o Ho H. unfold get_bv, create_bv. destruct (nth_error (w_objs w) o) as [ob|] eqn:E; [|apply nth_error_None in E; lia].
  destruct (o_bv ob) as [v|] eqn:Eb; cbn; [eauto|lia].
Qed.

(** New objects' block variables and those of controls exist. *)
Definition exist w := (forall o ob v, n0 <= o -> nth_error (w_objs w) o = Some ob -> o_bv ob = Some v -> v < w_next w) /\
  Forall (fun c => c < w_next w) (w_ctrls w).
Lemma ex_create : forall w o, exist w -> exist (fst (create_bv w o)).
Proof.
  intros w o H. unfold create_bv. destruct (nth_error (w_objs w) o) as [ob|] eqn:E; [|exact H].
  destruct H as [H H']. split; [|eapply Forall_impl; [|exact H']; cbn; intros; lia].
  intros i b v Hi. cbn. rewrite nth_list_set, E. destruct (Nat.eqb_spec o i) as [->|].
  - intros A B. injection A as <-. injection B as <-. lia.
  - intros A B. pose proof (H i b v Hi A B). lia.
Qed.
Lemma ex_get : forall w o, exist w -> exist (fst (get_bv w o)).
Proof.
  intros w o H. unfold get_bv. destruct (nth_error (w_objs w) o) as [ob|]; [|exact H]. destruct (o_bv ob); [exact H|now apply ex_create].
Qed.
Lemma ex_same : forall w w', w_objs w' = w_objs w -> w_next w' = w_next w -> w_ctrls w' = w_ctrls w -> exist w -> exist w'.
Proof. intros w w' A B C H. unfold exist. rewrite A, B, C. exact H. Qed.
Lemma dep_objs : forall w v, w_objs (will_dep w v) = w_objs w /\ w_next (will_dep w v) = w_next w /\ w_ctrls (will_dep w v) = w_ctrls w.
Proof. intros w v. unfold will_dep. destruct (match t_latest _ with None => true | Some _ => _ end); cbn; auto. Qed.
Lemma out_objs : forall w v, w_objs (will_out w v) = w_objs w /\ w_next (will_out w v) = w_next w /\ w_ctrls (will_out w v) = w_ctrls w.
Proof. intros w v. unfold will_out. cbn. destruct (t_eager (w_tape w)); cbn; auto. Qed.
Lemma get_len : forall w o, length (w_objs (fst (get_bv w o))) = length (w_objs w).
Proof. intros w o. unfold get_bv, create_bv. destruct (nth_error (w_objs w) o) as [ob|]; [destruct (o_bv ob)|]; cbn; rewrite ?length_list_set; reflexivity. Qed.

(** [ok w args]: the arguments are existing new objects *)
Definition ok w args := Forall (fun o => n0 <= o /\ o < length (w_objs w)) args.
Lemma ok_len : forall w w' args, length (w_objs w') = length (w_objs w) -> ok w args -> ok w' args.
Proof. intros w w' args E. unfold ok. now rewrite E. Qed.
Lemma ok_args : forall w args xs, forallb (Nat.leb n0) args = true -> arg_vals w args = Ok xs -> ok w args.
Proof.
  intros w. induction args as [|o r IH]; intros xs A B; [constructor|]. cbn in *. apply andb_true_iff in A as [A1 A2]. apply Nat.leb_le in A1.
  destruct (nth_error (w_objs w) o) eqn:E; [|discriminate]. apply nth_error_some_lt in E. unfold arg_vals in *. cbn in B.
  destruct (mapM _ r) eqn:Er; [|discriminate]. constructor; [auto|]. eapply IH; eauto. 
Qed.
Lemma tw_args : forall w w' args, twin w w' -> forallb (Nat.leb n0) args = true -> arg_vals w args = arg_vals w' args.
Proof.
  intros w w' args T. unfold arg_vals. induction args as [|o r IH]; intros A; [reflexivity|]. cbn in *. apply andb_true_iff in A as [A1 A2]. apply Nat.leb_le in A1.
  rewrite IH by exact A2. now rewrite (tw_objs _ _ T o A1).
Qed.

Definition two w w' := twin w w' /\ exist w.

Lemma tw_get_bvs : forall os w w', two w w' -> ok w os ->
  two (fst (get_bvs w os)) (fst (get_bvs w' os)) /\ snd (get_bvs w os) = snd (get_bvs w' os) /\
  length (w_objs (fst (get_bvs w os))) = length (w_objs w) /\ (forall v, In v (snd (get_bvs w os)) -> x0 <= v).
Proof.
  induction os as [|o r IH]; intros w w' T H; [cbn; intuition|]. inversion H as [|? ? [H1 H2] H3]; subst. cbn [get_bvs]. destruct T as [T X].
  pose proof (tw_get w w' o T H1) as [A [B B']]. pose proof (ex_get w o X) as X1. pose proof (get_len w o) as L1.
  destruct (get_bv w o) as [w1 v], (get_bv w' o) as [w1' v']. cbn [fst snd] in *. subst v'.
  destruct (IH w1 w1' (conj A X1) (ok_len _ _ _ L1 H3)) as [C [D [E G]]]. destruct (get_bvs w1 r), (get_bvs w1' r). cbn [fst snd] in *. subst.
  split; [exact C|]. split; [reflexivity|]. split; [congruence|]. intros u [<-|K]; auto.
Qed.
Lemma tw_add_deps : forall os w w', two w w' -> ok w os ->
  two (fst (add_deps w os)) (fst (add_deps w' os)) /\ snd (add_deps w os) = snd (add_deps w' os) /\
  length (w_objs (fst (add_deps w os))) = length (w_objs w) /\ (forall v, In v (snd (add_deps w os)) -> x0 <= v).
Proof.
  induction os as [|o r IH]; intros w w' T H; [cbn; intuition|]. inversion H as [|? ? [H1 H2] H3]; subst. cbn [add_deps]. destruct T as [T X]. unfold add_dep.
  pose proof (tw_get w w' o T H1) as [A [B B']]. pose proof (ex_get w o X) as X1. pose proof (get_len w o) as L1.
  pose proof (get_bv_next w o H2 (fun ob v => proj1 X o ob v H1)) as N.
  destruct (get_bv w o) as [w1 v], (get_bv w' o) as [w1' v']. cbn [fst snd] in *. subst v'.
  pose proof (tw_will_dep w1 w1' v A B' N) as A2. destruct (dep_objs w1 v) as [D1 [D2 D3]].
  assert (X2 : exist (will_dep w1 v)) by (eapply ex_same; eauto).
  assert (O2 : ok (will_dep w1 v) r) by (eapply ok_len; [|exact H3]; rewrite D1; exact L1).
  destruct (IH _ _ (conj A2 X2) O2) as [C [D [E G]]]. destruct (add_deps (will_dep w1 v) r), (add_deps (will_dep w1' v) r). cbn [fst snd] in *. subst.
  split; [exact C|]. split; [reflexivity|]. split; [congruence|]. intros u [<-|K]; auto.
Qed.
Lemma tw_add_outs : forall os w w', two w w' -> ok w os ->
  two (fst (add_outs w os)) (fst (add_outs w' os)) /\ snd (add_outs w os) = snd (add_outs w' os) /\ (forall v, In v (snd (add_outs w os)) -> x0 <= v).
Proof.
  induction os as [|o r IH]; intros w w' T H; [cbn; intuition|]. inversion H as [|? ? [H1 H2] H3]; subst. cbn [add_outs]. destruct T as [T X].
  pose proof (tw_create w w' o T H1) as [A [B [B' _]]]. pose proof (ex_create w o X) as X1.
  assert (L1 : length (w_objs (fst (create_bv w o))) = length (w_objs w)).
  { unfold create_bv. destruct (nth_error _ _); cbn; rewrite ?length_list_set; reflexivity. }
  destruct (create_bv w o) as [w1 v], (create_bv w' o) as [w1' v']. cbn [fst snd] in *. subst v'.
  pose proof (tw_will_out w1 w1' v A B') as A2. destruct (out_objs w1 v) as [D1 [D2 D3]].
  assert (X2 : exist (will_out w1 v)) by (eapply ex_same; eauto).
  assert (O2 : ok (will_out w1 v) r) by (eapply ok_len; [|exact H3]; rewrite D1; exact L1).
  destruct (IH _ _ (conj A2 X2) O2) as [C [D G]]. destruct (add_outs (will_out w1 v) r), (add_outs (will_out w1' v) r). cbn [fst snd] in *. subst.
  split; [exact C|]. split; [reflexivity|]. intros u [<-|K]; auto.
Qed.

Lemma tw_new : forall x w w', two w w' -> two (fst (new_obj w x)) (fst (new_obj w' x)) /\ snd (new_obj w x) = snd (new_obj w' x) /\
  n0 <= snd (new_obj w x) /\ snd (new_obj w x) < length (w_objs (fst (new_obj w x))).
Proof.
  intros x w w' [T X]. unfold new_obj. cbn [fst snd]. split; [|split; [exact (tw_len _ _ T)|split; [exact (tw_n0 _ _ T)|cbn; rewrite app_length; cbn; lia]]].
  split.
  - destruct T. constructor; cbn; auto.
    + rewrite !app_length. cbn. lia.
    + intros o Ho. destruct (Nat.lt_ge_cases o (length (w_objs w))).
      * rewrite !nth_error_app1 by lia. auto.
      * rewrite !nth_error_app2 by lia. now rewrite tw_len0.
    + rewrite app_length. lia.
    + intros o ob v Ho A B. destruct (Nat.lt_ge_cases o (length (w_objs w))).
      * rewrite nth_error_app1 in A by lia. eauto.
      * rewrite nth_error_app2 in A by lia. destruct (o - length (w_objs w)) as [|k]; [|destruct k; discriminate]. injection A as <-. discriminate.
  - destruct X as [X X']. split; [|exact X'].
    intros o ob v Ho. cbn. destruct (Nat.lt_ge_cases o (length (w_objs w))) as [L|L].
    + rewrite nth_error_app1 by lia. exact (X o ob v Ho).
    + rewrite nth_error_app2 by lia. destruct (o - length (w_objs w)) as [|k]; [|destruct k; discriminate]. intros A. injection A as <-. discriminate.
Qed.
Lemma tw_new_objs : forall ys w w', two w w' -> two (fst (new_objs w ys)) (fst (new_objs w' ys)) /\ snd (new_objs w ys) = snd (new_objs w' ys) /\
  ok (fst (new_objs w ys)) (snd (new_objs w ys)) /\ length (w_objs w) <= length (w_objs (fst (new_objs w ys))).
Proof.
  induction ys as [|y r IH]; intros w w' T.
  - cbn. split; [exact T|]. split; [reflexivity|]. split; [constructor|lia].
  - cbn [new_objs]. pose proof (tw_new y w w' T) as [A [B [C D]]].
    assert (L : length (w_objs w) <= length (w_objs (fst (new_obj w y)))) by (cbn; rewrite app_length; lia).
    destruct (new_obj w y) as [w1 o], (new_obj w' y) as [w1' o']. cbn [fst snd] in *. subst o'.
    destruct (IH w1 w1' A) as [E [G [H I]]]. destruct (new_objs w1 r) as [w2 os], (new_objs w1' r) as [w2' os']. cbn [fst snd] in *. subst os'.
    split; [exact E|]. split; [reflexivity|]. split; [|lia]. constructor; [split; lia|exact H].
Qed.

Lemma two_tape : forall f w w', two w w' -> (forall v, In v (vars_of (t_flat (f (w_tape w)))) -> x0 <= v) -> two (with_tape f w) (with_tape f w').
Proof. intros f w w' [T X] H. split; [now apply tw_with_tape|exact X]. Qed.
Lemma two_block : forall b w w', two w w' -> (forall v, In v (b_deps b) -> x0 <= v) -> (forall v, In v (b_outs b) -> x0 <= v) ->
  two (with_tape (fun t => add_block t b) w) (with_tape (fun t => add_block t b) w').
Proof. intros b w w' T H1 H2. apply two_tape; [exact T|]. exact (vars_add w w' b (proj1 T) H1 H2). Qed.
Lemma two_push : forall u w w', two w w' -> x0 <= u -> two (with_tape (last_push_out u) w) (with_tape (last_push_out u) w').
Proof.
  intros u w w' T H. apply two_tape; [exact T|]. intros v K. cbn in K. apply vars_push in K as [K| ->]; [|exact H]. exact (tw_vars _ _ (proj1 T) v K).
Qed.

Lemma tw_set : forall w w' o ob, two w w' -> n0 <= o -> nth_error (w_objs w) o <> None ->
  (forall v, o_bv ob = Some v -> x0 <= v /\ v < w_next w) ->
  two (with_objs (fun l => list_set l o ob) w) (with_objs (fun l => list_set l o ob) w').
Proof.
  intros w w' o ob [T X] Ho He Hb. split.
  - destruct T. constructor; cbn; auto.
    + now rewrite !length_list_set.
    + intros i Hi. rewrite !nth_list_set. destruct (Nat.eqb o i); auto. now rewrite tw_objs0 by exact Ho.
    + now rewrite length_list_set.
    + intros i b v Hi. rewrite nth_list_set. destruct (Nat.eqb o i); eauto. destruct (nth_error (w_objs w) o); [|discriminate].
      intros A B. injection A as <-. now apply Hb.
  - destruct X as [X X']. split; [|exact X'].
    intros i b v Hi. cbn. rewrite nth_list_set. destruct (Nat.eqb o i); [|exact (X i b v Hi)]. destruct (nth_error (w_objs w) o); [|discriminate].
    intros A B. injection A as <-. now apply Hb.
Qed.
Lemma tw_assign : forall w w' o x, two w w' -> n0 <= o -> two (assign_obj w o x) (assign_obj w' o x).
Proof.
  intros w w' o x T Ho. pose proof T as [T0 X]. unfold assign_obj. rewrite <- (tw_objs _ _ T0 o Ho).
  destruct (nth_error (w_objs w) o) as [ob|] eqn:E; [|exact T].
  apply tw_set; [|exact Ho|cbn; congruence|cbn; intros v Hv; split; [exact (tw_bv _ _ T0 o ob v Ho E Hv)|exact (proj1 X o ob v Ho E Hv)]].
  split; [|exact X]. destruct T0. constructor; cbn; auto. intros v A B. now rewrite tw_heap0.
Qed.
Lemma tw_clear : forall w w' o, two w w' -> n0 <= o -> two (clear_bv w o) (clear_bv w' o).
Proof.
  intros w w' o T Ho. pose proof T as [T0 X]. unfold clear_bv. rewrite <- (tw_objs _ _ T0 o Ho).
  destruct (nth_error (w_objs w) o) as [ob|] eqn:E; [|exact T]. apply tw_set; auto; [congruence|discriminate].
Qed.
Lemma assign_len : forall w o x, length (w_objs (assign_obj w o x)) = length (w_objs w).
Proof. intros w o x. unfold assign_obj. destruct (nth_error _ _); cbn; rewrite ?length_list_set; reflexivity. Qed.

Lemma tw_get2 : forall w w' o, two w w' -> n0 <= o -> two (fst (get_bv w o)) (fst (get_bv w' o)) /\ snd (get_bv w o) = snd (get_bv w' o) /\ x0 <= snd (get_bv w o).
Proof. intros w w' o [T X] Ho. destruct (tw_get w w' o T Ho) as [A B]. split; [|exact B]. split; [exact A|now apply ex_get]. Qed.
Lemma two_out : forall w w' v, two w w' -> x0 <= v -> two (will_out w v) (will_out w' v).
Proof. intros w w' v [T X] Hv. split; [now apply tw_will_out|]. destruct (out_objs w v) as [A [B C]]. eapply ex_same; eauto. Qed.

Lemma tw_stmt : forall c w w', two w w' -> from_stmt n0 c = true -> two (fst (exec_stmt F w c)) (fst (exec_stmt F w' c)).
Proof.
  intros c w w' T Hf. pose proof T as [T0 X]. pose proof (tw_ann _ _ T0) as Ea.
  destruct c; cbn [exec_stmt from_stmt] in *.
  - apply tw_new. exact T.
  - unfold exec_op. destruct (negb _); [exact T|]. rewrite <- (tw_args w w' args T0 Hf).
    destruct (arg_vals w args) as [xs|] eqn:Ex; [|exact T]. pose proof (ok_args w args xs Hf Ex) as Hok.
    destruct (op_value F k xs) as [y|]; [|exact T]. rewrite <- Ea.
    pose proof (tw_new y w w' T) as [A [B [C D]]].
    assert (L : length (w_objs w) <= length (w_objs (fst (new_obj w y)))) by (cbn; rewrite app_length; lia).
    destruct (new_obj w y) as [w1 o], (new_obj w' y) as [w1' o']. cbn [fst snd] in *. subst o'.
    destruct (w_ann w); [|exact A].
    assert (Hok1 : ok w1 args) by (eapply Forall_impl; [|exact Hok]; cbn; intros; lia).
    destruct (tw_get_bvs args w1 w1' A Hok1) as [A2 [B2 [L2 G2]]]. destruct (get_bvs w1 args) as [w2 ts], (get_bvs w1' args) as [w2' ts']. cbn [fst snd] in *. subst ts'.
    destruct (tw_add_deps args w2 w2' A2 (ok_len _ _ _ L2 Hok1)) as [A3 [B3 [L3 G3]]]. destruct (add_deps w2 args) as [w3 ds], (add_deps w2' args) as [w3' ds']. cbn [fst snd] in *. subst ds'.
    set (w4 := with_tape _ w3). set (w4' := with_tape _ w3').
    assert (A4 : two w4 w4') by (apply two_block; [exact A3|exact G2|intros v []]).
    destruct (tw_get2 w4 w4' o A4 C) as [A5 [B5 C5]]. destruct (get_bv w4 o) as [w5 v], (get_bv w4' o) as [w5' v']. cbn [fst snd] in *. subst v'.
    apply two_push; [now apply two_out|exact C5].
  - unfold exec_fun. destruct (negb _); [exact T|]. rewrite <- (tw_args w w' args T0 Hf).
    destruct (arg_vals w args) as [xs|] eqn:Ex; [|exact T]. pose proof (ok_args w args xs Hf Ex) as Hok. rewrite <- Ea.
    match goal with |- context[let '(_, _) := new_obj ?a _ in _] => set (w1 := a) end.
    match goal with |- two _ (fst (match _ with Ok _ => let '(_, _) := new_obj ?a _ in _ | Err _ => _ end)) => set (w1' := a) end.
    assert (A1 : two w1 w1').
    { unfold w1, w1'. destruct (w_ann w && annotate); [|exact T]. destruct (tw_add_deps args w w' T Hok) as [A3 [B3 [L3 G3]]].
      destruct (add_deps w args) as [w3 ds], (add_deps w' args) as [w3' ds']. cbn [fst snd] in *. subst ds'. apply two_block; [exact A3|exact G3|intros v []]. }
    destruct (op_value F k xs) as [y|]; [|exact A1].
    pose proof (tw_new y w1 w1' A1) as [A [B [C D]]]. destruct (new_obj w1 y) as [w2 o], (new_obj w1' y) as [w2' o']. cbn [fst snd] in *. subst o'.
    destruct (w_ann w && annotate); [|exact A].
    destruct (tw_get2 w2 w2' o A C) as [A5 [B5 C5]]. destruct (get_bv w2 o) as [w5 v], (get_bv w2' o) as [w5' v']. cbn [fst snd] in *. subst v'.
    apply two_push; [now apply two_out|exact C5].
  - unfold exec_user. rewrite <- (tw_args w w' args T0 Hf). destruct (arg_vals w args) as [xs|] eqn:Ex; [|exact T]. pose proof (ok_args w args xs Hf Ex) as Hok. rewrite <- Ea.
    assert (A1 : two (fst (if w_ann w && annotate then add_deps w args else (w, []))) (fst (if w_ann w && annotate then add_deps w' args else (w', []))) /\
                 snd (if w_ann w && annotate then add_deps w args else (w, [])) = snd (if w_ann w && annotate then add_deps w' args else (w', [])) /\
                 (forall v, In v (snd (if w_ann w && annotate then add_deps w args else (w, []))) -> x0 <= v)).
    { destruct (w_ann w && annotate); [|split; [exact T|split; [reflexivity|intros v []]]]. destruct (tw_add_deps args w w' T Hok) as [A3 [B3 [L3 G3]]]. auto. }
    destruct (if w_ann w && annotate then add_deps w args else (w, [])) as [w1 ds], (if w_ann w && annotate then add_deps w' args else (w', [])) as [w1' ds'].
    cbn [fst snd] in A1. destruct A1 as [A1 [<- G1]]. destruct (func xs) as [ys|]; [|exact A1].
    destruct (tw_new_objs ys w1 w1' A1) as [A2 [B2 [C2 _]]]. destruct (new_objs w1 ys) as [w2 os], (new_objs w1' ys) as [w2' os']. cbn [fst snd] in *. subst os'.
    destruct (w_ann w && annotate); [|exact A2].
    destruct (tw_add_outs os w2 w2' A2 C2) as [A3 [B3 G3]]. destruct (add_outs w2 os) as [w3 vs], (add_outs w2' os) as [w3' vs']. cbn [fst snd] in *. subst vs'. now apply two_block.
  - apply andb_true_iff in Hf as [Hf Ho]. apply Nat.leb_le in Ho.
    unfold exec_inpl. rewrite <- (tw_args w w' args T0 Hf), <- (tw_objs _ _ T0 o Ho). destruct (arg_vals w args) as [xs|] eqn:Ex; [|exact T]. pose proof (ok_args w args xs Hf Ex) as Hok. rewrite <- Ea.
    destruct (nth_error (w_objs w) o) eqn:Eo; [|exact T]. apply nth_error_some_lt in Eo.
    assert (A1 : two (fst (if w_ann w && annotate then add_deps w args else (w, []))) (fst (if w_ann w && annotate then add_deps w' args else (w', []))) /\
                 snd (if w_ann w && annotate then add_deps w args else (w, [])) = snd (if w_ann w && annotate then add_deps w' args else (w', [])) /\
                 length (w_objs (fst (if w_ann w && annotate then add_deps w args else (w, [])))) = length (w_objs w) /\
                 (forall v, In v (snd (if w_ann w && annotate then add_deps w args else (w, []))) -> x0 <= v)).
    { destruct (w_ann w && annotate); [|split; [exact T|split; [reflexivity|split; [reflexivity|intros v []]]]]. exact (tw_add_deps args w w' T Hok). }
    destruct (if w_ann w && annotate then add_deps w args else (w, [])) as [w1 ds], (if w_ann w && annotate then add_deps w' args else (w', [])) as [w1' ds'].
    cbn [fst snd] in A1. destruct A1 as [A1 [<- [L1 G1]]]. destruct (func xs) as [y|]; [|exact A1].
    pose proof (tw_assign w1 w1' o y A1 Ho) as A2. destruct (w_ann w && annotate); [|exact A2].
    assert (C2 : ok (assign_obj w1 o y) [o]) by (constructor; [rewrite assign_len; lia|constructor]).
    destruct (tw_add_outs [o] _ _ A2 C2) as [A3 [B3 G3]]. destruct (add_outs (assign_obj w1 o y) [o]) as [w3 vs], (add_outs (assign_obj w1' o y) [o]) as [w3' vs']. cbn [fst snd] in *. subst vs'. now apply two_block.
  - apply Nat.leb_le in Hf. rewrite <- (tw_objs _ _ T0 o Hf). destruct (nth_error (w_objs w) o); [|exact T]. cbn [fst]. apply tw_clear; [now apply tw_assign|exact Hf].
  - split; [|exact X]. destruct T0. constructor; cbn; auto.
  - split; [|exact X]. destruct T0. constructor; cbn; auto.
  - apply two_tape; [exact T|]. exact (tw_vars _ _ T0).
  - apply Nat.leb_le in Hf. rewrite <- (tw_objs _ _ T0 o Hf). destruct (nth_error (w_objs w) o) as [ob|] eqn:E; [|exact T].
    destruct (o_bv ob) as [v|] eqn:Eb; [|exact T].
    replace (referenced w' v) with (referenced w v).
    + destruct (referenced w v); [exact T|]. cbn [fst]. now apply tw_clear.
    + unfold referenced. rewrite (tw_tape _ _ T0), (tw_ctrls _ _ T0). f_equal.
      pose proof (tw_bv _ _ T0 o ob v Hf E Eb) as Hv.
      destruct (mem v (w_ctrls w')) eqn:Em.
      * apply mem_In in Em. apply mem_In. apply in_or_app. now right.
      * apply mem_false in Em. apply mem_false. intros K. apply in_app_or in K as [K|K]; [|contradiction]. apply Hold in K. lia.
  - apply Nat.leb_le in Hf. rewrite <- (tw_objs _ _ T0 o Hf). destruct (nth_error (w_objs w) o) eqn:E; [|exact T].
    assert (N : snd (get_bv w o) < w_next (fst (get_bv w o))).
    { apply get_bv_next; [now apply nth_error_some_lt in E|]. intros ob v. exact (proj1 X o ob v Hf). }
    destruct (tw_get2 w w' o T Hf) as [A5 [B5 C5]]. destruct (get_bv w o) as [w5 v], (get_bv w' o) as [w5' v']. cbn [fst snd] in *. subst v'.
    destruct A5 as [A5 X5]. split.
    + destruct A5. constructor; cbn; auto. now rewrite tw_ctrls0, app_assoc.
    + destruct X5 as [X5 X6]. split; [exact X5|]. cbn. apply Forall_app. split; [exact X6|]. constructor; [exact N|constructor].
  - apply Nat.leb_le in Hf. rewrite <- (tw_objs _ _ T0 o Hf). destruct (nth_error (w_objs w) o); [|exact T].
    now apply tw_get2.
Qed.

Lemma tw_exec : forall p w w', two w w' -> only_from n0 p = true -> two (exec F w p) (exec F w' p).
Proof.
  induction p as [|c r IH]; intros w w' T H; [exact T|]. cbn in H. apply andb_true_iff in H as [H1 H2].
  change (two (exec F (fst (exec_stmt F w c)) r) (exec F (fst (exec_stmt F w' c)) r)). apply IH; [now apply tw_stmt|exact H2].
Qed.
End Twin.

Section Fresh.
Context {V : Type} (F : fops V).
Implicit Types (w : world V).

(** Nothing refers to block variables that do not exist: any history. *)
Definition bounded w := exist 0 w.
Lemma two_refl : forall w, bounded w -> two 0 0 [] w w.
Proof. intros w H. split; [|exact H]. constructor; auto; lia. Qed.
Lemma from_zero : forall c : stmt V, from_stmt 0 c = true.
Proof. assert (A : forall l, forallb (Nat.leb 0) l = true) by (induction l; auto). intros c. destruct c; cbn; rewrite ?A; auto. Qed.
Lemma bounded_stmt : forall w c, bounded w -> bounded (fst (exec_stmt F w c)).
Proof. intros w c H. exact (proj2 (tw_stmt F 0 0 [] (fun v K => match K with end) c w w (two_refl w H) (from_zero c))). Qed.
Lemma bounded_same : forall w w', w_objs w' = w_objs w -> w_next w' = w_next w -> w_ctrls w' = w_ctrls w -> bounded w -> bounded w'.
Proof. intros w w' A B C. now apply ex_same. Qed.
Lemma bounded_zero_of : forall w c, bounded w -> bounded (fst (zero_of F w c)).
Proof.
  intros w c H. unfold zero_of.
  pose proof (bounded_stmt w (SNew (f_zero F)) H) as A. cbn [exec_stmt fst] in A. destruct (new_obj w (f_zero F)) as [w1 z]. cbn [fst] in A.
  pose proof (bounded_stmt w1 (SOp KMul [bv_obj (w_heap w c); z]) A) as B. cbn [exec_stmt fst] in B.
  destruct (exec_op F w1 KMul [bv_obj (w_heap w c); z]) as [w2 [e|]]; [exact B|]. destruct (nth_error (w_objs w2) (S z)); exact B.
Qed.
Lemma bounded_pack : forall comps cs i w ds, bounded w -> bounded (fst (pack F w comps i cs ds)).
Proof.
  intros comps. induction cs as [|c l IH]; intros i w ds H; [exact H|]. cbn [pack]. destruct (selected comps i).
  - destruct ds as [|d ds]; [exact H|]. specialize (IH (S i) w ds H). destruct (pack F w comps (S i) l ds). exact IH.
  - pose proof (bounded_zero_of w c H) as Z. destruct (zero_of F w c) as [w1 [z|e]]; cbn [fst] in Z; [|exact Z].
    specialize (IH (S i) w1 ds Z). destruct (pack F w1 comps (S i) l ds). exact IH.
Qed.
Lemma bounded_hop : forall w o, bounded w -> bounded (hrun1 F w o).
Proof.
  intros w [s|r v p q|r a|r m|r|] H; cbn [hrun1].
  - now apply bounded_stmt.
  - unfold full_call. destruct (negb _); [exact H|]. destruct (negb _); [exact H|].
    destruct (delist _ _); [|exact H]. destruct (p _); [exact H|].
    destruct (rf_call _ _ _ _ _) as [h [j|e]]; [destruct (q _ _)|]; apply (bounded_same w); auto.
  - unfold full_derivative. match goal with |- context[match ?q with Ok _ => _ | Err _ => (w, _) end] => destruct q as [[|c sel]|] end; try exact H.
    match goal with |- context[compute_gradient ?a1 ?a2 ?a3 ?a4 ?a5 ?a6] => destruct (compute_gradient a1 a2 a3 a4 a5 a6) as [h [g|e]] end; [|apply (bounded_same w); auto].
    destruct (fu_comps r) as [|cp l] eqn:E; [destruct g; apply (bounded_same w); auto|].
    assert (C : bounded (fst (pack_cb F (with_heap (fun _ => h) w) r g))).
    { unfold pack_cb. destruct (fu_controls r); try apply bounded_pack; apply (bounded_same w); auto. }
    destruct (pack_cb F (with_heap (fun _ => h) w) r g) as [w2 [[|d ds]|e]]; exact C.
  - unfold full_hessian. match goal with |- context[compute_hessian ?a1 ?a2 ?a3 ?a4 ?a5 ?a6] => destruct (compute_hessian a1 a2 a3 a4 a5 a6) as [h [g|e]] end; apply (bounded_same w); auto.
  - apply (bounded_same w); auto.
  - apply (bounded_same w); auto.
Qed.
Lemma bounded_hrun : forall l w, bounded w -> bounded (hrun F w l).
Proof. induction l as [|o l IH]; intros w H; [exact H|]. cbn. apply IH. now apply bounded_hop. Qed.
Lemma bounded_new : forall ann, bounded (world_new F ann).
Proof. intros ann. split; [|constructor]. intros o ob v _ H. destruct o; discriminate. Qed.

(** The same objects without any past. *)
Definition forgotten w : world V :=
  World (map (fun ob => Obj (o_val ob) None (o_gen ob)) (w_objs w)) (fun _ => bv_new 0 0 (f_zero F)) (w_next w) (w_tape w) (w_ann w) [].
Lemma forgotten_inv : forall w, flat w = [] -> WInv F [] (forgotten w).
Proof.
  intros w E. constructor; cbn; try easy; unfold refs, flat in *; cbn; rewrite ?E; try easy.
  - intros o ob v A B. rewrite nth_error_map in A. destruct (nth_error (w_objs w) o); [|discriminate]. injection A as <-. discriminate.
  - intros v1 v2 [K|[o [ob [A B]]]].
    + exfalso. unfold refs, flat in K. cbn in K. rewrite E in K. destruct K.
    + exfalso. cbn in A. rewrite nth_error_map in A. destruct (nth_error (w_objs w) o); [|discriminate]. injection A as <-. discriminate.
  - split; [exact I|constructor].
Qed.
Lemma forgotten_held : forall w, held (forgotten w) = held w.
Proof. intros w. unfold held, forgotten. cbn. rewrite map_map. reflexivity. Qed.
Lemma forgotten_twin : forall w, flat w = [] -> bounded w -> two (length (w_objs w)) (w_next w) (w_ctrls w) w (forgotten w).
Proof.
  intros w E [H1 H2]. split.
  - constructor; cbn; auto; try lia.
    + now rewrite map_length.
    + intros o Ho. rewrite (proj2 (nth_error_None _ _)) by lia. symmetry. apply nth_error_None. rewrite map_length. lia.
    + now rewrite app_nil_r.
    + intros o ob v Ho A. apply nth_error_some_lt in A. lia.
    + rewrite E. intros v [].
  - split; [|exact H2]. intros o ob v Ho A. apply nth_error_some_lt in A. lia.
Qed.

(** No control flag is set: any history. *)
Definition nc w := no_ctrl (w_heap w).
Lemma nc_upd : forall w v f, (forall b : bvar V, bv_ctrl (f b) = bv_ctrl b) -> nc w -> nc (with_heap (fun h => upd h v f) w).
Proof. intros w v f Hf H u. cbn. unfold upd. destruct (Nat.eqb u v); [rewrite Hf|]; apply H. Qed.
Lemma save_ctrl : forall o (b : bvar V), bv_ctrl (save_output o b) = bv_ctrl b.
Proof. intros o b. unfold save_output. now destruct (o || _). Qed.
Lemma nc_create : forall w o, nc w -> nc (fst (create_bv w o)).
Proof. intros w o H. unfold create_bv. destruct (nth_error _ _); [|exact H]. intros u. cbn. unfold upd. destruct (Nat.eqb u _); [reflexivity|apply H]. Qed.
Lemma nc_get : forall w o, nc w -> nc (fst (get_bv w o)).
Proof. intros w o H. unfold get_bv. destruct (nth_error _ _) as [ob|]; [|exact H]. destruct (o_bv ob); [exact H|now apply nc_create]. Qed.
Lemma nc_dep : forall w v, nc w -> nc (will_dep w v).
Proof.
  intros w v H. unfold will_dep.
  assert (H1 : nc (with_heap (fun h => upd h v (save_output false)) w)) by (apply nc_upd; [apply save_ctrl|exact H]).
  apply nc_upd; [reflexivity|]. destruct (match t_latest _ with None => true | Some _ => _ end); [|exact H1].
  apply (nc_upd _ v (save_output false)); [apply save_ctrl|exact H1].
Qed.
Lemma nc_out : forall w v, nc w -> nc (will_out w v).
Proof.
  intros w v H. unfold will_out.
  assert (H1 : nc (with_heap (fun h => upd h v (set_times (latest_timestep (w_tape w)) (latest_timestep (w_tape w)))) w)) by (apply nc_upd; [reflexivity|exact H]).
  destruct (t_eager _); [|exact H1]. apply (nc_upd _ v (save_output true)); [apply save_ctrl|exact H1].
Qed.
Lemma nc_deps : forall os w, nc w -> nc (fst (add_deps w os)).
Proof.
  induction os as [|o r IH]; intros w H; [exact H|]. cbn [add_deps]. unfold add_dep. pose proof (nc_get w o H) as A. destruct (get_bv w o) as [w1 v].
  specialize (IH (will_dep w1 v) (nc_dep w1 v A)). destruct (add_deps (will_dep w1 v) r). exact IH.
Qed.
Lemma nc_gets : forall os w, nc w -> nc (fst (get_bvs w os)).
Proof.
  induction os as [|o r IH]; intros w H; [exact H|]. cbn [get_bvs]. pose proof (nc_get w o H) as A. destruct (get_bv w o) as [w1 v].
  specialize (IH w1 A). destruct (get_bvs w1 r). exact IH.
Qed.
Lemma nc_outs : forall os w, nc w -> nc (fst (add_outs w os)).
Proof.
  induction os as [|o r IH]; intros w H; [exact H|]. cbn [add_outs]. pose proof (nc_create w o H) as A. destruct (create_bv w o) as [w1 v].
  specialize (IH (will_out w1 v) (nc_out w1 v A)). destruct (add_outs (will_out w1 v) r). exact IH.
Qed.
Lemma nc_news : forall ys w, nc w -> nc (fst (new_objs w ys)).
Proof.
  induction ys as [|y r IH]; intros w H; [exact H|]. cbn [new_objs]. unfold new_obj.
  specialize (IH (with_objs (fun l => l ++ [Obj y None 0]) w) H). destruct (new_objs _ r). exact IH.
Qed.
Lemma nc_assign : forall w o x, nc w -> nc (assign_obj w o x).
Proof. intros w o x H. unfold assign_obj. destruct (nth_error _ _); [|exact H]. intros u. cbn. destruct (Nat.eqb _ o); apply H. Qed.
Lemma nc_clear : forall w o, nc w -> nc (clear_bv w o).
Proof. intros w o H. unfold clear_bv. destruct (nth_error _ _); exact H. Qed.

Lemma nc_op : forall w k args, nc w -> nc (fst (exec_op F w k args)).
Proof.
  intros w k args H. unfold exec_op. destruct (negb _); [exact H|]. destruct (arg_vals w args) as [xs|]; [|exact H]. destruct (op_value F k xs) as [y|]; [|exact H].
  cbn [new_obj]. set (w1 := with_objs _ w). assert (H1 : nc w1) by exact H. destruct (w_ann w); [|exact H1].
  pose proof (nc_gets args w1 H1) as A. destruct (get_bvs w1 args) as [w2 ts]. pose proof (nc_deps args w2 A) as B. destruct (add_deps w2 args) as [w3 ds]. cbn [fst] in *.
  set (w4 := with_tape _ w3). pose proof (nc_get w4 (length (w_objs w)) B) as C. destruct (get_bv w4 _) as [w5 v]. cbn [fst] in *. exact (nc_out w5 v C).
Qed.
Lemma nc_stmt : forall w c, nc w -> nc (fst (exec_stmt F w c)).
Proof.
  intros w c H. destruct c; cbn [exec_stmt]; try exact H.
  - now apply nc_op.
  - unfold exec_fun. destruct (negb _); [exact H|]. destruct (arg_vals w args) as [xs|]; [|exact H].
    match goal with |- context[let '(_, _) := new_obj ?a _ in _] => set (w1 := a) end.
    assert (H1 : nc w1).
    { unfold w1. destruct (w_ann w && annotate); [|exact H]. pose proof (nc_deps args w H) as B. destruct (add_deps w args). exact B. }
    destruct (op_value F k xs) as [y|]; [|exact H1]. cbn [new_obj]. set (w2 := with_objs _ w1). destruct (w_ann w && annotate); [|exact H1].
    pose proof (nc_get w2 (length (w_objs w1)) H1) as C. destruct (get_bv w2 _) as [w5 v]. cbn [fst] in *. exact (nc_out w5 v C).
  - unfold exec_user. destruct (arg_vals w args) as [xs|]; [|exact H].
    assert (A : nc (fst (if w_ann w && annotate then add_deps w args else (w, [])))) by (destruct (w_ann w && annotate); [now apply nc_deps|exact H]).
    destruct (if w_ann w && annotate then add_deps w args else (w, [])) as [w1 ds]. cbn [fst] in A. destruct (func xs) as [ys|]; [|exact A].
    pose proof (nc_news ys w1 A) as B. destruct (new_objs w1 ys) as [w2 os]. cbn [fst] in B. destruct (w_ann w && annotate); [|exact B].
    pose proof (nc_outs os w2 B) as C. destruct (add_outs w2 os) as [w3 vs]. exact C.
  - unfold exec_inpl. destruct (arg_vals w args) as [xs|]; [|exact H]. destruct (nth_error (w_objs w) o); [|exact H].
    assert (A : nc (fst (if w_ann w && annotate then add_deps w args else (w, [])))) by (destruct (w_ann w && annotate); [now apply nc_deps|exact H]).
    destruct (if w_ann w && annotate then add_deps w args else (w, [])) as [w1 ds]. cbn [fst] in A. destruct (func xs) as [y|]; [|exact A].
    pose proof (nc_assign w1 o y A) as B. destruct (w_ann w && annotate); [|exact B].
    pose proof (nc_outs [o] _ B) as C. destruct (add_outs (assign_obj w1 o y) [o]) as [w3 vs]. exact C.
  - destruct (nth_error (w_objs w) o); [|exact H]. cbn [fst]. apply nc_clear. now apply nc_assign.
  - destruct (nth_error (w_objs w) o) as [ob|]; [|exact H]. destruct (o_bv ob); [|exact H]. destruct (referenced w _); [exact H|]. now apply nc_clear.
  - destruct (nth_error (w_objs w) o); [|exact H]. pose proof (nc_get w o H) as A. destruct (get_bv w o). exact A.
  - destruct (nth_error (w_objs w) o); [|exact H]. now apply nc_get.
Qed.
Lemma nc_pack : forall comps cs i w ds, nc w -> nc (fst (pack F w comps i cs ds)).
Proof.
  intros comps. induction cs as [|c l IH]; intros i w ds H; [exact H|]. cbn [pack]. destruct (selected comps i).
  - destruct ds as [|d ds]; [exact H|]. specialize (IH (S i) w ds H). destruct (pack F w comps (S i) l ds). exact IH.
  - assert (Z : nc (fst (zero_of F w c))).
    { unfold zero_of. cbn [new_obj]. set (w1 := with_objs _ w). pose proof (nc_op w1 KMul [bv_obj (w_heap w c); length (w_objs w)] H) as B.
      destruct (exec_op F w1 KMul [bv_obj (w_heap w c); length (w_objs w)]) as [w2 [e|]]; [exact B|]. destruct (nth_error (w_objs w2) _); exact B. }
    destruct (zero_of F w c) as [w1 [z|e]]; cbn [fst] in Z; [|exact Z].
    specialize (IH (S i) w1 ds Z). destruct (pack F w1 comps (S i) l ds). exact IH.
Qed.
Lemma nc_hop : forall w o, nc w -> nc (hrun1 F w o).
Proof.
  intros w [s|r v p q|r a|r m|r|] H; cbn [hrun1].
  - now apply nc_stmt.
  - unfold full_call. destruct (negb _); [exact H|]. destruct (negb _); [exact H|].
    destruct (delist _ _); [|exact H]. destruct (p _); [exact H|].
    set (vals := map _ _). pose proof (api_no_ctrl F (t_flat (w_tape w)) (w_heap w) (ACall (fu_rf r) vals) H) as A. cbn in A.
    destruct (rf_call _ _ _ _ _) as [h [j|e]]; [destruct (q _ _)|]; exact A.
  - unfold full_derivative. match goal with |- context[match ?q with Ok _ => _ | Err _ => (w, _) end] => destruct q as [[|c sel]|] end; try exact H.
    match goal with |- context[compute_gradient F ?a2 ?a3 ?a4 ?a5 ?a6] => pose proof (api_no_ctrl F a2 a6 (AGrad a3 a4 a5) H) as A; cbn in A; destruct (compute_gradient F a2 a3 a4 a5 a6) as [h [g|e]] end; [|exact A].
    destruct (fu_comps r) as [|cp l] eqn:E; [destruct g; exact A|].
    assert (C : nc (fst (pack_cb F (with_heap (fun _ => h) w) r g))).
    { unfold pack_cb. destruct (fu_controls r); try apply nc_pack; exact A. }
    destruct (pack_cb F (with_heap (fun _ => h) w) r g) as [w2 [[|d ds]|e]]; exact C.
  - unfold full_hessian. match goal with |- context[compute_hessian F ?a2 ?a3 ?a4 ?a5 ?a6] => pose proof (hess_core F a2 a3 a4 a5 a6) as A; destruct (compute_hessian F a2 a3 a4 a5 a6) as [h [g|e]] end;
    intros u; exact (eq_trans (core_ctrl _ _ (A u)) (H u)).
  - exact H.
  - intros u. cbn. unfold reset_adj. rewrite reset_with_spec by reflexivity. destruct (mem u _); apply H.
Qed.
Lemma nc_hrun : forall l w, nc w -> nc (hrun F w l).
Proof. induction l as [|o l IH]; intros w H; [exact H|]. cbn. apply IH. now apply nc_hop. Qed.
Lemma nc_exec : forall p w, nc w -> nc (exec F w p).
Proof. induction p as [|c p IH]; intros w H; [exact H|]. cbn. apply IH. now apply nc_stmt. Qed.

(** ** Evaluation *)
Lemma fresh_after_clear : forall ann (l : list (hop V)) p j vals scale,
  let w0 := cleared F (hrun F (world_new F ann) l) in
  consistent p -> disciplined (w_ann w0) p = true -> only_from (length (w_objs w0)) p = true ->
  length (w_objs w0) <= j -> j < length (w_objs (exec F w0 p)) ->
  let w := fst (on_cleared F w0 p j) in
  let cs := skipn (length (w_ctrls w0)) (w_ctrls w) in
  length vals = length cs ->
  snd (rf_call F (t_flat (w_tape w)) (RF (snd (on_cleared F w0 p j)) cs scale) vals (w_heap w)) =
  rmap (fun x => f_mul F x scale) (rerun_from F (held w0) (w_ann w0) p vals j).
Proof.
  intros ann l p j vals scale w0 Hc Hd Hf Hj1 Hj2 w cs Hl.
  assert (B0 : bounded w0) by (apply (bounded_hop _ HClear); apply bounded_hrun; apply bounded_new).
  assert (N0 : nc w0) by (apply (nc_hop _ HClear); apply nc_hrun; intros v; reflexivity).
  assert (E0 : flat w0 = []) by reflexivity. clearbody w0.
  set (w0' := forgotten w0).
  pose proof (forgotten_inv w0 E0) as W0. fold w0' in W0.
  assert (T : two (length (w_objs w0)) (w_next w0) (w_ctrls w0) w0 w0') by (now apply forgotten_twin).
  assert (HO : forall v, In v (w_ctrls w0) -> v < w_next w0) by (apply Forall_forall; exact (proj2 B0)).
  pose proof (tw_exec F _ _ _ HO p w0 w0' T Hf) as T1.
  assert (Hj3 : j < length (w_objs (exec F w0' p))) by (rewrite <- (tw_len _ _ _ _ _ (proj1 T1)); exact Hj2).
  pose proof (tw_get2 _ _ _ _ _ j T1 Hj1) as [T2 [Ev Hv]].
  unfold on_cleared in *. fold w0' in T1. subst w cs.
  pose proof (cleared_call F w0' p j vals scale W0 E0 Hc Hd Hj3) as R. cbv zeta in R. unfold on_cleared in R.
  assert (N1 : nc (fst (get_bv (exec F w0 p) j))) by (apply nc_get, nc_exec; exact N0).
  destruct (run_good F w0' p W0 E0 Hc Hd no_override) as [W1 _].
  pose proof (get_bv_spec F [] _ j W1 Hj3) as B.
  destruct (get_bv (exec F w0 p) j) as [w v], (get_bv (exec F w0' p) j) as [w' v']. cbn [fst snd] in *. subst v'. destruct B as [W2 [_ C2]].
  destruct T2 as [T2 X2]. rewrite (tw_ctrls _ _ _ _ _ T2), skipn_app, skipn_all, Nat.sub_diag in *. cbn [skipn app] in *.
  change (w_ctrls w0') with (@nil nat) in R. cbn [length skipn] in R. specialize (R Hl).
  unfold held in R. rewrite (forgotten_held w0) in R || (fold (held w0') in R; unfold w0' in R; rewrite (forgotten_held w0) in R). fold w0' in R.
  change (w_ann w0') with (w_ann w0) in R. rewrite <- R. clear R.
  assert (Ef : t_flat (w_tape w) = flat w') by (unfold flat; now rewrite (tw_tape _ _ _ _ _ T2)). rewrite Ef.
  assert (N2 : no_ctrl (w_heap w')) by (intros u; apply (wi_ctrl F [] w' W2)).
  destruct (rf_call_spec F (flat w') (RF v (w_ctrls w') scale) vals (w_heap w) N1 Hl) as [R1 _].
  destruct (rf_call_spec F (flat w') (RF v (w_ctrls w') scale) vals (w_heap w') N2 Hl) as [R2 _].
  rewrite R1, R2. cbn [rf_ctrls rf_J rf_scale].
  assert (Lt : forall u, live [] w' u -> u < w_next w').
  { intros u [K|[o [ob [K1 K2]]]]; [exact (proj1 (wi_live F [] w' W2 u K))|exact (proj1 (wi_cur F [] w' W2 o ob u K1 K2))]. }
  destruct (geval_agree F (fun u => mem u (w_ctrls w')) (fun u => mem u (w_ctrls w')) (flat w') (start_env (w_heap w) (w_ctrls w') vals)
              (start_env (w_heap w') (w_ctrls w') vals) (fun u => In u (deps_of (flat w')) \/ u = v)) as [A1 A2].
  - tauto.
  - reflexivity.
  - intros u Hu. unfold start_env. destruct (supplied (w_ctrls w') vals u); [reflexivity|]. unfold saved.
    assert (Eq : w_heap w u = w_heap w' u).
    { apply (tw_heap _ _ _ _ _ T2).
      - destruct Hu as [Hu| ->]; [|exact Hv]. apply (tw_vars _ _ _ _ _ T2). unfold flat. rewrite (tw_tape _ _ _ _ _ T2). unfold vars_of. apply in_or_app. now left.
      - rewrite (tw_next _ _ _ _ _ T2). apply Lt. destruct Hu as [Hu| ->]; [now apply dep_live|right; now exists j]. }
    now rewrite Eq.
  - rewrite A1. rewrite A2 by tauto. reflexivity.
Qed.
End Fresh.
