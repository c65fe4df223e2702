(** Every statement preserves the recording invariant and the simulation; replay theorem. *)
From Coq Require Import List Arith ZArith Lia Bool.
From Verif Require Import Base Model BaseFacts Graph Record Spec RecordFacts Replay.
Import ListNotations.

Section Step.
Context {V : Type} (F : fops V).
Implicit Types (w : world V) (h : heap V) (s : sst V) (ov : override V).

(** ** A finished block on the tape: the world invariant *)
Lemma WInv_finish : forall pend w f l b,
  WInv F pend w ->
  flat (with_tape f w) = l ++ [b] ->
  (flat w = l \/ flat w = l ++ [Blk (b_kind b) (b_deps b) [] (b_tag b)]) ->
  (forall v, In v (b_outs b) -> current w v /\ ~ In v (refs pend w)) -> NoDup (b_outs b) ->
  (forall v, In v (b_deps b) -> In v pend \/ (current w v /\ ~ In v (b_outs b))) ->
  (forall v, In v (b_deps b) -> bv_ckpt (w_heap w v) <> None) ->
  block_rec F (recs (w_heap w)) b -> shaped b ->
  WInv F pend (with_tape f w).
Proof.
  intros pend w f l b W Hf Hl Ho Hn Hd Hk Hr Hs.
  assert (Hsub : forall v, In v (vars_of l) -> In v (vars_of (flat w))).
  { intros v Hv. destruct Hl as [->| ->]; [assumption|]. apply vars_snoc. now left. }
  assert (Hsubd : forall v, In v (deps_of l) -> In v (deps_of (flat w))).
  { intros v Hv. destruct Hl as [->| ->]; [assumption|]. apply deps_snoc. now left. }
  assert (Hwf : wf_tape l).
  { destruct (wi_wf F pend w W) as [A B]. destruct Hl as [E|E]; rewrite E in A, B; [now split|].
    split.
    - clear - A. revert A. induction l as [|c r IH]; intros A; [exact I|]. destruct A as [A1 A2]. split; [|auto].
      intros d Hin K. apply (A1 d Hin). unfold outs_of in *. cbn in *. rewrite flat_map_app. apply in_app_iff in K.
      rewrite !in_app_iff. tauto.
    - unfold outs_of in *. rewrite flat_map_app in B. cbn in B. now rewrite !app_nil_r in B. }
  assert (Hrl : Forall (block_rec F (recs (w_heap w))) l).
  { pose proof (wi_rec F pend w W) as A. destruct Hl as [E|E]; rewrite E in A; [exact A|]. now apply Forall_app in A. }
  assert (Hsl : Forall shaped l).
  { pose proof (wi_shape F pend w W) as A. destruct Hl as [E|E]; rewrite E in A; [exact A|]. now apply Forall_app in A. }
  apply WInv_tape; auto.
  - intros v Hv. rewrite Hf in Hv. apply vars_snoc in Hv as [Hv|[Hv|Hv]].
    + left. auto.
    + right. destruct (Hd v Hv) as [K|[K _]]; auto.
    + right. right. now apply Ho.
  - intros v Hv. rewrite Hf in Hv. apply deps_snoc in Hv as [Hv|Hv]; [|auto]. apply (wi_dep F pend w W). auto.
  - rewrite Hf. apply wf_snoc; auto.
    + intros d Hin K. destruct (Hd d Hin) as [Hp|[_ Hx]]; [|contradiction].
      destruct (Ho d K) as [_ Hx]. apply Hx. unfold refs. rewrite !in_app_iff. tauto.
    + intros d Hin K. destruct (Ho d K) as [_ Hx]. apply Hx. unfold refs. apply in_or_app. left. auto.
  - rewrite Hf. apply Forall_app. split; [assumption|]. constructor; [assumption|constructor].
  - rewrite Hf. apply Forall_app. split; [assumption|]. constructor; [assumption|constructor].
Qed.

(** ** A finished block on the tape: the simulation *)
Definition after (annotated : bool) ov (vs : list ver) (ys : list V) (again : res (list V))
  (ok : list V -> sst V) (bad : exn -> sst V) : sst V :=
  match results ov annotated vs ys again with Ok zs => ok zs | Err e => bad e end.

Lemma results_plain : forall ov vs ys again,
  results ov false vs ys again = Ok (map (fun vy => prescribed ov (fst vy) (snd vy)) (combine vs ys)).
Proof. reflexivity. Qed.

Lemma spec_objs_new : forall s ys zs o so, length zs = length ys ->
  nth_error (s_objs (push (sobjs_new ys zs) s)) o = Some so ->
  nth_error (s_objs s) o = Some so \/
  (exists i y z, o = length (s_objs s) + i /\ nth_error ys i = Some y /\ nth_error zs i = Some z /\ so = SObj y z 0).
Proof.
  intros s ys zs o so Hl H. cbn in H. destruct (lt_dec o (length (s_objs s))).
  - left. now rewrite nth_error_app1 in H.
  - right. rewrite nth_error_app2 in H by lia. exists (o - length (s_objs s)).
    unfold sobjs_new in H. rewrite nth_error_map in H.
    destruct (nth_error (combine ys zs) (o - length (s_objs s))) as [[y z]|] eqn:E; [|discriminate].
    cbn in H. exists y, z. split; [lia|].
    revert E Hl. generalize (o - length (s_objs s)). clear - H. intros n. revert ys zs H.
    revert n. induction n as [|n IH]; intros [|y0 ys] [|z0 zs] H E Hl; cbn in *; try discriminate.
    + inversion E; subst. inversion H. auto.
    + apply IH; auto.
Qed.
Lemma sobjs_new_length : forall ys zs : list V, length zs = length ys -> length (sobjs_new ys zs) = length ys.
Proof. intros. unfold sobjs_new. rewrite map_length, combine_length. lia. Qed.
Lemma nth_sobjs_new : forall (ys zs : list V) i, length zs = length ys ->
  nth_error (sobjs_new ys zs) i = match nth_error ys i, nth_error zs i with Some y, Some z => Some (SObj y z 0) | _, _ => None end.
Proof.
  induction ys as [|y r IH]; intros [|z zs] i Hl; try discriminate; destruct i; cbn; auto.
  apply IH. cbn in Hl. lia.
Qed.
Lemma nth_push_new : forall s (ys zs : list V) i, length zs = length ys ->
  nth_error (s_objs (push (sobjs_new ys zs) s)) (length (s_objs s) + i)
  = match nth_error ys i, nth_error zs i with Some y, Some z => Some (SObj y z 0) | _, _ => None end.
Proof.
  intros. cbn. rewrite nth_error_app2 by lia. replace (length (s_objs s) + i - length (s_objs s)) with i by lia.
  now apply nth_sobjs_new.
Qed.
Lemma plain_reps_length : forall ov s ys, length (plain_reps ov s ys) = length ys.
Proof. intros. unfold plain_reps, next_vers. rewrite map_length, combine_length, map_length, seq_length. lia. Qed.

Lemma existsb_forall2 : forall {A B} (f : A -> bool) (g : B -> bool) l m,
  Forall2 (fun a b => f a = g b) l m -> existsb f l = existsb g m.
Proof. intros A B f g l m H. induction H as [|a b l m E H IH]; cbn; [reflexivity|]. now rewrite E, IH. Qed.
Lemma Forall2_len : forall {A B} (P : A -> B -> Prop) l m, Forall2 P l m -> length l = length m.
Proof. intros A B P l m H. induction H; cbn; auto. Qed.
Lemma nth_seq : forall n k i, i < n -> nth_error (seq k n) i = Some (k + i).
Proof.
  induction n as [|n IH]; intros k i Hi; [lia|]. destruct i; cbn; [f_equal; lia|].
  rewrite IH by lia. f_equal. lia.
Qed.

Lemma firstn_nth : forall {A} (l : list A) n i, i < n -> nth_error (firstn n l) i = nth_error l i.
Proof. induction l as [|x r IH]; intros [|n] [|i] H; cbn; auto; try lia. apply IH. lia. Qed.

Lemma Sim_call : forall pend ov w w' s b ys ps again,
  WInv F pend w -> Sim F ov w (push_plain ov s ys) ->
  w_objs w' = w_objs w -> w_heap w' = w_heap w -> w_next w' = w_next w -> w_ann w' = w_ann w -> w_ctrls w' = w_ctrls w ->
  genv F ov w' = andthen (genv F ov w) (fun e => geval_block F (ov_cut ov (w_heap w)) e b) ->
  Forall2 (cur w) (seq (length (s_objs s)) (length ys)) (b_outs b) -> NoDup (b_outs b) ->
  (s_err s = None -> map (fst (genv F ov w)) (b_deps b) = ps) ->
  (forall i, i < length (b_outs b) -> comp_recompute F (b_kind b) ps i = again_val again i) ->
  Sim F ov w' (after true ov (next_vers s (length ys)) ys again
                 (fun zs => push (sobjs_new ys zs) s) (fun e => push (sobjs_new ys ys) (raise e s))).
Proof.
  intros pend ov w w' s b ys ps again W S Eo Eh En Ea Ec Eg Hos Hnd Hps Hag.
  pose proof (Forall2_len _ _ _ Hos) as Hlen. rewrite seq_length in Hlen.
  assert (Hcut : existsb (fun v => is_some (ov v)) (next_vers s (length ys)) = existsb (ov_cut ov (w_heap w)) (b_outs b)).
  { apply existsb_forall2. unfold next_vers.
    assert (G : forall i v, nth_error (seq (length (s_objs s)) (length ys)) i = Some v -> True) by auto.
    assert (K : Forall (fun o => forall v, cur w o v -> verb (w_heap w v) = (o, 0)) (seq (length (s_objs s)) (length ys))).
    { apply Forall_forall. intros o Hin v Hc. destruct (cur_ghost F pend w o v W Hc) as [ob [A [_ [B _]]]].
      rewrite B. f_equal. apply in_seq in Hin.
      destruct (nth_error ys (o - length (s_objs s))) as [y|] eqn:Ey; [|apply nth_error_None in Ey; lia].
      destruct (nth_error (plain_reps ov s ys) (o - length (s_objs s))) as [z|] eqn:Ez;
        [|apply nth_error_None in Ez; rewrite plain_reps_length in Ez; lia].
      pose proof (nth_push_new s ys (plain_reps ov s ys) (o - length (s_objs s)) (plain_reps_length ov s ys)) as N.
      rewrite Ey, Ez in N. replace (length (s_objs s) + (o - length (s_objs s))) with o in N by lia.
      destruct (sm_obj F ov w _ S _ _ _ A N) as [_ H]. exact H. }
    clear - Hos K. induction Hos as [|o v l m Hc Hr IH]; [constructor|]. inversion K; subst. cbn. constructor; [|auto].
    unfold ov_cut. now rewrite (H1 v Hc). }
  unfold after, results. rewrite Hcut. cbn [andb].
  destruct (existsb (ov_cut ov (w_heap w)) (b_outs b)) eqn:Hx; cbn [negb andb].
  - (* an output is prescribed *)
    apply (Sim_same F ov w); auto. rewrite Eg. destruct (genv F ov w) as [e [x|]]; cbn; [reflexivity|].
    now rewrite geval_block_cut_frame.
  - destruct (Nat.eqb_spec (length ys) 0) as [H0|H0]; cbn [negb].
    + apply (Sim_same F ov w); auto. rewrite Eg. destruct (genv F ov w) as [e [x|]]; cbn; [reflexivity|].
      destruct (b_outs b) eqn:Eb; [|cbn in Hlen; lia]. unfold geval_block. rewrite Eb. reflexivity.
    + assert (Hne : b_outs b <> []) by (intros E; rewrite E in Hlen; cbn in Hlen; lia).
      set (s1 := push_plain ov s ys) in *.
      set (s' := match match again with Ok zs => _ | Err e => _ end with Ok zs => _ | Err e => _ end).
      assert (Hs' : exists zs', length zs' = length ys /\ s_objs s' = s_objs s ++ sobjs_new ys zs' /\ s_ann s' = s_ann s /\ s_ctrls s' = s_ctrls s /\
        (forall zs, again = Ok zs -> length ys <= length zs -> zs' = firstn (length ys) zs) /\
        s_err s' = match s_err s with Some e => Some e | None => match again with Err e => Some e | Ok zs => if Nat.ltb (length zs) (length ys) then Some EIndex else None end end).
      { unfold s'. destruct again as [zs|x].
        - destruct (Nat.ltb_spec (length zs) (length ys)).
          + exists ys. cbn. repeat (split; [reflexivity|]). split; [|destruct (s_err s); reflexivity].
            intros zs0 H1 H2. inversion H1; subst. lia.
          + exists (firstn (length ys) zs). rewrite firstn_length. cbn. split; [lia|]. repeat (split; [reflexivity|]).
            split; [|destruct (s_err s); reflexivity]. intros zs0 H1 _. now inversion H1.
        - exists ys. cbn. repeat (split; [reflexivity|]). split; [discriminate|]. destruct (s_err s); reflexivity. }
      destruct Hs' as [zs' [L1 [L2 [L3 [L4 [L5 L6]]]]]].
      assert (Hs1 : s_objs s1 = s_objs s ++ sobjs_new ys (plain_reps ov s ys)) by reflexivity.
      apply (Sim_block F pend ov w w' s1 s' b (seq (length (s_objs s)) (length ys)) ps again); auto.
      * rewrite L2, Hs1, !app_length, !sobjs_new_length; auto. apply plain_reps_length.
      * intros o so' Ho. rewrite L2 in Ho. rewrite Hs1. destruct (lt_dec o (length (s_objs s))) as [Hl|Hl].
        -- exists so'. rewrite nth_error_app1 in * by assumption. repeat split; auto.
           intros i zs _ _ Hi. exfalso. apply nth_error_In in Hi. apply in_seq in Hi. lia.
        -- rewrite nth_error_app2 in * by lia. set (j := o - length (s_objs s)) in *.
           rewrite nth_sobjs_new in Ho by assumption.
           destruct (nth_error ys j) as [y|] eqn:Ey; [|discriminate].
           destruct (nth_error zs' j) as [z|] eqn:Ez; [|discriminate]. inversion Ho; subst so'.
           rewrite nth_sobjs_new by apply plain_reps_length. rewrite Ey.
           assert (Hj : j < length ys) by now apply nth_error_some_lt in Ey.
           destruct (nth_error (plain_reps ov s ys) j) as [p|] eqn:Ep;
             [|apply nth_error_None in Ep; rewrite plain_reps_length in Ep; lia].
           exists (SObj y p 0). cbn. repeat split; auto.
           ++ intros Hnin. exfalso. apply Hnin. apply in_seq. lia.
           ++ intros i zs Hz Hle Hi. assert (Hii : i < length ys) by (apply nth_error_some_lt in Hi; now rewrite seq_length in Hi).
              rewrite nth_seq in Hi by assumption. assert (i = j) by (inversion Hi; lia). subst i.
              rewrite <- Hlen in Hle. rewrite (L5 zs Hz Hle) in Ez. now rewrite firstn_nth in Ez by assumption.
      * rewrite L6, <- Hlen. reflexivity.
Qed.

(** The same for one result that is a new version of an existing object. *)
Lemma Sim_inpl : forall pend ov w w' s b o y g ps again,
  WInv F pend w ->
  let s1 := put o (SObj y (prescribed ov (o, S g) y) (S g)) s in
  Sim F ov w s1 -> o < length (s_objs s) ->
  w_objs w' = w_objs w -> w_heap w' = w_heap w -> w_next w' = w_next w -> w_ann w' = w_ann w -> w_ctrls w' = w_ctrls w ->
  genv F ov w' = andthen (genv F ov w) (fun e => geval_block F (ov_cut ov (w_heap w)) e b) ->
  (exists v, cur w o v /\ b_outs b = [v]) ->
  (s_err s = None -> map (fst (genv F ov w)) (b_deps b) = ps) ->
  comp_recompute F (b_kind b) ps 0 = again_val (rmap (fun z => [z]) again) 0 ->
  Sim F ov w' (match results ov true [(o, S g)] [y] (rmap (fun z => [z]) again) with
               | Ok [z] => put o (SObj y z (S g)) s
               | Ok _ => s
               | Err e => put o (SObj y y (S g)) (raise e s)
               end).
Proof.
  intros pend ov w w' s b o y g ps again W s1 S Ho Eo Eh En Ea Ec Eg [v [Hc Hb]] Hps Hag.
  assert (Hn1 : nth_error (s_objs s1) o = Some (SObj y (prescribed ov (o, Datatypes.S g) y) (Datatypes.S g))).
  { unfold s1. cbn. rewrite nth_list_set, Nat.eqb_refl. destruct (nth_error (s_objs s) o) eqn:E; [reflexivity|apply nth_error_None in E; lia]. }
  assert (Hv : verb (w_heap w v) = (o, Datatypes.S g)).
  { destruct (cur_ghost F pend w o v W Hc) as [ob [A [_ [B _]]]]. rewrite B.
    destruct (sm_obj F ov w _ S _ _ _ A Hn1) as [_ H]. now rewrite H. }
  assert (Hcut : existsb (ov_cut ov (w_heap w)) (b_outs b) = is_some (ov (o, Datatypes.S g))).
  { rewrite Hb. cbn. unfold ov_cut. rewrite Hv. apply orb_false_r. }
  unfold results. cbn [existsb]. rewrite orb_false_r. cbn [andb length Nat.eqb].
  destruct (is_some (ov (o, Datatypes.S g))) eqn:Hx; cbn [negb andb combine map fst snd].
  - fold s1. apply (Sim_same F ov w); auto. rewrite Eg. destruct (genv F ov w) as [e [x|]]; cbn; [reflexivity|].
    now rewrite geval_block_cut_frame.
  - set (s' := match match rmap _ again with Ok zs => _ | Err e => _ end with Ok zs => _ | Err e => _ end).
    assert (Hs' : exists z', s_objs s' = list_set (s_objs s) o (SObj y z' (Datatypes.S g)) /\ s_ann s' = s_ann s /\ s_ctrls s' = s_ctrls s /\
       (forall z, again = Ok z -> z' = z) /\
       s_err s' = match s_err s with Some e => Some e | None => match again with Err e => Some e | Ok _ => None end end).
    { unfold s'. destruct again as [z|x]; cbn.
      - exists z. repeat (split; [reflexivity|]). split; [|destruct (s_err s); reflexivity]. intros z0 H; now inversion H.
      - exists y. repeat (split; [reflexivity|]). split; [discriminate|]. destruct (s_err s); reflexivity. }
    destruct Hs' as [z' [L1 [L2 [L3 [L4 L5]]]]].
    apply (Sim_block F pend ov w w' s1 s' b [o] ps (rmap (fun z => [z]) again)); auto.
    + rewrite Hb. constructor; [exact Hc|constructor].
    + rewrite Hb. constructor; [easy|constructor].
    + rewrite Hb. intros i Hi. cbn in Hi. assert (i = 0) by lia. subst. exact Hag.
    + rewrite Hb. discriminate.
    + rewrite L1. unfold s1. cbn. now rewrite !length_list_set.
    + intros i so' Hi. rewrite L1, nth_list_set in Hi. destruct (Nat.eqb_spec o i) as [<-|Hne].
      * exists (SObj y (prescribed ov (o, Datatypes.S g) y) (Datatypes.S g)). split; [exact Hn1|].
        destruct (nth_error (s_objs s) o); [|discriminate]. inversion Hi; subst so'. cbn. repeat split; auto.
        -- intros K. exfalso. apply K. now left.
        -- intros j zs Hz Hle Hj. destruct again as [z|]; [|discriminate]. cbn in Hz. inversion Hz; subst.
           destruct j as [|[|j]]; cbn in Hj; try discriminate. cbn. f_equal. symmetry. now apply L4.
      * exists so'. repeat split; auto.
        -- unfold s1. cbn. rewrite nth_list_set. destruct (Nat.eqb_spec o i); [contradiction|exact Hi].
        -- intros j zs _ _ Hj. destruct j as [|[|j]]; cbn in Hj; try discriminate. inversion Hj. contradiction.
    + rewrite L5, Hb. unfold s1. cbn [put s_err]. destruct again; reflexivity.
Qed.

End Step.
