(** Gradients of array programs over the reals, through the tape of single numbers. *)
From Coq Require Import List Arith ZArith Lia Bool Reals Lra.
From Coquelicot Require Import Coquelicot.
From Verif Require Import Base Model BaseFacts Graph Record RecordFacts Spec History Sweep SpecGraph Marks Dual RealInst Calculus Gradient Arrays SpecArr SpecArrR ArrFacts ArrFlat.
Import ListNotations.
Open Scope R_scope.

(** ** Selecting positions *)
Lemma shift_nth : forall m d i s, length d = length m -> (i < length m)%nat -> nth i (shift m d s) 0 = nth i m 0 + s * nth i d 0.
Proof. induction m as [|x m IH]; intros [|y d] [|i] s L H; cbn in *; try lia; auto. apply IH; lia. Qed.
Lemma nth_map : forall (A B : Type) (f : A -> B) l k d d', (k < length l)%nat -> nth k (map f l) d' = f (nth k l d).
Proof. intros A B f l k d d' H. rewrite (nth_indep _ d' (f d)) by now rewrite map_length. apply map_nth. Qed.
Arguments nth_map {A B}.
Lemma line_derive : forall a b, is_derive (fun s => a + s * b) 0 b.
Proof. intros a b. auto_derive; [exact I|ring]. Qed.

Section Gather.
Variables (n : nat) (ps : list nat).
Hypothesis range : List.Forall (fun p => (p < n)%nat) ps.
Lemma ps_lt : forall k, (k < length ps)%nat -> (nth k ps 0 < n)%nat.
Proof. intros k H. rewrite List.Forall_forall in range. apply range. now apply nth_In. Qed.
Lemma gather_at : forall xs k, (k < length ps)%nat -> u_recompute (gather RO n ps) xs k = Ok (Some (nth (nth k ps 0%nat) xs 0)).
Proof. intros xs k H. cbn. now rewrite (nth_error_some_nth _ ps k 0%nat H). Qed.
Lemma gather_differential : forall xs, length xs = n -> user_differential (gather RO n ps) (length ps) xs (fun k ts => nth (nth k ps 0%nat) ts 0).
Proof.
  intros xs L c ts Lt Lc C0 Hc. exists (fun k s => nth (nth k ps 0%nat) (c s) 0). intros k Hk. split.
  - apply filter_forall. intros s. now apply gather_at.
  - apply Hc. rewrite L. now apply ps_lt.
Qed.
Lemma gather_unique : forall xs D k ts, length xs = n -> user_differential (gather RO n ps) (length ps) xs D -> (k < length ps)%nat -> length ts = n ->
  D k ts = nth (nth k ps 0%nat) ts 0.
Proof.
  intros xs D k ts L HD Hk Lt. destruct (HD (fun s => shift xs ts s) ts) as [y Hy]; [congruence|intros s; apply shift_length; congruence|apply shift_zero; congruence| |].
  - intros i Hi. apply (is_derive_ext (fun s => nth i xs 0 + s * nth i ts 0)); [intros s; symmetry; apply shift_nth; congruence|apply line_derive].
  - destruct (Hy k Hk) as [A B]. pose proof (ps_lt k Hk) as P.
    assert (C : locally 0 (fun s => y k s = nth (nth k ps 0%nat) xs 0 + s * nth (nth k ps 0%nat) ts 0)).
    { revert A. apply filter_imp. intros s A. rewrite gather_at in A by exact Hk. injection A as A. rewrite <- A. apply shift_nth; [congruence|rewrite L; exact P]. }
    pose proof (is_derive_ext_loc _ _ _ _ C B) as E. pose proof (is_derive_unique _ _ _ E) as E1.
    pose proof (is_derive_unique _ _ _ (line_derive (nth (nth k ps 0%nat) xs 0) (nth (nth k ps 0%nat) ts 0))) as E2. rewrite <- E1. exact E2.
Qed.
Lemma user_sum_dot : forall xs ins z ts k, (forall i, u_adj (gather RO n ps) xs ins i = Ok (Some (nth i z 0))) ->
  (k + length ts = length z)%nat -> user_sum (gather RO n ps) xs ins (enum_from k ts) = dot RO (skipn k z) ts.
Proof.
  intros xs ins z ts. induction ts as [|t ts IH]; intros k Hu L.
  - cbn. destruct (skipn k z); reflexivity.
  - cbn [enum_from user_sum]. rewrite Hu. cbn [val]. rewrite IH by (auto; cbn in L; lia).
    assert (E : skipn k z = nth k z 0 :: skipn (Datatypes.S k) z).
    { clear -L. revert k L. induction z as [|x z IHz]; intros k L; [cbn in L; lia|]. destruct k; [reflexivity|]. cbn [skipn nth]. apply IHz. cbn in L |- *. lia. }
    rewrite E. reflexivity.
Qed.
Lemma dot_set : forall (z ts : list R) p v, (p < length z)%nat -> length ts = length z ->
  dot RO (list_set z p v) ts = dot RO z ts + (v - nth p z 0) * nth p ts 0.
Proof.
  induction z as [|x z IH]; intros [|t ts] p v Hp L; cbn in *; try lia. destruct p as [|p]; cbn; [ring|]. rewrite IH by lia. ring.
Qed.
Lemma list_set_other : forall (z : list R) p q v, p <> q -> nth q (list_set z p v) 0 = nth q z 0.
Proof. induction z as [|x z IH]; intros [|p] [|q] v H; cbn; try reflexivity; try contradiction. apply IH. congruence. Qed.
Lemma dot_assign : forall qs vs (z ts : list R), NoDup qs -> List.Forall (fun p => (p < length z)%nat /\ nth p z 0 = 0) qs -> length vs = length qs -> length ts = length z ->
  dot RO (assign z qs vs) ts = dot RO z ts + dot RO vs (map (fun p => nth p ts 0) qs).
Proof.
  induction qs as [|p qs IH]; intros [|v vs] z ts Hn Hr Lv L; try discriminate Lv; cbn [assign map dot].
  - cbn. ring.
  - inversion Hn as [|? ? Hp Hn']; subst. inversion Hr as [|? ? Hp' Hr']; subst. destruct Hp' as [P1 P2]. rewrite IH.
    + rewrite dot_set by auto. rewrite P2. cbn. ring.
    + exact Hn'.
    + rewrite List.Forall_forall in *. intros q Hq. destruct (Hr' q Hq) as [A B]. rewrite list_set_length. split; [exact A|]. rewrite list_set_other; [exact B|]. congruence.
    + cbn in Lv. lia.
    + rewrite list_set_length. exact L.
Qed.
Lemma dot_zeros : forall k ts, dot RO (repeat 0 k) ts = 0.
Proof. induction k as [|k IH]; intros [|t ts]; cbn; auto. rewrite IH. ring. Qed.
Lemma gather_adjoint : forall xs, NoDup ps -> length xs = n -> forall D, user_differential (gather RO n ps) (length ps) xs D -> user_adjoint (gather RO n ps) (length ps) xs D.
Proof.
  intros xs Hn L D HD ins ts Li Lt _. set (z := assign (repeat 0 n) ps (map (val RO) ins)).
  assert (Lz : length z = n) by (unfold z; now rewrite assign_length, repeat_length).
  change (enum ts) with (enum_from 0 ts). rewrite (user_sum_dot xs ins z ts 0); [|reflexivity|rewrite Lz; cbn; congruence]. cbn [skipn]. unfold z.
  rewrite dot_assign; auto.
  - rewrite dot_zeros. rewrite Rplus_0_l. f_equal. transitivity (map (fun k => nth (nth k ps 0%nat) ts 0) (seq 0 (length ps))).
    + rewrite <- (map_nth_seq _ ps 0%nat) at 1. now rewrite map_map.
    + apply map_ext_in. intros k Hk. apply in_seq in Hk. symmetry. apply (gather_unique xs); auto; [lia|congruence].
  - rewrite List.Forall_forall in *. intros p Hp. rewrite repeat_length. split; [now apply range|]. apply nth_repeat.
  - now rewrite map_length.
  - rewrite repeat_length. congruence.
Qed.
End Gather.

(** ** Where the operations on numbers are differentiable *)
Definition asmooth_block (N : nat -> Prop) (e : nat -> aval R) (b : block (aval R)) : Prop :=
  match b_kind b, b_deps b with
  | KPow, [d0; d1] => match e d0, e d1 with
                      | Num x, Num y => 0 < x \/ (~ N d1 /\ exists z : Z, y = IZR z /\ (x <> 0 \/ (1 <= z)%Z))
                      | _, _ => True
                      end
  | KMin, [d0; d1] | KMax, [d0; d1] => match e d0, e d1 with Num x, Num y => x <> y | _, _ => True end
  | _, _ => True
  end.
Definition asmooth_at (bs : list (block (aval R))) (ctrls : list nat) (e : nat -> aval R) : Prop :=
  forall b d, In b bs -> In d (b_deps b) -> influenced bs ctrls d -> asmooth_block (influenced bs ctrls) e b.

Lemma flat_settled : forall e b b', flat_block RO e b b' -> fixed_block RO (evals RO e) b'.
Proof.
  intros e b b' H k o Hk. left. destruct H as [kd ds o0 tag Hu Hn Ha Hv|it a o0 tag l ps Ea Ep Ed Eo]; cbn [b_kind b_deps b_outs] in *.
  - inversion Hn as [|? ? Ho Hd]; subst. cbn [flat_map] in Hk. rewrite (vars_num e o0 Ho) in Hk. destruct k as [|k]; [|destruct k; discriminate]. injection Hk as <-.
    assert (Hx : map e ds = map Num (map (evals RO e) (flat_map (vars e) ds))).
    { rewrite (all_num e ds Hd), !map_map. apply map_ext_in. intros d Hd'. rewrite evals_code. rewrite List.Forall_forall in Hd. specialize (Hd d Hd'). destruct (e d); [reflexivity|discriminate]. }
    rewrite Hx, recompute_num in Hv by exact Hu. destruct (comp_recompute RO kd _ 0) as [[y|]|]; cbn in Hv; try discriminate. injection Hv as Hv. rewrite evals_code, <- Hv. reflexivity.
  - cbn [flat_map] in *. rewrite app_nil_r in *. rewrite evals_vars, Ea. cbn [entries]. pose proof (slice_size _ _ _ _ _ Ep Eo) as S. unfold vars in Hk. 
    assert (Lk : (k < size (e o0))%nat) by (rewrite <- (seq_length (size (e o0)) 0), <- (map_length (code o0)); apply nth_error_Some; congruence).
    assert (Ls : size (e o0) = length ps) by (unfold size; now rewrite S, map_length).
    rewrite (nth_error_nth' _ 0%nat) in Hk by now rewrite map_length, seq_length. injection Hk as <-. rewrite (nth_indep _ 0%nat (code o0 0)) by now rewrite map_length, seq_length.
    rewrite (map_nth (code o0)), seq_nth by exact Lk. rewrite evals_code, S. cbn [Nat.add]. cbn [comp_recompute]. rewrite gather_at by lia. do 2 f_equal.
    symmetry. apply (nth_map (fun p => nth p l (f_zero RO))). lia.
Qed.
Lemma flat_smooth : forall e bs bs' ctrls, Forall2 (flat_block RO e) bs bs' -> asmooth_at bs ctrls e -> smooth_at bs' (flat_map (vars e) ctrls) (evals RO e).
Proof.
  intros e bs bs' ctrls H Hs b' n Hb _ Hd [m [Hm Hi]]. destruct (Forall2_in_r _ _ _ _ _ _ H Hb) as [b [Hb0 Hf]]. rewrite (flat_deps _ _ _ _ Hf) in Hd. apply in_some in Hd as [d [i [-> [Hd Hdi]]]].
  apply in_some in Hm as [c [q [-> [Hc Hq]]]]. destruct (influence_down RO e bs bs' c q _ H Hq Hi) as [d0 [i0 [E [_ Hv]]]]. apply code_inj in E as [<- _].
  specialize (Hs b d Hb0 Hd (ex_intro _ c (conj Hc Hv))).
  assert (HN : forall v, is_arr (e v) = false -> influenced bs' (flat_map (vars e) ctrls) (code v 0) -> influenced bs ctrls v).
  { intros v Kv Iv. exact (influenced_num RO e bs bs' ctrls v H Kv Iv). }
  destruct Hf as [kd ds o0 tag Hu Hn Ha Hv'|it a o0 tag l ps Ea Ep Ed Eo].
  - inversion Hn as [|? ? Ho Hdn]; subst. unfold smooth_block, asmooth_block in *. cbn [b_kind b_deps b_outs] in *. rewrite (all_num e ds Hdn).
    destruct kd; try exact I; try (exfalso; eapply Hu; reflexivity); cbn [akind] in Hs;
    destruct ds as [|d1 [|d2 [|d3 ds]]]; try exact I; cbn [map]; inversion Hdn as [|? ? K1 Q]; subst; inversion Q as [|? ? K2 _]; subst; rewrite !evals_code;
    specialize (HN d2 K2); destruct (e d1) as [x|]; try discriminate; destruct (e d2) as [y|]; try discriminate; cbn [entries nth]; [|exact Hs|exact Hs].
    destruct Hs as [Hs|[N1 [z [Z1 Z2]]]]; [now left|right]. split; [intros K; apply N1; now apply HN|]. exists z. auto.
  - unfold smooth_block. cbn [b_kind b_deps b_outs flat_map]. rewrite !app_nil_r. exists (fun k ts => nth (nth k ps 0%nat) ts 0). rewrite evals_vars, Ea. cbn [entries].
    pose proof (slice_size _ _ _ _ _ Ep Eo) as S. replace (length (vars e o0)) with (length ps).
    + apply gather_differential; [|reflexivity]. exact (picks_range _ _ _ Ep).
    + unfold vars, size. now rewrite map_length, seq_length, S, map_length.
Qed.
Lemma flat_adjoints : forall e bs bs' ctrls, Forall2 (flat_block RO e) bs bs' -> adjoints_right bs' (flat_map (vars e) ctrls) (evals RO e).
Proof.
  intros e bs bs' ctrls H b' n Hb _ _ _. destruct (Forall2_in_r _ _ _ _ _ _ H Hb) as [b [Hb0 Hf]]. destruct Hf as [kd ds o0 tag Hu Hn Ha Hv'|it a o0 tag l ps Ea Ep Ed Eo]; unfold adjoint_right; cbn [b_kind b_deps b_outs flat_map].
  - destruct kd; try exact I. exfalso; eapply Hu; reflexivity.
  - rewrite !app_nil_r. rewrite evals_vars, Ea. cbn [entries].
    pose proof (slice_size _ _ _ _ _ Ep Eo) as S. replace (length (vars e o0)) with (length ps).
    + apply gather_adjoint; auto. exact (picks_range _ _ _ Ep).
    + unfold vars, size. now rewrite map_length, seq_length, S, map_length.
Qed.

(** ** Directions *)
Lemma direction_alike : forall x y, direction x y -> alike x y.
Proof. intros [x|l] [y|m] H; cbn in H; try contradiction; split; auto. Qed.
Lemma moved_alike : forall x y s, direction x y -> alike x (moved x y s).
Proof.
  intros [x|l] [y|m] s H; cbn in H; try contradiction; split; cbn; auto. unfold size. cbn. revert m H. induction l as [|a l IH]; intros [|b m] H; try discriminate; cbn; auto.
Qed.
Lemma move_shift : forall l m s, move l m s = shift l m s.
Proof. induction l as [|x l IH]; intros [|y m] s; cbn; try reflexivity; now rewrite IH. Qed.
Lemma moved_entries : forall x y s, direction x y -> entries (moved x y s) = shift (entries x) (entries y) s.
Proof. intros [x|l] [y|m] s H; cbn in H; try contradiction; cbn; [reflexivity|apply move_shift]. Qed.
Lemma shift_app : forall l l' m m' s, length l = length m -> shift (l ++ l') (m ++ m') s = shift l m s ++ shift l' m' s.
Proof. induction l as [|x l IH]; intros l' [|y m] m' s H; try discriminate; cbn; auto. rewrite IH; auto. Qed.
Lemma moves_entries : forall xs ys s, Forall2 direction xs ys -> flat_map entries (moves xs ys s) = shift (flat_map entries xs) (flat_map entries ys) s.
Proof.
  intros xs ys s H. induction H as [|x y xs ys Hx Hr IH]; [reflexivity|]. cbn [moves flat_map]. rewrite (moved_entries x y s Hx), IH. symmetry. apply shift_app. apply (direction_alike x y Hx).
Qed.
Lemma moves_alike : forall xs ys s, Forall2 direction xs ys -> Forall2 alike xs (moves xs ys s).
Proof. intros xs ys s H. induction H as [|x y xs ys Hx Hr IH]; cbn; constructor; auto. now apply moved_alike. Qed.
Lemma dot_app : forall l l' m m', length l = length m -> dot RO (l ++ l') (m ++ m') = dot RO l m + dot RO l' m'.
Proof. induction l as [|x l IH]; intros l' [|y m] m' H; try discriminate; cbn; [ring|]. rewrite IH by auto. cbn. ring. Qed.
Lemma dot_sum : forall l m, dot RO l m = sum_prod l m.
Proof. induction l as [|x l IH]; intros [|y m]; cbn; try reflexivity; now rewrite IH. Qed.
Lemma dot_repeat : forall z m, dot RO (repeat z (length m)) m = z * sum_all m.
Proof. induction m as [|x m IH]; cbn; [ring|]. rewrite IH. cbn. ring. Qed.
Lemma apairs_dot : forall (e : nat -> aval R) cs gs ds, Forall2 (fun c x => alike (e c) x \/ x = Num 0) cs gs -> Forall2 direction (map e cs) ds ->
  dot RO (flat_map (fun cx => spread (e (fst cx)) (snd cx)) (combine cs gs)) (flat_map entries ds) = apairs gs ds.
Proof.
  intros e cs gs ds H. revert ds. induction H as [|c g cs gs Hg Hr IH]; intros ds Hd; inversion Hd as [|? d ? ds' Hx Hds]; subst; [reflexivity|].
  cbn [combine flat_map fst snd apairs]. assert (P : dot RO (spread (e c) g) (entries d) = apair g d /\ length (spread (e c) g) = length (entries d)).
  { destruct (e c) as [x|l], d as [y|m]; cbn in Hx; try contradiction.
    - destruct Hg as [[K L]| ->]; [destruct g; [|discriminate]|]; cbn; split; auto; ring.
    - destruct Hg as [[K L]| ->].
      + destruct g as [|q]; [discriminate|]. cbn in *. rewrite dot_sum. split; auto. unfold size in L. cbn in L. congruence.
      + cbn [spread apair entries]. rewrite Hx. rewrite dot_repeat, repeat_length. auto. }
  destruct P as [P1 P2]. rewrite dot_app by exact P2. rewrite P1, IH by exact Hds. reflexivity.
Qed.

(** ** The derivative of an evaluation *)
Lemma Forall2_flat_shaped : forall e bs bs', Forall2 (flat_block RO e) bs bs' -> List.Forall shaped bs'.
Proof. intros e bs bs' H. induction H; constructor; auto. eapply shaped_flat; eauto. Qed.
Lemma flat_leaves : forall e bs bs' (ctrls : list nat), Forall2 (flat_block RO e) bs bs' -> (forall o, In o (outs_of bs) -> ~ In o ctrls) ->
  forall o, In o (outs_of bs') -> ~ In o (flat_map (vars e) ctrls).
Proof.
  intros e bs bs' ctrls H Hl o Ho K. rewrite (outs_flat RO e bs bs' H) in Ho. apply in_some in Ho as [v [i [-> [Ho Hi]]]]. apply in_all in K as [K _]. exact (Hl v Ho K).
Qed.
Lemma leaf_independent : forall (bs : list (block R)) ctrls, (forall o, In o (outs_of bs) -> ~ In o ctrls) -> independent bs ctrls.
Proof.
  intros bs ctrls H c c' Hc Hc' N K. destruct K as [|b d o Hb Hd Ho K]; [contradiction|]. apply (H o); auto. apply in_flat_map. eauto.
Qed.
Theorem arr_exact : forall bs bs' J ctrls sc h e d g, wf_tape bs -> Forall2 (flat_block RO e) bs bs' -> NoDup ctrls -> (forall o, In o (outs_of bs) -> ~ In o ctrls) -> no_ctrl h ->
  fresh_ctrls bs J ctrls h -> is_arr (e J) = false -> (forall v, In v (deps_of bs) \/ v = J -> saved h v = e v) -> asmooth_at bs ctrls e -> Forall2 direction (map e ctrls) d ->
  snd (rf_derivative (AF RO) bs (RF J ctrls (Num sc)) (Num 1) h) = Ok g ->
  Forall2 (fun c x => alike (e c) x \/ x = Num 0) ctrls g /\
  exists f : R -> R, locally 0 (fun s => snd (rf_call (AF RO) bs (RF J ctrls (Num sc)) (moves (map e ctrls) d s) h) = Ok (Num (f s))) /\ is_derive f 0 (apairs g d).
Proof.
  intros bs bs' J ctrls sc h e d g Hw Hb Hnd Hl Nc Hf HJ He Hs Hd G.
  destruct (grad_flat RO e bs bs' J ctrls sc h g Hb (proj1 Hw) Nc Hf HJ (fun v Hv => He v (or_introl Hv)) G) as [Ga Gf]. split; [exact Ga|].
  pose proof (wf_flat RO e bs bs' Hb Hw) as Hw'. pose proof (Forall2_flat_shaped e bs bs' Hb) as Hsh. pose proof (all_nodup e ctrls Hnd) as Hnd'.
  pose proof (flat_leaves e bs bs' ctrls Hb Hl) as Hl'. pose proof (leaf_independent bs' _ Hl') as Hi. pose proof (flat_smooth e bs bs' ctrls Hb Hs) as Hsm.
  assert (Hst : settled bs' (flat_map (vars e) ctrls) (evals RO e)).
  { intros b' Hb' _. destruct (Forall2_in_r _ _ _ _ _ _ Hb Hb') as [b [_ Q]]. exact (flat_settled e b b' Q). }
  assert (Ld : length (flat_map entries d) = length (flat_map (vars e) ctrls)).
  { apply alike_length. clear -Hd. induction Hd; constructor; auto. now apply direction_alike. }
  assert (Em : map (evals RO e) (flat_map (vars e) ctrls) = flat_map entries (map e ctrls)).
  { clear. induction ctrls as [|c r IH]; [reflexivity|]. cbn. now rewrite map_app, IH, evals_vars. }
  assert (Call : forall s, snd (rf_call (AF RO) bs (RF J ctrls (Num sc)) (moves (map e ctrls) d s) h) =
    rmap Num (snd (rf_call RO bs' (RF (code J 0) (flat_map (vars e) ctrls) sc) (shift (map (evals RO e) (flat_map (vars e) ctrls)) (flat_map entries d) s) (flat_heap RO e h)))).
  { intros s. rewrite (call_flat RO e bs bs' J ctrls sc _ h Hb Hl Nc HJ He) by now apply moves_alike. now rewrite moves_entries, Em. }
  destruct (flat_map (vars e) ctrls) as [|c0 cs0] eqn:Ec.
  - destruct (curve_tangent bs' [] (flat_heap RO e h) [] Hw' Hsh Hnd' Hi (flat_no_ctrl RO e h) eq_refl Hst Hsm) as [t [_ [_ [_ [_ T]]]]]. destruct (T (code J 0) sc) as [f [A _]]. apply locally_singleton in A.
    exists (fun _ => f 0). split.
    + apply filter_forall. intros s. rewrite Call. cbn [map shift] in *. now rewrite A.
    + replace (apairs g d) with 0; [auto_derive; [exact I|reflexivity]|]. rewrite <- (apairs_dot e ctrls g d Ga Hd). cbn in Ld. destruct (flat_map entries d); [|discriminate]. match goal with |- _ = dot RO ?l [] => destruct l; reflexivity | |- dot RO ?l [] = _ => destruct l; reflexivity end.
  - rewrite <- Ec in *.
    destruct (derivative_exact bs' (code J 0) (flat_map (vars e) ctrls) sc (flat_heap RO e h) (evals RO e) (flat_map entries d) (flat_map (fun cx => spread (e (fst cx)) (snd cx)) (combine ctrls g)))
      as [f [A B]]; auto.
    + apply (flat_no_ctrl RO).
    + intros c Hc. right. right. reflexivity.
    + now apply flat_adjoints with (bs := bs).
    + apply Gf. rewrite Ec. discriminate.
    + exists f. split; [|now rewrite <- (apairs_dot e ctrls g d Ga Hd)]. revert A. apply filter_imp. intros s A. now rewrite Call, A.
Qed.

(** The derivative is returned. *)
Lemma flat_runs : forall e bs bs' ctrls, Forall2 (flat_block RO e) bs bs' -> adjoints_run bs' (flat_map (vars e) ctrls) (evals RO e).
Proof.
  intros e bs bs' ctrls H b' n Hb _ _ _. destruct (Forall2_in_r _ _ _ _ _ _ H Hb) as [b [Hb0 Hf]]. destruct Hf as [kd ds o0 tag Hu Hn Ha Hv'|it a o0 tag l ps Ea Ep Ed Eo]; unfold adjoint_runs; cbn [b_kind b_deps b_outs flat_map].
  - destruct kd; try exact I. exfalso; eapply Hu; reflexivity.
  - intros. eexists. reflexivity.
Qed.
Theorem arr_runs : forall bs bs' J ctrls sc h e, wf_tape bs -> Forall2 (flat_block RO e) bs bs' -> (forall o, In o (outs_of bs) -> ~ In o ctrls) -> no_ctrl h -> no_mark h -> ctrls <> [] ->
  fresh_ctrls bs J ctrls h -> is_arr (e J) = false -> (forall v, In v (deps_of bs) -> saved h v = e v) -> asmooth_at bs ctrls e ->
  exists g, snd (rf_derivative (AF RO) bs (RF J ctrls (Num sc)) (Num 1) h) = Ok g.
Proof.
  intros bs bs' J ctrls sc h e Hw Hb Hl Nc Nm Hne Hf HJ He Hs. rewrite derivative_grad by exact Hne. cbn [rf_J rf_ctrls rf_scale].
  change (f_mul (AF RO) (Num 1) (Num sc)) with (Num (1 * sc)).
  assert (Hst : settled bs' (flat_map (vars e) ctrls) (evals RO e)).
  { intros b' Hb' _. destruct (Forall2_in_r _ _ _ _ _ _ Hb Hb') as [b [_ Q]]. exact (flat_settled e b b' Q). }
  destruct (gradient_runs bs' (code J 0) (flat_map (vars e) ctrls) (1 * sc) (flat_heap RO e h) (evals RO e)) as [g' [G _]].
  - exact (wf_flat RO e bs bs' Hb Hw).
  - exact (Forall2_flat_shaped e bs bs' Hb).
  - apply leaf_independent. exact (flat_leaves e bs bs' ctrls Hb Hl).
  - apply (flat_no_ctrl RO).
  - intros v. cbn. apply Nm.
  - reflexivity.
  - exact Hst.
  - exact (flat_smooth e bs bs' ctrls Hb Hs).
  - now apply flat_runs with (bs := bs).
  - exact (grad_flat_ok RO e bs bs' J ctrls (1 * sc) h g' Hb (proj1 Hw) Nc Hf HJ He G).
Qed.
