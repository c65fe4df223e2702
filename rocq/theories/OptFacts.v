(** Facts about the NumPy view, constraints and bounds. *)
From Coq Require Import List Arith Bool Lia Permutation.
From Verif Require Import Base Model BaseFacts Opt SpecOpt.
Import ListNotations.

(** * Packing *)
Section Pack.
Context {V S : Type}.
Implicit Types (ks : list (ctl V S)) (arr : list S) (vs m : list V).

Lemma packed_lengths : forall ks vs arr, List.Forall law ks -> packed ks vs arr ->
  length vs = length ks /\ length arr = total ks.
Proof.
  intros ks vs arr HL HP. induction HP as [|k ks v vs arr Hok HP IH]; [split; reflexivity|].
  inversion HL as [|k' ks' Hk HL']; subst.
  destruct (IH HL') as [Hv Ha]. split; [cbn; lia|].
  rewrite app_length. destruct Hk as [H1 _]. destruct (H1 v Hok) as [Hs _].
  unfold total in *. cbn. rewrite Hs, Ha. reflexivity.
Qed.

Lemma firstn_app_exact : forall {A} (a b : list A) n, length a = n -> firstn n (a ++ b) = a.
Proof. intros A a b n <-. rewrite firstn_app, firstn_all, Nat.sub_diag. cbn. apply app_nil_r. Qed.
Lemma skipn_app_exact : forall {A} (a b : list A) n, length a = n -> skipn n (a ++ b) = b.
Proof. intros A a b n <-. rewrite skipn_app, skipn_all, Nat.sub_diag. reflexivity. Qed.

Lemma set_local_from_packed : forall ks vs arr, List.Forall law ks -> packed ks vs arr ->
  forall pre suf m, length m = length ks ->
  set_local_from (types ks) m (pre ++ arr ++ suf) (length pre) = Ok vs.
Proof.
  intros ks vs arr HL HP. induction HP as [|k ks v vs arr Hok HP IH]; intros pre suf m Hm.
  - destruct m; [reflexivity | discriminate].
  - inversion HL as [|k' ks' Hk HL']; subst.
    destruct m as [|m0 m']; [discriminate|]. cbn [types map set_local_from].
    destruct Hk as [H1 _]. destruct (H1 v Hok) as (Hs & _ & _ & Hmk).
    unfold assign_numpy. rewrite (skipn_app_exact pre _ (length pre) eq_refl). rewrite <- app_assoc.
    rewrite (firstn_app_exact (k_comp k v) _ _ Hs), Hmk. cbn [bind].
    replace (pre ++ k_comp k v ++ arr ++ suf) with ((pre ++ k_comp k v) ++ arr ++ suf) by (rewrite <- app_assoc; reflexivity).
    rewrite <- Hs, <- app_length.
    change (map k_type ks) with (types ks).
    rewrite (IH HL' (pre ++ k_comp k v) suf m'); [reflexivity|]. cbn in Hm. lia.
Qed.

Lemma set_local_packed : forall ks vs arr suf m, List.Forall law ks -> packed ks vs arr -> length m = length ks ->
  set_local (types ks) m (arr ++ suf) = Ok vs.
Proof. intros ks vs arr suf m HL HP Hm. exact (set_local_from_packed ks vs arr HL HP [] suf m Hm). Qed.

Lemma get_global_packed : forall ks vs arr, List.Forall law ks -> packed ks vs arr -> get_global (types ks) vs = Ok arr.
Proof.
  intros ks vs arr HL HP. induction HP as [|k ks v vs arr Hok HP IH]; [reflexivity|].
  inversion HL as [|k' ks' Hk HL']; subst. destruct Hk as [H1 _]. destruct (H1 v Hok) as (_ & Hl & _).
  cbn. rewrite Hl. cbn. change (map k_type ks) with (types ks). rewrite (IH HL'). reflexivity.
Qed.

Lemma packed_exists : forall ks arr, List.Forall law ks -> length arr = total ks -> exists vs, packed ks vs arr.
Proof.
  intros ks. induction ks as [|k ks IH]; intros arr HL Ha.
  - destruct arr; [|discriminate]. exists []. constructor.
  - inversion HL as [|k' ks' Hk HL']; subst. unfold total in *. cbn in Ha.
    destruct Hk as (_ & H2 & _).
    destruct (H2 (firstn (ct_size (k_type k)) arr)) as (v & Hok & Hv).
    { apply firstn_length_le. lia. }
    destruct (IH (skipn (ct_size (k_type k)) arr) HL') as (vs & HP).
    { rewrite skipn_length. lia. }
    exists (v :: vs). rewrite <- (firstn_skipn (ct_size (k_type k)) arr), <- Hv. constructor; assumption.
Qed.

Lemma packed_unique : forall ks vs arr, List.Forall law ks -> packed ks vs arr -> forall vs', packed ks vs' arr -> vs' = vs.
Proof.
  intros ks vs arr HL HP vs' HP'.
  assert (H1 := set_local_packed ks vs arr [] vs HL HP (proj1 (packed_lengths _ _ _ HL HP))).
  assert (H2 := set_local_packed ks vs' arr [] vs HL HP' (proj1 (packed_lengths _ _ _ HL HP))).
  congruence.
Qed.

(** every prefix of the controls is packed in a prefix of the array *)
Lemma packed_split : forall ks vs arr, List.Forall law ks -> packed ks vs arr -> forall i k v,
  nth_error ks i = Some k -> nth_error vs i = Some v ->
  firstn (ct_size (k_type k)) (skipn (offset ks i) arr) = k_comp k v /\ k_ok k v.
Proof.
  intros ks vs arr HL HP. induction HP as [|k ks v vs arr Hok HP IH]; intros i k0 v0 Hk Hv.
  - destruct i; discriminate.
  - inversion HL as [|k' ks' Hk' HL']; subst. destruct Hk' as [H1 _]. destruct (H1 v Hok) as (Hs & _).
    destruct i as [|i].
    + injection Hk as <-. injection Hv as <-. cbn. split; [apply firstn_app_exact; exact Hs | exact Hok].
    + cbn in Hk, Hv |- *. destruct (IH HL' i k0 v0 Hk Hv) as [E E'].
      rewrite <- Hs. rewrite <- E. split; [|exact E']. f_equal.
      rewrite skipn_app.
      replace (skipn (length (k_comp k v) + offset ks i) (k_comp k v)) with (@nil S).
      2:{ symmetry. apply skipn_all2. lia. }
      cbn. f_equal. lia.
Qed.

Lemma offsets_increase : forall ks i k, nth_error ks i = Some k -> offset ks (Datatypes.S i) = offset ks i + ct_size (k_type k).
Proof.
  intros ks. induction ks as [|k0 ks IH]; intros i k Hk; [destruct i; discriminate|].
  destruct i as [|i].
  - injection Hk as <-. cbn. destruct ks; cbn; lia.
  - cbn in Hk. specialize (IH i k Hk). cbn [offset] in *. rewrite IH. lia.
Qed.

Lemma set_local_short : forall ks arr m, List.Forall law ks -> length m = length ks -> length arr < total ks ->
  exists e, set_local (types ks) m arr = Err e.
Proof.
  assert (H : forall ks arr m off, List.Forall law ks -> length m = length ks -> length arr < off + total ks -> off <= length arr ->
     exists e, set_local_from (types ks) m arr off = Err e).
  { intros ks. induction ks as [|k ks IH]; intros arr m off HL Hm Ha Ho.
    - unfold total in Ha. cbn in Ha. lia.
    - inversion HL as [|k' ks' Hk HL']; subst. destruct m as [|m0 m]; [discriminate|].
      cbn [types map set_local_from]. unfold assign_numpy.
      destruct Hk as (H1 & H2 & H3).
      destruct (le_lt_dec (off + ct_size (k_type k)) (length arr)) as [Hle|Hlt].
      + destruct (H2 (firstn (ct_size (k_type k)) (skipn off arr))) as (v & Hok & Hv).
        { apply firstn_length_le. rewrite skipn_length. lia. }
        destruct (H1 v Hok) as (_ & _ & _ & Hmk). rewrite <- Hv, Hmk. cbn [bind].
        destruct (IH arr m (off + ct_size (k_type k)) HL') as (e & He).
        { cbn in Hm; lia. }
        { unfold total in *. cbn in Ha. lia. }
        { lia. }
        change (map k_type ks) with (types ks). rewrite He. exists e. reflexivity.
      + destruct (H3 (firstn (ct_size (k_type k)) (skipn off arr))) as (e & He).
        { rewrite firstn_length, skipn_length. lia. }
        rewrite He. exists e. reflexivity. }
  intros ks arr m HL Hm Ha. apply H; auto; lia.
Qed.

Lemma copies_ok : forall ks cur, List.Forall law ks -> Forall2 (fun k v => k_ok k v) ks cur -> copies (types ks) cur = Ok cur.
Proof.
  intros ks cur HL HF. induction HF as [|k v ks cur Hok HF IH]; [reflexivity|].
  inversion HL as [|k' ks' Hk HL']; subst. destruct Hk as [H1 _]. destruct (H1 v Hok) as (_ & _ & Hc & _).
  unfold copies in *. cbn. rewrite Hc. change (map k_type ks) with (types ks). rewrite (IH HL'). reflexivity.
Qed.

Lemma F2_len : forall {A B} (P : A -> B -> Prop) l l', Forall2 P l l' -> length l = length l'.
Proof. intros A B P l l' H. induction H; cbn; congruence. Qed.

Lemma np_call_packed : forall (F : fops V) bs rf ks cur vs arr h,
  List.Forall law ks -> Forall2 (fun k v => k_ok k v) ks cur -> packed ks vs arr ->
  np_call F bs rf (types ks) cur arr h = rf_call F bs rf vs h.
Proof.
  intros F bs rf ks cur vs arr h HL HC HP. unfold np_call. rewrite (copies_ok ks cur HL HC). cbn [bind].
  rewrite <- (app_nil_r arr), (set_local_packed ks vs arr [] cur HL HP); [reflexivity|].
  symmetry. exact (F2_len _ _ _ HC).
Qed.
Lemma np_call_extra : forall (F : fops V) bs rf ks cur vs arr extra h,
  List.Forall law ks -> Forall2 (fun k v => k_ok k v) ks cur -> packed ks vs arr ->
  np_call F bs rf (types ks) cur (arr ++ extra) h = rf_call F bs rf vs h.
Proof.
  intros F bs rf ks cur vs arr extra h HL HC HP. unfold np_call. rewrite (copies_ok ks cur HL HC). cbn [bind].
  rewrite (set_local_packed ks vs arr extra cur HL HP); [reflexivity|].
  symmetry. exact (F2_len _ _ _ HC).
Qed.
Lemma np_call_short : forall (F : fops V) bs rf ks cur arr h,
  List.Forall law ks -> Forall2 (fun k v => k_ok k v) ks cur -> length arr < total ks ->
  exists e, np_call F bs rf (types ks) cur arr h = (h, Err e).
Proof.
  intros F bs rf ks cur arr h HL HC Ha. unfold np_call. rewrite (copies_ok ks cur HL HC). cbn [bind].
  destruct (set_local_short ks arr cur HL) as (e & He); [symmetry; exact (F2_len _ _ _ HC) | exact Ha |].
  rewrite He. exists e. reflexivity.
Qed.
Lemma np_derivative_packed : forall (F : fops V) bs rf ks h g arr,
  List.Forall law ks -> snd (rf_derivative F bs rf (f_one F) h) = Ok g -> packed ks g arr ->
  np_derivative F bs rf (types ks) h = (fst (rf_derivative F bs rf (f_one F) h), Ok arr).
Proof.
  intros F bs rf ks h g arr HL HG HP. unfold np_derivative. destruct (rf_derivative F bs rf (f_one F) h) as [h' r].
  cbn in *. subst r. cbn. rewrite (get_global_packed ks g arr HL HP). reflexivity.
Qed.

(** the saved value of controls just updated *)
Lemma put_ckpt_saved : forall (h : heap V) c x v, bv_ctrl (h c) = false ->
  saved (upd h c (put_ckpt (Some x) false)) v = if Nat.eqb v c then x else saved h v.
Proof.
  intros h c x v Hc. unfold saved, upd, put_ckpt. destruct (Nat.eqb_spec v c) as [->|]; [|reflexivity].
  rewrite Hc. reflexivity.
Qed.
Lemma put_ckpt_ctrl : forall (h : heap V) c x v, bv_ctrl (upd h c (put_ckpt (Some x) false) v) = bv_ctrl (h v).
Proof. intros h c x v. unfold upd, put_ckpt. destruct (Nat.eqb v c); [|reflexivity]. destruct (bv_ctrl (h v)) eqn:E; [exact E | exact E]. Qed.
Lemma saved_update_other : forall cs vs (h : heap V) c, (forall v, bv_ctrl (h v) = false) -> ~ In c cs ->
  saved (update_controls h cs vs) c = saved h c.
Proof.
  intros cs. induction cs as [|c0 cs IH]; intros vs h c H0 Hc; [reflexivity|].
  destruct vs as [|v vs]; [reflexivity|]. cbn [update_controls].
  rewrite IH.
  - rewrite put_ckpt_saved by apply H0. destruct (Nat.eqb_spec c c0) as [->|]; [exfalso; apply Hc; left; reflexivity | reflexivity].
  - intros v0. rewrite put_ckpt_ctrl. apply H0.
  - intros Hi. apply Hc. right. exact Hi.
Qed.
Lemma saved_update_controls : forall cs vs (h : heap V), (forall v, bv_ctrl (h v) = false) -> NoDup cs -> length vs = length cs ->
  map (saved (update_controls h cs vs)) cs = vs.
Proof.
  intros cs. induction cs as [|c cs IH]; intros vs h H0 Hn Hl; [destruct vs; [reflexivity | discriminate]|].
  destruct vs as [|v vs]; [discriminate|]. inversion Hn as [|c' cs' Hni Hn']; subst.
  cbn [map update_controls].
  assert (H1 : forall w, bv_ctrl (upd h c (put_ckpt (Some v) false) w) = false) by (intros w; rewrite put_ckpt_ctrl; apply H0).
  f_equal.
  - rewrite saved_update_other by assumption. rewrite put_ckpt_saved by apply H0. rewrite Nat.eqb_refl. reflexivity.
  - apply IH; auto; cbn in Hl; lia.
Qed.

Lemma np_set_get_controls : forall rf ks (h : heap V) arr,
  (forall v, bv_ctrl (h v) = false) -> NoDup (rf_ctrls rf) -> length ks = length (rf_ctrls rf) -> List.Forall law ks -> length arr = total ks ->
  exists vs, packed ks vs arr /\
    np_set_controls rf (types ks) arr h = (update_controls h (rf_ctrls rf) vs, Ok vs) /\
    np_get_controls rf (types ks) (update_controls h (rf_ctrls rf) vs) = Ok arr /\
    (forall v, ~ In v (rf_ctrls rf) -> saved (update_controls h (rf_ctrls rf) vs) v = saved h v).
Proof.
  intros rf ks h arr H0 Hn Hl HL Ha. destruct (packed_exists ks arr HL Ha) as (vs & HP). exists vs.
  destruct (packed_lengths ks vs arr HL HP) as [Hv _].
  split; [exact HP|]. split; [|split].
  - unfold np_set_controls. rewrite <- (app_nil_r arr), (set_local_packed ks vs arr [] _ HL HP); [reflexivity|].
    rewrite map_length. symmetry. exact Hl.
  - unfold np_get_controls. rewrite saved_update_controls by (auto; congruence). apply get_global_packed; assumption.
  - intros v Hv'. apply saved_update_other; assumption.
Qed.
End Pack.

Lemma adjfloat_lawful : forall V, lawful (@adjfloat V) (fun _ => True) (fun v => [v]).
Proof.
  intros V. split; [|split].
  - intros v _. repeat split.
  - intros l Hl. destruct l as [|x [|y l]]; [discriminate | | discriminate]. exists x. auto.
  - intros l Hl. destruct l as [|x l]; [|cbn in Hl; lia]. exists EType. reflexivity.
Qed.

(** * Constraints *)
Section Con.
Context {M D S W row : Type}.
Notation con := (con M D S W row).
Notation leaf := (leaf M D S W row).
Implicit Types (c : con) (cs : list con) (m : M).

Definition con_rect' (P : con -> Prop)
  (HL : forall k l, P (CLeaf k l)) (HM : forall cs, List.Forall P cs -> P (CMerged cs)) (HS : forall cs, P (CSeq cs)) : forall c, P c :=
  fix go c : P c :=
    match c with
    | CLeaf k l => HL k l
    | CMerged cs => HM cs ((fix all cs : List.Forall P cs := match cs with [] => Forall_nil P | c :: r => Forall_cons c (go c) (all r) end) cs)
    | CSeq cs => HS cs
    end.

Lemma sequence_map_data : forall {A B} (f : con -> res A) (g : A -> list B) (e : con -> list B) cs,
  List.Forall (fun c => forall a, f c = Ok a -> g a = e c) cs ->
  forall l, sequence (map f cs) = Ok l -> flat_map g l = flat_map e cs.
Proof.
  intros A B f g e cs HF. induction HF as [|c cs Hc HF IH]; intros l Hs; cbn in Hs.
  - injection Hs as <-. reflexivity.
  - destruct (f c) as [a|x] eqn:Ef; [|discriminate]. cbn in Hs.
    destruct (sequence (map f cs)) as [l'|x] eqn:El; [|discriminate]. cbn in Hs. injection Hs as <-.
    cbn. rewrite (Hc a eq_refl), (IH l' eq_refl). reflexivity.
Qed.

Lemma np_stack_data : forall (l : list (nd S)) a, np_stack l = Ok a -> nd_data a = flat_map nd_data l.
Proof.
  intros l a. unfold np_stack. destruct l as [|b l]; [intros H; injection H as <-; reflexivity|].
  destruct (forallb _ _); [|discriminate]. intros H. injection H as <-. reflexivity.
Qed.

Lemma con_function_data : forall c m a, con_function c m = Ok a -> nd_data a = flat_map (fun p => lf_fun (snd p) m) (leaves c).
Proof.
  intros c m. induction c as [k l | cs IH | cs] using con_rect'; intros a H; cbn in H.
  - injection H as <-. cbn. symmetry. apply app_nil_r.
  - destruct (sequence (map (fun c => con_function c m) cs)) as [l|e] eqn:El; [|discriminate]. cbn in H.
    rewrite (np_stack_data l a H). cbn [leaves].
    rewrite (sequence_map_data (fun c => con_function c m) nd_data (fun c => flat_map (fun p => lf_fun (snd p) m) (leaves c)) cs IH l El).
    clear. induction cs as [|c cs IH]; [reflexivity|]. cbn. rewrite flat_map_app, IH. reflexivity.
  - discriminate.
Qed.
Lemma merged_function_data : forall cs m l, merged_function cs m = Ok l ->
  length l = length cs /\ flat_map nd_data l = flat_map (fun p => lf_fun (snd p) m) (flat_map leaves cs).
Proof.
  intros cs m l H. unfold merged_function in H. split.
  - revert l H. induction cs as [|c cs IH]; intros l H; cbn in H; [injection H as <-; reflexivity|].
    destruct (con_function c m); [|discriminate]. cbn in H.
    destruct (sequence (map (fun c => con_function c m) cs)); [|discriminate]. cbn in H. injection H as <-. cbn. f_equal. auto.
  - rewrite (sequence_map_data (fun c => con_function c m) nd_data (fun c => flat_map (fun p => lf_fun (snd p) m) (leaves c)) cs).
    + clear. induction cs as [|c cs IH]; [reflexivity|]. cbn. rewrite flat_map_app, IH. reflexivity.
    + apply Forall_forall. intros c _ a. apply con_function_data.
    + exact H.
Qed.
(** a flat list never fails and has one array per constraint *)
Lemma merged_function_flat : forall ls m, merged_function (map (fun p : cls * leaf => CLeaf (fst p) (snd p)) ls) m
  = Ok (map (fun p => ND [length (lf_fun (snd p) m)] (lf_fun (snd p) m)) ls).
Proof.
  intros ls m. induction ls as [|p ls IH]; [reflexivity|]. unfold merged_function in *. cbn. rewrite IH. reflexivity.
Qed.

Lemma sum_dims : forall (ls : list (cls * leaf)) m, List.Forall (fun p => dim_ok (snd p)) ls ->
  length (flat_map (fun p => lf_fun (snd p) m) ls) = fold_right Nat.add 0 (map (fun p => lf_dim (snd p)) ls).
Proof.
  intros ls m H. induction H as [|p ls Hp H IH]; [reflexivity|]. cbn. rewrite app_length, IH. f_equal. apply Hp.
Qed.
Lemma fold_add_app : forall a b, fold_right Nat.add 0 (a ++ b) = fold_right Nat.add 0 a + fold_right Nat.add 0 b.
Proof. intros a b. induction a as [|x a IH]; cbn; [reflexivity|]. rewrite IH. lia. Qed.
Lemma con_dim_sum : forall c, no_seq c -> con_dim c = Ok (fold_right Nat.add 0 (map (fun p => lf_dim (snd p)) (leaves c))).
Proof.
  intros c. induction c as [k l | cs IH | cs] using con_rect'; intros H; cbn.
  - f_equal. lia.
  - assert (E : sequence (map con_dim cs) = Ok (map (fun c => fold_right Nat.add 0 (map (fun p => lf_dim (snd p)) (leaves c))) cs)).
    { cbn in H. induction IH as [|c cs Hc IH IH2]; [reflexivity|]. cbn in H. destruct H as [Hn H]. cbn. rewrite (Hc Hn). cbn.
      rewrite (IH2 H). reflexivity. }
    rewrite E. cbn. f_equal. clear. induction cs as [|c cs IH]; [reflexivity|]. cbn. rewrite map_app, fold_add_app. f_equal. exact IH.
  - destruct H.
Qed.

Lemma con_jacobian_rows : forall c m j, con_jacobian c m = Ok j -> rows j = flat_map (fun p => lf_jac (snd p) m) (leaves c).
Proof.
  intros c m. induction c as [k l | cs IH | cs] using con_rect'; intros j H; cbn in H.
  - injection H as <-. cbn. symmetry. apply app_nil_r.
  - destruct (sequence (map (fun c => con_jacobian c m) cs)) as [l|e] eqn:El; [|discriminate]. injection H as <-. cbn [rows leaves].
    rewrite (sequence_map_data (fun c => con_jacobian c m) rows (fun c => flat_map (fun p => lf_jac (snd p) m) (leaves c)) cs IH l El).
    clear. induction cs as [|c cs IH]; [reflexivity|]. cbn. rewrite flat_map_app, IH. reflexivity.
  - discriminate.
Qed.
Lemma con_jact_comps : forall c m dm t, con_jact c m dm = Ok t -> comps t = flat_map (fun p => lf_jact (snd p) m dm) (leaves c).
Proof.
  intros c m dm. induction c as [k l | cs IH | cs] using con_rect'; intros t H; cbn in H.
  - injection H as <-. cbn. symmetry. apply app_nil_r.
  - destruct (sequence (map (fun c => con_jact c m dm) cs)) as [l|e] eqn:El; [|discriminate]. injection H as <-. cbn [comps leaves].
    rewrite (sequence_map_data (fun c => con_jact c m dm) comps (fun c => flat_map (fun p => lf_jact (snd p) m dm) (leaves c)) cs IH l El).
    clear. induction cs as [|c cs IH]; [reflexivity|]. cbn. rewrite flat_map_app, IH. reflexivity.
  - discriminate.
Qed.
Lemma no_seq_ok : forall c m dm, no_seq c -> (exists j, con_jacobian c m = Ok j) /\ (exists t, con_jact c m dm = Ok t).
Proof.
  intros c m dm. induction c as [k l | cs IH | cs] using con_rect'; intros H; cbn.
  - split; eexists; reflexivity.
  - cbn in H.
    assert (E : (exists j, sequence (map (fun c => con_jacobian c m) cs) = Ok j) /\ (exists t, sequence (map (fun c => con_jact c m dm) cs) = Ok t)).
    { induction IH as [|c cs Hc IH IH2]; [split; eexists; reflexivity|]. cbn in H. destruct H as [Hn H].
      destruct (Hc Hn) as [(j & Hj) (t & Ht)]. destruct (IH2 H) as [(l & Hl) (l' & Hl')].
      cbn. rewrite Hj, Ht. cbn. rewrite Hl, Hl'. split; eexists; reflexivity. }
    destruct E as [(j & Hj) (t & Ht)]. rewrite Hj, Ht. split; eexists; reflexivity.
  - destruct H.
Qed.

Lemma split_interleaves : forall cs, List.Forall plain cs -> interleaving cs (equality_constraints cs) (inequality_constraints cs).
Proof.
  intros cs H. induction H as [|c cs (k & l & -> & Hk) H IH]; [constructor|].
  unfold equality_constraints, inequality_constraints in *. destruct k; cbn; [constructor 2 | constructor 3 | exfalso; auto]; exact IH.
Qed.
Lemma interleaving_In : forall {A} (cs a b : list A), interleaving cs a b -> Permutation cs (a ++ b).
Proof.
  intros A cs a b H. induction H as [|x cs a b H IH|x cs a b H IH]; [constructor| constructor; exact IH |].
  transitivity (x :: a ++ b); [constructor; exact IH | apply Permutation_middle].
Qed.
Lemma split_kinds : forall cs, (forall c, In c (equality_constraints cs) <-> In c cs /\ exists l, c = CLeaf IsEq l) /\
  (forall c, In c (inequality_constraints cs) <-> In c cs /\ exists l, c = CLeaf IsIneq l).
Proof.
  intros cs. split; intros c; unfold equality_constraints, inequality_constraints; rewrite filter_In;
    (split; intros [Hi Hc]; split; try exact Hi).
  - destruct c as [[| |] l | |]; try discriminate. exists l. reflexivity.
  - destruct Hc as [l ->]. reflexivity.
  - destruct c as [[| |] l | |]; try discriminate. exists l. reflexivity.
  - destruct Hc as [l ->]. reflexivity.
Qed.

(** actions that add up *)
Section Act.
Variables (wz : W -> W) (wa : W -> W -> W) (zero : W).
Hypothesis zero_mul : forall w, wz w = zero.
Hypothesis add_0 : forall w, wa zero w = w.
Hypothesis add_assoc : forall x y z : W, wa x (wa y z) = wa (wa x y) z.
Variable act : leaf -> list S -> W.
Hypothesis add_0_r : forall w, wa w zero = w.
Let total_act (ps : list (leaf * list S)) : W := fold_right (fun p r => wa (act (fst p) (snd p)) r) zero ps.
Lemma total_app : forall a b, total_act (a ++ b) = wa (total_act a) (total_act b).
Proof.
  intros a b. induction a as [|p a IH]; cbn; [symmetry; apply add_0|]. fold (total_act (a ++ b)). rewrite IH. apply add_assoc.
Qed.
Lemma con_action_sum : forall c dp ps result, pieces c dp ps -> con_action wz wa act c dp result = Ok (total_act ps).
Proof.
  intros c. induction c as [k l | cs IH | cs] using con_rect'; intros dp ps result HP.
  - inversion HP; subst. cbn. rewrite add_0_r. reflexivity.
  - inversion HP as [|cs' ds ps' HL]; subst. cbn. rewrite zero_mul. generalize zero at 1 as tmp.
    rewrite <- (add_0 (total_act ps)). generalize zero as r.
    revert ds ps HL HP. induction IH as [|c cs Hc IH IH2]; intros ds ps HL HP r tmp.
    + inversion HL; subst. cbn. rewrite add_0_r. reflexivity.
    + inversion HL as [|c' cs' d ds' p ps' Hp Hps]; subst. rewrite (Hc d p tmp Hp).
      rewrite (IH2 ds' ps' Hps (pc_merged _ _ _ Hps)). rewrite total_app, add_assoc. reflexivity.
  - inversion HP.
Qed.
End Act.

(** ** SciPy *)
Lemma scipy_loop_spec : forall cs cell acc, List.Forall plain cs ->
  scipy_loop cs cell acc =
  Ok (acc ++ map (fun c => SD (if is_eq c then SEq else SIneq) (con_function c) jac_closure) cs, match rev cs with [] => cell | x :: _ => Some x end).
Proof.
  intros cs. induction cs as [|c cs IH]; intros cell acc H; cbn.
  - rewrite app_nil_r. reflexivity.
  - inversion H as [|c' cs' (k & l & -> & Hk) H']; subst. destruct k; cbn; [| |exfalso; auto].
    + rewrite (IH _ _ H'). rewrite <- app_assoc. cbn. f_equal. f_equal. destruct (rev cs); reflexivity.
    + rewrite (IH _ _ H'). rewrite <- app_assoc. cbn. f_equal. f_equal. destruct (rev cs); reflexivity.
Qed.
Lemma given_canonical : forall c0 cs, given_as c0 cs -> canonicalise (Some c0) = Some cs.
Proof. intros c0 cs [->|[->|(k & l & -> & ->)]]; reflexivity. Qed.
Lemma scipy_list : forall c0 cs, given_as c0 cs -> List.Forall plain cs ->
  exists ds, scipy_constraints (Some c0) = Ok ds /\ length ds = length cs /\
  forall i c, nth_error cs i = Some c -> exists t f j, nth_error ds i = Some (t, f, j) /\
    t = (if is_eq c then SEq else SIneq) /\ (forall x, f x = con_function c x) /\
    (forall x, j x = con_jacobian (last cs c) x).
Proof.
  intros c0 cs H0 H. eexists. split; [unfold scipy_constraints; rewrite (given_canonical _ _ H0); rewrite scipy_loop_spec by exact H; reflexivity|].
  cbn [fst snd]. rewrite app_nil_l. split; [rewrite !map_length; reflexivity|].
  intros i c Hi. rewrite map_map. rewrite (map_nth_error _ _ _ Hi). eexists _, _, _. split; [reflexivity|]. cbn.
  split; [reflexivity|]. split; [reflexivity|]. intros x.
  destruct cs as [|c1 cs _] using rev_ind; [destruct i; discriminate|]. rewrite rev_app_distr. cbn. rewrite last_last. reflexivity.
Qed.

(** ** IPOPT *)
Lemma leaf_list : forall cs, List.Forall plain cs -> exists ls, cs = map (fun p : cls * leaf => CLeaf (fst p) (snd p)) ls /\ List.Forall (fun p => fst p <> IsPlain) ls.
Proof.
  intros cs H. induction H as [|c cs (k & l & -> & Hk) H (ls & -> & Hls)]; [exists []; split; [reflexivity | constructor]|].
  exists ((k, l) :: ls). split; [reflexivity | constructor; assumption].
Qed.
Lemma ipopt_flat : forall s0 c0 ls, given_as c0 (map (fun p : cls * leaf => CLeaf (fst p) (snd p)) ls) -> List.Forall (fun p : cls * leaf => fst p <> IsPlain) ls ->
  let n := fold_right Nat.add 0 (map (fun p => lf_dim (snd p)) ls) in
  exists g, ipopt_constraints s0 (Some c0) = Ok (n, repeat (Fin s0) n, flat_map (ub_of s0) ls, g) /\
    forall x, ((forall p q, In p ls -> In q ls -> length (lf_fun (snd p) x) = length (lf_fun (snd q) x)) ->
               exists shape, g x = Ok (ND shape (flat_map (fun p => lf_fun (snd p) x) ls))) /\
              (forall a, g x = Ok a -> nd_data a = flat_map (fun p => lf_fun (snd p) x) ls).
Proof.
  intros s0 c0 ls H0 H n. unfold ipopt_constraints. rewrite (given_canonical _ _ H0).
  rewrite con_dim_sum.
  2:{ cbn. clear. induction ls as [|p ls IH]; cbn; auto. }
  assert (E : leaves (CMerged (map (fun p : cls * leaf => CLeaf (fst p) (snd p)) ls)) = ls).
  { cbn. clear. induction ls as [|[k l] ls IH]; cbn; [reflexivity|]. f_equal. exact IH. }
  rewrite E. cbn [bind].
  assert (E2 : sequence (map (constraint_ub s0) (map (fun p : cls * leaf => CLeaf (fst p) (snd p)) ls)) = Ok (map (ub_of s0) ls)).
  { clear -H. induction H as [|[k l] ls Hk H IH]; [reflexivity|]. cbn [map sequence]. rewrite IH. cbn in Hk.
    destruct k; [reflexivity | reflexivity | exfalso; auto]. }
  rewrite E2. cbn [bind]. rewrite <- flat_map_concat_map. eexists. split; [reflexivity|]. intros x. cbv beta. rewrite merged_function_flat. cbn [bind].
  assert (ED : forall ms : list (cls * leaf), flat_map (@nd_data S) (map (fun p => ND [length (lf_fun (snd p) x)] (lf_fun (snd p) x)) ms) = flat_map (fun p => lf_fun (snd p) x) ms).
  { intros ms. induction ms as [|p ms IH]; [reflexivity|]. cbn. rewrite IH. reflexivity. }
  split.
  - intros HL. destruct ls as [|p0 ls]; [eexists; reflexivity|]. unfold np_stack. cbn [map].
    replace (forallb _ _) with true; [cbn [flat_map]; rewrite ED; eexists; reflexivity|]. symmetry. apply forallb_forall. intros a Ha. apply in_map_iff in Ha. destruct Ha as (q & <- & Hq).
    cbn [nd_shape]. unfold shape_eqb. rewrite (HL p0 q) by (cbn; auto). destruct (list_eq_dec Nat.eq_dec _ _) as [_|K]; [reflexivity | contradiction].
  - intros a Ha. rewrite (np_stack_data _ _ Ha). apply ED.
Qed.
Lemma ub_length : forall s0 (ls : list (cls * leaf)), length (flat_map (ub_of s0) ls) = fold_right Nat.add 0 (map (fun p => lf_dim (snd p)) ls).
Proof. intros s0 ls. induction ls as [|p ls IH]; [reflexivity|]. cbn. rewrite app_length, IH. unfold ub_of. rewrite repeat_length. reflexivity. Qed.
End Con.

(** * Bounds *)
Section Bnd.
Context {V S : Type}.
Notation bnd := (@bnd V S).
Implicit Types (ks : list (ctl V S)) (cs : list (@bctrl V S)).

Lemma allowed_iff : forall k (b : bnd), bound_allowed k b = true <-> entry_ok k b.
Proof.
  intros k b. unfold entry_ok. split.
  - destruct b; cbn; intros H; try discriminate; eauto 8; apply Nat.eqb_eq in H; subst; eauto 8.
  - intros [->|[[x ->]|[[x ->]|[[v ->]|[l ->]]]]]; cbn; auto using Nat.eqb_refl.
Qed.
Lemma check_iff : forall kl (l : list bnd), length l = length kl ->
  (check_bounds kl l = None <-> Forall2 pair_ok kl l).
Proof.
  intros kl. induction kl as [|k kl IH]; intros l Hl; destruct l as [|b l]; try discriminate; [split; auto|].
  cbn in Hl. injection Hl as Hl. specialize (IH l Hl). cbn. split.
  - intros H. constructor.
    + destruct (bound_items b) as [items|e] eqn:E; [|discriminate].
      destruct items as [|lo [|up [|z r]]]; try discriminate. cbn in H.
      destruct (bound_allowed k lo) eqn:E1; [|discriminate]. destruct (bound_allowed k up) eqn:E2; [|discriminate]. cbn in H.
      apply allowed_iff in E1. apply allowed_iff in E2.
      destruct b as [| | | | |k' l'|l'|]; try discriminate; cbn in E; injection E as E.
      * right. destruct l' as [|x [|y [|z r]]]; try discriminate. exists k', x, y. reflexivity.
      * left. subst. exists lo, up. auto.
    + apply IH. destruct (bound_items b) as [items|e]; [|discriminate].
      destruct (negb _); [discriminate|]. destruct (forallb _ _); [exact H | discriminate].
  - intros H. inversion H as [|k' b' kl' l' Hp H']; subst.
    destruct Hp as [(lo & up & -> & H1 & H2)|(k' & x & y & ->)]; cbn.
    + apply allowed_iff in H1. apply allowed_iff in H2. rewrite H1, H2. cbn. apply IH. exact H'.
    + apply IH. exact H'.
Qed.
Lemma pair_ok_iter : forall k (b : bnd), pair_ok k b -> plain_iterable b = true.
Proof. intros k b [(lo & up & -> & _)|(j & x & y & ->)]; reflexivity. Qed.

Lemma bounds_accepted_iff : forall klasses (b : @pybounds V S),
  (exists r, problem_bounds klasses b = Ok r) <-> well_shaped klasses b.
Proof.
  intros kl b. unfold problem_bounds, well_shaped. split.
  - intros [r H]. destruct b as [|l|]; [left; reflexivity | | discriminate]. right.
    cbn in H. destruct ((length l =? 2) && negb (existsb plain_iterable l)) eqn:E.
    + left. apply andb_true_iff in E. destruct E as [E1 E2]. apply Nat.eqb_eq in E1. apply negb_true_iff in E2.
      cbn in H. destruct kl as [|k [|k2 kl]]; try discriminate. cbn in H.
      destruct l as [|lo [|up [|z l]]]; try discriminate. cbn in H, E2.
      destruct (bound_allowed k lo) eqn:A1; [|discriminate]. destruct (bound_allowed k up) eqn:A2; [|discriminate].
      exists k, lo, up. split; [reflexivity|]. split; [reflexivity|].
      split; [apply allowed_iff; exact A1|]. split; [apply allowed_iff; exact A2|].
      intros j l'. apply orb_false_iff in E2. destruct E2 as [E2 E3]. apply orb_false_iff in E3. destruct E3 as [E3 _].
      split; intros ->; discriminate.
    + right. exists l. split; [reflexivity|]. cbn in H.
      destruct (Nat.eqb_spec (length l) (length kl)) as [El|El]; [|discriminate]. cbn in H.
      apply check_iff; [exact El|]. destruct (check_bounds kl l); [discriminate | reflexivity].
  - intros [->|[(k & lo & up & -> & -> & H1 & H2 & HR)|(l & -> & H)]].
    + eexists. reflexivity.
    + cbn. apply allowed_iff in H1. apply allowed_iff in H2.
      assert (E : plain_iterable lo || (plain_iterable up || false) = false).
      { assert (E1 : plain_iterable lo = false).
        { destruct lo as [| | | | |j l|l|]; try reflexivity; [exfalso; apply (proj1 (HR j l)); reflexivity | discriminate]. }
        assert (E2 : plain_iterable up = false).
        { destruct up as [| | | | |j l|l|]; try reflexivity; [exfalso; apply (proj2 (HR j l)); reflexivity | discriminate]. }
        rewrite E1, E2. reflexivity. }
      rewrite E. cbn. rewrite H1, H2. cbn. eexists. reflexivity.
    + cbn. assert (Hl : length l = length kl) by (symmetry; exact (F2_len _ _ _ H)).
      assert (E : (length l =? 2) && negb (existsb plain_iterable l) = false).
      { apply andb_false_iff. destruct (Nat.eqb_spec (length l) 2) as [E|E]; [|left; reflexivity]. right. apply negb_false_iff.
        destruct l as [|b l]; [discriminate|]. inversion H as [|k b' kl' l' Hp]; subst. cbn. rewrite (pair_ok_iter _ _ Hp). reflexivity. }
      rewrite E. cbn. rewrite Hl, Nat.eqb_refl. cbn. rewrite (proj2 (check_iff kl l Hl) H). eexists. reflexivity.
Qed.
Lemma bounds_rejected : forall klasses (b : @pybounds V S) e, problem_bounds klasses b = Err e -> e = EType.
Proof.
  assert (H : forall kl (l : list bnd) e, check_bounds kl l = Some e -> e = EType).
  { intros kl. induction kl as [|k kl IH]; intros l e H; [discriminate|]. destruct l as [|b l]; [discriminate|]. cbn in H.
    destruct (bound_items b) as [it|e'] eqn:E.
    - destruct (negb _); [injection H as <-; reflexivity|]. destruct (forallb _ _); [eauto | injection H as <-; reflexivity].
    - injection H as <-. destruct b; cbn in E; congruence. }
  intros kl b e Hb. unfold problem_bounds in Hb. destruct b as [|l|]; cbn in Hb; [discriminate | | congruence].
  destruct ((length l =? 2) && negb (existsb plain_iterable l)).
  - destruct (negb _); [congruence|]. destruct (check_bounds kl [BSeq l]) eqn:E; [injection Hb as <-; eauto | discriminate].
  - destruct (negb _); [congruence|]. destruct (check_bounds kl l) eqn:E; [injection Hb as <-; eauto | discriminate].
Qed.
(** what is kept: one (lower, upper) pair per control *)
Lemma bounds_kept : forall klasses (b : @pybounds V S) r, problem_bounds klasses b = Ok (Some r) ->
  Forall2 pair_ok klasses r /\ (b = PBSeq r \/ exists lo up, b = PBSeq [lo; up] /\ r = [BSeq [lo; up]]).
Proof.
  intros kl b r H. unfold problem_bounds in H. destruct b as [|l|]; cbn in H; try discriminate.
  destruct ((length l =? 2) && negb (existsb plain_iterable l)) eqn:E.
  - destruct (Nat.eqb_spec (length [@BSeq V S l]) (length kl)) as [El|El]; cbn [negb] in H; [|discriminate].
    destruct (check_bounds kl [BSeq l]) eqn:E2; [discriminate|]. injection H as <-.
    split; [apply check_iff; assumption|]. right.
    apply andb_true_iff in E. destruct E as [E1 _]. apply Nat.eqb_eq in E1.
    destruct l as [|lo [|up [|z l]]]; try discriminate. eauto.
  - destruct (Nat.eqb_spec (length l) (length kl)) as [El|El]; cbn [negb] in H; [|discriminate].
    destruct (check_bounds kl l) eqn:E2; [discriminate|]. injection H as <-. split; [apply check_iff; assumption | left; reflexivity].
Qed.

(** the serialisers see the controls' types *)

Lemma serialise_row_spec : forall ks bs x, List.Forall law ks -> bounds_of ks bs x ->
  forall cs pre cs2, sees ks cs2 -> cs = pre ++ cs2 -> serialise_row cs (length pre) bs = Ok x.
Proof.
  intros ks bs x HL HB. induction HB as [|k ks b bs x y Hb HB IH]; intros cs pre cs2 HS ->; [reflexivity|].
  inversion HS as [|k' c ks' cs' Hc HS']; subst. inversion HL as [|k' ks' Hk HL']; subst.
  cbn [serialise_row].
  assert (E : serialise_one (pre ++ c :: cs') (length pre) b = Ok x).
  { assert (En : nth_error (pre ++ c :: cs') (length pre) = Some c) by (rewrite nth_error_app2, Nat.sub_diag by lia; reflexivity).
    destruct Hb as [|z|z|cl v Hv]; cbn; rewrite En, Hc; try reflexivity.
    destruct Hk as [H1 _]. destruct (H1 v Hv) as (_ & Hl & _). rewrite Hl. reflexivity. }
  rewrite E. cbn [bind].
  specialize (IH HL' (pre ++ c :: cs') (pre ++ [c]) cs' HS').
  rewrite app_length in IH. cbn [length] in IH. rewrite IH; [reflexivity|]. rewrite <- app_assoc. reflexivity.
Qed.
Lemma bounds_of_length : forall ks bs x, List.Forall law ks -> bounds_of ks bs x -> length x = total ks.
Proof.
  intros ks bs x HL HB. induction HB as [|k ks b bs x y Hb HB IH]; [reflexivity|].
  inversion HL as [|k' ks' Hk HL']; subst. rewrite app_length, (IH HL'). unfold total. cbn. f_equal.
  destruct Hb as [|z|z|cl v Hv]; rewrite ?repeat_length, ?map_length; try reflexivity. destruct Hk as [H1 _]. apply H1. exact Hv.
Qed.
Lemma serialise_nested : forall ks cs lo up xl xu, List.Forall law ks -> sees ks cs -> bounds_of ks lo xl -> bounds_of ks up xu ->
  serialise_bounds cs (SBNested [lo; up]) = Ok (combine xl xu) /\ length xl = total ks /\ length xu = total ks.
Proof.
  intros ks cs lo up xl xu HL HS Hl Hu. unfold serialise_bounds.
  assert (E1 := serialise_row_spec ks lo xl HL Hl cs [] cs HS eq_refl).
  assert (E2 := serialise_row_spec ks up xu HL Hu cs [] cs HS eq_refl). cbn [length] in E1, E2.
  assert (N1 := bounds_of_length ks lo xl HL Hl). assert (N2 := bounds_of_length ks up xu HL Hu).
  rewrite E1. cbn [bind]. rewrite E2. cbn [bind]. rewrite N1, N2, Nat.eqb_refl. auto.
Qed.
(** the pair form for one control, unless both bounds are integers *)
Lemma serialise_flat : forall (k : ctl V S) (c : @bctrl V S) (lo up : bnd) xl xu, law k -> bc_type c = k_type k -> scalar_bounds k lo xl -> scalar_bounds k up xu ->
  is_int lo && is_int up = false ->
  serialise_bounds [c] (SBFlat [lo; up]) = Ok (combine xl xu).
Proof.
  intros k c lo up xl xu Hk Hc Hl Hu Hi.
  assert (H : forall lo up, scalar_bounds k lo xl -> scalar_bounds k up xu -> serialise_bounds [c] (SBNested [[lo]; [up]]) = Ok (combine xl xu)).
  { clear lo up Hl Hu Hi. intros a b Ha Hb. apply (serialise_nested [k] [c]).
    - constructor; [exact Hk | constructor].
    - constructor; [exact Hc | constructor].
    - rewrite <- (app_nil_r xl). constructor; [exact Ha | constructor].
    - rewrite <- (app_nil_r xu). constructor; [exact Hb | constructor]. }
  assert (E : exists a b, np_entries [lo; up] = [a; b] /\ scalar_bounds k a xl /\ scalar_bounds k b xu).
  { unfold np_entries. destruct lo as [|x|x| | | | |]; try (inversion Hl; fail);
      destruct up as [|x'|x'| | | | |]; try (inversion Hu; fail); try discriminate; cbn; eexists _, _; (split; [reflexivity|]);
      split; try exact Hl; try exact Hu; inversion Hl; inversion Hu; subst; constructor. }
  destruct E as (a & b & E & Ha & Hb). unfold serialise_bounds. rewrite E. exact (H a b Ha Hb).
Qed.

(** IPOPT, TAO *)
Lemma repeat_map : forall {A B} (f : A -> B) x n, map f (repeat x n) = repeat (f x) n.
Proof. intros A B f x n. induction n as [|n IH]; cbn; [reflexivity | rewrite IH; reflexivity]. Qed.
Lemma ipopt_one_spec : forall (k : ctl V S) (c : @bctrl V S) cs (b : bnd) x, law k -> bc_type c = k_type k -> scalar_bounds k b x -> b <> BNone ->
  exists y, x = map Some y /\ ipopt_one cs c b = Ok (map Fin y).
Proof.
  intros k c cs b x Hk Hc Hb Hn. destruct Hb as [|z|z|cl v Hv]; [congruence | | |].
  - exists (repeat z (ct_size (k_type k))). cbn. rewrite Hc, !repeat_map. auto.
  - exists (repeat z (ct_size (k_type k))). cbn. rewrite Hc, !repeat_map. auto.
  - exists (k_comp k v). destruct Hk as [H1 _]. destruct (H1 v Hv) as (_ & Hl & _). cbn. rewrite Hc, Hl. auto.
Qed.
Lemma ipopt_loop_spec : forall all ks (cs : list (@bctrl V S)) lo up xl xu, List.Forall law ks -> sees ks cs ->
  bounds_of ks lo xl -> bounds_of ks up xu -> ~ In BNone lo -> ~ In BNone up ->
  exists yl yu, xl = map Some yl /\ xu = map Some yu /\
    ipopt_loop all cs (map (fun p => BSeq [fst p; snd p]) (combine lo up)) = Ok (map Fin yl, map Fin yu).
Proof.
  intros all ks cs lo up xl xu HL HS Hl. revert cs up xu HS. induction Hl as [|k ks b bs x y Hb HB IH]; intros cs up xu HS Hu Nl Nu.
  - inversion Hu; subst. inversion HS; subst. exists [], []. auto.
  - inversion Hu as [|k' ks' b' bs' x' y' Hb' HB']; subst. inversion HS as [|k' c ks' cs' Hc HS']; subst.
    inversion HL as [|k' ks' Hk HL']; subst.
    destruct (ipopt_one_spec k c all b x Hk Hc Hb) as (zl & -> & El). { intros ->; apply Nl; left; reflexivity. }
    destruct (ipopt_one_spec k c all b' x' Hk Hc Hb') as (zu & -> & Eu). { intros ->; apply Nu; left; reflexivity. }
    destruct (IH HL' cs' bs' y' HS' HB') as (yl & yu & -> & -> & E).
    { intros Hi; apply Nl; right; exact Hi. } { intros Hi; apply Nu; right; exact Hi. }
    exists (zl ++ yl), (zu ++ yu). rewrite !map_app. split; [reflexivity|]. split; [reflexivity|].
    cbn [combine map ipopt_loop fst snd]. rewrite El. cbn [bind]. rewrite Eu. cbn [bind]. rewrite E. reflexivity.
Qed.
Lemma tao_one_spec : forall d (k : ctl V S) (c : @bctrl V S) (b : bnd) x, law k -> bc_type c = k_type k -> scalar_bounds k b x ->
  tao_one c d b = Ok (map (or_default d) x).
Proof.
  intros d k c b x Hk Hc Hb. destruct Hb as [|z|z|cl v Hv]; cbn; rewrite ?Hc, ?repeat_map; try reflexivity.
  destruct Hk as [H1 _]. destruct (H1 v Hv) as (_ & Hl & _). rewrite Hl. f_equal. rewrite map_map. cbn. symmetry. apply map_id.
Qed.
Lemma tao_spec : forall mx mn ks (cs : list (@bctrl V S)) lo up xl xu, List.Forall law ks -> sees ks cs ->
  bounds_of ks lo xl -> bounds_of ks up xu ->
  tao_bounds mx mn cs (map (fun p => BSeq [fst p; snd p]) (combine lo up)) = Ok (map (or_default mn) xl, map (or_default mx) xu).
Proof.
  intros mx mn ks cs lo up xl xu HL HS Hl. revert cs up xu HS. induction Hl as [|k ks b bs x y Hb HB IH]; intros cs up xu HS Hu.
  - inversion Hu; subst. inversion HS; subst. reflexivity.
  - inversion Hu as [|k' ks' b' bs' x' y' Hb' HB']; subst. inversion HS as [|k' c ks' cs' Hc HS']; subst.
    inversion HL as [|k' ks' Hk HL']; subst.
    cbn [combine map tao_bounds fst snd]. rewrite (tao_one_spec mn k c b x Hk Hc Hb). cbn [bind].
    rewrite (tao_one_spec mx k c b' x' Hk Hc Hb'). cbn [bind]. rewrite (IH HL' cs' bs' y' HS' HB'). cbn. rewrite !map_app. reflexivity.
Qed.
End Bnd.
