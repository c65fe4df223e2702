(** Exact derivatives over the reals: the recorded computation along a differentiable curve. *)
From Coq Require Import List Arith ZArith Lia Bool Reals Lra.
From Coquelicot Require Import Coquelicot.
From Verif Require Import Base Model BaseFacts Graph Record RecordFacts Replay History Sweep SpecGraph Marks Dual TlmSweep RealInst.
Import ListNotations.

(** ** Evaluation facts, any arithmetic *)
Section Eval.
Context {V : Type} (F : fops V).

Lemma ev_loop : forall k xs l i (e : nat -> V) (y : nat -> V), NoDup l ->
  (forall j o, nth_error l j = Some o ->
     comp_recompute F k xs (i + j) = Ok (Some (y (i + j)%nat)) \/ (comp_recompute F k xs (i + j) = Ok None /\ e o = y (i + j)%nat)) ->
  let r := iter_o (fun e' (io : nat * nat) =>
              match comp_recompute F k xs (fst io) with
              | Err x => (e', Some x) | Ok None => (e', None)
              | Ok (Some x) => (eset e' (snd io) x, None) end) (enum_from i l) e in
  snd r = None /\ (forall j o, nth_error l j = Some o -> fst r o = y (i + j)%nat) /\ (forall v, ~ In v l -> fst r v = e v).
Proof.
  intros k xs l. induction l as [|o l IH]; intros i e y Hn Hy r.
  - cbn in r. subst r. cbn. repeat split; auto. now intros [|j].
  - inversion Hn as [|? ? Ho Hn']; subst. unfold r. clear r. cbn [enum_from iter_o fst snd].
    assert (G : forall e1, e1 o = y i -> (forall v, v <> o -> e1 v = e v) ->
      let r := iter_o (fun e' (io : nat * nat) =>
              match comp_recompute F k xs (fst io) with
              | Err x => (e', Some x) | Ok None => (e', None)
              | Ok (Some x) => (eset e' (snd io) x, None) end) (enum_from (Datatypes.S i) l) e1 in
      snd r = None /\ (forall j u, nth_error (o :: l) j = Some u -> fst r u = y (i + j)%nat) /\ (forall v, ~ In v (o :: l) -> fst r v = e v)).
    { intros e1 E1 Ef r. destruct (IH (Datatypes.S i) e1 y Hn') as [A [B C]].
      { intros j u Hu. specialize (Hy (Datatypes.S j) u Hu). rewrite Nat.add_succ_r in Hy. cbn [plus]. rewrite (Ef u); [exact Hy|].
        intros ->. apply Ho. eapply nth_error_In; eauto. }
      fold r in A, B, C. split; [exact A|]. split.
      - intros [|j] u Hu; cbn in Hu.
        + injection Hu as <-. rewrite Nat.add_0_r. rewrite C by exact Ho. exact E1.
        + rewrite Nat.add_succ_r. exact (B j u Hu).
      - intros v Hv. rewrite C by (intros K; apply Hv; now right). apply Ef. intros ->. apply Hv. now left. }
    destruct (Hy 0%nat o eq_refl) as [E|[E E2]]; rewrite Nat.add_0_r in *; rewrite E.
    + apply G; unfold eset; [now rewrite Nat.eqb_refl|]. intros v Hv. now rewrite (proj2 (Nat.eqb_neq v o) Hv).
    + apply G; auto.
Qed.

(** The final values are consistent with every block that was recomputed. *)
Definition fixed_block (e : nat -> V) (b : block V) : Prop :=
  forall k o, nth_error (b_outs b) k = Some o ->
    comp_recompute F (b_kind b) (map e (b_deps b)) k = Ok (Some (e o)) \/ comp_recompute F (b_kind b) (map e (b_deps b)) k = Ok None.

Lemma loop_fixed : forall k xs l i (e e' : nat -> V), NoDup l ->
  iter_o (fun e' (io : nat * nat) =>
              match comp_recompute F k xs (fst io) with
              | Err x => (e', Some x) | Ok None => (e', None)
              | Ok (Some x) => (eset e' (snd io) x, None) end) (enum_from i l) e = (e', None) ->
  (forall j o, nth_error l j = Some o -> comp_recompute F k xs (i + j) = Ok (Some (e' o)) \/ comp_recompute F k xs (i + j) = Ok None) /\
  (forall v, ~ In v l -> e' v = e v).
Proof.
  intros k xs l. induction l as [|o l IH]; intros i e e' Hn E.
  - cbn in E. injection E as <-. split; [now intros [|j]|reflexivity].
  - inversion Hn as [|? ? Ho Hn']; subst. cbn [enum_from iter_o fst snd] in E.
    destruct (comp_recompute F k xs i) as [[x|]|] eqn:Ec; [| |discriminate E].
    + destruct (IH (Datatypes.S i) _ e' Hn' E) as [A B]. split.
      * intros [|j] u Hu; cbn in Hu.
        -- injection Hu as <-. left. rewrite Nat.add_0_r, Ec, (B o Ho). unfold eset. now rewrite Nat.eqb_refl.
        -- rewrite Nat.add_succ_r. exact (A j u Hu).
      * intros v Hv. rewrite B by (intros K; apply Hv; now right). unfold eset.
        rewrite (proj2 (Nat.eqb_neq v o)); [reflexivity|]. intros ->. apply Hv. now left.
    + destruct (IH (Datatypes.S i) _ e' Hn' E) as [A B]. split.
      * intros [|j] u Hu; cbn in Hu.
        -- injection Hu as <-. right. now rewrite Nat.add_0_r.
        -- rewrite Nat.add_succ_r. exact (A j u Hu).
      * intros v Hv. apply B. intros K. apply Hv. now right.
Qed.

Lemma NoDup_disjoint : forall (l m : list nat) x, NoDup (l ++ m) -> In x l -> ~ In x m.
Proof.
  induction l as [|y l IH]; intros m x Hn Hx K; [exact Hx|]. cbn in Hn. inversion Hn as [|? ? Hy Hn']; subst.
  destruct Hx as [->|Hx]; [apply Hy; apply in_app_iff; now right|]. exact (IH m x Hn' Hx K).
Qed.

Lemma geval_fixed : forall cut bs e0 e, topo bs -> NoDup (outs_of bs) -> geval F cut bs e0 = (e, None) ->
  forall b, In b bs -> existsb cut (b_outs b) = false -> fixed_block e b.
Proof.
  intros cut bs. induction bs as [|b r IH]; intros e0 e Ht Hn E b' Hb' Hc; [destruct Hb'|].
  unfold geval in E. cbn [iter_o] in E. destruct (geval_block F cut e0 b) as [e1 [x|]] eqn:Eb; [discriminate E|].
  fold (geval F cut r e1) in E.
  assert (Hor : NoDup (outs_of r)) by exact (NoDup_app_r _ _ _ Hn).
  destruct Hb' as [<-|Hb']; [|exact (IH e1 e (proj2 Ht) Hor E b' Hb' Hc)].
  unfold geval_block in Eb. rewrite Hc in Eb.
  destruct (loop_fixed _ _ _ _ _ _ (NoDup_app_l _ _ _ Hn) Eb) as [A B].
  assert (Fr : forall v, ~ In v (outs_of r) -> e v = e1 v).
  { intros v Hv. replace e with (fst (geval F cut r e1)) by now rewrite E. apply geval_frame. intros K. apply Hv. exact (computed_outs _ _ _ K). }
  assert (Ed : map e (b_deps b) = map e0 (b_deps b)).
  { apply map_ext_in. intros d Hd. pose proof (proj1 Ht d Hd) as K. unfold outs_of in K. cbn in K. rewrite in_app_iff in K.
    rewrite Fr by (unfold outs_of; tauto). apply B. tauto. }
  intros k o Ho. rewrite Ed. specialize (A k o Ho). cbn in A.
  assert (Eo : e o = e1 o) by (apply Fr; apply (NoDup_disjoint _ _ _ Hn); eapply nth_error_In; eauto).
  rewrite Eo. exact A.
Qed.

End Eval.

Open Scope R_scope.
Notation geval_R := (geval RO).

(** ** One operation along curves *)
Definition rget (r : res R) : R := match r with Ok x => x | Err _ => 0 end.
(** Derivative of an operation in direction [ts]. *)
Definition dtan (k : kind R) (xs ts : list R) : R :=
  match k, xs, ts with
  | KAdd, _, [t0; t1] => t0 + t1
  | KSub, _, [t0; t1] => t0 - t1
  | KMul, [x0; x1], [t0; t1] => t0 * x1 + t1 * x0
  | KDiv, [x0; x1], [t0; t1] => t0 * (1 / x1) + t1 * (- (x0 / powerRZ x1 2))
  | KPow, [x0; x1], [t0; t1] => t0 * (x1 * rget (Rpow_res x0 (x1 - 1))) + t1 * (ln x0 * rget (Rpow_res x0 x1))
  | KNeg, _, [t0] => - t0
  | KExp, [x0], [t0] => exp x0 * t0
  | KLog, [x0], [t0] => t0 / x0
  | KMin, [x0; x1], [t0; t1] => if Rle_b x0 x1 then t0 else t1
  | KMax, [x0; x1], [t0; t1] => if Rle_b x1 x0 then t0 else t1
  | _, _, _ => 0
  end.

Lemma unary_diff : forall k (u : R -> R) t y0, arity k = 1%nat -> is_derive u 0 t -> comp_recompute RO k [u 0] 0 = Ok (Some y0) ->
  exists y, locally 0 (fun s => comp_recompute RO k [u s] 0 = Ok (Some (y s))) /\ is_derive y 0 (dtan k [u 0] [t]).
Proof.
  intros k u t y0 Ha Hu H0. assert (Eu : ex_derive u 0) by (exists t; exact Hu). pose proof (is_derive_unique _ _ _ Hu) as Du.
  destruct k; cbn in Ha; try discriminate Ha.
  - exists (fun s => - u s). split; [apply filter_forall; reflexivity|]. cbn. auto_derive; [exact Eu|]. change (fun x => u x) with u. rewrite Du. ring.
  - exists (fun s => exp (u s)). split; [apply filter_forall; reflexivity|]. cbn. auto_derive; [exact Eu|]. change (fun x => u x) with u. rewrite Du. ring.
  - cbn in H0. destruct (Rlt_dec 0 (u 0)) as [Hp|]; [|discriminate H0].
    exists (fun s => ln (u s)). split.
    + generalize (curve_open u t (fun x => 0 < x) Hu (open_gt 0) Hp). apply filter_imp. intros s Hs. cbn.
      destruct (Rlt_dec 0 (u s)); [reflexivity|contradiction].
    + cbn. auto_derive; [split; [exact Eu|split; [exact Hp|exact I]]|]. change (fun x => u x) with u. rewrite Du. field. lra.
Qed.

(** Where a binary operation is differentiable along curves [u], [w]. *)
Definition smooth2 (k : kind R) (u w : R -> R) : Prop :=
  match k with
  | KPow => 0 < u 0 \/ (locally 0 (fun s => w s = w 0) /\ exists z : Z, w 0 = IZR z /\ (u 0 <> 0 \/ (1 <= z)%Z))
  | KMin | KMax => u 0 <> w 0
  | _ => True
  end.

Lemma locally_const_derive : forall (w : R -> R) t, locally 0 (fun s => w s = w 0) -> is_derive w 0 t -> t = 0.
Proof.
  intros w t Hc Hw. rewrite <- (is_derive_unique _ _ _ Hw). apply is_derive_unique.
  apply (is_derive_ext_loc (fun _ => w 0)).
  - revert Hc. apply filter_imp. intros s Hs. now symmetry.
  - apply (@is_derive_const R_AbsRing R_NormedModule).
Qed.

Lemma binary_diff : forall k (u w : R -> R) t0 t1 y0, arity k = 2%nat -> (forall x, k <> KUser x) -> is_derive u 0 t0 -> is_derive w 0 t1 ->
  smooth2 k u w -> comp_recompute RO k [u 0; w 0] 0 = Ok (Some y0) ->
  exists y, locally 0 (fun s => comp_recompute RO k [u s; w s] 0 = Ok (Some (y s))) /\ is_derive y 0 (dtan k [u 0; w 0] [t0; t1]).
Proof.
  intros k u w t0 t1 y0 Ha Hk Hu Hw Hs H0.
  assert (Eu : ex_derive u 0) by (exists t0; exact Hu). pose proof (is_derive_unique _ _ _ Hu) as Du.
  assert (Ew : ex_derive w 0) by (exists t1; exact Hw). pose proof (is_derive_unique _ _ _ Hw) as Dw.
  destruct k; cbn in Ha; try discriminate Ha; cbn [smooth2] in Hs.
  - exists (fun s => u s + w s). split; [apply filter_forall; reflexivity|]. cbn. auto_derive; [tauto|].
    change (fun x => u x) with u; change (fun x => w x) with w; rewrite Du, Dw; ring.
  - exists (fun s => u s - w s). split; [apply filter_forall; reflexivity|]. cbn. auto_derive; [tauto|].
    change (fun x => u x) with u; change (fun x => w x) with w; rewrite Du, Dw; ring.
  - exists (fun s => u s * w s). split; [apply filter_forall; reflexivity|]. cbn. auto_derive; [tauto|].
    change (fun x => u x) with u; change (fun x => w x) with w; rewrite Du, Dw; ring.
  - cbn in H0. destruct (Req_EM_T (w 0) 0) as [|Hn]; [discriminate H0|].
    exists (fun s => u s / w s). split.
    + generalize (curve_open w t1 (fun x => x <> 0) Hw (open_neq 0) Hn). apply filter_imp. intros s Hx. cbn.
      destruct (Req_EM_T (w s) 0); [contradiction|reflexivity].
    + cbn [dtan]. auto_derive; [tauto|].
      change (fun x => u x) with u; change (fun x => w x) with w; rewrite Du, Dw. change (powerRZ (w 0) 2) with (w 0 ^ 2). field. exact Hn.
  - destruct Hs as [Hp|[Hc [z [Ez Hz]]]].
    + exists (fun s => Rpower (u s) (w s)). split.
      * generalize (curve_open u t0 (fun x => 0 < x) Hu (open_gt 0) Hp). apply filter_imp. intros s Hx. cbn. unfold Rpow_res.
        destruct (Rlt_dec 0 (u s)); [reflexivity|contradiction].
      * cbn [dtan]. unfold Rpow_res. destruct (Rlt_dec 0 (u 0)) as [_|]; [|contradiction]. cbn [rget].
        replace (Rpower (u 0) (w 0 - 1)) with (Rpower (u 0) (w 0) / u 0).
        2:{ unfold Rminus. rewrite Rpower_plus, Rpower_Ropp, Rpower_1 by exact Hp. reflexivity. }
        unfold Rpower. auto_derive; [tauto|].
        change (fun x => u x) with u; change (fun x => w x) with w; rewrite Du, Dw. field. lra.
    + pose proof (locally_const_derive w t1 Hc Hw) as ->.
      exists (fun s => powerRZ (u s) z).
      assert (Dz : is_derive (fun s => powerRZ (u s) z) 0 (t0 * (IZR z * powerRZ (u 0) (z - 1)))).
      { apply (is_derive_comp (fun y => powerRZ y z) u 0 (IZR z * powerRZ (u 0) (z - 1)) t0); [|exact Hu]. now apply is_derive_powerRZ. }
      split.
      * assert (Hd : locally 0 (fun s => u s <> 0 \/ (1 <= z)%Z)).
        { destruct Hz as [Hz|Hz]; [|apply filter_forall; auto].
          generalize (curve_open u t0 (fun x => x <> 0) Hu (open_neq 0) Hz). apply filter_imp. auto. }
        generalize (filter_and _ _ Hc Hd). apply filter_imp. intros s [E1 E2]. cbn. rewrite E1, Ez.
        rewrite Rpow_int; [reflexivity|]. destruct E2; [now left|right; lia].
      * cbn [dtan]. rewrite Ez, <- minus_IZR, Rpow_int by (destruct Hz; [now left|right; lia]). cbn [rget].
        evar_last; [exact Dz|]. ring.
  - destruct (Rle_lt_dec (u 0) (w 0)) as [Hle|Hlt].
    + assert (H1 : u 0 < w 0) by lra. exists u. split.
      * generalize (locally_lt u w t0 t1 Hu Hw H1). apply filter_imp. intros s Hx. cbn. unfold py_min. cbn. unfold Rlt_b.
        destruct (Rlt_dec (w s) (u s)); [lra|reflexivity].
      * cbn. unfold Rle_b. destruct (Rle_dec (u 0) (w 0)); [exact Hu|lra].
    + exists w. split.
      * generalize (locally_lt w u t1 t0 Hw Hu Hlt). apply filter_imp. intros s Hx. cbn. unfold py_min. cbn. unfold Rlt_b.
        destruct (Rlt_dec (w s) (u s)); [reflexivity|lra].
      * cbn. unfold Rle_b. destruct (Rle_dec (u 0) (w 0)); [lra|exact Hw].
  - destruct (Rle_lt_dec (w 0) (u 0)) as [Hle|Hlt].
    + assert (H1 : w 0 < u 0) by (destruct Hle as [|E]; [assumption|exfalso; apply Hs; now symmetry]). exists u. split.
      * generalize (locally_lt w u t1 t0 Hw Hu H1). apply filter_imp. intros s Hx. cbn. unfold py_max. cbn. unfold Rlt_b.
        destruct (Rlt_dec (u s) (w s)); [lra|reflexivity].
      * cbn. unfold Rle_b. destruct (Rle_dec (w 0) (u 0)); [exact Hu|lra].
    + exists w. split.
      * generalize (locally_lt u w t0 t1 Hu Hw Hlt). apply filter_imp. intros s Hx. cbn. unfold py_max. cbn. unfold Rlt_b.
        destruct (Rlt_dec (u s) (w s)); [reflexivity|lra].
      * cbn. unfold Rle_b. destruct (Rle_dec (w 0) (u 0)); [lra|exact Hw].
  - exfalso. exact (Hk _ eq_refl).
Qed.

(** ** Blocks *)
(** Sum of adjoint contributions of a user block, positions that raise counting nothing. *)
Fixpoint user_sum (u : ublock R) (xs : list R) (ins : list (option R)) (l : list (nat * R)) : R :=
  match l with
  | [] => 0
  | (i, t) :: r => match u_adj u xs ins i with Ok o => val RO o * t + user_sum u xs ins r | Err _ => user_sum u xs ins r end
  end.
(** The differential [D] of a user block with [n] outputs at [xs]: along every curve through [xs] the
    outputs are defined near 0 and have derivative [D k ts]. *)
Definition user_differential (u : ublock R) (n : nat) (xs : list R) (D : nat -> list R -> R) : Prop :=
  forall (c : R -> list R) ts, length ts = length xs -> (forall s, length (c s) = length xs) -> c 0 = xs ->
    (forall i, (i < length xs)%nat -> is_derive (fun s => nth i (c s) 0) 0 (nth i ts 0)) ->
    exists y : nat -> R -> R, forall k, (k < n)%nat ->
      locally 0 (fun s => u_recompute u (c s) k = Ok (Some (y k s))) /\ is_derive (y k) 0 (D k ts).
(** Its adjoint component is correct where needed: the transpose of [D]. *)
Definition user_adjoint (u : ublock R) (n : nat) (xs : list R) (D : nat -> list R -> R) : Prop :=
  forall ins ts, length ins = n -> length ts = length xs ->
    (forall i, (i < length xs)%nat -> nth i ts 0 <> 0 -> exists o, u_adj u xs ins i = Ok o) ->
    user_sum u xs ins (enum ts) = dot RO (map (val RO) ins) (map (fun k => D k ts) (seq 0 n)).

(** Its tangent component is correct: it returns [D]. *)
Definition user_tangent (u : ublock R) (n : nat) (xs : list R) (D : nat -> list R -> R) : Prop :=
  forall ts k o, length ts = length xs -> existsb is_some ts = true -> (k < n)%nat -> u_tlm u xs ts k = Ok o ->
    val RO o = D k (map (val RO) ts).

(** Points at which an operation is differentiable; [N] are the variables that change. *)
Definition smooth_block (N : nat -> Prop) (e : nat -> R) (b : block R) : Prop :=
  match b_kind b, b_deps b with
  | KPow, [d0; d1] => 0 < e d0 \/ (~ N d1 /\ exists z : Z, e d1 = IZR z /\ (e d0 <> 0 \/ (1 <= z)%Z))
  | KMin, [d0; d1] | KMax, [d0; d1] => e d0 <> e d1
  | KUser u, ds => exists D, user_differential u (length (b_outs b)) (map e ds) D
  | _, _ => True
  end.
(** The adjoint, respectively tangent, component of a user block is right at [e]. *)
Definition adjoint_right (e : nat -> R) (b : block R) : Prop :=
  match b_kind b with
  | KUser u => forall D, user_differential u (length (b_outs b)) (map e (b_deps b)) D -> user_adjoint u (length (b_outs b)) (map e (b_deps b)) D
  | _ => True
  end.
Definition tangent_right (e : nat -> R) (b : block R) : Prop :=
  match b_kind b with
  | KUser u => forall D, user_differential u (length (b_outs b)) (map e (b_deps b)) D -> user_tangent u (length (b_outs b)) (map e (b_deps b)) D
  | _ => True
  end.

Definition block_diff (N : nat -> Prop) (e t : nat -> R) (b : block R) : Prop :=
  forall c : R -> nat -> R,
    (forall d, In d (b_deps b) -> c 0 d = e d /\ is_derive (fun s => c s d) 0 (t d)) ->
    (forall d, In d (b_deps b) -> ~ N d -> locally 0 (fun s => c s d = e d)) ->
    exists y : nat -> R -> R, forall k o, nth_error (b_outs b) k = Some o ->
      locally 0 (fun s => comp_recompute RO (b_kind b) (map (c s) (b_deps b)) k = Ok (Some (y k s))) /\ is_derive (y k) 0 (t o).

Lemma builtin_block_diff : forall N e t b, shaped b -> (forall u, b_kind b <> KUser u) -> smooth_block N e b -> fixed_block RO e b ->
  (forall o, In o (b_outs b) -> t o = dtan (b_kind b) (map e (b_deps b)) (map t (b_deps b))) -> block_diff N e t b.
Proof.
  intros N e t b Hs Hu Hsm Hfx Ht c Hc Hcn.
  destruct b as [k deps outs tag]. unfold shaped in Hs. cbn [b_kind b_deps b_outs] in *.
  destruct outs as [|o [|? ?]].
  - exists (fun _ _ => 0). intros [|?] ? H; discriminate H.
  - assert (H0 : comp_recompute RO k (map e deps) 0 = Ok (Some (e o))).
    { destruct (Hfx 0%nat o eq_refl) as [H|H]; [exact H|]. exfalso. cbn [b_kind b_deps] in H.
      revert H. destruct k; cbn [comp_recompute]; repeat match goal with |- context [bind ?x _] => destruct x; cbn [bind]; try discriminate end; try discriminate.
      exfalso. exact (Hu _ eq_refl). }
    assert (Hsh : length deps = arity k) by (destruct k; first [exact (proj1 Hs)|exfalso; exact (Hu _ eq_refl)]).
    specialize (Ht o (or_introl eq_refl)).
    destruct (Nat.eq_dec (arity k) 1) as [E1|E1].
    + rewrite E1 in Hsh. destruct (one _ Hsh) as [d0 ->]. cbn [map] in *.
      destruct (Hc d0 (or_introl eq_refl)) as [C0 D0]. rewrite <- C0 in H0, Ht.
      destruct (unary_diff k (fun s => c s d0) (t d0) _ E1 D0 H0) as [y [A B]].
      exists (fun _ => y). intros [|[|?]] o' Ho; cbn in Ho; try discriminate Ho. injection Ho as <-.
      split; [exact A|]. rewrite Ht. exact B.
    + assert (E2 : arity k = 2%nat) by (destruct k; cbn in *; congruence).
      rewrite E2 in Hsh. destruct (two _ Hsh) as [d0 [d1 ->]]. cbn [map] in *.
      destruct (Hc d0 (or_introl eq_refl)) as [C0 D0]. destruct (Hc d1 (or_intror (or_introl eq_refl))) as [C1 D1].
      assert (S2 : smooth2 k (fun s => c s d0) (fun s => c s d1)).
      { unfold smooth_block in Hsm. cbn [b_kind b_deps] in Hsm. destruct k; cbn [smooth2]; auto; rewrite ?C0, ?C1; auto.
        destruct Hsm as [H|[H1 H2]]; [now left|right]. split; [|exact H2].
        apply (Hcn d1); auto. right. left. reflexivity. }
      rewrite <- C0, <- C1 in H0, Ht.
      destruct (binary_diff k (fun s => c s d0) (fun s => c s d1) (t d0) (t d1) _ E2 Hu D0 D1 S2 H0) as [y [A B]].
      exists (fun _ => y). intros [|[|?]] o' Ho; cbn in Ho; try discriminate Ho. injection Ho as <-.
      split; [exact A|]. rewrite Ht. exact B.
  - exfalso. destruct k; try (exact (Hu _ eq_refl)); destruct Hs as [_ K]; cbn in K; lia.
Qed.

Lemma builtin_block_dual : forall mk e t b, shaped b -> (forall u, b_kind b <> KUser u) ->
  (forall d, mk d = false -> t d = 0) ->
  (forall o, In o (b_outs b) -> t o = dtan (b_kind b) (map e (b_deps b)) (map t (b_deps b))) -> block_dual RO mk e t b.
Proof.
  intros mk e t b Hs Hu Hmk Ht ins Hl Hi Hc.
  destruct b as [k deps outs tag]. unfold shaped in Hs. cbn [b_kind b_deps b_outs] in *.
  destruct k.
  11: exfalso; exact (Hu _ eq_refl).
  all: destruct Hs as [Hdl Hol]; destruct outs as [|o [|? ?]]; [destruct ins; [discriminate Hi|discriminate Hl]| |cbn in Hol; lia];
    destruct ins as [|[a|] [|? ?]]; try discriminate Hl; try discriminate Hi; clear Hl Hi Hol Hu;
    specialize (Ht o (or_introl eq_refl)); cbn [arity] in Hdl.
  all: try (destruct (two _ Hdl) as [d0 [d1 ->]]); try (destruct (one _ Hdl) as [d0 ->]); clear Hdl;
    unfold marked, enum in *; cbn [enum_from filter snd map dtan] in *;
    pose proof (Hmk d0) as M0; try pose proof (Hmk d1) as M1; clear Hmk.
  all: destruct (mk d0); [|rewrite (M0 eq_refl) in *]; try (destruct (mk d1); [|rewrite (M1 eq_refl) in *]); clear M0; try clear M1;
    cbn [contrib] in *.
  all: try (destruct (Hc (0%nat, d0) ltac:(left; reflexivity)) as [c0 E0]; cbn in E0);
    try (destruct (Hc (1%nat, d1) ltac:(right; left; reflexivity)) as [c1 E1]; cbn in E1);
    try (destruct (Hc (1%nat, d1) ltac:(left; reflexivity)) as [c1 E1]; cbn in E1); clear Hc.
  all: cbn; rewrite Ht; clear Ht; change 2 with (IZR 2) in *; rewrite ?(Rpow_int (e d1) 2) in * by (right; lia).
  all: repeat match goal with
    | |- context [Rle_b ?x ?y] => destruct (Rle_b x y); cbn in *
    | H : Ok _ = Ok _ |- _ => injection H as H
    | H : Err _ = Ok _ |- _ => discriminate H
    | H : context [bind ?x _] |- _ => destruct x eqn:?; cbn in *
    | |- context [match ?x with Ok _ => _ | Err _ => _ end] => destruct x eqn:?; cbn in *
    end.
  all: repeat match goal with H : (if Req_EM_T ?y 0 then _ else _) = Ok _ |- _ => destruct (Req_EM_T y 0); [discriminate H|injection H as H] end; subst.
  all: cbn in *; try ring.
  all: change (Pos.to_nat 2) with 2%nat; cbn [pow]; unfold Rdiv; ring.
Qed.

(** ** The whole tape along a curve *)
Lemma locally_nth : forall (l : list nat) (P : nat -> nat -> R -> Prop),
  (forall k o, nth_error l k = Some o -> locally 0 (P k o)) ->
  locally 0 (fun s => forall k o, nth_error l k = Some o -> P k o s).
Proof.
  induction l as [|x l IH]; intros P H.
  - apply filter_forall. intros s [|k] o K; discriminate K.
  - generalize (H 0%nat x eq_refl). intros H0.
    generalize (IH (fun k => P (Datatypes.S k)) (fun k o K => H (Datatypes.S k) o K)). intros H1.
    generalize (filter_and _ _ H0 H1). apply filter_imp. intros s [A B] [|k] o K; cbn in K.
    + injection K as <-. exact A.
    + exact (B k o K).
Qed.
Lemma locally_in : forall (l : list nat) (P : nat -> R -> Prop),
  (forall o, In o l -> locally 0 (P o)) -> locally 0 (fun s => forall o, In o l -> P o s).
Proof.
  induction l as [|x l IH]; intros P H.
  - apply filter_forall. intros s o [].
  - generalize (filter_and _ _ (H x (or_introl eq_refl)) (IH P (fun o K => H o (or_intror K)))). apply filter_imp.
    intros s [A B] o [<-|K]; auto.
Qed.

Fixpoint pos (v : nat) (l : list nat) : option nat :=
  match l with [] => None | x :: r => if Nat.eqb v x then Some 0%nat else option_map Datatypes.S (pos v r) end.
Lemma pos_nth : forall l k v, NoDup l -> nth_error l k = Some v -> pos v l = Some k.
Proof.
  induction l as [|x l IH]; intros [|k] v Hn Hk; cbn in Hk; try discriminate Hk.
  - injection Hk as <-. cbn. now rewrite Nat.eqb_refl.
  - inversion Hn as [|? ? Hx Hn']; subst. cbn. rewrite (IH k v Hn' Hk).
    rewrite (proj2 (Nat.eqb_neq v x)); [reflexivity|]. intros ->. apply Hx. eapply nth_error_In; eauto.
Qed.
Lemma pos_some : forall l k v, pos v l = Some k -> nth_error l k = Some v.
Proof.
  induction l as [|x l IH]; intros k v H; cbn in H; [discriminate H|]. destruct (Nat.eqb_spec v x) as [E|E].
  - injection H as <-. cbn. now rewrite E.
  - clear E. destruct (pos v l) eqn:E; [|discriminate H]. injection H as <-. cbn. now apply IH.
Qed.
Lemma pos_none : forall l v, pos v l = None <-> ~ In v l.
Proof.
  induction l as [|x l IH]; intros v; cbn; [tauto|]. destruct (Nat.eqb_spec v x) as [->|Hn].
  - split; [discriminate|]. intros H. exfalso. apply H. now left.
  - destruct (pos v l) eqn:E; cbn.
    + split; [discriminate|]. intros H. exfalso. apply H. right. apply pos_some in E. eapply nth_error_In; eauto.
    + split; auto. intros _ [K|K]; [congruence|]. apply IH in E. contradiction.
Qed.

Lemma geval_cons : forall cut b r (e : nat -> R), geval RO cut (b :: r) e =
  (let '(e1, o) := geval_block RO cut e b in match o with Some x => (e1, Some x) | None => geval RO cut r e1 end).
Proof. intros. unfold geval. cbn [iter_o]. destruct (geval_block RO cut e b) as [e1 [x|]]; reflexivity. Qed.

Lemma computed_cons : forall (cut : nat -> bool) (b : block R) r, computed cut (b :: r) = (if existsb cut (b_outs b) then [] else b_outs b) ++ computed cut r.
Proof. reflexivity. Qed.

Lemma geval_derive : forall (mk cut : nat -> bool) e t bs (c : R -> nat -> R), topo bs -> NoDup (outs_of bs) ->
  (forall b, In b bs -> existsb cut (b_outs b) = false -> fixed_block RO e b) ->
  (forall b, In b bs -> existsb cut (b_outs b) = false -> existsb mk (b_deps b) = true -> block_diff (fun v => mk v = true) e t b) ->
  (forall b, In b bs -> existsb cut (b_outs b) = false -> forall o, In o (b_outs b) -> mk o = existsb mk (b_deps b)) ->
  (forall v, c 0 v = e v) ->
  (forall v, mk v = false -> locally 0 (fun s => c s v = e v)) ->
  (forall v, mk v = false -> t v = 0) ->
  (forall v, ~ In v (computed cut bs) -> is_derive (fun s => c s v) 0 (t v)) ->
  locally 0 (fun s => snd (geval RO cut bs (c s)) = None) /\
  (forall v, is_derive (fun s => fst (geval RO cut bs (c s)) v) 0 (t v)).
Proof.
  intros mk cut e t bs. induction bs as [|b r IH]; intros c Ht Hn Hfx Hbd Hup H0 Hloc Hz Hd.
  { split; [apply filter_forall; reflexivity|]. intros v. apply (is_derive_ext (fun s => c s v)); [reflexivity|]. apply Hd. intros []. }
  assert (Hnr : NoDup (outs_of r)) by exact (NoDup_app_r _ _ _ Hn).
  assert (Hnb : NoDup (b_outs b)) by exact (NoDup_app_l _ _ _ Hn).
  assert (IH' : forall c' : R -> nat -> R, (forall v, c' 0 v = e v) -> (forall v, mk v = false -> locally 0 (fun s => c' s v = e v)) ->
    (forall v, ~ In v (computed cut r) -> is_derive (fun s => c' s v) 0 (t v)) ->
    locally 0 (fun s => snd (geval RO cut r (c' s)) = None) /\ (forall v, is_derive (fun s => fst (geval RO cut r (c' s)) v) 0 (t v))).
  { intros c' A B C. apply IH; auto; [exact (proj2 Ht)| | |]; intros b' Hb'; [apply Hfx|apply Hbd|apply Hup]; now right. }
  clear IH.
  destruct (existsb cut (b_outs b)) eqn:Ec.
  - assert (E : forall s, geval RO cut (b :: r) (c s) = geval RO cut r (c s)).
    { intros s. rewrite geval_cons. unfold geval_block. now rewrite Ec. }
    destruct (IH' c H0 Hloc) as [A B].
    { intros v Hv. apply Hd. rewrite computed_cons, Ec. exact Hv. }
    split.
    + revert A. apply filter_imp. intros s. now rewrite E.
    + intros v. apply (is_derive_ext (fun s => fst (geval RO cut r (c s)) v)); [intros s; now rewrite E|apply B].
  - assert (Hdeps : forall d, In d (b_deps b) -> ~ In d (computed cut (b :: r))).
    { intros d Hdd K. apply (proj1 Ht d Hdd). exact (computed_outs _ _ _ K). }
    specialize (Hfx b (or_introl eq_refl) Ec). specialize (Hbd b (or_introl eq_refl) Ec). specialize (Hup b (or_introl eq_refl) Ec).
    assert (Y : exists y : nat -> R -> R, forall k o, nth_error (b_outs b) k = Some o ->
      locally 0 (fun s => comp_recompute RO (b_kind b) (map (c s) (b_deps b)) k = Ok (Some (y k s)) \/
         (comp_recompute RO (b_kind b) (map (c s) (b_deps b)) k = Ok None /\ c s o = y k s)) /\
      is_derive (y k) 0 (t o) /\ y k 0 = e o /\ (mk o = false -> locally 0 (fun s => y k s = e o))).
    { destruct (existsb mk (b_deps b)) eqn:Em.
      - destruct (Hbd eq_refl c) as [y Hy].
        { intros d Hdd. split; [apply H0|apply Hd, Hdeps, Hdd]. }
        { intros d _ K. apply Hloc. now apply not_true_is_false. }
        exists y. intros k o Ho. destruct (Hy k o Ho) as [A B]. split; [|split; [exact B|split]].
        + revert A. apply filter_imp. intros s. now left.
        + apply locally_singleton in A. rewrite (map_ext _ _ H0) in A.
          destruct (Hfx k o Ho) as [K|K]; rewrite K in A; [now injection A|discriminate A].
        + intros K. rewrite (Hup o) in K by (eapply nth_error_In; eauto). discriminate K.
      - exists (fun k _ => match nth_error (b_outs b) k with Some o => e o | None => 0 end). intros k o Ho. rewrite Ho.
        assert (Mo : mk o = false) by (apply Hup; eapply nth_error_In; eauto).
        split; [|split; [|split; [reflexivity|intros _; apply filter_forall; reflexivity]]].
        + assert (L : locally 0 (fun s => forall d, In d (b_deps b) -> c s d = e d)).
          { apply locally_in. intros d Hdd. apply Hloc. destruct (mk d) eqn:Ed; [|reflexivity].
            exfalso. rewrite (proj2 (existsb_exists mk (b_deps b)) (ex_intro _ d (conj Hdd Ed))) in Em. discriminate Em. }
          generalize (filter_and _ _ L (Hloc o Mo)). apply filter_imp. intros s [A B].
          rewrite (map_ext_in _ _ _ A). destruct (Hfx k o Ho); [left|right]; auto.
        + rewrite (Hz o Mo). apply (@is_derive_const R_AbsRing R_NormedModule). }
    destruct Y as [y Hy].
    set (c' := fun s v => match pos v (b_outs b) with Some k => y k s | None => c s v end).
    destruct (IH' c') as [A B].
    { intros v. unfold c'. destruct (pos v (b_outs b)) as [k|] eqn:Ep; [|apply H0]. apply pos_some in Ep. apply (Hy k v Ep). }
    { intros v Hv. unfold c'. destruct (pos v (b_outs b)) as [k|] eqn:Ep; [|now apply Hloc]. apply pos_some in Ep.
      now apply (Hy k v Ep). }
    { intros v Hv. unfold c'. destruct (pos v (b_outs b)) as [k|] eqn:Ep.
      - apply pos_some in Ep. apply (Hy k v Ep).
      - apply pos_none in Ep. apply Hd. rewrite computed_cons, Ec, in_app_iff. tauto. }
    assert (L : locally 0 (fun s => forall k o, nth_error (b_outs b) k = Some o ->
       comp_recompute RO (b_kind b) (map (c s) (b_deps b)) k = Ok (Some (y k s)) \/
         (comp_recompute RO (b_kind b) (map (c s) (b_deps b)) k = Ok None /\ c s o = y k s))).
    { apply (locally_nth (b_outs b) (fun k o s => comp_recompute RO (b_kind b) (map (c s) (b_deps b)) k = Ok (Some (y k s)) \/
         (comp_recompute RO (b_kind b) (map (c s) (b_deps b)) k = Ok None /\ c s o = y k s))). intros k o Ho. apply (Hy k o Ho). }
    assert (E : locally 0 (fun s => snd (geval RO cut (b :: r) (c s)) = snd (geval RO cut r (c' s)) /\
                                    forall v, fst (geval RO cut (b :: r) (c s)) v = fst (geval RO cut r (c' s)) v)).
    { revert L. apply filter_imp. intros s Hs. rewrite geval_cons. unfold geval_block. rewrite Ec.
      destruct (ev_loop RO (b_kind b) (map (c s) (b_deps b)) (b_outs b) 0 (c s) (fun k => y k s) Hnb Hs) as [P [Q W]].
      fold (enum (b_outs b)) in P, Q, W.
      cbv beta zeta. revert P Q W. match goal with |- snd ?z = None -> _ => destruct z as [e1 o1] end. cbn [fst snd]. intros P Q W. subst o1.
      destruct (geval_ext RO cut cut r e1 (c' s)) as [G1 G2]; [reflexivity| |split; [exact G1|exact G2]].
      intros v. unfold c'. destruct (pos v (b_outs b)) as [k|] eqn:Ep.
      - apply pos_some in Ep. exact (Q k v Ep).
      - apply W. now apply pos_none. }
    split.
    + generalize (filter_and _ _ A E). apply filter_imp. intros s [A1 [E1 _]]. now rewrite E1.
    + intros v. apply (is_derive_ext_loc (fun s => fst (geval RO cut r (c' s)) v)); [|apply B].
      revert E. apply filter_imp. intros s [_ E1]. symmetry. apply E1.
Qed.

(** ** Tangents *)
Definition diff_of (e : nat -> R) (b : block R) (D : nat -> list R -> R) : Prop :=
  match b_kind b with
  | KUser u => user_differential u (length (b_outs b)) (map e (b_deps b)) D
  | k => forall i ts, D i ts = dtan k (map e (b_deps b)) ts
  end.
Definition along (t : nat -> R) (b : block R) (D : nat -> list R -> R) : Prop :=
  forall k o, nth_error (b_outs b) k = Some o -> t o = D k (map t (b_deps b)).

Lemma smooth_diff_of : forall N e b, smooth_block N e b -> exists D, diff_of e b D.
Proof.
  intros N e b H. unfold smooth_block, diff_of in *.
  destruct (b_kind b) eqn:E; [..|exact H]; eexists (fun _ ts => dtan _ (map e (b_deps b)) ts); reflexivity.
Qed.

Lemma tangent_exists : forall (mk cut : nat -> bool) e bs t0, topo bs -> NoDup (outs_of bs) ->
  (forall b, In b bs -> existsb cut (b_outs b) = false -> existsb mk (b_deps b) = true -> exists D, diff_of e b D) ->
  exists t, (forall v, ~ In v (computed cut bs) -> t v = t0 v) /\
    forall b, In b bs -> existsb cut (b_outs b) = false ->
      (existsb mk (b_deps b) = true -> exists D, diff_of e b D /\ along t b D) /\
      (existsb mk (b_deps b) = false -> forall o, In o (b_outs b) -> t o = 0).
Proof.
  intros mk cut e bs. induction bs as [|b r IH]; intros t0 Ht Hn Hb.
  { exists t0. split; [reflexivity|]. intros b []. }
  assert (Hnr : NoDup (outs_of r)) by exact (NoDup_app_r _ _ _ Hn).
  assert (Hnb : NoDup (b_outs b)) by exact (NoDup_app_l _ _ _ Hn).
  assert (Step : exists t1, (forall v, ~ In v (if existsb cut (b_outs b) then [] else b_outs b) -> t1 v = t0 v) /\
     (existsb cut (b_outs b) = false ->
      (existsb mk (b_deps b) = true -> exists D, diff_of e b D /\ along t1 b D) /\
      (existsb mk (b_deps b) = false -> forall o, In o (b_outs b) -> t1 o = 0))).
  { destruct (existsb cut (b_outs b)) eqn:Ec.
    { exists t0. split; [reflexivity|discriminate]. }
    assert (Hdo : forall d, In d (b_deps b) -> ~ In d (b_outs b)).
    { intros d Hd K. apply (proj1 Ht d Hd). unfold outs_of. cbn. apply in_app_iff. now left. }
    destruct (existsb mk (b_deps b)) eqn:Em.
    - destruct (Hb b (or_introl eq_refl) Ec Em) as [D HD].
      exists (fun v => match pos v (b_outs b) with Some k => D k (map t0 (b_deps b)) | None => t0 v end). split.
      + intros v Hv. apply pos_none in Hv. now rewrite Hv.
      + intros _. split; [|discriminate]. intros _. exists D. split; [exact HD|]. intros k o Ho.
        rewrite (pos_nth _ _ _ Hnb Ho). f_equal. apply map_ext_in. intros d Hd. apply Hdo, pos_none in Hd. now rewrite Hd.
    - exists (fun v => if mem v (b_outs b) then 0 else t0 v). split.
      + intros v Hv. apply mem_false in Hv. now rewrite Hv.
      + intros _. split; [discriminate|]. intros _ o Ho. apply mem_In in Ho. now rewrite Ho. }
  destruct Step as [t1 [S1 S2]].
  destruct (IH t1 (proj2 Ht) Hnr) as [t [A B]]. { intros b' Hb'. apply Hb. now right. }
  exists t. split.
  - intros v Hv. rewrite computed_cons, in_app_iff in Hv. rewrite A by tauto. apply S1. tauto.
  - intros b' [<-|Hb'] Ec; [|exact (B b' Hb' Ec)]. destruct (S2 Ec) as [C D]. 
    assert (Ko : forall o, In o (b_outs b) -> t o = t1 o).
    { intros o Ho. apply A. intros K. apply computed_outs in K. exact (NoDup_disjoint _ _ _ Hn Ho K). }
    assert (Kd : forall d, In d (b_deps b) -> t d = t1 d).
    { intros d Hd. apply A. intros K. apply computed_outs in K. apply (proj1 Ht d Hd). unfold outs_of. cbn. apply in_app_iff. now right. }
    split.
    + intros Em. destruct (C Em) as [Df [X Y]]. exists Df. split; [exact X|]. intros k o Ho.
      rewrite Ko by (eapply nth_error_In; eauto). rewrite (map_ext_in _ _ _ Kd). exact (Y k o Ho).
    + intros Em o Ho. rewrite Ko by exact Ho. exact (D Em o Ho).
Qed.

Lemma user_block_diff : forall N e t b u D, b_kind b = KUser u ->
  user_differential u (length (b_outs b)) (map e (b_deps b)) D -> along t b D -> block_diff N e t b.
Proof.
  intros N e t b u D Hk HD Ha c Hc _. rewrite Hk.
  destruct (HD (fun s => map (c s) (b_deps b)) (map t (b_deps b))) as [y Hy].
  - now rewrite !map_length.
  - intros s. now rewrite !map_length.
  - apply map_ext_in. intros d Hd. apply Hc, Hd.
  - intros i Hi. rewrite map_length in Hi.
    assert (E : forall f, nth i (map f (b_deps b)) 0 = f (nth i (b_deps b) 0%nat)).
    { intros f. rewrite (nth_indep _ 0 (f 0%nat)) by now rewrite map_length. apply map_nth. }
    rewrite E. apply (is_derive_ext (fun s => c s (nth i (b_deps b) 0%nat))); [intros s; symmetry; apply E|].
    apply Hc. now apply nth_In.
  - exists y. intros k o Ho. rewrite (Ha k o Ho). apply Hy. apply nth_error_Some. congruence.
Qed.

Lemma user_contrib_sum : forall (mk : nat -> bool) u xs ins t l i, (forall d, mk d = false -> t d = 0) ->
  contrib RO (KUser u) xs ins t (filter (fun iv => mk (snd iv)) (enum_from i l)) = user_sum u xs ins (enum_from i (map t l)).
Proof.
  intros mk u xs ins t l. induction l as [|d l IH]; intros i Hz; [reflexivity|]. cbn [enum_from filter map user_sum snd].
  destruct (mk d) eqn:Em; cbn [contrib comp_adj].
  - destruct (u_adj u xs ins i); rewrite IH by exact Hz; reflexivity.
  - rewrite (Hz d Em), IH by exact Hz. destruct (u_adj u xs ins i); [ring|reflexivity].
Qed.

Lemma nth_error_ext : forall (l m : list R), (forall k, nth_error l k = nth_error m k) -> l = m.
Proof.
  induction l as [|x l IH]; intros [|y m] H; [reflexivity|specialize (H 0%nat); discriminate H|specialize (H 0%nat); discriminate H|].
  pose proof (H 0%nat) as H0. cbn in H0. injection H0 as ->. f_equal. apply IH. intros k. exact (H (Datatypes.S k)).
Qed.

Lemma user_block_dual : forall (mk : nat -> bool) e t b u D, b_kind b = KUser u -> (forall d, mk d = false -> t d = 0) ->
  user_adjoint u (length (b_outs b)) (map e (b_deps b)) D -> along t b D -> block_dual RO mk e t b.
Proof.
  intros mk e t b u D Hk Hz HD Ha ins Hl _ Hok. rewrite Hk in *.
  unfold marked, enum at 1. rewrite user_contrib_sum by exact Hz. unfold user_adjoint in HD.
  change (enum_from 0 (map t (b_deps b))) with (enum (map t (b_deps b))).
  rewrite (HD ins (map t (b_deps b)) Hl).
  - f_equal. apply nth_error_ext. intros k. rewrite nth_error_map.
    destruct (nth_error (b_outs b) k) as [o|] eqn:Eo.
    + assert (k < length (b_outs b))%nat by (apply nth_error_Some; congruence).
      rewrite (nth_error_map t k), Eo. cbn.
      rewrite (nth_error_nth' (seq 0 (length (b_outs b))) 0%nat) by now rewrite seq_length. rewrite seq_nth by assumption. cbn.
      f_equal. symmetry. exact (Ha k o Eo).
    + rewrite (nth_error_map t k), Eo. cbn. apply nth_error_None in Eo.
      rewrite (proj2 (nth_error_None _ k)); [reflexivity|]. now rewrite seq_length.
  - now rewrite !map_length.
  - intros i Hi Hne. rewrite map_length in Hi.
    rewrite (nth_indep _ 0 (t 0%nat)) in Hne by now rewrite map_length. rewrite map_nth in Hne.
    apply (Hok (i, nth i (b_deps b) 0%nat)). apply filter_In. split.
    + apply enum_In. now apply nth_error_nth'.
    + cbn. destruct (mk (nth i (b_deps b) 0%nat)) eqn:E; [reflexivity|]. exfalso. apply Hne. now apply Hz.
Qed.

Lemma along_diff : forall N e t b D, shaped b -> smooth_block N e b -> fixed_block RO e b ->
  diff_of e b D -> along t b D -> block_diff N e t b.
Proof.
  intros N e t b D Hs Hsm Hfx HD Ha. unfold diff_of in HD.
  destruct (b_kind b) eqn:Hk.
  11: exact (user_block_diff _ _ _ _ _ _ Hk HD Ha).
  all: apply builtin_block_diff; auto; try (intros u; rewrite Hk; discriminate);
    intros o Ho; apply In_nth_error in Ho as [i Hi]; rewrite (Ha i o Hi), Hk; apply HD.
Qed.
Lemma along_dual : forall (mk : nat -> bool) e t b D, shaped b -> adjoint_right e b ->
  (forall d, mk d = false -> t d = 0) -> diff_of e b D -> along t b D -> block_dual RO mk e t b.
Proof.
  intros mk e t b D Hs Hsm Hz HD Ha. unfold diff_of in HD. unfold adjoint_right in Hsm.
  destruct (b_kind b) eqn:Hk.
  11: exact (user_block_dual _ _ _ _ _ _ Hk Hz (Hsm D HD) Ha).
  all: apply builtin_block_dual; auto; try (intros u; rewrite Hk; discriminate);
    intros o Ho; apply In_nth_error in Ho as [i Hi]; rewrite (Ha i o Hi), Hk; apply HD.
Qed.

Lemma unmarked_dual : forall (mk : nat -> bool) e t b, existsb mk (b_deps b) = false -> (forall o, In o (b_outs b) -> t o = 0) -> block_dual RO mk e t b.
Proof.
  intros mk e t b Hm Ho ins _ _ _. rewrite marked_nil.
  - cbn. replace (map t (b_outs b)) with (map (fun _ => 0) (b_outs b)) by (apply map_ext_in; intros; symmetry; auto).
    generalize (map (val RO) ins). generalize (b_outs b). induction l as [|o l IH]; intros [|x m]; cbn; try reflexivity.
    rewrite <- IH. ring.
  - intros d Hd. destruct (mk d) eqn:E; [|reflexivity]. exfalso. rewrite (proj2 (existsb_exists mk (b_deps b)) (ex_intro _ d (conj Hd E))) in Hm. discriminate Hm.
Qed.

(** ** The derivative returned is the derivative *)
Definition influenced {V} (bs : list (block V)) (ctrls : list nat) (v : nat) : Prop := exists c, In c ctrls /\ influences bs c v.
(** Every operation through which a control acts is at a point where it is differentiable. *)
Definition smooth_at (bs : list (block R)) (ctrls : list nat) (e : nat -> R) : Prop :=
  forall b d, In b bs -> (forall o, In o (b_outs b) -> ~ In o ctrls) -> In d (b_deps b) -> influenced bs ctrls d ->
    smooth_block (influenced bs ctrls) e b.
(** Saved values agree with the operations that produced them. *)
Definition settled (bs : list (block R)) (ctrls : list nat) (e : nat -> R) : Prop :=
  forall b, In b bs -> (forall o, In o (b_outs b) -> ~ In o ctrls) -> fixed_block RO e b.
Fixpoint shift (m d : list R) (s : R) : list R :=
  match m, d with x :: m', y :: d' => (x + s * y) :: shift m' d' s | _, _ => [] end.

Lemma not_cut : forall (b : block R) (ctrls : list nat), existsb (fun v => mem v ctrls) (b_outs b) = false -> forall o, In o (b_outs b) -> ~ In o ctrls.
Proof.
  intros b ctrls H o Ho K. apply mem_In in K.
  rewrite (proj2 (existsb_exists _ (b_outs b)) (ex_intro _ o (conj Ho K))) in H. discriminate H.
Qed.

Lemma producer_unique : forall (bs : list (block R)) b b' o, NoDup (outs_of bs) -> In b bs -> In b' bs -> In o (b_outs b) -> In o (b_outs b') -> b = b'.
Proof.
  induction bs as [|x r IH]; intros b b' o Hn Hb Hb' Ho Ho'; [destruct Hb|].
  assert (D : forall y, In o (b_outs x) -> In y r -> In o (b_outs y) -> False).
  { intros y K Hy Ky. apply (NoDup_disjoint _ _ _ Hn K). apply in_flat_map. eauto. }
  destruct Hb as [<-|Hb], Hb' as [<-|Hb']; [reflexivity|exfalso; eauto|exfalso; eauto|].
  exact (IH b b' o (NoDup_app_r _ _ _ Hn) Hb Hb' Ho Ho').
Qed.

Lemma marked_outs : forall (bs : list (block R)) ctrls b o, topo bs -> NoDup (outs_of bs) -> In b bs ->
  existsb (fun v => mem v ctrls) (b_outs b) = false -> In o (b_outs b) ->
  mem o (find_relevant bs ctrls) = existsb (fun v => mem v (find_relevant bs ctrls)) (b_deps b).
Proof.
  intros bs ctrls b o Ht Hn Hb Hc Ho. apply eq_true_iff_eq. rewrite mem_In, existsb_exists, (find_relevant_influences bs ctrls o Ht). split.
  - intros [c [Hcc Hi]]. destruct Hi as [|b' d o' Hb' Hd Ho' Hi]; [exfalso; exact (not_cut b ctrls Hc _ Ho Hcc)|].
    rewrite (producer_unique bs b b' o' Hn Hb Hb' Ho Ho'). exists d. split; [exact Hd|]. apply mem_In. apply (find_relevant_influences bs ctrls d Ht). eauto.
  - intros [d [Hd Hm]]. apply mem_In, (find_relevant_influences bs ctrls d Ht) in Hm as [c [Hcc Hi]]. exists c. split; [exact Hcc|]. eapply inf_step; eauto.
Qed.

Lemma smooth_block_iff : forall (N N' : nat -> Prop) e b, (forall v, N v <-> N' v) -> smooth_block N e b -> smooth_block N' e b.
Proof.
  intros N N' e b H. unfold smooth_block. destruct (b_kind b); auto. destruct (b_deps b) as [|? [|d1 [|? ?]]]; auto. rewrite (H d1). auto.
Qed.

Lemma shift_length : forall m d s, length d = length m -> length (shift m d s) = length m.
Proof. induction m as [|x m IH]; intros [|y d] s H; try discriminate H; [reflexivity|]. cbn. f_equal. apply IH. now injection H. Qed.
Lemma shift_zero : forall m d, length d = length m -> shift m d 0 = m.
Proof. induction m as [|x m IH]; intros [|y d] H; try discriminate H; [reflexivity|]. cbn. f_equal; [ring|]. apply IH. now injection H. Qed.
Lemma supplied_shift : forall ctrls m d s v, length m = length ctrls -> length d = length ctrls ->
  supplied ctrls (shift m d s) v = match supplied ctrls m v, supplied ctrls d v with Some x, Some y => Some (x + s * y) | _, _ => None end.
Proof.
  induction ctrls as [|c cs IH]; intros [|x m] [|y d] s v Hm Hd; try discriminate Hm; try discriminate Hd; [reflexivity|].
  cbn. rewrite IH by (try now injection Hm; now injection Hd).
  destruct (supplied cs m v) eqn:E1, (supplied cs d v) eqn:E2; try reflexivity.
  - exfalso. pose proof (supplied_some cs m v ltac:(now injection Hm)) as A. pose proof (supplied_some cs d v ltac:(now injection Hd)) as B.
    rewrite E1 in A. rewrite E2 in B. cbn in *. congruence.
  - exfalso. pose proof (supplied_some cs m v ltac:(now injection Hm)) as A. pose proof (supplied_some cs d v ltac:(now injection Hd)) as B.
    rewrite E1 in A. rewrite E2 in B. cbn in *. congruence.
  - destruct (Nat.eqb v c); reflexivity.
Qed.
Lemma supplied_saved : forall ctrls (e : nat -> R) v x, supplied ctrls (map e ctrls) v = Some x -> x = e v.
Proof.
  induction ctrls as [|c cs IH]; intros e v x H; cbn in H; [discriminate H|].
  destruct (supplied cs (map e cs) v) eqn:E; [injection H as <-; now apply IH|].
  destruct (Nat.eqb_spec v c) as [->|]; [now injection H|discriminate H].
Qed.
Lemma supplied_nodup : forall ctrls (d : list R) , NoDup ctrls -> length d = length ctrls ->
  map (fun c => match supplied ctrls d c with Some x => x | None => 0 end) ctrls = d.
Proof.
  induction ctrls as [|c cs IH]; intros [|y d] Hn Hl; try discriminate Hl; [reflexivity|].
  inversion Hn as [|? ? Hc Hn']; subst. cbn [map supplied]. f_equal.
  - pose proof (supplied_some cs d c ltac:(now injection Hl)) as A. destruct (supplied cs d c); [|now rewrite Nat.eqb_refl].
    cbn in A. exfalso. apply Hc. apply mem_In. now symmetry.
  - transitivity (map (fun c => match supplied cs d c with Some x => x | None => 0 end) cs); [|apply IH; [exact Hn'|now injection Hl]].
    apply map_ext_in. intros v Hv.
    pose proof (supplied_some cs d v ltac:(now injection Hl)) as A. apply mem_In in Hv. rewrite Hv in A.
    destruct (supplied cs d v); [reflexivity|discriminate A].
Qed.

Lemma start_env_shift : forall h ctrls d s v, length d = length ctrls ->
  start_env h ctrls (shift (map (saved h) ctrls) d s) v = saved h v + s * match supplied ctrls d v with Some x => x | None => 0 end.
Proof.
  intros h ctrls d s v Hd. unfold start_env. rewrite supplied_shift by (auto; apply map_length).
  destruct (supplied ctrls (map (saved h) ctrls) v) as [x|] eqn:E1, (supplied ctrls d v) as [y|] eqn:E2.
  - apply supplied_saved in E1. now subst x.
  - ring.
  - exfalso. pose proof (supplied_some ctrls (map (saved h) ctrls) v ltac:(apply map_length)) as A. pose proof (supplied_some ctrls d v Hd) as B.
    rewrite E1 in A. rewrite E2 in B. cbn in *. congruence.
  - ring.
Qed.

(** The tangent of every variable along a direction of the controls, and the evaluations along it. *)
Lemma curve_tangent : forall bs ctrls h d, wf_tape bs -> List.Forall shaped bs -> NoDup ctrls -> independent bs ctrls -> no_ctrl h ->
  length d = length ctrls -> settled bs ctrls (saved h) -> smooth_at bs ctrls (saved h) ->
  exists t, map t ctrls = d /\ (forall v, ~ In v (find_relevant bs ctrls) -> t v = 0) /\
   (forall b, In b bs -> existsb (fun v => mem v ctrls) (b_outs b) = false ->
      existsb (fun v => mem v (find_relevant bs ctrls)) (b_deps b) = true -> exists D, diff_of (saved h) b D /\ along t b D) /\
   (forall b, In b bs -> existsb (fun v => mem v ctrls) (b_outs b) = false ->
      existsb (fun v => mem v (find_relevant bs ctrls)) (b_deps b) = false -> forall o, In o (b_outs b) -> t o = 0) /\
   (forall J sc, exists f, locally 0 (fun s => snd (rf_call RO bs (RF J ctrls sc) (shift (map (saved h) ctrls) d s) h) = Ok (f s)) /\
                           is_derive f 0 (t J * sc)).
Proof.
  intros bs ctrls h d [Ht Hn] Hsh Hnd Hi Nc Hd Hst Hsm.
  set (nodes := find_relevant bs ctrls). set (mk := fun v => mem v nodes). set (cut := fun v => mem v ctrls).
  pose (e := saved h). set (t0 := fun v => match supplied ctrls d v with Some x => x | None => 0 end).
  assert (Hup : forall b, In b bs -> existsb cut (b_outs b) = false -> forall o, In o (b_outs b) -> mk o = existsb mk (b_deps b)).
  { intros b Hb Hc o Ho. exact (marked_outs bs ctrls b o Ht Hn Hb Hc Ho). }
  assert (Hfx : forall b, In b bs -> existsb cut (b_outs b) = false -> fixed_block RO e b).
  { intros b Hb Hc. apply Hst; [exact Hb|]. exact (not_cut b ctrls Hc). }
  assert (Hmk : forall v, mk v = true <-> influenced bs ctrls v).
  { intros v. unfold mk. rewrite mem_In. unfold nodes. rewrite (find_relevant_influences bs ctrls v Ht). reflexivity. }
  assert (Hsb : forall b, In b bs -> existsb cut (b_outs b) = false -> existsb mk (b_deps b) = true -> smooth_block (fun v => mk v = true) e b).
  { intros b Hb Hc Hm. apply existsb_exists in Hm as [x [Hx Hm]]. apply (smooth_block_iff (influenced bs ctrls)).
    - intros v. symmetry. apply Hmk.
    - apply (Hsm b x Hb (not_cut b ctrls Hc) Hx). now apply Hmk. }
  destruct (tangent_exists mk cut e bs t0 Ht Hn) as [t [T1 T2]].
  { intros b Hb Hc Hm. eapply smooth_diff_of. eauto. }
  assert (Hcc : forall c, In c ctrls -> ~ In c (computed cut bs)).
  { intros c Hc K. apply computed_not_cut in K. unfold cut in K. apply mem_false in K. contradiction. }
  assert (Hz0 : forall v, mk v = false -> t0 v = 0).
  { intros v Hv. unfold t0. pose proof (supplied_some ctrls d v Hd) as A. destruct (supplied ctrls d v); [|reflexivity].
    cbn in A. symmetry in A. apply mem_In in A. apply mem_false in Hv. exfalso. apply Hv. now apply find_relevant_incl. }
  assert (Hz : forall v, mk v = false -> t v = 0).
  { intros v Hv. destruct (mem v (computed cut bs)) eqn:Ev.
    - apply mem_In in Ev. unfold computed in Ev. apply in_flat_map in Ev as [b [Hb Ev]].
      destruct (existsb cut (b_outs b)) eqn:Ec; [destruct Ev|].
      apply (T2 b Hb Ec); [|exact Ev]. now rewrite <- (Hup b Hb Ec v Ev).
    - apply mem_false in Ev. rewrite T1 by exact Ev. now apply Hz0. }
  assert (BD : forall b, In b bs -> existsb cut (b_outs b) = false -> existsb mk (b_deps b) = true ->
     block_diff (fun v => mk v = true) e t b).
  { intros b Hb Hc Hm. destruct (proj1 (T2 b Hb Hc) Hm) as [D [HD Ha]]. rewrite List.Forall_forall in Hsh. eapply along_diff; eauto. }
  exists t. split; [|split; [|split; [|split]]].
  - transitivity (map t0 ctrls); [|now apply supplied_nodup]. apply map_ext_in. intros c Hc. apply T1, Hcc, Hc.
  - intros v Hv. apply Hz. now apply mem_false.
  - intros b Hb Hc Hm. exact (proj1 (T2 b Hb Hc) Hm).
  - intros b Hb Hc Hm. exact (proj2 (T2 b Hb Hc) Hm).
  - intros J sc.
    set (c := fun s v => start_env h ctrls (shift (map (saved h) ctrls) d s) v).
    assert (Ec : forall s v, c s v = e v + s * t0 v) by (intros s v; now apply start_env_shift).
    destruct (geval_derive mk cut e t bs c Ht Hn Hfx) as [A B]; auto.
    { intros v. rewrite Ec. ring. }
    { intros v Hv. apply filter_forall. intros s. rewrite Ec, (Hz0 v Hv). ring. }
    { intros v Hv. rewrite (T1 v Hv). apply (is_derive_ext (fun s => e v + s * t0 v)); [intros; symmetry; apply Ec|]. auto_derive; [exact I|ring]. }
    exists (fun s => fst (geval RO cut bs (c s)) J * sc). split.
    + revert A. apply filter_imp. intros s A.
      destruct (rf_call_spec RO bs (RF J ctrls sc) (shift (map (saved h) ctrls) d s) h Nc) as [R1 _].
      { cbn. rewrite shift_length by now rewrite map_length. apply map_length. }
      rewrite R1. cbn [rf_ctrls rf_J rf_scale].
      change (snd (geval RO cut bs (start_env h ctrls (shift (map (saved h) ctrls) d s))) = None) in A. fold cut. rewrite A. reflexivity.
    + exact (is_derive_scal_l (fun s => fst (geval RO cut bs (c s)) J) 0 (t J) sc (B J)).
Qed.

Lemma agree_call : forall bs J ctrls sc h e vals, no_ctrl h -> length vals = length ctrls ->
  (forall v, In v (deps_of bs) \/ v = J -> saved h v = e v) ->
  let h2 := fun v => set_ckpt (Some (e v)) false (h v) in
  snd (rf_call RO bs (RF J ctrls sc) vals h) = snd (rf_call RO bs (RF J ctrls sc) vals h2).
Proof.
  intros bs J ctrls sc h e vals Nc Hl He h2.
  destruct (rf_call_spec RO bs (RF J ctrls sc) vals h Nc Hl) as [A _].
  destruct (rf_call_spec RO bs (RF J ctrls sc) vals h2 ltac:(intros v; apply Nc) Hl) as [B _].
  rewrite A, B. cbn [rf_ctrls rf_J rf_scale]. clear A B.
  destruct (geval_agree RO (fun v => mem v ctrls) (fun v => mem v ctrls) bs (start_env h ctrls vals) (start_env h2 ctrls vals)
     (fun v => In v (deps_of bs) \/ v = J)) as [A B]; auto.
  - intros v Hv. unfold start_env. destruct (supplied ctrls vals v); [reflexivity|]. exact (He v Hv).
  - rewrite A. destruct (snd (geval RO _ bs (start_env h2 _ _))); [reflexivity|]. now rewrite (B J (or_intror eq_refl)).
Qed.

(** Correctness of the adjoint components through which a control acts. *)
Definition adjoints_right (bs : list (block R)) (ctrls : list nat) (e : nat -> R) : Prop :=
  forall b d, In b bs -> (forall o, In o (b_outs b) -> ~ In o ctrls) -> In d (b_deps b) -> influenced bs ctrls d -> adjoint_right e b.
Definition tangents_right (bs : list (block R)) (ctrls : list nat) (e : nat -> R) : Prop :=
  forall b d, In b bs -> (forall o, In o (b_outs b) -> ~ In o ctrls) -> In d (b_deps b) -> influenced bs ctrls d -> tangent_right e b.

Lemma block_dual_ext : forall mk (e e' t : nat -> R) b, (forall d, In d (b_deps b) -> e d = e' d) -> block_dual RO mk e t b -> block_dual RO mk e' t b.
Proof. intros mk e e' t b H K. unfold block_dual in *. rewrite <- (map_ext_in _ _ _ H). exact K. Qed.

(** [e] are the values the derivative is taken at; saved values that no operation and no caller
    reads may differ from it. *)
Lemma derivative_exact : forall bs J ctrls sc h e d g, wf_tape bs -> List.Forall shaped bs -> NoDup ctrls -> independent bs ctrls -> no_ctrl h ->
  fresh_ctrls bs J ctrls h -> length d = length ctrls -> (forall v, In v (deps_of bs) \/ v = J -> saved h v = e v) ->
  settled bs ctrls e -> smooth_at bs ctrls e -> adjoints_right bs ctrls e ->
  snd (rf_derivative RO bs (RF J ctrls sc) 1 h) = Ok g ->
  exists f : R -> R, locally 0 (fun s => snd (rf_call RO bs (RF J ctrls sc) (shift (map e ctrls) d s) h) = Ok (f s)) /\
    is_derive f 0 (dot RO g d).
Proof.
  intros bs J ctrls sc h e d g Hw Hsh Hnd Hi Nc Hf Hd He Hst Hsm Har G.
  set (h2 := fun v => set_ckpt (Some (e v)) false (h v)).
  destruct (curve_tangent bs ctrls h2 d Hw Hsh Hnd Hi ltac:(intros v; apply Nc) Hd Hst Hsm) as [t [T1 [T2 [T3 [T4 T5]]]]].
  destruct (T5 J sc) as [f [A B]]. exists f. split.
  { revert A. apply filter_imp. intros s A. rewrite (agree_call bs J ctrls sc h e); auto.
    rewrite shift_length by now rewrite map_length. apply map_length. }
  unfold rf_derivative in G. cbn [rf_ctrls rf_J rf_scale] in G.
  assert (G' : snd (compute_gradient RO bs J ctrls (f_mul RO 1 sc) h) = Ok g) by (destruct ctrls; [discriminate G|exact G]).
  pose proof (grad_dual RO RO_ring bs J ctrls (f_mul RO 1 sc) h g t (proj1 Hw) (proj2 Hw) Hnd Hi Nc Hf T2) as K. cbv zeta in K.
  rewrite T1 in K. rewrite <- K; [|clear K|exact G'].
  { cbn. replace (1 * sc * t J) with (t J * sc) by ring. exact B. }
  intros b Hb Hc. apply (block_dual_ext _ e).
  { intros v Hv. symmetry. apply He. left. unfold deps_of. apply in_flat_map. eauto. }
  assert (Z : forall v, mem v (find_relevant bs ctrls) = false -> t v = 0) by (intros v Hv; apply T2; now apply mem_false).
  destruct (existsb (fun v => mem v (find_relevant bs ctrls)) (b_deps b)) eqn:Em.
  - destruct (T3 b Hb Hc Em) as [D [HD Ha]]. rewrite List.Forall_forall in Hsh. apply (along_dual _ e t b D); auto.
    apply existsb_exists in Em as [x [Hx Hm]]. apply mem_In in Hm. apply (Har b x); auto; [exact (not_cut b ctrls Hc)|].
    apply (find_relevant_influences bs ctrls x (proj1 Hw)). exact Hm.
  - apply unmarked_dual; [exact Em|]. exact (T4 b Hb Hc Em).
Qed.

(** ** The tangent-linear sweep returns the derivative *)
Lemma two_of : forall (A : Type) (l : list A), length l = 2%nat -> exists a b, l = [a; b].
Proof. intros A [|a [|b [|? ?]]] H; try discriminate H. eauto. Qed.
Lemma one_of : forall (A : Type) (l : list A), length l = 1%nat -> exists a, l = [a].
Proof. intros A [|a [|? ?]] H; try discriminate H. eauto. Qed.
Lemma tlm_val_dtan : forall k xs ts i o, (forall u, k <> KUser u) -> length xs = arity k -> length ts = arity k -> (i = 0)%nat ->
  tlm_val RO k xs ts i = Ok o -> val RO o = dtan k xs (map (val RO) ts).
Proof.
  intros k xs ts i o Hu Hx Ht -> E.
  destruct k; try (exfalso; exact (Hu _ eq_refl)); cbn [arity] in Hx, Ht; clear Hu;
    try (destruct (two_of _ _ Hx) as [x0 [x1 ->]]; destruct (two_of _ _ Ht) as [t0 [t1 ->]]);
    try (destruct (one_of _ _ Hx) as [x0 ->]; destruct (one_of _ _ Ht) as [t0 ->]);
    cbn in E; destruct t0 as [t0|]; try destruct t1 as [t1|]; cbn in E; cbn;
    change 2 with (IZR 2) in *; rewrite ?(Rpow_int x1 2) in * by (right; lia).
  all: repeat match goal with
    | H : context [Rle_b ?x ?y] |- _ => destruct (Rle_b x y); cbn in *
    | |- context [Rle_b ?x ?y] => destruct (Rle_b x y); cbn in *
    | H : Ok _ = Ok _ |- _ => injection H as H
    | H : Err _ = Ok _ |- _ => discriminate H
    | H : context [bind ?x _] |- _ => destruct x eqn:?; cbn in *
    end.
  all: repeat match goal with H : (if Req_EM_T ?y 0 then _ else _) = Ok _ |- _ => destruct (Req_EM_T y 0); [discriminate H|injection H as H] end; subst; cbn.
  all: change (Pos.to_nat 2) with 2%nat; cbn [pow]; unfold Rdiv; try ring.
Qed.

Lemma dtan_zero : forall k xs ts, (forall t, In t ts -> t = 0) -> dtan k xs ts = 0.
Proof.
  intros k xs ts H.
  destruct k; cbn; try destruct xs as [|x0 [|x1 [|? ?]]]; try destruct ts as [|t0 [|t1 [|? ?]]]; try reflexivity;
    try rewrite (H t0 (or_introl eq_refl)); try rewrite (H t1 (or_intror (or_introl eq_refl))); unfold Rdiv; try ring.
  - destruct (Rle_b x0 x1); reflexivity.
  - destruct (Rle_b x1 x0); reflexivity.
Qed.
Lemma diff_zero : forall u n xs D k ts, user_differential u n xs D -> length ts = length xs -> (k < n)%nat -> (forall t, In t ts -> t = 0) -> D k ts = 0.
Proof.
  intros u n xs D k ts HD Hl Hk Hz.
  destruct (HD (fun _ => xs) ts Hl (fun _ => eq_refl) eq_refl) as [y Hy].
  - intros i Hi. rewrite (Hz (nth i ts 0)) by (apply nth_In; lia). apply (@is_derive_const R_AbsRing R_NormedModule).
  - destruct (Hy k Hk) as [A B]. apply (locally_const_derive (y k)); [|exact B].
    pose proof (locally_singleton _ _ A) as A0. cbn beta in A0. revert A. apply filter_imp. intros s Hs. congruence.
Qed.

Lemma tangent_unique : forall (mk cut : nat -> bool) (t tau : nat -> R) (bs : list (block R)), topo bs -> NoDup (outs_of bs) ->
  (forall b, In b bs -> existsb cut (b_outs b) = false -> existsb mk (b_deps b) = true ->
     (forall d, In d (b_deps b) -> t d = tau d) -> forall o, In o (b_outs b) -> t o = tau o) ->
  (forall b, In b bs -> existsb cut (b_outs b) = false -> existsb mk (b_deps b) = false -> forall o, In o (b_outs b) -> t o = tau o) ->
  (forall v, ~ In v (computed cut bs) -> t v = tau v) -> forall v, t v = tau v.
Proof.
  intros mk cut t tau bs. induction bs as [|b r IH]; intros Ht Hn Hm Hu H0 v; [apply H0; intros []|].
  apply IH; [exact (proj2 Ht)|exact (NoDup_app_r _ _ _ Hn)|intros b' Hb'; apply Hm; now right|intros b' Hb'; apply Hu; now right|].
  intros u Hk. destruct (existsb cut (b_outs b)) eqn:Ec.
  - apply H0. rewrite computed_cons, Ec. exact Hk.
  - destruct (in_dec Nat.eq_dec u (b_outs b)) as [Hi|Hi].
    + destruct (existsb mk (b_deps b)) eqn:Em; [|exact (Hu b (or_introl eq_refl) Ec Em u Hi)].
      apply (Hm b (or_introl eq_refl) Ec Em); [|exact Hi]. intros d Hd. apply H0. intros K. apply (proj1 Ht d Hd). exact (computed_outs _ _ _ K).
    + apply H0. rewrite computed_cons, Ec, in_app_iff. tauto.
Qed.

(** Tangents computed by a sweep are the tangent. *)
Lemma tlm_tangent : forall bs ctrls (e : nat -> R) d (tau : nat -> option R) (t : nat -> R), topo bs -> NoDup (outs_of bs) -> List.Forall shaped bs ->
  independent bs ctrls -> tangents_right bs ctrls e ->
  map t ctrls = d -> (forall v, ~ In v (find_relevant bs ctrls) -> t v = 0) ->
  (forall b, In b bs -> existsb (fun v => mem v ctrls) (b_outs b) = false ->
      existsb (fun v => mem v (find_relevant bs ctrls)) (b_deps b) = true -> exists D, diff_of e b D /\ along t b D) ->
  (forall b, In b bs -> existsb (fun v => mem v ctrls) (b_outs b) = false ->
      existsb (fun v => mem v (find_relevant bs ctrls)) (b_deps b) = false -> forall o, In o (b_outs b) -> t o = 0) ->
  (forall v, tau v <> None -> In v (find_relevant bs ctrls)) -> map tau ctrls = map Some d ->
  (forall b, In b bs -> existsb (fun v => mem v ctrls) (b_outs b) = false ->
     if existsb is_some (map tau (b_deps b))
     then forall k o, nth_error (b_outs b) k = Some o -> tlm_val RO (b_kind b) (map e (b_deps b)) (map tau (b_deps b)) k = Ok (tau o)
     else forall o, In o (b_outs b) -> tau o = None) ->
  forall v, t v = val RO (tau v).
Proof.
  intros bs ctrls e d tau t Ht Hn Hsh Hi Htr T1 T2 T3 T4 P Q W. set (nodes := find_relevant bs ctrls) in *.
  assert (Pz : forall v, ~ In v nodes -> tau v = None).
  { intros v Hv. destruct (tau v) eqn:E; [|reflexivity]. exfalso. apply Hv, P. congruence. }
  apply (tangent_unique (fun v => mem v nodes) (fun v => mem v ctrls) t (fun v => val RO (tau v)) bs Ht Hn).
  - intros b Hb Hc Hm Hdd o Ho. apply In_nth_error in Ho as [k Hk].
    assert (Lk : (k < length (b_outs b))%nat) by (apply nth_error_Some; congruence).
    destruct (T3 b Hb Hc Hm) as [D [HD Ha]]. rewrite (Ha k o Hk).
    assert (Em : map t (b_deps b) = map (val RO) (map tau (b_deps b))) by (rewrite map_map; apply map_ext_in; exact Hdd).
    rewrite Em.
    assert (Hb' : tangent_right e b).
    { apply existsb_exists in Hm as [x [Hx Hm]]. apply mem_In in Hm. apply (Htr b x); auto; [exact (not_cut b ctrls Hc)|].
      apply (find_relevant_influences bs ctrls x Ht). exact Hm. }
    specialize (W b Hb Hc). rewrite List.Forall_forall in Hsh. specialize (Hsh b Hb).
    unfold diff_of in HD. unfold tangent_right in Hb'.
    destruct (existsb is_some (map tau (b_deps b))) eqn:Ex.
    + specialize (W k o Hk). unfold shaped in Hsh.
      destruct (b_kind b) eqn:Ek; cbn match in HD;
        try (rewrite HD; symmetry; destruct Hsh as [S1 S2]; (eapply tlm_val_dtan; [discriminate| | | |exact W]);
             rewrite ?map_length; auto; lia).
      symmetry. cbn [tlm_val comp_tlm] in W. apply (Hb' D HD); auto. now rewrite !map_length.
    + rewrite (W o) by (eapply nth_error_In; eauto).
      assert (Z : forall x, In x (map (val RO) (map tau (b_deps b))) -> x = 0).
      { intros x Hx. apply in_map_iff in Hx as [y [<- Hy]]. destruct y as [y|]; [|reflexivity].
        exfalso. rewrite (proj2 (existsb_exists _ (map tau (b_deps b))) (ex_intro _ (Some y) (conj Hy eq_refl))) in Ex. discriminate Ex. }
      cbn [val]. destruct (b_kind b) eqn:Ek; cbn match in HD; try (rewrite HD; now apply dtan_zero).
      apply (diff_zero _ _ _ D k _ HD); auto. now rewrite !map_length.
  - intros b Hb Hc Hm o Ho. rewrite (T4 b Hb Hc Hm o Ho). specialize (W b Hb Hc).
    assert (Ex : existsb is_some (map tau (b_deps b)) = false).
    { destruct (existsb is_some (map tau (b_deps b))) eqn:Ex; [|reflexivity]. exfalso. apply existsb_exists in Ex as [y [Hy Hs]].
      apply in_map_iff in Hy as [x [E Hx]]. destruct (mem x nodes) eqn:Em.
      - rewrite (proj2 (existsb_exists _ (b_deps b)) (ex_intro _ x (conj Hx Em))) in Hm. discriminate Hm.
      - apply mem_false in Em. rewrite (Pz x Em) in E. subst y. discriminate Hs. }
    rewrite Ex in W. now rewrite (W o Ho).
  - intros v Hv. destruct (in_dec Nat.eq_dec v nodes) as [Hvn|Hvn].
    + destruct (nodes_cases bs ctrls v Ht Hi Hvn) as [K|K]; [|contradiction].
      assert (Em : map t ctrls = map (fun c => val RO (tau c)) ctrls).
      { rewrite T1. rewrite <- (map_map tau (val RO)), Q, map_map. symmetry. apply map_id. }
      clear - Em K. induction ctrls as [|c cs IH]; [destruct K|]. cbn in Em. injection Em as E1 E2. destruct K as [<-|K]; auto.
    + rewrite (T2 v Hvn), (Pz v Hvn). reflexivity.
Qed.

Lemma tangent_exact : forall bs J ctrls sc h h' e d, wf_tape bs -> List.Forall shaped bs -> NoDup ctrls -> independent bs ctrls -> no_ctrl h ->
  tlm_clean bs ctrls h -> length d = length ctrls -> (forall v, In v (deps_of bs) \/ v = J -> saved h v = e v) ->
  settled bs ctrls e -> smooth_at bs ctrls e -> tangents_right bs ctrls e ->
  run_tlm RO bs ctrls d h = (h', None) ->
  exists f : R -> R, locally 0 (fun s => snd (rf_call RO bs (RF J ctrls sc) (shift (map e ctrls) d s) h) = Ok (f s)) /\
    is_derive f 0 (val RO (bv_tlm (h' J)) * sc).
Proof.
  intros bs J ctrls sc h h' e d Hw Hsh Hnd Hi Nc Hcl Hd He Hst Hsm Htr G.
  set (h2 := fun v => set_ckpt (Some (e v)) false (h v)).
  destruct (curve_tangent bs ctrls h2 d Hw Hsh Hnd Hi ltac:(intros v; apply Nc) Hd Hst Hsm) as [t [T1 [T2 [T3 [T4 T5]]]]].
  destruct (T5 J sc) as [f [A B]]. exists f. split.
  { revert A. apply filter_imp. intros s A. rewrite (agree_call bs J ctrls sc h e); auto.
    rewrite shift_length by now rewrite map_length. apply map_length. }
  clear A. destruct Hw as [Ht Hn].
  destruct (run_tlm_spec RO bs ctrls d h h' Ht Hn Hsh Hnd Hi Hd Hcl G) as [P [Q W]].
  assert (E : forall v, t v = val RO (bv_tlm (h' v))).
  { apply (tlm_tangent bs ctrls e d (fun v => bv_tlm (h' v)) t); auto.
    intros b Hb Hc. specialize (W b Hb Hc). unfold tlms in W.
    rewrite (map_ext_in (saved h) e) in W; [exact W|]. intros x Hx. apply He. left. unfold deps_of. apply in_flat_map. eauto. }
  rewrite <- E. exact B.
Qed.
