(** Second-order sweeps over the reals: the operations whose second-order terms are right. *)
From Coq Require Import List Arith ZArith Lia Bool Reals Lra.
From Coquelicot Require Import Coquelicot.
From Verif Require Import Base Model BaseFacts Graph Record RecordFacts Replay History Sweep SpecGraph Marks Dual TlmSweep RealInst Calculus.
Import ListNotations.
Open Scope R_scope.

(** ** Adjoint components along curves *)
Definition pw (x y : R) : R := rget (Rpow_res x y).
(** Rate of change of the adjoint component of a binary operation at position [i]. *)
Definition dadj (k : kind R) (x0 x1 t0 t1 q a : R) (i : nat) : R :=
  match k with
  | KAdd => q
  | KSub => if Nat.eqb i 0 then q else - q
  | KMul => if Nat.eqb i 1 then q * x0 + a * t0 else q * x1 + a * t1
  | KDiv => if Nat.eqb i 0 then q * (1 / x1) - a * t1 / (x1 * x1)
            else - (q * x0 + a * t0) / (x1 * x1) + 2 * a * x0 * t1 / (x1 * x1 * x1)
  | KPow => if Nat.eqb i 0
            then q * x1 * pw x0 (x1 - 1) + a * t1 * pw x0 (x1 - 1)
                 + a * x1 * ((x1 - 1) * pw x0 (x1 - 2) * t0 + ln x0 * pw x0 (x1 - 1) * t1)
            else q * ln x0 * pw x0 x1 + a * t0 * pw x0 (x1 - 1)
                 + a * ln x0 * (x1 * pw x0 (x1 - 1) * t0 + ln x0 * pw x0 x1 * t1)
  | KMin => if Nat.eqb i (if Rle_b x0 x1 then 0 else 1) then q else 0
  | KMax => if Nat.eqb i (if Rle_b x1 x0 then 0 else 1) then q else 0
  | _ => 0
  end.

(** Operations with right second-order code (products under an extra condition). *)
Definition kind2 (k : kind R) : bool :=
  match k with KAdd | KSub | KMul | KDiv | KPow | KMin | KMax => true | _ => false end.

(** Where the adjoint component at position [i] is differentiable along curves [u], [w]. *)
Definition smooth2i (k : kind R) (u w : R -> R) (i : nat) : Prop :=
  match k with
  | KDiv => w 0 <> 0
  | KPow => 0 < u 0 \/ (i = 0%nat /\ locally 0 (fun s => w s = w 0) /\ exists z : Z, w 0 = IZR z /\ (u 0 <> 0 \/ (2 <= z)%Z))
  | KMin | KMax => u 0 <> w 0
  | _ => True
  end.

Lemma cube_ok : forall x, x <> 0 -> Rpow_res x 3 = Ok (x * x * x) /\ Rpow_res x 2 = Ok (x * x) /\ x * x <> 0 /\ x * x * x <> 0.
Proof.
  intros x Hx. split; [|split; [|split]].
  - rewrite (Rpow_int x 3) by now left. f_equal. change (x ^ 3 = x * x * x). ring.
  - rewrite (Rpow_int x 2) by now left. f_equal. change (x ^ 2 = x * x). ring.
  - intros E. apply Rmult_integral in E. tauto.
  - intros E. apply Rmult_integral in E as [E|E]; [apply Rmult_integral in E|]; tauto.
Qed.

Lemma pw_pos_minus : forall x y z, 0 < x -> Rpower x (y - z) = Rpower x y / Rpower x z.
Proof. intros x y z Hx. unfold Rminus. rewrite Rpower_plus, Rpower_Ropp. reflexivity. Qed.
Lemma Rpower_2 : forall x, 0 < x -> Rpower x 2 = x * x.
Proof. intros x Hx. change 2 with (1 + 1). rewrite Rpower_plus, Rpower_1 by exact Hx. reflexivity. Qed.

Lemma adj_curve2 : forall k (u w al : R -> R) t0 t1 q i, kind2 k = true -> (i < 2)%nat ->
  is_derive u 0 t0 -> is_derive w 0 t1 -> is_derive al 0 q -> smooth2i k u w i ->
  exists c, locally 0 (fun s => comp_adj RO k [u s; w s] [Some (al s)] i = Ok (Some (c s))) /\
    is_derive c 0 (dadj k (u 0) (w 0) t0 t1 q (al 0) i).
Proof.
  intros k u w al t0 t1 q i Hk Hi Hu Hw Ha Hs.
  assert (Eu : ex_derive u 0) by (exists t0; exact Hu). pose proof (is_derive_unique _ _ _ Hu) as Du.
  assert (Ew : ex_derive w 0) by (exists t1; exact Hw). pose proof (is_derive_unique _ _ _ Hw) as Dw.
  assert (Ea : ex_derive al 0) by (exists q; exact Ha). pose proof (is_derive_unique _ _ _ Ha) as Da.
  assert (Ci : i = 0%nat \/ i = 1%nat) by lia.
  destruct k; try discriminate Hk; cbn [smooth2i] in Hs.
  - exists al. split; [apply filter_forall; reflexivity|exact Ha].
  - destruct Ci as [-> | ->].
    + exists al. split; [apply filter_forall; reflexivity|exact Ha].
    + exists (fun s => - al s). split; [apply filter_forall; reflexivity|]. cbn. auto_derive; [tauto|].
      change (fun x => al x) with al; rewrite Da; ring.
  - destruct Ci as [-> | ->].
    + exists (fun s => al s * w s). split; [apply filter_forall; reflexivity|]. cbn. auto_derive; [tauto|].
      change (fun x => al x) with al; change (fun x => w x) with w; rewrite Da, Dw; ring.
    + exists (fun s => al s * u s). split; [apply filter_forall; reflexivity|]. cbn. auto_derive; [tauto|].
      change (fun x => al x) with al; change (fun x => u x) with u; rewrite Da, Du; ring.
  - pose proof (curve_open w t1 (fun x => x <> 0) Hw (open_neq 0) Hs) as L. destruct Ci as [-> | ->].
    + exists (fun s => al s * (1 / w s)). split.
      * revert L. apply filter_imp. intros s Hx. cbn. destruct (Req_EM_T (w s) 0); [contradiction|reflexivity].
      * cbn [dadj Nat.eqb]. auto_derive; [tauto|]. change (fun x => al x) with al; change (fun x => w x) with w; rewrite Da, Dw. field. exact Hs.
    + exists (fun s => al s * (- (u s / (w s * w s)))). split.
      * revert L. apply filter_imp. intros s Hx. cbn.
        destruct (cube_ok (w s) Hx) as [_ [-> _]].
        cbn. destruct (Req_EM_T (w s * w s) 0) as [E|_]; [|reflexivity]. exfalso. apply Rmult_integral in E. tauto.
      * cbn [dadj Nat.eqb]. auto_derive.
        { repeat split; auto; intros E; apply Rmult_integral in E; tauto. }
        change (fun x => al x) with al; change (fun x => w x) with w; change (fun x => u x) with u; rewrite Da, Dw, Du. field. exact Hs.
  - destruct Hs as [Hp|[-> [Hc [z [Ez Hz]]]]].
    + pose proof (curve_open u t0 (fun x => 0 < x) Hu (open_gt 0) Hp) as L.
      assert (P : forall y, pw (u 0) y = Rpower (u 0) y).
      { intros y. unfold pw, Rpow_res. destruct (Rlt_dec 0 (u 0)); [reflexivity|contradiction]. }
      destruct Ci as [-> | ->].
      * exists (fun s => al s * w s * Rpower (u s) (w s - 1)). split.
        -- revert L. apply filter_imp. intros s Hx. cbn. unfold Rpow_res. destruct (Rlt_dec 0 (u s)); [reflexivity|contradiction].
        -- cbn [dadj Nat.eqb]. rewrite !P. rewrite (pw_pos_minus (u 0) (w 0) 1 Hp), (pw_pos_minus (u 0) (w 0) 2 Hp), Rpower_1, Rpower_2 by exact Hp.
           apply (is_derive_ext_loc (fun s => al s * w s * (Rpower (u s) (w s) / u s))).
           { revert L. apply filter_imp. intros s Hx. f_equal. rewrite pw_pos_minus, Rpower_1 by exact Hx. reflexivity. }
           unfold Rpower. auto_derive. { repeat split; auto. lra. }
           change (fun x => al x) with al; change (fun x => w x) with w; change (fun x => u x) with u; rewrite Da, Dw, Du. field. lra.
      * exists (fun s => al s * ln (u s) * Rpower (u s) (w s)). split.
        -- revert L. apply filter_imp. intros s Hx. cbn. unfold Rpow_res. destruct (Rlt_dec 0 (u s)); [reflexivity|contradiction].
        -- cbn [dadj Nat.eqb]. rewrite !P. rewrite (pw_pos_minus (u 0) (w 0) 1 Hp), Rpower_1 by exact Hp.
           unfold Rpower. auto_derive. { repeat split; auto. }
           change (fun x => al x) with al; change (fun x => w x) with w; change (fun x => u x) with u; rewrite Da, Dw, Du. field. lra.
    + pose proof (locally_const_derive w t1 Hc Hw) as ->.
      assert (Hz1 : u 0 <> 0 \/ (1 <= z - 1)%Z) by (destruct Hz; [now left|right; lia]).
      assert (Dz : is_derive (fun s => powerRZ (u s) (z - 1)) 0 (t0 * (IZR (z - 1) * powerRZ (u 0) (z - 1 - 1)))).
      { apply (is_derive_comp (fun y => powerRZ y (z - 1)) u 0 (IZR (z - 1) * powerRZ (u 0) (z - 1 - 1)) t0); [|exact Hu]. now apply is_derive_powerRZ. }
      exists (fun s => al s * IZR z * powerRZ (u s) (z - 1)). split.
      * assert (Hd : locally 0 (fun s => u s <> 0 \/ (2 <= z)%Z)).
        { destruct Hz as [Hz|Hz]; [|apply filter_forall; auto].
          generalize (curve_open u t0 (fun x => x <> 0) Hu (open_neq 0) Hz). apply filter_imp. auto. }
        generalize (filter_and _ _ Hc Hd). apply filter_imp. intros s [E1 E2]. cbn. rewrite E1, Ez, <- minus_IZR.
        rewrite Rpow_int; [reflexivity|]. destruct E2; [now left|right; lia].
      * cbn [dadj Nat.eqb]. unfold pw. rewrite Ez, <- !minus_IZR. rewrite !Rpow_int by (destruct Hz; [now left|right; lia]). cbn [rget].
        replace (z - 1 - 1)%Z with (z - 2)%Z in Dz by lia.
        evar_last.
        { apply (is_derive_mult (fun s => al s * IZR z) (fun s => powerRZ (u s) (z - 1)) 0 (q * IZR z) (t0 * (IZR (z - 1) * powerRZ (u 0) (z - 2)))).
          - exact (is_derive_scal_l al 0 q (IZR z) Ha).
          - exact Dz.
          - intros; apply Rmult_comm. }
        change plus with Rplus. change mult with Rmult. cbn. ring.
  - destruct (Rle_lt_dec (u 0) (w 0)) as [Hle|Hlt].
    + assert (H1 : u 0 < w 0) by lra. pose proof (locally_lt u w t0 t1 Hu Hw H1) as L.
      exists (fun s => if Nat.eqb i 0 then al s else 0). split.
      * revert L. apply filter_imp. intros s Hx. cbn. unfold Rle_b. destruct (Rle_dec (u s) (w s)); [|lra]. destruct Ci as [-> | ->]; reflexivity.
      * cbn [dadj]. unfold Rle_b. destruct (Rle_dec (u 0) (w 0)); [|lra]. destruct Ci as [-> | ->]; cbn; [exact Ha|apply (@is_derive_const R_AbsRing R_NormedModule)].
    + pose proof (locally_lt w u t1 t0 Hw Hu Hlt) as L.
      exists (fun s => if Nat.eqb i 1 then al s else 0). split.
      * revert L. apply filter_imp. intros s Hx. cbn. unfold Rle_b. destruct (Rle_dec (u s) (w s)); [lra|]. destruct Ci as [-> | ->]; reflexivity.
      * cbn [dadj]. unfold Rle_b. destruct (Rle_dec (u 0) (w 0)); [lra|]. destruct Ci as [-> | ->]; cbn; [apply (@is_derive_const R_AbsRing R_NormedModule)|exact Ha].
  - destruct (Rle_lt_dec (w 0) (u 0)) as [Hle|Hlt].
    + assert (H1 : w 0 < u 0) by lra. pose proof (locally_lt w u t1 t0 Hw Hu H1) as L.
      exists (fun s => if Nat.eqb i 0 then al s else 0). split.
      * revert L. apply filter_imp. intros s Hx. cbn. unfold Rle_b. destruct (Rle_dec (w s) (u s)); [|lra]. destruct Ci as [-> | ->]; reflexivity.
      * cbn [dadj]. unfold Rle_b. destruct (Rle_dec (w 0) (u 0)); [|lra]. destruct Ci as [-> | ->]; cbn; [exact Ha|apply (@is_derive_const R_AbsRing R_NormedModule)].
    + pose proof (locally_lt u w t0 t1 Hu Hw Hlt) as L.
      exists (fun s => if Nat.eqb i 1 then al s else 0). split.
      * revert L. apply filter_imp. intros s Hx. cbn. unfold Rle_b. destruct (Rle_dec (w s) (u s)); [lra|]. destruct Ci as [-> | ->]; reflexivity.
      * cbn [dadj]. unfold Rle_b. destruct (Rle_dec (w 0) (u 0)); [lra|]. destruct Ci as [-> | ->]; cbn; [apply (@is_derive_const R_AbsRing R_NormedModule)|exact Ha].
Qed.

(** ** One block of the adjoint sweep *)

Lemma val_add : forall (a : @aenv R) d x v, val RO (aadd RO a d x v) = val RO (a v) + (if Nat.eqb v d then x else 0) /\
  is_some (aadd RO a d x v) = is_some (a v) || Nat.eqb v d.
Proof.
  intros a d x v. unfold aadd. destruct (Nat.eqb v d).
  - split; [rewrite (val_accum RO RO_ring); reflexivity|]. destruct (a v); reflexivity.
  - rewrite orb_false_r. split; [ring|reflexivity].
Qed.

Lemma padj_two : forall (mk : nat -> bool) e (a : @aenv R) (b : block R) d0 d1 o x c0 c1, b_deps b = [d0; d1] -> b_outs b = [o] -> a o = Some x ->
  (mk d0 = true -> comp_adj RO (b_kind b) [e d0; e d1] [Some x] 0 = Ok (Some c0)) ->
  (mk d1 = true -> comp_adj RO (b_kind b) [e d0; e d1] [Some x] 1 = Ok (Some c1)) ->
  snd (padj_block RO mk e a b) = None /\
  forall v, mk v = true -> is_some (fst (padj_block RO mk e a b) v) = (is_some (a v) || Nat.eqb v d0 || Nat.eqb v d1) /\
    val RO (fst (padj_block RO mk e a b) v) = val RO (a v) + (if Nat.eqb v d0 then c0 else 0) + (if Nat.eqb v d1 then c1 else 0).
Proof.
  intros mk e a b d0 d1 o x c0 c1 Ed Eo Ea H0 H1. unfold padj_block. rewrite Eo, Ed. cbn [map]. rewrite Ea. cbn [existsb is_some negb orb].
  unfold marked, enum. cbn [enum_from filter snd].
  assert (E : forall (m : bool) d, mk d = m -> m = false -> forall v, mk v = true -> Nat.eqb v d = false).
  { intros m d Hd -> v Hv. apply Nat.eqb_neq. intros ->. congruence. }
  destruct (mk d0) eqn:M0, (mk d1) eqn:M1; cbn [iter_o padj_step fst snd]; unfold padj_step; cbn [fst snd];
    rewrite ?H0, ?H1 by reflexivity; cbn [fst snd]; (split; [reflexivity|]); intros v Hv;
    rewrite ?(E false d0 M0 eq_refl v Hv), ?(E false d1 M1 eq_refl v Hv); rewrite ?orb_false_r;
    repeat match goal with |- context[aadd RO ?z ?d ?y v] => rewrite (proj1 (val_add z d y v)), (proj2 (val_add z d y v)) end; split; try reflexivity; ring.
Qed.

Lemma padj_one : forall (mk : nat -> bool) e (a : @aenv R) (b : block R) d0 o x c0, b_deps b = [d0] -> b_outs b = [o] -> a o = Some x ->
  (mk d0 = true -> comp_adj RO (b_kind b) [e d0] [Some x] 0 = Ok (Some c0)) ->
  snd (padj_block RO mk e a b) = None /\
  forall v, mk v = true -> is_some (fst (padj_block RO mk e a b) v) = (is_some (a v) || Nat.eqb v d0) /\
    val RO (fst (padj_block RO mk e a b) v) = val RO (a v) + (if Nat.eqb v d0 then c0 else 0).
Proof.
  intros mk e a b d0 o x c0 Ed Eo Ea H0. unfold padj_block. rewrite Eo, Ed. cbn [map]. rewrite Ea. cbn [existsb is_some negb orb].
  unfold marked, enum. cbn [enum_from filter snd].
  destruct (mk d0) eqn:M0; cbn [iter_o]; unfold padj_step; cbn [fst snd]; rewrite ?H0 by reflexivity; cbn [fst snd]; (split; [reflexivity|]); intros v Hv.
  - rewrite (proj1 (val_add a d0 c0 v)), (proj2 (val_add a d0 c0 v)). auto.
  - rewrite (proj2 (Nat.eqb_neq v d0)) by congruence. rewrite orb_false_r. split; [reflexivity|ring].
Qed.

(** ** One block of the second-order sweep *)
Lemma hess_add : forall (h : heap R) d x v, val RO (bv_hess (upd h d (add_hess RO x) v)) = val RO (bv_hess (h v)) + (if Nat.eqb v d then x else 0) /\
  is_some (bv_hess (upd h d (add_hess RO x) v)) = is_some (bv_hess (h v)) || Nat.eqb v d.
Proof.
  intros h d x v. unfold upd, add_hess. destruct (Nat.eqb v d).
  - cbn. split; [rewrite (val_accum RO RO_ring); reflexivity|]. destruct (bv_hess (h v)); reflexivity.
  - rewrite orb_false_r. split; [ring|reflexivity].
Qed.
Lemma hess_add_tlm : forall (h : heap R) d x v, bv_tlm (upd h d (add_hess RO x) v) = bv_tlm (h v).
Proof. intros h d x v. unfold upd. destruct (Nat.eqb v d); reflexivity. Qed.

(** The effect of a block on the second-order values of marked variables. *)
Definition hess2 (mk : nat -> bool) (h h' : heap R) (d0 d1 : nat) (D0 D1 : R) : Prop :=
  forall v, mk v = true -> is_some (bv_hess (h' v)) = (is_some (bv_hess (h v)) || Nat.eqb v d0 || Nat.eqb v d1) /\
    val RO (bv_hess (h' v)) = val RO (bv_hess (h v)) + (if Nat.eqb v d0 then D0 else 0) + (if Nat.eqb v d1 then D1 else 0).

Ltac hsplit v := repeat match goal with
  | |- context[bv_hess (upd ?z ?d (add_hess RO ?y) v)] => rewrite (proj1 (hess_add z d y v)), (proj2 (hess_add z d y v))
  end.

Lemma hess_base_two : forall (mk : nat -> bool) h h' (b : block R) d0 d1 o q D0 D1,
  (forall v, bv_mark (h v) = mk v) ->
  b_deps b = [d0; d1] -> b_outs b = [o] -> bv_hess (h o) = Some q ->
  (mk d0 = true -> forall y, comp_hess RO (b_kind b) [saved h d0; saved h d1] [Some q] [bv_adj (h o)] 0
      (map (fun iv => (fst iv, bv_tlm (h (snd iv)))) (relevant h true (b_deps b))) = Ok y -> y = Some D0) ->
  (mk d1 = true -> forall y, comp_hess RO (b_kind b) [saved h d0; saved h d1] [Some q] [bv_adj (h o)] 1
      (map (fun iv => (fst iv, bv_tlm (h (snd iv)))) (relevant h true (b_deps b))) = Ok y -> y = Some D1) ->
  hess_block_base RO true h b = (h', None) -> hess2 mk h h' d0 d1 D0 D1.
Proof.
  intros mk h h' b d0 d1 o q D0 D1 Hm Ed Eo Eq H0 H1 E. unfold hess_block_base in E.
  rewrite Eo in E. cbn [map] in E. rewrite Eq in E. cbn [existsb is_some negb orb] in E.
  rewrite Ed in E, H0, H1. cbn [map] in E.
  assert (Er : relevant h true [d0; d1] = (if mk d0 then [(0%nat, d0)] else []) ++ (if mk d1 then [(1%nat, d1)] else [])).
  { unfold relevant, enum. cbn. rewrite !Hm, !orb_false_r. destruct (mk d0), (mk d1); reflexivity. }
  set (rel := map (fun iv => (fst iv, bv_tlm (h (snd iv)))) (relevant h true [d0; d1])) in *.
  rewrite Er in E. clearbody rel.
  assert (N : forall d, mk d = false -> forall v, mk v = true -> Nat.eqb v d = false).
  { intros d Hd v Hv. apply Nat.eqb_neq. intros ->. congruence. }
  destruct (mk d0) eqn:M0, (mk d1) eqn:M1; cbn [app iter_o fst snd] in E.
  - destruct (comp_hess RO (b_kind b) _ _ _ 0 rel) as [y0|] eqn:C0; [|discriminate E]. rewrite (H0 eq_refl y0 eq_refl) in E. cbn in E.
    destruct (comp_hess RO (b_kind b) _ _ _ 1 rel) as [y1|] eqn:C1; [|discriminate E]. rewrite (H1 eq_refl y1 eq_refl) in E. cbn in E.
    injection E as <-. intros v Hv. hsplit v. split; [reflexivity|ring].
  - destruct (comp_hess RO (b_kind b) _ _ _ 0 rel) as [y0|] eqn:C0; [|discriminate E]. rewrite (H0 eq_refl y0 eq_refl) in E. cbn in E.
    injection E as <-. intros v Hv. rewrite (N d1 M1 v Hv), orb_false_r. hsplit v. split; [reflexivity|ring].
  - destruct (comp_hess RO (b_kind b) _ _ _ 1 rel) as [y1|] eqn:C1; [|discriminate E]. rewrite (H1 eq_refl y1 eq_refl) in E. cbn in E.
    injection E as <-. intros v Hv. rewrite (N d0 M0 v Hv), orb_false_r. hsplit v. split; [reflexivity|ring].
  - injection E as <-. intros v Hv. rewrite (N d0 M0 v Hv), (N d1 M1 v Hv), !orb_false_r. split; [reflexivity|ring].
Qed.

Lemma hess_block_two : forall (mk : nat -> bool) (h h' : heap R) (b : block R) d0 d1 o q a,
  (forall v, bv_mark (h v) = mk v) -> (forall v, mk v = false -> bv_tlm (h v) = None) ->
  kind2 (b_kind b) = true -> b_deps b = [d0; d1] -> b_outs b = [o] -> bv_hess (h o) = Some q -> bv_adj (h o) = Some a ->
  (b_kind b = KMul -> q = 0 \/ d0 = d1) ->
  (b_kind b = KPow -> mk d1 = true -> 0 < saved h d0) ->
  (b_kind b = KDiv -> saved h d1 <> 0) ->
  hess_block RO true h b = (h', None) ->
  let t0 := val RO (bv_tlm (h d0)) in let t1 := val RO (bv_tlm (h d1)) in
  let D := dadj (b_kind b) (saved h d0) (saved h d1) t0 t1 q a in
  hess2 mk h h' d0 d1 (D 0%nat) (D 1%nat).
Proof.
  intros mk h h' b d0 d1 o q a Hm Ht Hk Ed Eo Eq Ea Hmul Hpow Hdiv E t0 t1 D. unfold hess_block in E.
  destruct (b_kind b) eqn:Ek; try discriminate Hk.
  - (* Add *)
    apply (hess_base_two mk h h' b d0 d1 o q); auto; intros _ y; rewrite Ek; cbn; intros C; now injection C.
  - (* Sub *)
    unfold hess_sub, with_out, with_term in E. rewrite Eo, Ed in E. cbn [nth_error] in E. rewrite Eq in E.
    injection E as <-. intros v Hv. hsplit v. split; [reflexivity|]. unfold D. cbn. ring.
  - (* Mul *)
    assert (G : forall i x0 x1 r, comp_hess RO KMul [x0; x1] [Some q] [Some a] i r =
       bind (fold_left (fun (acc : res (R * nat)) (it : nat * option R) => bind acc (fun mo =>
          if negb (Nat.eqb (fst it) i) then match snd it with Some t => Ok (a * t, fst it) | None => Ok (fst mo, fst it) end else Ok (fst mo, fst it)))
          r (Ok (0, if Nat.eqb i 1 then 0%nat else 1%nat))) (fun mo => bind (nth_res [x0; x1] (snd mo)) (fun x => Ok (Some (fst mo + q * x))))).
    { intros i x0 x1 r. reflexivity. }
    assert (Er : map (fun iv => (fst iv, bv_tlm (h (snd iv)))) (relevant h true (b_deps b)) =
       (if mk d0 then [(0%nat, bv_tlm (h d0))] else []) ++ (if mk d1 then [(1%nat, bv_tlm (h d1))] else [])).
    { rewrite Ed. unfold relevant, enum. cbn. rewrite !Hm, !orb_false_r. destruct (mk d0), (mk d1); reflexivity. }
    assert (N1 : mk d1 = false -> t1 = 0) by (intros M; unfold t1; rewrite (Ht d1 M); reflexivity).
    assert (N0 : mk d0 = false -> t0 = 0) by (intros M; unfold t0; rewrite (Ht d0 M); reflexivity).
    specialize (Hmul eq_refl).
    apply (hess_base_two mk h h' b d0 d1 o q); auto; intros M y; rewrite Ek, Er, Ea, G, M; unfold D, t0, t1 in *; cbn [dadj Nat.eqb].
    + destruct (mk d1) eqn:M1; cbn.
      * destruct (bv_tlm (h d1)) as [t|]; cbn; intros C; injection C as <-; f_equal; ring.
      * rewrite (N1 eq_refl). intros C. injection C as <-. f_equal. destruct Hmul as [-> | ->]; [ring|congruence].
    + destruct (mk d0) eqn:M0; cbn.
      * destruct (bv_tlm (h d0)) as [t|]; cbn; intros C; injection C as <-; f_equal; (destruct Hmul as [-> | ->]; ring).
      * rewrite (N0 eq_refl). intros C. injection C as <-. f_equal. destruct Hmul as [-> | ->]; [ring|congruence].
  - (* Div *)
    specialize (Hdiv eq_refl). destruct (cube_ok _ Hdiv) as [P3 [P2 [Z2 Z3]]].
    unfold hess_div, with_out, with_term, with_val, andthen in E. rewrite Eo, Ed in E. cbn [nth_error] in E. rewrite Eq, Ea in E.
    cbn [f_div f_pow f_two f_three f_one f_mul f_neg RO] in E. rewrite P2, P3 in E.
    destruct (Req_EM_T (saved h d1) 0) as [|_]; [contradiction|]. cbn [bind] in E.
    destruct (Req_EM_T (saved h d1 * saved h d1) 0) as [|_]; [contradiction|]. cbn [bind need] in E.
    rewrite !hess_add_tlm in E.
    unfold D, t0, t1. cbn [dadj Nat.eqb].
    destruct (bv_tlm (h d1)) as [t1'|] eqn:T1.
    + destruct (Req_EM_T (saved h d1 * saved h d1 * saved h d1) 0) as [|_]; [contradiction|]. cbn [bind] in E.
      rewrite !hess_add_tlm in E. rewrite T1 in E. rewrite !hess_add_tlm in E.
      destruct (bv_tlm (h d0)) as [t0'|] eqn:T0; injection E as <-; intros v Hv; hsplit v;
        (split; [destruct (is_some (bv_hess (h v))), (Nat.eqb v d0), (Nat.eqb v d1); reflexivity|]);
        cbn [val f_zero RO]; destruct (Nat.eqb v d0), (Nat.eqb v d1); try ring; field; exact Hdiv.
    + rewrite !hess_add_tlm in E. rewrite T1 in E. rewrite !hess_add_tlm in E.
      destruct (bv_tlm (h d0)) as [t0'|] eqn:T0; injection E as <-; intros v Hv; hsplit v;
        (split; [destruct (is_some (bv_hess (h v))), (Nat.eqb v d0), (Nat.eqb v d1); reflexivity|]);
        cbn [val f_zero RO]; destruct (Nat.eqb v d0), (Nat.eqb v d1); try ring; field; exact Hdiv.
  - (* Pow *)
    specialize (Hpow eq_refl).
    unfold hess_pow, with_out, with_term, with_val, andthen in E. rewrite Eo, Ed in E. cbn [nth_error] in E. rewrite Eq, Ea in E.
    cbn [f_div f_pow f_two f_three f_one f_mul f_neg f_sub f_add f_nplog RO need bind] in E.
    unfold D, t0, t1. cbn [dadj Nat.eqb].
    assert (K : forall r y, r = Ok y -> rget r = y) by (intros r y ->; reflexivity).
    unfold pw.
    set (P0 := Rpow_res (saved h d0) (saved h d1)) in *. set (P1 := Rpow_res (saved h d0) (saved h d1 - 1)) in *.
    set (P2 := Rpow_res (saved h d0) (saved h d1 - 2)) in *.
    destruct (mk d1) eqn:M1.
    + specialize (Hpow eq_refl).
      assert (Ok P0 = Ok P0) by reflexivity.
      assert (exists p0, P0 = Ok p0) as [p0 E0] by (unfold P0, Rpow_res; destruct (Rlt_dec 0 (saved h d0)); [eauto|contradiction]).
      assert (exists p1, P1 = Ok p1) as [p1 E1] by (unfold P1, Rpow_res; destruct (Rlt_dec 0 (saved h d0)); [eauto|contradiction]).
      assert (exists p2, P2 = Ok p2) as [p2 E2] by (unfold P2, Rpow_res; destruct (Rlt_dec 0 (saved h d0)); [eauto|contradiction]).
      rewrite E0, E1, E2 in *. cbn [rget bind] in *. clear H.
      assert (L2 : Rpow_res (ln (saved h d0)) 2 = Ok (ln (saved h d0) * ln (saved h d0))).
      { rewrite (Rpow_int _ 2) by (right; lia). f_equal. change (ln (saved h d0) ^ 2 = ln (saved h d0) * ln (saved h d0)). ring. }
      rewrite L2 in E. cbn [bind] in E.
      destruct (bv_tlm (h d0)) as [t0'|] eqn:T0; destruct (bv_tlm (h d1)) as [t1'|] eqn:T1;
        repeat (rewrite !hess_add_tlm in E || rewrite T0 in E || rewrite T1 in E);
        injection E as <-; intros v Hv; hsplit v;
        (split; [destruct (is_some (bv_hess (h v))), (Nat.eqb v d0), (Nat.eqb v d1); reflexivity|]);
        cbn [val f_zero RO]; destruct (Nat.eqb v d0), (Nat.eqb v d1); ring.
    + assert (T1 : bv_tlm (h d1) = None) by now apply Ht.
      assert (N1 : forall v, mk v = true -> Nat.eqb v d1 = false) by (intros v Hv; apply Nat.eqb_neq; congruence).
      rewrite T1. cbn [val f_zero RO].
      destruct (bv_tlm (h d0)) as [t0'|] eqn:T0.
      * destruct P2 as [p2|] eqn:E2; [|discriminate E]. cbn [bind] in E. destruct P1 as [p1|] eqn:E1; [|discriminate E]. cbn [bind] in E.
        rewrite !hess_add_tlm, T1 in E. destruct P0 as [p0|] eqn:E0; [|discriminate E]. cbn [bind] in E.
        repeat (rewrite !hess_add_tlm in E || rewrite T0 in E || rewrite T1 in E).
        injection E as <-. intros v Hv. hsplit v. rewrite (N1 v Hv), !orb_false_r.
        split; [destruct (is_some (bv_hess (h v))), (Nat.eqb v d0); reflexivity|].
        cbn [rget val]. destruct (Nat.eqb v d0); ring.
      * destruct P1 as [p1|] eqn:E1; [|discriminate E]. cbn [bind] in E.
        rewrite !hess_add_tlm, T1 in E. destruct P0 as [p0|] eqn:E0; [|discriminate E]. cbn [bind] in E.
        repeat (rewrite !hess_add_tlm in E || rewrite T0 in E || rewrite T1 in E).
        injection E as <-. intros v Hv. hsplit v. rewrite (N1 v Hv), !orb_false_r.
        split; [destruct (is_some (bv_hess (h v))), (Nat.eqb v d0); reflexivity|].
        cbn [rget val f_zero RO]. destruct (Nat.eqb v d0); ring.
  - (* Min *)
    apply (hess_base_two mk h h' b d0 d1 o q); auto; intros _ y; rewrite Ek; unfold D; cbn;
      destruct (Rle_b (saved h d0) (saved h d1)); cbn; intros C; now injection C.
  - (* Max *)
    apply (hess_base_two mk h h' b d0 d1 o q); auto; intros _ y; rewrite Ek; unfold D; cbn;
      destruct (Rle_b (saved h d1) (saved h d0)); cbn; intros C; now injection C.
Qed.
