(** Exact real arithmetic as an instance of the float operations, and the derivatives of the
    recorded operations along differentiable curves. *)
From Coq Require Import List Arith ZArith Lia Bool Reals Lra.
From Coquelicot Require Import Coquelicot.
From Verif Require Import Base Model.
Import ListNotations.
Open Scope R_scope.

(** float.__pow__ on exact reals: a complex result (negative base, non-integer exponent) is an error,
    zero to a negative power raises ZeroDivisionError. *)
Definition as_int (b : R) : option Z := let z := Int_part b in if Req_EM_T b (IZR z) then Some z else None.
Definition Rpow_res (a b : R) : res R :=
  if Rlt_dec 0 a then Ok (Rpower a b)
  else if Req_EM_T a 0 then
    (if Req_EM_T b 0 then Ok 1 else if Rlt_dec 0 b then Ok 0 else Err EZeroDiv)
  else match as_int b with Some z => Ok (powerRZ a z) | None => Err EType end.
Definition Rle_b (x y : R) : bool := if Rle_dec x y then true else false.
Definition Rlt_b (x y : R) : bool := if Rlt_dec x y then true else false.
Definition RO : fops R := {|
  f_zero := 0; f_one := 1; f_two := 2; f_three := 3;
  f_add := Rplus; f_sub := Rminus; f_mul := Rmult; f_neg := Ropp;
  f_div := fun a b => if Req_EM_T b 0 then Err EZeroDiv else Ok (a / b);
  f_pow := Rpow_res;
  f_exp := fun a => Ok (exp a);
  f_log := fun a => if Rlt_dec 0 a then Ok (ln a) else Err EValue;
  f_nplog := ln;
  f_le := Rle_b; f_lt := Rlt_b
|}.

Lemma RO_ring : ring_theory (f_zero RO) (f_one RO) (f_add RO) (f_mul RO) (f_sub RO) (f_neg RO) eq.
Proof. exact RTheory. Qed.
Lemma RO_div : forall a t x r s, f_div RO a x = Ok r -> f_div RO t x = Ok s -> f_mul RO r t = f_mul RO a s.
Proof.
  intros a t x r s. cbn. destruct (Req_EM_T x 0) as [|Hx]; [discriminate|]. intros H1 H2. injection H1 as <-. injection H2 as <-.
  field. exact Hx.
Qed.
Lemma RO_div_scale : forall s a x, f_div RO (f_mul RO s a) x = rmap (f_mul RO s) (f_div RO a x).
Proof. intros s a x. cbn. destruct (Req_EM_T x 0); cbn; [reflexivity|]. f_equal. field. assumption. Qed.

Lemma Int_part_IZR : forall z, Int_part (IZR z) = z.
Proof.
  intros z. destruct (base_Int_part (IZR z)) as [A B].
  assert (C : (Int_part (IZR z) <= z)%Z) by (apply le_IZR; exact A).
  assert (D : (z < Int_part (IZR z) + 1)%Z) by (apply lt_IZR; rewrite plus_IZR; lra). lia.
Qed.
Lemma as_int_IZR : forall z, as_int (IZR z) = Some z.
Proof. intros z. unfold as_int. rewrite Int_part_IZR. destruct (Req_EM_T (IZR z) (IZR z)); [reflexivity|contradiction]. Qed.

(** Integer powers. *)
Lemma Rpow_int : forall x n, x <> 0 \/ (0 <= n)%Z -> Rpow_res x (IZR n) = Ok (powerRZ x n).
Proof.
  intros x n H. unfold Rpow_res. destruct (Rlt_dec 0 x) as [Hx|Hx].
  - now rewrite powerRZ_Rpower.
  - destruct (Req_EM_T x 0) as [->|Hx0].
    + destruct H as [H|H]; [contradiction|].
      destruct (Req_EM_T (IZR n) 0) as [E|E].
      * apply eq_IZR in E. subst n. reflexivity.
      * assert (0 < n)%Z by (destruct (Z.eq_dec n 0) as [->|]; [contradiction|lia]).
        destruct (Rlt_dec 0 (IZR n)) as [_|K]; [|exfalso; apply K; now apply IZR_lt].
        f_equal. destruct n; try lia. cbn. rewrite pow_i; [reflexivity|lia].
    + now rewrite as_int_IZR.
Qed.

Lemma is_derive_powerRZ : forall x n, x <> 0 \/ (1 <= n)%Z -> is_derive (fun y => powerRZ y n) x (IZR n * powerRZ x (n - 1)).
Proof.
  intros x n H. destruct (Z_lt_le_dec n 1) as [Hn|Hn].
  - destruct H as [H|H]; [|lia]. destruct n as [|p|p]; [|lia|].
    + cbn [powerRZ]. replace (0 * _) with 0 by ring. apply (@is_derive_const R_AbsRing R_NormedModule).
    + cbn [powerRZ Z.sub Z.opp Z.add]. 
      apply (is_derive_ext (fun y => / y ^ Pos.to_nat p)); [reflexivity|].
      evar_last. { apply is_derive_inv; [apply is_derive_pow; apply (@is_derive_id R_AbsRing)|now apply pow_nonzero]. }
      rewrite Pos.add_1_r, Pos2Nat.inj_succ. destruct (Pos2Nat.is_succ p) as [k Ek]. rewrite Ek. cbn [pred].
      replace (IZR (Z.neg p)) with (- INR (S k)).
      2:{ rewrite <- Ek, INR_IZR_INZ, positive_nat_Z. rewrite <- opp_IZR. reflexivity. }
      change (@one R_AbsRing) with 1. generalize (INR (S k)). intros q.
      cbn [pow]. field. split; [now apply pow_nonzero|exact H].
  - assert (E : forall y, powerRZ y n = y ^ Z.to_nat n) by (intros y; destruct n; try lia; reflexivity).
    apply (is_derive_ext (fun y => y ^ Z.to_nat n)); [intros; now rewrite E|].
    evar_last. { apply is_derive_pow. apply (@is_derive_id R_AbsRing). }
    assert (E2 : powerRZ x (n - 1) = x ^ pred (Z.to_nat n)).
    { replace (pred (Z.to_nat n)) with (Z.to_nat (n - 1)) by lia.
      destruct (n - 1)%Z eqn:En; try lia; reflexivity. }
    rewrite E2. rewrite INR_IZR_INZ, Z2Nat.id by lia. change (@one R_AbsRing) with 1. ring.
Qed.

(** A differentiable curve stays in an open set for a while. *)
Lemma curve_open : forall (u : R -> R) t (P : R -> Prop), is_derive u 0 t -> open P -> P (u 0) -> locally 0 (fun s => P (u s)).
Proof.
  intros u t P Hu Ho Hp. assert (C : continuous u 0) by (apply (@ex_derive_continuous R_AbsRing R_NormedModule); exists t; exact Hu).
  apply C. exact (Ho _ Hp).
Qed.
Lemma locally_lt : forall (u w : R -> R) t s, is_derive u 0 t -> is_derive w 0 s -> u 0 < w 0 -> locally 0 (fun x => u x < w x).
Proof.
  intros u w t s Hu Hw H.
  assert (D : is_derive (fun x => w x - u x) 0 (s - t)) by (apply (@is_derive_minus R_AbsRing R_NormedModule); assumption).
  generalize (curve_open _ _ (fun y => 0 < y) D (open_gt 0) ltac:(lra)). apply filter_imp. intros x. lra.
Qed.
