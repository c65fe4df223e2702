(** A concrete arithmetic for examples and counterexamples: integers with partial division,
    power, logarithm and a bounded "exponential".  Examples only; theorems quantify over [fops]. *)
From Coq Require Import List ZArith Bool Ring.
From Verif Require Import Base Model.
Import ListNotations.

Definition ZF : fops Z := {|
  f_zero := 0; f_one := 1; f_two := 2; f_three := 3;
  f_add := Z.add; f_sub := Z.sub; f_mul := Z.mul; f_neg := Z.opp;
  f_div := fun a b => if Z.eqb b 0 then Err EZeroDiv else Ok (Z.div a b);
  f_pow := fun a b => if Z.ltb b 0 then (if Z.eqb a 0 then Err EZeroDiv else Err EType) else Ok (Z.pow a b);
  f_exp := fun a => if Z.ltb 700 a then Err EOverflow else Ok (Z.pow 2 (Z.max a 0));
  f_log := fun a => if Z.leb a 0 then Err EValue else Ok (Z.log2 a);
  f_nplog := Z.log2;
  f_le := Z.leb; f_lt := Z.ltb
|}%Z.

(** Integers where only division by a unit succeeds: a commutative ring in which the division laws
    of the duality theorems hold. *)
Definition ZU : fops Z := {|
  f_zero := 0; f_one := 1; f_two := 2; f_three := 3;
  f_add := Z.add; f_sub := Z.sub; f_mul := Z.mul; f_neg := Z.opp;
  f_div := fun a b => if Z.eqb b 1 then Ok a else if Z.eqb b (-1) then Ok (- a) else Err EZeroDiv;
  f_pow := fun a b => if Z.ltb b 0 then Err EZeroDiv else Ok (Z.pow a b);
  f_exp := fun a => Ok (Z.pow 2 (Z.max a 0));
  f_log := fun a => if Z.leb a 0 then Err EValue else Ok (Z.log2 a);
  f_nplog := Z.log2;
  f_le := Z.leb; f_lt := Z.ltb
|}%Z.
Lemma ZU_ring : ring_theory (f_zero ZU) (f_one ZU) (f_add ZU) (f_mul ZU) (f_sub ZU) (f_neg ZU) eq.
Proof. exact Zth. Qed.
Lemma ZU_div : forall a t x r s, f_div ZU a x = Ok r -> f_div ZU t x = Ok s -> f_mul ZU r t = f_mul ZU a s.
Proof.
  intros a t x r s. cbn. destruct (Z.eqb x 1); [|destruct (Z.eqb x (-1)); [|discriminate]]; intros H1 H2; injection H1 as <-; injection H2 as <-; ring.
Qed.
Lemma ZU_div_scale : forall s a x, f_div ZU (f_mul ZU s a) x = rmap (f_mul ZU s) (f_div ZU a x).
Proof. intros s a x. cbn. destruct (Z.eqb x 1); [reflexivity|]. destruct (Z.eqb x (-1)); [|reflexivity]. cbn. f_equal. ring. Qed.

(** Conjunctions of computed equalities. *)
Ltac vm_conj := cbv zeta; repeat match goal with |- _ /\ _ => split end; vm_compute; reflexivity.
