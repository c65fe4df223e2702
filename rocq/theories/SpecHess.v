(** Specification vocabulary for second derivatives: the recorded operations for which the second-order
    code is right, and points at which the computation is twice differentiable. *)
From Coq Require Import List Arith ZArith Bool Reals.
From Verif Require Import Base Model SpecGraph Calculus.
Import ListNotations.
Open Scope R_scope.

Definition linear_kind {V} (k : kind V) : bool :=
  match k with KAdd | KSub | KNeg | KMin | KMax => true | _ => false end.
(** On the way from [v] to [J] there are only sums, differences, negations, min and max. *)
Definition only_linear {V} (bs : list (block V)) (J v : nat) : Prop :=
  forall w b o, influences bs v w -> In b bs -> In w (b_deps b) -> In o (b_outs b) -> influences bs o J -> linear_kind (b_kind b) = true.
(** Products are covered when they square one variable or when their result only enters linearly. *)
Definition second_order_block {V} (bs : list (block V)) (J : nat) (b : block V) : Prop :=
  match b_kind b with
  | KAdd | KSub | KNeg | KDiv | KPow | KMin | KMax => True
  | KMul => (exists d, b_deps b = [d; d]) \/ (forall o, In o (b_outs b) -> only_linear bs J o)
  | KExp | KLog | KUser _ => False
  end.
(** ... required of the operations between the controls and the functional. *)
Definition second_order_sound {V} (bs : list (block V)) (ctrls : list nat) (J : nat) : Prop :=
  forall b d o, In b bs -> In d (b_deps b) -> influenced bs ctrls d -> In o (b_outs b) -> influences bs o J -> second_order_block bs J b.

(** Differentiable, and a power of a base that is 0 has an integer exponent of at least 2. *)
Definition twice_smooth (bs : list (block R)) (ctrls : list nat) (e : nat -> R) : Prop :=
  smooth_at bs ctrls e /\
  forall b d0 d1, In b bs -> (forall o, In o (b_outs b) -> ~ In o ctrls) -> b_kind b = KPow -> b_deps b = [d0; d1] ->
    influenced bs ctrls d0 -> e d0 = 0 -> exists z : Z, e d1 = IZR z /\ (2 <= z)%Z.
