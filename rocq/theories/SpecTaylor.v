(** Specification of the Taylor test: step sizes and rates. *)
From Coq Require Import List Reals.
From Coquelicot Require Import Coquelicot.
Import ListNotations.
Open Scope R_scope.

(** 0.01 * 2^-k *)
Definition step (k : nat) : R := 1 / 100 * (1 / 2) ^ k.
(** the order p with e1 = e0 * (1/2)^p; infinite if e1 = 0 *)
Definition is_order (e0 e1 : R) (p : Rbar) : Prop :=
  match p with
  | Finite p => 0 < e0 /\ e1 = e0 * Rpower (1 / 2) p
  | p_infty => e1 = 0
  | m_infty => False
  end.
(** [q] is the smallest of the orders of consecutive residuals *)
Definition smallest_order (es : list R) (q : Rbar) : Prop :=
  (exists k, (S k < length es)%nat /\ is_order (nth k es 0) (nth (S k) es 0) q) /\
  forall k p, (S k < length es)%nat -> is_order (nth k es 0) (nth (S k) es 0) p -> Rbar_le q p.
