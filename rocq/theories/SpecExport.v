(** Specification of the exported graph. *)
From Coq Require Import List Arith ZArith Bool.
From Verif Require Import Base Model Record Export.
Import ListNotations.

Section SpecExport.
Context {V : Type}.

(** The edges of a tape: from every dependency to its block and from every block to its outputs. *)
Definition flows (bs : list (block V)) (a b : node) : Prop :=
  exists i k, nth_error bs i = Some k /\
    ((exists d, In d (b_deps k) /\ a = NVar d /\ b = NBlk i) \/ (exists o, In o (b_outs k) /\ a = NBlk i /\ b = NVar o)).
(** Where the variables occur, in the order of the tape: block [i]'s dependencies above it, then its outputs below it. *)
Fixpoint spread (y : Z) (x : nat) (vs : list nat) : list (nat * (nat * Z)) :=
  match vs with [] => [] | v :: r => (v, (x, y)) :: spread y (S x) r end.
Fixpoint occurrences (i : nat) (bs : list (block V)) : list (nat * (nat * Z)) :=
  match bs with
  | [] => []
  | b :: r => spread (1 - 2 * Z.of_nat i) 0 (b_deps b) ++ spread (-1 - 2 * Z.of_nat i) 0 (b_outs b) ++ occurrences (S i) r
  end.
Definition first_place (bs : list (block V)) (v : nat) : option (nat * Z) :=
  option_map snd (find (fun p => Nat.eqb (fst p) v) (occurrences 0 bs)).
(** The label of a block: its operator with the values of its operands, or its name. *)
Definition block_label (show : nat -> V) (i : nat) (b : block V) : label V :=
  match b_kind b with
  | KAdd | KSub | KMul | KDiv | KPow | KNeg => LTerm (b_kind b) (map show (b_deps b))
  | _ => LBlock i
  end.
Definition sized (b : block V) : Prop :=
  match b_kind b with
  | KAdd | KSub | KMul | KDiv | KPow => length (b_deps b) = 2
  | KNeg => length (b_deps b) = 1
  | _ => True
  end.

Inductive path (g : graph V) (a : node) : node -> Prop :=
| path_end : path g a a
| path_step : forall b c, path g a b -> In (b, c) (g_edges g) -> path g a c.
End SpecExport.
