(** Specification vocabulary about recorded operations: which variable can influence which.
    Nothing here mentions adjoint values, markings or sweeps. *)
From Coq Require Import List Arith Bool.
From Verif Require Import Base Model.
Import ListNotations.

(** [influences bs c v]: a chain of recorded operations leads from [c] to [v]. *)
Inductive influences {V} (bs : list (block V)) (c : nat) : nat -> Prop :=
| inf_self : influences bs c c
| inf_step : forall b d o, In b bs -> In d (b_deps b) -> In o (b_outs b) ->
    influences bs c d -> influences bs c o.
