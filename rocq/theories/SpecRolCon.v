(** Specification of a run of ROL with constraints: vectors are lists of values, objective and constraints are functions (C62). *)
From Coq Require Import List Arith Bool.
From Verif Require Import Base Model Coll Solvers SpecSolvers Rol SpecRol RolCon.
Import ListNotations.

Section CPlays.
Context {V S : Type}.
Variables (add : V -> V -> V) (mul : S -> V -> V) (dot : V -> V -> S) (dim : V -> nat)
  (unary : (S -> S) -> V -> V) (binary : (S -> S -> S) -> V -> V -> V) (reduce : (S -> S -> S) -> V -> S -> S)
  (zero : S) (plus : S -> S -> S) (root : S -> S) (riesz : V -> V).
(** The constraints of the problem; those of one kind. *)
Variable all : list (rcon V).
Definition kind_is (q : bool) (c : rcon V) : bool := match rc_class c, q with REq, true => true | RIneq, false => true | _, _ => false end.
Definition those (q : bool) : list (rcon V) := filter (kind_is q) all.

(** [con_does vs o r]: the constraint callback [o] on the vectors [vs] leaves the vectors [r], or the exception of a constraint comes out:
    the values of all constraints at [x]; the derivatives of all along [d]; the sum over the constraints of the adjoint derivatives, or second
    derivatives along [d], weighted by the entries of [ps].  One control; the vector written is no other argument. *)
Inductive con_does (vs : list (list V)) : cop -> res (list (list V)) -> Prop :=
| cd_value q c x xs : c < length vs -> nth_error vs x = Some xs ->
    con_does vs (CValue q c x) (rmap (put vs c) (mapM (fun k => rc_fun k xs) (those q)))
| cd_jac q jv v x xs d old : nth_error vs x = Some xs -> nth_error vs v = Some [d] -> nth_error vs jv = Some old -> length old = length (those q) ->
    jv <> v -> jv <> x -> con_does vs (CJac q jv v x) (rmap (put vs jv) (mapM (fun k => rc_jac k xs d) (those q)))
| cd_adj q jv v x xs ps old : nth_error vs x = Some xs -> nth_error vs v = Some ps -> nth_error vs jv = Some [old] -> length ps = length (those q) ->
    jv <> v -> jv <> x ->
    con_does vs (CAdj q jv v x)
      (rmap (fun ys => put vs jv [riesz (fold_left add ys (mul zero old))]) (mapM (fun kp => rc_adj (fst kp) xs (snd kp)) (combine (those q) ps)))
| cd_hess q ah u v x xs d ps old : nth_error vs x = Some xs -> nth_error vs u = Some [d] -> nth_error vs v = Some ps -> nth_error vs ah = Some [old] ->
    length ps = length (those q) -> ah <> u -> ah <> v -> ah <> x ->
    con_does vs (CHess q ah u v x)
      (rmap (fun ys => put vs ah [riesz (fold_left add ys (mul zero old))]) (mapM (fun kp => rc_hess (fst kp) xs d (snd kp)) (combine (those q) ps))).

Variables (n : nat) (J : list V -> res V) (dJ : list V -> list V -> Prop) (HJ : list V -> list V -> list V -> Prop).
Notation does := (does add mul dot dim unary binary reduce zero plus root).
(** As [SpecRol.plays], with constraints.  The objective is asked for at vectors of [n] values. *)
Inductive cplays : list (list V) -> rstate (list V) -> option (list V) -> calgo V S -> res (list V) -> Prop :=
| cp_stop vs p g x : nth_error vs 0 = Some x -> cplays vs p g CStop (Ok x)
| cp_vector vs p g o vs' a k r : does vs o vs' a -> cplays vs' p g (k a) r -> cplays vs p g (CAsk (RVec o) k) r
| cp_con vs p g o vs' k r : con_does vs o (Ok vs') -> cplays vs' p g (k ANone) r -> cplays vs p g (CAsk (RCon o) k) r
| cp_con_raise vs p g o e k : con_does vs o (Err e) -> cplays vs p g (CAsk (RCon o) k) (Err e)
| cp_update vs p g f i x p' y d k r : nth_error vs i = Some x -> length x = n -> allowed p f x p' -> J x = Ok y -> dJ x d ->
    cplays vs p' g (k ANone) r -> cplays vs p g (CAsk (RVec (VUpdate f i)) k) r
| cp_raise vs p g f i x e k : nth_error vs i = Some x -> length x = n -> (f = Initial \/ f = Trial \/ f = Temp) -> J x = Err e ->
    cplays vs p g (CAsk (RVec (VUpdate f i)) k) (Err e)
| cp_obj vs p g x y k r : at_point p = Some x -> J x = Ok y -> cplays vs p g (k (AVal (Some y))) r -> cplays vs p g (CAsk (RVec VValue) k) r
| cp_gradient vs p g i x d k r : at_point p = Some x -> i < length vs -> dJ x d ->
    cplays (put vs i d) p (Some x) (k ANone) r -> cplays vs p g (CAsk (RVec (VGradient i)) k) r
| cp_hessian vs p i j x v h k r : at_point p = Some x -> i < length vs -> nth_error vs j = Some v -> length v = n -> HJ x v h ->
    cplays (put vs i h) p (Some x) (k ANone) r -> cplays vs p (Some x) (CAsk (RVec (VHessVec i j)) k) r.
(** The vectors ROL starts with: controls [x], workspaces of both kinds, and zero as lower bound of inequality constraints. *)
Definition first_vectors (x : list V) : list (list V) :=
  let w q := map rc_space (those q) in
  [x; w true; w false] ++ match those false with [] => [] | _ => [map (mul zero) (w false)] end.
End CPlays.
