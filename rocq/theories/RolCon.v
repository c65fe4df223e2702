(** Constraints handed to ROL: ROLConstraint and the constraint part of ROLSolver, on the object memory of Rol.v.
    /repo/pyadjoint/optimization/rol_solver.py 121-139, 192-234; constraints.py 77-120.  No proofs here. *)
From Coq Require Import List Arith Bool.
From Verif Require Import Base Model Record Coll Solvers Rol.
Import ListNotations.

Section RolCon.
Context {V S : Type} (F : fops V).
Variables (T : otype V S) (C : scalars S).
(** [deriv._ad_convert_type(deriv, options=...)] of riesz_map (79-84); the result is a new object. *)
Variable riesz : V -> V.

(** A constraint of the problem.  The user's methods read the objects they are given and may raise; the actions write their value into
    [result] (constraints.py 11-45).  [function] returns a new object.  [rc_over]: output_workspace() gives an OverloadedType. *)
Inductive rclass : Set := REq | RIneq | ROther.
Record rcon : Type := RC {
  rc_class : rclass;
  rc_fun : list V -> res V;
  rc_jac : list V -> V -> res V;              (* jacobian_action(m, dm, result) *)
  rc_adj : list V -> V -> res V;              (* jacobian_adjoint_action(m, dp, result) *)
  rc_hess : list V -> V -> V -> res V;        (* hessian_action(m, dm, dp, result) *)
  rc_space : V;                               (* output_workspace() *)
  rc_over : bool
}.
(** equality_constraints (112-115), inequality_constraints (117-120) *)
Definition eq_cons (cs : list rcon) : list rcon := filter (fun c => match rc_class c with REq => true | _ => false end) cs.
Definition ineq_cons (cs : list rcon) : list rcon := filter (fun c => match rc_class c with RIneq => true | _ => false end) cs.

(** [c.jacobian_action(m, dm, result[i])] writes the object [o]; objects that cannot change stay *)
Definition store (m : list V) (o : nat) (y : V) : list V := if ot_inplace T then list_set m o y else m.
Definition v0 (v : list nat) : res nat := match v with o :: _ => Ok o | [] => Err EIndex end.

(** MergedConstraints.function (81-82) *)
Definition con_value (cs : list rcon) (m : list V) (x : list nat) : res (list V) := mapM (fun c => rc_fun c (values F m x)) cs.
(** MergedConstraints.jacobian_action (87-88) *)
Fixpoint con_jac (cs : list rcon) (m : list V) (x : list nat) (dm : nat) (result : list nat) : list V * option exn :=
  match cs with
  | [] => (m, None)
  | c :: r =>
      match result with
      | [] => (m, Some EIndex)
      | o :: result' =>
          match rc_jac c (values F m x) (get F m dm) with
          | Err e => (m, Some e)
          | Ok y => con_jac r (store m o y) x dm result'
          end
      end
  end.
(** The loop of jacobian_adjoint_action (94-96) and hessian_action (102-104): [act c m d] computes what [c] writes into [tmp]. *)
Fixpoint con_sum (act : rcon -> list V -> V -> res V) (cs : list rcon) (m : list V) (dp : list nat) (tmp result : nat) : list V * option exn :=
  match cs with
  | [] => (m, None)
  | c :: r =>
      match dp with
      | [] => (m, Some EIndex)
      | d :: dp' =>
          match act c m (get F m d) with
          | Err e => (m, Some e)
          | Ok y => let m1 := store m tmp y in
                    con_sum act r (if ot_inplace T then list_set m1 result (ot_add T (get F m1 result) (get F m1 tmp)) else m1) dp' tmp result
          end
      end
  end.
(** 90-96, 98-104: [result._ad_imul(0.0)], [tmp = copy.deepcopy(result)], the loop *)
Definition con_act (act : rcon -> list V -> V -> res V) (cs : list rcon) (m : list V) (dp : list nat) (result : nat) : list V * option exn :=
  let m1 := v_scale F T m (sc_zero C) [result] in
  con_sum act cs (m1 ++ [get F m1 result]) dp (length m1) result.

(** What ROL calls on a constraint; [true]: the equality constraints *)
Inductive cop : Type :=
| CValue (eq : bool) (c x : nat)
| CJac (eq : bool) (jv v x : nat)
| CAdj (eq : bool) (jv v x : nat)
| CHess (eq : bool) (ah u v x : nat).
Variables (t : tape V) (rf : rfun V) (all : list rcon).
Definition group (eq : bool) : list rcon := if eq then eq_cons all else ineq_cons all.
(** [jv.dat = jv.riesz_map(jv.dat)] (135, 139) *)
Definition mapped (s : solver V) (jv : nat) (m : list V * option exn) (v : list nat) : solver V * res (vans V S) :=
  let s1 := wrote F rf s (fst m) in
  match snd m with
  | Some e => (s1, Err e)
  | None => (rebound s1 jv (map riesz (values F (fst m) v)) (so_rol s1), Ok ANone)
  end.
Definition con_step (s : solver V) (o : cop) : solver V * res (vans V S) :=
  let m := so_objs s in
  match o with
  | CValue q c x =>                               (* 127-128 *)
      match (do _ <- vec s c; do x <- vec s x; con_value (group q) m x) with
      | Err e => (s, Err e)
      | Ok ys => (rebound s c ys (so_rol s), Ok ANone)
      end
  | CJac q jv v x =>                              (* 130-131 *)
      match (do j <- vec s jv; do v <- vec s v; do x <- vec s x; do d <- v0 v; Ok (j, x, d)) with
      | Err e => (s, Err e)
      | Ok (j, x, d) => let '(m', e) := con_jac (group q) m x d j in
                        (wrote F rf s m', match e with None => Ok ANone | Some e => Err e end)
      end
  | CAdj q jv v x =>                              (* 133-135 *)
      match (do j <- vec s jv; do v <- vec s v; do x <- vec s x; do r <- v0 j; Ok (j, v, x, r)) with
      | Err e => (s, Err e)
      | Ok (j, v, x, r) => mapped s jv (con_act (fun c m d => rc_adj c (values F m x) d) (group q) m v r) j
      end
  | CHess q ah u v x =>                           (* 137-139 *)
      match (do j <- vec s ah; do u <- vec s u; do v <- vec s v; do x <- vec s x; do d <- v0 u; do r <- v0 j; Ok (j, d, v, x, r)) with
      | Err e => (s, Err e)
      | Ok (j, d, v, x, r) => mapped s ah (con_act (fun c m p => rc_hess c (values F m x) (get F m d) p) (group q) m v r) j
      end
  end.

(** ROL with constraints: any algorithm over both kinds of callbacks. *)
Inductive rop : Type := RVec (o : vop S) | RCon (o : cop).
Inductive calgo : Type := CStop | CAsk (o : rop) (k : vans V S -> calgo).
Definition cstep (s : solver V) (o : rop) : solver V * res (vans V S) :=
  match o with RVec o => step F T C t rf s o | RCon o => con_step s o end.
Fixpoint cplay (a : calgo) (s : solver V) : solver V * option exn :=
  match a with
  | CStop => (s, None)
  | CAsk o k => match cstep s o with (s', Ok x) => cplay (k x) s' | (s', Err e) => (s', Some e) end
  end.
(** __get_constraints (192-217): a workspace that is no OverloadedType raises TypeError. *)
Definition check_cons : option exn :=
  if forallb rc_over (eq_cons all) && forallb rc_over (ineq_cons all) then None else Some EType.
(** __init__ (155-162) and the clones of solve (231-235).  Vectors: 0 the controls, 1 and 2 the workspaces of the equality and
    inequality constraints, 3 the lower bounds of the inequality constraints if there are any. *)
Definition con_start (h : heap V) : solver V :=
  let n := length (rf_ctrls rf) in
  let es := map rc_space (eq_cons all) in
  let is := map rc_space (ineq_cons all) in
  let s := Sol (map (saved h) (rf_ctrls rf) ++ es ++ is) [seq 0 n; seq n (length es); seq (n + length es) (length is)] (rol_new h) true in
  match is with [] => s | _ => fst (step F T C t rf s (VClone 2)) end.
Definition con_solve {A} (e : enlist A) (a : calgo) (h : heap V) : res (pyval V) :=
  match check_cons with
  | Some e => Err e
  | None => match cplay a (con_start h) with
            | (_, Some e) => Err e
            | (s, None) => match so_vecs s with x :: _ => delist e (values F (so_objs s) x) | [] => Err EAttr end
            end
  end.
End RolCon.
Arguments rcon : clear implicits. Arguments rop : clear implicits. Arguments calgo : clear implicits.
Arguments RVec {S}. Arguments RCon {S}. Arguments CStop {V S}. Arguments CAsk {V S}.
