(** IPOPTSolver without constraints: /repo/pyadjoint/optimization/ipopt_solver.py 22-70 and 168-195 (bounds and constraints
    are in Opt.v).  No proofs here. *)
From Coq Require Import List Arith Bool.
From Coq Require String.
Import String.StringSyntax.
From Verif Require Import Base Model Coll Opt Minimise.
Import ListNotations.
Local Open Scope string_scope.

Section Ipopt.
Context {V S P : Type} (F : fops V).
(** values of options: 6 and -1.0 *)
Variables six minus_one : P.

(** _param_map (168-171) *)
Definition param_map (n : String.string) : String.string :=
  if String.eqb n "tolerance" then "tol" else if String.eqb n "maximum_iterations" then "max_iter" else n.
(** The calls of add_option (62-68, 173-182); [params]: the items of the parameter dictionary.  A later call
    replaces an earlier one for the same option. *)
Definition add_options (maxim : bool) (params : option (list (String.string * P))) : list (String.string * P) :=
  ("print_level", six) :: (if maxim then [("obj_scaling_factor", minus_one)] else []) ++
  match params with None => [] | Some l => map (fun nv => (param_map (fst nv), snd nv)) l end.
Fixpoint option_value (l : list (String.string * P)) (n : String.string) : option P :=
  match l with
  | [] => None
  | (m, v) :: r => match option_value r n with Some w => Some w | None => if String.eqb m n then Some v else None end
  end.

(** IPOPTSolver(problem, parameters) (28-70) and solve() (184-191).  IPOPT is external ([algo]); it knows the bounds and the
    values of its options.  Its status is not looked at; the controls on the tape are not set to the solution. *)
Definition ipopt_solve (bs : list (block V)) (rf : rfun V) (bcs : list (@bctrl V S)) (cur : list V) (lim : S * S)
  (bounds : option (list (@bnd V S))) (maxim : bool) (params : option (list (String.string * P))) (is_list : bool)
  (alg : list S -> list (ext S) * list (ext S) -> (String.string -> option P) -> algo V S) (h : heap V) : heap V * res (pyval V) :=
  let cs := map bc_type bcs in
  match (do b <- ipopt_bounds (snd lim) (fst lim) bcs bounds; do x0 <- np_get_controls rf cs h; Ok (b, x0)) with
  | Err e => (h, Err e)
  | Ok (b, x0) =>
      match run_algo F bs [] rf cs cur true false (alg x0 b (option_value (add_options maxim params))) h with
      | (h1, Err e) => (h1, Err e)
      | (h1, Ok x) => (h1, do m <- copies cs cur; do m' <- set_local cs m x;
                           Ok (match m', is_list with [v], false => POne v | _, _ => PList m' end))
      end
  end.
End Ipopt.
