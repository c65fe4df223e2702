(** The optimisation drivers [minimize] and [maximize]: /repo/pyadjoint/optimization/optimization.py
    39-290 without constraints (their list is in Opt.v).  No proofs here. *)
From Coq Require Import List Arith Bool.
From Verif Require Import Base Model Coll Opt.
Import ListNotations.

Section Minimise.
Context {V S : Type} (F : fops V).

(** The algorithm (SciPy's, or the user's function) is external: it asks for values, gradients and Hessian
    actions at arrays of its choice, sees the answer or the exception, and returns an array or raises. *)
Inductive algo : Type :=
| ARet (x : list S)
| ARaise (e : exn)
| AJ (x : list S) (k : res V -> algo)
| AD (x : list S) (k : res (list S) -> algo)
| AH (x d : list S) (k : res (list S) -> algo).

(** optimization_algorithms_dict (168-185); [MUnknown]: any other string *)
Inductive method : Set :=
| LBFGSB | SLSQP | TNC | CG | BFGS | NelderMead | Powell | NewtonCG | Anneal | Basinhopping | COBYLA | Custom | MUnknown.
(** 81-87 and 124, for Custom 152-158: the callbacks that are passed *)
Definition has_jac (m : method) : bool := match m with COBYLA | NelderMead | Anneal | Powell => false | _ => true end.
Definition has_hess (m : method) : bool := match m with NewtonCG | Custom => true | _ => false end.

(** A ReducedFunctional, or a ReducedFunctionalNumPy around it ([or_wrap]).  [or_attr]: attribute [scale]
    of the wrapper itself; reading falls through to the inner object (reduced_functional_numpy.py 26-27),
    assignment does not. *)
Record optrf : Type := ORF { or_rf : rfun V; or_wrap : bool; or_attr : option V }.
(** [rf.scale = scale] (220) *)
Definition assign_scale (s : V) (r : optrf) : optrf :=
  if or_wrap r then ORF (or_rf r) true (Some s) else ORF (RF (rf_J (or_rf r)) (rf_ctrls (or_rf r)) s) false (or_attr r).

Section Run.
Variables (bs wbs : list (block V)) (rf : rfun V) (cs : list (ctype V S)) (cur : list V) (jac hess : bool).
(** The callbacks are methods of the NumPy view (61-64, 150-153).  [m_array] of [dJ] and [H] is ignored.
    A callback that was not passed is None. *)
Fixpoint run_algo (a : algo) (h : heap V) : heap V * res (list S) :=
  match a with
  | ARet x => (h, Ok x)
  | ARaise e => (h, Err e)
  | AJ x k => let '(h', r) := np_call F bs rf cs cur x h in run_algo (k r) h'
  | AD x k => if jac then let '(h', r) := np_derivative F bs rf cs h in run_algo (k r) h' else run_algo (k (Err EType)) h
  | AH x d k => if hess then let '(h', r) := np_hessian F bs wbs rf cs cur d h in run_algo (k r) h' else run_algo (k (Err EType)) h
  end.
End Run.

(** The bounds that reach the algorithm (108-130, 155-158).  [mkw]: minimizer_kwargs, if given, and the bounds in it;
    basinhopping does not look at the argument [bounds]. *)
Definition passed_bounds (m : method) (mkw : option (option (@sbounds V S))) (b : option sbounds) : res (option sbounds) :=
  match m with
  | Basinhopping => match mkw with None => Err EKey | Some b' => Ok b' end
  | _ => Ok b
  end.
Definition serialised (cs : list (@bctrl V S)) (b : option sbounds) : res (option (list (option S * option S))) :=
  match b with None => Ok None | Some b => rmap Some (serialise_bounds cs b) end.

(** minimize (196-252) with minimize_scipy_generic (39-134) and minimize_custom (137-165).
    [alg]: None if method is Custom and no algorithm is given; its arguments are the initial array and the
    bounds.  [wbs]: blocks of the working tape. *)
Definition minimise (bs wbs : list (block V)) (cs : list (@bctrl V S)) (cur : list V) (m : method) (scale : V)
  (mkw : option (option sbounds)) (b : option sbounds) (alg : option (list S -> option (list (option S * option S)) -> algo))
  (r : optrf) (h : heap V) : optrf * heap V * res (pyval V) :=
  let r1 := assign_scale scale r in
  let rf := or_rf r1 in
  let ts := map bc_type cs in
  match m, alg with
  | MUnknown, _ => (r1, h, Err EKey)
  | _, None => (r1, h, Err EKey)
  | _, Some alg =>
      match (do x0 <- np_get_controls rf ts h; do b1 <- passed_bounds m mkw b; do b2 <- serialised cs b1; Ok (x0, b2)) with
      | Err e => (r1, h, Err e)
      | Ok (x0, b2) =>
          match run_algo bs wbs rf ts cur (has_jac m) (has_hess m) (alg x0 b2) h with
          | (h1, Err e) => (r1, h1, Err e)
          | (h1, Ok x) =>
              let '(h2, o) := np_set_controls rf ts x h1 in
              (r1, h2, rmap (fun l => match l with [v] => POne v | _ => PList l end) o)
          end
      end
  end.
(** maximize (255-286) *)
Definition maximise bs wbs cs cur m scale mkw b alg r h := minimise bs wbs cs cur m (f_neg F scale) mkw b alg r h.
End Minimise.
Arguments algo V S : clear implicits.
Arguments optrf V : clear implicits.
