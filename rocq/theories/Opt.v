(** The NumPy view of a reduced functional, constraints, bounds, and what SciPy, IPOPT and TAO are
    handed.  Covers /repo/pyadjoint/reduced_functional_numpy.py and, in /repo/pyadjoint/optimization/,
    constraints.py, optimization_problem.py, optimization.py (serialise_bounds and the constraint list
    of minimize_scipy_generic), ipopt_solver.py (__get_bounds, __get_constraints).  No proofs here.
    [V]: values of controls, [S]: the scalars of a numpy array. *)
From Coq Require Import List Arith Bool.
From Verif Require Import Base Model.
Import ListNotations.

(** * ReducedFunctionalNumPy *)
Section NumPy.
Context {V S : Type}.

(** What the overloaded type of a control provides (overloaded_type.py 319-373): number of scalars,
    [_ad_to_list], [_ad_assign_numpy] as a function of the [size] entries of [src] from [offset] on
    (fewer if [src] ends before: language semantics of slices), [_ad_copy].
    Implementations outside pyadjoint are represented by their documented contract
    ([lawful] in SpecOpt.v); AdjFloat's is [adjfloat] below. *)
Record ctype : Type := CT {
  ct_size : nat;
  ct_list : V -> res (list S);
  ct_make : list S -> res V;
  ct_copy : V -> res V
}.

(** Control.assign_numpy (control.py 74-78) *)
Definition assign_numpy (c : ctype) (src : list S) (off : nat) : res (V * nat) :=
  do v <- ct_make c (firstn (ct_size c) (skipn off src)); Ok (v, off + ct_size c).

(** set_local (reduced_functional_numpy.py 37-42): [m] is a list that is overwritten entry by entry;
    [m[i]] raises IndexError if it is too short, further entries are kept. *)
Fixpoint set_local_from (cs : list ctype) (m : list V) (arr : list S) (off : nat) : res (list V) :=
  match cs with
  | [] => Ok m
  | c :: cs' =>
      match m with
      | [] => Err EIndex
      | _ :: m' =>
          match assign_numpy c arr off with
          | Err e => Err e
          | Ok (v, off') => do r <- set_local_from cs' m' arr off'; Ok (v :: r)
          end
      end
  end.
Definition set_local (cs : list ctype) (m : list V) (arr : list S) : res (list V) := set_local_from cs m arr 0.

(** get_global (44-54) of a list of values of the controls' types, one per control; the concatenation
    loop is also the one of [derivative] (78-82) and [hessian] (96-100), where [dJdm[i]] raises
    IndexError if there are too few. *)
Fixpoint get_global (cs : list ctype) (m : list V) : res (list S) :=
  match cs with
  | [] => Ok []
  | c :: cs' =>
      match m with
      | [] => Err EIndex
      | v :: m' => do a <- ct_list c v; do b <- get_global cs' m'; Ok (a ++ b)
      end
  end.

Definition copies (cs : list ctype) (vals : list V) : res (list V) :=
  mapM (fun cv => ct_copy (fst cv) (snd cv)) (combine cs vals).

(** __call__ (29-35).  [cur]: the values of the control objects (copied by copy_data, then overwritten). *)
Definition np_call (F : fops V) (bs : list (block V)) (rf : rfun V) (cs : list ctype) (cur : list V) (arr : list S) (h : heap V)
  : heap V * res V :=
  match (do m <- copies cs cur; set_local cs m arr) with
  | Err e => (h, Err e)
  | Ok vs => rf_call F bs rf vs h
  end.

(** derivative (56-84); [m_array] is ignored *)
Definition np_derivative (F : fops V) (bs : list (block V)) (rf : rfun V) (cs : list ctype) (h : heap V) : heap V * res (list S) :=
  let '(h', r) := rf_derivative F bs rf (f_one F) h in (h', do g <- r; get_global cs g).

(** hessian (86-105).  [wbs]: blocks of the working tape, whose adjoint values are reset at the end *)
Definition np_hessian (F : fops V) (bs wbs : list (block V)) (rf : rfun V) (cs : list ctype) (cur : list V) (dir : list S) (h : heap V)
  : heap V * res (list S) :=
  match np_derivative F bs rf cs h with
  | (h1, Err e) => (h1, Err e)
  | (h1, Ok _) =>
      match (do m <- copies cs cur; set_local cs m dir) with
      | Err e => (h1, Err e)
      | Ok vs =>
          let '(h2, r) := rf_hessian F bs rf vs h1 in
          match (do g <- r; get_global cs g) with
          | Err e => (h2, Err e)
          | Ok a => (reset_adj wbs h2, Ok a)
          end
      end
  end.

(** get_controls, set_controls (110-119) *)
Definition np_get_controls (rf : rfun V) (cs : list ctype) (h : heap V) : res (list S) :=
  get_global cs (map (saved h) (rf_ctrls rf)).
Definition np_set_controls (rf : rfun V) (cs : list ctype) (arr : list S) (h : heap V) : heap V * res (list V) :=
  match set_local cs (map (saved h) (rf_ctrls rf)) arr with
  | Err e => (h, Err e)
  | Ok m => (update_controls h (rf_ctrls rf) m, Ok m)
  end.
End NumPy.
Arguments ctype : clear implicits.

(** AdjFloat (adjfloat.py 115-126): [float(src[offset:offset+1])], a TypeError for an empty slice *)
Definition adjfloat {V} : ctype V V :=
  CT 1 (fun v => Ok [v]) (fun l => match l with [x] => Ok x | _ => Err EType end) (fun v => Ok v).
(** numpy_adjoint's ndarray (/repo/numpy_adjoint/array.py 7-41) overrides none of the three methods;
    those of OverloadedType raise NotImplementedError (overloaded_type.py 345, 362, 373). *)
Definition ndarray {V S} (n : nat) : ctype V S :=
  CT n (fun _ => Err ENotImpl) (fun _ => Err ENotImpl) (fun _ => Err ENotImpl).

(** * Constraints (constraints.py) *)
Section Constraints.
(** [M]: points, [D]: directions, [S]: scalars, [W]: vectors of the control space (mutable buffers),
    [row]: a row of a Jacobian. *)
Variables M D S W row : Type.
(** [result._ad_imul(0.0)] and [result._ad_iadd(tmp)] *)
Variable w_zero_mul : W -> W.
Variable w_add : W -> W -> W.

(** EqualityConstraint, InequalityConstraint, another subclass of Constraint *)
Inductive cls : Set := IsEq | IsIneq | IsPlain.
(** A user's constraint: [function], [jacobian], the actions as the value stored in [result],
    and the length of [output_workspace].  [lf_list]: function returns a list (else an array). *)
Record leaf : Type := Leaf {
  lf_fun : M -> list S;
  lf_list : bool;
  lf_jac : M -> list row;
  lf_jact : M -> D -> list S;
  lf_adj : M -> list S -> W;
  lf_hess : M -> D -> list S -> W;
  lf_dim : nat
}.
(** [CSeq]: a Python list where a constraint is expected *)
Inductive con : Type :=
| CLeaf (k : cls) (l : leaf)
| CMerged (cs : list con)
| CSeq (cs : list con).

(** canonicalise (122-134).  [None], a MergedConstraints, a list (not flattened), or one constraint *)
Definition canonicalise (c : option con) : option (list con) :=
  match c with
  | None => None
  | Some (CMerged cs) => Some cs
  | Some (CSeq cs) => Some cs
  | Some c => Some [c]
  end.

(** An n-dimensional array: shape and data in row-major order.  [numpy.array] of a list of arrays:
    one more dimension if all shapes agree, ValueError otherwise (NumPy 1.24 or newer). *)
Record nd : Type := ND { nd_shape : list nat; nd_data : list S }.
Definition shape_eqb (a b : list nat) : bool := if list_eq_dec Nat.eq_dec a b then true else false.
Definition np_stack (l : list nd) : res nd :=
  match l with
  | [] => Ok (ND [0] [])
  | a :: r => if forallb (fun b => shape_eqb (nd_shape a) (nd_shape b)) r
              then Ok (ND (length l :: nd_shape a) (flat_map nd_data l))
              else Err EValue
  end.

Fixpoint sequence {A} (l : list (res A)) : res (list A) :=
  match l with
  | [] => Ok []
  | x :: r => do a <- x; do b <- sequence r; Ok (a :: b)
  end.

(** [numpify(c.function(m))] (72, 80): a list becomes an array, an array is kept *)
Fixpoint con_function (c : con) (m : M) : res nd :=
  match c with
  | CLeaf _ l => let d := lf_fun l m in Ok (ND [length d] d)
  | CMerged cs => do l <- sequence (map (fun c => con_function c m) cs); np_stack l
  | CSeq _ => Err EAttr
  end.
(** MergedConstraints.function (79-80): a list with one entry per constraint *)
Definition merged_function (cs : list con) (m : M) : res (list nd) := sequence (map (fun c => con_function c m) cs).

(** jacobian (82-83): rows of a leaf, a list of the Jacobians for a merged constraint *)
Inductive jtree : Type := JRows (rows : list row) | JList (l : list jtree).
Fixpoint con_jacobian (c : con) (m : M) : res jtree :=
  match c with
  | CLeaf _ l => Ok (JRows (lf_jac l m))
  | CMerged cs => rmap JList (sequence (map (fun c => con_jacobian c m) cs))
  | CSeq _ => Err EAttr
  end.

(** jacobian_action (85-86): into [result[i]] *)
Inductive vtree : Type := VLeaf (d : list S) | VNode (l : list vtree).
Fixpoint con_jact (c : con) (m : M) (dm : D) : res vtree :=
  match c with
  | CLeaf _ l => Ok (VLeaf (lf_jact l m dm))
  | CMerged cs => rmap VNode (sequence (map (fun c => con_jact c m dm) cs))
  | CSeq _ => Err EAttr
  end.

(** jacobian_adjoint_action, hessian_action (88-102): [result *= 0; tmp = deepcopy(result); for i, c:
    c.action(.., dp[i], tmp); result += tmp].  A leaf overwrites its [result]; its [dp] is a leaf of
    the tree, a merged constraint's a node ([dp[i]]: IndexError if too short; other mismatches are
    type errors of the user's code). *)
Section Action.
Variable act : leaf -> list S -> W.
Fixpoint con_action (c : con) (dp : vtree) (result : W) : res W :=
  match c with
  | CLeaf _ l => match dp with VLeaf d => Ok (act l d) | VNode _ => Err EType end
  | CSeq _ => Err EAttr
  | CMerged cs =>
      (fix loop (cs : list con) (dps : list vtree) (tmp result : W) {struct cs} : res W :=
         match cs with
         | [] => Ok result
         | c :: cs' =>
             match dps with
             | [] => Err EIndex
             | d :: dps' => match con_action c d tmp with
                            | Err e => Err e
                            | Ok tmp' => loop cs' dps' tmp' (w_add result tmp')
                            end
             end
         end) cs (match dp with VNode l => l | VLeaf _ => [] end) (w_zero_mul result) (w_zero_mul result)
  end.
End Action.
Definition con_adj (c : con) (m : M) (dp : vtree) (result : W) : res W := con_action (fun l => lf_adj l m) c dp result.
Definition con_hess (c : con) (m : M) (dm : D) (dp : vtree) (result : W) : res W := con_action (fun l => lf_hess l m dm) c dp result.

(** isinstance filters (110-117) *)
Definition is_eq (c : con) : bool := match c with CLeaf IsEq _ => true | _ => false end.
Definition is_ineq (c : con) : bool := match c with CLeaf IsIneq _ => true | _ => false end.
Definition equality_constraints (cs : list con) : list con := filter is_eq cs.
Definition inequality_constraints (cs : list con) : list con := filter is_ineq cs.

(** _get_constraint_dim (48-54, 119-121) *)
Fixpoint con_dim (c : con) : res nat :=
  match c with
  | CLeaf _ l => Ok (lf_dim l)
  | CMerged cs => rmap (fold_right Nat.add 0) (sequence (map con_dim cs))
  | CSeq _ => Err EAttr
  end.

(** ** SciPy's constraint dictionaries (optimization.py 75-94)
    [fun] is a bound method of the constraint.  [jac] is a function defined in the loop: it reads the
    variable [c] of the enclosing call when it is called. *)
Inductive stype : Set := SIneq | SEq.
Record sdict : Type := SD {
  sd_type : stype;
  sd_fun : M -> res nd;
  sd_jac : option con -> M -> res jtree   (* given the current value of the variable [c] *)
}.
Definition jac_closure (c : option con) (x : M) : res jtree :=
  match c with Some c => con_jacobian c x | None => Err EKey (* NameError *) end.
Fixpoint scipy_loop (cs : list con) (c : option con) (acc : list sdict) : res (list sdict * option con) :=
  match cs with
  | [] => Ok (acc, c)
  | x :: r =>
      if is_ineq x then scipy_loop r (Some x) (acc ++ [SD SIneq (con_function x) jac_closure])
      else if is_eq x then scipy_loop r (Some x) (acc ++ [SD SEq (con_function x) jac_closure])
      else Err (EUser 0)   (* Exception("Unknown constraint class") *)
  end.
(** What SciPy finds when it calls the entries: the loop is over, [c] keeps its last value. *)
Definition scipy_constraints (c : option con) : res (list (stype * (M -> res nd) * (M -> res jtree))) :=
  match canonicalise c with
  | None => Err EType   (* iteration over None *)
  | Some cs => rmap (fun r => map (fun d => (sd_type d, sd_fun d, sd_jac d (snd r))) (fst r)) (scipy_loop cs None [])
  end.

(** ** IPOPT's constraint data (ipopt_solver.py 109-166) *)
Inductive ext : Type := MInf | Fin (x : S) | PInf | NaN.
Variable s_zero : S.
(** constraint_ub (156-160); Python returns None for other classes, which [sum] cannot add *)
Definition constraint_ub (c : con) : res (list ext) :=
  if is_eq c then rmap (repeat (Fin s_zero)) (con_dim c)
  else if is_ineq c then rmap (repeat PInf) (con_dim c)
  else Err EType.
(** number of constraints, lower and upper bounds, and the callback [fun_g] *)
Definition ipopt_constraints (c : option con) : res (nat * list ext * list ext * (M -> res nd)) :=
  match canonicalise c with
  | None => Ok (0, [], [], fun _ => Ok (ND [0] []))
  | Some cs =>
      do n <- con_dim (CMerged cs);
      do u <- sequence (map constraint_ub cs);
      Ok (n, repeat (Fin s_zero) n, concat u, fun x => do l <- merged_function cs x; np_stack l)
  end.
End Constraints.
Arguments Leaf {M D S W row}. Arguments CLeaf {M D S W row}. Arguments CMerged {M D S W row}. Arguments CSeq {M D S W row}.
Arguments lf_fun {M D S W row}. Arguments lf_jac {M D S W row}. Arguments lf_jact {M D S W row}.
Arguments lf_adj {M D S W row}. Arguments lf_hess {M D S W row}. Arguments lf_dim {M D S W row}.
Arguments canonicalise {M D S W row}. Arguments con_function {M D S W row}. Arguments merged_function {M D S W row}.
Arguments con_jacobian {M D S W row}. Arguments con_jact {M D S W row}. Arguments con_action {M D S W row}. Arguments con_adj {M D S W row}.
Arguments con_hess {M D S W row}. Arguments is_eq {M D S W row}. Arguments is_ineq {M D S W row}.
Arguments equality_constraints {M D S W row}. Arguments inequality_constraints {M D S W row}. Arguments con_dim {M D S W row}.
Arguments scipy_loop {M D S W row}. Arguments scipy_constraints {M D S W row}. Arguments ipopt_constraints {M D S W row}.
Arguments constraint_ub {M D S W row}. Arguments jac_closure {M D S W row}. Arguments SD {M D S W row}. Arguments sd_type {M D S W row}.
Arguments sd_fun {M D S W row}. Arguments sd_jac {M D S W row}.
Arguments ND {S}. Arguments nd_shape {S}. Arguments nd_data {S}. Arguments np_stack {S}. Arguments JRows {row}. Arguments JList {row}.
Arguments VLeaf {S}. Arguments VNode {S}. Arguments MInf {S}. Arguments Fin {S}. Arguments PInf {S}. Arguments NaN {S}.

(** * Bounds *)
Section Bounds.
Context {V S : Type}.

(** A bound as users give it.  [BNpInt]: an integer numpy scalar (not an instance of [int]);
    [BFloat]: a float, also an AdjFloat (a subclass of float); [BObj k v]: an instance of another
    overloaded class [k], neither a number nor, for [len], sized; [BRaw k l]: a sized, iterable, not overloaded object that
    create_overloaded_object turns into class [k] (a numpy array), [l] its entries;
    [BSeq]: a tuple or list; [BBad]: any other, not iterable object. *)
Inductive bnd : Type :=
| BNone | BInt (x : S) | BFloat (x : S) | BNpInt (x : S)
| BObj (k : nat) (v : V) | BRaw (k : nat) (l : list S) | BSeq (l : list bnd) | BBad.
Inductive pybounds : Type := PBNone | PBSeq (l : list bnd) | PBBad.

(** OptimizationProblem.enlist (68-90) *)
Definition plain_iterable (b : bnd) : bool := match b with BRaw _ _ | BSeq _ => true | _ => false end.
Definition enlist_bounds (b : pybounds) : res (option (list bnd)) :=
  match b with
  | PBNone => Ok None
  | PBBad => Err EType
  | PBSeq l => if (length l =? 2) && negb (existsb plain_iterable l) then Ok (Some [BSeq l]) else Ok (Some l)
  end.
(** __check_arguments (46-58): [len(bound)], then iteration over it *)
Definition bound_items (b : bnd) : res (list bnd) :=
  match b with
  | BSeq l => Ok l
  | BRaw _ l => Ok (map BFloat l)
  | _ => Err EType
  end.
Definition bound_allowed (klass : nat) (b : bnd) : bool :=
  match b with
  | BNone | BInt _ | BFloat _ => true
  | BObj k _ => k =? klass
  | BRaw k _ => k =? klass
  | BNpInt _ | BSeq _ | BBad => false
  end.
Fixpoint check_bounds (klasses : list nat) (l : list bnd) : option exn :=
  match klasses, l with
  | k :: ks, b :: r =>
      match bound_items b with
      | Err e => Some e
      | Ok items => if negb (length items =? 2) then Some EType
                    else if forallb (bound_allowed k) items then check_bounds ks r else Some EType
      end
  | _, _ => None
  end.
Definition problem_bounds (klasses : list nat) (b : pybounds) : res (option (list bnd)) :=
  match enlist_bounds b with
  | Err e => Err e
  | Ok None => Ok None
  | Ok (Some l) => if negb (length l =? length klasses) then Err EType
                   else match check_bounds klasses l with Some e => Err e | None => Ok (Some l) end
  end.

(** The controls as the serialisers see them: the overloaded type, and what [_ad_to_list] makes of a
    bare number or None ([AdjFloat._ad_to_list(x) = [x]]; other types are written for their own
    instances). *)
Record bctrl : Type := BC { bc_type : ctype V S; bc_isfloat : bool }.
Definition bare_list {A} (c : bctrl) (x : A) : res (list A) := if bc_isfloat c then Ok [x] else Err EAttr.
(** [obj_to_array] of a bound that is not an overloaded object goes through the FIRST control
    (reduced_functional_numpy.py 46-53: [i] counts the argument's own entries). *)
Definition first_ctrl (cs : list bctrl) : res bctrl := match cs with c :: _ => Ok c | [] => Err EIndex end.

(** ** serialise_bounds (optimization.py 8-36) *)
Definition is_int (b : bnd) : bool := match b with BInt _ => true | _ => false end.
Definition is_number (b : bnd) : bool := match b with BInt _ | BFloat _ => true | _ => false end.
(** entries of [np.array([[b] for b in bounds])] (12-13): integers become numpy integers, integers and
    floats numpy floats (which are floats); with any other entry the array has dtype object *)
Definition np_entries (l : list bnd) : list bnd :=
  if forallb is_int l then map (fun b => match b with BInt x => BNpInt x | b => b end) l
  else if forallb is_number l then map (fun b => match b with BInt x => BFloat x | b => b end) l
  else l.
(** None marks an absent bound, as SciPy expects *)
Definition serialise_one (cs : list bctrl) (j : nat) (b : bnd) : res (list (option S)) :=
  match b with
  | BNone => match nth_error cs j with Some c => Ok (repeat None (ct_size (bc_type c))) | None => Err EIndex end
  | BInt x | BFloat x => match nth_error cs j with Some c => Ok (repeat (Some x) (ct_size (bc_type c))) | None => Err EIndex end
  | BNpInt x => do c <- first_ctrl cs; rmap (map Some) (bare_list c x)
  | BObj _ v => match nth_error cs j with Some c => rmap (map Some) (ct_list (bc_type c) v) | None => Err EIndex end
  | _ => Err EType
  end.
Fixpoint serialise_row (cs : list bctrl) (j : nat) (l : list bnd) : res (list (option S)) :=
  match l with
  | [] => Ok []
  | b :: r => do x <- serialise_one cs j b; do y <- serialise_row cs (j + 1) r; Ok (x ++ y)
  end.
(** the argument: [lower, upper] or [[lower...], [upper...]] *)
Inductive sbounds : Type := SBFlat (l : list bnd) | SBNested (ls : list (list bnd)).
Definition serialise_bounds (cs : list bctrl) (b : sbounds) : res (list (option S * option S)) :=
  let rows := match b with SBFlat l => map (fun b => [b]) (np_entries l) | SBNested ls => ls end in
  match rows with
  | [lo; up] =>
      do l <- serialise_row cs 0 lo;
      do u <- serialise_row cs 0 up;
      if length l =? length u then Ok (combine l u) else Err EValue
  | _ => Err EValue
  end.

(** ** IPOPTSolver.__get_bounds (ipopt_solver.py 72-107)
    [max_float], [min_float]: numpy.finfo(double).  [numpy.array([None], dtype="d")] is nan. *)
Variables max_float min_float : S.
Definition ipopt_one (cs : list bctrl) (c : bctrl) (b : bnd) : res (list (ext S)) :=
  match b with
  | BInt x | BFloat x => Ok (repeat (Fin x) (ct_size (bc_type c)))
  | BObj _ v => rmap (map Fin) (ct_list (bc_type c) v)
  | BNone => do c0 <- first_ctrl cs; bare_list c0 NaN
  | BNpInt x => do c0 <- first_ctrl cs; bare_list c0 (Fin x)
  | _ => Err EValue
  end.
Fixpoint ipopt_loop (cs : list bctrl) (rest : list bctrl) (l : list bnd) : res (list (ext S) * list (ext S)) :=
  match rest, l with
  | c :: rest', b :: l' =>
      match b with
      | BSeq [lo; up] =>
          do x <- ipopt_one cs c lo; do y <- ipopt_one cs c up;
          do r <- ipopt_loop cs rest' l';
          Ok (x ++ fst r, y ++ snd r)
      | _ => Err EValue
      end
  | _, _ => Ok ([], [])
  end.
Definition total_size (cs : list bctrl) : nat := fold_right (fun c n => ct_size (bc_type c) + n) 0 cs.
Definition ipopt_bounds (cs : list bctrl) (b : option (list bnd)) : res (list (ext S) * list (ext S)) :=
  match b with
  | Some l => ipopt_loop cs cs l
  | None => Ok (repeat (Fin min_float) (total_size cs), repeat (Fin max_float) (total_size cs))
  end.

(** ** TAOSolver bounds (tao_solver.py 560-578 with to_petsc 107-126)
    None is replaced by the smallest/largest float, numbers fill the control's index range. *)
Definition tao_one (c : bctrl) (def : S) (b : bnd) : res (list S) :=
  match b with
  | BNone => Ok (repeat def (ct_size (bc_type c)))
  | BInt x | BFloat x | BNpInt x => Ok (repeat x (ct_size (bc_type c)))
  | BObj _ v => ct_list (bc_type c) v
  | _ => Err EType
  end.
Fixpoint tao_bounds (cs : list bctrl) (l : list bnd) : res (list S * list S) :=
  match cs, l with
  | c :: cs', b :: l' =>
      match b with
      | BSeq [lo; up] =>
          do x <- tao_one c min_float lo; do y <- tao_one c max_float up;
          do r <- tao_bounds cs' l';
          Ok (x ++ fst r, y ++ snd r)
      | _ => Err EValue
      end
  | _, _ => Ok ([], [])
  end.
End Bounds.
