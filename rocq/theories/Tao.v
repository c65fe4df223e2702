(** TAOObjective and TAOSolver: /repo/pyadjoint/optimization/tao_solver.py 326-417 and 433-656.
    No proofs here. *)
From Coq Require Import List Arith Bool.
From Verif Require Import Base Model Coll Opt Solvers.
Import ListNotations.

Section Tao.
Context {V S : Type} (F : fops V).
(** The scalars of a PETSc vector: what [Vec.axpy] and the comparison [!= 0.0] use. *)
Variables (sadd smul : S -> S -> S) (szero : S) (seqb : S -> S -> bool).

(** TAO is external: it calls back with vectors of its choice and sees what the callback wrote or raised.
    In [TObj], [TMult] and [TNorm] the last vector is the one to be filled, with its old contents.
    [TNorm]: GradientNorm.mult, and the initial inverse Hessian of LMVM and BLMVM, whose code is the same.
    [TDone]: the solution vector, and whether the reason for stopping is positive. *)
Inductive talgo : Type :=
| TDone (x : list S) (converged : bool)
| TRaise (e : exn)
| TObj (x g0 : list S) (k : res (V * list S) -> talgo)
| THess (x : list S) (k : res unit -> talgo)
| TShift (alpha : S) (k : talgo)
| TMult (x y0 : list S) (k : res (list S) -> talgo)
| TNorm (x y0 : list S) (k : res (list S) -> talgo).

Section Run.
Variable (shares : bool) (bs : list (block V)) (rf : rfun V).
(** [cs]: conversions of the controls' types ([ct_list] is [_ad_to_petsc], [ct_make] is [_ad_from_petsc] into a copy);
    [cur]: the control objects; [bvs]: their block variables now; [riesz]: [Control._ad_convert_type] with the
    solver's options. *)
Variables (cs : list (ctype V S)) (cur : list V) (bvs : list nat) (riesz : list (V -> V)).
Definition tsizes : list nat := map (@ct_size V S) cs.

(** new_control_variable (382-393), then from_petsc (82-97) *)
Fixpoint make_all (ts : list (ctype V S)) (l : list (list S)) : res (list V) :=
  match ts, l with
  | c :: ts', d :: l' => do v <- ct_make c d; do vs <- make_all ts' l'; Ok (v :: vs)
  | _, _ => Ok []
  end.
Definition read_vec (y : list S) (objs : list V) : res (list V) :=
  do m <- copies cs objs; do l <- from_petsc tsizes y (length m); make_all cs l.
(** to_petsc (99-126) of adjoint or Hessian values; None is of no accepted type.  A conversion that raises is
    taken to raise before anything is written (nobody looks at the vector after an exception). *)
Fixpoint pvals (ts : list (ctype V S)) (l : list (option V)) : res (list (pval S)) :=
  match ts, l with
  | c :: ts', Some v :: l' => do d <- ct_list c v; do r <- pvals ts' l'; Ok (PObj d :: r)
  | _ :: ts', None :: l' => do r <- pvals ts' l'; Ok (POther :: r)
  | [], o :: l' => do r <- pvals [] l'; Ok (POther :: r)
  | _, [] => Ok []
  end.
Definition write_vec (x : list S) (l : list (option V)) : list S * option exn :=
  match pvals cs l with Err e => (x, Some e) | Ok ps => to_petsc shares tsizes x ps end.

(** TAOObjective.objective_gradient (344-361): the derivative is not what [rf.derivative()] returned but
    the [adj_value] of the control object's current block variable. *)
Definition objective_gradient (m : list V) (h : heap V) : heap V * res (V * list (option V)) :=
  match copies cs m with Err e => (h, Err e) | Ok m =>
  match rf_call F bs rf m h with
  | (h1, Err e) => (h1, Err e)
  | (h1, Ok y) =>
      match rf_derivative F bs rf (f_one F) h1 with
      | (h2, Err e) => (h2, Err e)
      | (h2, Ok _) => (h2, Ok (y, map (fun c => bv_adj (h2 c)) bvs))
      end
  end end.
(** TAOObjective.hessian (363-380) *)
Definition objective_hessian (m m_dot : list V) (h : heap V) : heap V * res (list (option V)) :=
  match copies cs m with Err e => (h, Err e) | Ok m =>
  match rf_call F bs rf m h with
  | (h1, Err e) => (h1, Err e)
  | (h1, Ok _) =>
      match rf_derivative F bs rf (f_one F) h1 with
      | (h2, Err e) => (h2, Err e)
      | (h2, Ok _) =>
          match copies cs m_dot with
          | Err e => (h2, Err e)
          | Ok d => match rf_hessian F bs rf d h2 with
                    | (h3, Err e) => (h3, Err e)
                    | (h3, Ok _) => (h3, Ok (map (fun c => bv_hess (h3 c)) bvs))
                    end
          end
      end
  end end.
(** new_dual_control_variable (395-417) *)
Fixpoint new_dual (l : list nat) (h : heap V) : res (list V) :=
  match l with
  | [] => Ok []
  | c :: r => do v <- match bv_adj (h c), bv_hess (h c) with Some x, _ => Ok x | None, Some x => Ok x | None, None => Err ERuntime end;
              do vs <- new_dual r h; Ok (v :: vs)
  end.

(** The Hessian matrix context (501-530): its point [_m] (a cached property, so first the control objects) and its shift *)
Record tstate : Type := TS { ts_m : option (list V); ts_shift : S; ts_h : heap V }.
Definition hess_point (s : tstate) : res (list V) := match ts_m s with Some m => Ok m | None => copies cs cur end.
Definition axpy (a : S) (x y : list S) : list S := map (fun xy => sadd (snd xy) (smul a (fst xy))) (combine x y).

Definition cb_objective (x g0 : list S) (h : heap V) : heap V * res (V * list S) :=
  match read_vec x cur with
  | Err e => (h, Err e)
  | Ok m => match objective_gradient m h with
            | (h1, Err e) => (h1, Err e)
            | (h1, Ok (y, dJ)) => match write_vec g0 dJ with (_, Some e) => (h1, Err e) | (g, None) => (h1, Ok (y, g)) end
            end
  end.
Definition cb_mult (x y0 : list S) (s : tstate) : tstate * res (list S) :=
  match read_vec x cur, hess_point s with
  | Err e, _ => (s, Err e)
  | Ok _, Err e => (s, Err e)
  | Ok d, Ok m =>
      match objective_hessian m d (ts_h s) with
      | (h1, Err e) => (TS (Some m) (ts_shift s) h1, Err e)
      | (h1, Ok ddJ) =>
          (TS (Some m) (ts_shift s) h1,
           match write_vec y0 ddJ with
           | (_, Some e) => Err e
           | (y, None) => Ok (if seqb (ts_shift s) szero then y else axpy (ts_shift s) x y)
           end)
      end
  end.
(** GradientNorm.mult (540-546), InitialHessianPreconditioner.apply (591-597) *)
Definition cb_norm (x y0 : list S) (h : heap V) : res (list S) :=
  do d0 <- new_dual bvs h;
  do d <- read_vec x d0;
  if negb (length d =? length riesz) then Err EAssert
  else match write_vec y0 (map (fun fv => Some (fst fv (snd fv))) (combine riesz d)) with (_, Some e) => Err e | (y, None) => Ok y end.

Fixpoint run_tao (a : talgo) (s : tstate) : tstate * res (list S * bool) :=
  match a with
  | TDone x c => (s, Ok (x, c))
  | TRaise e => (s, Err e)
  | TObj x g0 k => let '(h1, r) := cb_objective x g0 (ts_h s) in run_tao (k r) (TS (ts_m s) (ts_shift s) h1)
  | THess x k =>                                           (* 497-498, 514-516 *)
      match (do m <- hess_point s; read_vec x m) with
      | Err e => run_tao (k (Err e)) s
      | Ok m => run_tao (k (Ok tt)) (TS (Some m) szero (ts_h s))
      end
  | TShift al k => run_tao k (TS (ts_m s) (sadd (ts_shift s) al) (ts_h s))
  | TMult x y0 k => let '(s1, r) := cb_mult x y0 s in run_tao (k r) s1
  | TNorm x y0 k => run_tao (k (cb_norm x y0 (ts_h s))) s
  end.
End Run.

(** TAOConvergenceError (420-422) *)
Definition ETao : exn := EUser 7.

(** TAOSolver(problem, ...) (446-617) followed by solve() (635-656), on a problem without constraints.  [lim]: smallest and
    largest float; [x_old]: old contents of the solution vector; [alg] sees the initial vector and the bounds;
    [is_list]: whether the controls were given as a list. *)
Definition tao_solve (shares : bool) (bs : list (block V)) (rf : rfun V) (bcs : list (@bctrl V S)) (cur : list V) (bvs : list nat)
  (riesz : list (V -> V)) (lim : S * S) (bounds : option (list (@bnd V S))) (is_list : bool) (x_old : list S)
  (alg : list S -> option (list S * list S) -> talgo) (h : heap V) : heap V * res (pyval V) :=
  let cs := map bc_type bcs in
  (* PETScVecInterface (38-58) converts every control object *)
  match (do _ <- get_global cs cur;
         do b <- match bounds with
                 | None => Ok None
                 | Some l => if negb (length l =? length bcs) then Err EAssert
                             else rmap Some (tao_bounds (snd lim) (fst lim) bcs l)
                 end;
         do m <- copies cs (map (saved h) (rf_ctrls rf)); Ok (b, m)) with
  | Err e => (h, Err e)
  | Ok (b, m) =>
      match write_vec shares cs x_old (map Some m) with
      | (_, Some e) => (h, Err e)
      | (x0, None) =>
          match run_tao shares bs rf cs cur bvs riesz (alg x0 b) (TS None szero h) with
          | (s, Err e) => (ts_h s, Err e)
          | (s, Ok (x, converged)) =>
              (ts_h s, do m' <- read_vec cs x m;
                       if converged then match m', is_list with [v], false => Ok (POne v) | _, _ => Ok (PList m') end else Err ETao)
          end
      end
  end.
End Tao.
Arguments talgo V S : clear implicits.
Arguments tstate V S : clear implicits.
