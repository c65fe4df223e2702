(** Property theorems about IPOPTSolver (C57). *)
From Coq Require Import List Arith ZArith Bool Lia Reals Lra.
From Coq Require String.
Import String.StringSyntax.
From Coquelicot Require Import Coquelicot.
From Verif Require Import Base Model BaseFacts Graph Record Spec RecordFacts Replay ReplayExec History Session Sweep SpecGraph Marks Instances Coll Opt SpecOpt OptFacts
  Solvers SpecSolvers SolverFacts Dual TlmSweep RealInst Calculus Gradient Minimise SpecMinimise MinimiseFacts Ipopt SpecIpopt IpoptFacts.
Import ListNotations.
Local Open Scope string_scope.
Open Scope nat_scope.

(** C57, the part that holds: IPOPT asks for gradients only at the point it evaluated last.  Then it starts at the controls' tape
    values, gets [scale * J] of the re-run program and the derivative [rf] gives after an evaluation there, and what it ends with
    is returned; exceptions of callbacks come out.
    Missing: other orders of questions, absent bounds, a scaling among the parameters (refuted below). *)
Theorem C57_ipopt_partial : forall (V S P : Type) (F : fops V) (six minus_one : P) (ann : bool) (p : list (stmt V)) (j : nat) (l : list (api V)) (s : V)
  (bcs : list (@bctrl V S)) (ks : list (ctl V S)) (cur : list V) (lim : S * S) (bounds : option (list (@bnd V S))) (maxim : bool)
  (params : option (list (String.string * P))) (is_list : bool) (alg : list S -> list (ext S) * list (ext S) -> (String.string -> option P) -> algo V S)
  (x0 : list S) (b : list (ext S) * list (ext S)) (r : res (list S)),
  consistent p -> disciplined ann p = true -> j < length (w_objs (exec F (world_new F ann) p)) ->
  let w := fst (recorded F ann p j) in
  let bs := t_flat (w_tape w) in
  let J := snd (recorded F ann p j) in
  let rf := RF J (w_ctrls w) s in
  let h0 := run_hist F bs (w_heap w) l in
  closed (w_ctrls w) bs -> on_tape bs (w_ctrls w) -> In J (vars_of bs) -> calls_controls w l -> (forall v, bv_mark (h0 v) = false) ->
  List.Forall law ks -> map bc_type bcs = types ks -> length ks = length (w_ctrls w) -> Forall2 (fun k v => k_ok k v) ks cur ->
  packed ks (map (saved h0) (w_ctrls w)) x0 -> ipopt_bounds (snd lim) (fst lim) bcs bounds = Ok b ->
  plays ks (fun x => rmap (fun y => f_mul F y s) (spec_rerun F ann p x j)) (fun x g => der_at F (w_tape w) rf h0 x = Ok g) (fun _ _ _ => False) true false None
    (alg x0 b (option_value (add_options six minus_one maxim params))) r ->
  returned ks is_list r (snd (ipopt_solve F six minus_one bs rf bcs cur lim bounds maxim params is_list alg h0)).
Proof. exact (@ipopt_recorded). Qed.
Print Assumptions C57_ipopt_partial.

(** C57 over the reals: the gradients are those of the function [scale * J], under the conditions of C05 on the points. *)
Theorem C57_exact_partial : forall (S P : Type) (six minus_one : P) (ann : bool) (p : list (stmt R)) (j : nat) (l : list (api R)) (s : R)
  (bcs : list (@bctrl R S)) (ks : list (ctl R S)) (cur : list R) (lim : S * S) (bounds : option (list (@bnd R S))) (maxim : bool)
  (params : option (list (String.string * P))) (is_list : bool) (alg : list S -> list (ext S) * list (ext S) -> (String.string -> option P) -> algo R S)
  (x0 : list S) (b : list (ext S) * list (ext S)) (r : res (list S)),
  consistent p -> disciplined ann p = true -> j < length (w_objs (exec RO (world_new RO ann) p)) ->
  let w := fst (recorded RO ann p j) in
  let bs := t_flat (w_tape w) in
  let J := snd (recorded RO ann p j) in
  let rf := RF J (w_ctrls w) s in
  let h0 := run_hist RO bs (w_heap w) l in
  closed (w_ctrls w) bs -> on_tape bs (w_ctrls w) -> In J (vars_of bs) -> NoDup (w_ctrls w) -> w_ctrls w <> [] -> independent bs (w_ctrls w) ->
  calls_controls w l -> (forall v, bv_mark (h0 v) = false) ->
  List.Forall law ks -> map bc_type bcs = types ks -> length ks = length (w_ctrls w) -> Forall2 (fun k v => k_ok k v) ks cur ->
  packed ks (map (saved h0) (w_ctrls w)) x0 -> ipopt_bounds (snd lim) (fst lim) bcs bounds = Ok b ->
  (forall x, length x = length (w_ctrls w) -> is_ok (spec_rerun RO ann p x j) = true ->
     let e := saved (fst (rf_call RO bs rf x h0)) in smooth_at bs (w_ctrls w) e /\ adjoints_right bs (w_ctrls w) e /\ adjoints_run bs (w_ctrls w) e) ->
  plays ks (objective (fun x => spec_rerun RO ann p x j) s) (gradient_at (fun x => spec_rerun RO ann p x j) s) (fun _ _ _ => False) true false None
    (alg x0 b (option_value (add_options six minus_one maxim params))) r ->
  returned ks is_list r (snd (ipopt_solve RO six minus_one bs rf bcs cur lim bounds maxim params is_list alg h0)).
Proof. exact ipopt_exact. Qed.
Print Assumptions C57_exact_partial.

(** C57, options: IPOPT uses for [m] the last parameter that means [m]; without one, print_level is 6 and obj_scaling_factor is -1
    for a MaximizationProblem. *)
Theorem C57_options : forall (P : Type) (six minus_one : P) (maxim : bool) (params : list (String.string * P)) (m : String.string),
  let used := option_value (add_options six minus_one maxim (Some params)) m in
  (forall n v l1 l2, params = l1 ++ (n, v) :: l2 -> renamed n m -> (forall n' v', In (n', v') l2 -> ~ renamed n' m) -> used = Some v) /\
  ((forall n v, In (n, v) params -> ~ renamed n m) ->
   used = if String.eqb m "print_level" then Some six else if String.eqb m "obj_scaling_factor" && maxim then Some minus_one else None).
Proof. exact (@options_spec). Qed.
Print Assumptions C57_options.

(** [x = 3; y = x*x; J = y*x], scale 2 *)
Definition ip_prog : list (stmt Z) := [SNew 3%Z; SControl 0; SOp KMul [0; 0]; SOp KMul [1; 0]].
Definition ip_w := fst (recorded ZF true ip_prog 2).
Definition ip_bs := t_flat (w_tape ip_w).
Definition ip_rf : rfun Z := RF 2 [0] 2%Z.
Definition ip_k : ctl Z Z := Ctl adjfloat (fun _ => True) (fun v => [v]).
Definition ip_solve bounds maxim params il alg :=
  ipopt_solve ZF 6%Z (-1)%Z ip_bs ip_rf [BC adjfloat true] [3%Z] (-100, 100)%Z bounds maxim params il alg (w_heap ip_w).
(** one step along the gradient of the scaled objective, inside the bounds *)
Definition ip_step (x0 : list Z) (b : list (ext Z) * list (ext Z)) (o : String.string -> option Z) : algo Z Z :=
  let f := match o "obj_scaling_factor" with Some f => f | None => 1%Z end in
  let n := match o "max_iter" with Some n => n | None => 1%Z end in
  AJ x0 (fun v => match v with Err e => ARaise e | Ok _ =>
  AD x0 (fun g => match g with Err e => ARaise e | Ok g =>
  let x := (hd 0 x0 - n * f * hd 0 g)%Z in
  ARet [match b with ([Fin lo], [Fin up]) => Z.min up (Z.max lo x) | _ => x end] end) end).
Example C57_demo :
  w_ctrls ip_w = [0] /\ closed [0] ip_bs /\ on_tape ip_bs [0] /\ mem 2 (vars_of ip_bs) = true /\ law ip_k /\
  plays [ip_k] (fun x => rmap (fun y => (y * 2)%Z) (spec_rerun ZF true ip_prog x 2))
    (fun x g => der_at ZF (w_tape ip_w) ip_rf (w_heap ip_w) x = Ok g) (fun _ _ _ => False) true false None
    (ip_step [3%Z] ([Fin (-100)%Z], [Fin 100%Z]) (option_value (add_options 6%Z (-1)%Z true (Some [("maximum_iterations", 1%Z)])))) (Ok [57%Z]) /\
  snd (ip_solve None true (Some [("maximum_iterations", 1%Z)]) false ip_step) = Ok (POne 57%Z) /\
  snd (ip_solve None false (Some [("maximum_iterations", 1%Z)]) false ip_step) = Ok (POne (-51)%Z) /\
  snd (ip_solve (Some [BSeq [BInt 0%Z; BInt 9%Z]]) false None true ip_step) = Ok (PList [0%Z]) /\
  snd (ip_solve None false (Some [("tol", 5%Z); ("maximum_iterations", 0%Z)]) false ip_step) = Ok (POne 3%Z).
Proof.
  assert (Eb : ip_bs = [Blk KMul [0; 0] [1] None; Blk KMul [1; 0] [2] None]) by (vm_compute; reflexivity).
  split; [vm_compute; reflexivity|]. split.
  { rewrite Eb. intros b o Hb Ho [<-|[]]. exfalso. destruct Hb as [<-|[<-|[]]]; destruct Ho as [Ho|[]]; discriminate Ho. }
  split; [apply on_tape_check; rewrite Eb; reflexivity|]. split; [vm_compute; reflexivity|]. split; [exact (adjfloat_lawful Z)|]. split; [|vm_conj].
  assert (P : forall v, packed [ip_k] [v] [v]) by (intros v; exact (packed_cons ip_k [] v [] [] I (packed_nil))).
  assert (E1 : spec_rerun ZF true ip_prog [3%Z] 2 = Ok 27%Z) by (vm_compute; reflexivity).
  assert (E2 : der_at ZF (w_tape ip_w) ip_rf (w_heap ip_w) [3%Z] = Ok [54%Z]) by (vm_compute; reflexivity).
  unfold ip_step. apply (pl_value _ _ _ _ _ _ _ [3%Z] [3%Z]); [apply P|]. rewrite E1. cbn [rmap bind].
  apply (pl_gradient _ _ _ _ _ _ [3%Z] [3%Z] [54%Z] [54%Z]); [reflexivity | apply P | exact E2 | apply P |].
  apply pl_ret. reflexivity.
Qed.

(** The full statement is false.
    (1) A gradient is that of the point evaluated last (54 at 3), whatever point IPOPT asks about (6 at 1).
    (2) A parameter obj_scaling_factor replaces the -1 of a MaximizationProblem: IPOPT minimises.
    (3) An absent bound of a float control reaches IPOPT as nan; here the bound 9 is lost with it. *)
Definition ip_astray (_ : list Z) (_ : list (ext Z) * list (ext Z)) (_ : String.string -> option Z) : algo Z Z :=
  AJ [3%Z] (fun v => match v with Err e => ARaise e | Ok _ => AD [1%Z] (fun g => match g with Err e => ARaise e | Ok g => ARet g end) end).
Theorem C57_refuted :
  (der_at ZF (w_tape ip_w) ip_rf (w_heap ip_w) [1%Z] = Ok [6%Z] /\ snd (ip_solve None false None false ip_astray) = Ok (POne 54%Z)) /\
  snd (ip_solve None true (Some [("obj_scaling_factor", 1%Z)]) false ip_step) = snd (ip_solve None false None false ip_step) /\
  (ipopt_bounds 100%Z (-100)%Z [@BC Z Z adjfloat true] (Some [BSeq [BNone; BInt 9%Z]]) = Ok ([NaN], [Fin 9%Z]) /\
   snd (ip_solve (Some [BSeq [BInt 0%Z; BInt 9%Z]]) true None false ip_step) = Ok (POne 9%Z) /\
   snd (ip_solve (Some [BSeq [BNone; BInt 9%Z]]) true None false ip_step) = Ok (POne 57%Z)).
Proof. vm_conj. Qed.
Print Assumptions C57_refuted.
