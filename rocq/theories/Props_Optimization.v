(** Property theorems: the NumPy view, constraints, bounds and optimisation packages (C31-C38). *)
From Coq Require Import String List Arith ZArith Bool Permutation.
From Verif Require Import Base Model BaseFacts Graph Record History Session Marks Surgery Opt SpecOpt OptFacts Solvers SpecSolvers SolverFacts Instances.
Import ListNotations.

(** ** C31.  [law k]: the overloaded type of the control keeps its documented contract (SpecOpt.v);
    AdjFloat does ([C31_adjfloat]).  [packed ks vs arr]: [arr] holds the components of [vs], one control
    after the other. *)
Theorem C31_call : forall (V S : Type) (F : fops V) (bs : list (block V)) (rf : rfun V) (ks : list (ctl V S))
    (cur vs : list V) (arr extra : list S) (h : heap V),
  List.Forall law ks -> Forall2 (fun k v => k_ok k v) ks cur -> packed ks vs arr ->
  np_call F bs rf (types ks) cur (arr ++ extra) h = rf_call F bs rf vs h.
Proof. exact (@np_call_extra). Qed.
Print Assumptions C31_call.
(** every array of the right size is the packing of exactly one list of values *)
Theorem C31_every_array : forall (V S : Type) (ks : list (ctl V S)) (arr : list S),
  List.Forall law ks -> length arr = total ks -> exists vs, packed ks vs arr.
Proof. exact (@packed_exists). Qed.
Print Assumptions C31_every_array.
Theorem C31_one_list : forall (V S : Type) (ks : list (ctl V S)) (vs : list V) (arr : list S),
  List.Forall law ks -> packed ks vs arr -> forall vs', packed ks vs' arr -> vs' = vs.
Proof. exact (@packed_unique). Qed.
Print Assumptions C31_one_list.
(** get_global and set_local are inverse to each other *)
Theorem C31_get : forall (V S : Type) (ks : list (ctl V S)) (vs : list V) (arr : list S),
  List.Forall law ks -> packed ks vs arr -> get_global (types ks) vs = Ok arr.
Proof. exact (@get_global_packed). Qed.
Print Assumptions C31_get.
Theorem C31_set : forall (V S : Type) (ks : list (ctl V S)) (vs : list V) (arr suf : list S) (m : list V),
  List.Forall law ks -> packed ks vs arr -> length m = length ks -> set_local (types ks) m (arr ++ suf) = Ok vs.
Proof. exact (@set_local_packed). Qed.
Print Assumptions C31_set.
(** control [i] owns the [size] entries from [offset i] on; the ranges are consecutive *)
Theorem C31_segments : forall (V S : Type) (ks : list (ctl V S)) (vs : list V) (arr : list S),
  List.Forall law ks -> packed ks vs arr -> forall i k v, nth_error ks i = Some k -> nth_error vs i = Some v ->
  firstn (ct_size (k_type k)) (skipn (offset ks i) arr) = k_comp k v /\ k_ok k v.
Proof. exact (@packed_split). Qed.
Print Assumptions C31_segments.
Theorem C31_consecutive : forall (V S : Type) (ks : list (ctl V S)) (i : nat) (k : ctl V S),
  nth_error ks i = Some k -> offset ks (Datatypes.S i) = offset ks i + ct_size (k_type k).
Proof. exact (@offsets_increase). Qed.
Print Assumptions C31_consecutive.
(** an array that is too short raises and leaves the tape alone *)
Theorem C31_short : forall (V S : Type) (F : fops V) (bs : list (block V)) (rf : rfun V) (ks : list (ctl V S)) (cur : list V)
    (arr : list S) (h : heap V),
  List.Forall law ks -> Forall2 (fun k v => k_ok k v) ks cur -> length arr < total ks ->
  exists e, np_call F bs rf (types ks) cur arr h = (h, Err e).
Proof. exact (@np_call_short). Qed.
Print Assumptions C31_short.
(** the derivative array has the derivatives of the functional, packed in the same way *)
Theorem C31_derivative : forall (V S : Type) (F : fops V) (bs : list (block V)) (rf : rfun V) (ks : list (ctl V S)) (h : heap V)
    (g : list V) (arr : list S),
  List.Forall law ks -> snd (rf_derivative F bs rf (f_one F) h) = Ok g -> packed ks g arr ->
  np_derivative F bs rf (types ks) h = (fst (rf_derivative F bs rf (f_one F) h), Ok arr).
Proof. exact (@np_derivative_packed). Qed.
Print Assumptions C31_derivative.
(** set_controls then get_controls gives the array back; no other variable changes *)
Theorem C31_controls : forall (V S : Type) (rf : rfun V) (ks : list (ctl V S)) (h : heap V) (arr : list S),
  (forall v, bv_ctrl (h v) = false) -> NoDup (rf_ctrls rf) -> length ks = length (rf_ctrls rf) -> List.Forall law ks ->
  length arr = total ks ->
  exists vs, packed ks vs arr /\ np_set_controls rf (types ks) arr h = (update_controls h (rf_ctrls rf) vs, Ok vs) /\
    np_get_controls rf (types ks) (update_controls h (rf_ctrls rf) vs) = Ok arr /\
    (forall v, ~ In v (rf_ctrls rf) -> saved (update_controls h (rf_ctrls rf) vs) v = saved h v).
Proof. exact (@np_set_get_controls). Qed.
Print Assumptions C31_controls.
Theorem C31_adjfloat : forall V : Type, lawful (@adjfloat V) (fun _ : V => True) (fun v => [v]).
Proof. exact adjfloat_lawful. Qed.
Print Assumptions C31_adjfloat.

(** [x = 2; y = 5; J = x*y*x] as seen by the examples *)
Definition np_prog : list (stmt Z) := [SNew 2%Z; SNew 5%Z; SControl 0; SControl 1; SOp KMul [0; 1]; SOp KMul [2; 0]].
Definition np_w := fst (recorded ZF true np_prog 3).
Definition np_J := snd (recorded ZF true np_prog 3).
Definition np_rf : rfun Z := RF np_J [0; 1] 1%Z.
Definition np_k : ctl Z Z := Ctl adjfloat (fun _ => True) (fun v => [v]).
(** a control with three scalars: an integer triple coded in one value of the model *)
Definition vec3 : ctype (list Z) Z :=
  CT 3 (fun v => Ok v) (fun l => if length l =? 3 then Ok l else Err EValue) (fun v => Ok v).
Definition np_vec : ctl (list Z) Z := Ctl vec3 (fun v => length v = 3) (fun v => v).
Definition np_flt : ctl (list Z) Z :=
  Ctl (CT 1 (fun v => Ok v) (fun l => match l with [x] => Ok [x] | _ => Err EType end) (fun v => Ok v)) (fun v => length v = 1) (fun v => v).
Example C31_demo :
  law np_vec /\ law np_flt /\ law np_k /\
  packed [np_flt; np_vec; np_flt] [[7]; [1; 2; 3]; [9]]%Z [7; 1; 2; 3; 9]%Z /\
  set_local (types [np_flt; np_vec; np_flt]) [[0]; [0; 0; 0]; [0]]%Z [7; 1; 2; 3; 9]%Z = Ok [[7]; [1; 2; 3]; [9]]%Z /\
  np_call ZF (t_flat (w_tape np_w)) np_rf (types [np_k; np_k]) [2; 5]%Z [3; 4]%Z (w_heap np_w) =
    rf_call ZF (t_flat (w_tape np_w)) np_rf [3; 4]%Z (w_heap np_w) /\
  snd (np_call ZF (t_flat (w_tape np_w)) np_rf (types [np_k; np_k]) [2; 5]%Z [3; 4]%Z (w_heap np_w)) = Ok 36%Z /\
  snd (np_derivative ZF (t_flat (w_tape np_w)) np_rf (types [np_k; np_k]) (w_heap np_w)) = Ok [20; 4]%Z.
Proof.
  assert (L3 : law np_vec).
  { split; [|split]; cbn.
    - intros v Hv. rewrite Hv. auto.
    - intros l Hl. exists l. auto.
    - intros l Hl. destruct (Nat.eqb_spec (length l) 3) as [E|E]; [rewrite E in Hl; exfalso; revert Hl; apply Nat.lt_irrefl | eauto]. }
  assert (L1 : law np_flt).
  { split; [|split]; cbn.
    - intros [|x [|y v]] Hv; try discriminate. auto.
    - intros l Hl. exists l. auto.
    - intros [|x l] Hl; [eauto|]. cbn in Hl. apply Nat.succ_lt_mono in Hl. inversion Hl. }
  assert (Lk : law np_k) by exact (C31_adjfloat Z).
  split; [exact L3|]. split; [exact L1|]. split; [exact Lk|]. split.
  { apply (packed_cons np_flt [np_vec; np_flt] [7%Z] [[1; 2; 3]; [9]]%Z [1; 2; 3; 9]%Z eq_refl).
    apply (packed_cons np_vec [np_flt] [1; 2; 3]%Z [[9%Z]] [9%Z] eq_refl). apply (packed_cons np_flt [] [9%Z] [] [] eq_refl). constructor. }
  split; [reflexivity|]. split; [|split; vm_compute; reflexivity].
  rewrite <- (app_nil_r [3; 4]%Z) at 1. apply C31_call.
  - repeat (constructor; [exact Lk|]). constructor.
  - repeat (constructor; [exact I|]). constructor.
  - apply (packed_cons np_k [np_k] 3%Z [4%Z] [4%Z] I). apply (packed_cons np_k [] 4%Z [] [] I). constructor.
Qed.
(** The full statement is false: arrays of numpy_adjoint, pyadjoint's own vector type, do not implement
    the interface; every call, derivative and get_global with one of them among the controls raises. *)
Theorem C31_refuted : exists (bs : list (block Z)) (rf : rfun Z) (h : heap Z) (v x : Z),
  snd (rf_call ZF bs rf [x] h) = Ok (x * x)%Z /\ snd (rf_derivative ZF bs rf 1%Z h) = Ok [(2 * v)%Z] /\
  np_call ZF bs rf [ndarray 1] [v] [x] h = (h, Err ENotImpl) /\
  snd (np_derivative ZF bs rf [ndarray (S := Z) 1] h) = Err ENotImpl /\
  get_global [ndarray (S := Z) 1] [v] = Err ENotImpl.
Proof.
  exists (t_flat (w_tape (fst (recorded ZF true [SNew 3%Z; SControl 0; SOp KMul [0; 0]] 1)))),
    (RF (snd (recorded ZF true [SNew 3%Z; SControl 0; SOp KMul [0; 0]] 1)) [0] 1%Z),
    (w_heap (fst (recorded ZF true [SNew 3%Z; SControl 0; SOp KMul [0; 0]] 1))), 3%Z, 4%Z.
  split; [vm_compute; reflexivity|]. split; [vm_compute; reflexivity|]. split; [reflexivity|]. split; vm_compute; reflexivity.
Qed.
Print Assumptions C31_refuted.

(** ** C32.  [leaves c]: the user's constraints in [c], left to right. *)
(** function: the values of the constraints one after the other *)
Theorem C32_function : forall (M D S W row : Type) (c : con M D S W row) (m : M) (a : nd S),
  con_function c m = Ok a -> nd_data a = flat_map (fun p => lf_fun (snd p) m) (leaves c).
Proof. exact (@con_function_data). Qed.
Print Assumptions C32_function.
Theorem C32_merged_function : forall (M D S W row : Type) (cs : list (con M D S W row)) (m : M) (l : list (nd S)),
  merged_function cs m = Ok l ->
  length l = length cs /\ flat_map nd_data l = flat_map (fun p => lf_fun (snd p) m) (flat_map leaves cs).
Proof. exact (@merged_function_data). Qed.
Print Assumptions C32_merged_function.
(** a list of constraints, nothing nested: never raises *)
Theorem C32_flat_function : forall (M D S W row : Type) (ls : list (cls * leaf M D S W row)) (m : M),
  merged_function (map (fun p => CLeaf (fst p) (snd p)) ls) m =
  Ok (map (fun p => ND [length (lf_fun (snd p) m)] (lf_fun (snd p) m)) ls).
Proof. exact (@merged_function_flat). Qed.
Print Assumptions C32_flat_function.
(** jacobian and jacobian_action, with merged constraints nested to any depth *)
Theorem C32_jacobian : forall (M D S W row : Type) (c : con M D S W row) (m : M) (j : jtree row),
  con_jacobian c m = Ok j -> rows j = flat_map (fun p => lf_jac (snd p) m) (leaves c).
Proof. exact (@con_jacobian_rows). Qed.
Print Assumptions C32_jacobian.
Theorem C32_jacobian_action : forall (M D S W row : Type) (c : con M D S W row) (m : M) (dm : D) (t : vtree S),
  con_jact c m dm = Ok t -> comps t = flat_map (fun p => lf_jact (snd p) m dm) (leaves c).
Proof. exact (@con_jact_comps). Qed.
Print Assumptions C32_jacobian_action.
Theorem C32_no_exception : forall (M D S W row : Type) (c : con M D S W row) (m : M) (dm : D), no_seq c ->
  (exists j, con_jacobian c m = Ok j) /\ (exists t, con_jact c m dm = Ok t).
Proof. exact (@no_seq_ok). Qed.
Print Assumptions C32_no_exception.
(** jacobian_adjoint_action ([act = lf_adj]) and hessian_action ([act = lf_hess]): the sum over the
    constraints, whatever [result] held before *)
Theorem C32_actions : forall (M D S W row : Type) (wz : W -> W) (wa : W -> W -> W) (zero : W),
  (forall w, wz w = zero) -> (forall w, wa zero w = w) -> (forall x y z, wa x (wa y z) = wa (wa x y) z) ->
  forall (act : leaf M D S W row -> list S -> W), (forall w, wa w zero = w) ->
  forall (c : con M D S W row) (dp : vtree S) (ps : list (leaf M D S W row * list S)) (result : W), pieces c dp ps ->
  con_action wz wa act c dp result = Ok (fold_right (fun p r => wa (act (fst p) (snd p)) r) zero ps).
Proof. exact (@con_action_sum). Qed.
Print Assumptions C32_actions.
(** lengths *)
Theorem C32_dimension : forall (M D S W row : Type) (c : con M D S W row), no_seq c ->
  con_dim c = Ok (fold_right Nat.add 0 (map (fun p => lf_dim (snd p)) (leaves c))).
Proof. exact (@con_dim_sum). Qed.
Print Assumptions C32_dimension.
Theorem C32_lengths : forall (M D S W row : Type) (ls : list (cls * leaf M D S W row)) (m : M),
  List.Forall (fun p => dim_ok (snd p)) ls ->
  length (flat_map (fun p => lf_fun (snd p) m) ls) = fold_right Nat.add 0 (map (fun p => lf_dim (snd p)) ls).
Proof. exact (@sum_dims). Qed.
Print Assumptions C32_lengths.
(** the split keeps every constraint once, in order *)
Theorem C32_split : forall (M D S W row : Type) (cs : list (con M D S W row)), List.Forall plain cs ->
  interleaving cs (equality_constraints cs) (inequality_constraints cs).
Proof. exact (@split_interleaves). Qed.
Print Assumptions C32_split.
Theorem C32_split_once : forall (A : Type) (cs a b : list A), interleaving cs a b -> Permutation cs (a ++ b).
Proof. exact (@interleaving_In). Qed.
Print Assumptions C32_split_once.
Theorem C32_split_kinds : forall (M D S W row : Type) (cs : list (con M D S W row)),
  (forall c, In c (equality_constraints cs) <-> In c cs /\ exists l, c = CLeaf IsEq l) /\
  (forall c, In c (inequality_constraints cs) <-> In c cs /\ exists l, c = CLeaf IsIneq l).
Proof. exact (@split_kinds). Qed.
Print Assumptions C32_split_kinds.

(** constraints on an integer: [m - 1 = 0], [(m, 2m) >= 0] *)
Definition c_eq : leaf Z Z Z Z Z :=
  Leaf (fun m => [m - 1]%Z) true (fun _ => [1%Z]) (fun _ d => [d]) (fun _ dp => hd 0%Z dp) (fun _ d dp => (7 * d * hd 0 dp)%Z) 1.
Definition c_in : leaf Z Z Z Z Z :=
  Leaf (fun m => [m; 2 * m]%Z) true (fun _ => [1; 2]%Z) (fun _ d => [d; 2 * d]%Z) (fun _ dp => (hd 0 dp + 2 * nth 1 dp 0)%Z) (fun _ _ _ => 0%Z) 2.
Example C32_demo :
  let c := CMerged [CLeaf IsEq c_eq; CMerged [CLeaf IsIneq c_in; CLeaf IsIneq c_in]; CLeaf IsEq c_eq] in
  no_seq c /\ pieces c (VNode [VLeaf [5]; VNode [VLeaf [1; 1]; VLeaf [0; 2]]; VLeaf [3]]%Z)
                       [(c_eq, [5]); (c_in, [1; 1]); (c_in, [0; 2]); (c_eq, [3])]%Z /\
  con_jact c 4%Z 3%Z = Ok (VNode [VLeaf [3]; VNode [VLeaf [3; 6]; VLeaf [3; 6]]; VLeaf [3]]%Z) /\
  con_adj (fun _ => 0%Z) Z.add c 4%Z (VNode [VLeaf [5]; VNode [VLeaf [1; 1]; VLeaf [0; 2]]; VLeaf [3]]%Z) 99%Z = Ok 15%Z /\
  con_hess (fun _ => 0%Z) Z.add c 4%Z 2%Z (VNode [VLeaf [5]; VNode [VLeaf [1; 1]; VLeaf [0; 2]]; VLeaf [3]]%Z) 99%Z = Ok 112%Z /\
  con_dim c = Ok 6 /\
  con_function (CMerged [CLeaf IsIneq c_in; CLeaf IsIneq c_in]) 4%Z = Ok (ND [2; 2] [4; 8; 4; 8]%Z) /\
  equality_constraints [CLeaf IsEq c_eq; CLeaf IsIneq c_in; CLeaf IsEq c_eq] = [CLeaf IsEq c_eq; CLeaf IsEq c_eq].
Proof.
  split; [cbn; tauto|]. split; [|vm_conj].
  apply pc_merged. apply (pl_cons _ _ _ _ [(c_eq, [5%Z])]); [constructor|].
  apply (pl_cons _ _ _ _ [(c_in, [1; 1]%Z); (c_in, [0; 2]%Z)] [(c_eq, [3%Z])]).
  - apply pc_merged. apply (pl_cons _ _ _ _ [(c_in, [1; 1]%Z)] [(c_in, [0; 2]%Z)]); [constructor|].
    apply (pl_cons _ _ _ _ [(c_in, [0; 2]%Z)] []); constructor.
  - apply (pl_cons _ _ _ _ [(c_eq, [3%Z])] []); constructor.
Qed.
(** The full statement is false of nested constraints: both filters drop a merged constraint inside
    another; a nested list stays a list and its methods do not exist; a merged constraint inside another
    cannot be evaluated if its constraints have different sizes. *)
Theorem C32_refuted : exists (a b : leaf Z Z Z Z Z),
  (let cs := [CMerged [CLeaf IsEq a; CLeaf IsIneq b]] in
   equality_constraints cs = [] /\ inequality_constraints cs = [] /\ flat_map leaves cs = [(IsEq, a); (IsIneq, b)]) /\
  (let cs := [CSeq [CLeaf IsEq a; CLeaf IsIneq b]] in
   canonicalise (Some (CSeq cs)) = Some cs /\ (forall m, merged_function cs m = Err EAttr) /\ con_dim (CMerged cs) = Err EAttr) /\
  (forall m, merged_function [CMerged [CLeaf IsEq a; CLeaf IsIneq b]] m = Err EValue).
Proof.
  exists c_eq, c_in. split; [cbv zeta; repeat split|]. split; [cbv zeta; repeat split|]. intros m. reflexivity.
Qed.
Print Assumptions C32_refuted.

(** ** C33.  [well_shaped]: None; one pair (lower, upper) for a single control; or one pair per control,
    each entry None, a Python number or an object of the control's class. *)
Theorem C33_accepted : forall (V S : Type) (klasses : list nat) (b : @pybounds V S),
  (exists r, problem_bounds klasses b = Ok r) <-> well_shaped klasses b.
Proof. exact (@bounds_accepted_iff). Qed.
Print Assumptions C33_accepted.
Theorem C33_rejected : forall (V S : Type) (klasses : list nat) (b : @pybounds V S) (e : exn),
  problem_bounds klasses b = Err e -> e = EType.
Proof. exact (@bounds_rejected). Qed.
Print Assumptions C33_rejected.
Theorem C33_kept : forall (V S : Type) (klasses : list nat) (b : @pybounds V S) (r : list bnd),
  problem_bounds klasses b = Ok (Some r) ->
  Forall2 pair_ok klasses r /\ (b = PBSeq r \/ exists lo up, b = PBSeq [lo; up] /\ r = [BSeq [lo; up]]).
Proof. exact (@bounds_kept). Qed.
Print Assumptions C33_kept.
(** serialised bounds: one pair per scalar, in control order ([None]: no bound) *)
Theorem C33_serialised : forall (V S : Type) (ks : list (ctl V S)) (cs : list bctrl) (lo up : list bnd) (xl xu : list (option S)),
  List.Forall law ks -> sees ks cs -> bounds_of ks lo xl -> bounds_of ks up xu ->
  serialise_bounds cs (SBNested [lo; up]) = Ok (combine xl xu) /\ length xl = total ks /\ length xu = total ks.
Proof. exact (@serialise_nested). Qed.
Print Assumptions C33_serialised.
Theorem C33_serialised_single : forall (V S : Type) (k : ctl V S) (c : bctrl) (lo up : bnd) (xl xu : list (option S)),
  law k -> bc_type c = k_type k -> scalar_bounds k lo xl -> scalar_bounds k up xu -> is_int lo && is_int up = false ->
  serialise_bounds [c] (SBFlat [lo; up]) = Ok (combine xl xu).
Proof. exact (@serialise_flat). Qed.
Print Assumptions C33_serialised_single.
(** IPOPT, if every bound is given; TAO *)
Theorem C33_ipopt : forall (V S : Type) (all : list bctrl) (ks : list (ctl V S)) (cs : list bctrl) (lo up : list bnd) (xl xu : list (option S)),
  List.Forall law ks -> sees ks cs -> bounds_of ks lo xl -> bounds_of ks up xu -> ~ In BNone lo -> ~ In BNone up ->
  exists yl yu, xl = map Some yl /\ xu = map Some yu /\
    ipopt_loop all cs (map (fun p => BSeq [fst p; snd p]) (combine lo up)) = Ok (map Fin yl, map Fin yu).
Proof. exact (@ipopt_loop_spec). Qed.
Print Assumptions C33_ipopt.
Theorem C33_tao : forall (V S : Type) (mx mn : S) (ks : list (ctl V S)) (cs : list bctrl) (lo up : list bnd) (xl xu : list (option S)),
  List.Forall law ks -> sees ks cs -> bounds_of ks lo xl -> bounds_of ks up xu ->
  tao_bounds mx mn cs (map (fun p => BSeq [fst p; snd p]) (combine lo up)) =
  Ok (map (or_default mn) xl, map (or_default mx) xu).
Proof. exact (@tao_spec). Qed.
Print Assumptions C33_tao.
Definition b_flt : @bctrl (list Z) Z := BC (k_type np_flt) true.
Definition b_vec : @bctrl (list Z) Z := BC vec3 false.
Example C33_demo :
  let lo := [BFloat 1; BObj 4 [1; 2; 3]; BNone]%Z in let up := [BNone; BInt 8; BFloat 5]%Z in
  let ks := [np_flt; np_vec; np_flt] in let cs := [b_flt; b_vec; b_flt] in
  sees ks cs /\ bounds_of ks lo [Some 1; Some 1; Some 2; Some 3; None]%Z /\ bounds_of ks up [None; Some 8; Some 8; Some 8; Some 5]%Z /\
  well_shaped [0; 4; 0] (PBSeq (map (fun p => BSeq [fst p; snd p]) (combine lo up))) /\
  serialise_bounds cs (SBNested [lo; up]) =
    Ok [(Some 1, None); (Some 1, Some 8); (Some 2, Some 8); (Some 3, Some 8); (None, Some 5)]%Z /\
  tao_bounds 100%Z (-100)%Z cs (map (fun p => BSeq [fst p; snd p]) (combine lo up)) = Ok ([1; 1; 2; 3; -100], [100; 8; 8; 8; 5])%Z.
Proof.
  cbv zeta. split; [repeat constructor|]. split.
  { apply (bo_cons np_flt _ _ _ [Some 1%Z] _ (sb_float np_flt 1%Z)). apply (bo_cons np_vec _ _ _ [Some 1; Some 2; Some 3]%Z _ (sb_obj np_vec 4 [1; 2; 3]%Z eq_refl)).
    apply (bo_cons np_flt _ _ _ [None] [] (sb_none np_flt)). constructor. }
  split.
  { apply (bo_cons np_flt _ _ _ [None] _ (sb_none np_flt)). apply (bo_cons np_vec _ _ _ [Some 8; Some 8; Some 8]%Z _ (sb_int np_vec 8%Z)).
    apply (bo_cons np_flt _ _ _ [Some 5%Z] [] (sb_float np_flt 5%Z)). constructor. }
  split; [|vm_conj]. right. right. eexists. split; [reflexivity|]. unfold pair_ok, entry_ok. cbn.
  repeat (constructor; [left; do 2 eexists; (split; [reflexivity|]); split; eauto 10|]). constructor.
Qed.
(** The full statement is false.  (1) A pair of integers for a single vector control: numpy turns them
    into its own integers, which are not Python integers, and the adapter raises.  (2) A pair of plain
    arrays for a single control is rejected though each pair of arrays is accepted among several.
    (3) IPOPT: None becomes nan instead of no bound for a number, and an exception after a vector
    control.  (4) IPOPT without bounds: the largest float rather than infinity. *)
Theorem C33_refuted :
  (exists (k : ctl (list Z) Z) c, law k /\ bc_type c = k_type k /\ well_shaped [4] (PBSeq [BInt (V := list Z) 0; BInt 1]%Z) /\
     scalar_bounds k (BInt 0%Z) [Some 0; Some 0; Some 0]%Z /\ serialise_bounds [c] (SBFlat [BInt 0; BInt 1]%Z) = Err EAttr) /\
  (exists (b : @pybounds (list Z) Z) lo up, b = PBSeq [lo; up] /\ entry_ok 4 lo /\ entry_ok 4 up /\
     problem_bounds [4] b = Err EType /\ exists r, problem_bounds [4; 4] (PBSeq [BSeq [lo; up]; BSeq [lo; up]]) = Ok r) /\
  (exists cs : list (@bctrl (list Z) Z), well_shaped [0] (PBSeq [BSeq [BFloat (V := list Z) 0%Z; BNone]]) /\ sees [np_flt] cs /\
     ipopt_bounds 100%Z (-100)%Z cs (Some [BSeq [BFloat 0%Z; BNone]]) = Ok ([Fin 0%Z], [NaN])) /\
  (exists cs : list (@bctrl (list Z) Z), sees [np_vec; np_flt] cs /\
     ipopt_bounds 100%Z (-100)%Z cs (Some [BSeq [BFloat 0%Z; BFloat 1%Z]; BSeq [BFloat 0%Z; BNone]]) = Err EAttr) /\
  (exists cs : list (@bctrl (list Z) Z), ipopt_bounds 100%Z (-100)%Z cs None = Ok ([Fin (-100)%Z], [Fin 100%Z])).
Proof.
  assert (L3 : law np_vec) by (pose proof C31_demo as H; tauto).
  split; [|split; [|split; [|split]]].
  - exists np_vec, b_vec. split; [exact L3|]. split; [reflexivity|]. split.
    + right. left. exists 4, (BInt 0%Z), (BInt 1%Z). split; [reflexivity|]. split; [reflexivity|]. unfold entry_ok. split; [eauto|]. split; [eauto|]. intros j l. split; discriminate.
    + split; [exact (sb_int np_vec 0%Z) | reflexivity].
  - exists (PBSeq [BRaw 4 [1; 2; 3]; BRaw 4 [4; 5; 6]]%Z), (BRaw 4 [1; 2; 3]%Z), (BRaw 4 [4; 5; 6]%Z).
    unfold entry_ok. split; [reflexivity|]. split; [eauto 10|]. split; [eauto 10|]. split; [reflexivity|]. eexists. reflexivity.
  - exists [b_flt]. split; [|split; [repeat constructor | reflexivity]].
    right. right. eexists. split; [reflexivity|]. constructor; [|constructor]. left. exists (BFloat 0%Z), BNone. unfold entry_ok. eauto 10.
  - exists [b_vec; b_flt]. split; [repeat constructor | reflexivity].
  - exists [b_flt]. reflexivity.
Qed.
Print Assumptions C33_refuted.

(** ** C34.  [ds]: what SciPy is given, as it behaves when SciPy calls it. *)
(** Types and functions are those of the constraints in order; every [jac] is that of the LAST one.  So the
    property holds of a single constraint. *)
Theorem C34_partial : forall (M D S W row : Type) (c0 : con M D S W row) (cs : list (con M D S W row)), given_as c0 cs -> List.Forall plain cs ->
  exists ds, scipy_constraints (Some c0) = Ok ds /\ length ds = length cs /\
    forall i c, nth_error cs i = Some c -> exists t f j, nth_error ds i = Some (t, f, j) /\
      t = (if is_eq c then SEq else SIneq) /\ (forall x, f x = con_function c x) /\ (forall x, j x = con_jacobian (last cs c) x).
Proof. exact (@scipy_list). Qed.
Print Assumptions C34_partial.
Example C34_demo : exists f j, scipy_constraints (Some (CLeaf IsIneq c_in)) = Ok [(SIneq, f, j)] /\
  f 4%Z = Ok (ND [2] [4; 8]%Z) /\ j 4%Z = Ok (JRows [1; 2]%Z).
Proof. do 2 eexists. split; [reflexivity|]. split; reflexivity. Qed.
Theorem C34_refuted : exists (a b : leaf Z Z Z Z Z) f1 j1 f2 j2,
  scipy_constraints (Some (CSeq [CLeaf IsEq a; CLeaf IsIneq b])) = Ok [(SEq, f1, j1); (SIneq, f2, j2)] /\
  f1 4%Z = con_function (CLeaf IsEq a) 4%Z /\
  con_jacobian (CLeaf IsEq a) 4%Z = Ok (JRows [1%Z]) /\ j1 4%Z = Ok (JRows [1; 2]%Z).
Proof. exists c_eq, c_in. do 4 eexists. split; [reflexivity|]. repeat split. Qed.
Print Assumptions C34_refuted.

(** ** C35, for lists of equality and inequality constraints.  The constraint callback gives the values of the constraints in the
    same order, if they all have as many components. *)
Theorem C35_partial : forall (M D S W row : Type) (s0 : S) (c0 : con M D S W row) (ls : list (cls * leaf M D S W row)),
  given_as c0 (map (fun p => CLeaf (fst p) (snd p)) ls) -> List.Forall (fun p => fst p <> IsPlain) ls ->
  let n := fold_right Nat.add 0 (map (fun p => lf_dim (snd p)) ls) in
  exists g, ipopt_constraints s0 (Some c0) = Ok (n, repeat (Fin s0) n, flat_map (ub_of s0) ls, g) /\
    forall x, ((forall p q, In p ls -> In q ls -> length (lf_fun (snd p) x) = length (lf_fun (snd q) x)) ->
               exists shape, g x = Ok (ND shape (flat_map (fun p => lf_fun (snd p) x) ls))) /\
              (forall a, g x = Ok a -> nd_data a = flat_map (fun p => lf_fun (snd p) x) ls).
Proof. exact (@ipopt_flat). Qed.
Print Assumptions C35_partial.
Theorem C35_lengths : forall (M D S W row : Type) (s0 : S) (ls : list (cls * leaf M D S W row)),
  length (flat_map (ub_of s0) ls) = fold_right Nat.add 0 (map (fun p => lf_dim (snd p)) ls).
Proof. exact (@ub_length). Qed.
Print Assumptions C35_lengths.
Example C35_demo : exists g, ipopt_constraints 0%Z (Some (CSeq [CLeaf IsIneq c_in; CLeaf IsEq c_eq])) =
  Ok (3, [Fin 0; Fin 0; Fin 0]%Z, [PInf; PInf; Fin 0%Z], g).
Proof. eexists. reflexivity. Qed.
(** Other constraints: a merged constraint inside the list raises TypeError though it has a dimension;
    with constraints of different sizes the constraint function IPOPT calls raises. *)
Theorem C35_refuted : exists (a b : leaf Z Z Z Z Z),
  (let c := CSeq [CMerged [CLeaf IsEq a; CLeaf IsEq a]; CLeaf IsIneq b] in
   con_dim (CMerged [CMerged [CLeaf IsEq a; CLeaf IsEq a]; CLeaf IsIneq b]) = Ok 4 /\ ipopt_constraints 0%Z (Some c) = Err EType) /\
  (exists n lb ub g, ipopt_constraints 0%Z (Some (CSeq [CLeaf IsEq a; CLeaf IsIneq b])) = Ok (n, lb, ub, g) /\
     forall x, g x = Err EValue).
Proof. exists c_eq, c_in. split; [split; reflexivity|]. do 4 eexists. split; [reflexivity|]. reflexivity. Qed.
Print Assumptions C35_refuted.

(** ** C36.  [val_at], [der_at]: value at a point and derivative after evaluating there, without
    memoisation. *)
Section C36.
Variables (V : Type) (F : fops V) (t : tape V) (rf : rfun V) (h0 : heap V) (hash : list V -> nat).
Let run := mo_run (heap V) (list V) V (list V) hash (fun h x => rf_call F (t_flat t) rf x h) (fun h => rf_derivative F (t_flat t) rf (f_one F) h).
Let point (c : mcall (list V)) : list V := match c with MEval x => x | MDeriv x => x end.
Hypotheses (Ht : topo (t_flat t)) (Hg : forall b, In b (t_flat t) -> gives_value F b) (Hc : closed (rf_ctrls rf) (t_flat t))
  (Nc : forall v, bv_ctrl (h0 v) = false) (Ho : on_tape (t_flat t) (rf_ctrls rf)).
(** memoize 0 or 1; derivatives at the point evaluated last; nothing raises *)
Theorem C36_partial : (forall v, bv_mark (h0 v) = false) -> forall n l, n <= 1 -> in_order (list V) None l ->
  List.Forall (succeeds (list V) V (list V) (val_at F t rf h0) (der_at F t rf h0)) l ->
  (forall c1 c2, In c1 l -> In c2 l -> hash (point c1) = hash (point c2) -> point c1 = point c2) ->
  run n (mo_new (heap V) V (list V) h0) l = map (expected (list V) V (list V) (val_at F t rf h0) (der_at F t rf h0)) l.
Proof. exact (moola_in_order F t rf h0 Ht Hg Hc Nc Ho hash). Qed.
(** any memoize > 0; derivatives at the point evaluated last, that being its first evaluation ([first_time]); nothing raises *)
Theorem C36_first_partial : (forall v, bv_mark (h0 v) = false) -> forall n l, n <> 0 -> first_time (list V) [] None l ->
  List.Forall (succeeds (list V) V (list V) (val_at F t rf h0) (der_at F t rf h0)) l ->
  (forall c1 c2, In c1 l -> In c2 l -> hash (point c1) = hash (point c2) -> point c1 = point c2) ->
  run n (mo_new (heap V) V (list V) h0) l = map (expected (list V) V (list V) (val_at F t rf h0) (der_at F t rf h0)) l.
Proof. exact (moola_first F t rf h0 Ht Hg Hc Nc Ho hash). Qed.
(** values: any memoize > 0, any sequence with derivatives at any point, if no evaluation raises *)
Theorem C36_values_partial : forall n l, n <> 0 -> List.Forall (evaluations_succeed (list V) V (val_at F t rf h0)) l ->
  (forall c1 c2, In c1 l -> In c2 l -> hash (point c1) = hash (point c2) -> point c1 = point c2) ->
  List.Forall (fun xr => snd xr = val_at F t rf h0 (fst xr)) (eval_results (list V) V (list V) l (run n (mo_new (heap V) V (list V) h0) l)).
Proof. exact (moola_values F t rf h0 Ht Hg Hc Nc hash). Qed.
End C36.
Print Assumptions C36_partial.
Print Assumptions C36_first_partial.
Print Assumptions C36_values_partial.
(** [J = 24 / x] recorded at 2 *)
Definition mo_prog : list (stmt Z) := [SNew 2%Z; SNew 24%Z; SControl 0; SOp KDiv [1; 0]].
Definition mo_w := fst (recorded ZF true mo_prog 2).
Definition mo_rf : rfun Z := RF (snd (recorded ZF true mo_prog 2)) [0] 1%Z.
Definition mo_hash (x : list Z) : nat := Z.to_nat (hd 0%Z x).
Definition mo_results (n : nat) (l : list (mcall (list Z))) :=
  mo_run (heap Z) (list Z) Z (list Z) mo_hash (fun h x => rf_call ZF (t_flat (w_tape mo_w)) mo_rf x h)
    (fun h => rf_derivative ZF (t_flat (w_tape mo_w)) mo_rf 1%Z h) n (mo_new (heap Z) Z (list Z) (w_heap mo_w)) l.
Example C36_demo :
  forallb (fun c => mem c (vars_of (t_flat (w_tape mo_w)))) [0] = true /\
  val_at ZF (w_tape mo_w) mo_rf (w_heap mo_w) [0%Z] = Err EZeroDiv /\
  mo_results 1 [MEval [1]; MDeriv [1]; MEval [1]; MEval [2]; MDeriv [2]; MDeriv [2]]%Z =
    map (expected (list Z) Z (list Z) (val_at ZF (w_tape mo_w) mo_rf (w_heap mo_w)) (der_at ZF (w_tape mo_w) mo_rf (w_heap mo_w)))
        [MEval [1]; MDeriv [1]; MEval [1]; MEval [2]; MDeriv [2]; MDeriv [2]]%Z /\
  mo_results 1 [MEval [1]; MDeriv [1]; MEval [1]; MEval [2]; MDeriv [2]; MDeriv [2]]%Z =
    [inl (Ok 24); inr (Ok [-24]); inl (Ok 24); inl (Ok 12); inr (Ok [-6]); inr (Ok [-6])]%Z.
Proof. vm_conj. Qed.
Example C36_first_demo :
  let l := [MEval [1]; MDeriv [1]; MEval [2]; MDeriv [2]; MEval [1]; MEval [3]; MEval [3]; MDeriv [3]; MDeriv [3]]%Z in
  first_time (list Z) [] None l /\
  mo_results 2 l = [inl (Ok 24); inr (Ok [-24]); inl (Ok 12); inr (Ok [-6]); inl (Ok 24); inl (Ok 8); inl (Ok 8); inr (Ok [-2]); inr (Ok [-2])]%Z.
Proof.
  cbv zeta. split; [|vm_compute; reflexivity]. cbn. left. split; [auto|]. split; [reflexivity|]. left. split; [right; intros [K|[]]; discriminate|]. split; [reflexivity|].
  right. left. split; [right; intros [K|[K|[K|[]]]]; discriminate|]. left. split; [left; reflexivity|]. split; [reflexivity|]. split; [reflexivity | exact I].
Qed.
(** The full statement is false.  (1) memoize = 2: a cached evaluation leaves the tape at another point,
    so the derivative is that of another point.  (2) memoize = 1: after a failed evaluation the next one
    raises IndexError.  (3) memoize = 1: a derivative asked for at a point not evaluated last is cached
    under that point and returned later. *)
Theorem C36_refuted :
  let der := der_at ZF (w_tape mo_w) mo_rf (w_heap mo_w) in let val := val_at ZF (w_tape mo_w) mo_rf (w_heap mo_w) in
  (der [1]%Z = Ok [-24]%Z /\ nth_error (mo_results 2 [MEval [1]; MEval [2]; MEval [1]; MDeriv [1]]%Z) 3 = Some (inr (Ok [-6]%Z))) /\
  (val [2]%Z = Ok 12%Z /\ mo_results 1 [MEval [0]; MEval [2]]%Z = [inl (Err EZeroDiv); inl (Err EIndex)]) /\
  (nth_error (mo_results 1 [MEval [1]; MEval [2]; MDeriv [1]; MEval [1]; MDeriv [1]]%Z) 4 = Some (inr (Ok [-6]%Z))).
Proof. vm_conj. Qed.
Print Assumptions C36_refuted.

(** ** C37.  [allowed] (SpecSolvers.v): Initial at any time; Trial or Temp with any vector; Accept with the
    vector of the preceding Trial; Revert with the iterate.  Gradients may be asked for at any time. *)
Theorem C37_partial : forall (V : Type) (F : fops V) (t : tape V) (rf : rfun V) (h0 : heap V),
  topo (t_flat t) -> (forall b, In b (t_flat t) -> gives_value F b) -> closed (rf_ctrls rf) (t_flat t) ->
  (forall v, bv_ctrl (h0 v) = false) -> on_tape (t_flat t) (rf_ctrls rf) -> (forall v, bv_mark (h0 v) = false) ->
  forall l p x, rol_protocol F t rf h0 RStart l p -> at_point p = Some x ->
  exists s, rol_run F t rf l (rol_new h0) = Some s /\ Ok (rol_value s) = rmap Some (val_at F t rf h0 x) /\
    snd (rol_gradient F t rf s) = der_at F t rf h0 x.
Proof.
  exact (fun V F t rf h0 Ht Hg Hc Nc Ho M0 l p x Hp Hx =>
    rol_value_gradient F t rf h0 Ht Hg Hc Nc Ho M0 l p Hp h0 (okheap_0 t rf h0 Nc) M0 x Hx).
Qed.
Print Assumptions C37_partial.
(** without flags (older versions of ROL): each update evaluates *)
Theorem C37_no_flag : forall (V : Type) (F : fops V) (t : tape V) (rf : rfun V) (h0 : heap V),
  topo (t_flat t) -> (forall b, In b (t_flat t) -> gives_value F b) -> closed (rf_ctrls rf) (t_flat t) ->
  (forall v, bv_ctrl (h0 v) = false) -> on_tape (t_flat t) (rf_ctrls rf) -> (forall v, bv_mark (h0 v) = false) ->
  forall x v, val_at F t rf h0 x = Ok v ->
  exists s, rol_update F t rf x NoFlag (rol_new h0) = (s, None) /\ rol_value s = Some v /\ snd (rol_gradient F t rf s) = der_at F t rf h0 x.
Proof.
  exact (fun V F t rf h0 Ht Hg Hc Nc Ho M0 x v Hv =>
    rol_noflag F t rf h0 Ht Hg Hc Nc Ho M0 (rol_new h0) x v (okheap_0 t rf h0 Nc) M0 Hv).
Qed.
Print Assumptions C37_no_flag.
Definition rol_w := fst (recorded ZF true [SNew 3%Z; SControl 0; SOp KMul [0; 0]] 1).
Definition rol_rf : rfun Z := RF (snd (recorded ZF true [SNew 3%Z; SControl 0; SOp KMul [0; 0]] 1)) [0] 1%Z.
Definition rol_out (l : list revent) : option (option Z * res (list Z)) :=
  option_map (fun s => (rol_value s, snd (rol_gradient ZF (w_tape rol_w) rol_rf s))) (rol_run ZF (w_tape rol_w) rol_rf l (rol_new (w_heap rol_w))).
Example C37_demo :
  (exists p, rol_protocol ZF (w_tape rol_w) rol_rf (w_heap rol_w) RStart
    [RUpdate Initial [5%Z]; RGradient; RUpdate Trial [6%Z]; RUpdate Revert [5%Z]; RGradient; RUpdate Temp [9%Z]; RUpdate Trial [7%Z]; RUpdate Accept [7%Z]] p /\
    at_point p = Some [7%Z]) /\
  rol_out [RUpdate Initial [5%Z]; RGradient; RUpdate Trial [6%Z]; RUpdate Revert [5%Z]] = Some (Some 25%Z, Ok [10%Z]) /\
  rol_out [RUpdate Initial [5%Z]; RUpdate Trial [6%Z]; RUpdate Revert [5%Z]; RGradient; RUpdate Temp [9%Z]; RUpdate Trial [7%Z]; RUpdate Accept [7%Z]]
    = Some (Some 49%Z, Ok [14%Z]).
Proof.
  split; [|vm_conj]. exists (RReady [7%Z]). split; [|reflexivity].
  apply (rp_update _ _ _ _ _ _ _ (RReady [5%Z]) _ _ 25%Z [10%Z]); [constructor | vm_compute; reflexivity | vm_compute; reflexivity|].
  apply rp_gradient; [intros C; inversion C|].
  apply (rp_update _ _ _ _ _ _ _ (RTrial [5%Z] [6%Z]) _ _ 36%Z [12%Z]); [constructor; auto | vm_compute; reflexivity | vm_compute; reflexivity|].
  apply (rp_update _ _ _ _ _ _ _ (RReady [5%Z]) _ _ 25%Z [10%Z]); [constructor; eauto | vm_compute; reflexivity | vm_compute; reflexivity|].
  apply rp_gradient; [intros C; inversion C|].
  apply (rp_update _ _ _ _ _ _ _ (RTrial [5%Z] [9%Z]) _ _ 81%Z [18%Z]); [constructor; auto | vm_compute; reflexivity | vm_compute; reflexivity|].
  apply (rp_update _ _ _ _ _ _ _ (RTrial [5%Z] [7%Z]) _ _ 49%Z [14%Z]); [constructor; eauto | vm_compute; reflexivity | vm_compute; reflexivity|].
  apply (rp_update _ _ _ _ _ _ _ (RReady [7%Z]) _ _ 49%Z [14%Z]); [constructor | vm_compute; reflexivity | vm_compute; reflexivity|].
  constructor.
Qed.
(** The full statement is false: a temporary evaluation between Trial and Accept replaces value, tape and
    trial snapshot, so after Accept the iterate is the temporary vector; a Revert between Trial and
    Accept makes Accept keep the reverted values; a second Revert then restores the rejected point's tape
    with another value. *)
Theorem C37_refuted :
  rol_out [RUpdate Initial [5%Z]; RUpdate Trial [6%Z]; RUpdate Temp [9%Z]; RUpdate Accept [6%Z]] = Some (Some 81%Z, Ok [18%Z]) /\
  rol_out [RUpdate Initial [5%Z]; RUpdate Trial [6%Z]; RUpdate Revert [5%Z]; RUpdate Accept [6%Z]] = Some (Some 25%Z, Ok [10%Z]) /\
  rol_out [RUpdate Initial [5%Z]; RUpdate Trial [6%Z]; RUpdate Revert [5%Z]; RUpdate Accept [6%Z]; RUpdate Revert [6%Z]] = Some (Some 25%Z, Ok [12%Z]) /\
  val_at ZF (w_tape rol_w) rol_rf (w_heap rol_w) [6%Z] = Ok 36%Z /\ der_at ZF (w_tape rol_w) rol_rf (w_heap rol_w) [6%Z] = Ok [12%Z].
Proof. vm_conj. Qed.
Print Assumptions C37_refuted.

(** ** C38 *)
(** [true]: getSubVector gives a view of the vector (what PETSc does for contiguous ranges). *)
Theorem C38_to_petsc : forall (S : Type) (sizes : list nat) (vals : list (pval S)) (ds : list (list S)) (x : list S),
  length vals = length sizes -> Forall2 (fun nv d => fits (fst nv) (snd nv) d) (combine sizes vals) ds -> length x = list_sum sizes ->
  to_petsc true sizes x vals = (concat ds, None).
Proof. exact (@to_petsc_spec). Qed.
Print Assumptions C38_to_petsc.
Theorem C38_round_trip : forall (S : Type) (sizes : list nat) (ds : list (list S)) (x : list S),
  map (@length S) ds = sizes -> length x = list_sum sizes ->
  exists y, to_petsc true sizes x (map PObj ds) = (y, None) /\ from_petsc sizes y (length ds) = Ok ds.
Proof. exact (@petsc_roundtrip). Qed.
Print Assumptions C38_round_trip.
Theorem C38_from_petsc : forall (S : Type) (sizes : list nat) (y : list S) (ds : list (list S)),
  length y = list_sum sizes -> from_petsc sizes y (length sizes) = Ok ds -> y = concat ds /\ map (@length S) ds = sizes.
Proof. exact (@to_from_petsc). Qed.
Print Assumptions C38_from_petsc.
Theorem C38_mismatch : forall (S : Type) (shares : bool) (sizes : list nat) (x : list S) (vals : list (pval S)), length vals <> length sizes ->
  to_petsc shares sizes x vals = (x, Some EValue) /\ forall y n, n <> length sizes -> from_petsc (S := S) sizes y n = Err EValue.
Proof. exact (@petsc_mismatch). Qed.
Print Assumptions C38_mismatch.
(** If it gave a copy, nothing would ever be written: restoreSubVector is called on the wrong vector. *)
Theorem C38_copy_writes_nothing : forall (S : Type) (sizes : list nat) (vals : list (pval S)) (x : list S), fst (to_petsc false sizes x vals) = x.
Proof. exact (@to_petsc_copy). Qed.
Print Assumptions C38_copy_writes_nothing.

(** Parameters: [leaf_at]: the entries of the nested dictionary with their keys; [joined]: the keys joined
    with the separator. *)
Theorem C38_flatten : forall (A : Type) (sep : string) (d : list (string * param A)),
  exists new, flatten_parameters sep d = Ok new /\ NoDup (map fst new) /\
    (forall s x, In (s, x) new -> exists path, leaf_at (PDict d) path x /\ joined sep path s) /\
    (forall path x s, leaf_at (PDict d) path x -> joined sep path s ->
       exists path' x', leaf_at (PDict d) path' x' /\ joined sep path' s /\ d_get s new = Some x') /\
    (forall path x s, leaf_at (PDict d) path x -> joined sep path s ->
       (forall path' x', leaf_at (PDict d) path' x' -> joined sep path' s -> x' = x) -> d_get s new = Some x).
Proof. exact (@flatten_spec). Qed.
Print Assumptions C38_flatten.
Local Open Scope string_scope.
Example C38_flatten_demo :
  flatten_parameters "_" [("a", PDict [("b", PLeaf 1); ("", PDict [("c_", PDict [("d", PLeaf 2)])])]); ("e", PDict [])] =
    Ok [("a_b", PLeaf 1); ("a_c_d", PLeaf 2); ("e", PDict [])] /\
  leaf_at (PDict [("a", PDict [("b", PLeaf 1)])]) ["a"; "b"] (PLeaf 1) /\ joined "_" ["a"; "b"] "a_b".
Proof.
  split; [reflexivity|]. split; [econstructor; [left; reflexivity|]; econstructor; [left; reflexivity | constructor]|].
  apply (jo_add "_" "a" ["b"] "b"); [discriminate | | constructor].
  intros (p & E). destruct p as [|c [|c' p]]; discriminate.
Qed.
(** Two leaves with the same joined key: the earlier one is lost. *)
Theorem C38_flatten_refuted : exists d : list (string * param nat),
  leaf_at (PDict d) ["a"; "b"] (PLeaf 1) /\ leaf_at (PDict d) ["a_"; "b"] (PLeaf 2) /\
  flatten_parameters "_" d = Ok [("a_b", PLeaf 2)].
Proof.
  exists [("a", PDict [("b", PLeaf 1)]); ("a_", PDict [("b", PLeaf 2)])].
  split; [econstructor; [left; reflexivity|]; econstructor; [left; reflexivity | constructor]|].
  split; [econstructor; [right; left; reflexivity|]; econstructor; [left; reflexivity | constructor]|]. reflexivity.
Qed.
Print Assumptions C38_flatten_refuted.

(** Options: seen by the block, the manager's own removed at the end however the block ends, no other
    option touched by the manager *)
Theorem C38_options : forall (B : Type) (m : manager B) body db, NoDup (map fst (mg_params m)) ->
  exists db1,
    (forall k v, d_get k (mg_params m) = Some v -> d_get (mg_prefix m ++ k) db1 = Some v) /\
    (forall K, (forall k, In k (map fst (mg_params m)) -> K <> mg_prefix m ++ k) -> d_get K db1 = d_get K db) /\
    snd (with_options (fun _ _ => None) m body db) = snd (body db1) /\
    (forall k, In k (mg_delete m) -> d_get (mg_prefix m ++ k) (fst (with_options (fun _ _ => None) m body db)) = None) /\
    (forall K, (forall k, In k (mg_delete m) -> K <> mg_prefix m ++ k) ->
       d_get K (fst (with_options (fun _ _ => None) m body db)) = d_get K (fst (body db1))).
Proof. exact (@with_options_spec). Qed.
Print Assumptions C38_options.
(** an exception while inserting *)
Theorem C38_options_refused : forall (B : Type) rfs (m : manager B) body db db1 e,
  insert_all rfs (mg_prefix m) (mg_params m) db = (db1, Some e) ->
  snd (with_options rfs m body db) = Some e /\
  (forall k, In k (mg_delete m) -> d_get (mg_prefix m ++ k) (fst (with_options rfs m body db)) = None) /\
  (forall K, (forall k, In k (map fst (mg_params m)) \/ In k (mg_delete m) -> K <> mg_prefix m ++ k) -> d_get K (fst (with_options rfs m body db)) = d_get K db).
Proof. exact (@with_options_refused). Qed.
Print Assumptions C38_options_refused.
(** the manager of a prefix: its own options are the parameters not given on the command line *)
Theorem C38_manager : forall (B : Type) count cmd (db params : dict B) p0, NoDup (map fst db) -> NoDup (map fst params) ->
  let p := full_prefix p0 in let m := manager_new count cmd db params (Some p0) in
  mg_prefix m = p /\ NoDup (map fst (mg_params m)) /\
  (forall k, In k (mg_delete m) <-> In k (map fst params) /\ ~ In (p ++ k) cmd) /\
  (forall k, d_get k (mg_params m) = match d_get (p ++ k) db with Some v => Some v | None => if existsb (String.eqb (p ++ k)) cmd then None else d_get k params end).
Proof. exact (@manager_spec). Qed.
Print Assumptions C38_manager.
(** if under the prefix only command-line options are set, the database is as before *)
Theorem C38_restored : forall (B : Type) count cmd (db params : dict B) p0 e, NoDup (map fst db) -> NoDup (map fst params) ->
  (forall k, In k (map fst params) -> d_get (full_prefix p0 ++ k) db <> None -> In (full_prefix p0 ++ k) cmd) ->
  let m := manager_new count cmd db params (Some p0) in
  forall body, (forall d, body d = (d, e)) ->
  snd (with_options (fun _ _ => None) m body db) = e /\
  forall K, d_get K (fst (with_options (fun _ _ => None) m body db)) = d_get K db.
Proof. exact (@options_restored). Qed.
Print Assumptions C38_restored.
Example C38_options_demo :
  let db := [("x_tol", 7); ("other", 3)] in
  let m := manager_new "0_" ["x_tol"] db [("tol", 1); ("max_it", 9)] (Some "x") in
  mg_params m = [("max_it", 9); ("tol", 7)] /\ mg_delete m = ["max_it"] /\
  with_options (fun _ _ => None) m (fun d => (d, Some EValue)) db = (db, Some EValue) /\
  fst (insert_all (fun _ _ => None) "x_" (mg_params m) db) = [("x_tol", 7); ("other", 3); ("x_max_it", 9)].
Proof. vm_conj. Qed.
(** a default: given to PETSc unless the parameters or the database have the option, removed at the end, nothing else changes *)
Theorem C38_default : forall (B : Type) (m : manager B) (db : dict B) (k : string) (v : B), NoDup (map fst (mg_params m)) -> incl (mg_delete m) (map fst (mg_params m)) ->
  let m' := set_default m db k v in
  mg_prefix m' = mg_prefix m /\ NoDup (map fst (mg_params m')) /\ incl (mg_delete m') (map fst (mg_params m')) /\
  (forall j, d_get j (mg_params m') = if (j =? k)%string then match d_get k (mg_params m), d_get (mg_prefix m ++ k) db with None, None => Some v | o, _ => o end else d_get j (mg_params m)) /\
  (forall j, In j (mg_delete m') <-> In j (mg_delete m) \/ j = k /\ d_get k (mg_params m) = None /\ d_get (mg_prefix m ++ k) db = None).
Proof. exact @set_default_spec. Qed.
Print Assumptions C38_default.
Example C38_default_demo :
  let m := manager_new "0_" [] [("x_rtol", 5)] [("tol", 7)] (Some "x") in
  map (fun k => d_get k (mg_params (set_default (set_default (set_default m [("x_rtol", 5)] "tol" 1) [("x_rtol", 5)] "gtol" 2) [("x_rtol", 5)] "rtol" 3))) ["tol"; "gtol"; "rtol"] = [Some 7; Some 2; Some 5].
Proof. reflexivity. Qed.
(** The full statement is false: an option the user had set in the database under the prefix is destroyed;
    after a nested use of the same manager the rest of the outer block runs without the options. *)
Theorem C38_options_refuted :
  (exists (db : dict nat) params, let m := manager_new "0_" [] db params (Some "x") in
     d_get "x_tol" db = Some 7 /\ d_get "x_tol" (fst (with_options (fun _ _ => None) m (fun d => (d, None)) db)) = None) /\
  (exists (db : dict nat) params, let m := manager_new "0_" [] db params (Some "x") in
     fst (with_options (fun _ _ => None) m
       (fun d => let '(d1, e) := with_options (fun _ _ => None) m (fun d' => (d', None)) d in
                 (d_put "seen" (match d_get "x_tol" d1 with Some _ => 1 | None => 0 end) d1, e)) db) = [("seen", 0)]).
Proof.
  split.
  - exists [("x_tol", 7)], [("tol", 1)]. split; reflexivity.
  - exists [], [("tol", 1)]. reflexivity.
Qed.
Print Assumptions C38_options_refuted.
