(** Property theorems: the values of the recorded variables (C54) and the exported graph of a tape (C55). *)
From Coq Require Import List Arith ZArith Bool.
From Verif Require Import Base Model Record Spec Graph History Session Marks Instances TapeValues Export SpecExport ExportFacts ExportRun.
Import ListNotations.

(** C54.  After rf(vals) and any calls that do not evaluate, the stored value of every live object (y.block_variable.saved_output,
    Control(y).tape_value()) is the value the object has when the program is run with [vals]; also after a history [l1] of other
    calls, which may evaluate the same controls at other values. *)
Theorem C54_every_value : forall (V : Type) (F : fops V) (ann : bool) (p : list (stmt V)) (j : nat) (vals : list V) (scale : V) (l1 l2 : list (api V)) (y : V) (k : nat) (ob : obj V) (u : nat),
  consistent p -> disciplined ann p = true -> j < length (w_objs (exec F (world_new F ann) p)) ->
  let w := fst (recorded F ann p j) in
  let rf := RF (snd (recorded F ann p j)) (w_ctrls w) scale in
  let r := rf_call F (t_flat (w_tape w)) rf vals (run_hist F (t_flat (w_tape w)) (w_heap w) l1) in
  length vals = length (w_ctrls w) -> calls_controls w l1 -> (l1 = [] \/ closed (w_ctrls w) (t_flat (w_tape w))) ->
  snd r = Ok y -> forallb (fun a => negb (is_call a)) l2 = true ->
  nth_error (w_objs w) k = Some ob -> o_bv ob = Some u ->
  spec_rerun F ann p vals k = Ok (saved (run_hist F (t_flat (w_tape w)) (fst r) l2) u).
Proof. exact @evaluated_values. Qed.
Print Assumptions C54_every_value.

(** C55, shape.  create_graph() raises KeyError exactly when some block has neither dependencies nor outputs.  Otherwise the nodes
    are the blocks and the variables of the tape, every one once, the edges are those from dependencies to blocks and from blocks
    to outputs, every one once; blocks are labelled by their operator and operands, below one another; variables are labelled by
    the stored value of their object and placed where they first occur. *)
Theorem C55_shape : forall (V : Type) (F : fops V) (ann : bool) (p : list (stmt V)) (j : nat) (h : heap V),
  let w := fst (recorded F ann p j) in
  let bs := t_flat (w_tape w) in
  let show := shown w h in
  (create_graph w h = Err EKey /\ exists b, In b bs /\ b_deps b = [] /\ b_outs b = []) \/
  (exists g, create_graph w h = Ok g /\ (forall b, In b bs -> b_deps b <> [] \/ b_outs b <> []) /\ NoDup (map fst (g_nodes g)) /\ NoDup (g_edges g) /\
    (forall a b, In (a, b) (g_edges g) <-> flows bs a b) /\
    (forall i, find_node (NBlk i) g = option_map (fun b => Some (Attr (block_label show i b) 0 (- 2 * Z.of_nat i) true)) (nth_error bs i)) /\
    (forall v, find_node (NVar v) g = option_map (fun p => Some (Attr (LNum (show v)) (fst p) (snd p) false)) (first_place bs v)) /\
    (forall v, first_place bs v <> None <-> exists b, In b bs /\ (In v (b_deps b) \/ In v (b_outs b)))).
Proof. exact @recorded_graph. Qed.
Print Assumptions C55_shape.

(** C55, acyclic: no edge closes a cycle. *)
Theorem C55_acyclic : forall (V : Type) (F : fops V) (ann : bool) (p : list (stmt V)) (j : nat) (h : heap V) (g : graph V),
  consistent p -> disciplined ann p = true -> j < length (w_objs (exec F (world_new F ann) p)) ->
  create_graph (fst (recorded F ann p j)) h = Ok g -> forall a b, In (a, b) (g_edges g) -> ~ path g b a.
Proof. exact @graph_acyclic. Qed.
Print Assumptions C55_acyclic.

(** C55, dependence.  Controls from which no path leads to the functional have no effect on the answer of an evaluation ... *)
Theorem C55_no_path_no_effect : forall (V : Type) (F : fops V) (ann : bool) (p : list (stmt V)) (j : nat) (scale : V) (l : list (api V)) (vals vals' : list V) (y y' : V) (h : heap V) (g : graph V),
  consistent p -> disciplined ann p = true -> j < length (w_objs (exec F (world_new F ann) p)) ->
  let w := fst (recorded F ann p j) in
  let J := snd (recorded F ann p j) in
  let h1 := run_hist F (t_flat (w_tape w)) (w_heap w) l in
  let rf := RF J (w_ctrls w) scale in
  create_graph w h = Ok g ->
  (forall i c, nth_error (w_ctrls w) i = Some c -> path g (NVar c) (NVar J) -> nth_error vals i = nth_error vals' i) ->
  snd (rf_call F (t_flat (w_tape w)) rf vals h1) = Ok y -> snd (rf_call F (t_flat (w_tape w)) rf vals' h1) = Ok y' -> y = y'.
Proof. exact @call_independent. Qed.
Print Assumptions C55_no_path_no_effect.
(** ... and derivative zero. *)
Theorem C55_no_path_zero : forall (V : Type) (F : fops V) (ann : bool) (p : list (stmt V)) (j : nat) (scale a : V) (l : list (api V)) (h : heap V) (g : graph V) (gs : list V) (i c : nat),
  consistent p -> disciplined ann p = true -> j < length (w_objs (exec F (world_new F ann) p)) ->
  let w := fst (recorded F ann p j) in
  let J := snd (recorded F ann p j) in
  create_graph w h = Ok g -> nth_error (w_ctrls w) i = Some c -> find_node (NVar c) g <> None -> ~ path g (NVar c) (NVar J) ->
  snd (rf_derivative F (t_flat (w_tape w)) (RF J (w_ctrls w) scale) a (run_hist F (t_flat (w_tape w)) (w_heap w) l)) = Ok gs ->
  nth_error gs i = Some (f_zero F).
Proof. exact @no_path_zero. Qed.
Print Assumptions C55_no_path_zero.

(** C55, labels.  After rf(vals) the label of a variable is the value its object has when the program is run with [vals]. *)
Theorem C55_labels : forall (V : Type) (F : fops V) (ann : bool) (p : list (stmt V)) (j : nat) (vals : list V) (scale : V) (l1 l2 : list (api V)) (y : V) (k : nat) (ob : obj V) (v : nat) (g : graph V) (u : nat),
  consistent p -> disciplined ann p = true -> j < length (w_objs (exec F (world_new F ann) p)) ->
  let w := fst (recorded F ann p j) in
  let rf := RF (snd (recorded F ann p j)) (w_ctrls w) scale in
  let r := rf_call F (t_flat (w_tape w)) rf vals (run_hist F (t_flat (w_tape w)) (w_heap w) l1) in
  length vals = length (w_ctrls w) -> calls_controls w l1 -> (l1 = [] \/ closed (w_ctrls w) (t_flat (w_tape w))) ->
  snd r = Ok y -> forallb (fun a => negb (is_call a)) l2 = true ->
  create_graph w (run_hist F (t_flat (w_tape w)) (fst r) l2) = Ok g ->
  find_node (NVar v) g <> None -> bv_obj (w_heap w v) = k -> nth_error (w_objs w) k = Some ob -> o_bv ob = Some u ->
  exists x xp yp, find_node (NVar v) g = Some (Some (Attr (LNum x) xp yp false)) /\ spec_rerun F ann p vals k = Ok x.
Proof. exact @labels_rerun. Qed.
Print Assumptions C55_labels.

(** C55, KeyError.  A function that records a block without dependencies and outputs: create_graph() raises KeyError although
    evaluation works. *)
Theorem C55_unlinked_refuted : exists (p : list (stmt Z)) (j : nat),
  let w := fst (recorded ZF true p j) in
  let rf := RF (snd (recorded ZF true p j)) (w_ctrls w) 1%Z in
  consistent p /\ disciplined true p = true /\ snd (rf_call ZF (t_flat (w_tape w)) rf [5%Z] (w_heap w)) = Ok 25%Z /\
  create_graph w (w_heap w) = Err EKey.
Proof. exact unlinked_witness. Qed.
Print Assumptions C55_unlinked_refuted.

(** C55, operands.  One would read a product block with its operands and its output as a product.  When an object got a new
    variable (stop_annotating(modifies=x)), the old variable is labelled with the value of the new one: after rf(10) the graph
    says 10 * 10 = 4. *)
Theorem C55_operands_refuted : exists (p : list (stmt Z)) (j : nat) (g : graph Z) (a b c : Z) (xp yp : nat * Z),
  let w := fst (recorded ZF true p j) in
  let rf := RF (snd (recorded ZF true p j)) (w_ctrls w) 1%Z in
  let r := rf_call ZF (t_flat (w_tape w)) rf [10%Z] (w_heap w) in
  consistent p /\ disciplined true p = true /\ snd r = Ok 14%Z /\ create_graph w (fst r) = Ok g /\
  find_node (NBlk 0) g = Some (Some (Attr (LTerm KMul [a; b]) (fst xp) (snd xp) true)) /\
  (exists o, In (NBlk 0, NVar o) (g_edges g) /\ find_node (NVar o) g = Some (Some (Attr (LNum c) (fst yp) (snd yp) false))) /\
  (a * b <> c)%Z.
Proof. exact operands_witness. Qed.
Print Assumptions C55_operands_refuted.

(** x = 3; m = 4; y = x * x; q = m + m; z = y + x; J = z. *)
Definition ex_prog : list (stmt Z) := [SNew 3%Z; SNew 4%Z; SControl 0; SControl 1; SOp KMul [0; 0]; SOp KAdd [1; 1]; SOp KAdd [2; 0]].
Definition ex_w := fst (recorded ZF true ex_prog 4).
Definition ex_rf := RF (snd (recorded ZF true ex_prog 4)) (w_ctrls ex_w) 1%Z.
Definition ex_r := rf_call ZF (t_flat (w_tape ex_w)) ex_rf [5%Z; 7%Z] (w_heap ex_w).
(** The hypotheses hold, after an earlier evaluation at other values too, and the values are those of the run with 5 and 7. *)
Example C54_example :
  consistent ex_prog /\ disciplined true ex_prog = true /\ snd ex_r = Ok 30%Z /\
  map (fun ob => option_map (saved (fst ex_r)) (o_bv ob)) (w_objs ex_w) = [Some 5%Z; Some 7%Z; Some 25%Z; Some 14%Z; Some 30%Z] /\
  map (fun ob => option_map (saved (w_heap ex_w)) (o_bv ob)) (w_objs ex_w) = [Some 3%Z; Some 4%Z; Some 9%Z; Some 8%Z; Some 12%Z] /\
  map (spec_rerun ZF true ex_prog [5%Z; 7%Z]) [0; 1; 2; 3; 4] = [Ok 5%Z; Ok 7%Z; Ok 25%Z; Ok 14%Z; Ok 30%Z].
Proof. split; [repeat constructor|vm_conj]. Qed.
(** The graph of the example.  No path leads from m (variable 1) to J (variable 4). *)
Definition ex_g : graph Z := Graph
  [(NVar 0, Some (Attr (LNum 5%Z) 0 1 false)); (NBlk 0, Some (Attr (LTerm KMul [5; 5]%Z) 0 0 true)); (NVar 2, Some (Attr (LNum 25%Z) 0 (-1) false));
   (NVar 1, Some (Attr (LNum 7%Z) 0 (-1) false)); (NBlk 1, Some (Attr (LTerm KAdd [7; 7]%Z) 0 (-2) true)); (NVar 3, Some (Attr (LNum 14%Z) 0 (-3) false));
   (NBlk 2, Some (Attr (LTerm KAdd [25; 5]%Z) 0 (-4) true)); (NVar 4, Some (Attr (LNum 30%Z) 0 (-5) false))]
  [(NVar 0, NBlk 0); (NBlk 0, NVar 2); (NVar 1, NBlk 1); (NBlk 1, NVar 3); (NVar 2, NBlk 2); (NVar 0, NBlk 2); (NBlk 2, NVar 4)].
Example C55_example :
  create_graph ex_w (fst ex_r) = Ok ex_g /\ w_ctrls ex_w = [0; 1] /\ rf_J ex_rf = 4 /\ ~ path ex_g (NVar 1) (NVar 4) /\
  snd (rf_call ZF (t_flat (w_tape ex_w)) ex_rf [5%Z; 100%Z] (w_heap ex_w)) = Ok 30%Z /\
  snd (rf_derivative ZF (t_flat (w_tape ex_w)) ex_rf 1%Z (fst ex_r)) = Ok [11%Z; 0%Z].
Proof.
  split; [vm_compute; reflexivity|]. split; [vm_compute; reflexivity|]. split; [vm_compute; reflexivity|]. split; [|vm_conj].
  intros P. assert (K : forall n, path ex_g (NVar 1) n -> n = NVar 1 \/ n = NBlk 1 \/ n = NVar 3).
  { intros n Q. induction Q as [|b c Q IH He]; [auto|]. cbn in He. intuition congruence. }
  destruct (K _ P) as [E|[E|E]]; discriminate.
Qed.
