(** Property theorems: Python expressions over recorded floats (C52). *)
From Coq Require Import List Arith ZArith Bool Lia Reals Lra.
From Coquelicot Require Import Coquelicot.
From Verif Require Import Base Model BaseFacts Graph Record Spec RecordFacts Replay ReplayExec History Session Sweep SpecGraph Marks FreshAdj Dual TlmSweep RealInst Calculus Gradient Instances PyExp SpecPy PyFacts PyProg PyGradR.
Import ListNotations.

(** C52, recording.  A program of assignments over recorded floats and Python numbers computes, with annotation on, what it
    computes with ordinary numbers, or raises the same exception; [recorded_vars] says which variables are recorded. *)
Theorem C52_values : forall (V : Type) (F : fops V) (P : pyops V),
  (forall a b, f_add F a b = f_add F b a) -> (forall a b, f_mul F a b = f_mul F b a) ->
  forall (xs : list V) (es : list (pexp V)), supported_program (repeat true (length xs)) es = true ->
  let out := py_run F P true xs es in
  match numbers F P xs es with
  | Err e => snd out = Err e
  | Ok vs => exists vars, snd out = Ok vars /\ map is_obj vars = recorded_vars (repeat true (length xs)) es /\
      Forall2 (fun x v => py_val (fst out) x = Ok v) vars vs
  end.
Proof. exact @py_records. Qed.
Print Assumptions C52_values.

(** C52, evaluation: the reduced functional of any recorded variable is the Python program run with the new numbers, before
    and after any other calls on the tape; same value or same exception.  Partial: for [supported] programs, see
    C52_refuted for the others. *)
Theorem C52_evaluate_partial : forall (V : Type) (F : fops V) (P : pyops V),
  (forall a b, f_add F a b = f_add F b a) -> (forall a b, f_mul F a b = f_mul F b a) ->
  forall (xs : list V) (es : list (pexp V)) (vars : list (pval V)) (j o : nat) (vals : list V) (scale : V) (l : list (api V)),
  supported_program (repeat true (length xs)) es = true ->
  snd (py_run F P true xs es) = Ok vars -> nth_error vars j = Some (PObj o) -> length vals = length xs ->
  let w := fst (get_bv (fst (py_run F P true xs es)) o) in
  let v := snd (get_bv (fst (py_run F P true xs es)) o) in
  w_ctrls w = seq 0 (length xs) /\
  (calls_controls w l -> snd (rf_call F (t_flat (w_tape w)) (RF v (w_ctrls w) scale) vals (run_hist F (t_flat (w_tape w)) (w_heap w) l)) =
    rmap (fun y => f_mul F y scale) (variable F P vals es j)).
Proof. exact @py_call. Qed.
Print Assumptions C52_evaluate_partial.

(** C52, derivatives over the reals: for programs without powers, min and max the derivative returns and is the exact
    gradient of the Python program at the recorded values. *)
Theorem C52_gradient_partial : forall (P : pyops R) (xs : list R) (es : list (pexp R)) (vars : list (pval R)) (j o : nat) (sc : R),
  supported_program (repeat true (length xs)) es = true -> forallb elementary es = true ->
  snd (py_run RO P true xs es) = Ok vars -> nth_error vars j = Some (PObj o) -> xs <> [] ->
  let w := fst (get_bv (fst (py_run RO P true xs es)) o) in
  let rf := RF (snd (get_bv (fst (py_run RO P true xs es)) o)) (w_ctrls w) sc in
  let bs := t_flat (w_tape w) in
  exists g, snd (rf_derivative RO bs rf 1%R (w_heap w)) = Ok g /\ length g = length xs /\
    forall d, length d = length xs ->
    exists y : R -> R, locally 0%R (fun s => variable RO P (shift xs d s) es j = Ok (y s)) /\ is_derive (fun s => (y s * sc)%R) 0%R (dot RO g d).
Proof. exact py_elementary_recorded. Qed.
Print Assumptions C52_gradient_partial.

(** ... and at [m] after any calls that end in an evaluation at [m] followed by calls that do not evaluate. *)
Theorem C52_gradient_evaluated_partial : forall (P : pyops R) (xs : list R) (es : list (pexp R)) (vars : list (pval R)) (j o : nat) (sc : R)
  (l1 : list (api R)) (m : list R) (y0 : R) (l2 : list (api R)) (d g : list R),
  supported_program (repeat true (length xs)) es = true -> forallb elementary es = true ->
  snd (py_run RO P true xs es) = Ok vars -> nth_error vars j = Some (PObj o) ->
  let w := fst (get_bv (fst (py_run RO P true xs es)) o) in
  let rf := RF (snd (get_bv (fst (py_run RO P true xs es)) o)) (w_ctrls w) sc in
  let bs := t_flat (w_tape w) in
  let h1 := run_hist RO bs (w_heap w) l1 in
  let h := run_hist RO bs (fst (rf_call RO bs rf m h1)) l2 in
  on_tape bs (w_ctrls w) \/ seeds_on bs (rf_J rf) (l1 ++ l2) -> calls_controls w l1 -> snd (rf_call RO bs rf m h1) = Ok y0 -> calm l2 -> length m = length xs -> length d = length xs ->
  snd (rf_derivative RO bs rf 1%R h) = Ok g ->
  exists y : R -> R, locally 0%R (fun s => variable RO P (shift m d s) es j = Ok (y s)) /\ is_derive (fun s => (y s * sc)%R) 0%R (dot RO g d).
Proof. exact py_elementary_evaluated. Qed.
Print Assumptions C52_gradient_evaluated_partial.

(** With powers, min and max: exact wherever every operation through which a control acts is differentiable ([smooth_at]). *)
Theorem C52_gradient_smooth_partial : forall (P : pyops R) (xs : list R) (es : list (pexp R)) (vars : list (pval R)) (j o : nat) (sc : R)
  (l : list (api R)) (d g : list R),
  supported_program (repeat true (length xs)) es = true ->
  snd (py_run RO P true xs es) = Ok vars -> nth_error vars j = Some (PObj o) ->
  let w := fst (get_bv (fst (py_run RO P true xs es)) o) in
  let rf := RF (snd (get_bv (fst (py_run RO P true xs es)) o)) (w_ctrls w) sc in
  let bs := t_flat (w_tape w) in
  let h := run_hist RO bs (w_heap w) l in
  on_tape bs (w_ctrls w) \/ seeds_on bs (rf_J rf) l -> calm l -> length d = length xs -> smooth_at bs (w_ctrls w) (saved h) ->
  snd (rf_derivative RO bs rf 1%R h) = Ok g ->
  exists y : R -> R, locally 0%R (fun s => variable RO P (shift xs d s) es j = Ok (y s)) /\ is_derive (fun s => (y s * sc)%R) 0%R (dot RO g d).
Proof. exact py_gradient_recorded. Qed.
Print Assumptions C52_gradient_smooth_partial.

Definition ZP : pyops Z := {|
  py_mod := fun a b => if Z.eqb b 0 then Err EZeroDiv else Ok (a mod b)%Z;
  py_floor := fun a b => if Z.eqb b 0 then Err EZeroDiv else Ok (a / b)%Z;
  py_abs := Z.abs |}.
(** [x = 3; y = 2; a = 7 // 2; b = 10 - a*x; c = max(b, 4/4); d = -(c*c) + x*y] over the integers. *)
Definition py_demo : list (pexp Z) :=
  [PBin BFloor (PLit true 7%Z) (PLit true 2%Z);
   PBin BSub (PLit true 10%Z) (PBin BMul (PVar 2) (PVar 0));
   PFun2 FMax (PVar 3) (PBin BDiv (PLit true 4%Z) (PLit true 4%Z));
   PBin BAdd (PUn UNeg (PBin BMul (PVar 4) (PVar 4))) (PBin BMul (PVar 0) (PVar 1))].
Definition py_rf (xs : list Z) (es : list (pexp Z)) (o : nat) (vals : list Z) : res Z :=
  let '(w, v) := get_bv (fst (py_run ZF ZP true xs es)) o in
  snd (rf_call ZF (t_flat (w_tape w)) (RF v (w_ctrls w) 1%Z) vals (w_heap w)).
Example C52_demo : supported_program (repeat true 2) py_demo = true /\ numbers ZF ZP [3%Z; 2%Z] py_demo = Ok [3; 2; 3; 1; 1; 5]%Z /\
  snd (py_run ZF ZP true [3%Z; 2%Z] py_demo) = Ok [PObj 0; PObj 1; PNum true 3%Z; PObj 5; PObj 7; PObj 11] /\
  recorded_vars (repeat true 2) py_demo = [true; true; false; true; true; true] /\
  py_rf [3%Z; 2%Z] py_demo 11 [1%Z; 4%Z] = Ok (-(7*7) + 4)%Z /\ variable ZF ZP [1%Z; 4%Z] py_demo 5 = Ok (-(7*7) + 4)%Z.
Proof. vm_conj. Qed.
(** The exception of the Python program is the exception of the evaluation: [x = 3; y = 2; z = (x*x) / (x - 3.0 + y)] at [x = 1, y = 2]. *)
Example C52_demo_exception : let es := [PBin BDiv (PBin BMul (PVar 0) (PVar 0)) (PBin BAdd (PBin BSub (PVar 0) (PLit false 3%Z)) (PVar 1))] in
  supported_program (repeat true 2) es = true /\ variable ZF ZP [3%Z; 2%Z] es 2 = Ok 4%Z /\ variable ZF ZP [1%Z; 2%Z] es 2 = Err EZeroDiv /\
  exists o, snd (py_run ZF ZP true [3%Z; 2%Z] es) = Ok [PObj 0; PObj 1; PObj o] /\ py_rf [3%Z; 2%Z] es o [1%Z; 2%Z] = Err EZeroDiv.
Proof. split; [|split; [|split; [|exists 6%nat; split]]]; vm_compute; reflexivity. Qed.

(** [x = 3; y = 2; z = exp(x*y) * (1.0 - y) - x]: nothing else to check for the gradient. *)
Definition py_calc : list (pexp R) :=
  [PBin BSub (PBin BMul (PFun1 FExp (PBin BMul (PVar 0) (PVar 1))) (PBin BSub (PLit false 1%R) (PVar 1))) (PVar 0)].
Example C52_gradient_demo : forall P : pyops R, supported_program (repeat true 2) py_calc = true /\ forallb elementary py_calc = true /\
  exists o, snd (py_run RO P true [3%R; 2%R] py_calc) = Ok [PObj 0; PObj 1; PObj o] /\
  on_tape (t_flat (w_tape (fst (get_bv (fst (py_run RO P true [3%R; 2%R] py_calc)) o)))) (w_ctrls (fst (get_bv (fst (py_run RO P true [3%R; 2%R] py_calc)) o))).
Proof.
  intros P. split; [reflexivity|]. split; [reflexivity|]. exists 7%nat. split; [vm_compute; reflexivity|]. apply on_tape_check. vm_compute. reflexivity.
Qed.

(** C52 in full is false: an ordinary number divided by or raised to a recorded float, and [%], [//], [+x], [abs(x)] of
    recorded floats give plain floats, which later evaluations keep.  [x = 3; y = 6/x; z = x*y] evaluated at 2: 4, not 6. *)
Theorem C52_refuted : exists (xs : list Z) (es : list (pexp Z)) (vars : list (pval Z)) (j o : nat) (vals : list Z),
  snd (py_run ZF ZP true xs es) = Ok vars /\ nth_error vars j = Some (PObj o) /\ length vals = length xs /\
  (exists a, variable ZF ZP vals es j = Ok a /\ py_rf xs es o vals <> Ok a) /\ py_rf xs es o xs = variable ZF ZP xs es j.
Proof.
  exists [3%Z], [PBin BDiv (PLit true 6%Z) (PVar 0); PBin BMul (PVar 0) (PVar 1)], [PObj 0; PNum false 2%Z; PObj 2], 2%nat, 2%nat, [2%Z].
  split; [vm_compute; reflexivity|]. split; [reflexivity|]. split; [reflexivity|]. split; [|vm_compute; reflexivity].
  exists 6%Z. split; [vm_compute; reflexivity|]. vm_compute. discriminate.
Qed.
Print Assumptions C52_refuted.
(** The other unsupported operations, each in [z = x * (...)], recorded at 3 and evaluated at 2. *)
Definition py_wrong (e : pexp Z) : Prop := exists o a b, snd (py_run ZF ZP true [3%Z] [PBin BMul (PVar 0) e]) = Ok [PObj 0; PObj o] /\
  py_rf [3%Z] [PBin BMul (PVar 0) e] o [2%Z] = Ok a /\ variable ZF ZP [2%Z] [PBin BMul (PVar 0) e] 1 = Ok b /\ a <> b.
Theorem C52_each_refuted : py_wrong (PBin BPow (PLit true 2%Z) (PVar 0)) /\ py_wrong (PUn UPos (PVar 0)) /\ py_wrong (PUn UAbs (PVar 0)) /\
  py_wrong (PBin BMod (PVar 0) (PLit true 5%Z)) /\ py_wrong (PBin BFloor (PVar 0) (PLit true 1%Z)) /\ py_wrong (PBin BMod (PLit true 5%Z) (PVar 0)).
Proof.
  repeat match goal with |- _ /\ _ => split end; exists 2%nat; do 2 eexists; (split; [vm_compute; reflexivity|]); (split; [vm_compute; reflexivity|]);
  (split; [vm_compute; reflexivity|]); discriminate.
Qed.
Print Assumptions C52_each_refuted.
(** [max(x, 0)] with the int 0 raises AttributeError while recording, although the numbers have a maximum. *)
Theorem C52_int_refuted : exists (xs : list Z) (es : list (pexp Z)) (vs : list Z),
  numbers ZF ZP xs es = Ok vs /\ snd (py_run ZF ZP true xs es) = Err EAttr /\ exists vars, snd (py_run ZF ZP false xs es) = Ok vars.
Proof. exists [3%Z], [PFun2 FMax (PVar 0) (PLit true 0%Z)]. eexists. split; [vm_compute; reflexivity|]. split; [vm_compute; reflexivity|]. eexists. vm_compute. reflexivity. Qed.
Print Assumptions C52_int_refuted.
