(** C27: placeholders feed the previous result back. *)
From Coq Require Import List Arith ZArith Bool Lia.
From Verif Require Import Base Model BaseFacts Graph Record Spec History Session Instances Place SpecPlace PlaceFacts.
Import ListNotations.

(** C27, evaluations, for any tape: the results of any number of evaluations are those of evaluating the graph with
    every placeholder holding what its linked variable held after the evaluation before; before the first, what is stored. *)
Theorem C27_evaluations : forall (V : Type) (F : fops V) (lk : nat -> option nat) (bs : list (block V)) (rf : rfun V)
    (l : list (list V)) (h : heap V),
  (forall v, bv_ctrl (h v) = false) -> lk (rf_J rf) = None -> links_ok lk bs (rf_ctrls rf) -> links_later lk bs ->
  Forall (fun xs => length xs = length (rf_ctrls rf)) l ->
  snd (p_calls F lk bs rf l h) = fed_runs F lk bs rf (saved h) l.
Proof. intros V F lk bs rf l h Hn HJ Hok Hl Hx. exact (p_calls_spec F lk bs rf HJ Hok Hl l h (saved h) Hn Hx (fun _ _ => eq_refl)). Qed.
Print Assumptions C27_evaluations.

(** C27, evaluations, for recorded programs: with the functional linked to the placeholder, the n-th evaluation is the
    program run with the placeholder's object replaced by the (n-1)-th result; the recorded value comes first. *)
Theorem C27_feedback : forall (V : Type) (F : fops V) (ann : bool) (p : list (stmt V)) (j : nat) (cs : list nat) (pv : nat) (x one : V)
    (l : list (list V)),
  consistent p -> disciplined ann p = true -> recorded_value F ann p j = Some x ->
  let w := fst (recorded F ann p j) in
  let J := snd (recorded F ann p j) in
  let bs := t_flat (w_tape w) in
  w_ctrls w = cs ++ [pv] -> ~ In pv cs -> ~ In pv (outs_of bs) -> pv <> J -> ~ In J cs -> closed (w_ctrls w) bs ->
  links_later (link1 pv J) bs -> (forall y, f_mul F y one = y) -> Forall (fun xs => length xs = length cs) l ->
  snd (p_calls F (link1 pv J) bs (RF J cs one) l (w_heap w)) = feedback F ann p j x l.
Proof. exact @p_calls_program. Qed.
Print Assumptions C27_feedback.

(** The test of the repository: e = a*b*d, placeholder on d linked to e. *)
Definition place_demo : list (stmt Z) :=
  [SNew 2%Z; SNew 3%Z; SNew 5%Z; SControl 0; SControl 2; SOp KMul [0; 1]; SOp KMul [3; 2]].
Example C27_demo :
  let w := fst (recorded ZF true place_demo 4) in
  let J := snd (recorded ZF true place_demo 4) in
  let bs := t_flat (w_tape w) in
  (consistent place_demo /\ disciplined true place_demo = true /\ recorded_value ZF true place_demo 4 = Some 30%Z) /\
  (w_ctrls w = [0] ++ [1] /\ ~ In 1 (outs_of bs) /\ J = 4 /\ closed (w_ctrls w) bs /\ links_later (link1 1 J) bs) /\
  feedback ZF true place_demo 4 30%Z [[2%Z]; [2%Z]; [1%Z]; [-1]%Z] = [Ok 180%Z; Ok 1080%Z; Ok 3240%Z; Ok (-9720)%Z] /\
  snd (p_calls ZF (link1 1 J) bs (RF J [0] 1%Z) [[2%Z]; [2%Z]; [1%Z]; [-1]%Z] (w_heap w)) = [Ok 180%Z; Ok 1080%Z; Ok 3240%Z; Ok (-9720)%Z].
Proof.
  cbv zeta. split; [split; [repeat constructor|vm_conj]|].
  assert (Ec : w_ctrls (fst (recorded ZF true place_demo 4)) = [0; 1]) by (vm_compute; reflexivity).
  assert (Eo : map b_outs (t_flat (w_tape (fst (recorded ZF true place_demo 4)))) = [[3]; [4]]) by (vm_compute; reflexivity).
  assert (Ej : snd (recorded ZF true place_demo 4) = 4) by (vm_compute; reflexivity).
  split; [|split; vm_compute; reflexivity]. rewrite Ec, Ej. unfold outs_of. rewrite flat_map_concat_map, Eo.
  destruct (t_flat (w_tape (fst (recorded ZF true place_demo 4)))) as [|b1 [|b2 [|]]]; try discriminate Eo. injection Eo as E1 E2.
  split; [reflexivity|]. split; [cbn; lia|]. split; [reflexivity|]. split.
  - intros b o [<-|[<-|[]]]; rewrite ?E1, ?E2; cbn; lia.
  - intros pre b post p l E L K. unfold link1 in L. destruct (Nat.eqb p 1); [|discriminate]. injection L as <-.
    destruct pre as [|c [|d [|]]]; cbn in E.
    + injection E as <- _. rewrite E1. cbn. lia.
    + injection E as _ _ <-. destruct K.
    + discriminate E.
    + discriminate E.
Qed.

(** C27, derivative: the placeholder behaves as an ordinary variable holding the linked variable's present value; it
    has no influence through the link. *)
Theorem C27_derivative_constant_partial : forall (V : Type) (F : fops V) (lk : nat -> option nat) (bs : list (block V)) (rf : rfun V)
    (a : V) (h : heap V),
  let h' := fun v => match lk v with Some l => set_ckpt (Some (saved h l)) (bv_raw (h l)) (h v) | None => h v end in
  snd (p_derivative F lk bs rf a h) = snd (rf_derivative F bs rf a h').
Proof. exact @p_derivative_feed. Qed.
Print Assumptions C27_derivative_constant_partial.

(** C27, derivative after an evaluation that left the linked values as they were: that of the plain tape evaluated at
    the same controls with the placeholder held at its value. *)
Theorem C27_derivative_settled_partial : forall (V : Type) (F : fops V) (lk : nat -> option nat) (bs : list (block V)) (rf : rfun V)
    (vals : list V) (a : V) (h : heap V),
  (forall v, bv_ctrl (h v) = false) -> length vals = length (rf_ctrls rf) -> lk (rf_J rf) = None ->
  links_ok lk bs (rf_ctrls rf) -> links_later lk bs ->
  (forall p l, lk p = Some l -> saved (fst (p_call F lk bs rf vals h)) l = saved h l) ->
  (forall c, In c (rf_ctrls rf) -> In c (vars_of bs) \/ c = rf_J rf) ->
  let h' := fun v => match lk v with Some l => set_ckpt (Some (saved h l)) (bv_raw (h l)) (h v) | None => h v end in
  snd (p_derivative F lk bs rf a (fst (p_call F lk bs rf vals h))) = snd (rf_derivative F bs rf a (fst (rf_call F bs rf vals h'))).
Proof. exact @p_derivative_settled. Qed.
Print Assumptions C27_derivative_settled_partial.

(** J = x*p + p - 6 with p = 3, x = 2 has J = 3: an evaluation at 2 leaves J as it was, and dJ/dx = 3. *)
Example C27_settled_demo :
  let p := [SNew 2%Z; SNew 3%Z; SNew 6%Z; SControl 0; SControl 1; SOp KMul [0; 1]; SOp KAdd [3; 1]; SOp KSub [4; 2]] in
  let w := fst (recorded ZF true p 5) in
  let J := snd (recorded ZF true p 5) in
  let bs := t_flat (w_tape w) in
  let r := p_call ZF (link1 1 J) bs (RF J [0] 1%Z) [2%Z] (w_heap w) in
  snd r = Ok 3%Z /\ saved (fst r) J = saved (w_heap w) J /\ snd (p_derivative ZF (link1 1 J) bs (RF J [0] 1%Z) 1%Z (fst r)) = Ok [3%Z].
Proof. vm_conj. Qed.

(** C27 is false in general for the derivative: J = (x*p)^2 with p = 1, x = 2 and p linked to J.  The evaluation at 2
    uses p = 4 and gives 64.  The derivative is 1024: that of the same evaluation with p held constant is 64, and with p
    held at the new value 64 it is 16384. *)
Definition place_sq : list (stmt Z) := [SNew 2%Z; SNew 1%Z; SControl 0; SControl 1; SOp KMul [0; 1]; SOp KMul [2; 2]].
Theorem C27_derivative_refuted :
  let w := fst (recorded ZF true place_sq 3) in
  let J := snd (recorded ZF true place_sq 3) in
  let bs := t_flat (w_tape w) in
  let d0 := fun p => snd (rf_derivative ZF bs (RF J [0] 1%Z) 1%Z (fst (rf_call ZF bs (RF J [0; 1] 1%Z) [2%Z; p] (w_heap w)))) in
  exists x : Z,
    let r := p_call ZF (link1 1 J) bs (RF J [0] 1%Z) [x] (w_heap w) in
    snd r = Ok 64%Z /\ spec_rerun ZF true place_sq [x; 4%Z] 3 = Ok 64%Z /\
    snd (p_derivative ZF (link1 1 J) bs (RF J [0] 1%Z) 1%Z (fst r)) = Ok [1024%Z] /\ d0 4%Z = Ok [64%Z] /\ d0 64%Z = Ok [16384%Z].
Proof. exists 2%Z. vm_conj. Qed.
Print Assumptions C27_derivative_refuted.

(** Test: without [links_later] the evaluation uses the new value.  c = x*x, J = c*p with p linked to c: the second
    evaluation gives 9*9 where the previous value of c would give 9*4. *)
Example C27_earlier_variable :
  let p := [SNew 2%Z; SNew 5%Z; SControl 0; SControl 1; SOp KMul [0; 0]; SOp KMul [2; 1]] in
  let w := fst (recorded ZF true p 3) in
  let bs := t_flat (w_tape w) in
  map b_outs bs = [[2]; [3]] /\
  snd (p_call ZF (link1 1 2) bs (RF (snd (recorded ZF true p 3)) [0] 1%Z) [3%Z] (w_heap w)) = Ok 81%Z /\
  saved (w_heap w) 2 = 4%Z.
Proof. vm_conj. Qed.
