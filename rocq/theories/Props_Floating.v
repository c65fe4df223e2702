(** Property theorems: floating objects, whose value is computed from other objects when they are used (C64). *)
From Coq Require Import List Arith ZArith Bool Lia.
From Verif Require Import Base Model Record Spec History Session Instances Floating SpecFloating FloatFacts FloatHist.
Import ListNotations.
Open Scope nat_scope.

(** C64, evaluation: calling the reduced functional re-runs the program, each floating object showing, at each use, its function of
    what its arguments are at that moment in the re-run; value or exception, after any evaluations with these controls and any other calls.
    Partial: floating objects are only arguments of wrapped functions, once per call, and no controls ([legal]; controls: C64_refuted);
    their arguments are not floating themselves; J is not floating. *)
Theorem C64_evaluate_partial : forall (V : Type) (F : fops V) (ann : bool) (p : list (fstmt V)) (j : nat) (vals : list V) (scale : V) (l : list (api V)),
  fconsistent p -> legal F (SSt [] ann None [], []) p ->
  j < length (w_objs (fst (float_exec F ann p))) -> plain (snd (float_exec F ann p)) j ->
  let w := fst (float_recorded F ann p j) in
  let J := snd (float_recorded F ann p j) in
  length vals = length (w_ctrls w) -> own_calls (w_ctrls w) l ->
  snd (rf_call F (t_flat (w_tape w)) (RF J (w_ctrls w) scale) vals (run_hist F (t_flat (w_tape w)) (w_heap w) l)) =
    rmap (fun x => f_mul F x scale) (spec_frerun F ann p vals j).
Proof. exact @float_rerun. Qed.
Print Assumptions C64_evaluate_partial.

(** A wrapped function of one result; its Jacobian row is [d]. *)
Definition blk (f : list Z -> Z) (d : list Z -> nat -> Z) : ublock Z := {|
  u_recompute := fun xs i => match nth_error [f xs] i with Some y => Ok (Some y) | None => Err EIndex end;
  u_adj := fun xs as_ i => Ok (match as_ with Some a :: _ => Some (a * d xs i)%Z | _ => None end);
  u_tlm := fun _ _ _ => Err EType; u_hess := fun _ _ _ _ _ => Err EType |}.
Definition seen (f : list Z -> Z) (d : list Z -> nat -> Z) : ublock Z := {|
  u_recompute := fun xs _ => Ok (Some (f xs));
  u_adj := fun xs as_ i => Ok (match as_ with Some a :: _ => Some (a * d xs i)%Z | _ => None end);
  u_tlm := fun _ _ _ => Err EType; u_hess := fun _ _ _ _ _ => Err EType |}.
Definition total (xs : list Z) : Z := fold_right Z.add 0%Z xs.
Definition prodz (xs : list Z) : Z := fold_right Z.mul 1%Z xs.
Definition wrapped f d args : fstmt Z := FOrd (SUser (blk f d) (fun xs => Ok [f xs]) args true None).

(** x = 3 and y = 4 are controls, f shows x + y; a = f * y, then x is overwritten by 10, b = f * a with f showing 14.
    For x = 5, y = 6: a = 66, b = 16 * 66 (10 stays: the overwriting is not recorded). *)
Definition float_demo : list (fstmt Z) :=
  [FOrd (SNew 3%Z); FOrd (SNew 4%Z); FOrd (SControl 0); FOrd (SControl 1);
   FView (View (seen total (fun _ _ => 1%Z)) total [0; 1] None);
   wrapped prodz (fun _ _ => 0%Z) [2; 1]; FOrd (SUpdate 0 10%Z); wrapped prodz (fun _ _ => 0%Z) [2; 3]].
Example C64_demo : fconsistent float_demo /\ legal ZF (SSt [] true None [], []) float_demo /\
  plain (snd (float_exec ZF true float_demo)) 4 /\
  map (@o_val Z) (w_objs (fst (float_exec ZF true float_demo))) = [10; 4; 14; 28; 392]%Z /\
  length (t_flat (w_tape (fst (float_exec ZF true float_demo)))) = 4 /\
  spec_frerun ZF true float_demo [5; 6]%Z 4 = Ok 1056%Z /\
  let w := fst (float_recorded ZF true float_demo 4) in
  snd (rf_call ZF (t_flat (w_tape w)) (RF (snd (float_recorded ZF true float_demo 4)) (w_ctrls w) 1%Z) [5; 6]%Z (w_heap w)) = Ok 1056%Z.
Proof.
  split; [repeat constructor|]. split; [cbn; repeat split; repeat constructor; cbn; intros []|].
  vm_conj.
Qed.

(** C64 in full is false: Control of a floating object.  Its next use makes a new block variable, computed from the arguments, and the
    control keeps the old one: x = 3, f shows x, m = Control(f), J = 2 f.  Calling the reduced functional with 10 gives 6, not 20. *)
Definition float_ctrl : list (fstmt Z) :=
  [FOrd (SNew 3%Z); FView (View (seen total (fun _ _ => 1%Z)) total [0] None); FOrd (SControl 1); wrapped (fun xs => 2 * total xs)%Z (fun _ _ => 2%Z) [1]].
Theorem C64_refuted : exists (p : list (fstmt Z)) (j : nat) (vals : list Z),
  fconsistent p /\ plain (snd (float_exec ZF true p)) j /\ length vals = length (w_ctrls (fst (float_recorded ZF true p j))) /\
  map (@o_val Z) (w_objs (fst (float_exec ZF true p))) = [3; 3; 6]%Z /\ j = 2 /\ vals = [10%Z] /\
  let w := fst (float_recorded ZF true p j) in
  let J := snd (float_recorded ZF true p j) in
  snd (rf_call ZF (t_flat (w_tape w)) (RF J (w_ctrls w) 1%Z) vals (w_heap w)) = Ok 6%Z /\
  snd (rf_derivative ZF (t_flat (w_tape w)) (RF J (w_ctrls w) 1%Z) 1%Z (w_heap w)) = Ok [0%Z].
Proof. exists float_ctrl, 2, [10%Z]. split; [repeat constructor|]. vm_conj. Qed.
Print Assumptions C64_refuted.
