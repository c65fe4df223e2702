(** Property theorems: numpy_adjoint arrays (C53). *)
From Coq Require Import List Arith ZArith Bool Lia Reals Lra.
From Coquelicot Require Import Coquelicot.
From Verif Require Import Base Model Record Spec History Session Sweep Marks FreshAdj RealInst Calculus Instances PyExp Arrays SpecArr SpecArrR ArrFacts ArrIndex ArrGradR ArrProgR.
Import ListNotations.
Open Scope nat_scope.

(** C53, indices.  The positions of an array that an index selects, or the exception it raises, are those documented for Python
    and numpy ([indexes]), for ints, slices with any bounds and step, lists of ints and lists of bools, and any length. *)
Theorem C53_indices : forall (it : item) (n : nat), indexes it n (picks it n).
Proof. exact index_picks. Qed.
Print Assumptions C53_indices.
Example C53_indices_example :
  picks (IInt (-1)) 5 = Ok [4] /\ picks (IInt 5) 5 = Err EIndex /\ picks (ISlice None None (-2)) 6 = Ok [5; 3; 1] /\
  picks (ISlice (Some 1) (Some (-1)) 2)%Z 6 = Ok [1; 3] /\ picks (ISlice (Some (-9)) (Some 9) 4)%Z 6 = Ok [0; 4] /\
  picks (ISlice (Some 9) (Some 0) (-3))%Z 6 = Ok [5; 2] /\ picks (ISlice None None 0) 6 = Err EValue /\
  picks (IList [2; -1; 2]%Z) 3 = Ok [2; 2; 2] /\ picks (IMask [true; false; true]) 3 = Ok [0; 2] /\ picks (IMask [true]) 3 = Err EIndex.
Proof. repeat split. Qed.

(** C53, recording.  A program that indexes arrays and computes with the resulting floats computes, with annotation on, what it
    computes with ordinary arrays and floats, or raises the same exception. *)
Theorem C53_values : forall (V : Type) (F : fops V) (xs : list (aval V)) (es : list (astmt V)) (tys : list bool), atypes (map is_arr xs) es = Some tys ->
  match avalues F xs es with
  | Ok env => snd (arun F true xs es) = None /\ map o_val (w_objs (fst (arun F true xs es))) = env
  | Err e => snd (arun F true xs es) = Some e
  end.
Proof. exact @arr_records. Qed.
Print Assumptions C53_values.

(** C53, evaluation: the reduced functional of any variable is the program run with the new arrays (of any lengths) and floats,
    before and after any other calls on the tape; same value or same exception.  Partial: well-typed programs ([atypes]), in
    which array arithmetic does not occur; see C53_arithmetic_refuted for the others. *)
Theorem C53_evaluate_partial : forall (V : Type) (F : fops V) (xs : list (aval V)) (es : list (astmt V)) (tys : list bool) (env : list (aval V)) (j : nat)
  (vs : list (aval V)) (scale : V) (l : list (api (aval V))),
  atypes (map is_arr xs) es = Some tys -> avalues F xs es = Ok env -> j < length env -> map is_arr vs = map is_arr xs ->
  let w := fst (get_bv (fst (arun F true xs es)) j) in
  let v := snd (get_bv (fst (arun F true xs es)) j) in
  w_ctrls w = seq 0 (length xs) /\
  (calls_controls w l -> snd (rf_call (AF F) (t_flat (w_tape w)) (RF v (w_ctrls w) (Num scale)) vs (run_hist (AF F) (t_flat (w_tape w)) (w_heap w) l)) =
    rmap (fun y => lift2 (f_mul F) y (Num scale)) (avariable F vs es j)).
Proof. exact @arr_call. Qed.
Print Assumptions C53_evaluate_partial.

(** C53, derivatives over the reals: the derivative of a float variable at the recorded values returns an array for an array
    (or the float 0 for an array that has no influence) and a float for a float, and these are the exact partial derivatives of
    the program.  Partial: no index list names a position twice ([unrepeated], see C53_repeated_refuted). *)
Theorem C53_gradient_partial : forall (xs : list (aval R)) (es : list (astmt R)) (tys : list bool) (env : list (aval R)) (j : nat) (sc : R),
  atypes (map is_arr xs) es = Some tys -> avalues RO xs es = Ok env -> nth_error tys j = Some false -> xs <> [] ->
  unrepeated es env -> gentle (length xs) es env ->
  let w := fst (get_bv (fst (arun RO true xs es)) j) in
  let rf := RF (snd (get_bv (fst (arun RO true xs es)) j)) (w_ctrls w) (Num sc) in
  exists g, snd (rf_derivative (AF RO) (t_flat (w_tape w)) rf (Num 1%R) (w_heap w)) = Ok g /\ Forall2 (fun x y => direction x y \/ y = Num 0%R) xs g /\
    forall d, Forall2 direction xs d ->
    exists y : R -> R, locally 0%R (fun s => avariable RO (moves xs d s) es j = Ok (Num (y s))) /\ is_derive (fun s => (y s * sc)%R) 0%R (apairs g d).
Proof. exact arr_gradient. Qed.
Print Assumptions C53_gradient_partial.

(** ... and at [m], whose arrays may have other lengths, after any calls that end in an evaluation at [m] followed by calls that
    do not evaluate. *)
Theorem C53_gradient_evaluated_partial : forall (xs : list (aval R)) (es : list (astmt R)) (tys : list bool) (env : list (aval R)) (j : nat) (sc : R)
  (l1 : list (api (aval R))) (m envm : list (aval R)) (l2 : list (api (aval R))) (d g : list (aval R)),
  atypes (map is_arr xs) es = Some tys -> avalues RO xs es = Ok env -> nth_error tys j = Some false ->
  map is_arr m = map is_arr xs -> avalues RO m es = Ok envm -> unrepeated es envm -> gentle (length xs) es envm -> Forall2 direction m d ->
  let w := fst (get_bv (fst (arun RO true xs es)) j) in
  let rf := RF (snd (get_bv (fst (arun RO true xs es)) j)) (w_ctrls w) (Num sc) in
  let bs := t_flat (w_tape w) in
  let h := run_hist (AF RO) bs (fst (rf_call (AF RO) bs rf m (run_hist (AF RO) bs (w_heap w) l1))) l2 in
  used (length xs) j es \/ seeds_on bs (rf_J rf) (l1 ++ l2) -> calls_controls w l1 -> forallb (fun a => negb (is_call a)) l2 = true ->
  snd (rf_derivative (AF RO) bs rf (Num 1%R) h) = Ok g ->
  Forall2 (fun x y => direction x y \/ y = Num 0%R) m g /\
  exists y : R -> R, locally 0%R (fun s => avariable RO (moves m d s) es j = Ok (Num (y s))) /\ is_derive (fun s => (y s * sc)%R) 0%R (apairs g d).
Proof. exact arr_gradient_evaluated. Qed.
Print Assumptions C53_gradient_evaluated_partial.

(** That derivative is returned if the earlier calls returned. *)
Theorem C53_gradient_returns_partial : forall (xs : list (aval R)) (es : list (astmt R)) (tys : list bool) (env : list (aval R)) (j : nat) (sc : R)
  (l1 : list (api (aval R))) (m envm : list (aval R)) (l2 : list (api (aval R))),
  atypes (map is_arr xs) es = Some tys -> avalues RO xs es = Ok env -> nth_error tys j = Some false -> xs <> [] ->
  map is_arr m = map is_arr xs -> avalues RO m es = Ok envm -> unrepeated es envm -> gentle (length xs) es envm ->
  let w := fst (get_bv (fst (arun RO true xs es)) j) in
  let rf := RF (snd (get_bv (fst (arun RO true xs es)) j)) (w_ctrls w) (Num sc) in
  let bs := t_flat (w_tape w) in
  let h := run_hist (AF RO) bs (fst (rf_call (AF RO) bs rf m (run_hist (AF RO) bs (w_heap w) l1))) l2 in
  used (length xs) j es \/ seeds_on bs (rf_J rf) (l1 ++ l2) -> calls_controls w l1 -> forallb (fun a => negb (is_call a)) l2 = true -> all_ok (AF RO) bs (w_heap w) (l1 ++ ACall rf m :: l2) = true ->
  exists g, snd (rf_derivative (AF RO) bs rf (Num 1%R) h) = Ok g.
Proof. exact arr_gradient_returns. Qed.
Print Assumptions C53_gradient_returns_partial.

(** [a = [3, 5, 7]; x = 2; b = a[1:]; s = b[-1]; t = a[0]; u = s*x; v = u + t; w = t*v]: [w = t*(s*x + t)]. *)
Definition arr_demo {V} : list (astmt V) :=
  [AItem 0 (ISlice (Some 1%Z) None 1%Z); AItem 2 (IInt (-1)%Z); AItem 0 (IInt 0%Z); AOp KMul [3; 1]; AOp KAdd [5; 4]; AOp KMul [4; 6]].
Definition arr_rf (xs : list (aval Z)) (es : list (astmt Z)) (j : nat) (vs : list (aval Z)) : res (aval Z) :=
  let '(w, v) := get_bv (fst (arun ZF true xs es)) j in
  snd (rf_call (AF ZF) (t_flat (w_tape w)) (RF v (w_ctrls w) (Num 1%Z)) vs (w_heap w)).
Definition arr_grad (xs : list (aval Z)) (es : list (astmt Z)) (j : nat) : res (list (aval Z)) :=
  let '(w, v) := get_bv (fst (arun ZF true xs es)) j in
  snd (rf_derivative (AF ZF) (t_flat (w_tape w)) (RF v (w_ctrls w) (Num 1%Z)) (Num 1%Z) (w_heap w)).
Example C53_demo : atypes [true; false] (@arr_demo Z) = Some [true; false; true; false; false; false; false; false] /\
  avalues ZF [Arr [3; 5; 7]; Num 2]%Z arr_demo = Ok [Arr [3; 5; 7]; Num 2; Arr [5; 7]; Num 7; Num 3; Num 14; Num 17; Num 51]%Z /\
  snd (arun ZF true [Arr [3; 5; 7]; Num 2]%Z arr_demo) = None /\
  arr_rf [Arr [3; 5; 7]; Num 2]%Z arr_demo 7 [Arr [1; 2; 3; 4]; Num 10]%Z = Ok (Num 41%Z) /\ avariable ZF [Arr [1; 2; 3; 4]; Num 10]%Z arr_demo 7 = Ok (Num 41%Z) /\
  arr_rf [Arr [3; 5; 7]; Num 2]%Z arr_demo 7 [Arr [1]; Num 10]%Z = Err EIndex /\ avariable ZF [Arr [1]; Num 10]%Z arr_demo 7 = Err EIndex /\
  arr_grad [Arr [3; 5; 7]; Num 2]%Z arr_demo 7 = Ok [Arr [20; 0; 6]; Num 21]%Z.
Proof. vm_conj. Qed.
(** The same program over the reals meets the conditions for gradients; so does one with a power and a list of positions. *)
Example C53_gradient_demo : forall a b c x : R, let xs := [Arr [a; b; c]; Num x] in
  exists env, atypes (map is_arr xs) (@arr_demo R) = Some [true; false; true; false; false; false; false; false] /\ avalues RO xs arr_demo = Ok env /\
  unrepeated arr_demo env /\ gentle (length xs) arr_demo env /\ used (length xs) 7 (@arr_demo R).
Proof.
  intros a b c x xs. eexists. split; [reflexivity|]. split; [reflexivity|]. split; [|split].
  - intros i it l H _. cbn in H. unfold distinct. repeat destruct H as [H|H]; try discriminate H; try injection H as <- <-; try exact I. destruct H.
  - split; [intros i k u v H|intros k i i' u v H]; cbn in H; repeat destruct H as [H|H]; try discriminate H; destruct H.
  - intros [|[|i]] H; [right; exists (AItem 0 (ISlice (Some 1%Z) None 1%Z))|right; exists (AOp KMul [3; 1])|cbn in H; lia]; cbn; intuition.
Qed.
(** [a = [p, q, r]; n = 3.0; b = a[[2, 0]]; s = b[0]; t = b[1]; u = s ** n; v = max(t, u)] *)
Definition arr_pow : list (astmt R) :=
  [ALit (Num 3%R); AItem 0 (IList [2; 0]%Z); AItem 2 (IInt 0%Z); AItem 2 (IInt 1%Z); AOp KPow [3; 1]; AFun KMax [4; 5]].
Example C53_power_demo : let xs := [Arr [1; 5; 2]%R] in
  exists env, atypes (map is_arr xs) arr_pow = Some [true; false; true; false; false; false; false] /\ avalues RO xs arr_pow = Ok env /\
  unrepeated arr_pow env /\ gentle (length xs) arr_pow env /\ used (length xs) 6 arr_pow.
Proof.
  assert (P : f_pow RO 2%R 3%R = Ok (powerRZ 2 3)) by (apply (Rpow_int 2 3); now left).
  intros xs. eexists. split; [reflexivity|]. split; [|split; [|split]].
  - cbn -[RO]. change (Pos.to_nat 2) with 2. cbn -[RO]. rewrite P. cbn -[RO powerRZ]. reflexivity.
  - intros i it l H E. cbn in H. unfold distinct. repeat destruct H as [H|H]; try discriminate H; try injection H as <- <-; try exact I; [|destruct H]. cbn in E. injection E as <-. cbn. repeat constructor; cbn; lia.
  - split.
    + intros i k u v H E1 E2. cbn in H. repeat destruct H as [H|H]; try discriminate H; [|destruct H]. injection H as <- <-. cbn in E1. injection E1 as <-. left. lra.
    + intros k i i' u v H _ E1 E2. cbn in H. repeat destruct H as [H|H]; try discriminate H; [|destruct H]. injection H as <- <- <-. cbn -[RO powerRZ] in E1, E2. injection E1 as <-. injection E2 as <-. cbn. lra.
  - intros [|i] H; [right; exists (AItem 0 (IList [2; 0]%Z))|cbn in H; lia]; cbn; intuition.
Qed.

(** C53 in full is false: the adjoint of an index list assigns to the selected positions, where it should add.
    [b = a[[0, 0]]; J = b[0] + b[1]]: the derivative of [a[0] + a[0]] is given as 1. *)
Definition arr_twice : list (astmt R) := [AItem 0 (IList [0; 0]%Z); AItem 1 (IInt 0%Z); AItem 1 (IInt 1%Z); AOp KAdd [2; 3]].
Theorem C53_repeated_refuted : exists (xs : list (aval R)) (es : list (astmt R)) (tys : list bool) (env : list (aval R)) (j : nat) (g d : list (aval R)),
  atypes (map is_arr xs) es = Some tys /\ avalues RO xs es = Ok env /\ nth_error tys j = Some false /\ gentle (length xs) es env /\ used (length xs) j es /\
  (let w := fst (get_bv (fst (arun RO true xs es)) j) in
   let rf := RF (snd (get_bv (fst (arun RO true xs es)) j)) (w_ctrls w) (Num 1%R) in
   snd (rf_derivative (AF RO) (t_flat (w_tape w)) rf (Num 1%R) (w_heap w)) = Ok g) /\ Forall2 direction xs d /\
  ~ exists y : R -> R, locally 0%R (fun s => avariable RO (moves xs d s) es j = Ok (Num (y s))) /\ is_derive (fun s => (y s * 1)%R) 0%R (apairs g d).
Proof.
  exists [Arr [3%R]], arr_twice, [true; true; false; false; false], [Arr [3%R]; Arr [3%R; 3%R]; Num 3%R; Num 3%R; Num (3 + 3)%R], 4, [Arr [(1 * 1 + 0)%R]], [Arr [1%R]].
  split; [reflexivity|]. split; [reflexivity|]. split; [reflexivity|]. split; [|split; [|split; [|split]]].
  - split; [intros i k u v H|intros k i i' u v H]; cbn in H; repeat destruct H as [H|H]; try discriminate H; destruct H.
  - intros [|i] H; [right; exists (AItem 0 (IList [0; 0]%Z))|cbn in H; lia]; cbn; intuition.
  - vm_compute. reflexivity.
  - repeat constructor.
  - intros [y [A B]]. assert (C : is_derive (fun s => (y s * 1)%R) 0%R 2%R).
    { apply (is_derive_ext_loc (fun s => ((3 + s * 1) + (3 + s * 1))%R)); [|auto_derive; [exact I|ring]]. revert A. apply filter_imp. intros s A.
      replace (avariable RO (moves [Arr [3%R]] [Arr [1%R]] s) arr_twice 4) with (Ok (Num ((3 + s * 1) + (3 + s * 1))%R)) in A by reflexivity. injection A as A. change (((3 + s * 1) + (3 + s * 1))%R = (y s * 1)%R). lra. }
    pose proof (is_derive_unique _ _ _ B) as B'. pose proof (is_derive_unique _ _ _ C) as C'. rewrite B' in C'. cbn in C'. lra.
Qed.
Print Assumptions C53_repeated_refuted.

(** Array arithmetic is numpy's and is not recorded: [b = a + a; J = b[0]] recorded with [a = [3]] and evaluated at [a = [5]] gives 6. *)
Theorem C53_arithmetic_refuted : exists (xs : list (aval Z)) (es : list (astmt Z)) (j : nat) (vs : list (aval Z)) (y : Z),
  snd (arun ZF true xs es) = None /\ arr_rf xs es j vs = Ok (Num y) /\
  map o_val (w_objs (fst (arun ZF true vs es))) <> [] /\ nth_error (map o_val (w_objs (fst (arun ZF true vs es)))) j <> Some (Num y).
Proof. exists [Arr [3%Z]], [AOp KAdd [0; 0]; AItem 1 (IInt 0%Z)], 2, [Arr [5%Z]], 6%Z. repeat split; try (vm_compute; reflexivity); vm_compute; discriminate. Qed.
Print Assumptions C53_arithmetic_refuted.

(** Hessians of programs with indexed arrays raise NotImplementedError: indexing has no tangent-linear model. [J = a[0] * a[0]]. *)
Theorem C53_hessian_refuted : exists (xs : list (aval Z)) (es : list (astmt Z)) (j : nat) (d : list (aval Z)),
  let '(w, v) := get_bv (fst (arun ZF true xs es)) j in
  let rf := RF v (w_ctrls w) (Num 1%Z) in
  let r := rf_derivative (AF ZF) (t_flat (w_tape w)) rf (Num 1%Z) (w_heap w) in
  snd (arun ZF true xs es) = None /\ snd r = Ok [Arr [6%Z]] /\ snd (rf_hessian (AF ZF) (t_flat (w_tape w)) rf d (fst r)) = Err ENotImpl.
Proof. exists [Arr [3%Z]], [AItem 0 (IInt 0%Z); AOp KMul [1; 1]], 2, [Arr [1%Z]]. vm_compute. repeat split. Qed.
Print Assumptions C53_hessian_refuted.
