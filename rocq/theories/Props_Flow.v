(** Property theorems: Python programs with if and while over recorded floats (C63). *)
From Coq Require Import List Arith ZArith Bool Lia Reals Lra.
From Coquelicot Require Import Coquelicot.
From Verif Require Import Base Model BaseFacts Graph Record Spec RecordFacts Replay ReplayExec History Session Sweep SpecGraph Marks FreshAdj Dual TlmSweep RealInst Calculus Gradient Instances PyExp SpecPy PyFacts PyProg PyGradR PyFlow SpecFlow FlowFacts FlowGradR Props_PyExp.
Import ListNotations.
Open Scope nat_scope.

(** C63, recording: with annotation on, a program with if and while that ends (or raises) on ordinary numbers ends with the same
    numbers in its variables (or raises the same exception).  [k]: how many steps it takes. *)
Theorem C63_values : forall (V : Type) (F : fops V) (P : pyops V),
  (forall a b, f_add F a b = f_add F b a) -> (forall a b, f_mul F a b = f_mul F b a) ->
  forall (xs : list V) (p : prog V) (ds : list bool) (r : res (list (V * bool) * list bool)),
  runs F P supported anyC (started xs) p ds r ->
  exists k, forall fuel, k <= fuel -> exists w out, flow_run F P fuel xs p = Some (w, out) /\
  match r with
  | Ok (env, _) => exists vars, out = Ok vars /\ map is_obj vars = map snd env /\ Forall2 (fun x v => py_val w x = Ok v) vars (map fst env)
  | Err e => out = Err e
  end.
Proof. exact @flow_values. Qed.
Print Assumptions C63_values.

(** C63, evaluation: the reduced functional of any recorded variable gives, for new numbers, what the program gives for them, value
    or exception, before and after any other calls.  Partial: for numbers at which the comparisons come out as they did when the
    program was recorded ([ds]); see C63_refuted. *)
Theorem C63_evaluate_partial : forall (V : Type) (F : fops V) (P : pyops V),
  (forall a b, f_add F a b = f_add F b a) -> (forall a b, f_mul F a b = f_mul F b a) ->
  forall (xs : list V) (p : prog V) (ds : list bool) (env : list (V * bool)) (rest : list bool) (fuel : nat) (w0 : world V) (vars : list (pval V))
    (j o : nat) (vals : list V) (scale : V) (l : list (api V)),
  runs F P supported anyC (started xs) p ds (Ok (env, rest)) ->
  flow_run F P fuel xs p = Some (w0, Ok vars) -> nth_error vars j = Some (PObj o) -> length vals = length xs ->
  let w := fst (get_bv w0 o) in
  let v := snd (get_bv w0 o) in
  w_ctrls w = seq 0 (length xs) /\
  (calls_controls w l -> forall r, runs F P anyE anyC (started vals) p ds r ->
    snd (rf_call F (t_flat (w_tape w)) (RF v (w_ctrls w) scale) vals (run_hist F (t_flat (w_tape w)) (w_heap w) l)) = rmap (fun y => f_mul F y scale) (result_at r j)).
Proof. exact @flow_call. Qed.
Print Assumptions C63_evaluate_partial.

(** C63, derivatives over the reals: for expressions without powers, min and max the derivative is the exact gradient of the whole
    program, branches and loops included, at the recorded numbers.  Partial: where no recorded float is compared with a number
    equal to it ([apart]; counters of loops may meet their bounds); see C63_gradient_refuted. *)
Theorem C63_gradient_partial : forall (P : pyops R) (xs : list R) (p : prog R) (ds : list bool) (env : list (R * bool)) (rest : list bool) (fuel : nat)
    (w0 : world R) (vars : list (pval R)) (j o : nat) (sc : R),
  runs RO P calculus apart (started xs) p ds (Ok (env, rest)) ->
  flow_run RO P fuel xs p = Some (w0, Ok vars) -> nth_error vars j = Some (PObj o) -> xs <> [] ->
  let w := fst (get_bv w0 o) in
  let rf := RF (snd (get_bv w0 o)) (w_ctrls w) sc in
  let bs := t_flat (w_tape w) in
  exists g, snd (rf_derivative RO bs rf 1%R (w_heap w)) = Ok g /\ length g = length xs /\
    forall d, length d = length xs -> exists y : R -> R,
      locally 0%R (fun s => exists r, runs RO P anyE anyC (started (shift xs d s)) p ds r /\ result_at r j = Ok (y s)) /\
      is_derive (fun s => (y s * sc)%R) 0%R (dot RO g d).
Proof. exact flow_gradient. Qed.
Print Assumptions C63_gradient_partial.

(** ... and at [m] after any calls that end in an evaluation at [m], where the program takes the recorded decisions, followed by calls
    that do not evaluate. *)
Theorem C63_gradient_evaluated_partial : forall (P : pyops R) (xs : list R) (p : prog R) (ds : list bool) (env : list (R * bool)) (rest : list bool) (fuel : nat)
    (w0 : world R) (vars : list (pval R)) (j o : nat) (sc : R) (l1 : list (api R)) (m : list R) (envm : list (R * bool)) (l2 : list (api R)) (d g : list R),
  runs RO P calculus anyC (started xs) p ds (Ok (env, rest)) ->
  flow_run RO P fuel xs p = Some (w0, Ok vars) -> nth_error vars j = Some (PObj o) ->
  let w := fst (get_bv w0 o) in
  let rf := RF (snd (get_bv w0 o)) (w_ctrls w) sc in
  let bs := t_flat (w_tape w) in
  let h1 := run_hist RO bs (w_heap w) l1 in
  let h := run_hist RO bs (fst (rf_call RO bs rf m h1)) l2 in
  on_tape bs (w_ctrls w) \/ seeds_on bs (rf_J rf) (l1 ++ l2) -> calls_controls w l1 -> calm l2 -> length m = length xs -> length d = length xs ->
  runs RO P anyE apart (started m) p ds (Ok (envm, rest)) -> snd (rf_derivative RO bs rf 1%R h) = Ok g ->
  exists y : R -> R,
    locally 0%R (fun s => exists r, runs RO P anyE anyC (started (shift m d s)) p ds r /\ result_at r j = Ok (y s)) /\
    is_derive (fun s => (y s * sc)%R) 0%R (dot RO g d).
Proof. exact flow_gradient_evaluated. Qed.
Print Assumptions C63_gradient_evaluated_partial.

(** The specification is unambiguous: a program ends in one way only, with one list of decisions. *)
Theorem C63_deterministic : forall (V : Type) (F : fops V) (P : pyops V) (okE okE' : list bool -> pexp V -> bool) (okC okC' : bool -> V -> V -> Prop)
  (env : list (V * bool)) (p : prog V) (ds : list bool) (r : res (list (V * bool) * list bool)), runs F P okE okC env p ds r ->
  forall ds' r', runs F P okE' okC' env p ds' r' ->
  match r, r' with
  | Ok (e1, rest), Ok (e2, rest') => e1 = e2 /\ exists used, ds = used ++ rest /\ ds' = used ++ rest'
  | Err a, Err b => a = b
  | _, _ => False
  end.
Proof. exact @runs_det. Qed.
Print Assumptions C63_deterministic.

(** [y = x; i = 0; while i < 2: y = y + x*i; i = i + 1
    while y < 50: y = y*x
    if y > 100: y = y - 1 else: y = y*2] *)
Definition flow_demo : prog Z :=
  Seq (Assign 1 (PVar 0)) (Seq (Assign 2 (PLit true 0%Z))
  (Seq (While CmpLt (PVar 2) (PLit true 2%Z) (Seq (Assign 1 (PBin BAdd (PVar 1) (PBin BMul (PVar 0) (PVar 2)))) (Assign 2 (PBin BAdd (PVar 2) (PLit true 1%Z)))))
  (Seq (While CmpLt (PVar 1) (PLit true 50%Z) (Assign 1 (PBin BMul (PVar 1) (PVar 0))))
  (If CmpGt (PVar 1) (PLit true 100%Z) (Assign 1 (PBin BSub (PVar 1) (PLit true 1%Z))) (Assign 1 (PBin BMul (PVar 1) (PLit true 2%Z))))))).
Definition flow_rf (fuel : nat) (xs : list Z) (p : prog Z) (j : nat) (vals : list Z) : option (res Z) :=
  match flow_run ZF ZP fuel xs p with
  | Some (w0, Ok vars) => match nth_error vars j with
      | Some (PObj o) => let '(w, v) := get_bv w0 o in Some (snd (rf_call ZF (t_flat (w_tape w)) (RF v (w_ctrls w) 1%Z) vals (w_heap w)))
      | _ => None
      end
  | _ => None
  end.
Ltac run_z := repeat first
  [ eapply r_while
  | eapply r_seq
  | lazymatch goal with |- runs _ _ _ _ ?env (If ?c ?x ?y ?a ?b) (?d :: _) _ =>
      let u := eval vm_compute in (number ZF ZP (map fst env) x) in let v := eval vm_compute in (number ZF ZP (map fst env) y) in
      lazymatch u with Ok ?u' => lazymatch v with Ok ?v' => change d with (decided ZF c u' v'); eapply (r_if _ _ _ _ env c x y a b u' v'); [reflexivity|reflexivity|reflexivity|reflexivity|exact I|cbv beta iota delta [decided ZF f_lt f_le Z.ltb Z.leb Z.compare Pos.compare Pos.compare_cont CompOpp andb negb]] end end
    end
  | lazymatch goal with |- runs _ _ _ _ ?env (Assign ?i ?e) ?ds _ =>
      let v := eval vm_compute in (number ZF ZP (map fst env) e) in
      lazymatch v with Ok ?v' => let t := constr:(assigned env i (v', recorded_float (map snd env) e)) in let t' := eval vm_compute in t in
        let H := fresh in pose proof (r_assign ZF ZP supported anyC env i e v' ds eq_refl eq_refl ltac:(cbn; lia)) as H; change (assigned _ _ _) with t' in H; exact H end
    end
  | apply r_skip ].
Example C63_demo_runs : runs ZF ZP supported anyC (started [5%Z]) flow_demo [true; true; false; true; false; false] (Ok ([(5, true); (100, true); (2, false)]%Z, [])).
Proof. unfold flow_demo, started. cbn [map]. run_z. Qed.
(** Recorded at 5, evaluated at 6, where the decisions are the same: 144. *)
Example C63_demo : runs ZF ZP supported anyC (started [6%Z]) flow_demo [true; true; false; true; false; false] (Ok ([(6, true); (144, true); (2, false)]%Z, [])) /\
  flow_rf 20 [5%Z] flow_demo 1 [6%Z] = Some (Ok 144%Z) /\ flow_rf 20 [5%Z] flow_demo 1 [5%Z] = Some (Ok 100%Z).
Proof. split; [unfold flow_demo, started; cbn [map]; run_z|]. vm_conj. Qed.
(** An exception of the program is the exception of the evaluation: [if x < 10: y = x / (x - 3.0)] recorded at 4, evaluated at 3. *)
Definition flow_raise : prog Z := If CmpLt (PVar 0) (PLit true 10%Z) (Assign 1 (PBin BDiv (PVar 0) (PBin BSub (PVar 0) (PLit false 3%Z)))) Skip.
Example C63_demo_exception : runs ZF ZP supported anyC (started [4%Z]) flow_raise [true] (Ok ([(4, true); (4, true)]%Z, [])) /\
  runs ZF ZP supported anyC (started [3%Z]) flow_raise [true] (Err EZeroDiv) /\ flow_rf 9 [4%Z] flow_raise 1 [3%Z] = Some (Err EZeroDiv).
Proof.
  split; [unfold flow_raise, started; cbn [map]; run_z|]. split; [|vm_compute; reflexivity].
  change true with (decided ZF CmpLt 3%Z 10%Z). eapply (r_if ZF ZP supported anyC (started [3%Z])); [reflexivity|reflexivity|reflexivity|reflexivity|exact I|]. apply r_assign_raise; reflexivity.
Qed.

(** C63 in full is false: the tape keeps the branches taken when recording.  The same program recorded at 5, at 2: the tape goes
    once round the second loop and gives 16, the program goes round it four times and gives 128. *)
Theorem C63_refuted : exists (xs : list Z) (p : prog Z) (ds ds' : list bool) (env env' : list (Z * bool)) (fuel j : nat) (vals : list Z) (a b : Z),
  runs ZF ZP supported anyC (started xs) p ds (Ok (env, [])) /\ runs ZF ZP supported anyC (started vals) p ds' (Ok (env', [])) /\ length vals = length xs /\
  result_at (Ok (env', [])) j = Ok a /\ flow_rf fuel xs p j vals = Some (Ok b) /\ a <> b /\ flow_rf fuel xs p j xs = Some (result_at (Ok (env, [])) j).
Proof.
  exists [5%Z], flow_demo, [true; true; false; true; false; false], [true; true; false; true; true; true; true; false; false], [(5, true); (100, true); (2, false)]%Z, [(2, true); (128, true); (2, false)]%Z, 20, 1, [2%Z], 128%Z, 16%Z.
  split; [exact C63_demo_runs|]. split; [unfold flow_demo, started; cbn [map]; run_z|]. split; [reflexivity|]. split; [reflexivity|]. split; [vm_compute; reflexivity|]. split; [discriminate|]. vm_compute. reflexivity.
Qed.
Print Assumptions C63_refuted.

(** Derivatives where a recorded float meets a number compared with it: [if x == 2: y = 4 + 0*x else: y = x*x] is [x*x] for every
    [x], its derivative at 2 is 4, and the one from the tape is not. *)
Theorem C63_gradient_refuted : forall P : pyops R, exists (p : prog R) (xs : list R) (fuel : nat) (w0 : world R) (vars : list (pval R)) (o : nat) (g : list R),
  flow_run RO P fuel xs p = Some (w0, Ok vars) /\ nth_error vars 1 = Some (PObj o) /\
  (let w := fst (get_bv w0 o) in snd (rf_derivative RO (t_flat (w_tape w)) (RF (snd (get_bv w0 o)) (w_ctrls w) 1%R) 1%R (w_heap w)) = Ok g) /\
  (forall d s, exists ds r, runs RO P anyE anyC (started (shift xs [d] s)) p ds r /\ result_at r 1 = Ok ((2 + s * d) * (2 + s * d))%R) /\
  ~ is_derive (fun s => ((2 + s * 1) * (2 + s * 1))%R) 0%R (dot RO g [1%R]).
Proof. exact flow_tie. Qed.
Print Assumptions C63_gradient_refuted.

(** [if x < 10: y = exp(x)*x else: y = x] at 3: the hypotheses of the gradient theorem. *)
Definition flow_calc : prog R := If CmpLt (PVar 0) (PLit true 10%R) (Assign 1 (PBin BMul (PFun1 FExp (PVar 0)) (PVar 0))) (Assign 1 (PVar 0)).
Example C63_gradient_demo : forall P : pyops R, exists env, runs RO P calculus apart (started [3%R]) flow_calc [true] (Ok (env, [])) /\
  exists k, forall fuel, k <= fuel -> exists w vars o, flow_run RO P fuel [3%R] flow_calc = Some (w, Ok vars) /\ nth_error vars 1 = Some (PObj o).
Proof.
  intros P. assert (D : decided RO CmpLt 3%R 10%R = true) by (cbn; unfold Rlt_b; destruct (Rlt_dec 3 10); [reflexivity | exfalso; lra]).
  set (e := PBin BMul (PFun1 FExp (PVar 0)) (PVar 0) : pexp R).
  assert (G : forall okE (okC : bool -> R -> R -> Prop), (forall b, supported [true] b = true -> elementary b = true -> okE [true] b = true) -> okC true 3%R 10%R ->
    runs RO P okE okC (started [3%R]) flow_calc [true] (Ok ([(3, true); (exp 3 * 3, true)]%R, []))).
  { intros okE okC HE HC. rewrite <- D. apply (r_if RO P okE okC (started [3%R]) CmpLt (PVar 0) (PLit true 10%R) (Assign 1 e) (Assign 1 (PVar 0)) 3%R 10%R);
      [now apply HE | now apply HE | reflexivity | reflexivity | exact HC|]. rewrite D.
    exact (r_assign RO P okE okC (started [3%R]) 1 e (exp 3 * 3)%R [] (HE e eq_refl eq_refl) eq_refl (le_n 1)). }
  exists [(3, true); (exp 3 * 3, true)]%R. split; [apply G; [intros b Hs He; unfold calculus; now rewrite Hs, He | intros _; lra]|].
  destruct (C63_values R RO P Rplus_comm Rmult_comm [3%R] flow_calc [true] _ (G supported anyC (fun b Hs _ => Hs) I)) as [k Hk].
  exists k. intros fuel Hf. destruct (Hk fuel Hf) as (w & out & E & vars & -> & Ho & _). cbn in Ho.
  destruct vars as [|a [|[? ?|o] [|? ?]]]; cbn in Ho; try discriminate Ho. exists w, [a; PObj o], o. split; [exact E | reflexivity].
Qed.
