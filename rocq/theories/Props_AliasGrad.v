(** Property theorems: derivatives of array programs in memory (C59). *)
From Coq Require Import List Arith ZArith Bool Lia Reals.
From Coquelicot Require Import Coquelicot.
From Verif Require Import Base Model Record Instances Spec PyExp Arrays SpecArr RealInst SpecArrR ArrProgR Alias SpecAlias AliasFacts AliasGrad SpecAliasGrad AliasGradRun AliasGradR.
Import ListNotations.
Open Scope nat_scope.

(** C59.  Tape, adjoint values and user keep their arrays in one memory; adjoint values are added up in place and handed out as
    they are.  The user makes arrays, indexes and writes into them, evaluates reduced functionals on the tape, takes
    derivatives of any of its variables and writes into these, in any order.  Then the derivative taken after evaluating variable
    [j] at what the user's variables held at that moment is returned, and the arrays the user sees are the partial derivatives
    of the program at that point times the scale ([Num 0] for a control without influence).
    Partial: index lists without repetition ([unrepeated]), differentiable points ([gentle]), float functionals; if [j] does
    not use every control, no derivative of a variable outside the tape was taken. *)
Theorem C59_gradient_partial : forall (xs : list (aval R)) (es : list (astmt R)) (tys : list bool) (env : list (aval R)) (j : nat) (sc : R),
  atypes (map is_arr xs) es = Some tys -> avalues RO xs es = Ok env -> nth_error tys j = Some false -> xs <> [] ->
  let w := fst (get_bv (fst (arun RO true xs es)) j) in
  let v := snd (get_bv (fst (arun RO true xs es)) j) in
  forall rbs, Forall2 (same_block RO) rbs (t_flat (w_tape w)) ->
  forall gs0 evs1 vs evs2 args envm, sound (g_user gs0) -> apart (g_user gs0) -> agrees RO (u_tape (g_user gs0)) (w_heap w) -> untouched gs0 ->
  let call := GUse (ECall v (w_ctrls w) sc vs) in
  let gs1 := grun RO rbs gs0 evs1 in
  let gs := grun RO rbs gs0 (evs1 ++ call :: evs2) in
  let m := map (deref RO (r_mem (u_tape (g_user gs1)))) args in
  let r := gstep RO rbs gs (GDeriv v (w_ctrls w) sc 1%R) in
  gbehaves RO (w_ctrls w) rbs gs0 (evs1 ++ call :: evs2) -> forallb (fun ev => negb (evaluates ev)) evs2 = true ->
  used (length xs) j es \/ (forall J cs sc' a, In (GDeriv J cs sc' a) (evs1 ++ evs2) -> on_blocks rbs J = true \/ J = v) ->
  mapM (var_ref (g_user gs1)) vs = Ok args -> map is_arr m = map is_arr xs -> avalues RO m es = Ok envm -> unrepeated es envm -> gentle (length xs) es envm ->
  (returned RO rbs gs0 (evs1 ++ call :: evs2) = true -> snd r = None) /\
  (snd r = None -> exists g, length g = length xs /\ (forall i, i < length xs -> seen RO (g_user (fst r)) (length (u_vars (g_user gs)) + i) = nth_error g i) /\
    List.Forall2 (fun x y => direction x y \/ y = Num 0%R) m g /\
    forall d, List.Forall2 direction m d ->
    exists y : R -> R, locally 0%R (fun s => avariable RO (moves m d s) es j = Ok (Num (y s))) /\ is_derive (fun s => (y s * sc)%R) 0%R (apairs g d)).
Proof. exact alias_gradient. Qed.
Print Assumptions C59_gradient_partial.

(** Any arithmetic.  What the user does, except writing, changes none of their variables: evaluations and derivatives leave the
    values, gradients and arrays they have alone.  Derivatives change no stored value.  The arrays the user made and the
    gradients they got stay apart from the arrays of the tape. *)
Theorem C59_frame : forall (V : Type) (F : fops V) xs es tys env j, atypes (map is_arr xs) es = Some tys -> avalues F xs es = Ok env -> j < length env ->
  let w := fst (get_bv (fst (arun F true xs es)) j) in
  forall rbs, Forall2 (same_block F) rbs (t_flat (w_tape w)) ->
  forall gs0 evs ev, sound (g_user gs0) -> apart (g_user gs0) -> agrees F (u_tape (g_user gs0)) (w_heap w) -> untouched gs0 -> gbehaves F (w_ctrls w) rbs gs0 (evs ++ [ev]) ->
  let gs := grun F rbs gs0 evs in
  let gs' := fst (gstep F rbs gs ev) in
  (writes ev = false -> forall u, u < length (u_vars (g_user gs)) -> seen F (g_user gs') u = seen F (g_user gs) u) /\
  (forall J cs sc a v, ev = GDeriv J cs sc a -> stored F (g_user gs') v = stored F (g_user gs) v) /\
  apart (g_user gs').
Proof. exact @alias_frame. Qed.
Print Assumptions C59_frame.

(** [a = [3, 5, 7]; x = 2; b = a[1:]; s = b[-1]; t = a[2]; p = s*t; u = p*x]: two adjoints meet at [a]. *)
Definition twice_prog {V : Type} : list (astmt V) := [AItem 0 (ISlice (Some 1%Z) None 1%Z); AItem 2 (IInt (-1)%Z); AItem 0 (IInt 2%Z); AOp KMul [3; 4]; AOp KMul [5; 1]].
Definition twice_blocks {V : Type} : list (rblk V) :=
  [RItem (ISlice (Some 1%Z) None 1%Z) 0 2; RItem (IInt (-1)%Z) 2 3; RItem (IInt 2%Z) 0 4; RKind KMul [3; 4] 5; RKind KMul [5; 1] 6].
Definition twice_start {V : Type} (F : fops V) (xs : list (aval V)) : gstate V :=
  GSt (USt (copies (w_heap (fst (get_bv (fst (arun F true xs twice_prog)) 6))) 7) []) (fun _ => None) (fun _ => false).
(** [a = [1, 2, 3]; x = 10; rf([a, x]); g, h = rf.derivative(); g[2] = 0; a[2] = 4; rf([a, x]); k, l = rf.derivative()] *)
Definition twice_events : list (gevent Z) :=
  [GUse (ENew [1; 2; 3]); GUse (EFloat 10); GUse (ECall 6 [0%nat; 1%nat] 1 [0%nat; 1%nat]); GDeriv 6 [0%nat; 1%nat] 1 1; GUse (ESet 3 2 0); GUse (ESet 0 2 4);
   GUse (ECall 6 [0%nat; 1%nat] 1 [0%nat; 1%nat]); GDeriv 6 [0%nat; 1%nat] 1 1]%Z.
Example C59_run_demo :
  map (seen ZF (g_user (grun ZF twice_blocks (twice_start ZF [Arr [3; 5; 7]; Num 2]%Z) twice_events))) [0; 2; 3; 4; 5; 6; 7] =
    map Some [Arr [1; 2; 4]; Num 90; Arr [0; 0; 0]; Num 9; Num 160; Arr [0; 0; 80]; Num 16]%Z /\
  returned ZF twice_blocks (twice_start ZF [Arr [3; 5; 7]; Num 2]%Z) twice_events = true.
Proof. vm_conj. Qed.

Example C59_gradient_demo : forall a b c x a' b' c' x' z : R, let xs := [Arr [a; b; c]; Num x] in
  let evs1 := [GUse (ENew [a'; b'; c']); GUse (EFloat x'); GDeriv 6 [0; 1] 1%R 1%R; GUse (ESet 2 0 z)] in
  let evs2 := [GUse (ESet 0 2 z); GDeriv 5 [0] 1%R 1%R] in
  let call := GUse (ECall 6 [0; 1] 1%R [0; 1]) in
  exists env envm args, atypes (map is_arr xs) (@twice_prog R) = Some [true; false; true; false; false; false; false] /\ avalues RO xs twice_prog = Ok env /\
  let w := fst (get_bv (fst (arun RO true xs twice_prog)) 6) in
  snd (get_bv (fst (arun RO true xs twice_prog)) 6) = 6 /\ w_ctrls w = [0; 1] /\ Forall2 (same_block RO) twice_blocks (t_flat (w_tape w)) /\
  let gs0 := twice_start RO xs in
  sound (g_user gs0) /\ apart (g_user gs0) /\ agrees RO (u_tape (g_user gs0)) (w_heap w) /\ untouched gs0 /\
  gbehaves RO (w_ctrls w) twice_blocks gs0 (evs1 ++ call :: evs2) /\ returned RO twice_blocks gs0 (evs1 ++ call :: evs2) = true /\ used (length xs) 6 (@twice_prog R) /\
  let gs1 := grun RO twice_blocks gs0 evs1 in
  let m := map (deref RO (r_mem (u_tape (g_user gs1)))) args in
  mapM (var_ref (g_user gs1)) [0; 1] = Ok args /\ m = [Arr [a'; b'; c']; Num x'] /\ avalues RO m twice_prog = Ok envm /\ unrepeated twice_prog envm /\ gentle (length xs) twice_prog envm.
Proof.
  intros a b c x a' b' c' x' z xs evs1 evs2 call. eexists _, _, [RArr 7 [0; 1; 2]; RNum x']. split; [reflexivity|]. split; [reflexivity|]. cbv zeta. split; [reflexivity|]. split; [reflexivity|].
  assert (E : t_flat (w_tape (fst (get_bv (fst (arun RO true xs twice_prog)) 6))) =
    [Blk (KUser (slice_block RO (ISlice (Some 1%Z) None 1%Z))) [0] [2] None; Blk (KUser (slice_block RO (IInt (-1)%Z))) [2] [3] None; Blk (KUser (slice_block RO (IInt 2%Z))) [0] [4] None;
     Blk KMul [3; 4] [5] None; Blk KMul [5; 1] [6] None]) by reflexivity.
  split; [rewrite E; repeat (constructor; [split; [reflexivity|split; reflexivity]|]); constructor|].
  assert (N : forall v, 7 <= v -> is_arr (saved (w_heap (fst (get_bv (fst (arun RO true xs twice_prog)) 6))) v) = false).
  { intros v H. do 7 (destruct v as [|v]; [lia|]). reflexivity. }
  destruct (copies_start RO _ 7 N) as [S [A G]]. split; [exact S|]. split; [exact A|]. split; [exact G|]. clear S A G N. split; [split; reflexivity|].
  split; [|split; [reflexivity|split; [|split; [reflexivity|split; [reflexivity|split; [reflexivity|split]]]]]].
  - assert (P : forall us, mapM (var_ref (V := R) us) [0; 1] = Ok [RArr 7 [0; 1; 2]; RNum x'] -> map is_arr (map (deref RO (r_mem (u_tape us))) [RArr 7 [0; 1; 2]; RNum x']) = map (fun c => is_arr (stored RO us c)) [0; 1] ->
      suits RO us (ECall 6 [0; 1] 1%R [0; 1])) by (intros us E1 E2 args K _; rewrite E1 in K; injection K as <-; exact E2).
    assert (Q : forall (us : ustate R) u i y, option_map fst (nth_error (u_vars us) u) = Some true -> forall cs bs, well_behaved RO cs bs us (ESet u i y)) by (intros us u i y K cs bs r Er; rewrite Er in K; discriminate K).
    split; [split; exact I|]. split; [split; exact I|]. split; [exact I|]. split; [split; [apply Q; reflexivity|exact I]|].
    split; [split; [split; [intros q Hq; exact Hq|intros args bb ps _ _ q; apply Rmult_1_r]|apply P; reflexivity]|]. split; [split; [apply Q; reflexivity|exact I]|]. split; exact I.
  - intros [|[|i]] H; [right; exists (AItem 0 (ISlice (Some 1%Z) None 1%Z))|right; exists (AOp KMul [5; 1])|cbn in H; lia]; cbn; intuition.
  - intros i it l H _. cbn in H. unfold distinct. repeat destruct H as [H|H]; try discriminate H; try injection H as <- <-; try exact I. destruct H.
  - split; [intros i k u v H|intros k i i' u v H]; cbn in H; repeat destruct H as [H|H]; try discriminate H; destruct H.
Qed.

(** The blocks of the theorem never hand one array to two variables.  A block for the sum of two arrays, written like the
    sum of two floats in pyadjoint ([evaluate_adj_component] returns [adj_inputs[0]] for either summand; [RKind KAdd] here), does.
    [t = a[0]; c = a + b; s = c[0]; J = s + t]: the adjoint of [t] is added into the array that [a] and [b] share, and the
    derivative by [b[0]] is given as 2, though [J] grows by 1 when [b[0]] does. *)
Definition sum_blocks : list (rblk Z) := [RItem (IInt 0%Z) 0 2; RKind KAdd [0; 1] 3; RItem (IInt 0%Z) 3 4; RKind KAdd [4; 2] 5].
Definition sum_start : gstate Z :=
  GSt (USt (RSt [[1; 2]; [3; 4]; [4; 6]]%Z (fun v => nth v [RArr 0 [0; 1]; RArr 1 [0; 1]; RNum 1%Z; RArr 2 [0; 1]; RNum 4%Z; RNum 5%Z] (RNum 0%Z))) []) (fun _ => None) (fun _ => false).
Theorem C59_shared_refuted : exists (rbs : list (rblk Z)) (gs0 : gstate Z) evs, sound (g_user gs0) /\ apart (g_user gs0) /\ untouched gs0 /\
  gbehaves ZF [0; 1] rbs gs0 evs /\
  let us := g_user (grun ZF rbs gs0 evs) in
  map (seen ZF us) [0; 1; 2; 3; 4; 5; 6] = map Some [Arr [1; 2]; Arr [3; 4]; Arr [4; 4]; Num 6; Num 5; Arr [2; 0]; Arr [2; 0]]%Z /\
  evs = [GUse (ENew [1; 2]); GUse (ENew [3; 4]); GUse (ENew [4; 4]); GUse (ECall 5 [0%nat; 1%nat] 1 [0%nat; 2%nat]); GUse (ECall 5 [0%nat; 1%nat] 1 [0%nat; 1%nat]); GDeriv 5 [0%nat; 1%nat] 1 1]%Z.
Proof.
  exists sum_blocks, sum_start. eexists. split; [|split; [intros r []|split; [split; reflexivity|split; [|split; [|reflexivity]]]]].
  - split; [|constructor]. intros v. do 6 (destruct v as [|v]; [vm_compute; first [exact I|repeat constructor; intros K; repeat destruct K as [K|K]; try discriminate; destruct K]|]). destruct v; exact I.
  - cbn [gbehaves]. do 3 (split; [split; exact I|]). split; [|split; [|split; exact I]].
    + split; [split; [apply incl_refl|intros args bb ps _ _ q; apply Z.mul_1_r]|]. intros args E _. vm_compute in E. injection E as <-. reflexivity.
    + split; [split; [apply incl_refl|intros args bb ps _ _ q; apply Z.mul_1_r]|]. intros args E _. vm_compute in E. injection E as <-. reflexivity.
  - vm_compute. reflexivity.
Qed.
Print Assumptions C59_shared_refuted.
