(** Property theorems: arrays that share memory (C58). *)
From Coq Require Import List Arith ZArith Bool Lia.
From Verif Require Import Base Model Record Instances PyExp Arrays SpecArr Alias SpecAlias AliasFacts.
Import ListNotations.

(** C58.  Tape and user keep their arrays in one memory; slices are views, and [a[i] = x] and [*=] write into it.  The tape of a
    recorded program stands in any state in which the arrays the user made are apart from those of the tape.  Let the user
    make arrays, index them, write into those they made, look at the tape's values and evaluate any reduced functionals on it, in any
    order.  Then the evaluation of variable [j] at what their variables hold at that moment returns the value of the program
    there times the scale, or raises what the program raises; the controls then hold exactly that point; no variable of
    the user has changed; and what was returned does not change either, whatever the user does next.
    Partial ([well_behaved]): the user does not write into arrays they got from the tape, and when an evaluation returns an array
    its scale is a factor one.  The value returned is right without the last condition. *)
Theorem C58_arrays_partial : forall (V : Type) (F : fops V) (xs : list (aval V)) (es : list (astmt V)) (tys : list bool) (env : list (aval V)) (j : nat),
  atypes (map is_arr xs) es = Some tys -> avalues F xs es = Ok env -> j < length env ->
  let w := fst (get_bv (fst (arun F true xs es)) j) in
  let v := snd (get_bv (fst (arun F true xs es)) j) in
  exists rbs, Forall2 (same_block F) rbs (t_flat (w_tape w)) /\
  forall us0 evs vs scale args, sound us0 -> apart us0 -> agrees F (u_tape us0) (w_heap w) -> behaves F (w_ctrls w) rbs us0 evs ->
  let us := erun F rbs us0 evs in
  let m := map (deref F (r_mem (u_tape us))) args in
  let r := estep F rbs us (ECall v (w_ctrls w) scale vs) in
  mapM (var_ref us) vs = Ok args -> map is_arr m = map is_arr xs ->
  match avariable F m es j with
  | Ok y => snd r = None /\ seen F (fst r) (length (u_vars us)) = Some (lift2 (f_mul F) y (Num scale))
  | Err e => snd r = Some e
  end /\
  (well_behaved F (w_ctrls w) rbs us (ECall v (w_ctrls w) scale vs) ->
    (forall i, i < length xs -> Some (stored F (fst r) (nth i (w_ctrls w) 0)) = nth_error m i) /\
    (forall u, u < length (u_vars us) -> seen F (fst r) u = seen F us u) /\
    (snd r = None -> forall evs', behaves F (w_ctrls w) rbs (fst r) evs' -> seen F (erun F rbs (fst r) evs') (length (u_vars us)) = seen F (fst r) (length (u_vars us)))).
Proof. exact @alias_call. Qed.
Print Assumptions C58_arrays_partial.

(** Evaluations of a float variable of the program meet the condition, with any scale. *)
Theorem C58_floats : forall (V : Type) (F : fops V) (xs : list (aval V)) (es : list (astmt V)) (tys : list bool) (env : list (aval V)) (j : nat),
  atypes (map is_arr xs) es = Some tys -> avalues F xs es = Ok env -> nth_error tys j = Some false ->
  let w := fst (get_bv (fst (arun F true xs es)) j) in
  let v := snd (get_bv (fst (arun F true xs es)) j) in
  forall rbs us0 evs vs scale, Forall2 (same_block F) rbs (t_flat (w_tape w)) -> sound us0 -> apart us0 -> agrees F (u_tape us0) (w_heap w) -> behaves F (w_ctrls w) rbs us0 evs ->
  let us := erun F rbs us0 evs in
  (forall args, mapM (var_ref us) vs = Ok args -> map is_arr (map (deref F (r_mem (u_tape us))) args) = map is_arr xs) ->
  well_behaved F (w_ctrls w) rbs us (ECall v (w_ctrls w) scale vs).
Proof. exact @alias_float. Qed.
Print Assumptions C58_floats.

(** [a = [3, 5, 7]; x = 2; b = a[1:]; s = b[-1]; u = s*x], recorded with one buffer per stored array. *)
Definition shared_prog : list (astmt Z) := [AItem 0 (ISlice (Some 1%Z) None 1%Z); AItem 2 (IInt (-1)%Z); AOp KMul [3; 1]].
Definition shared_world (j : nat) : world (aval Z) * nat := get_bv (fst (arun ZF true [Arr [3; 5; 7]; Num 2]%Z shared_prog)) j.
Definition shared_blocks : list (rblk Z) := [RItem (ISlice (Some 1%Z) None 1%Z) 0 2; RItem (IInt (-1)%Z) 2 3; RKind KMul [3; 1] 4].
Definition shared_start (j : nat) : ustate Z := USt (copies (w_heap (fst (shared_world j))) 5) [].
(** [a = [1,2,3,4]; x = 10; p = a[2:]; y = rf2([a, x]); p[1] = 9; t = Control(a).tape_value(); z = rf2([a, x])], scale two. *)
Definition shared_events (v : nat) : list (event Z) :=
  [ENew [1; 2; 3; 4]%Z; EFloat 10%Z; EItem 0 (ISlice (Some 2) None 1)%Z; ECall v [0; 1] 2%Z [0; 1]; ESet 2 1 9%Z; ETape 0; ECall v [0; 1] 2%Z [0; 1]].
Example C58_demo :
  Forall2 (same_block ZF) shared_blocks (t_flat (w_tape (fst (shared_world 4)))) /\ sound (shared_start 4) /\ apart (shared_start 4) /\
  agrees ZF (u_tape (shared_start 4)) (w_heap (fst (shared_world 4))) /\ behaves ZF [0; 1] shared_blocks (shared_start 4) (shared_events (snd (shared_world 4))) /\
  map (seen ZF (erun ZF shared_blocks (shared_start 4) (shared_events (snd (shared_world 4))))) [0; 2; 3; 4; 5] =
    map Some [Arr [1; 2; 3; 9]; Arr [3; 9]; Num 80; Arr [1; 2; 3; 4]; Num 180]%Z.
Proof.
  split; [|split; [|split; [|split; [|split]]]].
  - vm_compute. repeat constructor.
  - split; [|constructor]. intros v. do 5 (destruct v as [|v]; [vm_compute; repeat constructor; intros K; repeat destruct K as [K|K]; try discriminate; destruct K|]). vm_compute. exact I.
  - intros r [].
  - intros v. do 5 (destruct v as [|v]; [vm_compute; reflexivity|]). vm_compute. reflexivity.
  - cbn [behaves shared_events well_behaved]. do 2 (split; [exact I|]). split; [exact I|]. split; [split; [apply incl_refl|]|].
    { intros args b ps E. vm_compute in E. injection E as <-. vm_compute. discriminate. }
    split; [intros r E; vm_compute in E; discriminate|]. split; [exact I|]. split; [|exact I]. split; [apply incl_refl|]. intros args b ps E. vm_compute in E. injection E as <-. vm_compute. discriminate.
  - vm_compute. reflexivity.
Qed.

(** Without the condition on the scale, the claim fails for arrays.  [b = a[0:2]] evaluated with scale two at [a = [1, 2, 3]] returns
    [2, 4], as it should; but the control [a] on the tape then holds [2, 4, 3], through the view, so that derivatives are
    those at another point. *)
Definition cut_world : world (aval Z) * nat := get_bv (fst (arun ZF true [Arr [3; 5; 7]]%Z [AItem 0 (ISlice (Some 0) (Some 2) 1)%Z])) 1.
Definition cut_blocks : list (rblk Z) := [RItem (ISlice (Some 0) (Some 2) 1)%Z 0 1].
Definition cut_start : ustate Z := USt (copies (w_heap (fst cut_world)) 2) [].
Theorem C58_point_refuted : exists (xs : list (aval Z)) (es : list (astmt Z)) (tys : list bool) (env : list (aval Z)) (j : nat) rbs us0 evs,
  atypes (map is_arr xs) es = Some tys /\ avalues ZF xs es = Ok env /\ j < length env /\
  let w := fst (get_bv (fst (arun ZF true xs es)) j) in
  let v := snd (get_bv (fst (arun ZF true xs es)) j) in
  Forall2 (same_block ZF) rbs (t_flat (w_tape w)) /\ sound us0 /\ apart us0 /\ agrees ZF (u_tape us0) (w_heap w) /\ behaves ZF (w_ctrls w) rbs us0 evs /\
  let us := erun ZF rbs us0 evs in
  let r := estep ZF rbs us (ECall v (w_ctrls w) 2%Z [0]) in
  seen ZF us 0 = Some (Arr [1; 2; 3]%Z) /\ w_ctrls w = [0] /\ seen ZF (fst r) 1 = Some (Arr [2; 4]%Z) /\ stored ZF (fst r) 0 = Arr [2; 4; 3]%Z.
Proof.
  exists [Arr [3; 5; 7]]%Z, [AItem 0 (ISlice (Some 0) (Some 2) 1)%Z], [true; true], [Arr [3; 5; 7]; Arr [3; 5]]%Z, 1, cut_blocks, cut_start, [ENew [1; 2; 3]%Z].
  split; [reflexivity|]. split; [reflexivity|]. split; [cbn; lia|]. cbv zeta. split; [vm_compute; repeat constructor|]. split; [|split; [|split; [|split; [|vm_conj]]]].
  - split; [|constructor]. intros v. do 2 (destruct v as [|v]; [vm_compute; repeat constructor; intros K; repeat destruct K as [K|K]; try discriminate; destruct K|]). vm_compute. exact I.
  - intros r [].
  - intros v. do 2 (destruct v as [|v]; [vm_compute; reflexivity|]). vm_compute. reflexivity.
  - cbn. auto.
Qed.
Print Assumptions C58_point_refuted.

(** [c = [3]; t = c[0]; u = t*x], functional [c], which the control [x] does not influence, with scale two: two evaluations at
    the same [x] return different values, [6] and [12], and the first one changes to [12] when the second is made. *)
Definition grow_prog : list (astmt Z) := [ALit (Arr [3%Z]); AItem 1 (IInt 0%Z); AOp KMul [2; 0]].
Definition grow_world : world (aval Z) * nat := get_bv (fst (arun ZF true [Num 1%Z] grow_prog)) 1.
Definition grow_blocks : list (rblk Z) := [RItem (IInt 0%Z) 1 2; RKind KMul [2; 0] 3].
Definition grow_start : ustate Z := USt (copies (w_heap (fst grow_world)) 4) [].
Theorem C58_repeated_refuted : exists (xs : list (aval Z)) (es : list (astmt Z)) (tys : list bool) (env : list (aval Z)) (j : nat) rbs us0 evs,
  atypes (map is_arr xs) es = Some tys /\ avalues ZF xs es = Ok env /\ j < length env /\
  let w := fst (get_bv (fst (arun ZF true xs es)) j) in
  let v := snd (get_bv (fst (arun ZF true xs es)) j) in
  Forall2 (same_block ZF) rbs (t_flat (w_tape w)) /\ sound us0 /\ apart us0 /\ agrees ZF (u_tape us0) (w_heap w) /\ behaves ZF (w_ctrls w) rbs us0 evs /\
  let us := erun ZF rbs us0 evs in
  let us1 := fst (estep ZF rbs us (ECall v (w_ctrls w) 2%Z [0])) in
  let us2 := fst (estep ZF rbs us1 (ECall v (w_ctrls w) 2%Z [0])) in
  avariable ZF [Num 5%Z] es j = Ok (Arr [3%Z]) /\ seen ZF us1 0 = Some (Num 5%Z) /\ seen ZF us1 1 = Some (Arr [6%Z]) /\ seen ZF us2 1 = Some (Arr [12%Z]) /\ seen ZF us2 2 = Some (Arr [12%Z]).
Proof.
  exists [Num 1%Z], grow_prog, [false; true; false; false], [Num 1; Arr [3]; Num 3; Num 3]%Z, 1, grow_blocks, grow_start, [EFloat 5%Z].
  split; [reflexivity|]. split; [reflexivity|]. split; [cbn; lia|]. cbv zeta. split; [vm_compute; repeat constructor|]. split; [|split; [|split; [|split; [|vm_conj]]]].
  - split; [|constructor]. intros v. do 4 (destruct v as [|v]; [vm_compute; repeat constructor; intros K; repeat destruct K as [K|K]; try discriminate; destruct K|]). vm_compute. exact I.
  - intros r [].
  - intros v. do 4 (destruct v as [|v]; [vm_compute; reflexivity|]). vm_compute. reflexivity.
  - cbn. auto.
Qed.
Print Assumptions C58_repeated_refuted.

(** Without the other condition: [y = rf(a)] with functional [a] and scale one; [y[0] = 9] changes the control on the tape. *)
Theorem C58_write_refuted : exists (xs : list (aval Z)) (es : list (astmt Z)) (tys : list bool) (env : list (aval Z)) (j : nat) rbs us0 evs,
  atypes (map is_arr xs) es = Some tys /\ avalues ZF xs es = Ok env /\ j < length env /\
  let w := fst (get_bv (fst (arun ZF true xs es)) j) in
  let v := snd (get_bv (fst (arun ZF true xs es)) j) in
  Forall2 (same_block ZF) rbs (t_flat (w_tape w)) /\ sound us0 /\ apart us0 /\ agrees ZF (u_tape us0) (w_heap w) /\ behaves ZF (w_ctrls w) rbs us0 evs /\
  let us := erun ZF rbs us0 evs in
  let us1 := fst (estep ZF rbs us (ECall v (w_ctrls w) 1%Z [0])) in
  let us2 := fst (estep ZF rbs us1 (ESet 1 0 9%Z)) in
  well_behaved ZF (w_ctrls w) rbs us (ECall v (w_ctrls w) 1%Z [0]) /\ seen ZF us1 1 = Some (Arr [1; 2; 3]%Z) /\ stored ZF us1 0 = Arr [1; 2; 3]%Z /\
  seen ZF us2 0 = Some (Arr [1; 2; 3]%Z) /\ stored ZF us2 0 = Arr [9; 2; 3]%Z.
Proof.
  exists [Arr [3; 5; 7]]%Z, [AItem 0 (ISlice (Some 0) (Some 2) 1)%Z], [true; true], [Arr [3; 5; 7]; Arr [3; 5]]%Z, 0, cut_blocks, cut_start, [ENew [1; 2; 3]%Z].
  split; [reflexivity|]. split; [reflexivity|]. split; [cbn; lia|]. cbv zeta. split; [vm_compute; repeat constructor|]. split; [|split; [|split; [|split; [|split; [|vm_conj]]]]].
  - split; [|constructor]. intros v. do 2 (destruct v as [|v]; [vm_compute; repeat constructor; intros K; repeat destruct K as [K|K]; try discriminate; destruct K|]). vm_compute. exact I.
  - intros r [].
  - intros v. do 2 (destruct v as [|v]; [vm_compute; reflexivity|]). vm_compute. reflexivity.
  - cbn. auto.
  - split; [apply incl_refl|]. intros args b ps _ _ x. apply Z.mul_1_r.
Qed.
Print Assumptions C58_write_refuted.
