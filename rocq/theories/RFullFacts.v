(** Facts about the full ReducedFunctional interface. *)
From Coq Require Import List Arith ZArith Lia Bool Sorted.
From Verif Require Import Base Model BaseFacts Graph Record Spec RecordFacts Replay ReplayStep ReplayExec History Session Sweep SpecGraph Marks Surgery Coll RFull.
Import ListNotations.

(** ** Specification *)
Section Spec.
Context {V : Type}.
(** A Python argument read as a list *)
Definition py_items {A} (x : pyval A) : list A := match x with PList l | PTuple l => l | POne a => [a] end.
Definition is_list {A} (x : pyval A) : bool := match x with POne _ => false | _ => true end.
(** An evaluation starts: one acceptable value per control, and eval_cb_pre does not raise *)
Definition acceptable (r : rfull V) (c : nat) (a : pyarg V) : Prop :=
  match a with VSame _ => True | VNum _ => fu_isfloat r c = true | VBad => False end.
Definition starts (r : rfull V) (values : pyval (pyarg V)) (cb_pre : pyval (pyarg V) -> option exn) : Prop :=
  Forall2 (acceptable r) (py_items (fu_controls r)) (py_items values) /\
  (is_list (fu_controls r) = true -> cb_pre (PList (py_items values)) = None) /\
  (is_list (fu_controls r) = false -> forall x, py_items values = [x] -> cb_pre (POne x) = None).
(** Evaluations started since the last clear *)
Inductive evals : list (hop V) -> nat -> nat -> Prop :=
| Ev_nil : forall n, evals [] n n
| Ev_start : forall r v p q l n m, starts r v p -> evals l (S n) m -> evals (HCall r v p q :: l) n m
| Ev_refused : forall r v p q l n m, ~ starts r v p -> evals l n m -> evals (HCall r v p q :: l) n m
| Ev_clear : forall l n m, evals l 0 m -> evals (HClear :: l) n m
| Ev_other : forall o l n m, (match o with HCall _ _ _ _ | HClear => False | _ => True end) -> evals l n m -> evals (o :: l) n m.
End Spec.

Section Facts.
Context {V : Type} (F : fops V).
Implicit Types (w : world V) (h : heap V) (bs : list (block V)) (r : rfull V).

Lemma py_items_enlist : forall A (x : pyval A), el_items (mk_enlist x) = py_items x.
Proof. intros A [l|l|a]; reflexivity. Qed.
Lemma listed_enlist : forall A (x : pyval A), el_listed (mk_enlist x) = is_list x.
Proof. intros A [l|l|a]; reflexivity. Qed.

(** ** The counter *)
Definition cnt w := t_count (w_tape w).
Lemma cnt_ensure : forall t : tape V, t_count (ensure_step t) = t_count t.
Proof. intros t. unfold ensure_step. destruct (t_steps t); reflexivity. Qed.
Lemma cnt_get_bv : forall w o, cnt (fst (get_bv w o)) = cnt w.
Proof. intros w o. unfold get_bv, create_bv. destruct (nth_error _ _) as [ob|]; [destruct (o_bv ob)|]; reflexivity. Qed.
Lemma cnt_create_bv : forall w o, cnt (fst (create_bv w o)) = cnt w.
Proof. intros w o. unfold create_bv. destruct (nth_error _ _) as [ob|]; reflexivity. Qed.
Lemma cnt_will_dep : forall w v, cnt (will_dep w v) = cnt w.
Proof.
  intros w v. unfold will_dep, cnt, with_heap, with_tape, add_to_state. cbn.
  destruct (match t_latest _ with None => true | Some _ => _ end); cbn; apply cnt_ensure.
Qed.
Lemma cnt_will_out : forall w v, cnt (will_out w v) = cnt w.
Proof.
  intros w v. unfold will_out, cnt, with_heap, with_tape, add_to_adjdeps. cbn.
  destruct (t_eager (w_tape w)); cbn; apply cnt_ensure.
Qed.
Lemma cnt_get_bvs : forall os w, cnt (fst (get_bvs w os)) = cnt w.
Proof.
  induction os as [|o l IH]; intros w; [reflexivity|]. cbn [get_bvs].
  pose proof (cnt_get_bv w o) as A. destruct (get_bv w o) as [w1 v]. specialize (IH w1).
  destruct (get_bvs w1 l). cbn [fst] in *. congruence.
Qed.
Lemma cnt_add_deps : forall os w, cnt (fst (add_deps w os)) = cnt w.
Proof.
  induction os as [|o l IH]; intros w; [reflexivity|]. cbn [add_deps]. unfold add_dep.
  pose proof (cnt_get_bv w o) as A. destruct (get_bv w o) as [w1 v]. pose proof (cnt_will_dep w1 v) as B. specialize (IH (will_dep w1 v)).
  destruct (add_deps (will_dep w1 v) l). cbn [fst] in *. congruence.
Qed.
Lemma cnt_add_outs : forall os w, cnt (fst (add_outs w os)) = cnt w.
Proof.
  induction os as [|o l IH]; intros w; [reflexivity|]. cbn [add_outs].
  pose proof (cnt_create_bv w o) as A. destruct (create_bv w o) as [w1 v]. pose proof (cnt_will_out w1 v) as B. specialize (IH (will_out w1 v)).
  destruct (add_outs (will_out w1 v) l). cbn [fst] in *. congruence.
Qed.
Lemma cnt_new_objs : forall ys w, cnt (fst (new_objs w ys)) = cnt w.
Proof.
  induction ys as [|y l IH]; intros w; [reflexivity|]. cbn [new_objs]. unfold new_obj. cbn.
  specialize (IH (with_objs (fun l => l ++ [Obj y None 0]) w)). destruct (new_objs _ l). cbn [fst] in *. now rewrite IH.
Qed.
Lemma cnt_add_block : forall (t : tape V) b, t_count (add_block t b) = t_count t.
Proof. intros t b. unfold add_block. cbn. apply cnt_ensure. Qed.
Lemma cnt_assign : forall w o x, cnt (assign_obj w o x) = cnt w.
Proof. intros w o x. unfold assign_obj. destruct (nth_error _ _); reflexivity. Qed.
Lemma cnt_clear_bv : forall w o, cnt (clear_bv w o) = cnt w.
Proof. intros w o. unfold clear_bv. destruct (nth_error _ _); reflexivity. Qed.

Lemma cnt_exec_op : forall w k args, cnt (fst (exec_op F w k args)) = cnt w.
Proof.
  intros w k args. unfold exec_op. destruct (negb _); [reflexivity|]. destruct (arg_vals w args) as [xs|]; [|reflexivity].
  destruct (op_value F k xs) as [y|]; [|reflexivity]. destruct (new_obj w y) as [w1 o] eqn:N.
  assert (C1 : cnt w1 = cnt w) by (injection N as <- _; reflexivity).
  destruct (w_ann w); [|exact C1].
  pose proof (cnt_get_bvs args w1) as A. destruct (get_bvs w1 args) as [w2 terms].
  pose proof (cnt_add_deps args w2) as B. destruct (add_deps w2 args) as [w3 ds]. cbn [fst] in *.
  match goal with |- context[get_bv ?w4 o] => pose proof (cnt_get_bv w4 o) as C;
    assert (C4 : cnt w4 = cnt w3) by (unfold cnt, with_tape; cbn; apply cnt_ensure); destruct (get_bv w4 o) as [w5 v] end.
  cbn [fst] in *. change (cnt (with_tape (last_push_out v) (will_out w5 v))) with (cnt (will_out w5 v)).
  rewrite cnt_will_out. congruence.
Qed.
Lemma cnt_exec_fun : forall w k args ann, cnt (fst (exec_fun F w k args ann)) = cnt w.
Proof.
  intros w k args ann. unfold exec_fun. destruct (negb _); [reflexivity|]. destruct (arg_vals w args) as [xs|]; [|reflexivity].
  match goal with |- context[if w_ann w && ann then ?a else w] => assert (C1 : cnt (if w_ann w && ann then a else w) = cnt w) end.
  { destruct (w_ann w && ann); [|reflexivity]. pose proof (cnt_add_deps args w) as B. destruct (add_deps w args) as [w' ds]. cbn [fst] in *.
    rewrite <- B. unfold cnt, with_tape. cbn. apply cnt_ensure. }
  set (w1 := if w_ann w && ann then _ else w) in *.
  destruct (op_value F k xs) as [y|]; [|exact C1].
  destruct (new_obj w1 y) as [w2 o] eqn:N. assert (C2 : cnt w2 = cnt w1) by (injection N as <- _; reflexivity).
  destruct (w_ann w && ann); [|cbn; congruence].
  pose proof (cnt_get_bv w2 o) as C. destruct (get_bv w2 o) as [w3 v]. cbn [fst] in *.
  change (cnt (with_tape (last_push_out v) (will_out w3 v))) with (cnt (will_out w3 v)). rewrite cnt_will_out. congruence.
Qed.
Lemma cnt_exec_user : forall w u f args ann tag, cnt (fst (exec_user w u f args ann tag)) = cnt w.
Proof.
  intros w u f args ann tag. unfold exec_user. destruct (arg_vals w args) as [xs|]; [|reflexivity].
  match goal with |- context[if w_ann w && ann then ?a else ?b] => assert (C1 : cnt (fst (if w_ann w && ann then a else b)) = cnt w) end.
  { destruct (w_ann w && ann); [|reflexivity]. apply cnt_add_deps. }
  destruct (if w_ann w && ann then add_deps w args else (w, [])) as [w1 deps]. cbn [fst] in C1.
  destruct (f xs) as [ys|]; [|exact C1].
  pose proof (cnt_new_objs ys w1) as C. destruct (new_objs w1 ys) as [w2 os]. cbn [fst] in C.
  destruct (w_ann w && ann); [|cbn; congruence].
  pose proof (cnt_add_outs os w2) as D. destruct (add_outs w2 os) as [w3 vs]. cbn [fst] in *.
  unfold cnt, with_tape in *. cbn. rewrite cnt_ensure. congruence.
Qed.
Lemma cnt_exec_inpl : forall w u f args o ann tag, cnt (fst (exec_inpl w u f args o ann tag)) = cnt w.
Proof.
  intros w u f args o ann tag. unfold exec_inpl. destruct (arg_vals w args) as [xs|]; [|reflexivity].
  destruct (nth_error (w_objs w) o); [|reflexivity].
  match goal with |- context[if w_ann w && ann then ?a else ?b] => assert (C1 : cnt (fst (if w_ann w && ann then a else b)) = cnt w) end.
  { destruct (w_ann w && ann); [|reflexivity]. apply cnt_add_deps. }
  destruct (if w_ann w && ann then add_deps w args else (w, [])) as [w1 deps]. cbn [fst] in C1.
  destruct (f xs) as [y|]; [|exact C1].
  pose proof (cnt_assign w1 o y) as C.
  destruct (w_ann w && ann); [|cbn; congruence].
  pose proof (cnt_add_outs [o] (assign_obj w1 o y)) as D. destruct (add_outs (assign_obj w1 o y) [o]) as [w3 vs]. cbn [fst] in *.
  unfold cnt, with_tape in *. cbn. rewrite cnt_ensure. congruence.
Qed.
Lemma cnt_exec_stmt : forall w s, cnt (fst (exec_stmt F w s)) = cnt w.
Proof.
  intros w [x|k args|k args ann|u f args ann tag|u f args o ann tag|o x| | | |o|o|o]; cbn [exec_stmt]; try reflexivity.
  - apply cnt_exec_op.
  - apply cnt_exec_fun.
  - apply cnt_exec_user.
  - apply cnt_exec_inpl.
  - destruct (nth_error (w_objs w) o); [|reflexivity]. cbn [fst]. now rewrite cnt_clear_bv, cnt_assign.
  - destruct (nth_error (w_objs w) o) as [ob|]; [|reflexivity]. destruct (o_bv ob) as [v|]; [|reflexivity].
    destruct (referenced w v); [reflexivity|]. apply cnt_clear_bv.
  - destruct (nth_error (w_objs w) o); [|reflexivity]. pose proof (cnt_get_bv w o) as A. destruct (get_bv w o). exact A.
  - destruct (nth_error (w_objs w) o); [|reflexivity]. apply cnt_get_bv.
Qed.

Lemma cnt_zero_of : forall w c, cnt (fst (zero_of F w c)) = cnt w.
Proof.
  intros w c. unfold zero_of. destruct (new_obj w (f_zero F)) as [w1 z] eqn:N.
  assert (C : cnt w1 = cnt w) by (injection N as <- _; reflexivity).
  pose proof (cnt_exec_op w1 KMul [bv_obj (w_heap w c); z]) as D.
  destruct (exec_op F w1 KMul [bv_obj (w_heap w c); z]) as [w2 [e|]]; cbn [fst] in *; [congruence|].
  destruct (nth_error (w_objs w2) (S z)); cbn; congruence.
Qed.
Lemma cnt_pack : forall comps cs i w ds, cnt (fst (pack F w comps i cs ds)) = cnt w.
Proof.
  intros comps. induction cs as [|c l IH]; intros i w ds; [reflexivity|]. cbn [pack].
  destruct (selected comps i).
  - destruct ds as [|d ds]; [reflexivity|]. specialize (IH (S i) w ds). destruct (pack F w comps (S i) l ds). exact IH.
  - pose proof (cnt_zero_of w c) as Z. destruct (zero_of F w c) as [w1 [z|e]]; cbn [fst] in Z; [|exact Z].
    specialize (IH (S i) w1 ds). destruct (pack F w1 comps (S i) l ds). cbn [fst] in *. congruence.
Qed.
Lemma cnt_derivative : forall w r a, cnt (fst (full_derivative F w r a)) = cnt w.
Proof.
  intros w r a. unfold full_derivative.
  match goal with |- context[match ?q with Ok _ => _ | Err _ => (w, _) end] => destruct q as [[|c sel]|] end; try reflexivity.
  match goal with |- context[compute_gradient ?a1 ?a2 ?a3 ?a4 ?a5 ?a6] => destruct (compute_gradient a1 a2 a3 a4 a5 a6) as [h [g|e]] end; [|reflexivity].
  destruct (fu_comps r) as [|cp l] eqn:E; [destruct g; reflexivity|].
  assert (C : cnt (fst (pack_cb F (with_heap (fun _ => h) w) r g)) = cnt w).
  { unfold pack_cb. destruct (fu_controls r); try (rewrite cnt_pack; reflexivity). reflexivity. }
  destruct (pack_cb F (with_heap (fun _ => h) w) r g) as [w2 [[|d ds]|e]]; exact C.
Qed.
Lemma cnt_hessian : forall w r m, cnt (fst (full_hessian F w r m)) = cnt w.
Proof. intros w r m. unfold full_hessian. match goal with |- context[compute_hessian ?a1 ?a2 ?a3 ?a4 ?a5 ?a6] => destruct (compute_hessian a1 a2 a3 a4 a5 a6) as [h [g|e]] end; reflexivity. Qed.
Lemma cnt_optimize : forall rf (t : tape V), t_count (fst (rf_optimize rf t)) = t_count t.
Proof.
  intros rf t. unfold rf_optimize, optimize, optimize_for_controls.
  destruct (opt_ctrl_steps (t_steps t) (rf_ctrls rf)) as [st|e]; cbn; [|reflexivity].
  unfold optimize_for_functionals. now destruct (opt_fun_steps _ _).
Qed.

Lemma types_ok_spec : forall r vs, length vs = length (fu_list r) ->
  (types_ok r vs = true <-> Forall2 (acceptable r) (py_items (fu_controls r)) vs).
Proof.
  intros r vs. unfold types_ok, fu_list. rewrite py_items_enlist. generalize (py_items (fu_controls r)). intros cs.
  revert vs. induction cs as [|c cs IH]; intros [|v vs] L; cbn in *; try discriminate; [split; [constructor|reflexivity]|].
  rewrite andb_true_iff, IH by congruence. unfold type_ok, acceptable. cbn. split.
  - intros [A B]. constructor; [destruct v; try exact I; [exact A|discriminate A]|exact B].
  - intros H. inversion H; subst. split; [destruct v; try reflexivity; [assumption|contradiction]|assumption].
Qed.

Lemma cnt_call : forall w r v p q,
  (starts r v p /\ cnt (fst (full_call F w r v p q)) = S (cnt w)) \/ (~ starts r v p /\ cnt (fst (full_call F w r v p q)) = cnt w).
Proof.
  intros w r v p q. unfold full_call. rewrite (py_items_enlist _ v). set (vs := py_items v).
  destruct (Nat.eqb_spec (length vs) (length (fu_list r))) as [L|L]; cbn [negb].
  2:{ right. split; [|reflexivity]. intros [A _]. apply L. fold vs in A. unfold fu_list. rewrite py_items_enlist. symmetry. exact (Forall2_len _ _ _ A). }
  pose proof (types_ok_spec r vs L) as T. destruct (types_ok r vs); cbn [negb].
  2:{ right. split; [|reflexivity]. intros [A _]. apply T in A. discriminate. }
  assert (A : Forall2 (acceptable r) (py_items (fu_controls r)) vs) by now apply T.
  unfold delist. rewrite listed_enlist.
  unfold fu_list in L. rewrite py_items_enlist in L.
  assert (E : forall shaped, cnt (fst (match p shaped with Some e => (w, Err e) | None =>
        let w1 := with_tape (fun t => Tape (t_steps t) (t_flat t) (t_latest t) (t_eager t) (S (t_count t))) w in
        let '(h, o) := rf_call F (t_flat (w_tape w)) (fu_rf r) (map (arg_value F) vs) (w_heap w) in
        let w2 := with_heap (fun _ => h) w1 in
        match o with Err e => (w2, Err e) | Ok j => match q j shaped with Some e => (w2, Err e) | None => (w2, Ok j) end end end)) =
        match p shaped with Some _ => cnt w | None => S (cnt w) end).
  { intros shaped. destruct (p shaped); [reflexivity|]. cbv zeta. destruct (rf_call _ _ _ _ _) as [h [j|e]]; [destruct (q j shaped)|]; reflexivity. }
  destruct (is_list (fu_controls r)) eqn:Il.
  - rewrite E. destruct (p (PList vs)) eqn:P.
    + right. split; [|reflexivity]. intros [_ [B _]]. fold vs in B. rewrite (B Il) in P. discriminate.
    + left. split; [|reflexivity]. split; [exact A|]. split; [intros _; exact P|congruence].
  - assert (L1 : exists x, vs = [x]).
    { destruct (fu_controls r); try discriminate. cbn in L. clear - L. clearbody vs. destruct vs as [|z [|y l]]; try discriminate. now exists z. }
    destruct L1 as [x Ex]. rewrite Ex in E |- *. rewrite E. destruct (p (POne x)) eqn:P.
    + right. split; [|reflexivity]. intros [_ [_ B]]. fold vs in B. rewrite (B Il x Ex) in P. discriminate.
    + left. split; [|reflexivity]. split; [exact A|]. split; [congruence|]. intros _ y Hy. fold vs in Hy. rewrite Ex in Hy. injection Hy as <-. exact P.
Qed.

Lemma counter_spec : forall l w, evals l (t_count (w_tape w)) (t_count (w_tape (hrun F w l))).
Proof.
  induction l as [|o l IH]; intros w; [apply Ev_nil|].
  change (hrun F w (o :: l)) with (hrun F (hrun1 F w o) l).
  assert (SAME : match o with HCall _ _ _ _ | HClear => False | _ => True end -> cnt (hrun1 F w o) = cnt w ->
    evals (o :: l) (t_count (w_tape w)) (t_count (w_tape (hrun F (hrun1 F w o) l)))).
  { intros M E. apply Ev_other; [exact M|]. unfold cnt in E. rewrite <- E. apply IH. }
  destruct o as [s|r v p q|r a|r m|r|]; try (apply SAME; [exact I|]); cbn [hrun1].
  - apply cnt_exec_stmt.
  - destruct (cnt_call w r v p q) as [[A B]|[A B]]; unfold cnt in B.
    + apply Ev_start; [exact A|]. rewrite <- B. apply (IH (fst (full_call F w r v p q))).
    + apply Ev_refused; [exact A|]. rewrite <- B. apply (IH (fst (full_call F w r v p q))).
  - apply cnt_derivative.
  - apply cnt_hessian.
  - unfold cnt, with_tape. cbn. apply cnt_optimize.
  - apply Ev_clear. apply (IH (let '(t, h) := clear_tape (w_tape w) (w_heap w) in World (w_objs w) h (w_next w) t (w_ann w) (w_ctrls w))).
Qed.

(** The specification determines the count. *)
Lemma evals_fun : forall l (n m m' : nat), @evals V l n m -> evals l n m' -> m = m'.
Proof.
  intros l n m m' A. revert m'. induction A; intros m' B; inversion B; subst; auto; try contradiction.
Qed.

(** ** Derivatives with respect to some of the controls *)
Lemma find_relevant_mono : forall bs c1 c2, incl c1 c2 -> incl (find_relevant bs c1) (find_relevant bs c2).
Proof.
  intros bs c1 c2. unfold find_relevant. revert c1 c2. induction bs as [|b bs IH]; intros c1 c2 H; [exact H|]. cbn.
  apply IH. destruct (existsb (fun d => mem d c1) (b_deps b)) eqn:E1.
  - assert (E2 : existsb (fun d => mem d c2) (b_deps b) = true).
    { apply existsb_exists in E1 as [d [A B]]. apply existsb_exists. exists d. split; [exact A|]. apply mem_In. apply H. now apply mem_In. }
    rewrite E2. intros v K. apply in_app_iff in K. apply in_app_iff. destruct K; auto.
  - destruct (existsb (fun d => mem d c2) (b_deps b)); [|exact H]. intros v K. apply in_app_iff. auto.
Qed.

Lemma grad_subset : forall bs J ctrls sub a h g, topo bs -> no_ctrl h -> no_mark h -> incl sub ctrls ->
  snd (compute_gradient F bs J ctrls a h) = Ok g ->
  exists G, g = map G ctrls /\ snd (compute_gradient F bs J sub a h) = Ok (map G sub).
Proof.
  intros bs J ctrls sub a h g Ht Nc Nm Hi H.
  destruct (grad_spec F bs J ctrls a h Nc) as [A _]. destruct (grad_spec F bs J sub a h Nc) as [B _].
  rewrite A in H. rewrite B. clear A B.
  set (mk := fun v => bv_mark (h v) || mem v (find_relevant bs ctrls)) in *.
  set (n := fun v => bv_mark (h v) || mem v (find_relevant bs sub)) in *.
  assert (N : forall v, n v = mem v (find_relevant bs sub)) by (intros v; unfold n; now rewrite Nm).
  destruct (snd (padj F mk (saved h) bs (start_adj bs J a h))) eqn:E; [discriminate|]. injection H as <-.
  destruct (overmark F mk n (saved h) bs (start_adj bs J a h) (start_adj bs J a h)) as [C D]; auto.
  - intros v Hv. rewrite N in Hv. unfold mk. apply orb_true_iff. right. apply mem_In. apply (find_relevant_mono bs sub ctrls Hi). now apply mem_In.
  - intros b d o Hb Hd Hn Ho. rewrite N in *. apply mem_In. apply mem_In in Hn. eapply (find_relevant_upward bs sub Ht); eauto.
  - exists (grad_of F (fst (padj F mk (saved h) bs (start_adj bs J a h)))). split; [reflexivity|]. rewrite C. f_equal.
    apply map_ext_in. intros c Hc. unfold grad_of. rewrite D; [reflexivity|]. rewrite N. apply mem_In. now apply find_relevant_incl.
Qed.

(** ** Shapes *)
Definition shape_as {A B} (controls : pyval A) (l : list B) (y : pyval B) : Prop :=
  match controls with
  | POne _ => exists x, l = [x] /\ y = POne x
  | PList cs | PTuple cs => length l = length cs /\ y = PList l
  end.
Lemma grad_length : forall bs J ctrls a h g, snd (compute_gradient F bs J ctrls a h) = Ok g -> length g = length ctrls.
Proof.
  intros bs J ctrls a h g. unfold compute_gradient. match goal with |- context[with_marked_nodes ?a1 ?a2 ?a3] => destruct (with_marked_nodes a1 a2 a3) as [h3 [e|]] end; cbn; [discriminate|].
  intros H. injection H as <-. apply map_length.
Qed.
Lemma hess_length : forall bs J ctrls a h g, snd (compute_hessian F bs J ctrls a h) = Ok g -> length g = length ctrls.
Proof.
  intros bs J ctrls a h g. unfold compute_hessian. match goal with |- context[andthen ?a1 ?a2] => destruct (andthen a1 a2) as [h3 [e|]] end; cbn; [discriminate|].
  intros H. injection H as <-. apply map_length.
Qed.
Lemma delist_shape : forall A B (c : pyval A) (l : list B) y, length l = length (py_items c) -> delist (mk_enlist c) l = Ok y -> shape_as c l y.
Proof.
  intros A B [cs|cs|c] l y L H; unfold delist in H; cbn in *; try (injection H as <-; split; [exact L|reflexivity]).
  destruct l as [|x [|z l]]; try discriminate. injection H as <-. eauto.
Qed.
Lemma delist_ok : forall A B (c : pyval A) (l : list B), length l = length (py_items c) -> exists y, delist (mk_enlist c) l = Ok y /\ shape_as c l y.
Proof.
  intros A B c l L. assert (E : exists y, delist (mk_enlist c) l = Ok y).
  { destruct c as [cs|cs|c]; unfold delist; cbn in *; eauto. destruct l as [|x [|z l]]; try discriminate. eauto. }
  destruct E as [y E]. exists y. split; [exact E|]. now apply delist_shape.
Qed.
Lemma derivative_plain_shape : forall w r a, fu_comps r = [] ->
  match snd (rf_derivative F (t_flat (w_tape w)) (fu_rf r) a (w_heap w)) with
  | Err e => snd (full_derivative F w r a) = Err e
  | Ok l => exists y, snd (full_derivative F w r a) = Ok y /\ shape_as (fu_controls r) l y
  end.
Proof.
  intros w r a Hc. unfold full_derivative, rf_derivative. rewrite Hc. cbn [rf_ctrls fu_rf rf_J rf_scale].
  destruct (fu_list r) as [|c0 l0] eqn:E; [reflexivity|].
  match goal with |- context[compute_gradient ?a1 ?a2 ?a3 ?a4 ?a5 ?a6] => pose proof (grad_length a2 a3 a4 a5 a6) as L; destruct (compute_gradient a1 a2 a3 a4 a5 a6) as [h [g|x]] end; [|reflexivity].
  cbn [snd] in *. specialize (L g eq_refl). destruct g as [|g0 gs]; [discriminate|].
  destruct (delist_ok _ _ (fu_controls r) (g0 :: gs)) as [y [A B]]; [|exists y; rewrite A; auto].
  rewrite L, <- E. unfold fu_list. now rewrite py_items_enlist.
Qed.
Lemma pack_length : forall comps cs i w ds l, snd (pack F w comps i cs ds) = Ok l -> length l = length cs.
Proof.
  intros comps. induction cs as [|c cs IH]; intros i w ds l H; [cbn in H; now injection H as <-|]. cbn [pack] in H.
  destruct (selected comps i).
  - destruct ds as [|d ds]; [discriminate|]. specialize (IH (S i) w ds). destruct (pack F w comps (S i) cs ds) as [w' [l'|]]; cbn in *; [|discriminate].
    injection H as <-. cbn. f_equal. now apply IH.
  - destruct (zero_of F w c) as [w1 [z|]]; [|discriminate]. specialize (IH (S i) w1 ds).
    destruct (pack F w1 comps (S i) cs ds) as [w' [l'|]]; cbn in *; [|discriminate]. injection H as <-. cbn. f_equal. now apply IH.
Qed.
Lemma derivative_shape_ok : forall w r a y, snd (full_derivative F w r a) = Ok y -> exists l, shape_as (fu_controls r) l y.
Proof.
  intros w r a y H. destruct (fu_comps r) as [|c l] eqn:E.
  - pose proof (derivative_plain_shape w r a E) as K. rewrite H in K. destruct (snd (rf_derivative _ _ _ _ _)); [|discriminate].
    destruct K as [y' [A B]]. injection A as ->. eauto.
  - unfold full_derivative in H. rewrite E in H.
    destruct (extract (c :: l) (fu_list r)) as [[|s0 s]|]; try discriminate.
    match type of H with context[compute_gradient ?a1 ?a2 ?a3 ?a4 ?a5 ?a6] => destruct (compute_gradient a1 a2 a3 a4 a5 a6) as [h [g|x]] end; [|discriminate].
    assert (P : forall d, snd (pack_cb F (with_heap (fun _ => h) w) r g) = Ok d -> length d = length (py_items (fu_controls r))).
    { intros d. unfold pack_cb. destruct (fu_controls r); try (apply pack_length). discriminate. }
    destruct (pack_cb F (with_heap (fun _ => h) w) r g) as [w2 [[|d ds]|]]; try discriminate. cbn [snd] in *.
    exists (d :: ds). apply delist_shape; [now apply P|exact H].
Qed.
Lemma hessian_shape_ok : forall w r m,
  match snd (rf_hessian F (t_flat (w_tape w)) (fu_rf r) (py_items m) (w_heap w)) with
  | Err e => snd (full_hessian F w r m) = Err e
  | Ok l => exists y, snd (full_hessian F w r m) = Ok y /\ shape_as (fu_controls r) l y
  end.
Proof.
  intros w r m. unfold full_hessian, rf_hessian. rewrite py_items_enlist. cbn [rf_ctrls fu_rf rf_J].
  match goal with |- context[compute_hessian ?a1 ?a2 ?a3 ?a4 ?a5 ?a6] => pose proof (hess_length a2 a3 a4 a5 a6) as L; destruct (compute_hessian a1 a2 a3 a4 a5 a6) as [h [g|x]] end; [|reflexivity].
  cbn [snd] in *. specialize (L g eq_refl). unfold fu_list in L. rewrite py_items_enlist in L.
  now apply delist_ok.
Qed.

(** ** What an overloaded operation keeps *)
Definition keepw w w' :=
  (forall o ob, nth_error (w_objs w) o = Some ob -> exists ob', nth_error (w_objs w') o = Some ob' /\ o_val ob' = o_val ob) /\
  w_next w <= w_next w' /\ (forall v, v < w_next w -> bv_obj (w_heap w' v) = bv_obj (w_heap w v)).
Lemma keepw_refl : forall w, keepw w w.
Proof. intros w. split; [|split]; eauto. Qed.
Lemma keepw_trans : forall w1 w2 w3, keepw w1 w2 -> keepw w2 w3 -> keepw w1 w3.
Proof.
  intros w1 w2 w3 [A1 [B1 C1]] [A2 [B2 C2]]. split; [|split; [lia|]].
  - intros o ob H. destruct (A1 o ob H) as [ob' [X Y]]. destruct (A2 o ob' X) as [ob'' [X' Y']]. exists ob''. split; congruence.
  - intros v Hv. rewrite C2 by lia. now apply C1.
Qed.
Lemma keepw_create : forall w o, keepw w (fst (create_bv w o)).
Proof.
  intros w o. unfold create_bv. destruct (nth_error (w_objs w) o) as [ob|] eqn:E; [|apply keepw_refl]. cbn [fst].
  split; [|split; [cbn; lia|]].
  - intros p pb Hp. cbn. rewrite nth_list_set. destruct (Nat.eqb_spec o p) as [<-|Np]; [|eauto].
    rewrite E in *. injection Hp as <-. eexists. split; [reflexivity|reflexivity].
  - intros v Hv. cbn. unfold upd. destruct (Nat.eqb_spec v (w_next w)); [lia|reflexivity].
Qed.
Lemma keepw_get : forall w o, keepw w (fst (get_bv w o)).
Proof.
  intros w o. unfold get_bv. destruct (nth_error (w_objs w) o) as [ob|]; [|apply keepw_refl].
  destruct (o_bv ob); [apply keepw_refl|apply keepw_create].
Qed.
Lemma keepw_same : forall w w', w_objs w' = w_objs w -> w_next w' = w_next w -> (forall v, bv_obj (w_heap w' v) = bv_obj (w_heap w v)) -> keepw w w'.
Proof. intros w w' A B C. split; [|split; [lia|auto]]. rewrite A. eauto. Qed.
Lemma keepw_will_dep : forall w v, keepw w (will_dep w v).
Proof.
  intros w v. apply keepw_same.
  - unfold will_dep. now destruct (match t_latest _ with None => true | Some _ => _ end).
  - unfold will_dep. now destruct (match t_latest _ with None => true | Some _ => _ end).
  - intros u. unfold will_dep. destruct (match t_latest _ with None => true | Some _ => _ end); cbn; unfold upd;
      destruct (Nat.eqb u v); try reflexivity; unfold save_output; repeat match goal with |- context[if ?c then _ else _] => destruct c | |- context[match ?x with Some _ => _ | None => _ end] => destruct x end; reflexivity.
Qed.
Lemma keepw_will_out : forall w v, keepw w (will_out w v).
Proof.
  intros w v. apply keepw_same.
  - unfold will_out. cbn. now destruct (t_eager (w_tape w)).
  - unfold will_out. cbn. now destruct (t_eager (w_tape w)).
  - intros u. unfold will_out. cbn. destruct (t_eager (w_tape w)); cbn; unfold upd;
      destruct (Nat.eqb u v); try reflexivity; unfold save_output; repeat match goal with |- context[if ?c then _ else _] => destruct c | |- context[match ?x with Some _ => _ | None => _ end] => destruct x end; reflexivity.
Qed.
Lemma keepw_get_bvs : forall os w, keepw w (fst (get_bvs w os)).
Proof.
  induction os as [|o l IH]; intros w; [apply keepw_refl|]. cbn [get_bvs].
  pose proof (keepw_get w o) as A. destruct (get_bv w o) as [w1 v]. specialize (IH w1).
  destruct (get_bvs w1 l). cbn [fst] in *. eapply keepw_trans; eauto.
Qed.
Lemma keepw_add_deps : forall os w, keepw w (fst (add_deps w os)).
Proof.
  induction os as [|o l IH]; intros w; [apply keepw_refl|]. cbn [add_deps]. unfold add_dep.
  pose proof (keepw_get w o) as A. destruct (get_bv w o) as [w1 v]. pose proof (keepw_will_dep w1 v) as B. specialize (IH (will_dep w1 v)).
  destruct (add_deps (will_dep w1 v) l). cbn [fst] in *. eapply keepw_trans; [exact A|]. eapply keepw_trans; eauto.
Qed.
Lemma keepw_new_obj : forall w x, keepw w (fst (new_obj w x)).
Proof.
  intros w x. split; [|split; [reflexivity|reflexivity]]. intros o ob H. cbn. exists ob. split; [|reflexivity].
  rewrite nth_error_app1; [exact H|]. apply nth_error_Some. congruence.
Qed.

Lemma exec_op_value : forall w k args xs y, is_operator k = true -> length args = arity k -> arg_vals w args = Ok xs -> op_value F k xs = Ok y ->
  snd (exec_op F w k args) = None /\ keepw w (fst (exec_op F w k args)) /\
  exists ob, nth_error (w_objs (fst (exec_op F w k args))) (length (w_objs w)) = Some ob /\ o_val ob = y.
Proof.
  intros w k args xs y Hk Hl Ha Hy. unfold exec_op. rewrite Hk, Hl, Nat.eqb_refl. cbn [andb negb]. rewrite Ha, Hy.
  destruct (new_obj w y) as [w1 o] eqn:N.
  assert (K1 : keepw w w1) by (pose proof (keepw_new_obj w y) as K; rewrite N in K; exact K).
  assert (O1 : exists ob, nth_error (w_objs w1) (length (w_objs w)) = Some ob /\ o_val ob = y).
  { injection N as <- _. cbn. rewrite nth_error_app2, Nat.sub_diag by lia. eexists. split; reflexivity. }
  assert (G : forall w', keepw w1 w' -> keepw w w' /\ exists ob, nth_error (w_objs w') (length (w_objs w)) = Some ob /\ o_val ob = y).
  { intros w' K. split; [eapply keepw_trans; eauto|]. destruct O1 as [ob [P Q]]. destruct K as [K _]. destruct (K _ _ P) as [ob' [P' Q']].
    exists ob'. split; congruence. }
  destruct (w_ann w); [|cbn [fst snd]; split; [reflexivity|]; apply G; apply keepw_refl].
  pose proof (keepw_get_bvs args w1) as A. destruct (get_bvs w1 args) as [w2 terms].
  pose proof (keepw_add_deps args w2) as B. destruct (add_deps w2 args) as [w3 ds]. cbn [fst] in *.
  match goal with |- context[get_bv ?w4 o] => pose proof (keepw_get w4 o) as C;
    assert (C4 : keepw w3 w4) by (apply keepw_same; reflexivity); destruct (get_bv w4 o) as [w5 v] end.
  cbn [fst snd] in *. split; [reflexivity|]. apply G.
  eapply keepw_trans; [exact A|]. eapply keepw_trans; [exact B|]. eapply keepw_trans; [exact C4|]. eapply keepw_trans; [exact C|].
  eapply keepw_trans; [apply keepw_will_out|]. apply keepw_same; reflexivity.
Qed.

Definition has_object w (c : nat) := c < w_next w /\ bv_obj (w_heap w c) < length (w_objs w).
Lemma has_object_keep : forall w w' c, keepw w w' -> has_object w c -> has_object w' c.
Proof.
  intros w w' c [A [B C]] [D E]. split; [lia|]. rewrite C by exact D.
  destruct (nth_error (w_objs w) (bv_obj (w_heap w c))) as [ob|] eqn:H; [|apply nth_error_None in H; lia].
  destruct (A _ _ H) as [ob' [X _]]. apply nth_error_Some. congruence.
Qed.

Hypothesis mul_zero : forall x, f_mul F x (f_zero F) = f_zero F.
Lemma zero_of_spec : forall w c, has_object w c -> snd (zero_of F w c) = Ok (f_zero F) /\ keepw w (fst (zero_of F w c)).
Proof.
  intros w c [_ H]. unfold zero_of, new_obj. cbn [fst snd]. set (w1 := with_objs (fun l => l ++ [Obj (f_zero F) None 0]) w).
  set (o := bv_obj (w_heap w c)) in *.
  destruct (nth_error (w_objs w) o) as [ob|] eqn:E; [|apply nth_error_None in E; lia].
  assert (A : arg_vals w1 [o; length (w_objs w)] = Ok [o_val ob; f_zero F]).
  { unfold arg_vals, w1. cbn [mapM bind with_objs w_objs]. rewrite nth_error_app1, E by exact H.
    rewrite nth_error_app2, Nat.sub_diag by lia. reflexivity. }
  destruct (exec_op_value w1 KMul [o; length (w_objs w)] [o_val ob; f_zero F] (f_zero F) eq_refl eq_refl A) as [P [Q [ob' [R S]]]].
  { unfold op_value. cbn. now rewrite mul_zero. }
  destruct (exec_op F w1 KMul [o; length (w_objs w)]) as [w2 e]. cbn [fst snd] in *. subst e.
  replace (length (w_objs w1)) with (Datatypes.S (length (w_objs w))) in R by (unfold w1; cbn; rewrite app_length; cbn; lia).
  rewrite R. cbn. split; [now rewrite S|]. eapply keepw_trans; [|exact Q]. apply (keepw_new_obj w (f_zero F)).
Qed.

Lemma selected_nat : forall idx i, selected (map Z.of_nat idx) i = mem i idx.
Proof.
  intros idx i. unfold selected, mem. induction idx as [|j l IH]; [reflexivity|]. cbn. rewrite IH. f_equal.
  destruct (Nat.eqb_spec i j) as [->|N]; [apply Z.eqb_refl|]. apply Z.eqb_neq. lia.
Qed.
Lemma extract_nat : forall idx cs, Forall (fun i => i < length cs) idx ->
  extract (map Z.of_nat idx) cs = Ok (map (fun i => nth i cs 0) idx).
Proof.
  intros idx cs H. unfold extract. induction H as [|i l Hi Hl IH]; [reflexivity|]. cbn [map mapM].
  unfold py_index at 1. replace ((0 <=? Z.of_nat i)%Z && (Z.of_nat i <? Z.of_nat (length cs))%Z) with true.
  2:{ symmetry. apply andb_true_iff. split; [apply Z.leb_le; lia|apply Z.ltb_lt; lia]. }
  rewrite Nat2Z.id, (nth_error_nth' cs 0 Hi). cbn [bind]. now rewrite IH.
Qed.

(** [pack] with ascending indices *)
Lemma pack_spec : forall (G : nat -> V) idx cs i w, StronglySorted lt idx -> Forall (fun j => i <= j < i + length cs) idx ->
  Forall (has_object w) cs ->
  snd (pack F w (map Z.of_nat idx) i cs (map (fun j => G (nth (j - i) cs 0)) idx)) =
  Ok (map (fun k => if mem (i + k) idx then G (nth k cs 0) else f_zero F) (seq 0 (length cs))).
Proof.
  intros G. assert (GEN : forall comps cs i w idx, StronglySorted lt idx -> Forall (fun j => i <= j < i + length cs) idx ->
    (forall k, i <= k -> selected comps k = mem k idx) -> Forall (has_object w) cs ->
    snd (pack F w comps i cs (map (fun j => G (nth (j - i) cs 0)) idx)) =
    Ok (map (fun k => if mem (i + k) idx then G (nth k cs 0) else f_zero F) (seq 0 (length cs)))).
  2:{ intros idx cs i w S B O. apply GEN; auto. intros k _. apply selected_nat. }
  intros comps. induction cs as [|c cs IH]; intros i w idx S B X O; [reflexivity|].
  inversion O as [|? ? O1 O2]; subst. cbn [pack length seq map]. rewrite X, Nat.add_0_r by lia.
  assert (MAP : forall l, Forall (fun j => Datatypes.S i <= j < Datatypes.S i + length cs) l ->
      map (fun j => G (nth (j - i) (c :: cs) 0)) l = map (fun j => G (nth (j - Datatypes.S i) cs 0)) l).
  { intros l Hl. apply map_ext_in. intros j Hj. rewrite Forall_forall in Hl. specialize (Hl j Hj).
    replace (j - i) with (Datatypes.S (j - Datatypes.S i)) by lia. reflexivity. }
  assert (TAIL : forall l, (forall k, i < k -> mem k l = mem k idx) ->
      map (fun k => if mem (Datatypes.S i + k) l then G (nth k cs 0) else f_zero F) (seq 0 (length cs)) =
      map (fun k => if mem (i + k) idx then G (nth k (c :: cs) 0) else f_zero F) (seq 1 (length cs))).
  { intros l Hl. rewrite <- (seq_shift (length cs) 0), map_map. apply map_ext. intros k. rewrite Hl by lia.
    replace (i + Datatypes.S k) with (Datatypes.S i + k) by lia. reflexivity. }
  destruct (mem i idx) eqn:M.
  - (* the head of an ascending list *)
    destruct idx as [|j l]; [discriminate|]. inversion S as [|? ? S1 S2]; subst. inversion B as [|? ? B1 B2]; subst.
    assert (j = i).
    { apply mem_In in M. destruct M as [->|M]; [reflexivity|]. rewrite Forall_forall in S2. specialize (S2 i M). lia. }
    subst j. assert (B3 : Forall (fun j => Datatypes.S i <= j < Datatypes.S i + length cs) l).
    { rewrite Forall_forall in *. intros j Hj. specialize (S2 j Hj). specialize (B2 j Hj). cbn in B2. lia. }
    cbn [map]. rewrite (MAP l B3). rewrite Nat.sub_diag.
    assert (X' : forall k, Datatypes.S i <= k -> selected comps k = mem k l).
    { intros k Hk. rewrite X by lia. cbn. unfold mem. cbn. destruct (Nat.eqb_spec k i); [lia|reflexivity]. }
    specialize (IH (Datatypes.S i) w l S1 B3 X' O2).
    destruct (pack F w comps (Datatypes.S i) cs _) as [w' o]. cbn [snd] in *. rewrite IH. cbn [rmap nth]. f_equal. f_equal.
    apply TAIL. intros k Hk. unfold mem. cbn. destruct (Nat.eqb_spec k i); [lia|reflexivity].
  - assert (B3 : Forall (fun j => Datatypes.S i <= j < Datatypes.S i + length cs) idx).
    { rewrite Forall_forall in *. intros j Hj. specialize (B j Hj). cbn in B. assert (j <> i); [|lia].
      intros ->. apply mem_In in Hj. congruence. }
    rewrite (MAP idx B3). destruct (zero_of_spec w c O1) as [Z1 Z2]. destruct (zero_of F w c) as [w1 z]. cbn [fst snd] in *. subst z.
    assert (O3 : Forall (has_object w1) cs) by (eapply Forall_impl; [|exact O2]; intros; eapply has_object_keep; eauto).
    specialize (IH (Datatypes.S i) w1 idx S B3 (fun k Hk => X k (Nat.lt_le_incl _ _ Hk)) O3).
    destruct (pack F w1 comps (Datatypes.S i) cs _) as [w' o]. cbn [snd] in *. rewrite IH. cbn [rmap]. f_equal. f_equal.
    now apply TAIL.
Qed.

Lemma components_spec : forall w r a idx g, is_list (fu_controls r) = true ->
  fu_comps r = map Z.of_nat idx -> idx <> [] -> StronglySorted lt idx -> Forall (fun i => i < length (py_items (fu_controls r))) idx ->
  topo (t_flat (w_tape w)) -> (forall v, bv_ctrl (w_heap w v) = false) -> (forall v, bv_mark (w_heap w v) = false) ->
  Forall (has_object w) (py_items (fu_controls r)) ->
  snd (rf_derivative F (t_flat (w_tape w)) (fu_rf r) a (w_heap w)) = Ok g ->
  snd (full_derivative F w r a) = Ok (PList (map (fun i => if mem i idx then nth i g (f_zero F) else f_zero F) (seq 0 (length g)))).
Proof.
  intros w r a idx g Hl Hc Hn S B Ht Nc Nm O H. set (cs := py_items (fu_controls r)) in *.
  assert (Ecs : fu_list r = cs) by (unfold fu_list; apply py_items_enlist).
  assert (Ncs : cs <> []).
  { intros E. rewrite E in B. destruct idx as [|i l]; [contradiction|]. inversion B; cbn in *. lia. }
  rewrite derivative_grad in H by (cbn; now rewrite Ecs). cbn in H. rewrite Ecs in H.
  unfold full_derivative. rewrite Hc, Ecs.
  set (sel := map (fun i => nth i cs 0) idx).
  assert (E0 : match map Z.of_nat idx with [] => Ok cs | z :: l => extract (z :: l) cs end = Ok sel).
  { destruct idx as [|i l]; [contradiction|]. exact (extract_nat (i :: l) cs B). }
  assert (Hs : incl sel cs).
  { intros v Hv. apply in_map_iff in Hv as [i [<- Hi]]. apply nth_In. rewrite Forall_forall in B. now apply B. }
  destruct (grad_subset _ _ cs sel _ _ g Ht Nc Nm Hs H) as [G [Eg Gs]].
  assert (E2 : exists c l, sel = c :: l) by (destruct idx as [|i l]; [contradiction|]; eexists; eexists; reflexivity).
  destruct E2 as [c0 [l0 E2]]. 
  match type of Gs with snd ?q = _ => destruct q as [h2 g2] eqn:EG end. cbn in Gs. subst g2.
  rewrite E0, E2. rewrite <- E2. rewrite EG.
  assert (E3 : pack_cb F (with_heap (fun _ => h2) w) r (map G sel) = pack F (with_heap (fun _ => h2) w) (map Z.of_nat idx) 0 cs (map G sel)).
  { unfold pack_cb. rewrite Hc. unfold cs. destruct (fu_controls r); try reflexivity. discriminate. }
  replace (match map Z.of_nat idx with [] => (with_heap (fun _ => h2) w, Ok (map G sel)) | _ => pack_cb F (with_heap (fun _ => h2) w) r (map G sel) end)
    with (pack F (with_heap (fun _ => h2) w) (map Z.of_nat idx) 0 cs (map G sel)).
  2:{ rewrite <- E3. destruct idx; [contradiction|reflexivity]. }
  assert (O2 : Forall (has_object (with_heap (fun _ => h2) w)) cs).
  { eapply Forall_impl; [|exact O]. intros v [Hv1 Hv2]. split; [exact Hv1|]. cbn.
    assert (C : core (h2 v) = core (w_heap w v)).
    { pose proof (grad_core F (t_flat (w_tape w)) (fu_J r) sel (f_mul F a (fu_scale r)) (w_heap w)) as K. rewrite EG in K. apply K. exact Nc. }
    apply (f_equal (@bv_obj V)) in C. cbn in C. now rewrite C. }
  pose proof (pack_spec G idx cs 0 (with_heap (fun _ => h2) w) S) as P. cbn [plus] in P.
  replace (map G sel) with (map (fun j => G (nth (j - 0) cs 0)) idx).
  2:{ unfold sel. rewrite map_map. apply map_ext. intros j. now rewrite Nat.sub_0_r. }
  specialize (P (Forall_impl _ (fun j Hj => conj (Nat.le_0_l j) Hj) B) O2).
  clear E3. destruct (pack F (with_heap (fun _ => h2) w) (map Z.of_nat idx) 0 cs _) as [w3 d]. cbn [snd] in P. subst d.
  assert (Lg : length g = length cs) by (rewrite Eg; apply map_length). rewrite Lg.
  set (res := map (fun k => if mem k idx then G (nth k cs 0) else f_zero F) (seq 0 (length cs))).
  assert (Er : res = map (fun i => if mem i idx then nth i g (f_zero F) else f_zero F) (seq 0 (length cs))).
  { apply map_ext_in. intros i Hi. apply in_seq in Hi. destruct (mem i idx); [|reflexivity]. rewrite Eg.
    rewrite (nth_indep _ (f_zero F) (G 0)) by (rewrite map_length; lia). now rewrite map_nth. }
  rewrite <- Er. destruct res as [|x rs] eqn:Ex.
  - apply (f_equal (@length V)) in Ex. unfold res in Ex. rewrite map_length, seq_length in Ex. destruct cs; [contradiction|discriminate].
  - cbn [snd]. unfold delist. now rewrite listed_enlist, Hl.
Qed.
End Facts.

Lemma enlist_round_trip : forall (A B : Type) (x : pyval A) (l : list B),
  delist (mk_enlist x) (el_items (mk_enlist x)) = Ok (match x with PTuple c => PList c | y => y end) /\
  (forall a, x = POne a -> length l <> 1 -> delist (mk_enlist x) l = Err EAssert).
Proof.
  intros A B x l. split; [now destruct x|]. intros a -> H. unfold delist. cbn. destruct l as [|y [|z l]]; try reflexivity. now contradiction H.
Qed.
