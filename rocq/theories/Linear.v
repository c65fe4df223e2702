(** Homogeneity of the reverse sweep in its seed, and the whole-tape sweep of solve_adjoint. *)
From Coq Require Import List Arith ZArith Lia Bool Ring.
From Verif Require Import Base Model BaseFacts Graph Record RecordFacts Spec Replay ReplayExec History Session Sweep SpecGraph Marks FreshAdj Dual TlmSweep DualAll.
Import ListNotations.

Section Linear.
Context {V : Type} (F : fops V).
Hypothesis Rth : ring_theory (f_zero F) (f_one F) (f_add F) (f_mul F) (f_sub F) (f_neg F) eq.
Hypothesis Hdiv : forall s a x, f_div F (f_mul F s a) x = rmap (f_mul F s) (f_div F a x).
Add Ring VRing3 : Rth.
Implicit Types (bs : list (block V)) (b : block V) (h : heap V).

Definition oscale (s : V) (o : option V) : option V := option_map (f_mul F s) o.
(** A user block whose adjoint component is homogeneous in the adjoint inputs. *)
Definition user_homogeneous (u : ublock V) : Prop :=
  forall s xs ins i, u_adj u xs (map (oscale s) ins) i = rmap (oscale s) (u_adj u xs ins i).

Lemma nth_res_map : forall (A B : Type) (f : A -> B) l i, nth_res (map f l) i = rmap f (nth_res l i).
Proof. intros A B f l i. unfold nth_res. rewrite nth_error_map. destruct (nth_error l i); reflexivity. Qed.

Lemma comp_adj_scale : forall s k xs ins i, (forall u, k = KUser u -> user_homogeneous u) ->
  comp_adj F k xs (map (oscale s) ins) i = rmap (oscale s) (comp_adj F k xs ins i).
Proof.
  intros s k xs ins i Hu.
  assert (N : need_nth (map (oscale s) ins) 0 = rmap (f_mul F s) (need_nth ins 0)).
  { unfold need_nth. rewrite nth_res_map. destruct (nth_res ins 0) as [[y|]|]; reflexivity. }
  destruct k; cbn [comp_adj]; rewrite ?N, ?nth_res_map.
  - reflexivity.
  - destruct (Nat.eqb i 0); [reflexivity|]. destruct (need_nth ins 0); cbn; [|reflexivity]. do 2 f_equal. ring.
  - destruct (need_nth ins 0); cbn; [|reflexivity]. destruct (nth_res xs _); cbn; [|reflexivity]. do 2 f_equal. ring.
  - destruct (need_nth ins 0); cbn; [|reflexivity]. destruct (nth_res xs 0); cbn; [|reflexivity]. destruct (nth_res xs 1); cbn; [|reflexivity].
    destruct (Nat.eqb i 0).
    + destruct (f_div F (f_one F) _); cbn; [|reflexivity]. do 2 f_equal. ring.
    + destruct (f_pow F _ _); cbn; [|reflexivity]. destruct (f_div F _ _); cbn; [|reflexivity]. do 2 f_equal. ring.
  - destruct (need_nth ins 0); cbn; [|reflexivity]. destruct (nth_res xs 0); cbn; [|reflexivity]. destruct (nth_res xs 1); cbn; [|reflexivity].
    destruct (Nat.eqb i 0); destruct (f_pow F _ _); cbn; try reflexivity; do 2 f_equal; ring.
  - destruct (need_nth ins 0); cbn; [|reflexivity]. do 2 f_equal. ring.
  - destruct (need_nth ins 0); cbn; [|reflexivity]. destruct (nth_res xs 0); cbn; [|reflexivity].
    destruct (f_exp F _); cbn; [|reflexivity]. do 2 f_equal. ring.
  - destruct (need_nth ins 0); cbn; [|reflexivity]. destruct (nth_res xs 0); cbn; [|reflexivity].
    rewrite Hdiv. destruct (f_div F _ _); reflexivity.
  - destruct (nth_res xs 0); cbn; [|reflexivity]. destruct (nth_res xs 1); cbn; [|reflexivity].
    destruct (Nat.eqb i _); [reflexivity|]. cbn. do 2 f_equal. ring.
  - destruct (nth_res xs 0); cbn; [|reflexivity]. destruct (nth_res xs 1); cbn; [|reflexivity].
    destruct (Nat.eqb i _); [reflexivity|]. cbn. do 2 f_equal. ring.
  - apply (Hu u eq_refl).
Qed.

Lemma padj_scale : forall s mk e bs a1 a2 (S : nat -> Prop), (forall b u, In b bs -> b_kind b = KUser u -> user_homogeneous u) ->
  (forall v, In v (outs_of bs) -> S v) -> (forall v, S v -> a2 v = oscale s (a1 v)) ->
  snd (padj F mk e bs a2) = snd (padj F mk e bs a1) /\
  (forall v, S v -> fst (padj F mk e bs a2) v = oscale s (fst (padj F mk e bs a1) v)).
Proof.
  intros s mk e bs a1 a2 S Hu Ho Ha. unfold padj.
  apply (iter_o_sim _ _ (fun x2 x1 : @aenv V => forall v, S v -> x2 v = oscale s (x1 v))); [|exact Ha].
  intros x2 x1 b Hb R. apply in_rev in Hb. unfold padj_block.
  assert (E : map x2 (b_outs b) = map (oscale s) (map x1 (b_outs b))).
  { rewrite map_map. apply map_ext_in. intros o Hoo. apply R, Ho. unfold outs_of. apply in_flat_map. eauto. }
  rewrite E. replace (existsb is_some (map (oscale s) (map x1 (b_outs b)))) with (existsb is_some (map x1 (b_outs b))).
  2:{ generalize (map x1 (b_outs b)). intros l. induction l as [|[y|] l IH]; cbn; auto. }
  destruct (negb _); [cbn; auto|].
  apply (iter_o_sim _ _ (fun x2 x1 : @aenv V => forall v, S v -> x2 v = oscale s (x1 v))); [|exact R].
  intros y2 y1 [i d] _ R2. unfold padj_step. rewrite comp_adj_scale by (intros u Ek; exact (Hu b u Hb Ek)).
  destruct (comp_adj F (b_kind b) (map e (b_deps b)) (map x1 (b_outs b)) (fst (i, d))) as [[x|]|]; cbn; auto.
  split; [reflexivity|]. intros v Hv. unfold aadd. destruct (Nat.eqb v d); [|auto]. rewrite (R2 v Hv).
  destruct (y1 v); cbn; [|reflexivity]. f_equal. ring.
Qed.

(** C12 for the driver: results and failures alike. *)
Lemma grad_scale : forall bs J ctrls s adj h, (forall b u, In b bs -> b_kind b = KUser u -> user_homogeneous u) ->
  no_ctrl h -> fresh_ctrls bs J ctrls h ->
  snd (compute_gradient F bs J ctrls (f_mul F s adj) h) = rmap (map (f_mul F s)) (snd (compute_gradient F bs J ctrls adj h)).
Proof.
  intros bs J ctrls s adj h Hu Nc Hf.
  destruct (grad_spec F bs J ctrls (f_mul F s adj) h Nc) as [A2 _]. destruct (grad_spec F bs J ctrls adj h Nc) as [A1 _].
  rewrite A1, A2. clear A1 A2. set (mk := fun v => bv_mark (h v) || mem v (find_relevant bs ctrls)).
  destruct (padj_scale s mk (saved h) bs (start_adj bs J adj h) (start_adj bs J (f_mul F s adj) h) (fun v => In v (vars_of bs) \/ In v ctrls)) as [A B]; auto.
  - intros v Hv. left. unfold vars_of. apply in_app_iff. now right.
  - intros v Hv. unfold start_adj. destruct (Nat.eqb_spec v J); [reflexivity|]. destruct (mem v (vars_of bs)) eqn:Em; [reflexivity|].
    apply mem_false in Em. destruct Hv as [Hv|Hv]; [contradiction|]. destruct (Hf v Hv) as [K|[K|K]]; [contradiction|contradiction|].
    rewrite K. reflexivity.
  - rewrite A. destruct (snd (padj F mk (saved h) bs (start_adj bs J adj h))); [reflexivity|]. cbn. f_equal.
    rewrite map_map. apply map_ext_in. intros c Hc. unfold grad_of. rewrite B by auto.
    destruct (fst (padj F mk (saved h) bs (start_adj bs J adj h)) c); cbn; [reflexivity|ring].
Qed.

Lemma derivative_scale : forall bs J ctrls s a h, (forall b u, In b bs -> b_kind b = KUser u -> user_homogeneous u) ->
  no_ctrl h -> fresh_ctrls bs J ctrls h ->
  snd (rf_derivative F bs (RF J ctrls s) a h) = rmap (map (f_mul F (f_mul F a s))) (snd (rf_derivative F bs (RF J ctrls (f_one F)) (f_one F) h)).
Proof.
  intros bs J ctrls s a h Hu Nc Hf. unfold rf_derivative. cbn [rf_ctrls rf_J rf_scale].
  destruct ctrls as [|c cs]; [reflexivity|].
  rewrite <- grad_scale by assumption. do 2 f_equal. ring.
Qed.
Lemma value_scale : forall bs J ctrls s vals h,
  snd (rf_call F bs (RF J ctrls s) vals h) = rmap (f_mul F s) (snd (rf_call F bs (RF J ctrls (f_one F)) vals h)) /\
  fst (rf_call F bs (RF J ctrls s) vals h) = fst (rf_call F bs (RF J ctrls (f_one F)) vals h).
Proof.
  intros. unfold rf_call. cbn [rf_ctrls rf_J rf_scale]. destruct (negb _); [auto|].
  destruct (with_marked_controls _ _ _) as [h2 [e|]]; cbn; [auto|]. split; [f_equal; ring|reflexivity].
Qed.

End Linear.

(** ** solve_adjoint *)
Section Solve.
Context {V : Type} (F : fops V).
Implicit Types (bs : list (block V)) (b : block V) (h : heap V).

(** With a functional that is not a Control, nothing is propagated at all. *)
Lemma solve_adjoint_nothing : forall bs J a h, (forall v, In v (outs_of bs) -> bv_adj (reset_adj bs h v) = None) /\
  solve_adjoint F bs J false a h = (reset_adj bs h, None).
Proof.
  intros bs J a h.
  assert (Z : forall v, In v (outs_of bs) -> bv_adj (reset_adj bs h v) = None).
  { intros v Hv. unfold reset_adj. rewrite reset_with_spec by reflexivity.
    assert (Em : mem v (vars_of bs) = true) by (apply mem_In; unfold vars_of; apply in_app_iff; now right).
    now rewrite Em. }
  split; [exact Z|]. unfold solve_adjoint, evaluate_adj. cbn [skipn].
  assert (G : forall l h0, (forall b o, In b l -> In o (b_outs b) -> bv_adj (h0 o) = None) -> iter_o (adj_block F false) l h0 = (h0, None)).
  { induction l as [|b l IH]; intros h0 H0; [reflexivity|]. cbn [iter_o]. unfold adj_block at 1.
    replace (existsb is_some (map (fun o => bv_adj (h0 o)) (b_outs b))) with false.
    - cbn. apply IH. intros b' o Hb. apply H0. now right.
    - symmetry. destruct (existsb _ _) eqn:E; [|reflexivity]. apply existsb_exists in E as [y [Hy Hs]].
      apply in_map_iff in Hy as [o [<- Ho]]. rewrite (H0 b o (or_introl eq_refl) Ho) in Hs. discriminate. }
  apply G. intros b o Hb Ho. apply Z. unfold outs_of. apply in_flat_map. exists b. split; [now apply in_rev|exact Ho].
Qed.

Lemma solve_adjoint_none : forall bs J a h v, In v (vars_of bs) ->
  snd (solve_adjoint F bs J false a h) = None /\ bv_adj (fst (solve_adjoint F bs J false a h) v) = None.
Proof.
  intros bs J a h v Hv. destruct (solve_adjoint_nothing bs J a h) as [_ E]. rewrite E. split; [reflexivity|].
  cbn. unfold reset_adj. rewrite reset_with_spec by reflexivity. apply mem_In in Hv. now rewrite Hv.
Qed.

(** With a Control as functional, every variable carries its own gradient. *)
Lemma solve_adjoint_control : forall bs J a h h' v h2, topo bs -> no_ctrl h2 -> (forall u, saved h2 u = saved h u) ->
  (forall u, bv_mark (h2 u) = false) ->
  In v (vars_of bs) -> solve_adjoint F bs J true a h = (h', None) ->
  snd (compute_gradient F bs J [v] a h2) = Ok [match bv_adj (h' v) with Some x => x | None => f_zero F end].
Proof.
  intros bs J a h h' v h2 Ht Nc Hsv Hm Hv E.
  destruct (grad_spec F bs J [v] a h2 Nc) as [A _]. rewrite A. clear A.
  unfold solve_adjoint in E.
  set (h1 := upd (reset_adj bs h) J (set_adj (Some a))) in *.
  set (base := fun v => set_adj None (h v)).
  assert (Vw : view_adj base h1 (start_adj bs J a h)).
  { intros u. unfold h1, upd, start_adj, reset_adj. rewrite reset_with_spec by reflexivity.
    destruct (Nat.eqb u J); destruct (mem u (vars_of bs)); split; reflexivity. }
  destruct (evaluate_adj_sim F bs base false h1 _ Vw) as [P Q]. rewrite E in P, Q. cbn [fst snd] in P, Q.
  set (nodes := find_relevant bs [v]).
  destruct (overmark F (fun u => bv_mark (base u) || negb false) (fun u => mem u nodes) (saved base) bs (start_adj bs J a h) (start_adj bs J a h2)) as [R S]; auto.
  - intros u _. apply orb_true_r.
  - intros b d o Hb Hd Hn Ho. apply mem_In. apply mem_In in Hn. eapply (find_relevant_upward bs [v]); eauto.
  - intros u Hu. apply mem_In in Hu. unfold start_adj. destruct (Nat.eqb_spec u J); [reflexivity|].
    destruct (mem u (vars_of bs)) eqn:Em; [reflexivity|]. exfalso. apply mem_false in Em. apply Em.
    apply find_relevant_cases in Hu as [[<-|[]]|Hu]; [exact Hv|]. unfold vars_of. apply in_app_iff. now right.
  - destruct (padj_ext F (fun u => bv_mark (h2 u) || mem u nodes) (fun u => mem u nodes) (saved h2) (saved base) bs (start_adj bs J a h2) (start_adj bs J a h2)) as [P1 P2].
    { intros u. now rewrite Hm. }
    { intros u. rewrite Hsv. reflexivity. }
    { intros u. reflexivity. }
    rewrite P1, R. cbn [map]. do 2 f_equal. unfold grad_of. rewrite P2, <- S; [|apply mem_In; apply find_relevant_incl; now left].
    destruct (Q v) as [Q1 _]. now rewrite Q1.
Qed.

End Solve.

(** C09 for recorded programs. *)
Lemma duality_recorded_fresh : forall (V : Type) (F : fops V),
  ring_theory (f_zero F) (f_one F) (f_add F) (f_mul F) (f_sub F) (f_neg F) eq ->
  (forall a t x r s, f_div F a x = Ok r -> f_div F t x = Ok s -> f_mul F r t = f_mul F a s) ->
  forall (ann : bool) (p : list (stmt V)) (j : nat) (ctrls : list nat) (s a : V) (dots : list V) (l : list (api V)) (hT : heap V) (g : list V),
  consistent p -> disciplined ann p = true -> j < length (w_objs (exec F (world_new F ann) p)) ->
  let w := fst (recorded F ann p j) in
  let J := snd (recorded F ann p j) in
  let bs := t_flat (w_tape w) in
  users_dual F bs -> NoDup ctrls -> length dots = length ctrls -> fresh_ctrls bs J ctrls (run_hist F bs (w_heap w) l) ->
  forallb (fun a => negb (is_call a)) l = true ->
  snd (rf_derivative F bs (RF J ctrls s) a (run_hist F bs (w_heap w) l)) = Ok g ->
  run_tlm F bs ctrls dots (w_heap w) = (hT, None) ->
  f_mul F (f_mul F a s) (val F (bv_tlm (hT J))) = dot F g dots.
Proof.
  intros V F Rth Hdiv ann p j ctrls s a dots l hT g Hc Hd Hj w J bs Hu Hn Hl Ho Hcall G E.
  destruct (recorded_clean F ann p j Hc Hd Hj) as [Hwf [_ [Nc [_ Z]]]]. fold w bs in Hwf, Nc, Z.
  pose proof (recorded_shaped F ann p j Hc Hd Hj) as Hsh. fold w bs in Hsh.
  assert (Hne : rf_ctrls (RF J ctrls s) <> []) by (intros K; unfold rf_derivative in G; rewrite K in G; discriminate).
  rewrite derivative_grad in G by exact Hne.
  apply (duality_all F Rth Hdiv bs J ctrls (f_mul F a s) dots (run_hist F bs (w_heap w) l) (w_heap w) hT g); auto.
  - intros v. exact (proj1 (hist_frame F bs l (w_heap w) Nc) v).
  - intros v _ _. apply (Z v).
  - intros v. symmetry. now apply hist_saved.
Qed.

Lemma duality_recorded : forall (V : Type) (F : fops V),
  ring_theory (f_zero F) (f_one F) (f_add F) (f_mul F) (f_sub F) (f_neg F) eq ->
  (forall a t x r s, f_div F a x = Ok r -> f_div F t x = Ok s -> f_mul F r t = f_mul F a s) ->
  forall (ann : bool) (p : list (stmt V)) (j : nat) (ctrls : list nat) (s a : V) (dots : list V) (l : list (api V)) (hT : heap V) (g : list V),
  consistent p -> disciplined ann p = true -> j < length (w_objs (exec F (world_new F ann) p)) ->
  let w := fst (recorded F ann p j) in
  let J := snd (recorded F ann p j) in
  let bs := t_flat (w_tape w) in
  users_dual F bs -> NoDup ctrls -> length dots = length ctrls -> on_tape bs ctrls \/ seeds_on bs J l ->
  forallb (fun a => negb (is_call a)) l = true ->
  snd (rf_derivative F bs (RF J ctrls s) a (run_hist F bs (w_heap w) l)) = Ok g ->
  run_tlm F bs ctrls dots (w_heap w) = (hT, None) ->
  f_mul F (f_mul F a s) (val F (bv_tlm (hT J))) = dot F g dots.
Proof.
  intros V F Rth Hdiv ann p j ctrls s a dots l hT g Hc Hd Hj w J bs Hu Hn Hl Ho Hcall G E.
  apply (duality_recorded_fresh V F Rth Hdiv ann p j ctrls s a dots l hT g); auto. now apply recorded_fresh.
Qed.
