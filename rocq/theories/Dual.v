(** Conservation of (adjoint, tangent) through the reverse sweep, over any commutative ring. *)
From Coq Require Import List Arith ZArith Lia Bool Ring.
From Verif Require Import Base Model BaseFacts Graph RecordFacts History Sweep SpecGraph Marks.
Import ListNotations.

(** No control influences another one. *)
Definition independent {V} (bs : list (block V)) (ctrls : list nat) : Prop :=
  forall c c', In c ctrls -> In c' ctrls -> c <> c' -> ~ influences bs c c'.

Lemma NoDup_app_l : forall (A : Type) (l m : list A), NoDup (l ++ m) -> NoDup l.
Proof.
  induction l as [|x l IH]; intros m H; [constructor|]. cbn in H. inversion H as [|? ? Hx H']; subst.
  constructor; [|eauto]. intros K. apply Hx. apply in_app_iff. now left.
Qed.
Lemma NoDup_app_r : forall (A : Type) (l m : list A), NoDup (l ++ m) -> NoDup m.
Proof. induction l as [|x l IH]; intros m H; [exact H|]. cbn in H. inversion H; subst. auto. Qed.

Section Order.
Context {V : Type}.
Implicit Types (bs : list (block V)) (b : block V).

Lemma topo_at : forall bs1 b bs2, topo (bs1 ++ b :: bs2) -> forall d, In d (b_deps b) -> ~ In d (outs_of (b :: bs2)).
Proof. induction bs1 as [|x r IH]; intros b bs2 H; cbn in H; [exact (proj1 H)|]. apply IH. exact (proj2 H). Qed.

(** A tape has no cycles. *)
Lemma acyclic : forall bs b o d, topo bs -> In b bs -> In o (b_outs b) -> In d (b_deps b) -> ~ influences bs o d.
Proof.
  intros bs b o d Ht Hb Ho Hd Hi. apply in_split in Hb as [bs1 [bs2 E]]. subst bs.
  assert (N : d = o \/ In d (outs_of bs2)).
  { clear Hd. induction Hi as [|b' d' o' Hb' Hd' Ho' Hi IH]; [now left|].
    assert (K : In d' (outs_of (b :: bs2))).
    { unfold outs_of. cbn. apply in_app_iff. destruct IH as [->|IH]; [now left|now right]. }
    apply in_app_iff in Hb' as [Hb'|Hb'].
    - exfalso. apply in_split in Hb' as [l1 [l2 E]]. subst bs1. rewrite <- app_assoc in Ht. cbn in Ht.
      apply (topo_at _ _ _ Ht d' Hd'). unfold outs_of in *. cbn. rewrite flat_map_app. cbn in *. rewrite !in_app_iff in *. tauto.
    - destruct Hb' as [<-|Hb'].
      + exfalso. exact (topo_at _ _ _ Ht d' Hd' K).
      + right. unfold outs_of. apply in_flat_map. eauto. }
  apply (topo_at _ _ _ Ht d Hd). unfold outs_of. cbn. apply in_app_iff. destruct N as [->|N]; [now left|now right].
Qed.

Lemma influences_trans : forall bs (u v w : nat), influences bs u v -> influences bs v w -> influences bs u w.
Proof. intros bs u v w H1 H2. induction H2; [exact H1|]. eapply inf_step; eauto. Qed.

(** Blocks that produce a control have no dependency influenced by a control. *)
Lemma cut_unmarked : forall bs ctrls b d, topo bs -> independent bs ctrls -> In b bs ->
  existsb (fun v => mem v ctrls) (b_outs b) = true -> In d (b_deps b) -> ~ In d (find_relevant bs ctrls).
Proof.
  intros bs ctrls b d Ht Hi Hb Hc Hd K. apply existsb_exists in Hc as [o [Ho Hm]]. apply mem_In in Hm.
  apply (find_relevant_influences bs ctrls d Ht) in K as [c [Hc Hcd]].
  destruct (Nat.eq_dec c o) as [->|Hne]; [exact (acyclic bs b o d Ht Hb Ho Hd Hcd)|].
  apply (Hi c o Hc Hm Hne). eapply inf_step; eauto.
Qed.

(** Marked outputs of blocks that are not cut. *)
Lemma nodes_cases : forall bs ctrls v, topo bs -> independent bs ctrls -> In v (find_relevant bs ctrls) ->
  In v ctrls \/ In v (computed (fun u => mem u ctrls) bs).
Proof.
  intros bs ctrls v Ht Hi Hv. apply (find_relevant_influences bs ctrls v Ht) in Hv as [c [Hc H]].
  destruct H as [|b d o Hb Hd Ho H]; [now left|]. right. unfold computed. apply in_flat_map. exists b. split; [exact Hb|].
  destruct (existsb (fun u => mem u ctrls) (b_outs b)) eqn:E; [|exact Ho].
  exfalso. apply (cut_unmarked bs ctrls b d Ht Hi Hb E Hd). apply (find_relevant_influences bs ctrls d Ht). eauto.
Qed.

(** A computable test for independence. *)
Lemma independent_check : forall bs ctrls, topo bs ->
  forallb (fun c => forallb (fun c' => Nat.eqb c c' || negb (mem c' (find_relevant bs [c]))) ctrls) ctrls = true -> independent bs ctrls.
Proof.
  intros bs ctrls Ht H c c' Hc Hc' Hne Hi. rewrite forallb_forall in H. specialize (H c Hc). rewrite forallb_forall in H.
  specialize (H c' Hc'). apply orb_true_iff in H as [H|H]; [apply Nat.eqb_eq in H; contradiction|].
  apply negb_true_iff, mem_false in H. apply H. apply (find_relevant_influences bs [c] c' Ht). exists c. split; [left; reflexivity|exact Hi].
Qed.

End Order.

Section Dual.
Context {V : Type} (F : fops V).
Hypothesis Rth : ring_theory (f_zero F) (f_one F) (f_add F) (f_mul F) (f_sub F) (f_neg F) eq.
Add Ring VRing : Rth.
Implicit Types (bs : list (block V)) (b : block V) (t : nat -> V).
Notation "x +! y" := (f_add F x y) (at level 50, left associativity).
Notation "x *! y" := (f_mul F x y) (at level 40, left associativity).

Definition val (o : option V) : V := match o with Some x => x | None => f_zero F end.
(** Sum of products. *)
Fixpoint dot (xs ys : list V) : V :=
  match xs, ys with x :: xs', y :: ys' => x *! y +! dot xs' ys' | _, _ => f_zero F end.
Fixpoint pair (U : list nat) (a : @aenv V) t : V :=
  match U with [] => f_zero F | v :: r => val (a v) *! t v +! pair r a t end.

Lemma val_accum : forall o x, val (accum F o x) = val o +! x.
Proof. intros [y|] x; cbn; ring. Qed.

Lemma pair_ext : forall U a a' t t', (forall v, In v U -> a v = a' v) -> (forall v, In v U -> t v = t' v) -> pair U a t = pair U a' t'.
Proof.
  induction U as [|u U IH]; intros a a' t t' Ha Ht; [reflexivity|]. cbn. rewrite (Ha u), (Ht u) by now left.
  f_equal. apply IH; intros; [apply Ha|apply Ht]; now right.
Qed.
Lemma pair_aadd : forall U a t d x, NoDup U -> In d U -> pair U (aadd F a d x) t = pair U a t +! x *! t d.
Proof.
  induction U as [|u U IH]; intros a t d x Hn Hd; [easy|]. inversion Hn as [|? ? Hu Hn']; subst. cbn [pair].
  destruct (Nat.eq_dec u d) as [->|Hne].
  - replace (pair U (aadd F a d x) t) with (pair U a t).
    2:{ apply pair_ext; auto. intros v Hv. unfold aadd. destruct (Nat.eqb_spec v d) as [->|]; [contradiction|reflexivity]. }
    unfold aadd at 1. rewrite Nat.eqb_refl, val_accum. ring.
  - destruct Hd as [->|Hd]; [contradiction|]. rewrite IH by assumption.
    unfold aadd at 1. destruct (Nat.eqb_spec u d); [contradiction|]. ring.
Qed.

Definition zero_at (l : list nat) t : nat -> V := fun v => if mem v l then f_zero F else t v.
Lemma pair_zero1 : forall U a t o, NoDup U -> In o U -> pair U a t = pair U a (zero_at [o] t) +! val (a o) *! t o.
Proof.
  induction U as [|u U IH]; intros a t o Hn Ho; [easy|]. inversion Hn as [|? ? Hu Hn']; subst. cbn [pair].
  destruct (Nat.eq_dec u o) as [->|Hne].
  - replace (pair U a (zero_at [o] t)) with (pair U a t).
    2:{ apply pair_ext; auto. intros v Hv. unfold zero_at. cbn. destruct (Nat.eqb_spec v o) as [->|]; [contradiction|reflexivity]. }
    unfold zero_at at 1. cbn. rewrite Nat.eqb_refl. cbn. ring.
  - destruct Ho as [->|Ho]; [contradiction|]. rewrite (IH a t o) by assumption.
    unfold zero_at at 2. cbn. destruct (Nat.eqb_spec u o); [contradiction|]. cbn. ring.
Qed.
Lemma pair_zero : forall l U a t, NoDup U -> NoDup l -> (forall o, In o l -> In o U) ->
  pair U a t = pair U a (zero_at l t) +! dot (map (fun o => val (a o)) l) (map t l).
Proof.
  induction l as [|o l IH]; intros U a t Hu Hl Hin.
  - cbn. replace (pair U a (zero_at [] t)) with (pair U a t) by (apply pair_ext; auto). ring.
  - inversion Hl as [|? ? Ho Hl']; subst. rewrite (IH U a t) by (auto; intros; apply Hin; now right).
    rewrite (pair_zero1 U a (zero_at l t) o) by (auto; apply Hin; now left).
    replace (pair U a (zero_at [o] (zero_at l t))) with (pair U a (zero_at (o :: l) t)).
    2:{ apply pair_ext; auto. intros v _. unfold zero_at. cbn. destruct (Nat.eqb v o); reflexivity. }
    unfold zero_at at 2. rewrite (proj2 (mem_false _ _) Ho). cbn. ring.
Qed.
Lemma pair_null : forall U a t, (forall v, In v U -> t v = f_zero F \/ a v = None) -> pair U a t = f_zero F.
Proof.
  induction U as [|u U IH]; intros a t H; [reflexivity|]. cbn. rewrite IH by (intros; apply H; now right).
  destruct (H u (or_introl eq_refl)) as [-> | ->]; cbn; ring.
Qed.

(** Contributions of one block to the pairing. *)
Fixpoint contrib (k : kind V) (xs : list V) (ins : list (option V)) t (l : list (nat * nat)) : V :=
  match l with
  | [] => f_zero F
  | (i, d) :: r => match comp_adj F k xs ins i with
                   | Ok o => val o *! t d +! contrib k xs ins t r
                   | Err _ => contrib k xs ins t r
                   end
  end.

Lemma loop_pair : forall k xs ins U t l a, NoDup U -> (forall p, In p l -> In (snd p) U) ->
  snd (iter_o (padj_step F k xs ins) l a) = None ->
  pair U (fst (iter_o (padj_step F k xs ins) l a)) t = pair U a t +! contrib k xs ins t l.
Proof.
  intros k xs ins U t l. induction l as [|[i d] l IH]; intros a Hu Hin Hs; [cbn; ring|].
  cbn [iter_o contrib] in *. unfold padj_step at 1 in Hs. unfold padj_step at 1. cbn [fst snd] in *.
  destruct (comp_adj F k xs ins i) as [[x|]|]; [| |discriminate Hs].
  - rewrite IH; auto; [|intros; apply Hin; now right]. rewrite pair_aadd by (auto; apply (Hin (i, d)); now left). cbn. ring.
  - rewrite IH; auto; [|intros; apply Hin; now right]. cbn. ring.
Qed.
Lemma contrib_ext : forall k xs ins t t' l, (forall p, In p l -> t (snd p) = t' (snd p)) -> contrib k xs ins t l = contrib k xs ins t' l.
Proof.
  induction l as [|[i d] l IH]; intros H; [reflexivity|]. cbn. rewrite IH by (intros; apply H; now right).
  pose proof (H (i, d) (or_introl eq_refl)) as E. cbn in E. now rewrite E.
Qed.

Lemma loop_all_ok : forall k xs ins l a, snd (iter_o (padj_step F k xs ins) l a) = None ->
  forall p, In p l -> exists o, comp_adj F k xs ins (fst p) = Ok o.
Proof.
  intros k xs ins l. induction l as [|q l IH]; intros a Hs p Hp; [easy|].
  cbn [iter_o] in Hs. unfold padj_step at 1 in Hs.
  destruct (comp_adj F k xs ins (fst q)) as [o|] eqn:E; [|discriminate].
  destruct Hp as [->|Hp]; [eauto|]. destruct o; eapply IH; eauto.
Qed.

(** The tangent [t] is dual to the adjoint components of block [b] at the point [e]. *)
Definition block_dual (mk : nat -> bool) (e : nat -> V) t b : Prop :=
  forall ins, length ins = length (b_outs b) -> existsb is_some ins = true ->
  (forall p, In p (marked mk (b_deps b)) -> exists o, comp_adj F (b_kind b) (map e (b_deps b)) ins (fst p) = Ok o) ->
  contrib (b_kind b) (map e (b_deps b)) ins t (marked mk (b_deps b)) = dot (map val ins) (map t (b_outs b)).

Lemma dot_none : forall l (a : @aenv V) t, existsb is_some (map a l) = false -> dot (map (fun o => val (a o)) l) (map t l) = f_zero F.
Proof.
  induction l as [|o l IH]; intros a t H; [reflexivity|]. cbn in *. apply orb_false_iff in H as [H1 H2].
  rewrite IH by exact H2. destruct (a o); [discriminate|]. cbn. ring.
Qed.

Lemma marked_nil : forall mk l, (forall d, In d l -> mk d = false) -> marked mk l = [].
Proof.
  intros mk l H. unfold marked.
  assert (G : forall m : list (nat * nat), (forall p, In p m -> mk (snd p) = false) -> filter (fun iv => mk (snd iv)) m = []).
  { clear. induction m as [|p m IH]; intros H; [reflexivity|]. cbn. rewrite H by now left. apply IH. intros; apply H; now right. }
  apply G. intros p Hp. apply H. now apply enum_snd_In.
Qed.

Lemma conserve : forall mk cut e t U bs a, NoDup U -> (forall v, In v (vars_of bs) -> In v U) ->
  topo bs -> NoDup (outs_of bs) ->
  (forall b, In b bs -> existsb cut (b_outs b) = true -> forall d, In d (b_deps b) -> mk d = false) ->
  (forall b, In b bs -> existsb cut (b_outs b) = false -> block_dual mk e t b) ->
  snd (padj F mk e bs a) = None ->
  pair U a t = pair U (fst (padj F mk e bs a)) (zero_at (computed cut bs) t).
Proof.
  intros mk cut e t U bs. induction bs as [|b r IH]; intros a HU Hin Ht Hnd Hc Hb Hs.
  - cbn. apply pair_ext; auto.
  - unfold padj in *. cbn [rev] in *. rewrite iter_o_app in *.
    assert (Hs1 : snd (iter_o (padj_block F mk e) (rev r) a) = None).
    { destruct (iter_o (padj_block F mk e) (rev r) a) as [a1 [x|]]; [discriminate Hs|reflexivity]. }
    rewrite (IH a); auto.
    2:{ intros v Hv. apply Hin. unfold vars_of, deps_of, outs_of in *. cbn. rewrite !in_app_iff in *. tauto. }
    2:{ exact (proj2 Ht). }
    2:{ unfold outs_of in *. cbn in Hnd. exact (NoDup_app_r _ _ _ Hnd). }
    2:{ intros b' Hb'. apply Hc. now right. }
    2:{ intros b' Hb'. apply Hb. now right. }
    unfold padj. destruct (iter_o (padj_block F mk e) (rev r) a) as [a1 x1]. cbn [fst snd] in Hs1. subst x1.
    cbn [andthen iter_o fst] in *.
    assert (Hs2 : snd (padj_block F mk e a1 b) = None) by (destruct (padj_block F mk e a1 b) as [a2 [x|]]; [discriminate Hs|reflexivity]).
    replace (fst (let (s', o) := padj_block F mk e a1 b in match o with Some e0 => (s', Some e0) | None => (s', None) end))
      with (fst (padj_block F mk e a1 b)) by (destruct (padj_block F mk e a1 b) as [a2 [x|]]; reflexivity).
    set (tr := zero_at (computed cut r) t).
    unfold padj_block in Hs2. unfold padj_block.
    destruct (existsb cut (b_outs b)) eqn:Ec.
    + assert (Em : marked mk (b_deps b) = []) by (apply marked_nil; apply (Hc b (or_introl eq_refl) Ec)).
      rewrite Em. cbn [iter_o fst]. unfold computed. cbn [flat_map]. rewrite Ec. cbn [app].
      destruct (negb _); reflexivity.
    + assert (Hdo : forall d, In d (b_deps b) -> ~ In d (b_outs b) /\ ~ In d (computed cut r)).
      { intros d Hd. pose proof (proj1 Ht d Hd) as K. unfold outs_of in K. cbn in K. rewrite in_app_iff in K. split; [tauto|].
        intros K2. apply K. right. now apply computed_outs in K2. }
      assert (Hnb : NoDup (b_outs b) /\ forall o, In o (b_outs b) -> ~ In o (computed cut r)).
      { unfold outs_of in Hnd. cbn in Hnd. split; [exact (NoDup_app_l _ _ _ Hnd)|]. intros o Ho K. apply computed_outs in K.
        clear - Hnd Ho K. fold (outs_of r) in Hnd. induction (b_outs b) as [|x l IHl]; [easy|].
        cbn in Hnd. inversion Hnd as [|? ? Hx Hnd']; subst. destruct Ho as [->|Ho]; [apply Hx; apply in_app_iff; now right|auto]. }
      assert (Ez : forall a', pair U a' (zero_at (computed cut (b :: r)) t) = pair U a' (zero_at (b_outs b) tr)).
      { intros a'. apply pair_ext; auto. intros v _. unfold zero_at, tr, computed. cbn [flat_map]. rewrite Ec.
        unfold zero_at. fold (computed cut r).
        destruct (mem v (b_outs b ++ computed cut r)) eqn:E1, (mem v (b_outs b)) eqn:E2, (mem v (computed cut r)) eqn:E3; try reflexivity;
          rewrite ?mem_In, ?mem_false, ?in_app_iff in *; tauto. }
      rewrite Ez.
      assert (HoU : forall o, In o (b_outs b) -> In o U).
      { intros o Ho. apply Hin. unfold vars_of, outs_of. cbn. rewrite !in_app_iff. tauto. }
      rewrite (pair_zero (b_outs b) U a1 tr HU (proj1 Hnb) HoU).
      assert (Et : map tr (b_outs b) = map t (b_outs b)).
      { apply map_ext_in. intros o Ho. unfold tr, zero_at. now rewrite (proj2 (mem_false _ _) (proj2 Hnb o Ho)). }
      rewrite Et. destruct (existsb is_some (map a1 (b_outs b))) eqn:Ei; cbn [negb] in *.
      * rewrite loop_pair; auto.
        2:{ intros p Hp. apply Hin. unfold marked in Hp. apply filter_In in Hp as [Hp _]. apply enum_snd_In in Hp.
            unfold vars_of, deps_of. cbn. rewrite !in_app_iff. tauto. }
        f_equal. rewrite (contrib_ext _ _ _ (zero_at (b_outs b) tr) t).
        2:{ intros p Hp. unfold marked in Hp. apply filter_In in Hp as [Hp _]. apply enum_snd_In in Hp.
            destruct (Hdo _ Hp) as [K1 K2]. unfold zero_at, tr, zero_at. now rewrite (proj2 (mem_false _ _) K1), (proj2 (mem_false _ _) K2). }
        rewrite (Hb b (or_introl eq_refl) Ec (map a1 (b_outs b))); auto.
        -- now rewrite map_map.
        -- apply map_length.
        -- exact (loop_all_ok _ _ _ _ _ Hs2).
      * cbn [fst]. rewrite dot_none by exact Ei. ring.
Qed.

(** The gradient pairs with any dual tangent. *)
Lemma grad_dual_pure : forall bs J ctrls adj e t, topo bs -> NoDup (outs_of bs) -> NoDup ctrls -> independent bs ctrls ->
  let nodes := find_relevant bs ctrls in
  let a0 := fun v => if Nat.eqb v J then Some adj else None in
  (forall v, ~ In v nodes -> t v = f_zero F) ->
  (forall b, In b bs -> existsb (fun v => mem v ctrls) (b_outs b) = false -> block_dual (fun v => mem v nodes) e t b) ->
  let r := padj F (fun v => mem v nodes) e bs a0 in
  snd r = None -> adj *! t J = dot (map (fun c => val (fst r c)) ctrls) (map t ctrls).
Proof.
  intros bs J ctrls adj e t Ht Hnd Hcd Hi nodes a0 Hz Hb r Hs.
  set (U := nodup Nat.eq_dec (J :: ctrls ++ vars_of bs)).
  assert (HU : NoDup U) by apply NoDup_nodup.
  assert (HinU : forall v, v = J \/ In v ctrls \/ In v (vars_of bs) -> In v U).
  { intros v Hv. apply nodup_In. cbn. rewrite in_app_iff. intuition. }
  set (cut := fun v => mem v ctrls).
  assert (C : pair U a0 t = pair U (fst r) (zero_at (computed cut bs) t)).
  { apply conserve; auto.
    - intros b Hbb Hc d Hd. apply mem_false. exact (cut_unmarked bs ctrls b d Ht Hi Hbb Hc Hd). }
  assert (E0 : pair U a0 t = adj *! t J).
  { rewrite (pair_zero1 U a0 t J) by auto. rewrite pair_null.
    - unfold a0. rewrite Nat.eqb_refl. cbn. ring.
    - intros v _. unfold zero_at, a0. cbn. destruct (Nat.eqb v J); [now left|now right]. }
  rewrite <- E0, C. rewrite (pair_zero ctrls U (fst r) (zero_at (computed cut bs) t) HU Hcd) by auto.
  rewrite pair_null.
  - assert (E : map (zero_at (computed cut bs) t) ctrls = map t ctrls).
    { apply map_ext_in. intros c Hc. unfold zero_at. destruct (mem c (computed cut bs)) eqn:E; [|reflexivity].
      exfalso. apply mem_In in E. unfold computed in E. apply in_flat_map in E as [b [Hbb E]].
      destruct (existsb cut (b_outs b)) eqn:Ec; [exact E|].
      assert (existsb cut (b_outs b) = true) by (apply existsb_exists; exists c; split; [exact E|now apply mem_In]). congruence. }
    rewrite E. ring.
  - intros v _. left. unfold zero_at at 1. destruct (mem v ctrls) eqn:E1; [reflexivity|].
    unfold zero_at. destruct (mem v (computed cut bs)) eqn:E2; [reflexivity|]. apply Hz. intros K.
    apply mem_false in E1. apply mem_false in E2. destruct (nodes_cases bs ctrls v Ht Hi K); contradiction.
Qed.

End Dual.
