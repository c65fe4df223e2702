(** The Hessian action of a reduced functional is the derivative of its gradient, for the covered operations. *)
From Coq Require Import List Arith ZArith Lia Bool Reals Lra.
From Coquelicot Require Import Coquelicot.
From Verif Require Import Base Model BaseFacts Graph Record Spec RecordFacts Replay ReplayExec History Session Sweep SpecGraph Marks Dual TlmSweep RealInst Calculus Gradient SpecHess HessFacts HessSweep.
Import ListNotations.
Open Scope R_scope.

(** ** The two sweeps inside the Hessian driver *)
Lemma hess_parts : forall bs J ctrls d h hH H, topo bs -> NoDup (outs_of bs) -> List.Forall shaped bs -> NoDup ctrls -> independent bs ctrls ->
  length d = length ctrls -> no_mark h -> tlm_clean bs ctrls h -> on_tape bs ctrls ->
  compute_hessian RO bs J ctrls d h = (hH, Ok H) ->
  let nodes := find_relevant bs ctrls in
  exists hh h', evaluate_hessian RO bs true hh = (h', None) /\ H = map (fun c => val RO (bv_hess (h' c))) ctrls /\
    (forall v, saved hh v = saved h v) /\ (forall v, bv_adj (hh v) = bv_adj (h v)) /\ (forall v, bv_mark (hh v) = mem v nodes) /\
    (forall v, In v (vars_of bs) \/ mem v nodes = true -> bv_hess (hh v) = if Nat.eqb v J then Some 0 else None) /\
    (forall v, bv_tlm (hh v) <> None -> In v nodes) /\ map (fun c => bv_tlm (hh c)) ctrls = map Some d /\
    (forall b, In b bs -> existsb (fun v => mem v ctrls) (b_outs b) = false ->
       if existsb is_some (map (fun v => bv_tlm (hh v)) (b_deps b))
       then forall k o, nth_error (b_outs b) k = Some o -> tlm_val RO (b_kind b) (map (saved h) (b_deps b)) (map (fun v => bv_tlm (hh v)) (b_deps b)) k = Ok (bv_tlm (hh o))
       else forall o, In o (b_outs b) -> bv_tlm (hh o) = None).
Proof.
  intros bs J ctrls d h hH H Ht Hn Hsh Hcd Hi Hl Nm Hcl Hot E nodes. unfold compute_hessian in E.
  set (h1 := reset_hess bs (reset_tlm bs h)) in *. fold nodes in E.
  assert (H1 : forall v, h1 v = if mem v (vars_of bs) then set_hess None (set_tlm None (h v)) else h v).
  { intros v. unfold h1, reset_hess. rewrite reset_with_spec by reflexivity. unfold reset_tlm. rewrite reset_with_spec by reflexivity.
    destruct (mem v (vars_of bs)); reflexivity. }
  destruct (set_dots_spec d ctrls h1 Hl Hcd) as [A [B [C D]]].
  assert (Kd : forall v, (saved (fst (set_dots h1 ctrls d)) v, bv_adj (fst (set_dots h1 ctrls d) v), bv_hess (fst (set_dots h1 ctrls d) v)) = (saved h1 v, bv_adj (h1 v), bv_hess (h1 v))).
  { generalize h1. clear. revert ctrls. induction d as [|x r IH]; intros [|c cs] h1 v; cbn [set_dots]; try reflexivity.
    rewrite IH. unfold saved, upd. destruct (Nat.eqb v c); reflexivity. }
  destruct (set_dots h1 ctrls d) as [h2 [x|]]; [discriminate A|]. cbn [fst snd andthen] in *. clear A.
  unfold with_marked_nodes in E. set (h2m := upd_all h2 nodes (set_mark true)) in *.
  assert (H2m : forall v, h2m v = if mem v nodes then set_mark true (h2 v) else h2 v) by (intros v; unfold h2m; now rewrite upd_all_spec by reflexivity).
  destruct (evaluate_tlm RO bs true h2m) as [h3 [x|]] eqn:Et; [discriminate E|]. cbn [andthen] in E.
  assert (K3 : forall v, (saved h3 v, bv_adj (h3 v), bv_hess (h3 v), bv_mark (h3 v)) = (saved h2m v, bv_adj (h2m v), bv_hess (h2m v), bv_mark (h2m v))).
  { intros v. pose proof (tlm_sweep_keeps RO (fun x => (bv_ckpt x, bv_out x, bv_mark x, (bv_hess x, bv_adj x))) ltac:(reflexivity) bs true h2m v) as K.
    rewrite Et in K. cbn [fst] in K. injection K as K1 K2 K3 K4 K5. unfold saved. rewrite K1, K2, K3, K4, K5. reflexivity. }
  set (h3u := upd_all h3 nodes (set_mark false)) in *.
  assert (H3u : forall v, h3u v = if mem v nodes then set_mark false (h3 v) else h3 v) by (intros v; unfold h3u; now rewrite upd_all_spec by reflexivity).
  set (h4 := upd h3u J (set_hess (Some (f_zero RO)))) in *.
  set (hh := upd_all h4 nodes (set_mark true)) in *.
  assert (Hhh : forall v, hh v = (if mem v nodes then set_mark true (h4 v) else h4 v)) by (intros v; unfold hh; now rewrite upd_all_spec by reflexivity).
  assert (H4 : forall v, h4 v = if Nat.eqb v J then set_hess (Some 0) (h3u v) else h3u v) by reflexivity.
  destruct (evaluate_hessian RO bs true hh) as [h' [x|]] eqn:Ee; [discriminate E|].
  exists hh, h'. split; [exact Ee|]. split.
  { injection E as _ <-. apply map_ext. intros c. unfold get_hessian. rewrite upd_all_spec by reflexivity.
    destruct (mem c nodes); cbn; destruct (bv_hess (h' c)); reflexivity. }
  assert (Sv2 : forall v, saved h2m v = saved h v /\ bv_adj (h2m v) = bv_adj (h v)).
  { intros v. specialize (Kd v). injection Kd as K1 K2 _. split.
    - transitivity (saved h2 v); [unfold saved; rewrite H2m; destruct (mem v nodes); reflexivity|]. rewrite K1. unfold saved. rewrite H1. destruct (mem v (vars_of bs)); reflexivity.
    - rewrite H2m. transitivity (bv_adj (h2 v)); [destruct (mem v nodes); reflexivity|]. rewrite K2, H1. destruct (mem v (vars_of bs)); reflexivity. }
  assert (F : forall v, saved hh v = saved h3 v /\ bv_adj (hh v) = bv_adj (h3 v) /\ bv_tlm (hh v) = bv_tlm (h3 v)).
  { intros v. unfold saved. rewrite Hhh, H4, H3u. destruct (mem v nodes), (Nat.eqb v J); auto. }
  split. { intros v. rewrite (proj1 (F v)). specialize (K3 v). injection K3 as -> _ _ _. apply Sv2. }
  split. { intros v. rewrite (proj1 (proj2 (F v))). specialize (K3 v). injection K3 as _ -> _ _. apply Sv2. }
  assert (M2 : forall v, bv_mark (h2 v) = false).
  { intros v. rewrite D, H1. destruct (mem v (vars_of bs)); apply Nm. }
  split.
  { intros v. rewrite Hhh, H4, H3u. specialize (K3 v). injection K3 as _ _ _ K3.
    destruct (mem v nodes) eqn:Em; [destruct (Nat.eqb v J); reflexivity|]. rewrite H2m, Em in K3.
    destruct (Nat.eqb v J); cbn; rewrite K3; apply M2. }
  split.
  { intros v Hv. assert (Hv' : In v (vars_of bs)).
    { destruct Hv as [Hv|Hv]; [exact Hv|]. apply mem_In in Hv. apply find_relevant_cases in Hv as [Hv|Hv]; [now apply Hot|].
      unfold vars_of. apply in_app_iff. now right. }
    rewrite Hhh, H4, H3u. specialize (K3 v). injection K3 as _ _ K3 _. specialize (Kd v). injection Kd as _ _ Kd.
    assert (Z : bv_hess (h3 v) = None).
    { rewrite K3, H2m. transitivity (bv_hess (h2 v)); [destruct (mem v nodes); reflexivity|]. rewrite Kd, H1, (proj2 (mem_In _ _) Hv'). reflexivity. }
    destruct (mem v nodes), (Nat.eqb v J); cbn; auto. }
  assert (Zt : forall v, ~ In v ctrls -> bv_tlm (h2 v) = None).
  { intros v Hv. rewrite B by exact Hv. rewrite H1. destruct (mem v (vars_of bs)) eqn:Em; [reflexivity|]. apply mem_false in Em. now apply Hcl. }
  assert (T2 : forall v, bv_tlm (h2m v) = bv_tlm (h2 v)) by (intros v; rewrite H2m; destruct (mem v nodes); reflexivity).
  destruct (tlm_sweep RO true (fun v => mem v ctrls) (fun v => In v nodes) bs h2m h3) as [P [Q W]]; auto.
  { intros b x o Hb Hd Hnn Ho. eapply find_relevant_upward; eauto. }
  { intros b x Hb Hc Hd. eapply cut_unmarked; eauto. }
  { intros v Hv. rewrite T2 in Hv. destruct (in_dec Nat.eq_dec v ctrls) as [K|K]; [|exfalso; apply Hv; now apply Zt]. now apply find_relevant_incl. }
  { intros b o Hb Hc Ho. rewrite T2. apply Zt. exact (not_cut b ctrls Hc o Ho). }
  { intros _ v Hv. rewrite H2m, (proj2 (mem_In _ _) Hv). reflexivity. }
  assert (Et3 : forall v, bv_tlm (hh v) = bv_tlm (h3 v)) by (intros v; apply F).
  split. { intros v Hv. rewrite Et3 in Hv. now apply P. }
  split. { rewrite <- C. apply map_ext_in. intros c Hc. rewrite Et3, Q, T2; [reflexivity|]. intros K. apply computed_not_cut in K.
    cbn in K. apply mem_false in K. contradiction. }
  intros b Hb Hc. specialize (W b Hb Hc). unfold tlms in W.
  rewrite (map_ext (fun v => bv_tlm (hh v)) (fun v => bv_tlm (h3 v))) by exact Et3.
  destruct (existsb is_some (map (fun d0 => bv_tlm (h3 d0)) (b_deps b))).
  - intros k o Hk. rewrite Et3. rewrite (map_ext (saved h) (saved h2m)) by (intros v; symmetry; apply Sv2). exact (W k o Hk).
  - intros o Ho. rewrite Et3. exact (W o Ho).
Qed.

(** ** Values along the line *)
Lemma loop_none : forall (k : kind R) xs l i e0 e', NoDup l -> iter_o (fun e' (io : nat * nat) =>
     match comp_recompute RO k xs (fst io) with
     | Err x => (e', Some x) | Ok None => (e', None)
     | Ok (Some x) => (eset e' (snd io) x, None) end) (enum_from i l) e0 = (e', None) ->
  forall j o, nth_error l j = Some o -> comp_recompute RO k xs (i + j) = Ok None -> e' o = e0 o.
Proof.
  intros k xs l. induction l as [|u l IHl]; intros i f f' Hnl El j' o' Hj' K; [destruct j'; discriminate Hj'|]. inversion Hnl as [|? ? Hu Hnl']; subst.
  cbn [enum_from iter_o fst snd] in El.
  assert (R1 : exists f1, iter_o (fun e' (io : nat * nat) =>
        match comp_recompute RO k xs (fst io) with
        | Err x => (e', Some x) | Ok None => (e', None)
        | Ok (Some x) => (eset e' (snd io) x, None) end) (enum_from (Datatypes.S i) l) f1 = (f', None) /\ (forall v, v <> u -> f1 v = f v) /\
        (comp_recompute RO k xs i = Ok None -> f1 u = f u)).
  { destruct (comp_recompute RO k xs i) as [[x|]|]; [| |discriminate El].
    - exists (eset f u x). split; [exact El|]. split; [|discriminate]. intros v Hv. unfold eset. now rewrite (proj2 (Nat.eqb_neq v u) Hv).
    - exists f. auto. }
  destruct R1 as [f1 [R1 [R2 R3]]]. destruct (loop_fixed RO k xs l (Datatypes.S i) f1 f' Hnl' R1) as [_ Fr].
  destruct j' as [|j']; cbn in Hj'.
  - injection Hj' as <-. rewrite Nat.add_0_r in K. rewrite (Fr u Hu). now apply R3.
  - rewrite Nat.add_succ_r in K. rewrite (IHl (Datatypes.S i) f1 f' Hnl' R1 j' o' Hj' K). apply R2. intros ->. apply Hu. eapply nth_error_In; eauto.
Qed.

Lemma geval_unmarked : forall (mk cut : nat -> bool) (e : nat -> R) bs e0 e1, topo bs -> NoDup (outs_of bs) ->
  (forall b, In b bs -> existsb cut (b_outs b) = false -> fixed_block RO e b) ->
  (forall b o, In b bs -> existsb cut (b_outs b) = false -> In o (b_outs b) -> existsb mk (b_deps b) = true -> mk o = true) ->
  (forall v, mk v = false -> e0 v = e v) -> geval RO cut bs e0 = (e1, None) -> forall v, mk v = false -> e1 v = e v.
Proof.
  intros mk cut e bs. induction bs as [|b r IH]; intros e0 e1 Ht Hn Hf Hu H0 E.
  { unfold geval in E. cbn in E. injection E as <-. exact H0. }
  rewrite geval_cons in E. destruct (geval_block RO cut e0 b) as [e' [x|]] eqn:Eb; [discriminate E|].
  change (NoDup (b_outs b ++ outs_of r)) in Hn. apply (IH e' e1); auto.
  - exact (proj2 Ht).
  - exact (NoDup_app_r _ _ _ Hn).
  - intros b' Hb'. apply Hf. now right.
  - intros b' o Hb'. apply Hu. now right.
  - intros v Hv. unfold geval_block in Eb. destruct (existsb cut (b_outs b)) eqn:Ec; [injection Eb as <-; now apply H0|].
    assert (Hnb : NoDup (b_outs b)) by exact (NoDup_app_l _ _ _ Hn).
    destruct (loop_fixed RO (b_kind b) (map e0 (b_deps b)) (b_outs b) 0 e0 e' Hnb Eb) as [A B].
    destruct (in_dec Nat.eq_dec v (b_outs b)) as [Hin|Hin]; [|rewrite (B v Hin); now apply H0].
    assert (Em : existsb mk (b_deps b) = false).
    { destruct (existsb mk (b_deps b)) eqn:Em; [|reflexivity]. rewrite (Hu b v (or_introl eq_refl) Ec Hin Em) in Hv. discriminate Hv. }
    assert (Ed : map e0 (b_deps b) = map e (b_deps b)).
    { apply map_ext_in. intros d Hd. apply H0. destruct (mk d) eqn:Md; [|reflexivity].
      rewrite (proj2 (existsb_exists mk (b_deps b)) (ex_intro _ d (conj Hd Md))) in Em. discriminate Em. }
    apply In_nth_error in Hin as [k Hk]. pose proof (A k v Hk) as A1. pose proof (Hf b (or_introl eq_refl) Ec k v Hk) as F1.
    pose proof (loop_none (b_kind b) (map e0 (b_deps b)) (b_outs b) 0 e0 e' Hnb Eb k v Hk) as Nn. rewrite Ed in A1, Nn. cbn [plus] in A1, Nn.
    change (0 + k)%nat with k in *.
    destruct A1 as [A1|A1]; [|rewrite (Nn A1); now apply H0].
    destruct F1 as [F1|F1]; rewrite A1 in F1; [now injection F1|discriminate F1].
Qed.

Lemma start_env_off : forall h ctrls (vals : list R) v, length vals = length ctrls -> ~ In v ctrls -> start_env h ctrls vals v = saved h v.
Proof.
  intros h ctrls vals v Hl Hv. unfold start_env. pose proof (supplied_some ctrls vals v Hl) as S. rewrite (proj2 (mem_false v ctrls) Hv) in S.
  destruct (supplied ctrls vals v); [discriminate S|reflexivity].
Qed.

(** ** The gradient along the line *)
Lemma hessian_exact : forall bs J ctrls sc d h hH H, wf_tape bs -> List.Forall shaped bs -> NoDup ctrls -> ctrls <> [] -> independent bs ctrls ->
  no_ctrl h -> no_mark h -> tlm_clean bs ctrls h -> on_tape bs ctrls -> length d = length ctrls ->
  settled bs ctrls (saved h) -> twice_smooth bs ctrls (saved h) -> tangents_right bs ctrls (saved h) -> second_order_sound bs ctrls J ->
  (forall v, In v (find_relevant bs ctrls) ->
     bv_adj (h v) = fst (padj RO (fun v => mem v (find_relevant bs ctrls)) (saved h) bs (fun v => if Nat.eqb v J then Some (1 * sc) else None)) v) ->
  rf_hessian RO bs (RF J ctrls sc) d h = (hH, Ok H) ->
  exists G : R -> list R,
    locally 0 (fun s => snd (rf_derivative RO bs (RF J ctrls sc) 1 (fst (rf_call RO bs (RF J ctrls sc) (shift (map (saved h) ctrls) d s) hH))) = Ok (G s)) /\
    forall i, is_derive (fun s => nth i (G s) 0) 0 (nth i H 0).
Proof.
  intros bs J ctrls sc d h hH H Hw Hsh Hcd Hne Hi Nc Nm Hcl Hot Hl Hst Hsm Htr Hso Had E.
  unfold rf_hessian in E. cbn [rf_J rf_ctrls] in E. pose proof Hw as [Ht Hn].
  assert (Es : forall v, saved hH v = saved h v).
  { intros v. apply core_saved. pose proof (hess_core RO bs J ctrls d h v) as K. rewrite E in K. exact K. }
  assert (NcH : no_ctrl hH).
  { intros v. pose proof (hess_core RO bs J ctrls d h v) as K. rewrite E in K. apply core_ctrl in K. cbn [fst] in K. rewrite K. apply Nc. }
  assert (NmH : no_mark hH).
  { pose proof (hess_clean_marks RO bs J ctrls d h Nm) as K. rewrite E in K. now apply K. }
  destruct (hess_parts bs J ctrls d h hH H Ht Hn Hsh Hcd Hi Hl Nm Hcl Hot E) as [hh [h' [Ee [EH [S1 [S2 [S3 [S4 [S5 [S6 S7]]]]]]]]]].
  set (nodes := find_relevant bs ctrls) in *.
  set (rf := RF J ctrls sc). set (hs := fun s => fst (rf_call RO bs rf (shift (map (saved h) ctrls) d s) hH)).
  assert (Em : map (saved h) ctrls = map (saved hH) ctrls) by (apply map_ext; intros; symmetry; apply Es).
  assert (StH : settled bs ctrls (saved hH)).
  { intros b Hb Hc k o Hk. rewrite Es, (map_ext (saved hH) (saved h)) by exact Es. exact (Hst b Hb Hc k o Hk). }
  destruct (curve_tangent bs ctrls hH d Hw Hsh Hcd Hi NcH Hl StH) as [t [T1 [T2 [T3 [T4 T5]]]]].
  { apply (smooth_at_ext bs ctrls (saved h)); [intros; symmetry; apply Es|exact (proj1 Hsm)]. }
  rewrite <- Em in T5.
  assert (Lm : forall s, length (shift (map (saved h) ctrls) d s) = length ctrls).
  { intros s. rewrite shift_length by now rewrite map_length. apply map_length. }
  set (g := fun s => geval RO (fun v => mem v ctrls) bs (start_env hH ctrls (shift (map (saved h) ctrls) d s))).
  assert (Spec : forall s, (forall v, saved (hs s) v = fst (g s) v) /\ (forall v, erase_ckpt (hs s v) = erase_ckpt (hH v))).
  { intros s. destruct (rf_call_spec RO bs rf (shift (map (saved h) ctrls) d s) hH NcH (Lm s)) as [_ K]. exact K. }
  assert (Ok0 : locally 0 (fun s => snd (g s) = None)).
  { destruct (T5 J sc) as [f [F1 _]]. revert F1. apply filter_imp. intros s F1.
    destruct (rf_call_spec RO bs rf (shift (map (saved h) ctrls) d s) hH NcH (Lm s)) as [K _]. unfold rf in K. rewrite F1 in K. cbn [rf_ctrls] in K.
    unfold g. destruct (snd (geval RO _ bs _)); [discriminate K|reflexivity]. }
  assert (Xd : forall v, is_derive (fun s => saved (hs s) v) 0 (t v)).
  { intros v. destruct (T5 v 1) as [f [F1 F2]]. rewrite Rmult_1_r in F2. apply (is_derive_ext_loc f); [|exact F2].
    revert F1. apply filter_imp. intros s F1.
    destruct (rf_call_spec RO bs (RF v ctrls 1) (shift (map (saved h) ctrls) d s) hH NcH (Lm s)) as [K _]. rewrite F1 in K. cbn [rf_ctrls rf_J rf_scale] in K.
    rewrite (proj1 (Spec s)). unfold g. destruct (snd (geval RO _ bs _)); [discriminate K|]. injection K as ->. cbn. ring. }
  assert (Hfx : forall b, In b bs -> existsb (fun v => mem v ctrls) (b_outs b) = false -> fixed_block RO (saved h) b).
  { intros b Hb Hc. apply Hst; [exact Hb|]. exact (not_cut b ctrls Hc). }
  assert (X0 : forall v, saved (hs 0) v = saved h v).
  { intros v. rewrite (proj1 (Spec 0)). apply (geval_unmarked (fun _ => false) (fun v => mem v ctrls) (saved h) bs (start_env hH ctrls (shift (map (saved h) ctrls) d 0))); auto.
    - intros b o Hb Hc Ho K. exfalso. induction (b_deps b); [discriminate K|auto].
    - intros u _. rewrite shift_zero by now rewrite map_length. destruct (in_dec Nat.eq_dec u ctrls) as [Hu|Hu].
      + unfold start_env. pose proof (supplied_some ctrls (map (saved h) ctrls) u ltac:(apply map_length)) as K. rewrite (proj2 (mem_In _ _) Hu) in K.
        destruct (supplied ctrls (map (saved h) ctrls) u) eqn:Eu; [|discriminate K]. exact (supplied_saved _ _ _ _ Eu).
      + rewrite start_env_off by (rewrite ?map_length; auto). apply Es.
    - fold (g 0). apply injective_projections; [reflexivity|]. exact (locally_singleton _ _ Ok0). }
  assert (Xc : forall v, mem v nodes = false -> locally 0 (fun s => saved (hs s) v = saved (hs 0) v)).
  { intros v Hv. revert Ok0. apply filter_imp. intros s Os. rewrite X0, (proj1 (Spec s)).
    apply (geval_unmarked (fun v => mem v nodes) (fun v => mem v ctrls) (saved h) bs (start_env hH ctrls (shift (map (saved h) ctrls) d s))); auto.
    - intros b o Hb Hc Ho K. apply existsb_exists in K as [x [Hx K]]. apply mem_In in K. apply mem_In. eapply (find_relevant_upward bs ctrls Ht); eauto.
    - intros u Hu. rewrite start_env_off; [apply Es|apply Lm|]. intros K. apply mem_false in Hu. apply Hu. now apply find_relevant_incl.
    - fold (g s). apply injective_projections; [reflexivity|exact Os]. }
  assert (Et : forall v, t v = val RO (bv_tlm (hh v))).
  { apply (tlm_tangent bs ctrls (saved h) d (fun v => bv_tlm (hh v)) t Ht Hn Hsh Hi Htr T1 T2); auto.
    intros b Hb Hc Hm. destruct (T3 b Hb Hc Hm) as [D [D1 D2]]. exists D. split; [|exact D2]. unfold diff_of in *.
    rewrite (map_ext (saved h) (saved hH)) by (intros; symmetry; apply Es). exact D1. }
  set (mk := fun v => mem v nodes) in *. set (a0 := fun v : nat => if Nat.eqb v J then Some (1 * sc) else None) in *.
  assert (Hsm' : twice_smooth bs ctrls (saved hh)).
  { destruct Hsm as [M1 M2]. split; [apply (smooth_at_ext bs ctrls (saved h)); [intros; symmetry; apply S1|exact M1]|].
    intros b d0 d1 Hb Hc Hk Hd Hinf Hz. rewrite S1 in *. eapply M2; eauto. }
  assert (Hst' : settled bs ctrls (saved hh)).
  { intros b Hb Hc k o Hk. rewrite S1, (map_ext (saved hh) (saved h)) by exact S1. exact (Hst b Hb Hc k o Hk). }
  destruct (hess_tracks bs ctrls J hh (fun s => saved (hs s)) t (1 * sc) Hw Hsh Hi Hst' Hsm' Hso) with (h' := h') as [R1 R2]; auto.
  { intros v. rewrite X0. symmetry. apply S1. }
  { intros v Hv. destruct (bv_tlm (hh v)) eqn:Ev; [|reflexivity]. exfalso. fold nodes in Hv. apply mem_false in Hv. apply Hv, S5. congruence. }
  { intros v Hv. rewrite S2, Had by now apply mem_In. fold nodes mk a0.
    symmetry. apply (padj_ext RO mk mk (saved (hs 0)) (saved h) bs a0 a0); auto. intros u. reflexivity. }
  fold nodes mk a0 in R1, R2.
  exists (fun s => map (fun c => val RO (fst (padj RO mk (saved (hs s)) bs a0) c)) ctrls). split.
  - revert R1. apply filter_imp. intros s Rs.
    assert (Ncs : no_ctrl (hs s)).
    { intros v. pose proof (proj2 (Spec s) v) as K. apply erase_frame, frame_ctrl in K. rewrite K. apply NcH. }
    assert (Mks : forall v, bv_mark (hs s v) = false).
    { intros v. pose proof (proj2 (Spec s) v) as K. unfold erase_ckpt, set_ckpt in K. injection K. intros. rewrite <- (NmH v). assumption. }
    fold rf. fold (hs s). rewrite derivative_grad by exact Hne. cbn [rf_J rf_ctrls rf_scale rf].
    destruct (grad_spec RO bs J ctrls (f_mul RO 1 sc) (hs s) Ncs) as [Gs _]. rewrite Gs. fold nodes.
    destruct (overmark RO mk mk (saved (hs s)) bs a0 (start_adj bs J (1 * sc) (hs s))) as [O1 O2]; auto.
    { intros b x o Hb Hx Hm Ho. apply mem_In. apply mem_In in Hm. eapply (find_relevant_upward bs ctrls Ht); eauto. }
    { intros v Hv. apply mem_In in Hv. unfold start_adj, a0. destruct (Nat.eqb v J); [reflexivity|].
      assert (Hv' : In v (vars_of bs)).
      { apply find_relevant_cases in Hv as [Hv|Hv]; [now apply Hot|]. unfold vars_of. apply in_app_iff. now right. }
      now rewrite (proj2 (mem_In _ _) Hv'). }
    destruct (padj_ext RO (fun v => bv_mark (hs s v) || mem v nodes) mk (saved (hs s)) (saved (hs s)) bs (start_adj bs J (1 * sc) (hs s)) (start_adj bs J (1 * sc) (hs s))) as [P1 P2].
    { intros v. now rewrite Mks. } { reflexivity. } { intros v. reflexivity. }
    cbn [f_mul RO]. rewrite P1, O1. f_equal. apply map_ext_in. intros c Hc. unfold grad_of. rewrite P2.
    rewrite <- (O2 c) by (apply mem_In; now apply find_relevant_incl). reflexivity.
  - intros i. rewrite EH. clear - R2. 
    assert (G : forall l, (forall c, In c l -> mk c = true) -> forall i, is_derive (fun s => nth i (map (fun c => val RO (fst (padj RO mk (saved (hs s)) bs a0) c)) l) 0) 0
       (nth i (map (fun c => val RO (bv_hess (h' c))) l) 0)).
    { induction l as [|c l IHl]; intros Hm k.
      - destruct k; cbn; apply (@is_derive_const R_AbsRing R_NormedModule).
      - destruct k as [|k]; cbn [map nth]; [apply R2, Hm; now left|]. apply IHl. intros x Hx. apply Hm. now right. }
    apply G. intros c Hc. apply mem_In. now apply find_relevant_incl.
Qed.

(** After an evaluation and a derivative at the same point. *)
Lemma hessian_after_call : forall bs J ctrls sc m h0 y hg g d hH H, wf_tape bs -> List.Forall shaped bs -> NoDup ctrls -> independent bs ctrls ->
  no_ctrl h0 -> no_mark h0 -> tlm_clean bs ctrls h0 -> on_tape bs ctrls -> length d = length ctrls ->
  let rf := RF J ctrls sc in
  snd (rf_call RO bs rf m h0) = Ok y ->
  let h := fst (rf_call RO bs rf m h0) in
  rf_derivative RO bs rf 1 h = (hg, Ok g) ->
  twice_smooth bs ctrls (saved h) -> tangents_right bs ctrls (saved h) -> second_order_sound bs ctrls J ->
  rf_hessian RO bs rf d hg = (hH, Ok H) ->
  exists G : R -> list R,
    locally 0 (fun s => snd (rf_derivative RO bs rf 1 (fst (rf_call RO bs rf (shift m d s) hH))) = Ok (G s)) /\
    forall i, is_derive (fun s => nth i (G s) 0) 0 (nth i H 0).
Proof.
  intros bs J ctrls sc m h0 y hg g d hH H Hw Hsh Hcd Hi Nc Nm Hcl Hot Hl rf Hy h Eg Hsm Htr Hso EH.
  destruct (call_settled bs J ctrls sc m h0 y Hw Hcd Nc Hy) as [Nch [St Em]]. fold rf h in Nch, St, Em.
  destruct (Nat.eq_dec (length m) (length ctrls)) as [Hm|Hm].
  2:{ rewrite (rf_call_mismatch RO bs rf m h0 Hm) in Hy. discriminate Hy. }
  destruct (rf_call_spec RO bs rf m h0 Nc Hm) as [_ [_ Er]]. fold h in Er.
  assert (Nmh : no_mark h).
  { intros v. specialize (Er v). unfold erase_ckpt, set_ckpt in Er. injection Er. intros. rewrite <- (Nm v). assumption. }
  assert (Hne : ctrls <> []) by (intros K; unfold rf_derivative, rf in Eg; cbn [rf_ctrls] in Eg; rewrite K in Eg; discriminate Eg).
  pose proof Eg as Eg0. rewrite (surjective_pairing (rf_derivative RO bs rf 1 h)) in Eg0. rewrite derivative_grad in Eg0 by exact Hne.
  cbn [rf_J rf_ctrls rf_scale rf f_mul RO] in Eg0. injection Eg0 as E1 E2.
  destruct (grad_spec RO bs J ctrls (1 * sc) h Nch) as [G1 [G2 [G3 G4]]].
  rewrite E2 in G1.
  match type of G1 with context[snd ?p] => destruct (snd p) eqn:Ep; [discriminate G1|] end.
  assert (Es : forall v, saved hg v = saved h v /\ bv_ctrl (hg v) = bv_ctrl (h v)).
  { intros v. pose proof (grad_core RO bs J ctrls (1 * sc) h Nch v) as K. cbn in K. split; [apply core_saved in K|apply core_ctrl in K]; rewrite <- E1; exact K. }
  rewrite <- Em.
  rewrite (map_ext (saved h) (saved hg)) by (intros v; symmetry; apply Es).
  apply (hessian_exact bs J ctrls sc d hg hH H); auto.
  - intros v. rewrite (proj2 (Es v)). apply Nch.
  - rewrite <- E1. apply grad_clean_marks; [exact Nmh|]. now rewrite E2.
  - intros v Hv Hv'. rewrite <- E1. rewrite (proj1 (G4 v)). specialize (Er v). unfold erase_ckpt, set_ckpt in Er. injection Er. intros. rewrite <- (Hcl v Hv Hv'). assumption.
  - intros b Hb Hc k o Hk. rewrite (proj1 (Es o)), (map_ext (saved hg) (saved h)) by (intros; apply Es). exact (St b Hb Hc k o Hk).
  - destruct Hsm as [M1 M2]. split; [apply (smooth_at_ext bs ctrls (saved h)); [intros v _; symmetry; apply Es|exact M1]|].
    intros b d0 d1 Hb Hc Hk Hd Hinf Hz. rewrite (proj1 (Es d1)). rewrite (proj1 (Es d0)) in Hz. eapply M2; eauto.
  - apply (tangents_right_ext bs ctrls (saved h)); [intros v _; symmetry; apply Es|exact Htr].
  - intros v Hv. rewrite <- E1, G2.
    destruct (padj_nodes RO bs J ctrls (1 * sc) h (proj1 Hw)) as [_ K]; [now apply on_tape_fresh|exact Ep|].
    rewrite (K v Hv), E1.
    refine (proj2 (padj_ext RO _ _ (saved h) (saved hg) bs _ _ _ _ _) v); [reflexivity|intros u; symmetry; apply Es|intros u; reflexivity].
Qed.

Lemma hessian_recorded : forall ann p j sc m y hg g d hH H, consistent p -> disciplined ann p = true ->
  (j < length (w_objs (exec RO (world_new RO ann) p)))%nat ->
  let w := fst (recorded RO ann p j) in
  let rf := RF (snd (recorded RO ann p j)) (w_ctrls w) sc in
  let bs := t_flat (w_tape w) in
  let h := fst (rf_call RO bs rf m (w_heap w)) in
  NoDup (w_ctrls w) -> independent bs (w_ctrls w) -> on_tape bs (w_ctrls w) -> length d = length (w_ctrls w) ->
  snd (rf_call RO bs rf m (w_heap w)) = Ok y ->
  rf_derivative RO bs rf 1 h = (hg, Ok g) ->
  twice_smooth bs (w_ctrls w) (saved h) -> tangents_right bs (w_ctrls w) (saved h) -> second_order_sound bs (w_ctrls w) (rf_J rf) ->
  rf_hessian RO bs rf d hg = (hH, Ok H) ->
  exists G : R -> list R,
    locally 0 (fun s => snd (rf_derivative RO bs rf 1 (fst (rf_call RO bs rf (shift m d s) hH))) = Ok (G s)) /\
    forall i, is_derive (fun s => nth i (G s) 0) 0 (nth i H 0).
Proof.
  intros ann p j sc m y hg g d hH H Hc Hd Hj w rf bs h Hnd Hi Ho Hl Hy Eg Hsm Htr Hso EH.
  destruct (recorded_clean RO ann p j Hc Hd Hj) as [Hwf [_ [Nc [Nm Z]]]]. fold w bs in Hwf, Nc, Nm, Z.
  pose proof (recorded_shaped RO ann p j Hc Hd Hj) as Hsh. fold w bs in Hsh.
  apply (hessian_after_call bs (rf_J rf) (w_ctrls w) sc m (w_heap w) y hg g d hH H); auto.
  intros v _ _. apply Z.
Qed.

(** ** Checking the fragment by computation *)
Definition only_linear_b {V} (bs : list (block V)) (J v : nat) : bool :=
  forallb (fun b => linear_kind (b_kind b) || negb (existsb (fun d => mem d (find_relevant bs [v])) (b_deps b)) ||
                    negb (existsb (fun o => mem J (find_relevant bs [o])) (b_outs b))) bs.
Definition second_order_b {V} (bs : list (block V)) (J : nat) (b : block V) : bool :=
  match b_kind b with
  | KAdd | KSub | KNeg | KDiv | KPow | KMin | KMax => true
  | KMul => match b_deps b with [d; d'] => Nat.eqb d d' | _ => false end || forallb (only_linear_b bs J) (b_outs b)
  | _ => false
  end.
Lemma only_linear_check : forall V (bs : list (block V)) J v, topo bs -> only_linear_b bs J v = true -> only_linear bs J v.
Proof.
  intros V bs J v Ht H w b o Hvw Hb Hw Ho HJ. unfold only_linear_b in H. rewrite forallb_forall in H. specialize (H b Hb).
  apply orb_true_iff in H as [H|H]; [apply orb_true_iff in H as [H|H]; [exact H|]|]; exfalso; apply negb_true_iff in H.
  - apply not_true_iff_false in H. apply H, existsb_exists. exists w. split; [exact Hw|]. apply mem_In, (find_relevant_influences bs [v] w Ht). exists v. split; [now left|exact Hvw].
  - apply not_true_iff_false in H. apply H, existsb_exists. exists o. split; [exact Ho|]. apply mem_In, (find_relevant_influences bs [o] J Ht). exists o. split; [now left|exact HJ].
Qed.
Lemma second_order_check : forall V (bs : list (block V)) ctrls J, topo bs -> forallb (second_order_b bs J) bs = true -> second_order_sound bs ctrls J.
Proof.
  intros V bs ctrls J Ht H b d o Hb _ _ _ _. rewrite forallb_forall in H. specialize (H b Hb). unfold second_order_b, second_order_block in *.
  destruct (b_kind b); try discriminate H; try exact I. apply orb_true_iff in H as [H|H].
  - left. destruct (b_deps b) as [|d0 [|d1 [|? ?]]]; try discriminate H. apply Nat.eqb_eq in H. subst. eauto.
  - right. intros x Hx. rewrite forallb_forall in H. apply only_linear_check; auto.
Qed.
