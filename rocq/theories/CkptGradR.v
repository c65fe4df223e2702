(** Derivatives under a checkpoint manager over the reals. *)
From Coq Require Import List Arith ZArith Bool Lia Reals Lra.
From Coquelicot Require Import Coquelicot.
From Verif Require Import Base Model BaseFacts Graph Record Spec RecordFacts Replay ReplayExec History Session Sweep SpecGraph Marks Dual TlmSweep RealInst Calculus Gradient.
From Verif Require Import Ckpt SpecCkpt CkptCall CkptGrad CkptStored.
Import ListNotations.
Open Scope R_scope.

Lemma ckpt_gradient : forall sc n fwd back, covering sc n fwd -> (1 <= n)%nat -> reversing sc n fwd back ->
  forall pkg ann p, pure_program p -> consistent p -> (sc_max sc = None -> S (ends p) = n) ->
  forall s, ckpt_session RO pkg sc ann p s ->
  let w := exec RO (world_new RO ann) p in let bs := t_flat (w_tape w) in let cs := w_ctrls w in
  NoDup cs -> independent bs cs -> on_tape bs cs ->
  let xs := map (fun c => bv_rec (w_heap w c)) cs in
  smooth_at bs cs (saved (w_heap w)) -> adjoints_right bs cs (saved (w_heap w)) ->
  forall ops j ob J scale d g, List.Forall (on_controls cs) ops -> List.Forall (at_values xs) ops -> derivs_ok RO s ops = true -> evaluated_last ops ->
  nth_error (w_objs w) j = Some ob -> o_bv ob = Some J -> length d = length cs ->
  snd (c_derivative RO (RF J cs scale) 1 (cop_hist RO s ops)) = Ok g ->
  exists y : R -> R, locally 0 (fun t => spec_rerun RO ann p (shift (control_values RO ann p) d t) j = Ok (y t)) /\
    is_derive (fun t => y t * scale) 0 (dot RO g d).
Proof.
  intros sc n fwd back Hc Hn Hb pkg ann p Hp Hcons He s Hs w bs cs Hnd Hi Ho xs Hsm Har ops j ob J scale d g H1 H2 H3 H4 Hj HJ Hd G.
  pose proof (ckpt_derivative_recorded RO sc n fwd back Hc Hn Hb pkg ann p Hp Hcons He s Hs cs Ho ops J scale 1 H1 H2 H3 H4) as E.
  assert (R0 : recorded RO ann p j = (w, J)) by (unfold recorded, get_bv; fold w; rewrite Hj, HJ; reflexivity).
  assert (Hl : (j < length (w_objs w))%nat) by (apply nth_error_Some; congruence).
  pose proof (derivative_recorded ann p j scale [] d g Hcons (pure_disciplined p ann Hp) Hl) as X. cbv zeta in X. rewrite R0 in X. cbn [fst snd run_hist] in X.
  apply X; auto; [reflexivity|]. fold w in E. rewrite E in G. exact G.
Qed.

Lemma ckpt_stored_gradient : forall sc n fwd back, covering sc n fwd -> (1 <= n)%nat -> reversing sc n fwd back -> List.Forall storing fwd -> restoring n back ->
  forall pkg ann p, pure_program p -> consistent p -> S (ends p) = n ->
  forall s, ckpt_session RO pkg sc ann p s ->
  let w := exec RO (world_new RO ann) p in let bs := t_flat (w_tape w) in let cs := w_ctrls w in
  NoDup cs -> cs <> [] -> on_tape bs cs -> (forall c, In c cs -> ~ In c (outs_of bs)) ->
  (forall c t, In c cs -> In t (t_steps (c_tape s)) -> In c (deps_of (ts_blocks t))) ->
  forall ops j ob J scale vals y0 d g, List.Forall (on_controls cs) ops -> derivs_ok RO s ops = true ->
  nth_error (w_objs w) j = Some ob -> o_bv ob = Some J -> length d = length cs ->
  snd (c_call RO (RF J cs scale) vals (cop_hist RO s ops)) = Ok y0 ->
  let e := saved (fst (rf_call RO bs (RF J cs scale) vals (w_heap w))) in
  smooth_at bs cs e -> adjoints_right bs cs e ->
  snd (c_derivative RO (RF J cs scale) 1 (fst (c_call RO (RF J cs scale) vals (cop_hist RO s ops)))) = Ok g ->
  exists y : R -> R, locally 0 (fun t => spec_rerun RO ann p (shift vals d t) j = Ok (y t)) /\
    is_derive (fun t => y t * scale) 0 (dot RO g d).
Proof.
  intros sc n fwd back Hc Hn Hb Hst Hre pkg ann p Hp Hcons He s Hs w bs cs Hnd Hne Ho Hlf Hall ops j ob J scale vals y0 d g H1 H2 Hj HJ Hd Hy e Hsm Har G.
  pose proof (stored_derivative RO sc n fwd back Hc Hn Hb Hst Hre pkg ann p Hp Hcons He s Hs cs Ho Hne Hlf Hall ops (RF J cs scale) vals y0 J scale 1 H1 H2 eq_refl Hy) as E.
  destruct (stored_succeeds RO sc n fwd back Hc Hn Hb Hst pkg ann p Hp Hcons He s Hs cs Ho Hne Hlf Hall ops (RF J cs scale) vals y0 H1 H2 eq_refl Hy) as [y1 Hy1].
  assert (R0 : recorded RO ann p j = (w, J)) by (unfold recorded, get_bv; fold w; rewrite Hj, HJ; reflexivity).
  assert (Hl : (j < length (w_objs w))%nat) by (apply nth_error_Some; congruence).
  pose proof (derivative_evaluated ann p j scale [] vals y1 [] d g Hcons (pure_disciplined p ann Hp) Hl) as X. cbv zeta in X. rewrite R0 in X. cbn [fst snd run_hist fold_left] in X.
  apply X; auto.
  - intros c c' Hcc Hcc' Hne' Hin. destruct Hin as [|b d' o Hbb Hdd Hoo Hin]; [now apply Hne'|].
    apply (Hlf o Hcc'). apply in_flat_map. eauto.
  - intros b o Hbb Hob Hoc. exfalso. apply (Hlf o Hoc). apply in_flat_map. eauto.
  - intros rf v [].
  - reflexivity.
  - fold w in E. fold bs cs in E. rewrite E in G. exact G.
Qed.
