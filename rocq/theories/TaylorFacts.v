(** Facts about the Taylor test. *)
From Coq Require Import List Arith Bool Lia Reals Lra.
From Coquelicot Require Import Coquelicot.
From Verif Require Import Base Model BaseFacts Graph Record Spec RecordFacts History Sweep SpecGraph Marks Dual Surgery TapeMore TlmSweep Linear RealInst Calculus Gradient Solvers SpecSolvers SolverFacts Taylor SpecTaylor.
Import ListNotations.
Open Scope R_scope.

Lemma perturb_shift : forall m d e, perturb m d e = shift m d e.
Proof.
  unfold perturb. intros m. induction m as [|x m IH]; intros [|y d] e; try reflexivity. cbn. f_equal; [ring | apply IH].
Qed.
Lemma dot_sum_dot : forall d g, dot_sum d g = dot RO g d.
Proof.
  unfold dot_sum. intros d g. rewrite <- (Rplus_0_l (dot RO g d)). generalize 0. revert g. induction d as [|x d IH]; intros [|y g] a; cbn; try (cbn; ring).
  rewrite IH. cbn. ring.
Qed.
Lemma epsilons_eq : epsilons = [1 / 100; 1 / 200; 1 / 400; 1 / 800].
Proof. unfold epsilons. cbn. repeat (f_equal; [lra|]). f_equal. lra. Qed.

(** the convergence rate of consecutive residuals when the step is halved *)
Definition halved_rate (e0 e1 : R) : Rbar := if Req_EM_T e1 0 then p_infty else Finite (ln (e1 / e0) / ln (1 / 2)).
Lemma rate_halved : forall e0 e1 x0 x1, e0 <> 0 -> x0 <> 0 -> x1 / x0 = 1 / 2 -> rate e1 e0 x1 x0 = Ok (halved_rate e0 e1).
Proof.
  intros e0 e1 x0 x1 He Hx E. unfold rate, halved_rate. destruct (Req_EM_T e0 0); [contradiction|]. destruct (Req_EM_T x0 0); [contradiction|].
  rewrite E. destruct (Req_EM_T (e1 / e0) 0) as [Q|Q]; destruct (Req_EM_T e1 0) as [Z|Z]; try reflexivity; exfalso.
  - apply Z. apply (Rmult_eq_reg_r (/ e0)); [unfold Rdiv in Q; lra | apply Rinv_neq_0_compat; exact He].
  - apply Q. rewrite Z. unfold Rdiv. ring.
Qed.
Lemma rates_ok : forall e0 e1 e2 e3, e0 <> 0 -> e1 <> 0 -> e2 <> 0 ->
  rates [e0; e1; e2; e3] epsilons = Ok [halved_rate e0 e1; halved_rate e1 e2; halved_rate e2 e3].
Proof.
  intros e0 e1 e2 e3 H0 H1 H2. rewrite epsilons_eq. cbn [rates]. rewrite !rate_halved; try assumption; try reflexivity; lra.
Qed.
Lemma rates_zero : forall e0 e1 e2 e3, e0 = 0 \/ e1 = 0 \/ e2 = 0 -> rates [e0; e1; e2; e3] epsilons = Err EZeroDiv.
Proof.
  intros e0 e1 e2 e3 H. rewrite epsilons_eq. cbn [rates]. unfold rate at 1. destruct (Req_EM_T e0 0) as [|N0]; [reflexivity|].
  destruct (Req_EM_T (1 / 100) 0); [lra|].
  assert (G : (do rs <- (do r <- rate e2 e1 (1 / 400) (1 / 200); do rs <- (do r0 <- rate e3 e2 (1 / 800) (1 / 400); do rs <- Ok []; Ok (r0 :: rs)); Ok (r :: rs)); Ok rs) = @Err (list Rbar) EZeroDiv).
  { unfold rate at 1. destruct (Req_EM_T e1 0) as [|N1]; [reflexivity|]. destruct (Req_EM_T (1 / 200) 0); [lra|].
    assert (G : rate e3 e2 (1 / 800) (1 / 400) = Err EZeroDiv). { unfold rate. destruct (Req_EM_T e2 0); [reflexivity | exfalso; tauto]. }
    rewrite G. destruct (Req_EM_T (e2 / e1) 0); reflexivity. }
  destruct (rate e2 e1 (1 / 400) (1 / 200)) as [r|x] eqn:E1.
  - cbn in G |- *. destruct (rate e3 e2 (1 / 800) (1 / 400)) as [r'|x']; [discriminate|]. cbn in G |- *. injection G as ->. destruct (Req_EM_T (e1 / e0) 0); reflexivity.
  - cbn in G |- *. injection G as ->. destruct (Req_EM_T (e1 / e0) 0); reflexivity.
Qed.
Lemma minimum_spec : forall x l, exists r, minimum (x :: l) = Ok r /\ In r (x :: l) /\ forall y, In y (x :: l) -> Rbar_le r y.
Proof.
  intros x l. cbn [minimum]. eexists. split; [reflexivity|]. revert x. induction l as [|y l IH]; intros x; cbn [fold_left].
  - split; [left; reflexivity|]. intros y [<-|[]]. apply Rbar_le_refl.
  - unfold Rbar_ltb. destruct (Rbar_lt_dec y x) as [Hlt|Hge].
    + destruct (IH y) as [I1 I2]. split; [right; exact I1|]. intros z [<-|Hz]; [|apply I2; exact Hz].
      apply Rbar_le_trans with y; [apply I2; left; reflexivity | apply Rbar_lt_le; exact Hlt].
    + destruct (IH x) as [I1 I2]. apply Rbar_not_lt_le in Hge. split.
      * destruct I1 as [E|I1]; [left; exact E | right; right; exact I1].
      * intros z [<-|[<-|Hz]]; [apply I2; left; reflexivity | | apply I2; right; exact Hz].
        apply Rbar_le_trans with x; [apply I2; left; reflexivity | exact Hge].
Qed.

Lemma controls_at : forall (t : tape R) rf h0 h x y, no_ctrl h0 -> wf_tape (t_flat t) -> NoDup (rf_ctrls rf) ->
  val_at RO t rf h0 x = Ok y -> holds RO t rf h0 h x -> map (saved h) (rf_ctrls rf) = x.
Proof.
  intros t [Jx cs sc] h0 h x y N Hw Hnd H (_ & _ & E). rewrite (map_ext _ _ E).
  destruct (call_settled (t_flat t) Jx cs sc x h0 y Hw Hnd N H) as (_ & _ & M). exact M.
Qed.

Section Run.
Variables (t : tape R) (rf : rfun R) (h0 : heap R).
Notation bs := (t_flat t).
Hypothesis Ht : topo bs.
Hypothesis Hg : forall b, In b bs -> gives_value RO b.
Hypothesis Hcl : closed (rf_ctrls rf) bs.
Hypothesis N0 : no_ctrl h0.
Hypothesis Ho : on_tape bs (rf_ctrls rf).
Hypothesis M0 : no_mark h0.
Notation J := (val_at RO t rf h0).
Notation dJ := (der_at RO t rf h0).
Notation at_point := (holds RO t rf h0).

Lemma perturbed_spec : forall m d (j : R -> R) xs h, okheap t rf h0 h -> no_mark h ->
  (forall e, In e xs -> J (shift m d e) = Ok (j e)) ->
  exists h', perturbed bs rf m d xs h = (h', Ok (map (fun e => (e, j e)) xs)) /\
    (forall y, xs = y ++ [last xs 0] -> at_point h' (shift m d (last xs 0))) /\ okheap t rf h0 h' /\ no_mark h'.
Proof.
  intros m d j xs. induction xs as [|e xs IH]; intros h K N H.
  - exists h. split; [reflexivity|]. split; [|auto]. intros y E. destruct y; discriminate.
  - destruct (holds_call RO t rf h0 Ht Hg Hcl N0 h (shift m d e) (j e) K N (H e (or_introl eq_refl))) as [E1 E2].
    cbn [perturbed]. rewrite perturb_shift. destruct (rf_call RO bs rf (shift m d e) h) as [h1 r]. cbn in E1, E2. subst r.
    pose proof E2 as (K1 & N1 & _). destruct (IH h1 K1 N1) as (h' & P1 & P2 & P3). { intros e' He'. apply H. right. exact He'. }
    rewrite P1. exists h'. split; [reflexivity|]. split; [|exact P3]. intros y _. destruct xs as [|e' xs'].
    + cbn in P1. injection P1 as ->. exact E2.
    + change (last (e :: e' :: xs') 0) with (last (e' :: xs') 0). apply (P2 (removelast (e' :: xs'))). apply app_removelast_last. discriminate.
Qed.
Lemma der_length : forall a h g, snd (rf_derivative RO bs rf a h) = Ok g -> length g = length (rf_ctrls rf).
Proof.
  intros a h g H. unfold rf_derivative, compute_gradient in H. destruct (rf_ctrls rf) as [|c cs] eqn:Ec; [discriminate|]. rewrite <- Ec in *.
  destruct (with_marked_nodes _ _ _) as [h3 [e|]]; cbn in H; [discriminate|]. injection H as <-. apply map_length.
Qed.
Lemma call_length : forall x y, J x = Ok y -> length x = length (rf_ctrls rf).
Proof.
  intros x y H. destruct (Nat.eq_dec (length x) (length (rf_ctrls rf))) as [E|E]; [exact E|].
  unfold val_at in H. rewrite (rf_call_mismatch RO bs rf x h0 E) in H. discriminate.
Qed.
Lemma holds_hess : forall h x d hm, at_point h x -> snd (rf_hessian RO bs rf d h) = Ok hm -> at_point (fst (rf_hessian RO bs rf d h)) x.
Proof.
  intros h x d hm (K & Nm & Es) E. destruct K as (Nc & Eo & El).
  pose proof (api_core RO bs h (AHess rf d) Nc eq_refl : same_core h (fst (rf_hessian RO bs rf d h))) as C.
  split; [split; [|split]|split].
  - intros v. rewrite (core_ctrl _ _ (C v)). apply Nc.
  - intros v. destruct (core_ckpt _ _ (C v)) as [_ E']. rewrite E'. apply Eo.
  - intros v H1 H2. rewrite (core_saved _ _ v (C v)). auto.
  - apply (api_clean RO bs h (AHess rf d) Nc Nm). left. unfold api_ok. cbn [api_run]. rewrite E. reflexivity.
  - intros v. rewrite (core_saved _ _ v (C v)). apply Es.
Qed.

(** residual at [e], given derivative and Hessian terms *)
Definition residual (jm : R) (j : R -> R) (D H e : R) : R := Rabs (j e - jm - e * D - 1 / 2 * e ^ 2 * H).
Lemma taylor_spec : forall m d jm j (dopt : option R) D H h, okheap t rf h0 h -> no_mark h -> length d = length m ->
  J m = Ok jm -> (forall e, In e epsilons -> J (shift m d e) = Ok (j e)) ->
  (dopt = Some D \/ dopt = None /\ exists g, dJ m = Ok g /\ D = dot RO g d) ->
  exists h' r, taylor_test bs rf m d dopt H h = (h', Ok (map (residual jm j D H) epsilons, r)) /\
    r = (do rs <- rates (map (residual jm j D H) epsilons) epsilons; minimum rs) /\ at_point h' (shift m d (1 / 800)).
Proof.
  intros m d jm j dopt D H h K N Hl Hm Hj HD. unfold taylor_test. rewrite Hl, Nat.eqb_refl. cbn [negb].
  destruct (holds_call RO t rf h0 Ht Hg Hcl N0 h m jm K N Hm) as [E1 E2].
  destruct (rf_call RO bs rf m h) as [h1 r1]. cbn in E1, E2. subst r1.
  assert (S2 : exists h2, match dopt with
      | Some s => (h1, Ok s)
      | None => match rf_derivative RO bs rf 1 h1 with
                | (h2, Err e) => (h2, Err e)
                | (h2, Ok g) => (h2, if (length g =? length m)%nat then Ok (dot_sum d g) else Err EValue)
                end
      end = (h2, Ok D) /\ okheap t rf h0 h2 /\ no_mark h2).
  { destruct HD as [->|(-> & g & Hg' & ->)].
    - exists h1. destruct E2 as (A & B & _). auto.
    - destruct (holds_deriv RO t rf h0 Ht Hg Hcl N0 Ho M0 h1 m g E2 Hg') as [F1 F2]. change (f_one RO) with 1 in F1, F2.
      destruct (rf_derivative RO bs rf 1 h1) as [h2 r2] eqn:Er. cbn in F1, F2. subst r2. exists h2.
      assert (Lg : length g = length (rf_ctrls rf)) by (apply (der_length 1 h1); rewrite Er; reflexivity).
      rewrite Lg, (call_length m jm Hm), Nat.eqb_refl, dot_sum_dot. destruct F2 as (A & B & _). auto. }
  destruct S2 as (h2 & -> & K2 & N2).
  destruct (perturbed_spec m d j epsilons h2 K2 N2 Hj) as (h' & P1 & P2 & _). rewrite P1. cbn [bind].
  assert (Em : map (fun p : R * R => Rabs (snd p - jm - fst p * D - 1 / 2 * fst p ^ 2 * H)) (map (fun e => (e, j e)) epsilons) = map (residual jm j D H) epsilons) by (rewrite map_map; reflexivity).
  rewrite Em. exists h'. eexists. split; [reflexivity|]. split; [reflexivity|].
  assert (El : last epsilons 0 = 1 / 800) by (rewrite epsilons_eq; reflexivity). rewrite <- El.
  apply (P2 (removelast epsilons)). apply app_removelast_last. rewrite epsilons_eq. discriminate.
Qed.

(** taylor_to_dict *)
Lemma dict_spec : forall m d jm j g hm, length d = length m ->
  J m = Ok jm -> dJ m = Ok g -> (forall e, In e epsilons -> J (shift m d e) = Ok (j e)) ->
  snd (rf_hessian RO bs rf d (fst (rf_derivative RO bs rf 1 (fst (rf_call RO bs rf m h0))))) = Ok hm ->
  let r0 := map (fun e => Rabs (j e - jm)) epsilons in
  let r1 := map (fun e => Rabs (j e - jm - e * dot RO g d)) epsilons in
  let r2 := map (fun e => Rabs (j e - jm - e * dot RO g d - 1 / 2 * e ^ 2 * dot RO hm d)) epsilons in
  exists h4, okheap t rf h0 h4 /\ no_mark h4 /\ taylor_to_dict bs rf m d h0 =
   match (do a <- rates r0 epsilons; do b <- rates r1 epsilons; do c <- rates r2 epsilons; Ok [(r0, a); (r1, b); (r2, c)]) with
   | Err e => (h4, Err e)
   | Ok out => let '(h5, y) := rf_call RO bs rf m h4 in (h5, rmap (fun _ => out) y)
   end.
Proof.
  intros m d jm j g hm Hl Hm Hd Hj Hh r0 r1 r2. unfold taylor_to_dict. rewrite Hl, Nat.eqb_refl. cbn [negb].
  destruct (holds_call RO t rf h0 Ht Hg Hcl N0 h0 m jm (okheap_0 t rf h0 N0) M0 Hm) as [E1 E2].
  destruct (rf_call RO bs rf m h0) as [h1 r]. cbn [fst snd] in *. subst r.
  destruct (holds_deriv RO t rf h0 Ht Hg Hcl N0 Ho M0 h1 m g E2 Hd) as [F1 F2]. change (f_one RO) with 1 in F1, F2.
  destruct (rf_derivative RO bs rf 1 h1) as [h2 r] eqn:Er. cbn [fst snd] in *. subst r.
  assert (Lg : length g = length (rf_ctrls rf)) by (apply (der_length 1 h1); rewrite Er; reflexivity).
  rewrite Lg, (call_length m jm Hm), Nat.eqb_refl. cbn [negb].
  pose proof (holds_hess h2 m d hm F2 Hh) as G2.
  destruct (rf_hessian RO bs rf d h2) as [h3 r]. cbn [fst snd] in *. subst r. cbv zeta. rewrite !dot_sum_dot.
  destruct G2 as (K3 & N3 & _).
  destruct (perturbed_spec m d j epsilons h3 K3 N3 Hj) as (h4 & P1 & _ & K4 & N4). rewrite P1. cbn [bind].
  rewrite !map_map. cbn [fst snd]. exists h4. split; [exact K4|]. split; [exact N4|]. reflexivity.
Qed.

(** the derivative term is the derivative along the direction *)
Section Exact.
Hypothesis Hw : wf_tape bs.
Hypothesis Hsh : List.Forall shaped bs.
Hypothesis Hnd : NoDup (rf_ctrls rf).
Hypothesis Hi : independent bs (rf_ctrls rf).
Lemma deriv_is : forall m d jm g (f : R -> R), length d = length m -> J m = Ok jm -> dJ m = Ok g ->
  smooth_at bs (rf_ctrls rf) (saved (fst (rf_call RO bs rf m h0))) -> adjoints_right bs (rf_ctrls rf) (saved (fst (rf_call RO bs rf m h0))) ->
  locally 0 (fun s => J (shift m d s) = Ok (f s)) -> is_derive f 0 (dot RO g d).
Proof.
  intros m d jm g f Hl Hm Hd Hs Ha Hf. pose proof (call_length m jm Hm) as Lm. destruct rf as [Jx cs sc] eqn:Erf. rewrite <- Erf in *.
  assert (G : exists f' : R -> R, locally 0 (fun s => snd (rf_call RO bs rf (shift m d s) (fst (rf_call RO bs rf m h0))) = Ok (f' s)) /\ is_derive f' 0 (dot RO g d)).
  { rewrite Erf in *. cbn [rf_ctrls] in *. refine (derivative_after_call bs Jx cs sc m h0 jm [] d g Hw Hsh Hnd Hi N0 Ho _ Hm eq_refl Hs Ha Hd). congruence. }
  destruct G as (f' & A & B).
  apply (is_derive_ext_loc f' f); [|exact B].
    generalize (filter_and _ _ A Hf). apply filter_imp. intros s [P Q].
    destruct (okheap_call RO t rf h0 Ht Hg Hcl N0 (fst (rf_call RO bs rf m h0)) (shift m d s) (call_okh0 RO t rf h0 Ht Hg Hcl N0 m)) as (_ & E & _).
    rewrite E, Q in P. injection P as ->. reflexivity.
Qed.
End Exact.
End Run.

(** closed forms *)
Lemma residuals_affine : forall a b, map (residual (a + b * 0) (fun s => a + b * s) b 0) epsilons = [0; 0; 0; 0].
Proof.
  intros a b. rewrite epsilons_eq. cbn [map]. unfold residual.
  assert (E : forall e, Rabs (a + b * e - (a + b * 0) - e * b - 1 / 2 * e ^ 2 * 0) = 0) by (intros e; replace (a + b * e - (a + b * 0) - e * b - 1 / 2 * e ^ 2 * 0) with 0 by ring; apply Rabs_R0).
  rewrite !E. reflexivity.
Qed.
Lemma residuals_quadratic : forall a b c, map (residual a (fun s => a + b * s + c * s ^ 2) b 0) epsilons = map (fun e => Rabs c * e ^ 2) epsilons.
Proof.
  intros a b c. apply map_ext. intros e. unfold residual. replace (a + b * e + c * e ^ 2 - a - e * b - 1 / 2 * e ^ 2 * 0) with (c * e ^ 2) by ring.
  rewrite Rabs_mult. f_equal. apply Rabs_pos_eq. apply pow2_ge_0.
Qed.
Lemma halved_power : forall k x0 x1 n, k <> 0 -> x0 <> 0 -> x1 = x0 * (1 / 2) -> halved_rate (k * x0 ^ n) (k * x1 ^ n) = Finite (INR n).
Proof.
  intros k x0 x1 n Hk Hx ->. unfold halved_rate.
  assert (N : forall m, x0 ^ m <> 0) by (intros m; apply pow_nonzero; exact Hx).
  assert (N' : (x0 * (1 / 2)) ^ n <> 0) by (apply pow_nonzero; lra).
  destruct (Req_EM_T (k * (x0 * (1 / 2)) ^ n) 0) as [E|_]; [exfalso; apply Rmult_integral in E; tauto|].
  f_equal. rewrite Rpow_mult_distr. replace (k * (x0 ^ n * (1 / 2) ^ n) / (k * x0 ^ n)) with ((1 / 2) ^ n) by (field; auto).
  rewrite ln_pow by lra. field. assert (ln (1 / 2) < ln 1) by (apply ln_increasing; lra). rewrite ln_1 in *. lra.
Qed.
Lemma rates_power : forall k n, k <> 0 -> rates (map (fun e => k * e ^ n) epsilons) epsilons = Ok [Finite (INR n); Finite (INR n); Finite (INR n)].
Proof.
  intros k n Hk. assert (N : forall e, In e epsilons -> k * e ^ n <> 0).
  { intros e He E. apply Rmult_integral in E as [E|E]; [auto|]. revert E. apply pow_nonzero. rewrite epsilons_eq in He. cbn in He. intros ->. destruct He as [H|[H|[H|[H|[]]]]]; lra. }
  assert (E : map (fun e => k * e ^ n) epsilons = [k * (1/100) ^ n; k * (1/200)^n; k * (1/400)^n; k*(1/800)^n]) by (rewrite epsilons_eq; reflexivity).
  rewrite E. rewrite rates_ok; [|apply N; rewrite epsilons_eq; cbn; tauto ..].
  rewrite !halved_power; try assumption; try lra. reflexivity.
Qed.

Lemma ln_half : ln (1 / 2) < 0.
Proof. rewrite <- ln_1. apply ln_increasing; lra. Qed.
Lemma order_unique : forall e0 e1 p, 0 < e0 -> 0 <= e1 -> is_order e0 e1 p <-> p = halved_rate e0 e1.
Proof.
  intros e0 e1 p H0 H1. unfold is_order, halved_rate. pose proof ln_half as Hh. split.
  - intros H. destruct (Req_EM_T e1 0) as [Z|Z]; destruct p as [p| |]; try reflexivity; try contradiction.
    + destruct H as [_ H]. exfalso. assert (0 < e0 * Rpower (1 / 2) p) by (apply Rmult_lt_0_compat; [exact H0 | apply exp_pos]). lra.
    + destruct H as [_ ->]. f_equal. replace (e0 * Rpower (1 / 2) p / e0) with (Rpower (1 / 2) p) by (field; lra).
      unfold Rpower. rewrite ln_exp. field. lra.
  - intros ->. destruct (Req_EM_T e1 0) as [Z|Z]; [exact Z|]. split; [exact H0|]. unfold Rpower.
    replace (ln (e1 / e0) / ln (1 / 2) * ln (1 / 2)) with (ln (e1 / e0)) by (field; lra).
    rewrite exp_ln; [field; lra|]. apply Rdiv_lt_0_compat; lra.
Qed.
Lemma epsilons_step : epsilons = map step [0; 1; 2; 3]%nat.
Proof. rewrite epsilons_eq. unfold step. cbn. repeat (f_equal; [lra|]). f_equal. lra. Qed.
Lemma step_3 : step 3 = 1 / 800.
Proof. unfold step. lra. Qed.
Lemma smallest_rate : forall e0 e1 e2 e3, 0 < e0 -> 0 < e1 -> 0 < e2 -> 0 <= e3 ->
  exists q, (do rs <- rates [e0; e1; e2; e3] epsilons; minimum rs) = Ok q /\ smallest_order [e0; e1; e2; e3] q.
Proof.
  intros e0 e1 e2 e3 H0 H1 H2 H3. rewrite rates_ok by lra. cbn [bind].
  destruct (minimum_spec (halved_rate e0 e1) [halved_rate e1 e2; halved_rate e2 e3]) as (q & Eq & Hin & Hle).
  exists q. split; [exact Eq|]. split.
  - destruct Hin as [E|[E|[E|[]]]]; [exists 0%nat | exists 1%nat | exists 2%nat]; (split; [cbn; lia|]); cbn [nth]; apply order_unique; try lra; symmetry; exact E.
  - intros k p Hk Hp. apply Hle. cbn [length] in Hk. destruct k as [|[|[|k]]]; [| | |lia]; cbn [nth] in Hp; apply order_unique in Hp; try lra; subst p; cbn; tauto.
Qed.
Lemma shift_0 : forall m d, length d = length m -> shift m d 0 = m.
Proof. intros m. induction m as [|x m IH]; intros [|y d] H; try discriminate; [reflexivity|]. cbn. f_equal; [ring|]. apply IH. now injection H. Qed.
Lemma locally_ball : forall (Q : R -> Prop) r, 0 < r -> (forall s, Rabs s <= r -> Q s) -> locally 0 Q.
Proof.
  intros Q r Hr H. exists (mkposreal r Hr). intros s Hs. apply H. change (Rabs (s - 0) < r) in Hs. rewrite Rminus_0_r in Hs. lra.
Qed.

Lemma interp : forall j : nat -> R, exists jj : R -> R, forall k, (k < 4)%nat -> jj (step k) = j k.
Proof.
  intros j.
  exists (fun e => j (if Req_EM_T e (step 0) then 0 else if Req_EM_T e (step 1) then 1 else if Req_EM_T e (step 2) then 2 else 3)%nat).
  intros k Hk. destruct k as [|[|[|[|k]]]]; [| | | |lia];
    repeat match goal with |- context[Req_EM_T ?x ?y] => let E := fresh in destruct (Req_EM_T x y) as [E|E]; try reflexivity; try congruence; try (exfalso; unfold step in E; lra) end.
Qed.

Section Top.
Variables (t : tape R) (rf : rfun R) (h : heap R).
Notation bs := (t_flat t).
Hypothesis Hw : wf_tape bs.
Hypothesis Hg : forall b, In b bs -> gives_value RO b.
Hypothesis Hcl : closed (rf_ctrls rf) bs.
Hypothesis N0 : forall v, bv_ctrl (h v) = false.
Hypothesis Ho : on_tape bs (rf_ctrls rf).
Hypothesis M0 : forall v, bv_mark (h v) = false.
Hypothesis Hnd : NoDup (rf_ctrls rf).
Notation J x := (snd (rf_call RO bs rf x h)).

Lemma taylor_top : forall (m d : list R) (dopt : option R) (H : R) (jm : R) (j : nat -> R) (g : list R) (D : R),
  length d = length m -> J m = Ok jm -> (forall k, (k < 4)%nat -> J (shift m d (step k)) = Ok (j k)) ->
  (dopt = Some D \/ dopt = None /\ snd (rf_derivative RO bs rf 1 (fst (rf_call RO bs rf m h))) = Ok g /\ D = dot RO g d) ->
  exists h' es r, taylor_test bs rf m d dopt H h = (h', Ok (es, r)) /\
    es = map (fun k => Rabs (j k - jm - step k * D - 1 / 2 * step k ^ 2 * H)) [0; 1; 2; 3]%nat /\
    ((exists k, (k < 3)%nat /\ nth k es 0 = 0) -> r = Err EZeroDiv) /\
    ((forall k, (k < 3)%nat -> nth k es 0 <> 0) -> exists q, r = Ok q /\ smallest_order es q) /\
    (forall v, saved h' v = saved (fst (rf_call RO bs rf (shift m d (step 3)) h)) v) /\
    map (saved h') (rf_ctrls rf) = shift m d (step 3).
Proof.
  intros m d dopt H jm j g D Hl Hm Hj HD. destruct Hw as [Ht Hn].
  destruct (interp j) as (jj & Sj).
  destruct (taylor_spec t rf h Ht Hg Hcl N0 Ho M0 m d jm jj dopt D H h (okheap_0 t rf h N0) M0 Hl Hm) as (h' & r & E1 & E2 & E3).
  { intros e He. rewrite epsilons_step in He. apply in_map_iff in He as (k & <- & Hk). assert (Hk4 : (k < 4)%nat) by (cbn in Hk; lia). rewrite (Sj k Hk4). exact (Hj k Hk4). }
  { destruct HD as [->|(-> & HD & ->)]; [left; reflexivity | right; split; [reflexivity | exists g; auto]]. }
  assert (Er : map (residual jm jj D H) epsilons = map (fun k => Rabs (j k - jm - step k * D - 1 / 2 * step k ^ 2 * H)) [0; 1; 2; 3]%nat).
  { rewrite epsilons_step. cbn [map]. unfold residual. rewrite !Sj by lia. reflexivity. }
  rewrite Er in E1, E2. set (es := map (fun k => Rabs (j k - jm - step k * D - 1 / 2 * step k ^ 2 * H)) [0; 1; 2; 3]%nat) in *.
  exists h', es, r. split; [exact E1|]. split; [reflexivity|].
  assert (P : forall k, (k < 4)%nat -> 0 <= nth k es 0). { intros k Hk. unfold es. destruct k as [|[|[|[|k]]]]; [apply Rabs_pos ..|lia]. }
  split; [|split; [|split]].
  - intros (k & Hk & Hz). rewrite E2. unfold es. cbn [map]. rewrite rates_zero; [reflexivity|].
    unfold es in Hz. destruct k as [|[|[|k]]]; [| | |lia]; cbn [map nth] in Hz; auto.
  - intros Hz. assert (P' : forall k, (k < 3)%nat -> 0 < nth k es 0). { intros k Hk. specialize (Hz k Hk). assert (0 <= nth k es 0) by (apply P; lia). lra. }
    rewrite E2. apply smallest_rate; [apply (P' 0%nat) | apply (P' 1%nat) | apply (P' 2%nat) | apply (P 3%nat)]; lia.
  - rewrite step_3. exact (proj2 (proj2 E3)).
  - rewrite step_3. refine (controls_at t rf h h' _ (j 3%nat) N0 Hw Hnd _ E3). rewrite <- step_3. apply Hj. lia.
Qed.

Section Exact.
Hypothesis Hsh : List.Forall shaped bs.
Hypothesis Hi : independent bs (rf_ctrls rf).
Lemma taylor_exact : forall (m d : list R) (jm : R) (g : list R) (f : R -> R),
  length d = length m -> J m = Ok jm -> (exists r, 0 < r /\ forall s, Rabs s <= r -> J (shift m d s) = Ok (f s)) ->
  smooth_at bs (rf_ctrls rf) (saved (fst (rf_call RO bs rf m h))) -> adjoints_right bs (rf_ctrls rf) (saved (fst (rf_call RO bs rf m h))) ->
  snd (rf_derivative RO bs rf 1 (fst (rf_call RO bs rf m h))) = Ok g ->
  is_derive f 0 (dot RO g d).
Proof.
  intros m d jm g f Hl Hm (r & Hr & Hf) Hs Ha Hd. destruct Hw as [Ht Hn].
  apply (deriv_is t rf h Ht Hg Hcl N0 Ho Hw Hsh Hnd Hi m d jm g f Hl Hm Hd Hs Ha). exact (locally_ball _ r Hr Hf).
Qed.
Lemma taylor_poly : forall (m d : list R) (g : list R) (a b c : R),
  length d = length m -> (forall s, Rabs s <= 1 / 100 -> J (shift m d s) = Ok (a + b * s + c * s ^ 2)) ->
  smooth_at bs (rf_ctrls rf) (saved (fst (rf_call RO bs rf m h))) -> adjoints_right bs (rf_ctrls rf) (saved (fst (rf_call RO bs rf m h))) ->
  snd (rf_derivative RO bs rf 1 (fst (rf_call RO bs rf m h))) = Ok g ->
  exists h', taylor_test bs rf m d None 0 h = (h', Ok (map (fun k => Rabs c * step k ^ 2) [0; 1; 2; 3]%nat,
    if Req_EM_T c 0 then Err EZeroDiv else Ok (Finite 2))) /\ dot RO g d = b.
Proof.
  intros m d g a b c Hl Hf Hs Ha Hd. destruct Hw as [Ht Hn].
  assert (Hm : J m = Ok a). { rewrite <- (shift_0 m d Hl) at 1. rewrite Hf; [f_equal; ring|]. rewrite Rabs_R0. lra. }
  assert (Eb : dot RO g d = b).
  { assert (D1 : is_derive (fun s => a + b * s + c * s ^ 2) 0 (dot RO g d)).
    { apply (taylor_exact m d a g); auto. exists (1 / 100). split; [lra | exact Hf]. }
    assert (D2 : is_derive (fun s => a + b * s + c * s ^ 2) 0 b) by (auto_derive; [exact I | ring]).
    apply is_derive_unique in D1. apply is_derive_unique in D2. congruence. }
  assert (He : forall e, In e epsilons -> Rabs e <= 1 / 100).
  { intros e He. rewrite epsilons_eq in He. cbn in He. destruct He as [<-|[<-|[<-|[<-|[]]]]]; rewrite Rabs_pos_eq; lra. }
  destruct (taylor_spec t rf h Ht Hg Hcl N0 Ho M0 m d a (fun s => a + b * s + c * s ^ 2) None b 0 h (okheap_0 t rf h N0) M0 Hl Hm) as (h' & r & E1 & E2 & _).
  { intros e H. apply Hf. auto. }
  { right. split; [reflexivity|]. exists g. auto. }
  rewrite residuals_quadratic in E1, E2. exists h'. split; [|exact Eb]. rewrite E1, E2. f_equal. f_equal. f_equal.
  - rewrite epsilons_step, map_map. reflexivity.
  - destruct (Req_EM_T c 0) as [->|Nc].
    + assert (Z : map (fun e => Rabs 0 * e ^ 2) epsilons = [0; 0; 0; 0]) by (rewrite epsilons_eq, Rabs_R0; cbn [map]; rewrite !Rmult_0_l; reflexivity).
      rewrite Z, rates_zero by auto. reflexivity.
    + rewrite rates_power by (apply Rabs_no_R0; exact Nc). cbn [bind minimum fold_left]. unfold Rbar_ltb.
      destruct (Rbar_lt_dec (INR 2) (INR 2)) as [H|_]; [exfalso; cbn in H; lra|].
      destruct (Rbar_lt_dec (INR 2) (INR 2)) as [H|_]; [exfalso; cbn in H; lra|]. do 2 f_equal.
Qed.
End Exact.

Lemma rates_cases : forall es, length es = 4%nat -> (forall e, In e es -> 0 <= e) ->
  ((exists k, (k < 3)%nat /\ nth k es 0 = 0) /\ rates es epsilons = Err EZeroDiv) \/
  ((forall k, (k < 3)%nat -> nth k es 0 <> 0) /\ exists rs, rates es epsilons = Ok rs /\ length rs = 3%nat /\
     forall k, (k < 3)%nat -> is_order (nth k es 0) (nth (S k) es 0) (nth k rs (Finite 0))).
Proof.
  intros [|e0 [|e1 [|e2 [|e3 [|? ?]]]]] Hl P; try discriminate.
  destruct (Req_EM_T e0 0) as [Z|Z0]; [left; split; [exists 0%nat; auto | apply rates_zero; auto]|].
  destruct (Req_EM_T e1 0) as [Z|Z1]; [left; split; [exists 1%nat; auto | apply rates_zero; auto]|].
  destruct (Req_EM_T e2 0) as [Z|Z2]; [left; split; [exists 2%nat; auto | apply rates_zero; auto]|].
  assert (0 <= e0 /\ 0 <= e1 /\ 0 <= e2 /\ 0 <= e3) by (repeat split; apply P; cbn; tauto).
  right. split. { intros [|[|[|k]]] Hk; cbn; try assumption; lia. }
  eexists. split; [apply rates_ok; assumption|]. split; [reflexivity|].
  intros [|[|[|k]]] Hk; [| | |lia]; cbn [nth]; apply order_unique; try reflexivity; lra.
Qed.
Lemma dict_top : forall (m d : list R) (jm : R) (j : nat -> R) (g hm : list R),
  length d = length m -> J m = Ok jm -> (forall k, (k < 4)%nat -> J (shift m d (step k)) = Ok (j k)) ->
  snd (rf_derivative RO bs rf 1 (fst (rf_call RO bs rf m h))) = Ok g ->
  snd (rf_hessian RO bs rf d (fst (rf_derivative RO bs rf 1 (fst (rf_call RO bs rf m h))))) = Ok hm ->
  let r0 := map (fun k => Rabs (j k - jm)) [0; 1; 2; 3]%nat in
  let r1 := map (fun k => Rabs (j k - jm - step k * dot RO g d)) [0; 1; 2; 3]%nat in
  let r2 := map (fun k => Rabs (j k - jm - step k * dot RO g d - 1 / 2 * step k ^ 2 * dot RO hm d)) [0; 1; 2; 3]%nat in
  ((exists r k, In r [r0; r1; r2] /\ (k < 3)%nat /\ nth k r 0 = 0) -> snd (taylor_to_dict bs rf m d h) = Err EZeroDiv) /\
  ((forall r k, In r [r0; r1; r2] -> (k < 3)%nat -> nth k r 0 <> 0) -> exists h' a b c,
     taylor_to_dict bs rf m d h = (h', Ok [(r0, a); (r1, b); (r2, c)]) /\
     (forall r o, In (r, o) [(r0, a); (r1, b); (r2, c)] -> length o = 3%nat /\ forall k, (k < 3)%nat -> is_order (nth k r 0) (nth (S k) r 0) (nth k o (Finite 0))) /\
     (forall v, saved h' v = saved (fst (rf_call RO bs rf m h)) v) /\ map (saved h') (rf_ctrls rf) = m).
Proof.
  intros m d jm j g hm Hl Hm Hj Hd Hh r0 r1 r2. destruct Hw as [Ht Hn].
  destruct (interp j) as (jj & Sj).
  destruct (dict_spec t rf h Ht Hg Hcl N0 Ho M0 m d jm jj g hm Hl Hm Hd) as (h4 & K4 & M4 & E).
  { intros e He. rewrite epsilons_step in He. apply in_map_iff in He as (k & <- & Hk). assert (Hk4 : (k < 4)%nat) by (cbn in Hk; lia). rewrite (Sj k Hk4). exact (Hj k Hk4). }
  { exact Hh. }
  assert (E0 : map (fun e => Rabs (jj e - jm)) epsilons = r0) by (rewrite epsilons_step; cbn [map]; rewrite !Sj by lia; reflexivity).
  assert (E1 : map (fun e => Rabs (jj e - jm - e * dot RO g d)) epsilons = r1) by (rewrite epsilons_step; cbn [map]; rewrite !Sj by lia; reflexivity).
  assert (E2 : map (fun e => Rabs (jj e - jm - e * dot RO g d - 1 / 2 * e ^ 2 * dot RO hm d)) epsilons = r2) by (rewrite epsilons_step; cbn [map]; rewrite !Sj by lia; reflexivity).
  cbv zeta in E. rewrite E0, E1, E2 in E. clear E0 E1 E2.
  assert (P : forall f (e : R), In e (map (fun k : nat => Rabs (f k)) [0; 1; 2; 3]%nat) -> 0 <= e) by (intros f e He; apply in_map_iff in He as (k & <- & _); apply Rabs_pos).
  assert (P0 : forall e, In e r0 -> 0 <= e) by apply P. assert (P1 : forall e, In e r1 -> 0 <= e) by apply P. assert (P2 : forall e, In e r2 -> 0 <= e) by apply P.
  clear P. assert (L0 : length r0 = 4%nat) by reflexivity. assert (L1 : length r1 = 4%nat) by reflexivity. assert (L2 : length r2 = 4%nat) by reflexivity.
  clearbody r0 r1 r2.
  assert (C0 := rates_cases r0 L0 P0). assert (C1 := rates_cases r1 L1 P1). assert (C2 := rates_cases r2 L2 P2).
  split.
  - intros (r & k & Hr & Hk & Hz).
    assert (G : (do a <- rates r0 epsilons; do b <- rates r1 epsilons; do c <- rates r2 epsilons; Ok [(r0, a); (r1, b); (r2, c)]) = Err EZeroDiv).
    { destruct C0 as [[_ ->]|[Q0 (a & -> & _)]]; [reflexivity|]. cbn [bind]. destruct C1 as [[_ ->]|[Q1 (b & -> & _)]]; [reflexivity|]. cbn [bind].
      destruct C2 as [[_ ->]|[Q2 _]]; [reflexivity|]. exfalso. destruct Hr as [<-|[<-|[<-|[]]]]; [exact (Q0 k Hk Hz) | exact (Q1 k Hk Hz) | exact (Q2 k Hk Hz)]. }
    rewrite G in E. rewrite E. reflexivity.
  - intros Nz.
    destruct C0 as [[(k & Hk & Hz) _]|[_ (a & Ea & La & Oa)]]; [exfalso; exact (Nz r0 k (or_introl eq_refl) Hk Hz)|].
    destruct C1 as [[(k & Hk & Hz) _]|[_ (b & Eb & Lb & Ob)]]; [exfalso; exact (Nz r1 k (or_intror (or_introl eq_refl)) Hk Hz)|].
    destruct C2 as [[(k & Hk & Hz) _]|[_ (c & Ec & Lc & Oc)]]; [exfalso; exact (Nz r2 k (or_intror (or_intror (or_introl eq_refl))) Hk Hz)|].
    rewrite Ea, Eb, Ec in E. cbn [bind] in E.
    destruct (holds_call RO t rf h Ht Hg Hcl N0 h4 m jm K4 M4 Hm) as [Q1 Q2].
    destruct (rf_call RO bs rf m h4) as [h5 y]. cbn [fst snd] in Q1, Q2. subst y. cbn [rmap] in E.
    exists h5, a, b, c. split; [exact E|]. split; [|split; [exact (proj2 (proj2 Q2)) | exact (controls_at t rf h h5 m jm N0 Hw Hnd Hm Q2)]].
    intros r o [X|[X|[X|[]]]]; injection X as <- <-; auto.
Qed.
End Top.
Lemma taylor_mismatch : forall bs rf m d dopt H h, length d <> length m -> taylor_test bs rf m d dopt H h = (h, Err EValue) /\ taylor_to_dict bs rf m d h = (h, Err EValue).
Proof. intros bs rf m d dopt H h N. unfold taylor_test, taylor_to_dict. destruct (Nat.eqb_spec (length d) (length m)); [contradiction|]. split; reflexivity. Qed.
