(** Programs with if and while: the assignments executed make a straight-line program, which depends on the decisions only. *)
From Coq Require Import List Arith Bool Lia.
From Verif Require Import Base Model BaseFacts Graph Record Spec RecordFacts Replay ReplayExec History Session Sweep SpecGraph Marks PyExp SpecPy PyFacts PyProg PyFlow SpecFlow.
Import ListNotations.

(** ** Lists *)
Lemma assigned_map : forall (A B : Type) (f : A -> B) l i x, map f (assigned l i x) = assigned (map f l) i (f x).
Proof. intros. unfold assigned. rewrite map_app. cbn [map]. now rewrite firstn_map, skipn_map. Qed.
Lemma assigned_all2 : forall (A B : Type) (Q : A -> B -> Prop) l m i a b, Forall2 Q l m -> Q a b -> Forall2 Q (assigned l i a) (assigned m i b).
Proof.
  intros A B Q l m i a b H Hab. unfold assigned. apply Forall2_app.
  - revert i. induction H as [|x y l m Hxy H IH]; intros [|i]; cbn; auto.
  - constructor; [exact Hab|]. generalize (S i). clear i. induction H as [|x y l m Hxy H IH]; intros [|i]; cbn; auto.
Qed.
Lemma set_assigned : forall (A : Type) (l : list A) i x, i < length l -> list_set l i x = assigned l i x.
Proof. unfold assigned. induction l as [|a l IH]; intros [|i] x H; cbn in H; try lia; cbn; [reflexivity|]. f_equal. apply IH. lia. Qed.
Lemma app_assigned : forall (A : Type) (l : list A) x, l ++ [x] = assigned l (length l) x.
Proof. intros. unfold assigned. now rewrite firstn_all, skipn_all2 by lia. Qed.
Lemma bind_assigned : forall (V : Type) (env : list (pval V)) i x, i <= length env -> bind_var env i x = Ok (assigned env i x).
Proof.
  intros V env i x H. unfold bind_var. destruct (Nat.ltb_spec i (length env)) as [L|L]; [now rewrite set_assigned|].
  assert (i = length env) by lia. subst i. rewrite Nat.eqb_refl. now rewrite app_assigned.
Qed.

Lemma all2_length : forall (A B : Type) (Q : A -> B -> Prop) l m, Forall2 Q l m -> length l = length m.
Proof. intros A B Q l m H. induction H; cbn; congruence. Qed.

Section Through.
(** [through rho l env]: variable [i] is number [rho i] of the list [l]. *)
Definition through {A} (rho : list nat) (l env : list A) : Prop := Forall2 (fun k x => nth_error l k = Some x) rho env.
Lemma through_more : forall A rho (l env m : list A), through rho l env -> through rho (l ++ m) env.
Proof. intros A rho l env m H. induction H as [|k x rho env E H IH]; constructor; [|exact IH]. rewrite nth_error_app1; [exact E|]. apply nth_error_Some. now rewrite E. Qed.
Lemma through_len : forall A rho (l env : list A), through rho l env -> length rho = length env.
Proof. intros A rho l env H. exact (all2_length _ _ _ _ _ H). Qed.
Lemma through_get : forall A rho (l env : list A) n i, through rho l env -> length l = n -> nth_error l (nth i rho n) = nth_error env i.
Proof.
  intros A rho l env n i H L. revert i. induction H as [|k x rho env E H IH]; intros [|i]; cbn; auto.
  - apply nth_error_None. lia.
  - apply nth_error_None. lia.
Qed.
Lemma through_assign : forall A rho (l env : list A) i x, through rho l env -> through (assigned rho i (length l)) (l ++ [x]) (assigned env i x).
Proof. intros A rho l env i x H. apply assigned_all2; [now apply through_more|]. rewrite nth_error_app2, Nat.sub_diag by lia. reflexivity. Qed.
End Through.

Section Names.
Context {V : Type} (F : fops V) (P : pyops V).
(** The expression over the numbers of the variables; an unknown variable becomes number [n], which does not exist either. *)
Fixpoint rename (n : nat) (rho : list nat) (e : pexp V) : pexp V :=
  match e with
  | PLit i v => PLit i v
  | PVar i => PVar (nth i rho n)
  | PBin o a b => PBin o (rename n rho a) (rename n rho b)
  | PUn o a => PUn o (rename n rho a)
  | PFun1 f a => PFun1 f (rename n rho a)
  | PFun2 f a b => PFun2 f (rename n rho a) (rename n rho b)
  end.
Lemma number_rename : forall rho l env n, through rho l env -> length l = n -> forall e, number F P l (rename n rho e) = number F P env e.
Proof.
  intros rho l env n H L. induction e as [i v|i|o a IHa b IHb|o a IHa|f a IHa|f a IHa b IHb]; cbn; rewrite ?IHa, ?IHb; try reflexivity.
  now rewrite (through_get _ _ _ _ _ i H L).
Qed.
Lemma eval_rename : forall rho l env n, through rho l env -> length l = n -> forall e w, py_eval F P l w (rename n rho e) = py_eval F P env w e.
Proof.
  intros rho l env n H L. induction e as [i v|i|o a IHa b IHb|o a IHa|f a IHa|f a IHa b IHb]; intros w; cbn; rewrite ?IHa; try reflexivity.
  - now rewrite (through_get _ _ _ _ _ i H L).
  - destruct (py_eval F P env w a) as [w1 [x|e]]; [|reflexivity]. now rewrite IHb.
  - destruct (py_eval F P env w a) as [w1 [x|e]]; [|reflexivity]. now rewrite IHb.
Qed.
Lemma nth_through : forall rho l env n i, through rho l env -> length l = n -> nth (nth i rho n) l false = nth i env false.
Proof.
  intros rho l env n i H L. pose proof (through_get _ _ _ _ _ i H L) as E. destruct (nth_error env i) as [x|] eqn:K.
  - rewrite (nth_error_nth _ _ _ K). exact (nth_error_nth _ _ _ E).
  - apply nth_error_None in K. apply nth_error_None in E. rewrite !nth_overflow by assumption. reflexivity.
Qed.
Lemma recorded_rename : forall rho l env n, through rho l env -> length l = n -> forall e, recorded_float l (rename n rho e) = recorded_float env e.
Proof.
  intros rho l env n H L. induction e as [i v|i|o a IHa b IHb|o a IHa|f a IHa|f a IHa b IHb]; cbn; rewrite ?IHa, ?IHb; try reflexivity.
  now apply nth_through.
Qed.
Lemma float_rename : forall n rho e, float_form (rename n rho e) = float_form e.
Proof. induction e as [i v|i|o a IHa b IHb|o a IHa|f a IHa|f a IHa b IHb]; cbn; rewrite ?IHa, ?IHb; reflexivity. Qed.
Lemma supported_rename : forall rho l env n, through rho l env -> length l = n -> forall e, supported l (rename n rho e) = supported env e.
Proof.
  intros rho l env n H L. pose proof (recorded_rename rho l env n H L) as R.
  induction e as [i v|i|o a IHa b IHb|o a IHa|f a IHa|f a IHa b IHb]; cbn -[Nat.ltb]; rewrite ?IHa, ?IHb, ?R, ?float_rename; try reflexivity.
  pose proof (through_get _ _ _ _ _ i H L) as E. destruct (Nat.ltb_spec i (length env)) as [K|K].
  - apply Nat.ltb_lt. apply nth_error_Some. rewrite E. now apply nth_error_Some.
  - apply Nat.ltb_ge. apply nth_error_None. rewrite E. now apply nth_error_None.
Qed.
Lemma elementary_rename : forall n rho e, elementary (rename n rho e) = elementary e.
Proof. induction e as [i v|i|o a IHa b IHb|o a IHa|f a IHa|f a IHa b IHb]; cbn; rewrite ?IHa, ?IHb; reflexivity. Qed.

(** ** The executed assignments *)
Definition check : Type := (cmp * nat * nat * bool)%type.
Inductive sym : list nat -> nat -> prog V -> list bool -> list (pexp V) -> list check -> list nat -> list bool -> Prop :=
| s_skip rho n ds : sym rho n Skip ds [] [] rho ds
| s_assign rho n i e ds : i <= length rho -> sym rho n (Assign i e) ds [rename n rho e] [] (assigned rho i n) ds
| s_seq rho n a b ds es cs rho1 ds1 es2 cs2 rho2 ds2 : sym rho n a ds es cs rho1 ds1 -> sym rho1 (n + length es) b ds1 es2 cs2 rho2 ds2 ->
    sym rho n (Seq a b) ds (es ++ es2) (cs ++ cs2) rho2 ds2
| s_if rho n c x y a b (d : bool) ds es cs rho' ds' : sym rho (S (S n)) (if d then a else b) ds es cs rho' ds' ->
    sym rho n (If c x y a b) (d :: ds) (rename n rho x :: rename (S n) rho y :: es) ((c, n, S n, d) :: cs) rho' ds'
| s_while rho n c x y body ds es cs rho' ds' : sym rho n (If c x y (Seq body (While c x y body)) Skip) ds es cs rho' ds' ->
    sym rho n (While c x y body) ds es cs rho' ds'.

Lemma numbers_app : forall es es2 l, numbers F P l (es ++ es2) = do m <- numbers F P l es; numbers F P m es2.
Proof. induction es as [|e es IH]; intros es2 l; cbn; [reflexivity|]. destruct (number F P l e); cbn; [apply IH | reflexivity]. Qed.
Lemma numbers_more : forall es l m, numbers F P l es = Ok m -> exists k, m = l ++ k /\ length k = length es.
Proof.
  induction es as [|e es IH]; intros l m E; cbn in E.
  - injection E as <-. exists []. now rewrite app_nil_r.
  - destruct (number F P l e) as [x|]; [|discriminate E]. cbn in E. destruct (IH _ _ E) as (k & -> & L). exists (x :: k). rewrite <- app_assoc. cbn. now rewrite L.
Qed.
Lemma lets_app : forall es es2 env w, py_lets F P env w (es ++ es2) = match py_lets F P env w es with (w1, Ok env1) => py_lets F P env1 w1 es2 | r => r end.
Proof. induction es as [|e es IH]; intros es2 env w; cbn; [reflexivity|]. destruct (py_eval F P env w e) as [w1 [x|er]]; [apply IH | reflexivity]. Qed.
Lemma supported_app : forall es es2 env, supported_program env (es ++ es2) = supported_program env es && supported_program (@recorded_vars V env es) es2.
Proof. induction es as [|e es IH]; intros es2 env; cbn; [reflexivity|]. now rewrite IH, andb_assoc. Qed.
Lemma recorded_app : forall es es2 env, @recorded_vars V env (es ++ es2) = recorded_vars (recorded_vars env es) es2.
Proof. induction es as [|e es IH]; intros es2 env; cbn; [reflexivity|]. apply IH. Qed.
Lemma recorded_len : forall es env, length (@recorded_vars V env es) = length env + length es.
Proof. induction es as [|e es IH]; intros env; cbn; [lia|]. rewrite IH, app_length. cbn. lia. Qed.

Definition holds_check (l : list V) (k : check) : Prop :=
  let '(c, i, j, d) := k in exists u v, nth_error l i = Some u /\ nth_error l j = Some v /\ cmp_val F c u v = d.
(** The numbers compared satisfy a condition that depends on whether they are recorded floats. *)
Definition ok_check (okC : bool -> V -> V -> Prop) (bl : list bool) (l : list V) (k : check) : Prop :=
  let '(c, i, j, d) := k in exists u v b1 b2, nth_error l i = Some u /\ nth_error l j = Some v /\ nth_error bl i = Some b1 /\ nth_error bl j = Some b2 /\
    cmp_val F c u v = d /\ okC (b1 || b2) u v.
Lemma ok_holds : forall okC bl l k, ok_check okC bl l k -> holds_check l k.
Proof. intros okC bl l [[[c i] j] d] (u & v & b1 & b2 & Hu & Hv & _ & _ & E & _). exists u, v. auto. Qed.
Lemma nth_more : forall (A : Type) (l m : list A) i x, nth_error l i = Some x -> nth_error (l ++ m) i = Some x.
Proof. intros A l m i x H. rewrite nth_error_app1; [exact H|]. apply nth_error_Some. now rewrite H. Qed.
Lemma ok_more : forall okC bl l bm m k, ok_check okC bl l k -> ok_check okC (bl ++ bm) (l ++ m) k.
Proof.
  intros okC bl l bm m [[[c i] j] d] (u & v & b1 & b2 & Hu & Hv & H1 & H2 & E). exists u, v, b1, b2. repeat (split; [now apply nth_more|]). exact E.
Qed.
Lemma recorded_more : forall es env, exists k, @recorded_vars V env es = env ++ k.
Proof.
  induction es as [|e es IH]; intros env; cbn; [exists []; now rewrite app_nil_r|]. destruct (IH (env ++ [recorded_float env e])) as [k ->]. exists (recorded_float env e :: k). now rewrite <- app_assoc.
Qed.
Lemma cmp_decided : forall c u v, cmp_val F c u v = decided F c u v.
Proof. intros []; reflexivity. Qed.

(** The same decisions on other numbers. *)
Notation plain := (runs F P anyE anyC).
Lemma sym_rerun : forall okE okC rho n p ds es cs rho' rest, sym rho n p ds es cs rho' rest -> forall l bl env r, length l = n -> length bl = n ->
  through rho l (map fst env) -> through rho bl (map snd env) -> runs F P okE okC env p ds r ->
  match r with
  | Ok (env', rest') => rest' = rest /\ exists l', numbers F P l es = Ok l' /\ length l' = n + length es /\ through rho' l' (map fst env') /\
      through rho' (recorded_vars bl es) (map snd env') /\ Forall (ok_check okC (recorded_vars bl es) l') cs
  | Err e => numbers F P l es = Err e
  end.
Proof.
  intros okE okC rho n p ds es cs rho' rest H. induction H as [rho n ds | rho n i e ds Hi | rho n a b ds es cs rho1 ds1 es2 cs2 rho2 ds2 H1 IH1 H2 IH2
    | rho n c x y a b d ds es cs rho' ds' H IH | rho n c x y body ds es cs rho' ds' H IH]; intros l bl env r L Lb T Tb R.
  - inversion R; subst. split; [reflexivity|]. exists l. cbn. repeat split; auto.
  - inversion R; subst.
    + split; [reflexivity|]. exists (l ++ [v]). cbn. rewrite (number_rename _ _ _ _ T eq_refl). match goal with K : number F P _ _ = _ |- _ => rewrite K end. cbn. split; [reflexivity|].
      split; [rewrite app_length; reflexivity|]. rewrite !assigned_map. cbn. split; [now apply through_assign|]. split; [|constructor].
      rewrite (recorded_rename _ _ _ _ Tb Lb), <- Lb. now apply through_assign.
    + cbn. rewrite (number_rename _ _ _ _ T eq_refl). match goal with K : number F P _ _ = _ |- _ => rewrite K end. reflexivity.
  - inversion R as [| | |? ? ? ? env1 dsm ? R1 R2|? ? ? ? ? R1| | | |]; subst.
    + destruct (IH1 _ _ _ _ eq_refl Lb T Tb R1) as (-> & l1 & E1 & L1 & T1 & Tb1 & C1).
      assert (Lb1 : length (recorded_vars bl es) = length l + length es) by (rewrite recorded_len; lia).
      specialize (IH2 _ _ _ _ L1 Lb1 T1 Tb1 R2). rewrite numbers_app, E1. cbn [bind].
      destruct r as [[env' rest']|e]; [|exact IH2]. destruct IH2 as (-> & l2 & E2 & L2 & T2 & Tb2 & C2). split; [reflexivity|]. exists l2. rewrite app_length, recorded_app.
      repeat (split; [first [assumption | lia]|]). apply Forall_app. split; [|exact C2].
      destruct (numbers_more _ _ _ E2) as (k & -> & _). destruct (recorded_more es2 (recorded_vars bl es)) as [kb ->]. eapply Forall_impl; [|exact C1]. intros q. apply ok_more.
    + rewrite numbers_app, (IH1 _ _ _ _ eq_refl Lb T Tb R1). reflexivity.
  - inversion R as [| | | | |? ? ? ? ? ? u v ? ? _ _ Ex Ey Hc R'|? ? ? ? ? ? er ? _ Ex|? ? ? ? ? ? u er ? _ _ Ex Ey|]; subst; cbn [numbers]; rewrite (number_rename _ _ _ _ T eq_refl), Ex; cbn [bind]; [| reflexivity |].
    + rewrite (number_rename rho (l ++ [u]) (map fst env) (S (length l))) by (try (rewrite app_length; cbn; lia); now apply through_more). rewrite Ey. cbn [bind].
      assert (L2 : length ((l ++ [u]) ++ [v]) = S (S (length l))) by (rewrite !app_length; cbn; lia).
      set (b1 := recorded_float (map snd env) x). set (b2 := recorded_float (map snd env) y).
      assert (Lb2 : length ((bl ++ [b1]) ++ [b2]) = S (S (length l))) by (rewrite !app_length; cbn; lia).
      specialize (IH ((l ++ [u]) ++ [v]) ((bl ++ [b1]) ++ [b2]) env r L2 Lb2 (through_more _ _ _ _ _ (through_more _ _ _ _ _ T)) (through_more _ _ _ _ _ (through_more _ _ _ _ _ Tb)) R').
      destruct r as [[env' rest']|er]; [|exact IH]. destruct IH as (-> & l' & E' & L' & T' & Tb' & C'). split; [reflexivity|]. exists l'.
      assert (Er : recorded_vars bl (rename (length l) rho x :: rename (S (length l)) rho y :: es) = recorded_vars ((bl ++ [b1]) ++ [b2]) es).
      { cbn [recorded_vars]. rewrite (recorded_rename _ _ _ _ Tb Lb). rewrite (recorded_rename rho (bl ++ [recorded_float (map snd env) x]) (map snd env) (S (length l))) by (try (rewrite app_length; cbn; lia); now apply through_more). reflexivity. }
      rewrite Er. split; [exact E'|]. split; [cbn [length]; lia|]. split; [exact T'|]. split; [exact Tb'|]. constructor; [|exact C'].
      destruct (numbers_more _ _ _ E') as (k & -> & _). destruct (recorded_more es ((bl ++ [b1]) ++ [b2])) as [kb ->]. exists u, v, b1, b2.
      repeat split; rewrite <- ?cmp_decided; auto; rewrite <- ?app_assoc.
      * rewrite nth_error_app2, Nat.sub_diag by lia. reflexivity.
      * rewrite nth_error_app2 by lia. replace (S (length l) - length l) with 1 by lia. reflexivity.
      * rewrite <- Lb. rewrite nth_error_app2, Nat.sub_diag by lia. reflexivity.
      * rewrite <- Lb. rewrite nth_error_app2 by lia. replace (S (length bl) - length bl) with 1 by lia. reflexivity.
    + rewrite (number_rename rho (l ++ [u]) (map fst env) (S (length l))) by (try (rewrite app_length; cbn; lia); now apply through_more). now rewrite Ey.
  - inversion R; subst. now apply (IH l bl env).
Qed.
(** Conversely, where the comparisons of the straight-line program come out as recorded, the program runs through it. *)
Lemma sym_runs : forall rho n p ds es cs rho' rest, sym rho n p ds es cs rho' rest -> forall l l' env, length l = n -> through rho l (map fst env) ->
  numbers F P l es = Ok l' -> Forall (holds_check l') cs -> exists env', plain env p ds (Ok (env', rest)) /\ through rho' l' (map fst env').
Proof.
  intros rho n p ds es cs rho' rest H. induction H as [rho n ds | rho n i e ds Hi | rho n a b ds es cs rho1 ds1 es2 cs2 rho2 ds2 H1 IH1 H2 IH2
    | rho n c x y a b d ds es cs rho' ds' H IH | rho n c x y body ds es cs rho' ds' H IH]; intros l l' env L T E C.
  - cbn in E. injection E as <-. exists env. split; [constructor | exact T].
  - cbn in E. rewrite (number_rename _ _ _ _ T L) in E. destruct (number F P (map fst env) e) as [v|] eqn:Ev; [|discriminate E]. cbn in E. injection E as <-.
    eexists. split; [apply r_assign; [reflexivity | exact Ev | rewrite <- (map_length fst env), <- (through_len _ _ _ _ T); exact Hi]|].
    rewrite assigned_map. cbn. rewrite <- L. now apply through_assign.
  - rewrite numbers_app in E. destruct (numbers F P l es) as [l1|] eqn:E1; [|discriminate E]. cbn in E. apply Forall_app in C as [C1 C2].
    destruct (numbers_more _ _ _ E1) as (k1 & K1 & Lk1). destruct (numbers_more _ _ _ E) as (k2 & K2 & _).
    assert (Hc : forall k, In k cs -> holds_check l1 k).
    { intros k Hk. rewrite Forall_forall in C1. specialize (C1 k Hk). clear - H1 E1 C1 Hk L K2.
      assert (B : forall rho n p ds es cs rho' rest, sym rho n p ds es cs rho' rest -> forall c i j d, In (c, i, j, d) cs -> i < n + length es /\ j < n + length es).
      { clear. intros rho n p ds es cs rho' rest H. induction H as [| |rho n a b ds es cs rho1 ds1 es2 cs2 rho2 ds2 H1 IH1 H2 IH2|rho n c x y a b d ds es cs rho' ds' H IH|]; intros c0 i0 j0 d0 Hin; cbn in *; try contradiction; eauto.
        - rewrite app_length. apply in_app_iff in Hin as [Hin|Hin]; [specialize (IH1 _ _ _ _ Hin) | specialize (IH2 _ _ _ _ Hin)]; lia.
        - destruct Hin as [Hin|Hin]; [injection Hin as <- <- <- <-; lia | specialize (IH _ _ _ _ Hin); lia]. }
      destruct k as [[[c i] j] d]. destruct (B _ _ _ _ _ _ _ _ H1 c i j d Hk) as [Bi Bj]. destruct (numbers_more _ _ _ E1) as (k1 & -> & Lk). subst l'.
      destruct C1 as (u & v & Hu & Hv & R). exists u, v. rewrite nth_error_app1 in Hu, Hv by (rewrite app_length; lia). auto. }
    destruct (IH1 l l1 env L T E1) as (env1 & R1 & T1); [apply Forall_forall; exact Hc|].
    destruct (IH2 l1 l' env1) as (env2 & R2 & T2); auto; [subst l1; rewrite app_length; lia|]. exists env2. split; [eapply r_seq; eauto | exact T2].
  - inversion C as [|? ? C0 C1]; subst. cbn [numbers] in E. rewrite (number_rename _ _ _ _ T eq_refl) in E. destruct (number F P (map fst env) x) as [u|] eqn:Ex; [|discriminate E]. cbn [bind] in E.
    rewrite (number_rename rho (l ++ [u]) (map fst env) (S (length l))) in E by (try (rewrite app_length; cbn; lia); now apply through_more).
    destruct (number F P (map fst env) y) as [v|] eqn:Ey; [|discriminate E]. cbn [bind] in E.
    destruct (numbers_more _ _ _ E) as (k & K & _). rewrite <- !app_assoc in K. destruct C0 as (u' & v' & Hu & Hv & Hd). subst l'.
    rewrite nth_error_app2, Nat.sub_diag in Hu by lia. cbn in Hu. injection Hu as <-. rewrite nth_error_app2 in Hv by lia. replace (S (length l) - length l) with 1 in Hv by lia. cbn in Hv. injection Hv as <-.
    rewrite cmp_decided in Hd. subst d.
    assert (L2 : length ((l ++ [u]) ++ [v]) = S (S (length l))) by (rewrite !app_length; cbn; lia).
    destruct (IH _ _ env L2 (through_more _ _ _ _ _ (through_more _ _ _ _ _ T)) E C1) as (env' & R' & T').
    exists env'. split; [|exact T']. eapply r_if; eauto; exact I || reflexivity.
  - destruct (IH l l' env L T E C) as (env' & R' & T'). exists env'. split; [now apply r_while | exact T'].
Qed.

Hypothesis add_comm : forall a b, f_add F a b = f_add F b a.
Hypothesis mul_comm : forall a b, f_mul F a b = f_mul F b a.

(** ** Recording *)
Section Rec.
Variables (xs : list V) (el : bool) (okC : bool -> V -> V -> Prop).
Notation env0 := (map (@PObj V) (seq 0 (length xs))).
Notation w0 := (exec F (world_new F true) (declare 0 xs)).
Notation rb pre := (@recorded_vars V (repeat true (length xs)) pre).
Record at_state (pre : list (pexp V)) (w : world V) (ps : list (pval V)) (l : list V) : Prop := {
  as_sup : supported_program (repeat true (length xs)) pre = true;
  as_el : (if el then forallb elementary pre else true) = true;
  as_lets : py_lets F P env0 w0 pre = (w, Ok ps);
  as_num : numbers F P xs pre = Ok l }.
Lemma state_records : forall pre w ps l, at_state pre w ps l -> map is_obj ps = rb pre /\ Forall2 (fun x v => py_val w x = Ok v) ps l.
Proof.
  intros pre w ps l [A _ B C]. pose proof (py_records F P add_comm mul_comm xs pre A) as H. cbv zeta in H. unfold py_run in H. rewrite B, C in H. cbn in H.
  destruct H as (vars & E & H1 & H2). injection E as ->. auto.
Qed.
Lemma state_len : forall pre w ps l, at_state pre w ps l -> length ps = length l /\ length (rb pre) = length l.
Proof. intros pre w ps l H. destruct (state_records _ _ _ _ H) as [A B]. pose proof (all2_length _ _ _ _ _ B) as C. rewrite <- A, map_length. auto. Qed.
Lemma state_step : forall pre w ps l e, at_state pre w ps l -> supported (rb pre) e = true -> (if el then elementary e else true) = true ->
  match number F P l e with
  | Ok v => exists w1 x, py_eval F P ps w e = (w1, Ok x) /\ at_state (pre ++ [e]) w1 (ps ++ [x]) (l ++ [v])
  | Err er => exists w1, py_eval F P ps w e = (w1, Err er)
  end.
Proof.
  intros pre w ps l e [A A' B C] Hs He.
  assert (S1 : supported_program (repeat true (length xs)) (pre ++ [e]) = true) by (rewrite supported_app, A; cbn; now rewrite Hs).
  pose proof (py_records F P add_comm mul_comm xs _ S1) as H. cbv zeta in H. unfold py_run in H. rewrite lets_app, B, numbers_app, C in H. cbn [bind numbers py_lets] in H.
  assert (El : (if el then forallb elementary (pre ++ [e]) else true) = true) by (destruct el; [rewrite forallb_app, A'; cbn; now rewrite He | reflexivity]).
  destruct (number F P l e) as [v|er] eqn:Ev; cbn [bind] in H.
  - destruct H as (vars & H & _). destruct (py_eval F P ps w e) as [w1 [x|er]] eqn:Ep; [|discriminate H]. exists w1, x. split; [reflexivity|].
    split; [exact S1 | exact El | rewrite lets_app, B; cbn; now rewrite Ep | rewrite numbers_app, C; cbn; now rewrite Ev].
  - destruct (py_eval F P ps w e) as [w1 [x|er']] eqn:Ep; cbn in H; [discriminate H|]. injection H as ->. eauto.
Qed.

Notation okE := (fun env e => supported env e && (if el then elementary e else true)).
Lemma flow_sym : forall env p ds r, runs F P okE okC env p ds r -> forall pre w ps l rho penv, at_state pre w ps l ->
  through rho l (map fst env) -> through rho (rb pre) (map snd env) -> through rho ps penv ->
  match r with
  | Ok (env', rest) => exists es cs rho' w' ps' l' penv' k, sym rho (length l) p ds es cs rho' rest /\ at_state (pre ++ es) w' ps' l' /\
      through rho' l' (map fst env') /\ through rho' (rb (pre ++ es)) (map snd env') /\ through rho' ps' penv' /\
      (forall fuel, k <= fuel -> py_flow F P fuel penv w p = Some (w', Ok penv'))
  | Err e => exists w' k, forall fuel, k <= fuel -> py_flow F P fuel penv w p = Some (w', Err e)
  end.
Proof.
  assert (Bump : forall k fuel, S k <= fuel -> exists f, fuel = S f /\ k <= f) by (intros k [|f] H; [lia|]; exists f; split; [reflexivity|lia]).
  intros env p ds r R. induction R as [env ds | env i e v ds Ho Ev Hi | env i e x ds Ho Ev | env a b ds env1 ds1 r R1 IH1 R2 IH2 | env a b ds e R1 IH1
    | env c x y a b u v ds r Hox Hoy Ex Ey Hc R IH | env c x y a b e ds Hox Ex | env c x y a b u e ds Hox Hoy Ex Ey | env c x y body ds r R IH];
    intros pre w ps l rho penv Hst T1 T2 T3.
  - exists [], [], rho, w, ps, l, penv, 1. rewrite app_nil_r. repeat (split; [first [exact Hst | assumption | constructor]|]).
    intros fuel H. destruct (Bump 0 fuel H) as (f & -> & _). reflexivity.
  - destruct (state_len _ _ _ _ Hst) as [L1 L2]. apply andb_true_iff in Ho as [Ho1 Ho2].
    pose proof (state_step pre w ps l (rename (length l) rho e) Hst) as K. rewrite (supported_rename _ _ _ _ T2 L2), elementary_rename, (number_rename _ _ _ _ T1 eq_refl), Ev in K.
    destruct (K Ho1 Ho2) as (w1 & x & Ep & Hst'). exists [rename (length l) rho e], [], (assigned rho i (length l)), w1, (ps ++ [x]), (l ++ [v]), (assigned penv i x), 1.
    split; [constructor; rewrite (through_len _ _ _ _ T1), map_length; exact Hi|]. split; [exact Hst'|]. rewrite !assigned_map. cbn [fst snd].
    split; [now apply through_assign|]. split.
    { rewrite recorded_app. cbn [recorded_vars]. rewrite (recorded_rename _ _ _ _ T2 L2). rewrite <- L2. now apply through_assign. }
    split; [rewrite <- L1; now apply through_assign|].
    intros fuel H. destruct (Bump 0 fuel H) as (f & -> & _). cbn [py_flow]. rewrite <- (eval_rename _ _ _ _ T3 L1), Ep.
    rewrite bind_assigned; [reflexivity|]. rewrite <- (through_len _ _ _ _ T3), (through_len _ _ _ _ T1), map_length. exact Hi.
  - destruct (state_len _ _ _ _ Hst) as [L1 L2]. apply andb_true_iff in Ho as [Ho1 Ho2].
    pose proof (state_step pre w ps l (rename (length l) rho e) Hst) as K. rewrite (supported_rename _ _ _ _ T2 L2), elementary_rename, (number_rename _ _ _ _ T1 eq_refl), Ev in K.
    destruct (K Ho1 Ho2) as (w1 & Ep). exists w1, 1. intros fuel H. destruct (Bump 0 fuel H) as (f & -> & _). cbn [py_flow]. now rewrite <- (eval_rename _ _ _ _ T3 L1), Ep.
  - destruct (IH1 _ _ _ _ _ _ Hst T1 T2 T3) as (es & cs & rho1 & w1 & ps1 & l1 & penv1 & k1 & Y1 & Hst1 & U1 & U2 & U3 & Q1).
    specialize (IH2 _ _ _ _ _ _ Hst1 U1 U2 U3). destruct r as [[env' rest]|er].
    + destruct IH2 as (es2 & cs2 & rho2 & w2 & ps2 & l2 & penv2 & k2 & Y2 & Hst2 & W1 & W2 & W3 & Q2).
      exists (es ++ es2), (cs ++ cs2), rho2, w2, ps2, l2, penv2, (S (k1 + k2)). rewrite app_assoc.
      assert (Ln : length l1 = length l + length es /\ exists m, l2 = l1 ++ m).
      { pose proof (as_num _ _ _ _ Hst1) as N1. rewrite numbers_app, (as_num _ _ _ _ Hst) in N1. cbn in N1. destruct (numbers_more _ _ _ N1) as (m & -> & Lm).
        pose proof (as_num _ _ _ _ Hst2) as N2. rewrite numbers_app, (as_num _ _ _ _ Hst1) in N2. cbn in N2. destruct (numbers_more _ _ _ N2) as (m2 & -> & _). rewrite app_length. split; [lia|eauto]. }
      destruct Ln as [Ln [m Em]].
      split; [eapply s_seq; [exact Y1 | rewrite <- Ln; exact Y2]|]. split; [exact Hst2|]. split; [exact W1|]. split; [exact W2|]. split; [exact W3|].
      intros fuel H. destruct (Bump _ fuel H) as (f & -> & Hf). cbn [py_flow]. rewrite Q1 by lia. apply Q2. lia.
    + destruct IH2 as (w2 & k2 & Q2). exists w2, (S (k1 + k2)). intros fuel H. destruct (Bump _ fuel H) as (f & -> & Hf). cbn [py_flow]. rewrite Q1 by lia. apply Q2. lia.
  - destruct (IH1 _ _ _ _ _ _ Hst T1 T2 T3) as (w1 & k1 & Q1). exists w1, (S k1). intros fuel H. destruct (Bump _ fuel H) as (f & -> & Hf). cbn [py_flow]. now rewrite Q1 by lia.
  - destruct (state_len _ _ _ _ Hst) as [L1 L2]. apply andb_true_iff in Hox as [Hx1 Hx2]. apply andb_true_iff in Hoy as [Hy1 Hy2].
    pose proof (state_step pre w ps l (rename (length l) rho x) Hst) as K. rewrite (supported_rename _ _ _ _ T2 L2), elementary_rename, (number_rename _ _ _ _ T1 eq_refl), Ex in K.
    destruct (K Hx1 Hx2) as (w1 & pu & Epx & Hst1). clear K. destruct (state_len _ _ _ _ Hst1) as [L1' L2'].
    assert (Ll : length (l ++ [u]) = S (length l)) by (rewrite app_length; cbn; lia).
    assert (T2' : through rho (rb (pre ++ [rename (length l) rho x])) (map snd env)) by (rewrite recorded_app; now apply through_more).
    pose proof (state_step _ w1 _ _ (rename (S (length l)) rho y) Hst1) as K.
    rewrite (supported_rename rho _ _ (S (length l)) T2' ltac:(congruence)), elementary_rename, (number_rename rho (l ++ [u]) _ _ (through_more _ _ _ _ _ T1) Ll), Ey in K.
    destruct (K Hy1 Hy2) as (w2 & pv & Epy & Hst2). clear K. rewrite <- app_assoc in Hst2. cbn [app] in Hst2.
    destruct (state_records _ _ _ _ Hst2) as [_ Vals].
    assert (T3' : through rho ((ps ++ [pu]) ++ [pv]) penv) by (apply through_more, through_more; exact T3).
    assert (T2'' : through rho (rb (pre ++ [rename (length l) rho x; rename (S (length l)) rho y])) (map snd env)).
    { change [rename (length l) rho x; rename (S (length l)) rho y] with ([rename (length l) rho x] ++ [rename (S (length l)) rho y]). rewrite app_assoc, recorded_app. now apply through_more. }
    specialize (IH _ _ _ _ _ _ Hst2 (through_more _ _ _ _ _ (through_more _ _ _ _ _ T1)) T2'' T3').
    assert (Vu : py_val w2 pu = Ok u /\ py_val w2 pv = Ok v).
    { apply Forall2_app_inv_l in Vals as (m1 & m2 & Va & Vb & Em). inversion Vb as [|? v' ? m3 Hv Vn]; subst. inversion Vn; subst.
      apply app_inj_tail in Em as [<- <-]. apply Forall2_app_inv_l in Va as (m4 & m5 & Va & Vc & Em2). inversion Vc as [|? u' ? m6 Hu Vm]; subst. inversion Vm; subst.
      apply app_inj_tail in Em2 as [<- <-]. auto. }
    destruct Vu as [Vu Vv].
    assert (Step : forall f, py_flow F P (S f) penv w (If c x y a b) = py_flow F P f penv w2 (if decided F c u v then a else b)).
    { intros f. cbn [py_flow]. rewrite <- (eval_rename _ _ _ _ T3 L1), Epx. rewrite <- (eval_rename rho (ps ++ [pu]) penv (S (length l)) (through_more _ _ _ _ _ T3) ltac:(congruence)), Epy.
      rewrite Vu, Vv, cmp_decided. reflexivity. }
    destruct r as [[env' rest]|er].
    + destruct IH as (es & cs & rho' & w' & ps' & l' & penv' & k & Y & Hst' & W1 & W2 & W3 & Q).
      exists (rename (length l) rho x :: rename (S (length l)) rho y :: es), ((c, length l, S (length l), decided F c u v) :: cs), rho', w', ps', l', penv', (S k).
      assert (Ea : pre ++ rename (length l) rho x :: rename (S (length l)) rho y :: es = (pre ++ [rename (length l) rho x; rename (S (length l)) rho y]) ++ es) by (now rewrite <- app_assoc).
      rewrite Ea. split; [constructor; replace (S (S (length l))) with (length ((l ++ [u]) ++ [v])) by (rewrite !app_length; cbn; lia); exact Y|].
      split; [exact Hst'|]. split; [exact W1|]. split; [exact W2|]. split; [exact W3|].
      intros fuel H. destruct (Bump _ fuel H) as (f & -> & Hf). rewrite Step. now apply Q.
    + destruct IH as (w' & k & Q). exists w', (S k). intros fuel H. destruct (Bump _ fuel H) as (f & -> & Hf). rewrite Step. now apply Q.
  - destruct (state_len _ _ _ _ Hst) as [L1 L2]. apply andb_true_iff in Hox as [Hx1 Hx2].
    pose proof (state_step pre w ps l (rename (length l) rho x) Hst) as K. rewrite (supported_rename _ _ _ _ T2 L2), elementary_rename, (number_rename _ _ _ _ T1 eq_refl), Ex in K.
    destruct (K Hx1 Hx2) as (w1 & Ep). exists w1, 1. intros fuel H. destruct (Bump 0 fuel H) as (f & -> & _). cbn [py_flow]. now rewrite <- (eval_rename _ _ _ _ T3 L1), Ep.
  - destruct (state_len _ _ _ _ Hst) as [L1 L2]. apply andb_true_iff in Hox as [Hx1 Hx2]. apply andb_true_iff in Hoy as [Hy1 Hy2].
    pose proof (state_step pre w ps l (rename (length l) rho x) Hst) as K. rewrite (supported_rename _ _ _ _ T2 L2), elementary_rename, (number_rename _ _ _ _ T1 eq_refl), Ex in K.
    destruct (K Hx1 Hx2) as (w1 & pu & Epx & Hst1). clear K. destruct (state_len _ _ _ _ Hst1) as [L1' L2'].
    assert (Ll : length (l ++ [u]) = S (length l)) by (rewrite app_length; cbn; lia).
    assert (T2' : through rho (rb (pre ++ [rename (length l) rho x])) (map snd env)) by (rewrite recorded_app; now apply through_more).
    pose proof (state_step _ w1 _ _ (rename (S (length l)) rho y) Hst1) as K.
    rewrite (supported_rename rho _ _ (S (length l)) T2' ltac:(congruence)), elementary_rename, (number_rename rho (l ++ [u]) _ _ (through_more _ _ _ _ _ T1) Ll), Ey in K.
    destruct (K Hy1 Hy2) as (w2 & Epy). exists w2, 1. intros fuel H. destruct (Bump 0 fuel H) as (f & -> & _). cbn [py_flow].
    rewrite <- (eval_rename _ _ _ _ T3 L1), Epx. rewrite <- (eval_rename rho (ps ++ [pu]) penv (S (length l)) (through_more _ _ _ _ _ T3) ltac:(congruence)), Epy. reflexivity.
  - specialize (IH _ _ _ _ _ _ Hst T1 T2 T3). destruct r as [[env' rest]|er].
    + destruct IH as (es & cs & rho' & w' & ps' & l' & penv' & k & Y & Hst' & W1 & W2 & W3 & Q).
      exists es, cs, rho', w', ps', l', penv', (S k). split; [now constructor|]. repeat (split; [assumption|]).
      intros fuel H. destruct (Bump _ fuel H) as (f & -> & Hf). cbn [py_flow]. now apply Q.
    + destruct IH as (w' & k & Q). exists w', (S k). intros fuel H. destruct (Bump _ fuel H) as (f & -> & Hf). cbn [py_flow]. now apply Q.
Qed.
Lemma through_start : forall A (l : list A), through (seq 0 (length l)) l l.
Proof.
  intros A l. unfold through. assert (G : forall (m k : list A), Forall2 (fun i x => nth_error (m ++ k) i = Some x) (seq (length m) (length k)) k).
  { intros m k. revert m. induction k as [|x k IH]; intros m; cbn; constructor.
    - rewrite nth_error_app2, Nat.sub_diag by lia. reflexivity.
    - specialize (IH (m ++ [x])). rewrite app_length in IH. cbn in IH. replace (length m + 1) with (S (length m)) in IH by lia. rewrite <- app_assoc in IH. exact IH. }
  exact (G [] l).
Qed.
End Rec.

Lemma runs_weaken : forall (okE okE' : list bool -> pexp V -> bool) (okC okC' : bool -> V -> V -> Prop),
  (forall env e, okE env e = true -> okE' env e = true) -> (forall b u v, okC b u v -> okC' b u v) ->
  forall env p ds r, runs F P okE okC env p ds r -> runs F P okE' okC' env p ds r.
Proof.
  intros okE okE' okC okC' HE HC env p ds r R. induction R.
  - constructor.
  - constructor; auto.
  - econstructor; eauto.
  - eapply r_seq; eauto.
  - eapply r_seq_raise; eauto.
  - eapply r_if; eauto.
  - eapply r_if_raise1; eauto.
  - eapply r_if_raise2; eauto.
  - apply r_while; auto.
Qed.
(** A program runs in one way only. *)
Lemma runs_det : forall okE okE' okC okC' env p ds r, runs F P okE okC env p ds r -> forall ds' r', runs F P okE' okC' env p ds' r' ->
  match r, r' with
  | Ok (e1, rest), Ok (e2, rest') => e1 = e2 /\ exists used, ds = used ++ rest /\ ds' = used ++ rest'
  | Err a, Err b => a = b
  | _, _ => False
  end.
Proof.
  intros okE okE' okC okC' env p ds r R. induction R as [env ds | env i e v ds Ho Ev Hi | env i e x ds Ho Ev | env a b ds env1 ds1 r R1 IH1 R2 IH2 | env a b ds e R1 IH1
    | env c x y a b u v ds r Hox Hoy Ex Ey Hc R IH | env c x y a b e ds Hox Ex | env c x y a b u e ds Hox Hoy Ex Ey | env c x y body ds r R IH]; intros ds' r' R'.
  - inversion R'; subst. split; [reflexivity|]. exists []. auto.
  - inversion R'; subst; [|congruence]. assert (v0 = v) by congruence. subst. split; [reflexivity|]. exists []. auto.
  - inversion R'; subst; congruence.
  - inversion R' as [| | |? ? ? ? env1' ds1' ? Ra Rb|? ? ? ? ? Ra| | | |]; subst.
    + destruct (IH1 _ _ Ra) as (<- & u1 & -> & ->). specialize (IH2 _ _ Rb). destruct r as [[e1 t1]|], r' as [[e2 t2]|]; auto. destruct IH2 as (<- & u2 & -> & ->). split; [reflexivity|]. exists (u1 ++ u2). now rewrite !app_assoc.
    + destruct (IH1 _ _ Ra).
  - inversion R' as [| | |? ? ? ? env1' ds1' ? Ra Rb|? ? ? ? ? Ra| | | |]; subst.
    + destruct (IH1 _ _ Ra).
    + exact (IH1 _ _ Ra).
  - inversion R' as [| | | | |? ? ? ? ? ? u' v' ds2 ? _ _ Ex' Ey' _ R2|? ? ? ? ? ? er ? _ Ex'|? ? ? ? ? ? u' er ? _ _ Ex' Ey'|]; subst; try congruence.
    assert (u' = u) by congruence. assert (v' = v) by congruence. subst u' v'. specialize (IH _ _ R2). destruct r as [[e1 t1]|], r' as [[e2 t2]|]; auto.
    destruct IH as (<- & w & -> & ->). split; [reflexivity|]. exists (decided F c u v :: w). auto.
  - inversion R'; subst; congruence.
  - inversion R'; subst; congruence.
  - inversion R'; subst. now apply IH.
Qed.
Lemma started_fst : forall xs : list V, map fst (started xs) = xs.
Proof. intros xs. unfold started. rewrite map_map. cbn. apply map_id. Qed.
Lemma started_snd : forall xs : list V, map snd (started xs) = repeat true (length xs).
Proof. induction xs as [|x xs IH]; cbn; [reflexivity|]. now f_equal. Qed.
Lemma start_state : forall (xs : list V) el, at_state xs el [] (exec F (world_new F true) (declare 0 xs)) (map (@PObj V) (seq 0 (length xs))) xs.
Proof. intros xs el. split; try reflexivity. now destruct el. Qed.
Lemma start_through : forall (xs : list V) (A : Type) (l : list A), length l = length xs -> through (seq 0 (length xs)) l l.
Proof. intros xs A l <-. apply through_start. Qed.

(** Everything about a run: the straight-line program [es] recorded in its place. *)
Lemma flow_recorded : forall xs (el : bool) okC p ds r,
  runs F P (fun env e => supported env e && (if el then elementary e else true)) okC (started xs) p ds r ->
  match r with
  | Ok (env', rest) => exists es cs rho' w' ps' l' penv' k, sym (seq 0 (length xs)) (length xs) p ds es cs rho' rest /\ at_state xs el es w' ps' l' /\
      through rho' l' (map fst env') /\ through rho' (recorded_vars (repeat true (length xs)) es) (map snd env') /\ through rho' ps' penv' /\
      (forall fuel, k <= fuel -> flow_run F P fuel xs p = Some (w', Ok penv'))
  | Err e => exists w' k, forall fuel, k <= fuel -> flow_run F P fuel xs p = Some (w', Err e)
  end.
Proof.
  intros xs el okC p ds r R.
  pose proof (flow_sym xs el okC _ _ _ _ R [] _ _ _ (seq 0 (length xs)) (map (@PObj V) (seq 0 (length xs))) (start_state xs el)) as H. rewrite started_fst, started_snd in H.
  specialize (H (through_start _ xs) (start_through xs _ _ (repeat_length _ _)) (start_through xs _ _ ltac:(now rewrite map_length, seq_length))).
  exact H.
Qed.
Lemma through_values : forall rho (l : list V) ps env penv w, through rho l env -> through rho ps penv -> Forall2 (fun x v => py_val w x = Ok v) ps l -> Forall2 (fun x v => py_val w x = Ok v) penv env.
Proof.
  intros rho l ps env penv w H. revert penv. induction H as [|k x rho env E H IH]; intros penv T A; inversion T; subst; constructor; auto.
  destruct (Forall2_nth _ _ _ _ _ _ _ A ltac:(eassumption)) as (v & Ev & Hv). congruence.
Qed.
Lemma through_flags : forall rho (l : list bool) ps env (penv : list (pval V)), through rho l env -> through rho ps penv -> map is_obj ps = l -> map is_obj penv = env.
Proof.
  intros rho l ps env penv H T <-. revert penv T. induction H as [|k x rho env E H IH]; intros penv T; inversion T; subst; cbn; [reflexivity|]. f_equal; auto.
  match goal with K : nth_error ps k = Some _ |- _ => rewrite (map_nth_error _ _ _ K) in E end. congruence.
Qed.
Theorem flow_values : forall xs p ds r, runs F P supported anyC (started xs) p ds r -> exists k, forall fuel, k <= fuel -> exists w out, flow_run F P fuel xs p = Some (w, out) /\
  match r with
  | Ok (env, _) => exists vars, out = Ok vars /\ map is_obj vars = map snd env /\ Forall2 (fun x v => py_val w x = Ok v) vars (map fst env)
  | Err e => out = Err e
  end.
Proof.
  intros xs p ds r R. apply (runs_weaken _ (fun (env : list bool) (e : pexp V) => supported env e && (if false then elementary e else true)) _ anyC) in R; [|intros env e ->; reflexivity | auto].
  apply (flow_recorded xs false) in R. destruct r as [[env rest]|e].
  - destruct R as (es & cs & rho' & w' & ps' & l' & penv' & k & Y & Hst & T1 & T2 & T3 & Q). exists k. intros fuel Hf. exists w', (Ok penv'). split; [now apply Q|].
    exists penv'. split; [reflexivity|]. destruct (state_records _ _ _ _ _ _ Hst) as [A B]. split; [exact (through_flags _ _ _ _ _ T2 T3 A) | exact (through_values _ _ _ _ _ _ T1 T3 B)].
  - destruct R as (w' & k & Q). exists k. intros fuel Hf. exists w', (Err e). split; [now apply Q | reflexivity].
Qed.
Lemma through_at : forall A rho (l env : list A) j x, through rho l env -> nth_error env j = Some x -> exists k, nth_error rho j = Some k /\ nth_error l k = Some x.
Proof. intros A rho l env j x H. revert j. induction H as [|k y rho env E H IH]; intros [|j] K; cbn in K; try discriminate; [injection K as <-; exists k; auto | apply IH; exact K]. Qed.
Lemma through_back : forall A rho (l env : list A) j k, through rho l env -> nth_error rho j = Some k -> nth_error env j = nth_error l k.
Proof. intros A rho l env j k H. revert j. induction H as [|i y rho env E H IH]; intros [|j] K; cbn in K; try discriminate; [injection K as <-; now rewrite E | apply IH; exact K]. Qed.
(** The value of a variable after a run with the same decisions on other numbers. *)
Lemma rerun_variable : forall okE okC (xs vals : list V) p ds es cs rho' rest j k r, sym (seq 0 (length xs)) (length xs) p ds es cs rho' rest -> length vals = length xs ->
  runs F P okE okC (started vals) p ds r -> nth_error rho' j = Some k -> variable F P vals es k = result_at r j.
Proof.
  intros okE okC xs vals p ds es cs rho' rest j k r Y L R Hk.
  pose proof (sym_rerun okE okC _ _ _ _ _ _ _ _ Y vals (repeat true (length vals)) (started vals) r L ltac:(now rewrite repeat_length)) as H. rewrite started_fst, started_snd in H.
  specialize (H (start_through xs _ _ L) (start_through xs _ (repeat true (length vals)) ltac:(rewrite repeat_length; exact L)) R). unfold variable, result_at. destruct r as [[env' rest']|e]; [|now rewrite H].
  destruct H as (-> & l' & E & _ & T & _ & _). rewrite E. cbn [bind fst]. rewrite <- (through_back _ _ _ _ _ _ T Hk).
  rewrite nth_error_map. destruct (nth_error env' j); reflexivity.
Qed.
Lemma flow_mono : forall fuel env w p r, py_flow F P fuel env w p = Some r -> forall fuel', fuel <= fuel' -> py_flow F P fuel' env w p = Some r.
Proof.
  induction fuel as [|f IH]; intros env w p r E [|f'] Hf; try discriminate E; try lia. assert (Hf' : f <= f') by lia. destruct p as [|i e|a b|c x y a b|c x y body]; cbn [py_flow] in E |- *.
  - exact E.
  - exact E.
  - destruct (py_flow F P f env w a) as [[w1 o1]|] eqn:Ea; [|discriminate E]. rewrite (IH _ _ _ _ Ea _ Hf'). destruct o1 as [env1|e1]; [exact (IH _ _ _ _ E _ Hf') | exact E].
  - destruct (py_eval F P env w x) as [w1 [u|e1]]; [|exact E]. destruct (py_eval F P env w1 y) as [w2 [v|e2]]; [|exact E].
    destruct (py_val w2 u) as [s|]; [|exact E]. destruct (py_val w2 v) as [t|]; [|exact E]. exact (IH _ _ _ _ E _ Hf').
  - exact (IH _ _ _ _ E _ Hf').
Qed.
Lemma flow_same : forall fuel xs p k w1 (o1 : res (list (pval V))) w2 o2, flow_run F P fuel xs p = Some (w1, o1) -> (forall fuel, k <= fuel -> flow_run F P fuel xs p = Some (w2, o2)) -> w2 = w1 /\ o2 = o1.
Proof.
  intros fuel xs p k w1 o1 w2 o2 E H. specialize (H (fuel + k) ltac:(lia)). unfold flow_run in *. rewrite (flow_mono _ _ _ _ _ E (fuel + k)) in H by lia. injection H as -> ->. auto.
Qed.
(** A recorded run is the recording of its straight-line program. *)
Lemma flow_straight : forall xs (el : bool) okC p ds env rest fuel w0 vars,
  runs F P (fun env e => supported env e && (if el then elementary e else true)) okC (started xs) p ds (Ok (env, rest)) -> flow_run F P fuel xs p = Some (w0, Ok vars) ->
  exists es cs rho' ps l', sym (seq 0 (length xs)) (length xs) p ds es cs rho' rest /\ supported_program (repeat true (length xs)) es = true /\
    (if el then forallb elementary es else true) = true /\ py_run F P true xs es = (w0, Ok ps) /\ numbers F P xs es = Ok l' /\ through rho' ps vars.
Proof.
  intros xs el okC p ds env rest fuel w0 vars R E. apply (flow_recorded xs el) in R. destruct R as (es & cs & rho' & w' & ps' & l' & penv' & k & Y & Hst & T1 & T2 & T3 & Q).
  destruct (flow_same _ _ _ _ _ _ _ _ E Q) as [-> K]. injection K as ->. exists es, cs, rho', ps', l'. destruct Hst as [A B C D]. repeat (split; [first [assumption | exact C]|]). exact T3.
Qed.
Theorem flow_call : forall xs p ds env rest fuel w0 vars j o vals scale l, runs F P supported anyC (started xs) p ds (Ok (env, rest)) ->
  flow_run F P fuel xs p = Some (w0, Ok vars) -> nth_error vars j = Some (PObj o) -> length vals = length xs ->
  let w := fst (get_bv w0 o) in
  let v := snd (get_bv w0 o) in
  w_ctrls w = seq 0 (length xs) /\
  (calls_controls w l -> forall r, runs F P anyE anyC (started vals) p ds r ->
    snd (rf_call F (t_flat (w_tape w)) (RF v (w_ctrls w) scale) vals (run_hist F (t_flat (w_tape w)) (w_heap w) l)) = rmap (fun y => f_mul F y scale) (result_at r j)).
Proof.
  intros xs p ds env rest fuel w0 vars j o vals scale l R E Hj Hl.
  apply (runs_weaken _ (fun (env : list bool) (e : pexp V) => supported env e && (if false then elementary e else true)) _ anyC) in R; [|intros env' e ->; reflexivity | auto].
  destruct (flow_straight xs false anyC _ _ _ _ _ _ _ R E) as (es & cs & rho' & ps & l' & Y & Hs & _ & Hr & Hn & T).
  destruct (through_at _ _ _ _ _ _ T Hj) as (k & Hk & Hpk).
  pose proof (py_call F P add_comm mul_comm xs es ps k o vals scale l Hs) as H. rewrite Hr in H. specialize (H eq_refl Hpk Hl). cbv zeta in H |- *. cbn [fst] in H.
  destruct H as [H1 H2]. split; [exact H1|]. intros Hc r R2. rewrite (H2 Hc). f_equal. exact (rerun_variable _ _ _ _ _ _ _ _ _ _ _ _ _ Y Hl R2 Hk).
Qed.
End Names.
