(** ROLVector and the run of ROLSolver: vectors are lists of objects that ROL changes in place.
    /repo/pyadjoint/optimization/rol_solver.py 19-30, 65-119, 146-190, 219-249; overloaded_type.py 208-254; control.py 45-46.
    ROL is any algorithm that calls these methods, depending on the answers.  No proofs here. *)
From Coq Require Import List Arith Bool.
From Verif Require Import Base Model Record Coll Solvers.
Import ListNotations.

Section Rol.
(** [V]: values of the control objects; [S]: Python floats. *)
Context {V S : Type} (F : fops V).

(** What the overloaded type of the controls implements.  [_ad_iadd] and [_ad_imul] are [self += other] and [self *= other] unless
    overridden (208-254): they change the object only if the type's own operators do. *)
Record otype : Type := OT {
  ot_add : V -> V -> V;
  ot_mul : S -> V -> V;
  ot_inplace : bool;
  ot_fresh : bool;                               (* [_ad_copy] makes a new object *)
  ot_dot : option (V -> V -> S);                 (* [_ad_dot(y, options=...)]; None: it does not take options *)
  ot_dim : option (V -> nat);                    (* [_ad_dim]; None: not implemented *)
  ot_unary : option ((S -> S) -> V -> V);        (* [_applyUnary], in place; None: no such method *)
  ot_binary : option ((S -> S -> S) -> V -> V -> V);
  ot_reduce : option ((S -> S -> S) -> V -> S -> S);
  ot_assign : bool                               (* [x.assign(value)] *)
}.
(** [0.], [+] and [** 0.5] of floats. *)
Record scalars : Type := Sc { sc_zero : S; sc_add : S -> S -> S; sc_root : S -> S }.
Variables (T : otype) (C : scalars).

(** Objects by identity; a vector is the list of its objects ([self.dat]). *)
Definition objects : Type := list V.
Definition get (m : objects) (o : nat) : V := nth o m (f_zero F).
Definition values (m : objects) (v : list nat) : list V := map (get m) v.
(** [for x in v: x.f()] and [for (x, y) in zip(v, w): x.f(y)], in place. *)
Definition each (f : V -> V) (m : objects) (v : list nat) : objects :=
  fold_left (fun m' o => list_set m' o (f (get m' o))) v m.
Definition each2 (f : V -> V -> V) (m : objects) (v w : list nat) : objects :=
  fold_left (fun m' p => list_set m' (fst p) (f (get m' (fst p)) (get m' (snd p)))) (combine v w) m.

(** plus (71-73), scale (75-77), clone (96-102). *)
Definition v_plus (m : objects) (v w : list nat) : objects := if ot_inplace T then each2 (ot_add T) m v w else m.
Definition v_scale (m : objects) (a : S) (v : list nat) : objects := if ot_inplace T then each (ot_mul T a) m v else m.
Definition v_clone (m : objects) (v : list nat) : objects * list nat :=
  let '(m', w) := if ot_fresh T then (m ++ values m v, seq (length m) (length v)) else (m, v) in
  (v_scale m' (sc_zero C) w, w).
(** A method the type lacks raises at the first object. *)
Definition method {A B} (f : option A) (e : exn) (v : list nat) (none : B) (k : A -> B) : res B :=
  match f, v with
  | _, [] => Ok none
  | None, _ => Err e
  | Some f, _ => Ok (k f)
  end.
(** dot (86-91), norm (93-94), dimension (104-105), reduce (107-111), applyUnary (113-115), applyBinary (117-119). *)
Definition v_dot (m : objects) (v w : list nat) : res S :=
  method (ot_dot T) EType (match w with [] => [] | _ => v end) (sc_zero C)
    (fun d => fold_left (fun r p => sc_add C r (d (get m (fst p)) (get m (snd p)))) (combine v w) (sc_zero C)).
Definition v_norm (m : objects) (v : list nat) : res S := rmap (sc_root C) (v_dot m v v).
Definition v_dim (m : objects) (v : list nat) : res nat := method (ot_dim T) ENotImpl v 0 (fun d => list_sum (map (fun o => d (get m o)) v)).
Definition v_reduce (m : objects) (f : S -> S -> S) (r0 : S) (v : list nat) : res S :=
  method (ot_reduce T) EAttr v r0 (fun d => fold_left (fun r o => d f (get m o) r) v r0).
Definition v_unary (m : objects) (f : S -> S) (v : list nat) : res objects := method (ot_unary T) EAttr v m (fun u => each (u f) m v).
Definition v_binary (m : objects) (f : S -> S -> S) (v w : list nat) : res objects :=
  method (ot_binary T) EAttr (match w with [] => [] | _ => v end) m (fun u => each2 (u f) m v w).

(** What ROL calls, vectors by number, and the answers. *)
Inductive vop : Type :=
| VClone (i : nat) | VPlus (i j : nat) | VScale (a : S) (i : nat)
| VDot (i j : nat) | VNorm (i : nat) | VDim (i : nat) | VReduce (f : S -> S -> S) (r0 : S) (i : nat)
| VUnary (f : S -> S) (i : nat) | VBinary (f : S -> S -> S) (i j : nat)
| VUpdate (f : flag) (i : nat) | VValue | VGradient (g : nat) | VHessVec (hv v : nat).
Inductive vans : Type := ANone | AVec (i : nat) | ANum (s : S) | ANat (n : nat) | AVal (v : option V).
Inductive algo : Type := Stop | Ask (o : vop) (k : vans -> algo).

(** [so_shared]: the objects of the first vector, as it was made, still are what the tape stores for the controls (ROLSolver.__init__
    157-158 takes the tape values); an evaluation stores copies instead (control.py 60-67). *)
Record solver : Type := Sol { so_objs : objects; so_vecs : list (list nat); so_rol : rol V; so_shared : bool }.
Variables (t : tape V) (rf : rfun V).
Definition on_heap (f : heap V -> heap V) (r : rol V) : rol V := Rol (ro_val r) (ro_cache r) (ro_trial r) (ro_tcache r) (f (ro_h r)).
(** The first objects as stored values of the controls. *)
Definition through (m : objects) (h : heap V) : heap V :=
  fold_left (fun h' ic => upd h' (snd ic) (fun b => set_ckpt (Some (get m (fst ic))) (bv_raw b) b)) (enum (rf_ctrls rf)) h.
(** Objects were written. *)
Definition wrote (s : solver) (m : objects) : solver :=
  Sol m (so_vecs s) (if so_shared s then on_heap (through m) (so_rol s) else so_rol s) (so_shared s).
Definition vec (s : solver) (i : nat) : res (list nat) := match nth_error (so_vecs s) i with Some v => Ok v | None => Err EAttr end.

(** [g.dat = Enlist(...)] (25, 30): vector [g] becomes the objects just made, which nobody else holds. *)
Definition rebound (s : solver) (g : nat) (d : list V) (r : rol V) : solver :=
  Sol (so_objs s ++ d) (list_set (so_vecs s) g (seq (length (so_objs s)) (length d))) r (so_shared s).

Definition step (s : solver) (o : vop) : solver * res vans :=
  let m := so_objs s in
  let look (r : res vans) := (s, r) in
  let write (r : res objects) := match r with Ok m' => (wrote s m', Ok ANone) | Err e => (s, Err e) end in
  match o with
  | VClone i => match vec s i with
                | Err e => (s, Err e)
                | Ok v => let '(m', w) := v_clone m v in
                          let s' := wrote s m' in
                          (Sol (so_objs s') (so_vecs s' ++ [w]) (so_rol s') (so_shared s'), Ok (AVec (length (so_vecs s))))
                end
  | VPlus i j => write (do v <- vec s i; do w <- vec s j; Ok (v_plus m v w))
  | VScale a i => write (do v <- vec s i; Ok (v_scale m a v))
  | VUnary f i => write (do v <- vec s i; v_unary m f v)
  | VBinary f i j => write (do v <- vec s i; do w <- vec s j; v_binary m f v w)
  | VDot i j => look (do v <- vec s i; do w <- vec s j; rmap ANum (v_dot m v w))
  | VNorm i => look (do v <- vec s i; rmap ANum (v_norm m v))
  | VDim i => look (do v <- vec s i; rmap ANat (v_dim m v))
  | VReduce f r0 i => look (do v <- vec s i; rmap ANum (v_reduce m f r0 v))
  | VUpdate f i =>
      match vec s i with
      | Err e => (s, Err e)
      | Ok v => let '(r, e) := rol_update F t rf (values m v) f (so_rol s) in
                (Sol m (so_vecs s) r (so_shared s && match f with Accept => true | _ => false end), match e with None => Ok ANone | Some e => Err e end)
      end
  | VValue => look (Ok (AVal (rol_value (so_rol s))))
  | VGradient g =>
      match vec s g with
      | Err e => (s, Err e)
      | Ok _ => let '(r, d) := rol_gradient F t rf (so_rol s) in
                match d with
                | Err e => (Sol m (so_vecs s) r (so_shared s), Err e)
                | Ok d => (rebound s g d r, Ok ANone)
                end
      end
  | VHessVec hv i =>
      match (do _ <- vec s hv; vec s i) with
      | Err e => (s, Err e)
      | Ok v => let '(h, d) := rf_hessian F (t_flat t) rf (values m v) (ro_h (so_rol s)) in
                let r := on_heap (fun _ => h) (so_rol s) in
                match d with
                | Err e => (Sol m (so_vecs s) r (so_shared s), Err e)
                | Ok d => (rebound s hv d r, Ok ANone)
                end
      end
  end.
Fixpoint play (a : algo) (s : solver) : solver * option exn :=
  match a with
  | Stop => (s, None)
  | Ask o k => match step s o with (s', Ok x) => play (k x) s' | (s', Err e) => (s', Some e) end
  end.

(** ROLSolver.__init__ (157-158) and solve (219-249): the vector of the tape values is handed to ROL and returned. *)
Definition rol_start (h : heap V) : solver :=
  Sol (map (saved h) (rf_ctrls rf)) [seq 0 (length (rf_ctrls rf))] (rol_new h) true.
Definition rol_solve {A} (e : enlist A) (a : algo) (h : heap V) : solver * res (pyval V) :=
  match play a (rol_start h) with
  | (s, Some e) => (s, Err e)
  | (s, None) => (s, match so_vecs s with x :: _ => delist e (values (so_objs s) x) | [] => Err EAttr end)
  end.

(** __get_bounds (164-182): per control a number or a value of the control's type; both vectors are clones. *)
Inductive bnd : Type := BNum (x : S) | BObj (v : V).
Definition set_bound (m : objects) (o : nat) (b : bnd) : res objects :=
  match b with
  | BNum x => match ot_unary T with Some u => Ok (list_set m o (u (fun _ => x) (get m o))) | None => Err EAttr end
  | BObj y => if ot_assign T then Ok (list_set m o y) else Err EAttr
  end.
Fixpoint set_bounds (m : objects) (lo up : list nat) (bs : list (bnd * bnd)) : res objects :=
  match lo, up with
  | o :: lo', p :: up' =>
      match bs with
      | [] => Err EIndex
      | (a, b) :: r => do m1 <- set_bound m o a; do m2 <- set_bound m1 p b; set_bounds m2 lo' up' r
      end
  | _, _ => Ok m
  end.
Definition rol_bounds (m : objects) (x : list nat) (bs : list (bnd * bnd)) : res (objects * list nat * list nat) :=
  let '(m1, lo) := v_clone m x in
  let '(m2, up) := v_clone m1 x in
  do m3 <- set_bounds m2 lo up bs; Ok (m3, lo, up).
End Rol.
Arguments otype : clear implicits.
Arguments scalars : clear implicits.
Arguments vop : clear implicits.
Arguments vans : clear implicits.
Arguments algo : clear implicits.
Arguments bnd : clear implicits.
Arguments solver : clear implicits.
Arguments Stop {V S}. Arguments AVec {V S}. Arguments ANone {V S}. Arguments ANat {V S}. Arguments ANum {V S}. Arguments AVal {V S}.
Arguments VValue {S}. Arguments VClone {S}. Arguments VPlus {S}. Arguments VDot {S}. Arguments VNorm {S}. Arguments VDim {S}. Arguments VUpdate {S}. Arguments VGradient {S}. Arguments VHessVec {S}. Arguments VReduce {S}. Arguments VUnary {S}. Arguments VBinary {S}. Arguments VScale {S}. Arguments Ask {V S}.
Arguments BNum {V S}. Arguments BObj {V S}.
