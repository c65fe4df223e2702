(** The full ReducedFunctional interface (/repo/pyadjoint/reduced_functional.py): argument checks, callbacks,
    the recompute counter, result shapes and derivative_components.  No proofs here. *)
From Coq Require Import List Arith ZArith Bool.
From Verif Require Import Base Model Record Surgery Coll.
Import ListNotations.

Section RFull.
Context {V : Type} (F : fops V).

(** A value handed to [rf(...)]: an instance of the control's type, an int or float, or anything else *)
Inductive pyarg : Type :=
| VSame (x : V)
| VNum (x : V)
| VBad.
Definition arg_value (a : pyarg) : V := match a with VSame x | VNum x => x | VBad => f_zero F end.

(** ReducedFunctional.__init__ (78-110).  [fu_controls]: the [controls] argument (block variables of the
    Control objects), [fu_isfloat]: which controls hold an AdjFloat, [fu_comps]: derivative_components
    ([[]] if None or empty, 103). *)
Record rfull : Type := RFull {
  fu_J : nat;
  fu_controls : pyval nat;
  fu_isfloat : nat -> bool;
  fu_scale : V;
  fu_comps : list Z
}.
Definition fu_list (r : rfull) : list nat := el_items (mk_enlist (fu_controls r)).
Definition fu_rf (r : rfull) : rfun V := RF (fu_J r) (fu_list r) (fu_scale r).

(** 214-227: the first value of the wrong type raises TypeError *)
Definition type_ok (r : rfull) (c : nat) (a : pyarg) : bool :=
  match a with VSame _ => true | VNum _ => fu_isfloat r c | VBad => false end.
Definition types_ok (r : rfull) (args : list pyarg) : bool :=
  forallb (fun ca => type_ok r (fst ca) (snd ca)) (combine (fu_list r) args).

(** __call__ (193-254).  Callbacks are observers that may raise: they get the values in the shape of the
    controls.  [rf_call] repeats the length check, updates the controls and recomputes (Model.v). *)
Definition full_call (w : world V) (r : rfull) (values : pyval pyarg)
  (cb_pre : pyval pyarg -> option exn) (cb_post : V -> pyval pyarg -> option exn) : world V * res V :=
  let vs := el_items (mk_enlist values) in
  if negb (length vs =? length (fu_list r)) then (w, Err EValue)
  else if negb (types_ok r vs) then (w, Err EType)
  else match delist (mk_enlist (fu_controls r)) vs with
  | Err e => (w, Err e)
  | Ok shaped =>
    match cb_pre shaped with
    | Some e => (w, Err e)
    | None =>
        let w1 := with_tape (fun t => Tape (t_steps t) (t_flat t) (t_latest t) (t_eager t) (S (t_count t))) w in
        let '(h, o) := rf_call F (t_flat (w_tape w)) (fu_rf r) (map arg_value vs) (w_heap w) in
        let w2 := with_heap (fun _ => h) w1 in
        match o with
        | Err e => (w2, Err e)
        | Ok j => match cb_post j shaped with Some e => (w2, Err e) | None => (w2, Ok j) end
        end
    end
  end.

(** Python's [l[i]] *)
Definition py_index {A} (l : list A) (i : Z) : res A :=
  let n := Z.of_nat (length l) in
  if (0 <=? i)%Z && (i <? n)%Z then match nth_error l (Z.to_nat i) with Some x => Ok x | None => Err EIndex end
  else if (- n <=? i)%Z && (i <? 0)%Z then match nth_error l (Z.to_nat (n + i)) with Some x => Ok x | None => Err EIndex end
  else Err EIndex.

(** 8-18: [Enlist([controls[i] for i in derivative_components])] *)
Definition extract (comps : list Z) (cs : list nat) : res (list nat) := mapM (py_index cs) comps.

(** 31-34: [zero = control._ad_copy(); zero *= 0.].  [_ad_copy] of an AdjFloat is the object itself
    (adjfloat.py 125-126), [*=] is the overloaded product with AdjFloat(0.). *)
Definition zero_of (w : world V) (c : nat) : world V * res V :=
  let o := bv_obj (w_heap w c) in
  let '(w1, z) := new_obj w (f_zero F) in
  match exec_op F w1 KMul [o; z] with
  | (w2, Some e) => (w2, Err e)
  | (w2, None) => match nth_error (w_objs w2) (S z) with Some ob => (w2, Ok (o_val ob)) | None => (w2, Err EAttr) end
  end.

(** 21-37 *)
Definition selected (comps : list Z) (i : nat) : bool := existsb (Z.eqb (Z.of_nat i)) comps.
Fixpoint pack (w : world V) (comps : list Z) (i : nat) (cs : list nat) (ds : list V) : world V * res (list V) :=
  match cs with
  | [] => (w, Ok [])
  | c :: r =>
      if selected comps i then
        match ds with
        | [] => (w, Err EIndex)
        | d :: ds' => let '(w', o) := pack w comps (S i) r ds' in (w', rmap (cons d) o)
        end
      else
        match zero_of w c with
        | (w1, Err e) => (w1, Err e)
        | (w1, Ok z) => let '(w', o) := pack w1 comps (S i) r ds in (w', rmap (cons z) o)
        end
  end.
(** [enumerate(controls)] iterates over the argument as given: a single Control is not iterable *)
Definition pack_cb (w : world V) (r : rfull) (ds : list V) : world V * res (list V) :=
  match fu_controls r with
  | POne _ => (w, Err EType)
  | PList cs | PTuple cs => pack w (fu_comps r) 0 cs ds
  end.

(** derivative (112-160) *)
Definition full_derivative (w : world V) (r : rfull) (adj_input : V) : world V * res (pyval V) :=
  match (match fu_comps r with [] => Ok (fu_list r) | cp => extract cp (fu_list r) end) with
  | Err e => (w, Err e)
  | Ok [] => (w, Err EValue)
  | Ok sel =>
      let '(h, g) := compute_gradient F (t_flat (w_tape w)) (fu_J r) sel (f_mul F adj_input (fu_scale r)) (w_heap w) in
      let w1 := with_heap (fun _ => h) w in
      match g with
      | Err e => (w1, Err e)
      | Ok g =>
          let '(w2, d) := match fu_comps r with [] => (w1, Ok g) | _ => pack_cb w1 r g end in
          match d with
          | Err e => (w2, Err e)
          | Ok [] => (w2, Err EValue)
          | Ok d => (w2, delist (mk_enlist (fu_controls r)) d)
          end
      end
  end.

(** hessian (162-191), default callbacks *)
Definition full_hessian (w : world V) (r : rfull) (m_dot : pyval V) : world V * res (pyval V) :=
  let '(h, g) := compute_hessian F (t_flat (w_tape w)) (fu_J r) (fu_list r) (el_items (mk_enlist m_dot)) (w_heap w) in
  let w1 := with_heap (fun _ => h) w in
  match g with
  | Err e => (w1, Err e)
  | Ok g => (w1, delist (mk_enlist (fu_controls r)) g)
  end.

(** ** Histories: recording and API calls in any order, any number of functionals *)
Inductive hop : Type :=
| HStmt (s : stmt V)
| HCall (r : rfull) (values : pyval pyarg) (cb_pre : pyval pyarg -> option exn) (cb_post : V -> pyval pyarg -> option exn)
| HDeriv (r : rfull) (adj : V)
| HHess (r : rfull) (m_dot : pyval V)
| HOpt (r : rfull)
| HClear.
Definition hrun1 (w : world V) (o : hop) : world V :=
  match o with
  | HStmt s => fst (exec_stmt F w s)
  | HCall r v p q => fst (full_call w r v p q)
  | HDeriv r a => fst (full_derivative w r a)
  | HHess r m => fst (full_hessian w r m)
  | HOpt r => with_tape (fun t => fst (rf_optimize (fu_rf r) t)) w
  | HClear => let '(t, h) := clear_tape (w_tape w) (w_heap w) in World (w_objs w) h (w_next w) t (w_ann w) (w_ctrls w)
  end.
Definition hrun (w : world V) (l : list hop) : world V := fold_left hrun1 l w.
End RFull.
Arguments pyarg V : clear implicits.
Arguments rfull V : clear implicits.
Arguments hop V : clear implicits.
