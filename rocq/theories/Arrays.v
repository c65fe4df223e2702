(** numpy_adjoint: one-dimensional arrays of floats as overloaded objects, indexing, and programs that index arrays and
    compute with the resulting floats.  /repo/numpy_adjoint/array.py 7-56, /repo/numpy_adjoint/__init__.py 12-18; indexing
    itself is numpy's.  No proofs here. *)
From Coq Require Import List Arith ZArith Bool.
From Verif Require Import Base Model Record PyExp.
Import ListNotations.

(** What stands in the brackets of [a[...]]: an int, a slice [start:stop:step], a list of ints, a list of bools. *)
Inductive item : Set :=
| IInt (z : Z)
| ISlice (start stop : option Z) (step : Z)
| IList (zs : list Z)
| IMask (ms : list bool).

(** Python's handling of negative and missing slice bounds (PySlice_AdjustIndices). *)
Definition clamp (n step z : Z) : Z :=
  let z1 := if Z.ltb z 0 then (z + n)%Z else z in
  if Z.ltb z1 0 then (if Z.ltb step 0 then -1 else 0)%Z
  else if Z.leb n z1 then (if Z.ltb step 0 then n - 1 else n)%Z else z1.
Definition slice_start (n : Z) (s : option Z) (step : Z) : Z :=
  match s with Some z => clamp n step z | None => if Z.ltb step 0 then (n - 1)%Z else 0%Z end.
Definition slice_stop (n : Z) (s : option Z) (step : Z) : Z :=
  match s with Some z => clamp n step z | None => if Z.ltb step 0 then (-1)%Z else n end.
Definition slice_count (a b step : Z) : Z :=
  if Z.ltb step 0 then (if Z.ltb b a then (a - b - 1) / (- step) + 1 else 0)%Z
  else (if Z.ltb a b then (b - a - 1) / step + 1 else 0)%Z.
(** A single index, counted from the end if negative. *)
Definition position (n : nat) (z : Z) : res nat :=
  let z1 := if Z.ltb z 0 then (z + Z.of_nat n)%Z else z in
  if Z.leb 0 z1 && Z.ltb z1 (Z.of_nat n) then Ok (Z.to_nat z1) else Err EIndex.
Fixpoint mask_from (i : nat) (ms : list bool) : list nat :=
  match ms with [] => [] | m :: r => if m then i :: mask_from (S i) r else mask_from (S i) r end.
(** The positions selected in an array of length [n]. *)
Definition picks (it : item) (n : nat) : res (list nat) :=
  match it with
  | IInt z => rmap (fun i => [i]) (position n z)
  | ISlice s e step =>
      if Z.eqb step 0 then Err EValue
      else let a := slice_start (Z.of_nat n) s step in
           let b := slice_stop (Z.of_nat n) e step in
           Ok (map (fun k => Z.to_nat (a + Z.of_nat k * step)) (seq 0 (Z.to_nat (slice_count a b step))))
  | IList zs => mapM (position n) zs
  | IMask ms => if Nat.eqb (length ms) n then Ok (mask_from 0 ms) else Err EIndex
  end.
Definition is_int (it : item) : bool := match it with IInt _ => true | _ => false end.

Section Arrays.
Context {V : Type} (F : fops V).

(** A float or an array. *)
Inductive aval : Type := Num (x : V) | Arr (l : list V).
Definition is_arr (x : aval) : bool := match x with Arr _ => true | Num _ => false end.

Fixpoint zip_with (f : V -> V -> V) (l m : list V) : list V :=
  match l, m with x :: l', y :: m' => f x y :: zip_with f l' m' | _, _ => [] end.
(** numpy's elementwise operations; arrays of different lengths are not combined anywhere in the model. *)
Definition lift2 (f : V -> V -> V) (a b : aval) : aval :=
  match a, b with
  | Num x, Num y => Num (f x y)
  | Num x, Arr m => Arr (map (f x) m)
  | Arr l, Num y => Arr (map (fun x => f x y) l)
  | Arr l, Arr m => Arr (zip_with f l m)
  end.
Definition lift1 (f : V -> V) (a : aval) : aval := match a with Num x => Num (f x) | Arr l => Arr (map f l) end.
Definition num2 (f : V -> V -> res V) (a b : aval) : res aval :=
  match a, b with Num x, Num y => rmap Num (f x y) | _, _ => Err EType end.
Definition num1 (f : V -> res V) (a : aval) : res aval := match a with Num x => rmap Num (f x) | _ => Err EType end.
Definition cmp (f : V -> V -> bool) (a b : aval) : bool := match a, b with Num x, Num y => f x y | _, _ => false end.
(** Arithmetic on floats and arrays; quotients, powers, exp, log and comparisons on floats only. *)
Definition AF : fops aval := {|
  f_zero := Num (f_zero F); f_one := Num (f_one F); f_two := Num (f_two F); f_three := Num (f_three F);
  f_add := lift2 (f_add F); f_sub := lift2 (f_sub F); f_mul := lift2 (f_mul F); f_neg := lift1 (f_neg F);
  f_div := num2 (f_div F); f_pow := num2 (f_pow F); f_exp := num1 (f_exp F); f_log := num1 (f_log F);
  f_nplog := lift1 (f_nplog F); f_le := cmp (f_le F); f_lt := cmp (f_lt F) |}.

(** [a[item]] (array.py 30, 56): a float for an int, an array otherwise; floats cannot be indexed. *)
Definition getitem (it : item) (x : aval) : res aval :=
  match x with
  | Num _ => Err EType
  | Arr l =>
      do ps <- picks it (length l);
      do ys <- mapM (nth_res l) ps;
      if is_int it then match ys with y :: _ => Ok (Num y) | [] => Err EIndex end else Ok (Arr ys)
  end.

(** [l[ps[0]] = vs[0]; l[ps[1]] = vs[1]; ...]: numpy's assignment to indices, the last one stays for a repeated index. *)
Fixpoint assign (l : list V) (ps : list nat) (vs : list V) : list V :=
  match ps, vs with p :: ps', v :: vs' => assign (list_set l p v) ps' vs' | _, _ => l end.
(** The values written by [adj_output[item] = y]: a float is written everywhere, as is the entry of an array of length 1. *)
Definition written (it : item) (n : nat) (y : aval) : res (list V) :=
  match y with
  | Num x => Ok (repeat x n)
  | Arr [x] => Ok (repeat x n)
  | Arr l => if negb (is_int it) && Nat.eqb (length l) n then Ok l else Err EValue
  end.

(** NumpyArraySliceBlock (44-56).  evaluate_tlm_component and evaluate_hessian_component are those of Block
    (/repo/pyadjoint/block.py), which raise NotImplementedError. *)
Definition slice_block (it : item) : ublock aval := {|
  u_recompute := fun xs idx => match xs with
                               | [x] => do y <- getitem it x; if Nat.eqb idx 0 then Ok (Some y) else Err EIndex
                               | _ => Err EIndex
                               end;
  u_adj := fun xs adjs idx =>
    match xs, adjs with
    | [Arr l], [Some y] =>
        do ps <- picks it (length l);
        do vs <- written it (length ps) y;
        Ok (Some (Arr (assign (repeat (f_zero F) (length l)) ps vs)))
    | _, _ => Err EType
    end;
  u_tlm := fun _ _ _ => Err ENotImpl;
  u_hess := fun _ _ _ _ _ => Err ENotImpl |}.

(** ndarray.__getitem__ (22-35) on object [o]: the block is put on the tape before the value is computed. *)
Definition exec_getitem (w : world aval) (o : nat) (it : item) : world aval * option exn :=
  match nth_error (w_objs w) o with
  | None => (w, Some EAttr)
  | Some ob =>
      match o_val ob with
      | Num _ => (w, Some EType)
      | Arr _ =>
          let w1 := if w_ann w then
                      let '(w', d) := add_dep w o in
                      with_tape (fun t => add_block t (Blk (KUser (slice_block it)) [d] [] None)) w'
                    else w in
          match getitem it (o_val ob) with
          | Err e => (w1, Some e)
          | Ok y =>
              let '(w2, n) := new_obj w1 y in
              if w_ann w then
                let '(w3, v) := create_bv w2 n in
                (with_tape (last_push_out v) (will_out w3 v), None)
              else (w2, None)
          end
      end
  end.

(** Statements of a program, each assigning to a new variable. *)
Inductive astmt : Type :=
| ALit (x : aval)                      (* AdjFloat(x) or an array *)
| AItem (a : nat) (it : item)          (* a[item] *)
| AOp (k : kind V) (args : list nat)   (* + - * / ** neg *)
| AFun (k : kind V) (args : list nat). (* exp log min max *)

Definition akind (k : kind V) : kind aval :=
  match k with
  | KAdd => KAdd | KSub => KSub | KMul => KMul | KDiv => KDiv | KPow => KPow | KNeg => KNeg
  | KExp => KExp | KLog => KLog | KMin => KMin | KMax => KMax
  | KUser _ => KUser {| u_recompute := fun _ _ => Err ENotImpl; u_adj := fun _ _ _ => Err ENotImpl;
                        u_tlm := fun _ _ _ => Err ENotImpl; u_hess := fun _ _ _ _ _ => Err ENotImpl |}
  end.

(** numpy's own + - * neg on two arrays of one length or an array and a float; AdjFloat's operators answer NotImplemented
    for an array (adjfloat.py 25-26), so numpy does the work and nothing is recorded. *)
Definition array_op (k : kind V) (xs : list aval) : res aval :=
  match k, xs with
  | KNeg, [a] => Ok (lift1 (f_neg F) a)
  | (KAdd | KSub | KMul), [a; b] =>
      let f := match k with KAdd => f_add F | KSub => f_sub F | _ => f_mul F end in
      match a, b with
      | Arr l, Arr m => if Nat.eqb (length l) (length m) then Ok (lift2 f a b) else Err EValue
      | _, _ => Ok (lift2 f a b)
      end
  | _, _ => Err ENotImpl
  end.

Definition aexec_stmt (w : world aval) (s : astmt) : world aval * option exn :=
  match s with
  | ALit x => (fst (new_obj w x), None)
  | AItem a it => exec_getitem w a it
  | AOp k args =>
      match arg_vals w args with
      | Err e => (w, Some e)
      | Ok xs => if existsb is_arr xs then
                   match array_op k xs with Ok y => (fst (new_obj w y), None) | Err e => (w, Some e) end
                 else exec_op AF w (akind k) args
      end
  | AFun k args =>
      match arg_vals w args with
      | Err e => (w, Some e)
      | Ok xs => if existsb is_arr xs then (w, Some EType) else exec_fun AF w (akind k) args true
      end
  end.

(** The controls ([declare], PyExp.v: [x0 = ...; c0 = Control(x0); x1 = ...]), then the statements up to the first exception. *)
Definition arun (ann : bool) (xs : list aval) (es : list astmt) : world aval * option exn :=
  iter_o aexec_stmt es (exec AF (world_new AF ann) (declare 0 xs)).

End Arrays.
Arguments aval V : clear implicits.
Arguments astmt V : clear implicits.
