(** numpy_adjoint arrays as mutable objects: which arrays share memory, and who writes into it.  Evaluation of a reduced
    functional on a tape whose stored arrays are references, interleaved with what the user does with their own arrays.
    /repo/numpy_adjoint/array.py 7-56, /repo/pyadjoint/reduced_functional.py 193-254, control.py 45-67, block_variable.py 52-62.
    The sharing itself is numpy's: an int in the brackets gives a float, a slice a view, a list or a mask a copy; [*=] and
    [a[i] = x] write into the array on the left.  No proofs here. *)
From Coq Require Import List Arith ZArith Bool.
From Verif Require Import Base Model Record Arrays.
Import ListNotations.

Section Alias.
Context {V : Type} (F : fops V).

(** The buffers, and a reference: a float, or an array given by a buffer and the positions of its entries in it. *)
Definition memory : Type := list (list V).
Inductive rval : Type := RNum (x : V) | RArr (b : nat) (ps : list nat).
Definition read (m : memory) (b p : nat) : V := nth p (nth b m []) (f_zero F).
Definition deref (m : memory) (r : rval) : aval V :=
  match r with RNum x => Num x | RArr b ps => Arr (map (read m b) ps) end.
Definition alloc (m : memory) (l : list V) : memory * rval := (m ++ [l], RArr (length m) (seq 0 (length l))).
(** ndarray._ad_create_checkpoint (17-18) and AdjFloat's (a float is not changed in place). *)
Definition copy (m : memory) (r : rval) : memory * rval :=
  match r with RNum x => (m, RNum x) | RArr b ps => alloc m (map (read m b) ps) end.
(** [l[p] = x] and [l[p] = f(l[p])] for every position of an array. *)
Definition write (m : memory) (b p : nat) (x : V) : memory := list_set m b (list_set (nth b m []) p x).
Definition write_all (m : memory) (b : nat) (ps : list nat) (f : V -> V) : memory :=
  fold_left (fun m' p => write m' b p (f (read m' b p))) ps m.

(** [r[item]]. *)
Definition rgetitem (m : memory) (it : item) (r : rval) : res (memory * rval) :=
  match r with
  | RNum _ => Err EType
  | RArr b ps =>
      do qs <- picks it (length ps);
      do rs <- mapM (nth_res ps) qs;
      match it with
      | IInt _ => match rs with p :: _ => Ok (m, RNum (read m b p)) | [] => Err EIndex end
      | ISlice _ _ _ => Ok (m, RArr b rs)
      | IList _ | IMask _ => Ok (alloc m (map (read m b) rs))
      end
  end.

(** A block with its one output: [out = in[item]], or an operation on floats. *)
Inductive rblk : Type := RItem (it : item) (d o : nat) | RKind (k : kind V) (ds : list nat) (o : nat).
Definition r_out (b : rblk) : nat := match b with RItem _ _ o | RKind _ _ o => o end.
(** saved_output of every block variable (block_variable.py 57-62). *)
Record rstate : Type := RSt { r_mem : memory; r_ref : nat -> rval }.
Definition r_set (s : rstate) (m : memory) (v : nat) (r : rval) : rstate :=
  RSt m (fun u => if Nat.eqb u v then r else r_ref s u).
Definition place (m : memory) (x : aval V) : memory * rval :=
  match x with Num y => (m, RNum y) | Arr l => alloc m l end.

(** Block.recompute (block.py 330-363) with the recompute_component of array.py 55-56: what numpy returns is stored. *)
Definition rrecompute (cut : nat -> bool) (s : rstate) (b : rblk) : rstate * option exn :=
  if cut (r_out b) then (s, None)
  else match b with
       | RItem it d o => match rgetitem (r_mem s) it (r_ref s d) with
                         | Err e => (s, Some e)
                         | Ok (m, r) => (r_set s m o r, None)
                         end
       | RKind k ds o => match comp_recompute (AF F) (akind k) (map (fun d => deref (r_mem s) (r_ref s d)) ds) 0 with
                         | Err e => (s, Some e)
                         | Ok None => (s, None)
                         | Ok (Some y) => let '(m, r) := place (r_mem s) y in (r_set s m o r, None)
                         end
       end.

(** Control.update (control.py 60-67): the value given is copied. *)
Fixpoint rupdate (s : rstate) (ctrls : list nat) (args : list rval) : rstate :=
  match ctrls, args with
  | c :: cs, a :: rest => let '(m, r) := copy (r_mem s) a in rupdate (r_set s m c r) cs rest
  | _, _ => s
  end.

(** ReducedFunctional.__call__ (193-254); [func_value *= self.scale] (249) makes a new float, or writes into the array. *)
Definition rcall (bs : list rblk) (J : nat) (ctrls : list nat) (scale : V) (args : list rval) (s : rstate) : rstate * res rval :=
  if negb (Nat.eqb (length args) (length ctrls)) then (s, Err EValue)
  else
    let '(s2, e) := iter_o (rrecompute (fun v => mem v ctrls)) bs (rupdate s ctrls args) in
    match e with
    | Some e => (s2, Err e)
    | None => match r_ref s2 J with
              | RNum x => (s2, Ok (RNum (f_mul F x scale)))
              | RArr b ps => (RSt (write_all (r_mem s2) b ps (fun x => f_mul F x scale)) (r_ref s2), Ok (RArr b ps))
              end
    end.

(** The user's variables; [true] for those the user made, [false] for what a call or a control has handed out. *)
Record ustate : Type := USt { u_tape : rstate; u_vars : list (bool * rval) }.
Inductive event : Type :=
| ENew (l : list V)                                                    (* numpy.array(l) *)
| EFloat (x : V)                                                       (* AdjFloat(x) *)
| EItem (u : nat) (it : item)                                          (* a[item], annotation off *)
| ESet (u i : nat) (x : V)                                             (* a[i] = x *)
| ECall (J : nat) (ctrls : list nat) (scale : V) (us : list nat)       (* ReducedFunctional(J, controls, scale)(values) *)
| ETape (c : nat).                                                     (* Control.tape_value() (control.py 45-46) *)

Definition u_push (us : ustate) (m : memory) (own : bool) (r : rval) : ustate :=
  USt (RSt m (r_ref (u_tape us))) (u_vars us ++ [(own, r)]).
Definition var_ref (us : ustate) (u : nat) : res rval :=
  match nth_error (u_vars us) u with Some (_, r) => Ok r | None => Err EAttr end.
Definition estep (bs : list rblk) (us : ustate) (ev : event) : ustate * option exn :=
  let m := r_mem (u_tape us) in
  match ev with
  | ENew l => let '(m', r) := alloc m l in (u_push us m' true r, None)
  | EFloat x => (u_push us m true (RNum x), None)
  | EItem u it =>
      match nth_error (u_vars us) u with
      | None => (us, Some EAttr)
      | Some (own, r) => match rgetitem m it r with
                         | Err e => (us, Some e)
                         | Ok (m', r') => (u_push us m' own r', None)
                         end
      end
  | ESet u i x =>
      match nth_error (u_vars us) u with
      | Some (_, RArr b ps) =>
          match nth_error ps i with
          | Some p => (USt (RSt (write m b p x) (r_ref (u_tape us))) (u_vars us), None)
          | None => (us, Some EIndex)
          end
      | _ => (us, Some EType)
      end
  | ECall J ctrls scale vs =>
      match mapM (var_ref us) vs with
      | Err e => (us, Some e)
      | Ok args =>
          let '(s, y) := rcall bs J ctrls scale args (u_tape us) in
          match y with
          | Err e => (USt s (u_vars us), Some e)
          | Ok r => (USt s (u_vars us ++ [(false, r)]), None)
          end
      end
  | ETape c => (u_push us m false (r_ref (u_tape us) c), None)
  end.
(** Events one after another; an exception is caught by the user. *)
Definition erun (bs : list rblk) (us : ustate) (evs : list event) : ustate :=
  fold_left (fun us' ev => fst (estep bs us' ev)) evs us.

(** What the user sees: the value of a variable, and of a tape variable. *)
Definition seen (us : ustate) (u : nat) : option (aval V) :=
  option_map (fun p => deref (r_mem (u_tape us)) (snd p)) (nth_error (u_vars us) u).
Definition stored (us : ustate) (v : nat) : aval V := deref (r_mem (u_tape us)) (r_ref (u_tape us) v).

(** Every stored array in a buffer of its own (recording copies: block_variable.py 52-55), variables [0..n-1]. *)
Definition entries (x : aval V) : list V := match x with Num _ => [] | Arr l => l end.
Definition copies (h : heap (aval V)) (n : nat) : rstate :=
  RSt (map (fun v => entries (saved h v)) (seq 0 n))
      (fun v => match saved h v with Num x => RNum x | Arr l => RArr v (seq 0 (length l)) end).
End Alias.
Arguments memory V : clear implicits.
Arguments rval V : clear implicits.
Arguments rstate V : clear implicits.
Arguments ustate V : clear implicits.
Arguments event V : clear implicits.
Arguments rblk V : clear implicits.
