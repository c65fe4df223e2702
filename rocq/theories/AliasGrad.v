(** Derivatives of a reduced functional on a tape whose adjoint values are arrays in memory: [adj_value += val] writes into the
    array that is there, and the arrays found at the controls are handed to the user as they are.
    /repo/pyadjoint/block_variable.py 24-28, block.py 106-145, drivers.py 5-33, reduced_functional.py 112-160,
    control.py 48-52, /repo/numpy_adjoint/array.py 37-38, 50-53.  No proofs here. *)
From Coq Require Import List Arith ZArith Bool.
From Verif Require Import Base Model Record Arrays Alias.
Import ListNotations.

Section AliasGrad.
Context {V : Type} (F : fops V).

Definition r_deps (b : rblk V) : list nat := match b with RItem _ d _ => [d] | RKind _ ds _ => ds end.

(** [l[p0] = v0; l[p1] = v1; ...]. *)
Fixpoint write_each (m : memory V) (b : nat) (ps : list nat) (vs : list V) : memory V :=
  match ps, vs with p :: ps', v :: vs' => write_each (write m b p v) b ps' vs' | _, _ => m end.
(** add_adj_output (block_variable.py 24-28) on [adj_value] and [val]: an absent adjoint becomes [val] itself, an array is written
    into, and [+=] on a float makes a new object.  numpy adds an array of length one to every entry and raises ValueError for
    other lengths. *)
Definition radd (m : memory V) (adj : option (rval V)) (val : rval V) : res (memory V * rval V) :=
  match adj, val with
  | None, _ => Ok (m, val)
  | Some (RNum a), RNum x => Ok (m, RNum (f_add F a x))
  | Some (RNum a), RArr b ps => Ok (alloc m (map (fun p => f_add F a (read F m b p)) ps))
  | Some (RArr b ps), RNum x => Ok (write_all F m b ps (fun y => f_add F y x), RArr b ps)
  | Some (RArr b ps), RArr b' ps' =>
      if Nat.eqb (length ps') (length ps) then
        Ok (write_each m b ps (zip_with (f_add F) (map (read F m b) ps) (map (read F m b') ps')), RArr b ps)
      else match ps' with
           | [p] => let x := read F m b' p in Ok (write_all F m b ps (fun y => f_add F y x), RArr b ps)
           | _ => Err EValue
           end
  end.

(** Components that return [adj_inputs[0]] itself (adjfloat.py 439, 463 and 286, 312 for the selected argument). *)
Definition passes (k : kind V) (xs : list (aval V)) (idx : nat) : bool :=
  match k, xs with
  | KAdd, _ => true
  | KSub, _ => Nat.eqb idx 0
  | KMin, x :: y :: _ => Nat.eqb idx (if cmp (f_le F) x y then 0 else 1)
  | KMax, x :: y :: _ => Nat.eqb idx (if cmp (f_le F) y x then 0 else 1)
  | _, _ => false
  end.
(** evaluate_adj_component: array.py 50-53 fills a new array with zeros and assigns to it; floats as in Model.v. *)
Definition rcomp (m : memory V) (ref : nat -> rval V) (b : rblk V) (adj : rval V) (idx : nat) : res (memory V * option (rval V)) :=
  let xs := map (fun d => deref F m (ref d)) (r_deps b) in
  match b with
  | RItem it _ _ => do y <- u_adj (slice_block F it) xs [Some (deref F m adj)] idx;
                    Ok (match y with Some x => let '(m', r) := place m x in (m', Some r) | None => (m, None) end)
  | RKind k _ _ => do y <- comp_adj (AF F) (akind k) xs [Some (deref F m adj)] idx;
                   Ok (match y with
                       | Some x => if passes k xs idx then (m, Some adj) else let '(m', r) := place m x in (m', Some r)
                       | None => (m, None)
                       end)
  end.

(** The adjoint values and marks of all variables, and memory. *)
Record dstate : Type := DSt { d_mem : memory V; d_adj : nat -> option (rval V); d_mark : nat -> bool }.
Definition set_at {A} (f : nat -> A) (v : nat) (x : A) : nat -> A := fun u => if Nat.eqb u v then x else f u.
(** Block.evaluate_adj(markings=True) (block.py 106-145); [ref] are the saved outputs. *)
Definition radj_block (ref : nat -> rval V) (s : dstate) (b : rblk V) : dstate * option exn :=
  match d_adj s (r_out b) with
  | None => (s, None)
  | Some a =>
      iter_o (fun s' iv =>
                match rcomp (d_mem s') ref b a (fst iv) with
                | Err e => (s', Some e)
                | Ok (m, None) => (DSt m (d_adj s') (d_mark s'), None)
                | Ok (m, Some r) =>
                    match radd m (d_adj s' (snd iv)) r with
                    | Err e => (DSt m (d_adj s') (d_mark s'), Some e)
                    | Ok (m', r') => (DSt m' (set_at (d_adj s') (snd iv) (Some r')) (d_mark s'), None)
                    end
                end) (filter (fun iv => d_mark s (snd iv)) (enum (r_deps b))) s
  end.

(** Tape._find_relevant_nodes and reset_variables as in Model.v. *)
Definition rrelevant (bs : list (rblk V)) (ctrls : list nat) : list nat :=
  fold_left (fun nodes b => if existsb (fun d => mem d nodes) (r_deps b) then r_out b :: nodes else nodes) bs ctrls.
Definition on_blocks (bs : list (rblk V)) (v : nat) : bool := existsb (fun b => mem v (r_deps b) || Nat.eqb v (r_out b)) bs.
Definition rmark (nodes : list nat) (x : bool) (s : dstate) : dstate :=
  DSt (d_mem s) (d_adj s) (fun v => if mem v nodes then x else d_mark s v).
(** Control.get_derivative (control.py 48-52) with ndarray._ad_convert_type (array.py 37-38): the array itself. *)
Definition rget (s : dstate) (c : nat) : rval V := match d_adj s c with Some r => r | None => RNum (f_zero F) end.
(** compute_gradient (drivers.py 5-33); marks stay after an exception. *)
Definition rgradient (bs : list (rblk V)) (ref : nat -> rval V) (J : nat) (ctrls : list nat) (adj_value : V) (s : dstate)
  : dstate * res (list (rval V)) :=
  let s1 := DSt (d_mem s) (fun v => if on_blocks bs v then None else d_adj s v) (d_mark s) in
  let s2 := DSt (d_mem s1) (set_at (d_adj s1) J (Some (RNum adj_value))) (d_mark s1) in
  let nodes := rrelevant bs ctrls in
  let '(s3, e) := iter_o (radj_block ref) (rev bs) (rmark nodes true s2) in
  match e with
  | Some e => (s3, Err e)
  | None => (rmark nodes false s3, Ok (map (rget s3) ctrls))
  end.
(** ReducedFunctional.derivative(adj_input=AdjFloat(x)) (112-160). *)
Definition rderivative (bs : list (rblk V)) (ref : nat -> rval V) (J : nat) (ctrls : list nat) (scale adj_input : V) (s : dstate)
  : dstate * res (list (rval V)) :=
  match ctrls with
  | [] => (s, Err EValue)
  | _ => rgradient bs ref J ctrls (f_mul F adj_input scale) s
  end.

(** The user, the tape and its adjoint values. *)
Record gstate : Type := GSt { g_user : ustate V; g_adj : nat -> option (rval V); g_mark : nat -> bool }.
Inductive gevent : Type :=
| GUse (ev : event V)                                                   (* as before *)
| GDeriv (J : nat) (ctrls : list nat) (scale adj_input : V).            (* ReducedFunctional(J, controls, scale).derivative(adj_input) *)
(** The derivatives become variables of the user, to do with as they like. *)
Definition gstep (bs : list (rblk V)) (gs : gstate) (ev : gevent) : gstate * option exn :=
  let us := g_user gs in
  match ev with
  | GUse ev => let '(us', e) := estep F bs us ev in (GSt us' (g_adj gs) (g_mark gs), e)
  | GDeriv J ctrls scale x =>
      let '(s, y) := rderivative bs (r_ref (u_tape us)) J ctrls scale x (DSt (r_mem (u_tape us)) (g_adj gs) (g_mark gs)) in
      let vars := match y with Ok rs => map (fun r => (true, r)) rs | Err _ => [] end in
      (GSt (USt (RSt (d_mem s) (r_ref (u_tape us))) (u_vars us ++ vars)) (d_adj s) (d_mark s),
       match y with Ok _ => None | Err e => Some e end)
  end.
Definition grun (bs : list (rblk V)) (gs : gstate) (evs : list gevent) : gstate :=
  fold_left (fun gs' ev => fst (gstep bs gs' ev)) evs gs.
End AliasGrad.
Arguments dstate V : clear implicits.
Arguments gstate V : clear implicits.
Arguments gevent V : clear implicits.
