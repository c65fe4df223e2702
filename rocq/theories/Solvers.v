(** Adapters to optimisation packages: Moola's memoisation (/repo/pyadjoint/optimization/moola_problem.py),
    ROL's update protocol (rol_solver.py), PETSc vectors, options and parameter dictionaries
    (tao_solver.py).  No proofs here. *)
From Coq Require Import String Ascii List Arith Bool.
From Verif Require Import Base Model Record Surgery.
Import ListNotations.

(** * Moola (moola_problem.py 32-102)
    [T]: the state of the tape; [ev t x]: rf(x.data); [dv t]: rf.derivative(); [hash]: hash(x). *)
Section Moola.
Variables T X A G : Type.
Variable hash : X -> nat.
Variable ev : T -> X -> T * res A.
Variable dv : T -> T * res G.

(** latest_eval_hash, latest_eval_eval, latest_deriv_hash, latest_deriv_eval (32-35) *)
Record moola : Type := Mo { mo_eh : list nat; mo_ee : list A; mo_dh : list nat; mo_de : list G; mo_t : T }.

(** the search loops (43-46, 70-74): the entry at the index of the first equal hash *)
Fixpoint index_of (k : nat) (l : list nat) : option nat :=
  match l with
  | [] => None
  | x :: r => if Nat.eqb x k then Some 0 else option_map S (index_of k r)
  end.

(** __call__ (37-60) *)
Definition mo_call (memoize : nat) (x : X) (s : moola) : moola * res A :=
  if memoize =? 0 then let '(t, r) := ev (mo_t s) x in (Mo (mo_eh s) (mo_ee s) (mo_dh s) (mo_de s) t, r)
  else
  match index_of (hash x) (mo_eh s) with
  | Some i => (s, match nth_error (mo_ee s) i with Some v => Ok v | None => Err EIndex end)
  | None =>
      let full := length (mo_eh s) =? memoize in
      let eh := if full then tl (mo_eh s) else mo_eh s in      (* pop(0) *)
      match full, mo_ee s with
      | true, [] => (Mo eh [] (mo_dh s) (mo_de s) (mo_t s), Err EIndex)   (* pop from empty list *)
      | _, _ =>
          let ee := if full then tl (mo_ee s) else mo_ee s in
          (* the hash is stored before the functional is evaluated (52-53) *)
          match ev (mo_t s) x with
          | (t, Ok v) => (Mo (eh ++ [hash x]) (ee ++ [v]) (mo_dh s) (mo_de s) t, Ok v)
          | (t, Err e) => (Mo (eh ++ [hash x]) ee (mo_dh s) (mo_de s) t, Err e)
          end
      end
  end.

(** derivative (62-93); convert_to_moola_dual_vector is not modelled *)
Definition mo_deriv (memoize : nat) (x : X) (s : moola) : moola * res G :=
  if memoize =? 0 then let '(t, r) := dv (mo_t s) in (Mo (mo_eh s) (mo_ee s) (mo_dh s) (mo_de s) t, r)
  else
  match index_of (hash x) (mo_dh s) with
  | Some i => (s, match nth_error (mo_de s) i with Some d => Ok d | None => Err EIndex end)
  | None =>
      let full := length (mo_dh s) =? memoize in
      let dh := if full then tl (mo_dh s) else mo_dh s in
      match full, mo_de s with
      | true, [] => (Mo (mo_eh s) (mo_ee s) dh [] (mo_t s), Err EIndex)
      | _, _ =>
          let de := if full then tl (mo_de s) else mo_de s in
          match dv (mo_t s) with
          | (t, Ok d) => (Mo (mo_eh s) (mo_ee s) (dh ++ [hash x]) (de ++ [d]) t, Ok d)
          | (t, Err e) => (Mo (mo_eh s) (mo_ee s) dh de t, Err e)
          end
      end
  end.

Inductive mcall : Type := MEval (x : X) | MDeriv (x : X).
Definition mo_step (memoize : nat) (s : moola) (c : mcall) : moola * (res A + res G) :=
  match c with
  | MEval x => let '(s', r) := mo_call memoize x s in (s', inl r)
  | MDeriv x => let '(s', r) := mo_deriv memoize x s in (s', inr r)
  end.
Fixpoint mo_run (memoize : nat) (s : moola) (l : list mcall) : list (res A + res G) :=
  match l with
  | [] => []
  | c :: r => let '(s', o) := mo_step memoize s c in o :: mo_run memoize s' r
  end.
Definition mo_new (t : T) : moola := Mo [] [] [] [] t.
End Moola.
Arguments MEval {X}. Arguments MDeriv {X}.

(** * ROL (rol_solver.py 9-64) *)
Section ROL.
Context {V : Type} (F : fops V).
(** [NoFlag]: the flag is not a ROL.UpdateType (older interface) *)
Inductive flag : Set := Initial | Accept | Revert | Trial | Temp | NoFlag.
Definition snap := list (nat * (option V * bool)).
(** [_val], [_cache], [_tape_trial], [_tape_cache] ([None]: the attribute does not exist), tape values *)
Record rol : Type := Rol { ro_val : option V; ro_cache : option V; ro_trial : option snap; ro_tcache : option snap; ro_h : heap V }.
Definition rol_new (h : heap V) : rol := Rol None None None None h.

(** update (32-62).  [t], [rf]: the tape and the reduced functional *)
Definition rol_update (t : tape V) (rf : rfun V) (x : list V) (f : flag) (s : rol) : rol * option exn :=
  let evaluate := rf_call F (t_flat t) rf x (ro_h s) in
  let accept s := match ro_trial s with
                  | None => (Rol (ro_val s) (ro_val s) None (ro_tcache s) (ro_h s), Some EAttr)
                  | Some p => (Rol (ro_val s) (ro_val s) (Some p) (Some p) (ro_h s), None)
                  end in
  match f with
  | Initial | Trial | Temp =>
      match evaluate with
      | (h, Err e) => (Rol (ro_val s) (ro_cache s) (ro_trial s) (ro_tcache s) h, Some e)
      | (h, Ok j) =>
          let s' := Rol (Some j) (ro_cache s) (Some (checkpoint_block_vars (rf_ctrls rf) None t h)) (ro_tcache s) h in
          match f with Initial => accept s' | _ => (s', None) end
      end
  | Revert =>
      match ro_tcache s with
      | Some p => (Rol (ro_cache s) (ro_cache s) (ro_trial s) (Some p) (restore_block_vars p (ro_h s)), None)
      | None =>
          match evaluate with
          | (h, Err e) => (Rol (ro_val s) (ro_cache s) (ro_trial s) None h, Some e)
          | (h, Ok j) =>
              match ro_trial s with
              | None => (Rol (Some j) (Some j) None None h, Some EAttr)
              | Some p => (Rol (Some j) (Some j) (Some p) (Some p) h, None)
              end
          end
      end
  | Accept => accept s
  | NoFlag =>
      match evaluate with
      | (h, Err e) => (Rol (ro_val s) (ro_cache s) (ro_trial s) (ro_tcache s) h, Some e)
      | (h, Ok j) => (Rol (Some j) (ro_cache s) (ro_trial s) (ro_tcache s) h, None)
      end
  end.
(** value (19-20) and gradient (22-25): both ignore the vector they are given *)
Definition rol_value (s : rol) : option V := ro_val s.
Definition rol_gradient (t : tape V) (rf : rfun V) (s : rol) : rol * res (list V) :=
  let '(h, r) := rf_derivative F (t_flat t) rf (f_one F) (ro_h s) in
  (Rol (ro_val s) (ro_cache s) (ro_trial s) (ro_tcache s) h, r).
End ROL.
Arguments rol : clear implicits.

(** * PETSc vectors (tao_solver.py 26-126)
    [shares]: whether getSubVector returns a view of the parent (PETSc does for contiguous index sets,
    its documentation leaves both open) or a copy that restoreSubVector on the parent writes back. *)
Section Petsc.
Variable S : Type.
(** Vec.concatenate (49): consecutive index ranges (start, size) in order *)
Fixpoint isets_from (off : nat) (sizes : list nat) : list (nat * nat) :=
  match sizes with [] => [] | n :: r => (off, n) :: isets_from (off + n) r end.
Definition isets (sizes : list nat) := isets_from 0 sizes.
Definition get_sub (x : list S) (i : nat * nat) : list S := firstn (snd i) (skipn (fst i) x).
Definition put_sub (x : list S) (i : nat * nat) (d : list S) : list S :=
  firstn (fst i) x ++ d ++ skipn (fst i + snd i) x.
(** from_petsc (82-97): [_ad_from_petsc] stores the subvector *)
Definition from_petsc (sizes : list nat) (y : list S) (n : nat) : res (list (list S)) :=
  if negb (n =? length sizes) then Err EValue else Ok (map (get_sub y) (isets sizes)).
(** a value for to_petsc: a number, an overloaded object with its components, anything else *)
Inductive pval : Type := PNum (x : S) | PObj (d : list S) | POther.
(** to_petsc (99-126): writes into the subvector, then calls restoreSubVector on the subvector
    itself (126), which writes nothing back *)
Fixpoint to_petsc_loop (shares : bool) (is : list (nat * nat)) (x : list S) (vals : list pval) : list S * option exn :=
  match is, vals with
  | i :: is', v :: vs =>
      let write d := if shares then put_sub x i d else x in
      match v with
      | PNum a => to_petsc_loop shares is' (write (repeat a (snd i))) vs
      | PObj d => to_petsc_loop shares is' (write d) vs
      | POther => (x, Some EType)
      end
  | _, _ => (x, None)
  end.
Definition to_petsc (shares : bool) (sizes : list nat) (x : list S) (vals : list pval) : list S * option exn :=
  if negb (length vals =? length sizes) then (x, Some EValue) else to_petsc_loop shares (isets sizes) x vals.
End Petsc.
Arguments get_sub {S}. Arguments put_sub {S}. Arguments from_petsc {S}. Arguments to_petsc {S}. Arguments to_petsc_loop {S}.
Arguments PNum {S}. Arguments PObj {S}. Arguments POther {S}.

(** * Parameter dictionaries and the options database (tao_solver.py 132-296) *)
Section Options.
Variable A : Type.
Local Open Scope string_scope.
(** A parameter value: a dictionary (keys distinct, in order) or anything else *)
Inductive param : Type := PLeaf (a : A) | PDict (d : list (string * param)).

Fixpoint ends_with (sep s : string) : bool :=
  String.eqb s sep || match s with EmptyString => false | String _ r => ends_with sep r end.
(** flatten (164-179): (keys, value), keys innermost first; an empty dictionary is a value *)
Fixpoint flatten (p : param) (prefixes : list string) : list (list string * param) :=
  match p with
  | PLeaf _ => [(prefixes, p)]
  | PDict [] => [(prefixes, p)]
  | PDict d => flat_map (fun kv => flatten (snd kv) (fst kv :: prefixes)) d
  end.
(** munge (181-190) and the join (193) *)
Definition munge_key (sep k : string) : string := if String.eqb k "" || ends_with sep k then k else k ++ sep.
Definition join_keys (sep : string) (keys : list string) : res string :=
  match keys with
  | [] => Err EIndex
  | k0 :: ks => Ok (fold_right append k0 (map (munge_key sep) (rev ks)))
  end.
(** Python dictionaries: assignment keeps the place of an existing key *)
Section Dict.
Variable B : Type.
Definition dict := list (string * B).
Fixpoint d_get (k : string) (d : dict) : option B :=
  match d with [] => None | (k', v) :: r => if String.eqb k' k then Some v else d_get k r end.
Fixpoint d_put (k : string) (v : B) (d : dict) : dict :=
  match d with [] => [(k, v)] | (k', v') :: r => if String.eqb k' k then (k', v) :: r else (k', v') :: d_put k v r end.
Definition d_rem (k : string) (d : dict) : dict := filter (fun kv => negb (String.eqb (fst kv) k)) d.
End Dict.
Arguments d_get {B}. Arguments d_put {B}. Arguments d_rem {B}.
(** flatten_parameters (132-198); a duplicate warns, the later value stays (194-197) *)
Fixpoint flatten_loop (sep : string) (l : list (list string * param)) (new : dict param) : res (dict param) :=
  match l with
  | [] => Ok new
  | (keys, v) :: r => match join_keys sep keys with Err e => Err e | Ok k => flatten_loop sep r (d_put k v new) end
  end.
Definition flatten_parameters (sep : string) (d : list (string * param)) : res (dict param) :=
  match d with [] => Ok [] | _ => flatten_loop sep (flatten (PDict d) []) [] end.

(** ** OptionsManager (204-296).  The PETSc options database: a dictionary of strings to values *)
Variable B : Type.
Record manager : Type := Mg { mg_prefix : string; mg_params : dict B; mg_delete : list string }.
Definition starts_with (p s : string) : bool := prefix p s.
Definition drop_prefix (p s : string) : string := substring (String.length p) (String.length s - String.length p) s.
(** __init__ (243-272).  [params]: the flattened parameters; [cmd]: commandline_options *)
Definition manager_new (count : string) (cmd : list string) (db params : dict B) (opt_prefix : option string) : manager :=
  match opt_prefix with
  | None => Mg count params (map fst params)
  | Some p0 =>
      let p := if String.eqb p0 "" || ends_with "_" p0 then p0 else p0 ++ "_" in
      let kept := filter (fun kv => negb (existsb (String.eqb (p ++ fst kv)) cmd)) params in
      Mg p (fold_left (fun d kv => if starts_with p (fst kv) then d_put (drop_prefix p (fst kv)) (snd kv) d else d) db kept)
         (map fst kept)
  end.
(** set_default_parameter (274-286) *)
Definition set_default (m : manager) (db : dict B) (k : string) (v : B) : manager :=
  match d_get (mg_prefix m ++ k) db, d_get k (mg_params m) with
  | None, None => Mg (mg_prefix m) (d_put k v (mg_params m)) (if existsb (String.eqb k) (mg_delete m) then mg_delete m else mg_delete m ++ [k])
  | _, _ => m
  end.
(** inserted_options (302-311).  [insert k v]: whether PETSc refuses the value; [body]: the with block;
    deleting an absent option has no effect in PETSc. *)
Fixpoint insert_all (refuses : string -> B -> option exn) (p : string) (l : dict B) (db : dict B) : dict B * option exn :=
  match l with
  | [] => (db, None)
  | (k, v) :: r => match refuses (p ++ k) v with
                   | Some e => (db, Some e)
                   | None => insert_all refuses p r (d_put (p ++ k) v db)
                   end
  end.
Definition delete_all (p : string) (ks : list string) (db : dict B) : dict B := fold_left (fun d k => d_rem (p ++ k) d) ks db.
Definition with_options (refuses : string -> B -> option exn) (m : manager) (body : dict B -> dict B * option exn) (db : dict B)
  : dict B * option exn :=
  match insert_all refuses (mg_prefix m) (mg_params m) db with
  | (db1, Some e) => (delete_all (mg_prefix m) (mg_delete m) db1, Some e)
  | (db1, None) => let '(db2, e) := body db1 in (delete_all (mg_prefix m) (mg_delete m) db2, e)
  end.
End Options.
Arguments PLeaf {A}. Arguments PDict {A}. Arguments d_get {B}. Arguments d_put {B}. Arguments d_rem {B}.
Arguments flatten {A}. Arguments flatten_parameters {A}. Arguments flatten_loop {A}. Arguments Mg {B}. Arguments mg_prefix {B}. Arguments mg_params {B}. Arguments mg_delete {B}.
Arguments manager_new {B}. Arguments set_default {B}. Arguments insert_all {B}. Arguments delete_all {B}. Arguments with_options {B}.
