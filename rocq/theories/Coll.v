(** Model of the small containers: OrderedSet, Enlist, the overloaded-type registry. *)
From Coq Require Import List Arith Bool.
From Verif Require Import Base.
Import ListNotations.

(** * OrderedSet (/repo/pyadjoint/ordered_set.py) *)
Section OSet.
Variable A : Type.
(** Python [==] on hashable elements *)
Variable eqb : A -> A -> bool.

(** ** The dictionary behind an OrderedSet: keys in insertion order (language semantics of dict) *)
Definition has (x : A) (d : list A) : bool := existsb (eqb x) d.
(** [d[x] = None]: an existing key keeps its place *)
Definition d_set (x : A) (d : list A) : list A := if has x d then d else d ++ [x].
(** [del d[x]] *)
Definition d_del (x : A) (d : list A) : list A := filter (fun y => negb (eqb x y)) d.

(** ** Arguments: [Iterable].  A container can be iterated and searched any number of times; an
    iterator (generator, file, map, ...) is consumed by both.  [AFrozen]: a [set]/[frozenset], with
    its elements in its own iteration order.  [ASet s]: another OrderedSet. *)
Inductive arg : Type :=
| AList (l : list A)
| AFrozen (l : list A)
| AIter (l : list A)
| ASet (s : nat).

(** Contents of an argument, and whether it is consumed by use *)
Record iterable : Type := It { it_items : list A; it_once : bool }.

(** Store of OrderedSet objects, by identity *)
Definition sheap := list (list A).
Definition look (h : sheap) (s : nat) : list A := nth s h [].
Definition store_at (h : sheap) (s : nat) (d : list A) : sheap :=
  firstn s h ++ match skipn s h with [] => [] | _ :: r => d :: r end.

Definition resolve (h : sheap) (a : arg) : iterable :=
  match a with
  | AList l => It l false
  | AFrozen l => It l false
  | AIter l => It l true
  | ASet s => It (look h s) false
  end.
(** [isinstance(a, Set)] *)
Definition is_set (a : arg) : bool :=
  match a with AFrozen _ => true | ASet _ => true | _ => false end.

(** [x in it]: an iterator is consumed up to and including the first match *)
Fixpoint consume (x : A) (l : list A) : bool * list A :=
  match l with
  | [] => (false, [])
  | y :: r => if eqb x y then (true, r) else consume x r
  end.
Definition it_contains (x : A) (i : iterable) : bool * iterable :=
  if it_once i then let '(b, r) := consume x (it_items i) in (b, It r true) else (has x (it_items i), i).
(** iterating to the end *)
Definition it_drain (i : iterable) : list A := it_items i.

(** ordered_set.py 5-17 ([__init__]) *)
Definition os_init (i : iterable) : list A := fold_left (fun d x => d_set x d) (it_drain i) [].
(** 19-23, 33-36 *)
Definition os_contains (x : A) (d : list A) : bool := has x d.
Definition os_len (d : list A) : nat := length d.
Definition os_add (x : A) (d : list A) : list A := d_set x d.
(** 38-44 ([remove]) *)
Definition os_remove (x : A) (d : list A) : res (list A) :=
  if os_contains x d then Ok (d_del x d) else Err EKey.
(** 46-52 ([discard]) *)
Definition os_discard (x : A) (d : list A) : list A :=
  if os_contains x d then match os_remove x d with Ok d' => d' | Err _ => d end else d.
(** 57-66 ([union]) *)
Definition os_union (d : list A) (others : list iterable) : list A :=
  fold_left (fun r o => fold_left (fun r x => os_add x r) (it_drain o) r) others d.
(** 74-85 ([difference]) *)
Definition os_difference (d : list A) (others : list iterable) : list A :=
  fold_left (fun r o => fold_left (fun r x => os_discard x r) (it_drain o) r) others d.
(** the inner loop of [intersection] (100-107): stop at the first other without [x] *)
Fixpoint in_all (x : A) (others : list iterable) : bool * list iterable :=
  match others with
  | [] => (true, [])
  | o :: r => match it_contains x o with
              | (false, o') => (false, o' :: r)
              | (true, o') => let '(b, r') := in_all x r in (b, o' :: r')
              end
  end.
(** 93-107 ([intersection]) *)
Definition os_intersection (d : list A) (others : list iterable) : list A :=
  fst (fold_left (fun st x => let '(r, os) := st in
                              let '(b, os') := in_all x os in
                              ((if b then os_add x r else r), os')) d ([], others)).
(** 115-130 ([symmetric_difference]) *)
Definition os_symdiff (d : list A) (other : iterable) : list A :=
  let '(r, o) := fold_left (fun st x => let '(r, o) := st in
                                        let '(b, o') := it_contains x o in
                                        ((if b then r else os_add x r), o')) d ([], other) in
  fold_left (fun r x => if os_contains x d then r else os_add x r) (it_drain o) r.

(** ** Methods inherited from [collections.abc.MutableSet] (standard library) *)
(** [pop]: first element in iteration order, KeyError when empty *)
Definition os_pop (d : list A) : res (A * list A) :=
  match d with [] => Err EKey | x :: _ => Ok (x, os_discard x d) end.
(** [clear]: pop until KeyError; at most [length d] rounds *)
Fixpoint os_clear_loop (n : nat) (d : list A) : list A :=
  match n with
  | 0 => d
  | S n => match os_pop d with Err _ => d | Ok (_, d') => os_clear_loop n d' end
  end.
Definition os_clear (d : list A) : list A := os_clear_loop (length d) d.

Inductive binop : Set := BOr | BSub | BAnd | BXor.

Inductive sop : Type :=
| ONew (a : arg)                       (* OrderedSet(a) *)
| OCopy (s : nat)
| OAdd (s : nat) (x : A)
| ORemove (s : nat) (x : A)
| ODiscard (s : nat) (x : A)
| OPop (s : nat)
| OClear (s : nat)
| OContains (s : nat) (x : A)
| OLen (s : nat)
| OUnion (s : nat) (l : list arg)
| ODiff (s : nat) (l : list arg)
| OInter (s : nat) (l : list arg)
| OSymm (s : nat) (a : arg)
| OBin (o : binop) (s : nat) (a : arg) (* s | a, s - a, s & a, s ^ a *)
| OInpl (o : binop) (s : nat) (a : arg). (* s |= a, s -= a, s &= a, s ^= a *)

(** What a call returns *)
Inductive sres : Type :=
| RNone
| RSet (s : nat)      (* a new OrderedSet *)
| RElem (x : A)
| RBool (b : bool)
| RNat (n : nat).

Definition same_set (s : nat) (a : arg) : bool :=
  match a with ASet s' => s =? s' | _ => false end.

Definition os_bin (o : binop) (d : list A) (i : iterable) : list A :=
  match o with
  | BOr => os_union d [i]
  | BSub => os_difference d [i]
  | BAnd => os_intersection d [i]
  | BXor => os_symdiff d i
  end.

(** [MutableSet.__ior__], [__isub__], [__iand__], [__ixor__] *)
Definition os_inpl (h : sheap) (o : binop) (s : nat) (a : arg) : res (list A) :=
  let d := look h s in
  let i := resolve h a in
  match o with
  | BOr => Ok (fold_left (fun r x => os_add x r) (it_drain i) d)
  | BSub => if same_set s a then Ok (os_clear d)
            else Ok (fold_left (fun r x => os_discard x r) (it_drain i) d)
  | BAnd => if is_set a then Ok (fold_left (fun r x => os_discard x r) (os_bin BSub d i) d) else Err EType
  | BXor => if same_set s a then Ok (os_clear d)
            else let items := if is_set a then it_drain i else os_init i in
                 Ok (fold_left (fun r x => if os_contains x r then os_discard x r else os_add x r) items d)
  end.

Definition alloc (h : sheap) (d : list A) : sheap * res sres := (h ++ [d], Ok (RSet (length h))).

(** One call.  (Calls on objects that do not exist cannot be written in Python; see [okop].) *)
Definition os_step (h : sheap) (o : sop) : sheap * res sres :=
  match o with
  | ONew a => alloc h (os_init (resolve h a))
  | OCopy s => alloc h (look h s)
  | OAdd s x => (store_at h s (os_add x (look h s)), Ok RNone)
  | ORemove s x => match os_remove x (look h s) with
                   | Ok d => (store_at h s d, Ok RNone)
                   | Err e => (h, Err e)
                   end
  | ODiscard s x => (store_at h s (os_discard x (look h s)), Ok RNone)
  | OPop s => match os_pop (look h s) with
              | Ok (x, d) => (store_at h s d, Ok (RElem x))
              | Err e => (h, Err e)
              end
  | OClear s => (store_at h s (os_clear (look h s)), Ok RNone)
  | OContains s x => (h, Ok (RBool (os_contains x (look h s))))
  | OLen s => (h, Ok (RNat (os_len (look h s))))
  | OUnion s l => alloc h (os_union (look h s) (map (resolve h) l))
  | ODiff s l => alloc h (os_difference (look h s) (map (resolve h) l))
  | OInter s l => alloc h (os_intersection (look h s) (map (resolve h) l))
  | OSymm s a => alloc h (os_symdiff (look h s) (resolve h a))
  | OBin o s a => if is_set a then alloc h (os_bin o (look h s) (resolve h a)) else (h, Err EType)
  | OInpl o s a => match os_inpl h o s a with
                   | Ok d => (store_at h s d, Ok (RSet s))
                   | Err e => (h, Err e)
                   end
  end.

Fixpoint os_run (h : sheap) (p : list sop) : sheap * list (res sres) :=
  match p with
  | [] => (h, [])
  | o :: r => let '(h1, x) := os_step h o in
              let '(h2, xs) := os_run h1 r in (h2, x :: xs)
  end.
End OSet.
Arguments AList {A}. Arguments AFrozen {A}. Arguments AIter {A}. Arguments ASet {A}.
Arguments It {A}. Arguments it_items {A}. Arguments it_once {A}.
Arguments ONew {A}. Arguments OCopy {A}. Arguments OAdd {A}. Arguments ORemove {A}. Arguments ODiscard {A}.
Arguments OPop {A}. Arguments OClear {A}. Arguments OContains {A}. Arguments OLen {A}. Arguments OUnion {A}.
Arguments ODiff {A}. Arguments OInter {A}. Arguments OSymm {A}. Arguments OBin {A}. Arguments OInpl {A}.
Arguments RNone {A}. Arguments RSet {A}. Arguments RElem {A}. Arguments RBool {A}. Arguments RNat {A}.
Arguments has {A}. Arguments d_set {A}. Arguments d_del {A}. Arguments os_init {A}. Arguments os_union {A}.
Arguments os_difference {A}. Arguments os_intersection {A}. Arguments os_symdiff {A}. Arguments os_run {A}.
Arguments os_step {A}. Arguments os_add {A}. Arguments os_discard {A}. Arguments os_remove {A}.

(** * Enlist (/repo/pyadjoint/enlisting.py) *)
Section Enl.
Variable A : Type.
(** A Python argument: a list, a tuple or anything else *)
Inductive pyval : Type :=
| PList (l : list A)
| PTuple (l : list A)
| POne (x : A).
(** enlisting.py 1-4 *)
Record enlist : Type := EL { el_items : list A; el_listed : bool }.
Definition mk_enlist (x : pyval) : enlist :=
  match x with
  | PList l => EL l true
  | PTuple l => EL l true
  | POne x => EL [x] false
  end.
End Enl.
Arguments PList {A}. Arguments PTuple {A}. Arguments POne {A}.
Arguments EL {A}. Arguments el_items {A}. Arguments el_listed {A}. Arguments mk_enlist {A}.

(** enlisting.py 6-12 ([delist]); an Enlist is itself a list *)
Definition delist {A B} (e : enlist A) (y : list B) : res (pyval B) :=
  if el_listed e then Ok (PList y)
  else match y with [x] => Ok (POne x) | _ => Err EAssert end.
Definition delist_self {A} (e : enlist A) : res (pyval A) := delist e (el_items e).

(** * Overloaded-type registry (/repo/pyadjoint/overloaded_type.py 5-64) *)
(** Python classes by number; an object has an exact type, and may be an OverloadedType instance. *)
Record pyobj : Type := PO { po_id : nat; po_type : nat; po_over : bool }.
(** the [classes] argument *)
Inductive rclasses : Type :=
| RDefault                      (* None *)
| ROne (t : nat)
| RMany (l : list rclasses).    (* tuple or list *)
Definition registry := list (nat * nat).   (* type -> overloaded class, a dictionary *)

Fixpoint reg_find (t : nat) (r : registry) : option nat :=
  match r with [] => None | (t', c) :: q => if t =? t' then Some c else reg_find t q end.
(** dictionary assignment *)
Fixpoint reg_set (t c : nat) (r : registry) : registry :=
  match r with
  | [] => [(t, c)]
  | (t', c') :: q => if t =? t' then (t, c) :: q else (t', c') :: reg_set t c q
  end.

(** overloaded_type.py 8-9 *)
Definition get_overloaded_class (r : registry) (t : nat) : res nat :=
  match reg_find t r with Some c => Ok c | None => Err EKey end.

(** 42-64 ([register_overloaded_type]); [bases c] = [c.__bases__] *)
Fixpoint register (bases : nat -> list nat) (r : registry) (c : nat) (cl : rclasses) : registry * option exn :=
  match cl with
  | RDefault => match nth_error (bases c) 1 with
                | Some t => (reg_set t c r, None)
                | None => (r, Some EIndex)
                end
  | ROne t => (reg_set t c r, None)
  | RMany l => (fix go r l := match l with
                              | [] => (r, None)
                              | x :: q => match register bases r c x with
                                          | (r', None) => go r' q
                                          | (r', Some e) => (r', Some e)
                                          end
                              end) r l
  end.

(** 12-39 ([create_overloaded_object]); [init c o] = [c._ad_init_object(o)], an oracle.
    Result: the outcome and whether a warning was issued. *)
Definition create_overloaded (init : nat -> pyobj -> res pyobj) (r : registry) (o : pyobj) (suppress : bool) : res pyobj * bool :=
  if po_over o then (Ok o, false)
  else match reg_find (po_type o) r with
       | Some c => (init c o, false)
       | None => (Ok o, negb suppress)
       end.

(** A sequence of registrations, exceptions caught by the caller *)
Definition register_all (bases : nat -> list nat) (r : registry) (l : list (nat * rclasses)) : registry :=
  fold_left (fun r x => fst (register bases r (fst x) (snd x))) l r.
