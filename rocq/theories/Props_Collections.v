(** Property theorems: OrderedSet (C24) and the registry of overloaded types (C30). *)
From Coq Require Import List Arith Bool.
From Verif Require Import Base Coll SpecColl CollFacts.
Import ListNotations.

(** C24: any program of OrderedSet calls behaves as on mathematical sets (results, exceptions, which
    object changes) and no object ever holds a duplicate.  [prog_ok]: objects exist, and intersection
    and symmetric_difference are not given one-shot iterators (see the refutation). *)
Theorem C24_sets : forall (A : Type) (eqb : A -> A -> bool), (forall x y, eqb x y = true <-> x = y) ->
  forall (p : list (sop A)) (h : list (list A)), prog_ok (length h) p -> Forall (@NoDup A) h ->
  let '(h', rs) := os_run eqb h p in
  sp_run (map (fun d x => In x d) h) p (map (fun d x => In x d) h') rs /\ Forall (@NoDup A) h'.
Proof. exact (@os_run_spec). Qed.
Print Assumptions C24_sets.

(** C24: a call returning a new set leaves every existing OrderedSet as it was, including its order. *)
Theorem C24_arguments_untouched : forall (A : Type) (eqb : A -> A -> bool) (h : list (list A)) (o : sop A),
  allocates A o = true -> exists d, fst (os_step eqb h o) = h ++ [d].
Proof. exact (@os_step_alloc). Qed.
Print Assumptions C24_arguments_untouched.

(** C24: iteration order is the order of first mention. *)
Theorem C24_order_of_results : forall (A : Type) (eqb : A -> A -> bool), (forall x y, eqb x y = true <-> x = y) ->
  forall (d : list A) (i : iterable A) (others : list (iterable A)), NoDup d ->
  in_order_of eqb (it_items i) (os_init eqb i) /\
  in_order_of eqb (d ++ flat_map (@it_items A) others) (os_union eqb d others) /\
  in_order_of eqb d (os_difference eqb d others) /\
  (Forall (fun i => it_once i = false) others -> in_order_of eqb d (os_intersection eqb d others)) /\
  (it_once i = false -> in_order_of eqb (d ++ it_items i) (os_symdiff eqb d i)).
Proof. exact (@os_orders). Qed.
Print Assumptions C24_order_of_results.

(** C24: after any history of add and discard, the set holds the live elements in order of the time
    they were last born (added while absent). *)
Theorem C24_order_of_insertion : forall (A : Type) (eqb : A -> A -> bool), (forall x y, eqb x y = true <-> x = y) ->
  forall (h : list (event A)) (d : list A),
  fst (os_run eqb [[]] (map (fun e => match e with EvAdd x => OAdd 0 x | EvDel x => ODiscard 0 x end) h)) = [d] ->
  NoDup d /\ (forall x, In x d <-> exists t, birth eqb h x = Some t) /\
  (forall i j x y, i < j -> nth_error d i = Some x -> nth_error d j = Some y ->
     exists a b, birth eqb h x = Some a /\ birth eqb h y = Some b /\ a < b).
Proof. exact (@os_history_run). Qed.
Print Assumptions C24_order_of_insertion.

(** Without the restriction on iterators the claim is false: [OrderedSet([1,2]).intersection(iter([2,1]))]
    is [{1}], and the symmetric difference of the two is [{2}] instead of empty. *)
Theorem C24_iterator_refuted : exists (d : list nat) (i : iterable nat), NoDup d /\
  (forall x, In x d <-> In x (it_items i)) /\
  os_intersection Nat.eqb d [i] = [1] /\ os_symdiff Nat.eqb d i = [2] /\ In 2 d /\ In 2 (it_items i).
Proof.
  exists [1; 2], (It [2; 1] true). cbn. repeat split; auto; try tauto.
  repeat constructor; cbn; intuition congruence.
Qed.
Print Assumptions C24_iterator_refuted.

(** Tests of the hypotheses: three objects, discard and re-add moves 5 to the end, remove raises. *)
Example C24_demo :
  let p := [ONew (AList [5; 6; 5; 7]); ONew (AIter [7; 8; 8]); ODiscard 0 5; OAdd 0 5; OUnion 0 [ASet 1; AIter [9; 6]];
            OInter 0 [ASet 1]; ORemove 0 42; OInpl BXor 0 (ASet 0); OBin BAnd 1 (AList [7])] in
  prog_ok 0 p /\ os_run Nat.eqb [] p =
    ([[]; [7; 8]; [6; 7; 5; 8; 9]; [7]],
     [Ok (RSet 0); Ok (RSet 1); Ok RNone; Ok RNone; Ok (RSet 2); Ok (RSet 3); Err EKey; Ok (RSet 0); Err EType]).
Proof.
  split; [|reflexivity]. cbn. repeat split; repeat constructor.
Qed.

(** C30: after any sequence of registrations (starting from any registry) the class for type [t] is the
    one last registered for it. *)
Theorem C30_last_registration : forall (bases : nat -> list nat) (l : list (nat * rclasses)) (r : registry) (t : nat),
  reg_find t (register_all bases r l) = match last_asked bases l t with Some c => Some c | None => reg_find t r end.
Proof. exact register_all_find. Qed.
Print Assumptions C30_last_registration.

(** C30: conversion: identity on overloaded objects; the last registered class decides for the exact
    type; other objects pass through, with a warning unless suppressed. *)
Theorem C30_dispatch : forall (bases : nat -> list nat) (init : nat -> pyobj -> res pyobj) (l : list (nat * rclasses)) (o : pyobj) (suppress : bool),
  (po_over o = true -> create_overloaded init (register_all bases [] l) o suppress = (Ok o, false)) /\
  (po_over o = false -> forall c, last_asked bases l (po_type o) = Some c ->
     create_overloaded init (register_all bases [] l) o suppress = (init c o, false)) /\
  (po_over o = false -> last_asked bases l (po_type o) = None ->
     create_overloaded init (register_all bases [] l) o suppress = (Ok o, negb suppress)).
Proof. exact create_spec. Qed.
Print Assumptions C30_dispatch.

(** get_overloaded_class: the class registered last, KeyError for types never registered. *)
Theorem C30_class : forall (bases : nat -> list nat) (l : list (nat * rclasses)) (t : nat),
  get_overloaded_class (register_all bases [] l) t = match last_asked bases l t with Some c => Ok c | None => Err EKey end.
Proof. exact class_spec. Qed.
Print Assumptions C30_class.

(** Type 7 is registered three times (default base, list, alone): the last class wins. *)
Example C30_demo :
  let bases := fun c => if c =? 1 then [0; 7] else [0] in
  let l := [(1, RDefault); (2, RMany [ROne 7; RMany [ROne 8]]); (3, ROne 7); (4, RMany [ROne 9; RDefault; ROne 7])] in
  last_asked bases l 7 = Some 3 /\ last_asked bases l 8 = Some 2 /\ last_asked bases l 9 = Some 4 /\ last_asked bases l 5 = None /\
  create_overloaded (fun c o => Ok (PO (po_id o) c true)) (register_all bases [] l) (PO 11 7 false) false = (Ok (PO 11 3 true), false).
Proof. repeat split. Qed.
