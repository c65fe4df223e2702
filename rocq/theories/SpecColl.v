(** Specification of the containers: mathematical sets, order of first mention, registrations. *)
From Coq Require Import List Arith Bool.
From Verif Require Import Base Coll.
Import ListNotations.

Section SetSpec.
Variable A : Type.
Variable eqb : A -> A -> bool.
Definition mset := A -> Prop.
Definition same (P Q : mset) : Prop := forall x, P x <-> Q x.
Definition get (st : list mset) (s : nat) : mset := nth s st (fun _ => False).
Definition of_arg (st : list mset) (a : arg A) : mset :=
  match a with
  | AList l | AFrozen l | AIter l => fun x => In x l
  | ASet s => get st s
  end.
(** a new object; nothing else changes *)
Definition fresh (st st' : list mset) (r : res (sres A)) (P : mset) : Prop :=
  exists Q, same Q P /\ st' = st ++ [Q] /\ r = Ok (RSet (length st)).
(** the receiver changes; nothing else does *)
Definition becomes (st st' : list mset) (s : nat) (P : mset) : Prop :=
  exists Q, same Q P /\ st' = firstn s st ++ Q :: skipn (S s) st.
Definition set_op (o : binop) (P Q : mset) : mset :=
  match o with
  | BOr => fun x => P x \/ Q x
  | BSub => fun x => P x /\ ~ Q x
  | BAnd => fun x => P x /\ Q x
  | BXor => fun x => (P x /\ ~ Q x) \/ (~ P x /\ Q x)
  end.
Definition set_arg (a : arg A) : Prop :=
  match a with AFrozen _ | ASet _ => True | _ => False end.

Definition sp_step (st : list mset) (o : sop A) (st' : list mset) (r : res (sres A)) : Prop :=
  match o with
  | ONew a => fresh st st' r (of_arg st a)
  | OCopy s => fresh st st' r (get st s)
  | OAdd s x => becomes st st' s (fun y => get st s y \/ y = x) /\ r = Ok RNone
  | ORemove s x => (get st s x /\ becomes st st' s (fun y => get st s y /\ y <> x) /\ r = Ok RNone)
                   \/ (~ get st s x /\ st' = st /\ r = Err EKey)
  | ODiscard s x => becomes st st' s (fun y => get st s y /\ y <> x) /\ r = Ok RNone
  | OPop s => (exists x, get st s x /\ becomes st st' s (fun y => get st s y /\ y <> x) /\ r = Ok (RElem x))
              \/ ((forall x, ~ get st s x) /\ st' = st /\ r = Err EKey)
  | OClear s => becomes st st' s (fun _ => False) /\ r = Ok RNone
  | OContains s x => st' = st /\ ((get st s x /\ r = Ok (RBool true)) \/ (~ get st s x /\ r = Ok (RBool false)))
  | OLen s => st' = st /\ exists l, NoDup l /\ (forall x, In x l <-> get st s x) /\ r = Ok (RNat (length l))
  | OUnion s l => fresh st st' r (fun x => get st s x \/ exists a, In a l /\ of_arg st a x)
  | ODiff s l => fresh st st' r (fun x => get st s x /\ forall a, In a l -> ~ of_arg st a x)
  | OInter s l => fresh st st' r (fun x => get st s x /\ forall a, In a l -> of_arg st a x)
  | OSymm s a => fresh st st' r (set_op BXor (get st s) (of_arg st a))
  | OBin o s a => (set_arg a /\ fresh st st' r (set_op o (get st s) (of_arg st a)))
                  \/ (~ set_arg a /\ st' = st /\ r = Err EType)
  | OInpl o s a => (becomes st st' s (set_op o (get st s) (of_arg st a)) /\ r = Ok (RSet s))
                   \/ (o = BAnd /\ ~ set_arg a /\ st' = st /\ r = Err EType)
  end.

Inductive sp_run : list mset -> list (sop A) -> list mset -> list (res (sres A)) -> Prop :=
| sp_nil : forall st, sp_run st [] st []
| sp_cons : forall st o r st1 p rs st2,
    sp_step st o st1 r -> sp_run st1 p st2 rs -> sp_run st (o :: p) st2 (r :: rs).

(** Calls that can be written: receivers and arguments exist ([n] objects exist so
    far), a built-in set has no duplicates.
    [intersection] and [symmetric_difference] get containers, not one-shot iterators. *)
Definition arg_ok (n : nat) (a : arg A) : Prop := match a with ASet s => s < n | AFrozen l => NoDup l | _ => True end.
Definition container (a : arg A) : Prop := match a with AIter _ => False | _ => True end.
Definition op_ok (n : nat) (o : sop A) : Prop :=
  match o with
  | ONew a => arg_ok n a
  | OCopy s | OPop s | OClear s | OLen s => s < n
  | OAdd s _ | ORemove s _ | ODiscard s _ | OContains s _ => s < n
  | OUnion s l | ODiff s l => s < n /\ Forall (arg_ok n) l
  | OInter s l => s < n /\ Forall (arg_ok n) l /\ Forall container l
  | OSymm s a => s < n /\ arg_ok n a /\ container a
  | OBin _ s a | OInpl _ s a => s < n /\ arg_ok n a
  end.
(** Calls returning a new object *)
Definition allocates (o : sop A) : bool :=
  match o with
  | ONew _ | OCopy _ | OUnion _ _ | ODiff _ _ | OInter _ _ | OSymm _ _ => true
  | OBin _ _ a => is_set A a
  | _ => false
  end.
Fixpoint prog_ok (n : nat) (p : list (sop A)) : Prop :=
  match p with
  | [] => True
  | o :: r => op_ok n o /\ prog_ok (if allocates o then S n else n) r
  end.

(** ** Iteration order *)
(** position of the first occurrence of [x] in [l] *)
Fixpoint first_pos (x : A) (l : list A) : option nat :=
  match l with
  | [] => None
  | y :: r => if eqb x y then Some 0 else option_map S (first_pos x r)
  end.
(** [r] lists elements in the order in which they first occur in [l] *)
Definition in_order_of (l r : list A) : Prop :=
  forall i j x y, i < j -> nth_error r i = Some x -> nth_error r j = Some y ->
    exists a b, first_pos x l = Some a /\ first_pos y l = Some b /\ a < b.

(** The life of one element under additions and removals: the time at which it was last born *)
Inductive event : Type := EvAdd (x : A) | EvDel (x : A).
Fixpoint born (i : nat) (cur : option nat) (h : list event) (x : A) : option nat :=
  match h with
  | [] => cur
  | EvAdd y :: r => born (S i) (if eqb x y then match cur with None => Some i | c => c end else cur) r x
  | EvDel y :: r => born (S i) (if eqb x y then None else cur) r x
  end.
Definition birth (h : list event) (x : A) : option nat := born 0 None h x.
End SetSpec.
Arguments EvAdd {A}. Arguments EvDel {A}. Arguments birth {A}. Arguments in_order_of {A}. Arguments first_pos {A}.
Arguments sp_run {A}. Arguments sp_step {A}. Arguments prog_ok {A}. Arguments container {A}.

(** ** Registrations: the (type, class) pairs a call asks for, in order, up to the first bad default *)
Section RegSpec.
Variable bases : nat -> list nat.
(** the types named by a [classes] argument; [None]: a default without second base is reached *)
Fixpoint named (c : nat) (cl : rclasses) : list (option nat) :=
  match cl with
  | RDefault => [nth_error (bases c) 1]
  | ROne t => [Some t]
  | RMany l => flat_map (named c) l
  end.
Fixpoint upto (l : list (option nat)) : list nat :=
  match l with Some t :: r => t :: upto r | _ => [] end.
Definition asked (x : nat * rclasses) : list (nat * nat) := map (fun t => (t, fst x)) (upto (named (fst x) (snd x))).
(** the class last asked for type [t] *)
Definition last_asked (l : list (nat * rclasses)) (t : nat) : option nat :=
  match filter (fun tc => fst tc =? t) (rev (flat_map asked l)) with
  | [] => None
  | (_, c) :: _ => Some c
  end.
End RegSpec.
