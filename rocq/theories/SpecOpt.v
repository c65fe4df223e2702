(** Specification of the NumPy view, of constraints and of bounds. *)
From Coq Require Import List Arith Bool.
From Verif Require Import Base Opt.
Import ListNotations.

(** ** Packing *)
Section Pack.
Context {V S : Type}.
(** The documented contract of an overloaded type: [ok] its values, [comp v] their scalars. *)
Definition lawful (c : ctype V S) (ok : V -> Prop) (comp : V -> list S) : Prop :=
  (forall v, ok v -> length (comp v) = ct_size c /\ ct_list c v = Ok (comp v) /\ ct_copy c v = Ok v /\ ct_make c (comp v) = Ok v) /\
  (forall l, length l = ct_size c -> exists v, ok v /\ comp v = l) /\
  (forall l, length l < ct_size c -> exists e, ct_make c l = Err e).
(** a control with its type, its values and their components *)
Record ctl : Type := Ctl { k_type : ctype V S; k_ok : V -> Prop; k_comp : V -> list S }.
Definition law (k : ctl) : Prop := lawful (k_type k) (k_ok k) (k_comp k).
Definition types (ks : list ctl) : list (ctype V S) := map k_type ks.
(** [vs] are values of the controls, [arr] their components one control after the other *)
Inductive packed : list ctl -> list V -> list S -> Prop :=
| packed_nil : packed [] [] []
| packed_cons k ks v vs arr : k_ok k v -> packed ks vs arr -> packed (k :: ks) (v :: vs) (k_comp k v ++ arr).
(** first scalar of control [i]: the sizes of the controls before it *)
Fixpoint offset (ks : list ctl) (i : nat) : nat :=
  match i, ks with
  | 0, _ => 0
  | Datatypes.S i', k :: r => ct_size (k_type k) + offset r i'
  | _, [] => 0
  end.
Definition total (ks : list ctl) : nat := offset ks (length ks).
End Pack.
Arguments ctl : clear implicits.

(** ** Constraints *)
Section Con.
Context {M D S W row : Type}.
Notation con := (con M D S W row).
Notation leaf := (leaf M D S W row).
(** every user constraint in a nested constraint, left to right *)
Fixpoint leaves (c : con) : list (cls * leaf) :=
  match c with
  | CLeaf k l => [(k, l)]
  | CMerged cs | CSeq cs => flat_map leaves cs
  end.
(** [cs] is an order-preserving interleaving of [a] and [b] *)
Inductive interleaving {A} : list A -> list A -> list A -> Prop :=
| il_nil : interleaving [] [] []
| il_left x cs a b : interleaving cs a b -> interleaving (x :: cs) (x :: a) b
| il_right x cs a b : interleaving cs a b -> interleaving (x :: cs) a (x :: b).
(** a list of equality and inequality constraints, nothing nested *)
Definition plain (c : con) : Prop := exists k l, c = CLeaf k l /\ k <> IsPlain.
(** What the user passes for the constraints [cs]: a list, a MergedConstraints, or the only one. *)
Definition given_as (c : con) (cs : list con) : Prop := c = CSeq cs \/ c = CMerged cs \/ exists k l, c = CLeaf k l /\ cs = [c].
(** no Python list in place of a constraint *)
Fixpoint no_seq (c : con) : Prop :=
  match c with
  | CLeaf _ _ => True
  | CMerged cs => fold_right (fun c P => no_seq c /\ P) True cs
  | CSeq _ => False
  end.
(** as many components as the workspace says *)
Definition dim_ok (l : leaf) : Prop := forall m, length (lf_fun l m) = lf_dim l.
Fixpoint rows (j : jtree row) : list row :=
  match j with JRows r => r | JList l => flat_map rows l end.
Fixpoint comps (t : vtree S) : list S :=
  match t with VLeaf d => d | VNode l => flat_map comps l end.
(** [dp] has the structure of the constraint; [pieces] pairs the leaves with their parts *)
Inductive pieces : con -> vtree S -> list (leaf * list S) -> Prop :=
| pc_leaf k l d : pieces (CLeaf k l) (VLeaf d) [(l, d)]
| pc_merged cs ds ps : pieces_list cs ds ps -> pieces (CMerged cs) (VNode ds) ps
with pieces_list : list con -> list (vtree S) -> list (leaf * list S) -> Prop :=
| pl_nil : pieces_list [] [] []
| pl_cons c cs d ds p ps : pieces c d p -> pieces_list cs ds ps -> pieces_list (c :: cs) (d :: ds) (p ++ ps).
(** upper bounds of a constraint's components: zero for an equality, infinity for an inequality *)
Definition ub_of (s0 : S) (p : cls * leaf) : list (ext S) := repeat (match fst p with IsEq => Fin s0 | _ => PInf end) (lf_dim (snd p)).
End Con.

(** ** Bounds *)
Section Bnd.
Context {V S : Type}.
Notation bnd := (@bnd V S).
(** "Each entry must be a tuple (lb, ub), where ub and lb are floats, or objects of the same kind as the
    control" (optimization_problem.py 24-28), None for no bound *)
Definition entry_ok (klass : nat) (b : bnd) : Prop :=
  b = BNone \/ (exists x, b = BInt x) \/ (exists x, b = BFloat x) \/ (exists v, b = BObj klass v) \/ (exists l, b = BRaw klass l).
Definition pair_ok (klass : nat) (b : bnd) : Prop :=
  (exists lo up, b = BSeq [lo; up] /\ entry_ok klass lo /\ entry_ok klass up) \/ (exists k x y, b = BRaw k [x; y]).
Definition well_shaped (klasses : list nat) (b : @pybounds V S) : Prop :=
  b = PBNone \/
  (exists k lo up, klasses = [k] /\ b = PBSeq [lo; up] /\ entry_ok k lo /\ entry_ok k up /\
     (forall j l, lo <> BRaw j l /\ up <> BRaw j l)) \/
  (exists l, b = PBSeq l /\ Forall2 pair_ok klasses l).

(** The bound on each scalar of a control: the number, the component of the object, or none. *)
Inductive scalar_bounds (k : ctl V S) : bnd -> list (option S) -> Prop :=
| sb_none : scalar_bounds k BNone (repeat None (ct_size (k_type k)))
| sb_int x : scalar_bounds k (BInt x) (repeat (Some x) (ct_size (k_type k)))
| sb_float x : scalar_bounds k (BFloat x) (repeat (Some x) (ct_size (k_type k)))
| sb_obj c v : k_ok k v -> scalar_bounds k (BObj c v) (map Some (k_comp k v)).
(** control by control *)
Inductive bounds_of : list (ctl V S) -> list bnd -> list (option S) -> Prop :=
| bo_nil : bounds_of [] [] []
| bo_cons k ks b bs x y : scalar_bounds k b x -> bounds_of ks bs y -> bounds_of (k :: ks) (b :: bs) (x ++ y).
(** the serialisers see the same controls *)
Definition sees (ks : list (ctl V S)) (cs : list (@bctrl V S)) : Prop := Forall2 (fun k c => bc_type c = k_type k) ks cs.
Definition or_default (d : S) (o : option S) : S := match o with Some x => x | None => d end.
End Bnd.
