(** Tape.create_graph (/repo/pyadjoint/tape.py 681-686) and Block.create_graph (/repo/pyadjoint/block.py 402-425): the tape as a
    networkx.DiGraph.  No proofs here.

    A DiGraph is modelled by its nodes with their attribute dictionaries in insertion order, and its edges in insertion order;
    add_edge adds missing nodes with no attributes, and is without effect for an edge that is there; G.nodes[n] raises KeyError
    for a missing node.  Positions are kept in tenths (x) and halves (y).  The colour and shape attributes, which are set
    together with the label, are folded into "is a block". *)
From Coq Require Import List Arith ZArith Bool.
From Verif Require Import Base Model Record.
Import ListNotations.

(** [id(dep)], [id(self)] of a variable and of block number [i]. *)
Inductive node : Set := NVar (v : nat) | NBlk (i : nat).
Definition node_eqb (a b : node) : bool :=
  match a, b with NVar u, NVar v => Nat.eqb u v | NBlk i, NBlk j => Nat.eqb i j | _, _ => false end.

Section Export.
Context {V : Type}.

(** What [str] gives: a number; an operator between numbers (adjfloat.py 348, 615); a block's default representation. *)
Inductive label : Type := LNum (x : V) | LTerm (k : kind V) (xs : list V) | LBlock (i : nat).
Record attr : Type := Attr { at_label : label; at_x : nat; at_y : Z; at_block : bool }.
Record graph : Type := Graph { g_nodes : list (node * option attr); g_edges : list (node * node) }.
Definition graph_new : graph := Graph [] [].

Definition find_node (n : node) (g : graph) : option (option attr) :=
  option_map snd (find (fun p => node_eqb (fst p) n) (g_nodes g)).
Definition add_node (n : node) (g : graph) : graph :=
  match find_node n g with Some _ => g | None => Graph (g_nodes g ++ [(n, None)]) (g_edges g) end.
Definition has_edge (a b : node) (g : graph) : bool := existsb (fun e => node_eqb (fst e) a && node_eqb (snd e) b) (g_edges g).
Definition add_edge (a b : node) (g : graph) : graph :=
  let g1 := add_node b (add_node a g) in
  if has_edge a b g1 then g1 else Graph (g_nodes g1) (g_edges g1 ++ [(a, b)]).
Definition set_attr (n : node) (a : attr) (g : graph) : res graph :=
  match find_node n g with
  | None => Err EKey
  | Some _ => Ok (Graph (map (fun p => if node_eqb (fst p) n then (fst p, Some a) else p) (g_nodes g)) (g_edges g))
  end.

(** AdjFloat._ad_str through BlockVariable.__str__ (adjfloat.py 128-131, block_variable.py 85-86): the stored value of the
    current block variable of the variable's object. *)
Definition shown (w : world V) (h : heap V) (v : nat) : V :=
  match nth_error (w_objs w) (bv_obj (h v)) with
  | Some ob => match o_bv ob with Some u => saved h u | None => o_val ob end
  | None => bv_out (h v)
  end.
Definition block_str (show : nat -> V) (i : nat) (b : block V) : res label :=
  match b_kind b with
  | KAdd | KSub | KMul | KDiv | KPow => do x <- nth_res (b_deps b) 0; do y <- nth_res (b_deps b) 1; Ok (LTerm (b_kind b) [show x; show y])
  | KNeg => do x <- nth_res (b_deps b) 0; Ok (LTerm (b_kind b) [show x])
  | _ => Ok (LBlock i)
  end.

(** [if "label" not in G.nodes[n]: ...] *)
Definition set_new (n : node) (a : attr) (g : graph) : res graph :=
  match find_node n g with
  | None => Err EKey
  | Some (Some _) => Ok g
  | Some None => set_attr n a g
  end.
Fixpoint dep_edges (show : nat -> V) (i x : nat) (ds : list nat) (g : graph) : res graph :=
  match ds with
  | [] => Ok g
  | d :: r => do g1 <- set_new (NVar d) (Attr (LNum (show d)) x (1 - 2 * Z.of_nat i) false) (add_edge (NVar d) (NBlk i) g);
              dep_edges show i (S x) r g1
  end.
Fixpoint out_edges (show : nat -> V) (i x : nat) (os : list nat) (g : graph) : res graph :=
  match os with
  | [] => Ok g
  | o :: r => do g1 <- set_new (NVar o) (Attr (LNum (show o)) x (-1 - 2 * Z.of_nat i) false) (add_edge (NBlk i) (NVar o) g);
              out_edges show i (S x) r g1
  end.
Definition block_graph (show : nat -> V) (i : nat) (b : block V) (g : graph) : res graph :=
  do g1 <- dep_edges show i 0 (b_deps b) g;
  do g2 <- out_edges show i 0 (b_outs b) g1;
  do l <- block_str show i b;
  set_attr (NBlk i) (Attr l 0 (- 2 * Z.of_nat i) true) g2.
Fixpoint blocks_graph (show : nat -> V) (i : nat) (bs : list (block V)) (g : graph) : res graph :=
  match bs with
  | [] => Ok g
  | b :: r => do g1 <- block_graph show i b g; blocks_graph show (S i) r g1
  end.
Definition create_graph (w : world V) (h : heap V) : res graph := blocks_graph (shown w h) 0 (t_flat (w_tape w)) graph_new.
End Export.
Arguments label V : clear implicits.
Arguments attr V : clear implicits.
Arguments graph V : clear implicits.
