(** The computational core: block variables, blocks, sweeps over a block list, drivers and the
    reduced functional.  No proofs here.  Line numbers refer to /repo/pyadjoint. *)
From Coq Require Import List Arith ZArith Lia Bool.
From Verif Require Import Base.
Import ListNotations.

Section Core.
Context {V : Type} (F : fops V).

(** ** Block variables: block_variable.py 4-96 *)

(** BlockVariable.__init__ (block_variable.py 9-22).
    [bv_out]: current value of the [output] object (several block variables may share one object,
    [bv_obj]); [bv_ckpt]: the private attribute [_checkpoint]; [bv_raw]: the stored checkpoint is
    a plain Python number, not an OverloadedType instance (only read by the checkpoint manager);
    [bv_gen], [bv_rec]: ghosts, how many times the object had been modified in place and its value
    when the block variable was created (never read by the modelled code, used in invariants).
    [floating_type] is not modelled: nothing reads it. *)
Record bvar : Type := BV {
  bv_obj : nat;
  bv_gen : nat;
  bv_rec : V;
  bv_out : V;
  bv_adj : option V;
  bv_tlm : option V;
  bv_hess : option V;
  bv_ckpt : option V;
  bv_raw : bool;
  bv_ctrl : bool;
  bv_mark : bool;
  bv_created : Z;
  bv_last : Z
}.

Definition bv_new (o g : nat) (x : V) : bvar :=
  BV o g x x None None None None false false false (-1) (-1).

Definition set_out (x : V) (b : bvar) :=
  BV (bv_obj b) (bv_gen b) (bv_rec b) x (bv_adj b) (bv_tlm b) (bv_hess b) (bv_ckpt b) (bv_raw b) (bv_ctrl b) (bv_mark b) (bv_created b) (bv_last b).
Definition set_adj (x : option V) (b : bvar) :=
  BV (bv_obj b) (bv_gen b) (bv_rec b) (bv_out b) x (bv_tlm b) (bv_hess b) (bv_ckpt b) (bv_raw b) (bv_ctrl b) (bv_mark b) (bv_created b) (bv_last b).
Definition set_tlm (x : option V) (b : bvar) :=
  BV (bv_obj b) (bv_gen b) (bv_rec b) (bv_out b) (bv_adj b) x (bv_hess b) (bv_ckpt b) (bv_raw b) (bv_ctrl b) (bv_mark b) (bv_created b) (bv_last b).
Definition set_hess (x : option V) (b : bvar) :=
  BV (bv_obj b) (bv_gen b) (bv_rec b) (bv_out b) (bv_adj b) (bv_tlm b) x (bv_ckpt b) (bv_raw b) (bv_ctrl b) (bv_mark b) (bv_created b) (bv_last b).
(** Assignment to the private attribute [_checkpoint]. *)
Definition set_ckpt (x : option V) (raw : bool) (b : bvar) :=
  BV (bv_obj b) (bv_gen b) (bv_rec b) (bv_out b) (bv_adj b) (bv_tlm b) (bv_hess b) x raw (bv_ctrl b) (bv_mark b) (bv_created b) (bv_last b).
Definition set_ctrl (c : bool) (b : bvar) :=
  BV (bv_obj b) (bv_gen b) (bv_rec b) (bv_out b) (bv_adj b) (bv_tlm b) (bv_hess b) (bv_ckpt b) (bv_raw b) c (bv_mark b) (bv_created b) (bv_last b).
Definition set_mark (m : bool) (b : bvar) :=
  BV (bv_obj b) (bv_gen b) (bv_rec b) (bv_out b) (bv_adj b) (bv_tlm b) (bv_hess b) (bv_ckpt b) (bv_raw b) (bv_ctrl b) m (bv_created b) (bv_last b).
Definition set_times (c l : Z) (b : bvar) :=
  BV (bv_obj b) (bv_gen b) (bv_rec b) (bv_out b) (bv_adj b) (bv_tlm b) (bv_hess b) (bv_ckpt b) (bv_raw b) (bv_ctrl b) (bv_mark b) c l.

(** The property [checkpoint]'s setter (block_variable.py 92-96): ignored for a control. *)
Definition put_ckpt (x : option V) (raw : bool) (b : bvar) :=
  if bv_ctrl b then b else set_ckpt x raw b.

(** add_adj_output / add_tlm_output / add_hessian_output (24-40). *)
Definition accum (o : option V) (x : V) : option V :=
  match o with
  | None => Some x
  | Some a => Some (f_add F a x)
  end.
Definition add_adj (x : V) (b : bvar) := set_adj (accum (bv_adj b) x) b.
Definition add_tlm (x : V) (b : bvar) := set_tlm (accum (bv_tlm b) x) b.
Definition add_hess (x : V) (b : bvar) := set_hess (accum (bv_hess b) x) b.

(** save_output (52-55). *)
Definition save_output (overwrite : bool) (b : bvar) :=
  if overwrite || negb (is_some (bv_ckpt b)) then set_ckpt (Some (bv_out b)) false b else b.

(** Heap of block variables; Python identity is number equality. *)
Definition heap := nat -> bvar.
Definition upd (h : heap) (v : nat) (f : bvar -> bvar) : heap :=
  fun w => if Nat.eqb w v then f (h w) else h w.
(** [for v in l: f(v)]. *)
Fixpoint upd_all (h : heap) (l : list nat) (f : bvar -> bvar) : heap :=
  match l with
  | [] => h
  | v :: r => upd_all (upd h v f) r f
  end.

(** saved_output (57-62); for floats _ad_restore_at_checkpoint is the identity (adjfloat.py 103). *)
Definition saved (h : heap) (v : nat) : V :=
  match bv_ckpt (h v) with Some x => x | None => bv_out (h v) end.

(** ** Blocks: block.py, adjfloat.py *)

(** A user-defined Block subclass: its component methods as pure functions of their arguments
    (results of prepare_* are folded in).  [None] results are allowed, as in block.py 144, 224,
    298, 362.  In [u_hess] the last argument lists (index, tlm value) of the relevant
    dependencies, the information a component can read from [relevant_dependencies]. *)
Record ublock : Type := {
  u_recompute : list V -> nat -> res (option V);
  u_adj : list V -> list (option V) -> nat -> res (option V);
  u_tlm : list V -> list (option V) -> nat -> res (option V);
  u_hess : list V -> list (option V) -> list (option V) -> nat -> list (nat * option V) -> res (option V)
}.

(** The block classes of adjfloat.py and a generic user class. *)
Inductive kind : Type :=
| KAdd | KSub | KMul | KDiv | KPow | KNeg | KExp | KLog | KMin | KMax
| KUser (u : ublock).

(** A recorded block.  For the operator blocks [terms] = [_dependencies] (adjfloat.py 340-342). *)
Record block : Type := Blk {
  b_kind : kind;
  b_deps : list nat;
  b_outs : list nat;
  b_tag : option nat
}.

Definition nth_res {A} (l : list A) (i : nat) : res A :=
  match nth_error l i with Some x => Ok x | None => Err EIndex end.

(** Python's min/max of two floats: the first argument on ties. *)
Definition py_min (a b : V) := if f_lt F b a then b else a.
Definition py_max (a b : V) := if f_lt F a b then b else a.

(** recompute_component (adjfloat.py 203, 228, 298, 324, 344; operators 353, 435, 458, 486, 517, 599).
    [_min]/[_max] are Python's, exp/log those of math. *)
Definition comp_recompute (k : kind) (xs : list V) (idx : nat) : res (option V) :=
  match k with
  | KAdd => do a <- nth_res xs 0; do b <- nth_res xs 1; Ok (Some (f_add F a b))
  | KSub => do a <- nth_res xs 0; do b <- nth_res xs 1; Ok (Some (f_sub F a b))
  | KMul => do a <- nth_res xs 0; do b <- nth_res xs 1; Ok (Some (f_mul F a b))
  | KDiv => do a <- nth_res xs 0; do b <- nth_res xs 1; do r <- f_div F a b; Ok (Some r)
  | KPow => do a <- nth_res xs 0; do b <- nth_res xs 1; do r <- f_pow F a b; Ok (Some r)
  | KNeg => do a <- nth_res xs 0; Ok (Some (f_neg F a))
  | KExp => do a <- nth_res xs 0; do r <- f_exp F a; Ok (Some r)
  | KLog => do a <- nth_res xs 0; do r <- f_log F a; Ok (Some r)
  | KMin => do a <- nth_res xs 0; do b <- nth_res xs 1; Ok (Some (py_min a b))
  | KMax => do a <- nth_res xs 0; do b <- nth_res xs 1; Ok (Some (py_max a b))
  | KUser u => u_recompute u xs idx
  end.

(** Whether the recomputed value is a plain Python number: exp/log return math.exp's float
    (203, 228); operator blocks convert with _ad_convert_type (346); min/max return one of their
    inputs (treated as overloaded here); user blocks are assumed to return overloaded values. *)
Definition raw_result (k : kind) : bool :=
  match k with KExp | KLog => true | _ => false end.

(** Block.recompute (block.py 330-363), called without markings everywhere in the repo. *)
Definition recompute_block (h : heap) (b : block) : heap * option exn :=
  if existsb (fun o => bv_ctrl (h o)) (b_outs b) then (h, None)
  else
    let inputs := map (saved h) (b_deps b) in
    iter_o (fun h' io =>
              match comp_recompute (b_kind b) inputs (fst io) with
              | Err e => (h', Some e)
              | Ok None => (h', None)
              | Ok (Some x) => (upd h' (snd io) (put_ckpt (Some x) (raw_result (b_kind b))), None)
              end) (enum (b_outs b)) h.

(** An adjoint/tlm argument that must be a number: None raises TypeError. *)
Definition need (o : option V) : res V := match o with Some x => Ok x | None => Err EType end.
Definition need_nth (l : list (option V)) (i : nat) : res V := do o <- nth_res l i; need o.

(** evaluate_adj_component of each class (adjfloat.py 187, 212, 282, 308, 356, 438, 461, 489, 520, 602). *)
Definition comp_adj (k : kind) (xs : list V) (adjs : list (option V)) (idx : nat) : res (option V) :=
  match k with
  | KAdd => nth_res adjs 0
  | KSub => if Nat.eqb idx 0 then nth_res adjs 0
            else do a <- need_nth adjs 0; Ok (Some (f_neg F a))
  | KMul => do a <- need_nth adjs 0;
            do x <- nth_res xs (if Nat.eqb idx 1 then 0 else 1);
            Ok (Some (f_mul F a x))
  | KDiv => do a <- need_nth adjs 0;
            do x0 <- nth_res xs 0; do x1 <- nth_res xs 1;
            if Nat.eqb idx 0 then
              do r <- f_div F (f_one F) x1; Ok (Some (f_mul F a r))
            else
              do p <- f_pow F x1 (f_two F); do q <- f_div F x0 p;
              Ok (Some (f_mul F a (f_neg F q)))
  | KPow => do a <- need_nth adjs 0;
            do x0 <- nth_res xs 0; do x1 <- nth_res xs 1;
            if Nat.eqb idx 0 then
              do p <- f_pow F x0 (f_sub F x1 (f_one F));
              Ok (Some (f_mul F (f_mul F a x1) p))
            else
              do p <- f_pow F x0 x1;
              Ok (Some (f_mul F (f_mul F a (f_nplog F x0)) p))
  | KNeg => do a <- need_nth adjs 0; Ok (Some (f_neg F a))
  | KExp => do a <- need_nth adjs 0; do x <- nth_res xs 0;
            do e <- f_exp F x; Ok (Some (f_mul F e a))
  | KLog => do a <- need_nth adjs 0; do x <- nth_res xs 0;
            do r <- f_div F a x; Ok (Some r)
  | KMin => do x0 <- nth_res xs 0; do x1 <- nth_res xs 1;
            let act := if f_le F x0 x1 then 0 else 1 in
            if Nat.eqb idx act then nth_res adjs 0 else Ok (Some (f_zero F))
  | KMax => do x0 <- nth_res xs 0; do x1 <- nth_res xs 1;
            let act := if f_le F x1 x0 then 0 else 1 in
            if Nat.eqb idx act then nth_res adjs 0 else Ok (Some (f_zero F))
  | KUser u => u_adj u xs adjs idx
  end.

(** [(i, bv) for i, bv in enumerate(l) if bv.marked_in_path or not markings]. *)
Definition relevant (h : heap) (markings : bool) (l : list nat) : list (nat * nat) :=
  filter (fun iv => bv_mark (h (snd iv)) || negb markings) (enum l).

(** Block.evaluate_adj (block.py 106-145). *)
Definition adj_block (markings : bool) (h : heap) (b : block) : heap * option exn :=
  let adj_inputs := map (fun o => bv_adj (h o)) (b_outs b) in
  if negb (existsb is_some adj_inputs) then (h, None)
  else
    let inputs := map (saved h) (b_deps b) in
    iter_o (fun h' iv =>
              match comp_adj (b_kind b) inputs adj_inputs (fst iv) with
              | Err e => (h', Some e)
              | Ok None => (h', None)
              | Ok (Some x) => (upd h' (snd iv) (add_adj x), None)
              end) (relevant h markings (b_deps b)) h.

(** evaluate_tlm_component of the classes that use Block.evaluate_tlm
    (adjfloat.py 192, 217, 290, 316, 441, 493, 605). *)
Definition comp_tlm (k : kind) (xs : list V) (tlms : list (option V)) (idx : nat) : res (option V) :=
  match k with
  | KAdd =>
      Ok (Some (fold_left (fun acc t => match t with None => acc | Some x => f_add F acc x end)
                          tlms (f_zero F)))
  | KMul =>
      do x0 <- nth_res xs 0; do x1 <- nth_res xs 1;
      do t0 <- nth_res tlms 0; do t1 <- nth_res tlms 1;
      let acc0 := match t0 with None => f_zero F | Some t => f_add F (f_zero F) (f_mul F t x1) end in
      Ok (Some (match t1 with None => acc0 | Some t => f_add F acc0 (f_mul F t x0) end))
  | KNeg => do t <- need_nth tlms 0; Ok (Some (f_neg F t))
  | KExp => do t <- need_nth tlms 0; do x <- nth_res xs 0; do e <- f_exp F x; Ok (Some (f_mul F e t))
  | KLog => do t <- need_nth tlms 0; do x <- nth_res xs 0; do r <- f_div F t x; Ok (Some r)
  | KMin => do x0 <- nth_res xs 0; do x1 <- nth_res xs 1;
            nth_res tlms (if f_le F x0 x1 then 0 else 1)
  | KMax => do x0 <- nth_res xs 0; do x1 <- nth_res xs 1;
            nth_res tlms (if f_le F x1 x0 then 0 else 1)
  | KUser u => u_tlm u xs tlms idx
  | KSub | KDiv | KPow => Err ENotImpl
  end.

(** Block.evaluate_tlm (block.py 186-225). *)
Definition tlm_block_base (markings : bool) (h : heap) (b : block) : heap * option exn :=
  let tlm_inputs := map (fun d => bv_tlm (h d)) (b_deps b) in
  if negb (existsb is_some tlm_inputs) then (h, None)
  else
    let inputs := map (saved h) (b_deps b) in
    iter_o (fun h' iv =>
              match comp_tlm (b_kind b) inputs tlm_inputs (fst iv) with
              | Err e => (h', Some e)
              | Ok None => (h', None)
              | Ok (Some x) => (upd h' (snd iv) (add_tlm x), None)
              end) (relevant h markings (b_outs b)) h.

(** The overridden evaluate_tlm / evaluate_hessian methods address terms[0], terms[1] and
    get_outputs()[0] directly; a missing one raises IndexError. *)
Definition with_out (b : block) (h : heap) (f : nat -> heap * option exn) : heap * option exn :=
  match nth_error (b_outs b) 0 with None => (h, Some EIndex) | Some o => f o end.
Definition with_term (b : block) (i : nat) (h : heap) (f : nat -> heap * option exn) : heap * option exn :=
  match nth_error (b_deps b) i with None => (h, Some EIndex) | Some t => f t end.
Definition with_val {A} (r : res A) (h : heap) (f : A -> heap * option exn) : heap * option exn :=
  match r with Err e => (h, Some e) | Ok a => f a end.

(** SubBlock.evaluate_tlm (adjfloat.py 467-474). *)
Definition tlm_sub (h : heap) (b : block) : heap * option exn :=
  with_out b h (fun o =>
  with_term b 0 h (fun t0 =>
    let h1 := match bv_tlm (h t0) with Some x => upd h o (add_tlm x) | None => h end in
  with_term b 1 h1 (fun t1 =>
    (match bv_tlm (h1 t1) with Some x => upd h1 o (add_tlm (f_neg F x)) | None => h1 end, None)))).

(** DivBlock.evaluate_tlm (535-550). *)
Definition tlm_div (h : heap) (b : block) : heap * option exn :=
  with_out b h (fun o =>
  with_term b 0 h (fun t0 =>
  with_term b 1 h (fun t1 =>
  andthen
    (match bv_tlm (h t0) with
     | None => (h, None)
     | Some x => with_val (f_div F (f_one F) (saved h t1)) h (fun r => (upd h o (add_tlm (f_mul F x r)), None))
     end)
    (fun h1 =>
     match bv_tlm (h1 t1) with
     | None => (h1, None)
     | Some x =>
         with_val (do p <- f_pow F (saved h1 t1) (f_two F); f_div F (saved h1 t0) p) h1
           (fun q => (upd h1 o (add_tlm (f_mul F x (f_neg F q))), None))
     end)))).

(** PowBlock.evaluate_tlm (369-387). *)
Definition tlm_pow (h : heap) (b : block) : heap * option exn :=
  with_out b h (fun o =>
  with_term b 0 h (fun t0 =>
  with_term b 1 h (fun t1 =>
  let x0 := saved h t0 in
  let x1 := saved h t1 in
  andthen
    (match bv_tlm (h t0) with
     | None => (h, None)
     | Some x => with_val (f_pow F x0 (f_sub F x1 (f_one F))) h
                   (fun p => (upd h o (add_tlm (f_mul F (f_mul F x x1) p)), None))
     end)
    (fun h1 =>
     match bv_tlm (h1 t1) with
     | None => (h1, None)
     | Some x => with_val (f_pow F x0 x1) h1
                   (fun p => (upd h1 o (add_tlm (f_mul F (f_mul F x (f_nplog F x0)) p)), None))
     end)))).

Definition tlm_block (markings : bool) (h : heap) (b : block) : heap * option exn :=
  match b_kind b with
  | KSub => tlm_sub h b
  | KDiv => tlm_div h b
  | KPow => tlm_pow h b
  | _ => tlm_block_base markings h b
  end.

(** evaluate_hessian_component of the classes that use Block.evaluate_hessian
    (adjfloat.py 197, 222, 294, 320, 452, 504).  [rel] lists (index, tlm value) of the relevant
    dependencies.  In KMul the Python loop variable [other_idx] overwrites the index computed
    before the loop (508-513): the last relevant index is used. *)
Definition comp_hess (k : kind) (xs : list V) (hesss adjs : list (option V)) (idx : nat)
  (rel : list (nat * option V)) : res (option V) :=
  match k with
  | KAdd => nth_res hesss 0
  | KMul =>
      do a <- nth_res adjs 0;
      do hv <- nth_res hesss 0;
      let other0 := if Nat.eqb idx 1 then 0 else 1 in
      let step (acc : res (V * nat)) (it : nat * option V) : res (V * nat) :=
        do mo <- acc;
        if negb (Nat.eqb (fst it) idx) then
          match snd it with
          | Some t => do a' <- need a; Ok (f_mul F a' t, fst it)
          | None => Ok (fst mo, fst it)
          end
        else Ok (fst mo, fst it) in
      do mo <- fold_left step rel (Ok (f_zero F, other0));
      do hx <- need hv;
      do x <- nth_res xs (snd mo);
      Ok (Some (f_add F (fst mo) (f_mul F hx x)))
  | KExp => do x <- nth_res xs 0; do hv <- need_nth hesss 0;
            do e <- f_exp F x; Ok (Some (f_mul F e hv))
  | KLog => do x <- nth_res xs 0; do hv <- need_nth hesss 0;
            do r <- f_div F (f_neg F hv) x; do r2 <- f_div F r x; Ok (Some r2)
  | KMin => do x0 <- nth_res xs 0; do x1 <- nth_res xs 1;
            let act := if f_le F x0 x1 then 0 else 1 in
            if Nat.eqb idx act then nth_res hesss 0 else Ok (Some (f_zero F))
  | KMax => do x0 <- nth_res xs 0; do x1 <- nth_res xs 1;
            let act := if f_le F x1 x0 then 0 else 1 in
            if Nat.eqb idx act then nth_res hesss 0 else Ok (Some (f_zero F))
  | KUser u => u_hess u xs hesss adjs idx rel
  | KSub | KDiv | KPow | KNeg => Err ENotImpl
  end.

(** Block.evaluate_hessian (block.py 266-299). *)
Definition hess_block_base (markings : bool) (h : heap) (b : block) : heap * option exn :=
  let hess_inputs := map (fun o => bv_hess (h o)) (b_outs b) in
  let adj_inputs := map (fun o => bv_adj (h o)) (b_outs b) in
  if negb (existsb is_some hess_inputs) then (h, None)
  else
    let inputs := map (saved h) (b_deps b) in
    let rel := relevant h markings (b_deps b) in
    let relt := map (fun iv => (fst iv, bv_tlm (h (snd iv)))) rel in
    iter_o (fun h' iv =>
              match comp_hess (b_kind b) inputs hess_inputs adj_inputs (fst iv) relt with
              | Err e => (h', Some e)
              | Ok None => (h', None)
              | Ok (Some x) => (upd h' (snd iv) (add_hess x), None)
              end) rel h.

(** SubBlock.evaluate_hessian (476-482). *)
Definition hess_sub (h : heap) (b : block) : heap * option exn :=
  with_out b h (fun o =>
  match bv_hess (h o) with
  | None => (h, None)
  | Some x =>
      with_term b 0 h (fun t0 =>
        let h1 := upd h t0 (add_hess x) in
        with_term b 1 h1 (fun t1 => (upd h1 t1 (add_hess (f_neg F x)), None)))
  end).

(** NegBlock.evaluate_hessian (608-613). *)
Definition hess_neg (h : heap) (b : block) : heap * option exn :=
  with_out b h (fun o =>
  match bv_hess (h o) with
  | None => (h, None)
  | Some x => with_term b 0 h (fun t0 => (upd h t0 (add_hess (f_neg F x)), None))
  end).

(** DivBlock.evaluate_hessian (552-595).  [adj_input] may be None: using it raises TypeError
    (float.__truediv__(None, ...), float.__mul__(None, ...)). *)
Definition hess_div (h : heap) (b : block) : heap * option exn :=
  with_out b h (fun o =>
  match bv_hess (h o) with
  | None => (h, None)
  | Some x =>
      let adj := bv_adj (h o) in
      with_term b 0 h (fun n =>
      with_term b 1 h (fun d =>
      let nv := saved h n in
      let dv := saved h d in
      with_val (f_div F (f_one F) dv) h (fun r1 =>
      let h1 := upd h n (add_hess (f_mul F x r1)) in
      with_val (do p <- f_pow F dv (f_two F); f_div F nv p) h1 (fun q =>
      let h2 := upd h1 d (add_hess (f_mul F x (f_neg F q))) in
      andthen
        (match bv_tlm (h2 d) with
         | None => (h2, None)
         | Some t =>
             with_val (do p <- f_pow F dv (f_three F);
                       do r <- f_div F (f_mul F (f_two F) nv) p;
                       do a <- need adj;
                       Ok (f_mul F (f_mul F a r) t)) h2
               (fun y => (upd h2 d (add_hess y), None))
         end)
        (fun h3 =>
         with_val (do p <- f_pow F dv (f_two F); do a <- need adj;
                   do r <- f_div F a p; Ok (f_neg F r)) h3 (fun mixed =>
         let h4 := match bv_tlm (h3 d) with
                   | None => h3
                   | Some t => upd h3 n (add_hess (f_mul F t mixed))
                   end in
         (match bv_tlm (h4 n) with
          | None => h4
          | Some t => upd h4 d (add_hess (f_mul F t mixed))
          end, None)))))))
  end).

(** PowBlock.evaluate_hessian (389-431). *)
Definition hess_pow (h : heap) (b : block) : heap * option exn :=
  with_out b h (fun o =>
  match bv_hess (h o) with
  | None => (h, None)
  | Some x =>
      let adj := bv_adj (h o) in
      with_term b 0 h (fun ba =>
      with_term b 1 h (fun ex =>
      let bv := saved h ba in
      let ev := saved h ex in
      andthen
        (match bv_tlm (h ba) with
         | None => (h, None)
         | Some t =>
             with_val (do a <- need adj;
                       do p <- f_pow F bv (f_sub F ev (f_two F));
                       Ok (f_mul F (f_mul F (f_mul F a (f_mul F ev (f_sub F ev (f_one F)))) p) t)) h
               (fun y => (upd h ba (add_hess y), None))
         end)
        (fun h1 =>
         with_val (do p <- f_pow F bv (f_sub F ev (f_one F));
                   Ok (f_mul F (f_mul F x ev) p)) h1 (fun y1 =>
         let h2 := upd h1 ba (add_hess y1) in
         andthen
           (match bv_tlm (h2 ex) with
            | None => (h2, None)
            | Some t =>
                with_val (do l2 <- f_pow F (f_nplog F bv) (f_two F);
                          do a <- need adj;
                          do p <- f_pow F bv ev;
                          Ok (f_mul F (f_mul F (f_mul F a l2) p) t)) h2
                  (fun y => (upd h2 ex (add_hess y), None))
            end)
           (fun h3 =>
            with_val (do p <- f_pow F bv ev; Ok (f_mul F (f_mul F x (f_nplog F bv)) p)) h3 (fun y2 =>
            let h4 := upd h3 ex (add_hess y2) in
            with_val (do p <- f_pow F bv (f_sub F ev (f_one F));
                      do a <- need adj;
                      Ok (f_mul F a (f_mul F p (f_add F (f_mul F ev (f_nplog F bv)) (f_one F))))) h4
              (fun mixed =>
               let h5 := match bv_tlm (h4 ex) with
                         | None => h4
                         | Some t => upd h4 ba (add_hess (f_mul F t mixed))
                         end in
               (match bv_tlm (h5 ba) with
                | None => h5
                | Some t => upd h5 ex (add_hess (f_mul F t mixed))
                end, None))))))))
  end).

Definition hess_block (markings : bool) (h : heap) (b : block) : heap * option exn :=
  match b_kind b with
  | KSub => hess_sub h b
  | KDiv => hess_div h b
  | KPow => hess_pow h b
  | KNeg => hess_neg h b
  | _ => hess_block_base markings h b
  end.

(** ** Sweeps over the block list: tape.py 362-401 (no checkpoint manager) *)

(** Tape.evaluate_adj (362-377), blocks [len-1 .. last_block]. *)
Definition evaluate_adj (blocks : list block) (last_block : nat) (markings : bool) (h : heap) :=
  iter_o (adj_block markings) (rev (skipn last_block blocks)) h.
(** Tape.evaluate_tlm (379-383). *)
Definition evaluate_tlm (blocks : list block) (markings : bool) (h : heap) :=
  iter_o (tlm_block markings) blocks h.
(** Tape.evaluate_hessian (385-389). *)
Definition evaluate_hessian (blocks : list block) (markings : bool) (h : heap) :=
  iter_o (hess_block markings) (rev blocks) h.
(** The loop of ReducedFunctional.__call__ (reduced_functional.py 241-244). *)
Definition recompute_all (blocks : list block) (h : heap) :=
  iter_o recompute_block blocks h.

(** Tape.reset_variables / reset_tlm_values / reset_hessian_values (391-401) through
    Block.reset_variables (block.py 89-99): dependencies then outputs, blocks in reverse. *)
Definition reset_with (f : bvar -> bvar) (blocks : list block) (h : heap) : heap :=
  fold_left (fun h' b => upd_all (upd_all h' (b_deps b) f) (b_outs b) f) (rev blocks) h.
Definition reset_adj := reset_with (set_adj None).
Definition reset_tlm := reset_with (set_tlm None).
Definition reset_hess := reset_with (set_hess None).

(** _find_relevant_nodes (tape.py 161-175).  The Python set is a list used through membership. *)
Definition find_relevant (blocks : list block) (ctrls : list nat) : list nat :=
  fold_left (fun nodes b =>
               if existsb (fun d => mem d nodes) (b_deps b) then b_outs b ++ nodes else nodes)
            blocks ctrls.

(** Tape.marked_nodes (522-529): a generator without try/finally, so an exception in the body
    leaves the marks. *)
Definition with_marked_nodes (nodes : list nat) (h : heap) (body : heap -> heap * option exn) :=
  let h1 := upd_all h nodes (set_mark true) in
  match body h1 with
  | (h2, None) => (upd_all h2 nodes (set_mark false), None)
  | (h2, Some e) => (h2, Some e)
  end.

(** drivers.marked_controls / reduced_functional.marked_controls (drivers.py 100-120,
    reduced_functional.py 266-276): __exit__ always runs. *)
Definition with_marked_controls (ctrls : list nat) (h : heap) (body : heap -> heap * option exn) :=
  let h1 := upd_all h ctrls (set_ctrl true) in
  let '(h2, e) := body h1 in
  (upd_all h2 ctrls (set_ctrl false), e).

(** Control.get_derivative / get_hessian (control.py 48-58); conversion of a float is the identity. *)
Definition get_derivative (h : heap) (c : nat) : V :=
  match bv_adj (h c) with None => f_zero F | Some x => x end.
Definition get_hessian (h : heap) (c : nat) : V :=
  match bv_hess (h c) with None => f_zero F | Some x => x end.

(** drivers.compute_gradient (drivers.py 5-33) on variables. *)
Definition compute_gradient (blocks : list block) (J : nat) (ctrls : list nat) (adj_value : V)
  (h : heap) : heap * res (list V) :=
  let h1 := reset_adj blocks h in
  let h2 := upd h1 J (set_adj (Some adj_value)) in
  let '(h3, e) :=
    with_marked_nodes (find_relevant blocks ctrls) h2 (fun h' =>
      with_marked_controls ctrls h' (evaluate_adj blocks 0 true)) in
  match e with
  | Some e => (h3, Err e)
  | None => (h3, Ok (map (get_derivative h3) ctrls))
  end.

(** drivers.compute_hessian (36-75).  [m[i].tlm_value = m_dot[i]]: a longer m_dot raises IndexError,
    a shorter one leaves the remaining directions unset. *)
Fixpoint set_dots (h : heap) (ctrls : list nat) (dots : list V) : heap * option exn :=
  match dots, ctrls with
  | [], _ => (h, None)
  | _ :: _, [] => (h, Some EIndex)
  | d :: ds, c :: cs => set_dots (upd h c (set_tlm (Some d))) cs ds
  end.
Definition compute_hessian (blocks : list block) (J : nat) (ctrls : list nat) (m_dot : list V)
  (h : heap) : heap * res (list V) :=
  let h1 := reset_hess blocks (reset_tlm blocks h) in
  let nodes := find_relevant blocks ctrls in
  let '(h5, e) :=
    andthen (set_dots h1 ctrls m_dot) (fun h2 =>
    andthen (with_marked_nodes nodes h2 (evaluate_tlm blocks true)) (fun h3 =>
    let h4 := upd h3 J (set_hess (Some (f_zero F))) in
    with_marked_nodes nodes h4 (evaluate_hessian blocks true))) in
  match e with
  | Some e => (h5, Err e)
  | None => (h5, Ok (map (get_hessian h5) ctrls))
  end.

(** drivers.solve_adjoint (78-97): [J.adj_value = adj_value] sets an attribute of the functional
    object, not of its block variable.  Only if J is a Control does it reach the variable
    (control.py 90-92): [J_is_control]. *)
Definition solve_adjoint (blocks : list block) (J : nat) (J_is_control : bool) (adj_value : V)
  (h : heap) : heap * option exn :=
  let h1 := reset_adj blocks h in
  let h2 := if J_is_control then upd h1 J (set_adj (Some adj_value)) else h1 in
  evaluate_adj blocks 0 false h2.

(** ** ReducedFunctional (reduced_functional.py 40-263), default callbacks *)

Record rfun : Type := RF {
  rf_J : nat;
  rf_ctrls : list nat;
  rf_scale : V
}.

(** Control.update (control.py 60-67) through the guarded setter, in order. *)
Fixpoint update_controls (h : heap) (ctrls : list nat) (vals : list V) : heap :=
  match ctrls, vals with
  | c :: cs, x :: xs => update_controls (upd h c (put_ckpt (Some x) false)) cs xs
  | _, _ => h
  end.

(** ReducedFunctional.__call__ (193-254); the type checks on values are in RFull.v.
    reset_blocks has no effect on the modelled blocks (block_helper is None). *)
Definition rf_call (blocks : list block) (rf : rfun) (vals : list V) (h : heap) : heap * res V :=
  if negb (Nat.eqb (length vals) (length (rf_ctrls rf))) then (h, Err EValue)
  else
    let h1 := update_controls h (rf_ctrls rf) vals in
    let '(h2, e) := with_marked_controls (rf_ctrls rf) h1 (recompute_all blocks) in
    match e with
    | Some e => (h2, Err e)
    | None => (h2, Ok (f_mul F (saved h2 (rf_J rf)) (rf_scale rf)))
    end.

(** ReducedFunctional.derivative (112-160) without derivative_components:
    adj_value = adj_input._ad_mul(scale); an empty control list raises ValueError (132-135). *)
Definition rf_derivative (blocks : list block) (rf : rfun) (adj_input : V) (h : heap) : heap * res (list V) :=
  match rf_ctrls rf with
  | [] => (h, Err EValue)
  | _ => compute_gradient blocks (rf_J rf) (rf_ctrls rf) (f_mul F adj_input (rf_scale rf)) h
  end.

(** ReducedFunctional.hessian (162-191). *)
Definition rf_hessian (blocks : list block) (rf : rfun) (m_dot : list V) (h : heap) : heap * res (list V) :=
  compute_hessian blocks (rf_J rf) (rf_ctrls rf) m_dot h.

End Core.

Arguments bvar V : clear implicits.
Arguments heap V : clear implicits.
Arguments ublock V : clear implicits.
Arguments kind V : clear implicits.
Arguments block V : clear implicits.
Arguments rfun V : clear implicits.
