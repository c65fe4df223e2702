(** Placeholders (placeholder.py 5-51).  No proofs here.

    A Placeholder is a block variable that sits in the dependency lists of blocks and reads its value from
    elsewhere.  [lk p = Some l]: p is a placeholder and set_value(x) was called, l is the block variable of x
    (32-33).  For an ordinary variable and for a placeholder without a link [lk] is None; reading the latter gives the
    value of the variable it wraps (39-44), which here is stored under the same number.
    Simplified: l is not itself a placeholder (such chains are followed by Python). *)
From Coq Require Import List Arith Bool.
From Verif Require Import Base Model.
Import ListNotations.

Section Place.
Context {V : Type} (F : fops V) (lk : nat -> option nat).
Implicit Types (h : heap V) (b : block V).

(** saved_output: block_variable.py 57-62 and placeholder.py 39-44. *)
Definition psaved h (v : nat) : V := match lk v with Some l => saved h l | None => saved h v end.

(** Block.recompute (block.py 330-363), reading dependencies through saved_output; as [recompute_block]. *)
Definition p_recompute_block h b : heap V * option exn :=
  if existsb (fun o => bv_ctrl (h o)) (b_outs b) then (h, None)
  else
    let inputs := map (psaved h) (b_deps b) in
    iter_o (fun h' io =>
              match comp_recompute F (b_kind b) inputs (fst io) with
              | Err e => (h', Some e)
              | Ok None => (h', None)
              | Ok (Some x) => (upd h' (snd io) (put_ckpt (Some x) (raw_result (b_kind b))), None)
              end) (enum (b_outs b)) h.

(** Block.evaluate_adj (block.py 106-145); the adjoint value of a placeholder is its own (placeholder.py inherits add_adj_output). *)
Definition p_adj_block (markings : bool) h b : heap V * option exn :=
  let adj_inputs := map (fun o => bv_adj (h o)) (b_outs b) in
  if negb (existsb is_some adj_inputs) then (h, None)
  else
    let inputs := map (psaved h) (b_deps b) in
    iter_o (fun h' iv =>
              match comp_adj F (b_kind b) inputs adj_inputs (fst iv) with
              | Err e => (h', Some e)
              | Ok None => (h', None)
              | Ok (Some x) => (upd h' (snd iv) (add_adj F x), None)
              end) (relevant h markings (b_deps b)) h.

(** ReducedFunctional.__call__ and derivative (reduced_functional.py 193-254, 112-160), drivers.compute_gradient (5-33). *)
Definition p_call (blocks : list (block V)) (rf : rfun V) (vals : list V) h : heap V * res V :=
  if negb (Nat.eqb (length vals) (length (rf_ctrls rf))) then (h, Err EValue)
  else
    let h1 := update_controls h (rf_ctrls rf) vals in
    let '(h2, e) := with_marked_controls (rf_ctrls rf) h1 (iter_o p_recompute_block blocks) in
    match e with
    | Some e => (h2, Err e)
    | None => (h2, Ok (f_mul F (psaved h2 (rf_J rf)) (rf_scale rf)))
    end.
Definition p_gradient (blocks : list (block V)) (J : nat) (ctrls : list nat) (adj_value : V) h : heap V * res (list V) :=
  let h1 := reset_adj blocks h in
  let h2 := upd h1 J (set_adj (Some adj_value)) in
  let '(h3, e) :=
    with_marked_nodes (find_relevant blocks ctrls) h2 (fun h' =>
      with_marked_controls ctrls h' (iter_o (p_adj_block true) (rev blocks))) in
  match e with
  | Some e => (h3, Err e)
  | None => (h3, Ok (map (get_derivative F h3) ctrls))
  end.
Definition p_derivative (blocks : list (block V)) (rf : rfun V) (adj_input : V) h : heap V * res (list V) :=
  match rf_ctrls rf with
  | [] => (h, Err EValue)
  | _ => p_gradient blocks (rf_J rf) (rf_ctrls rf) (f_mul F adj_input (rf_scale rf)) h
  end.

(** Evaluations one after the other; the user stops at the first exception. *)
Fixpoint p_calls (blocks : list (block V)) (rf : rfun V) (l : list (list V)) h : heap V * list (res V) :=
  match l with
  | [] => (h, [])
  | xs :: r => match p_call blocks rf xs h with
               | (h1, Ok y) => let '(h2, ys) := p_calls blocks rf r h1 in (h2, Ok y :: ys)
               | (h1, Err e) => (h1, [Err e])
               end
  end.
End Place.
