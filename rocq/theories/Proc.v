(** Process-level model: the annotation switch, [stop_annotating]/[no_annotations] objects, the working
    tape, and which tape receives a block.  Values are not modelled here (see Record.v). *)
From Coq Require Import List Arith Bool.
From Verif Require Import Base.
Import ListNotations.

(** What an outside observer sees *)
Inductive pevent : Set :=
| Rec (t : nat)        (* a block was added to tape t *)
| Ask (b : bool)       (* annotate_tape() answered b *)
| Cleared (v : nat).   (* v.clear_block_variable() *)

(** User code and library code, as far as it touches the switch or the working tape.
    [With k c]: [with s_k: c], and also a call of a function with body [c] decorated by [s_k]
    (contextlib.ContextDecorator: [_recreate_cm] returns self).  [s_0] is [no_annotations]. *)
Inductive code : Type :=
| Skip
| Raise (e : exn)
| Seq (a b : code)
| Try (a b : code)               (* try: a except: b *)
| Query                          (* annotate_tape() *)
| IfAnn (a b : code)             (* if annotate_tape(): a else: b *)
| Op                             (* an overloaded operation *)
| OpKw (annotate : bool)         (* an overloaded function called with annotate=... *)
| Pause                          (* pause_annotation() *)
| Continue                       (* continue_annotation() *)
| With (k : nat) (c : code)
| SMake (m : option (list nat))  (* s_k = stop_annotating(modifies=m), k the next number *)
| WithNew (m : option (list nat)) (c : code)  (* with stop_annotating(modifies=m): c *)
| Call (f : nat)
| TSet                           (* set_working_tape(): free function, a new tape *)
| TMake (k : nat)                (* w_k = set_working_tape(): constructs the object (decorator use) *)
| TWith (k : nat) (c : code)     (* with w_k: c, or a call of a function decorated by w_k *)
| TScope (c : code).             (* with set_working_tape(): c *)

Record pst : Type := PS {
  p_ann : bool;                   (* _annotation_enabled *)
  p_stk : nat -> list bool;       (* s_k._orig_annotation_enabled, last entry first *)
  p_mod : nat -> option (list nat); (* s_k.modifies *)
  p_next : nat;                   (* stop_annotating objects so far *)
  p_work : nat;                   (* _working_tape *)
  p_ntape : nat;                  (* tapes so far *)
  p_old : nat -> nat;             (* w_k.old_tape *)
  p_log : list pevent             (* newest first *)
}.
Definition set_ann (b : bool) (s : pst) : pst := PS b (p_stk s) (p_mod s) (p_next s) (p_work s) (p_ntape s) (p_old s) (p_log s).
Definition set_stk (k : nat) (l : list bool) (s : pst) : pst :=
  PS (p_ann s) (fun j => if j =? k then l else p_stk s j) (p_mod s) (p_next s) (p_work s) (p_ntape s) (p_old s) (p_log s).
Definition say (e : pevent) (s : pst) : pst :=
  PS (p_ann s) (p_stk s) (p_mod s) (p_next s) (p_work s) (p_ntape s) (p_old s) (e :: p_log s).
Definition set_work (t : nat) (s : pst) : pst :=
  PS (p_ann s) (p_stk s) (p_mod s) (p_next s) t (p_ntape s) (p_old s) (p_log s).
(** stop_annotating.__init__ (tape.py 107-111) *)
Definition new_stop (m : option (list nat)) (s : pst) : pst :=
  PS (p_ann s) (fun j => if j =? p_next s then [] else p_stk s j) (fun j => if j =? p_next s then m else p_mod s j)
     (S (p_next s)) (p_work s) (p_ntape s) (p_old s) (p_log s).
(** set_working_tape.__init__ (tape.py 76-83) with a new tape *)
Definition new_tape (k : nat) (s : pst) : pst :=
  PS (p_ann s) (p_stk s) (p_mod s) (p_next s) (p_ntape s) (S (p_ntape s)) (fun j => if j =? k then p_work s else p_old s j) (p_log s).

(** stop_annotating.__enter__ (113-120): [modifies] with a non-empty stack raises ValueError.  Naming an
    object that does not exist raises (NameError). *)
Definition stop_enter (k : nat) (s : pst) : pst * option exn :=
  if p_next s <=? k then (s, Some EAttr) else
  match p_mod s k, p_stk s k with
  | Some (_ :: _), _ :: _ => (s, Some EValue)
  | _, l => (set_ann false (set_stk k (p_ann s :: l) s), None)
  end.
(** stop_annotating.__exit__ (122-130) *)
Definition stop_exit (k : nat) (s : pst) : pst :=
  match p_stk s k with
  | [] => s                                         (* not reached: __enter__ pushed *)
  | b :: l =>
      let s1 := set_ann b (set_stk k l s) in
      match p_mod s k with
      | None => s1
      | Some vs => fold_left (fun s v => say (Cleared v) s) vs s1
      end
  end.

(** annotate_tape (137-158): the keyword cannot switch annotation on *)
Definition op (kw : bool) (s : pst) : pst := if p_ann s && kw then say (Rec (p_work s)) s else s.

Section Run.
Variable defs : nat -> code.
(** Terminating runs: [None] = out of fuel *)
Fixpoint run (n : nat) (s : pst) (c : code) : option (pst * option exn) :=
  match n with
  | 0 => None
  | S n =>
    match c with
    | Skip => Some (s, None)
    | Raise e => Some (s, Some e)
    | Seq a b => match run n s a with
                 | Some (s', None) => run n s' b
                 | r => r
                 end
    | Try a b => match run n s a with
                 | Some (s', Some _) => run n s' b
                 | r => r
                 end
    | Query => Some (say (Ask (p_ann s)) s, None)
    | IfAnn a b => run n (say (Ask (p_ann s)) s) (if p_ann s then a else b)
    | Op => Some (op true s, None)
    | OpKw kw => Some (op kw s, None)
    | Pause => Some (set_ann false s, None)
    | Continue => Some (set_ann true s, None)
    | With k c => match stop_enter k s with
                  | (s1, Some e) => Some (s1, Some e)
                  | (s1, None) => match run n s1 c with
                                  | None => None
                                  | Some (s2, o) => Some (stop_exit k s2, o)
                                  end
                  end
    | SMake m => Some (new_stop m s, None)
    | WithNew m c => run n (new_stop m s) (With (p_next s) c)
    | Call f => run n s (defs f)
    | TSet => Some (PS (p_ann s) (p_stk s) (p_mod s) (p_next s) (p_ntape s) (S (p_ntape s)) (p_old s) (p_log s), None)
    | TMake k => Some (new_tape k s, None)
    | TWith k c => match run n s c with                    (* __enter__ (85-86) sets nothing *)
                   | None => None
                   | Some (s2, o) => Some (set_work (p_old s2 k) s2, o)   (* __exit__ (88-91) *)
                   end
    | TScope c => (* the anonymous object's old_tape is the working tape on construction *)
                  match run n (PS (p_ann s) (p_stk s) (p_mod s) (p_next s) (p_ntape s) (S (p_ntape s)) (p_old s) (p_log s)) c with
                  | None => None
                  | Some (s2, o) => Some (set_work (p_work s) s2, o)
                  end
    end
  end.
End Run.

(** A fresh process: one tape, annotation as given *)
Definition process (ann : bool) : pst := PS ann (fun _ => []) (fun _ => None) 1 0 1 (fun _ => 0) [].

(** ** The control flow of the differentiation API, with arbitrary code for everything a block or a
    callback does.  [seqs] runs a list of pieces in order. *)
Fixpoint seqs (l : list code) : code := match l with [] => Skip | c :: r => Seq c (seqs r) end.

(** [_ad_mul]: an overloaded operation (adjfloat.py 106-107) *)
(** ReducedFunctional.__call__ (reduced_functional.py 193-254), decorated with [no_annotations]; [checks] is the
    value check (may raise), [recs] the blocks' recompute *)
Definition call_code (checks cb_pre cb_post : code) (recs : list code) : code :=
  With 0 (seqs [checks; cb_pre; WithNew None (seqs recs); Op; cb_post]).
(** ReducedFunctional.hessian (162-191) with drivers.compute_hessian (36-75) *)
Definition hessian_code (cb_pre cb_post : code) (tlms hess : list code) : code :=
  With 0 (seqs [cb_pre; WithNew None (seqs tlms); WithNew None (seqs hess); cb_post]).
(** Block.evaluate_adj (block.py 106-107) is decorated with [no_annotations]; no block of adjfloat.py overrides it *)
Definition adj_code (comps : list code) : list code := map (With 0) comps.
(** drivers.compute_gradient (6-34) *)
Definition gradient_code (comps : list code) : code := WithNew None (seqs (adj_code comps)).
(** ReducedFunctional.derivative (112-160); [cb_post] is the post callback *)
Definition derivative_code (cb_pre cb_post : code) (comps : list code) : code :=
  seqs [cb_pre; WithNew None Op; gradient_code comps; cb_post].
(** The post callback of [derivative_components] (27-37): [zero_derivative *= 0.] for every control left
    out; AdjFloat has no [__imul__], so this is the overloaded [*]. *)
Definition pack_code (n : nat) (components : list nat) : code :=
  seqs (map (fun i => if existsb (Nat.eqb i) components then Skip else Op) (seq 0 n)).
(** Tape.evaluate_adj (tape.py 362-377) called directly *)
Definition tape_adj_code (comps : list code) : code := seqs (adj_code comps).

(** ** evaluate_tlm / evaluate_hessian of single blocks (adjfloat.py), by the Python types involved *)
Inductive pyt : Set := Plain | Adj.     (* float, AdjFloat *)
Definition ispy (p : option pyt) : bool := match p with None => false | _ => true end.
Definition isadj (p : option pyt) : bool := match p with Some Adj => true | _ => false end.
(** BlockVariable.add_tlm_output / add_hessian_output: store, or [+=] *)
Definition accumulate (cur : option pyt) (val : pyt) : code * option pyt :=
  match cur with
  | None => (Skip, Some val)
  | Some c => (if isadj (Some c) || isadj (Some val) then Op else Skip,
               Some (if isadj (Some c) || isadj (Some val) then Adj else Plain))
  end.
(** PowBlock.evaluate_tlm (adjfloat.py 369-387): not decorated; [exponent_value - 1] is an overloaded
    operation, the rest uses float methods.  [ty0 ty1]: types of the terms' tlm values, [out]: of the output's. *)
Definition pow_tlm_code (ty0 ty1 out : option pyt) : code :=
  let '(c1, out1) := if ispy ty0 then let '(c, o) := accumulate out Plain in (Seq Op c, o) else (Skip, out) in
  let c2 := if ispy ty1 then fst (accumulate out1 Plain) else Skip in
  Seq c1 c2.
(** SubBlock.evaluate_tlm (467-474) *)
Definition sub_tlm_code (ty0 ty1 out : option pyt) : code :=
  let '(c1, out1) := match ty0 with Some t => accumulate out t | None => (Skip, out) end in
  let c2 := if ispy ty1 then fst (accumulate out1 Plain) else Skip in
  Seq c1 c2.
(** NegBlock.evaluate_hessian (608-613): not decorated, float methods only *)
Definition neg_hess_code (hin h0 : option pyt) : code :=
  if ispy hin then fst (accumulate h0 Plain) else Skip.
(** SubBlock.evaluate_hessian (476-482) *)
Definition sub_hess_code (hin h0 h1 : option pyt) : code :=
  match hin with
  | None => Skip
  | Some t => Seq (fst (accumulate h0 t)) (fst (accumulate h1 Plain))
  end.
(** Block.evaluate_tlm (block.py 186-187), decorated *)
Definition default_tlm_code (comp : code) : code := With 0 comp.
