(** Specification: when the user of a tape of arrays leaves its memory alone, and what they are then entitled to.  Values only;
    nothing here says where arrays are kept except to say who may write where. *)
From Coq Require Import List Arith Bool.
From Verif Require Import Base Model Arrays Alias.
Import ListNotations.

Section SpecAlias.
Context {V : Type} (F : fops V).

(** The block on the tape and its description with references are one block. *)
Definition same_block (rb : rblk V) (b : block (aval V)) : Prop :=
  match rb with
  | RItem it d o => b_kind b = KUser (slice_block F it) /\ b_deps b = [d] /\ b_outs b = [o]
  | RKind k ds o => b_kind b = akind k /\ b_deps b = ds /\ b_outs b = [o]
  end.

(** An array lies in memory, its entries at different positions. *)
Definition lies (m : memory V) (r : rval V) : Prop :=
  match r with RNum _ => True | RArr b ps => b < length m /\ Forall (fun p => p < length (nth b m [])) ps /\ NoDup ps end.
Definition sound (us : ustate V) : Prop :=
  (forall v, lies (r_mem (u_tape us)) (r_ref (u_tape us) v)) /\ Forall (fun p => lies (r_mem (u_tape us)) (snd p)) (u_vars us).
(** No array the user made lies in the memory of an array of the tape, or of one they got from the tape. *)
Definition overlap (r r' : rval V) : Prop := exists b ps ps', r = RArr b ps /\ r' = RArr b ps'.
Definition apart (us : ustate V) : Prop :=
  forall r, In (true, r) (u_vars us) -> (forall v, ~ overlap (r_ref (u_tape us) v) r) /\ forall r', In (false, r') (u_vars us) -> ~ overlap r' r.
(** The tape stores the values of heap [h]. *)
Definition agrees (s : rstate V) (h : heap (aval V)) : Prop := forall v, deref F (r_mem s) (r_ref s v) = saved h v.

(** The user writes only into arrays they made, evaluates only at values of tape variables [cs], and what an evaluation returns
    is a float unless the scale is a factor one. *)
Definition neutral (scale : V) : Prop := forall x, f_mul F x scale = x.
Definition well_behaved (cs : list nat) (bs : list (rblk V)) (us : ustate V) (ev : event V) : Prop :=
  match ev with
  | ESet u _ _ => forall r, nth_error (u_vars us) u <> Some (false, r)
  | ECall J ctrls scale vs => incl ctrls cs /\
      forall args b ps, mapM (var_ref us) vs = Ok args -> snd (rcall F bs J ctrls scale args (u_tape us)) = Ok (RArr b ps) -> neutral scale
  | _ => True
  end.
Fixpoint behaves (cs : list nat) (bs : list (rblk V)) (us : ustate V) (evs : list (event V)) : Prop :=
  match evs with
  | [] => True
  | ev :: r => well_behaved cs bs us ev /\ behaves cs bs (fst (estep F bs us ev)) r
  end.
End SpecAlias.
