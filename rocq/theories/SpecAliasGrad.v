(** Specification: what the user of a tape of arrays may do between derivatives.  They do what [well_behaved] allows, give
    floats for floats and arrays for arrays when they evaluate, and may take any derivatives and write into them. *)
From Coq Require Import List Arith Bool.
From Verif Require Import Base Model Arrays Alias SpecAlias AliasGrad.
Import ListNotations.

Section SpecAliasGrad.
Context {V : Type} (F : fops V).

Definition suits (us : ustate V) (ev : event V) : Prop :=
  match ev with
  | ECall _ ctrls _ vs => forall args, mapM (var_ref us) vs = Ok args -> length args = length ctrls ->
      map is_arr (map (deref F (r_mem (u_tape us))) args) = map (fun c => is_arr (stored F us c)) ctrls
  | _ => True
  end.
Definition gwell_behaved (cs : list nat) (bs : list (rblk V)) (us : ustate V) (ev : gevent V) : Prop :=
  match ev with GUse ev => well_behaved F cs bs us ev /\ suits us ev | GDeriv _ _ _ _ => True end.
Fixpoint gbehaves (cs : list nat) (bs : list (rblk V)) (gs : gstate V) (evs : list (gevent V)) : Prop :=
  match evs with
  | [] => True
  | ev :: r => gwell_behaved cs bs (g_user gs) ev /\ gbehaves cs bs (fst (gstep F bs gs ev)) r
  end.
(** No derivative has been taken yet. *)
Definition untouched (gs : gstate V) : Prop := (forall v, g_adj gs v = None) /\ forall v, g_mark gs v = false.
(** Nothing is evaluated; nothing is written into. *)
Definition evaluates (ev : gevent V) : bool := match ev with GUse (ECall _ _ _ _) => true | _ => false end.
Definition writes (ev : gevent V) : bool := match ev with GUse (ESet _ _ _) => true | _ => false end.
(** Every step returned. *)
Fixpoint returned (bs : list (rblk V)) (gs : gstate V) (evs : list (gevent V)) : bool :=
  match evs with
  | [] => true
  | ev :: r => match snd (gstep F bs gs ev) with None => true | Some _ => false end && returned bs (fst (gstep F bs gs ev)) r
  end.
End SpecAliasGrad.
