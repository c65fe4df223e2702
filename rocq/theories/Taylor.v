(** Model of the Taylor test (/repo/pyadjoint/verification.py) over exact real arithmetic.  No proofs here.
    Output on the screen is left out except for the residuals, which are part of the result. *)
From Coq Require Import List Arith Bool Reals.
From Coquelicot Require Import Rbar.
From Verif Require Import Base Model RealInst.
Import ListNotations.
Open Scope R_scope.

(** [0.01 / 2 ** i for i in range(4)] (48, 140) *)
Definition epsilons : list R := map (fun i => 1 / 100 / 2 ^ i) (seq 0 4).
(** perturbe (41-43): [mi._ad_add(hi._ad_mul(eps))] *)
Definition perturb (m d : list R) (eps : R) : list R := map (fun p => fst p + snd p * eps) (combine m d).
(** [sum(hi._ad_dot(di) for hi, di in zip(hs, ds))] (39): the sum starts at 0 *)
Definition dot_sum (d g : list R) : R := fold_left (fun s p => s + fst p * snd p) (combine d g) 0.

(** convergence_rates (61-70).  Python's division raises for a zero residual, numpy's logarithm of zero
    is minus infinity (with a warning). *)
Definition rate (e1 e0 x1 x0 : R) : res Rbar :=
  if Req_EM_T e0 0 then Err EZeroDiv
  else if Req_EM_T x0 0 then Err EZeroDiv
  else if Req_EM_T (e1 / e0) 0 then Ok p_infty   (* -inf over a negative number: eps decreases *)
  else Ok (Finite (ln (e1 / e0) / ln (x1 / x0))).
Fixpoint rates (es xs : list R) : res (list Rbar) :=
  match xs with
  | x0 :: ((x1 :: _) as xr) =>
      match es with
      | e0 :: ((e1 :: _) as er) => do r <- rate e1 e0 x1 x0; do rs <- rates er xr; Ok (r :: rs)
      | _ => Err EIndex
      end
  | _ => Ok []
  end.
(** Python's min: the first smallest; ValueError for an empty list *)
Definition Rbar_ltb (a b : Rbar) : bool := if Rbar_lt_dec a b then true else false.
Definition minimum (l : list Rbar) : res Rbar :=
  match l with [] => Err EValue | x :: r => Ok (fold_left (fun m y => if Rbar_ltb y m then y else m) r x) end.

Section Run.
Variables (bs : list (block R)) (rf : rfun R).
(** the loop over [epsilons] (49-52, 142-146) *)
Fixpoint perturbed (m d : list R) (xs : list R) (h : heap R) : heap R * res (list (R * R)) :=
  match xs with
  | [] => (h, Ok [])
  | eps :: r =>
      match rf_call RO bs rf (perturb m d eps) h with
      | (h', Err e) => (h', Err e)
      | (h', Ok j) => let '(h2, o) := perturbed m d r h' in (h2, rmap (cons (eps, j)) o)
      end
  end.
(** taylor_test (7-58): residuals and rate.  [dJ]: the argument dJdm *)
Definition taylor_test (m d : list R) (dJ : option R) (Hm : R) (h : heap R) : heap R * res (list R * res Rbar) :=
  if negb (length d =? length m)%nat then (h, Err EValue)
  else match rf_call RO bs rf m h with
  | (h1, Err e) => (h1, Err e)
  | (h1, Ok jm) =>
      let '(h2, s) := match dJ with
                      | Some s => (h1, Ok s)
                      | None => match rf_derivative RO bs rf 1 h1 with
                                | (h2, Err e) => (h2, Err e)
                                | (h2, Ok g) => (h2, if (length g =? length m)%nat then Ok (dot_sum d g) else Err EValue)
                                end
                      end in
      match s with
      | Err e => (h2, Err e)
      | Ok s =>
          let '(h3, o) := perturbed m d epsilons h2 in
          (h3, do js <- o;
               let es := map (fun p => Rabs (snd p - jm - fst p * s - 1 / 2 * fst p ^ 2 * Hm)) js in
               Ok (es, do rs <- rates es epsilons; minimum rs))
      end
  end.
(** taylor_to_dict (73-156): (residuals, rates) of R0, R1, R2.  The rates are computed before the last
    evaluation, an exception there skips it. *)
Definition taylor_to_dict (m d : list R) (h : heap R) : heap R * res (list (list R * list Rbar)) :=
  if negb (length d =? length m)%nat then (h, Err EValue)
  else match rf_call RO bs rf m h with
  | (h1, Err e) => (h1, Err e)
  | (h1, Ok jm) =>
      match rf_derivative RO bs rf 1 h1 with
      | (h2, Err e) => (h2, Err e)
      | (h2, Ok g) =>
          if negb (length g =? length m)%nat then (h2, Err EValue) else
          match rf_hessian RO bs rf d h2 with
          | (h3, Err e) => (h3, Err e)
          | (h3, Ok hm) =>
              let s := dot_sum d g in let q := dot_sum d hm in
              let '(h4, o) := perturbed m d epsilons h3 in
              match (do js <- o;
                     let r0 := map (fun p => Rabs (snd p - jm)) js in
                     let r1 := map (fun p => Rabs (snd p - jm - fst p * s)) js in
                     let r2 := map (fun p => Rabs (snd p - jm - fst p * s - 1 / 2 * fst p ^ 2 * q)) js in
                     do a <- rates r0 epsilons; do b <- rates r1 epsilons; do c <- rates r2 epsilons;
                     Ok [(r0, a); (r1, b); (r2, c)]) with
              | Err e => (h4, Err e)
              | Ok out => let '(h5, y) := rf_call RO bs rf m h4 in (h5, rmap (fun _ => out) y)
              end
          end
      end
  end.
End Run.
