(** Specification of the augmented Lagrangian method. *)
From Coq Require Import List Arith Bool ZArith Reals.
From Verif.Base Require Import Num Vec.
From Verif.Model Require Import AugLag.
Import ListNotations.

(** ** The function, over the reals *)
Section Value.
  Local Open Scope R_scope.
  (** sum of [h l c] over multipliers and constraints *)
  Fixpoint csum {A : Type} (h : R -> A -> R) (lambda : list R) (cs : list A) : R :=
    match lambda, cs with l :: lambda', c :: cs' => h l c + csum h lambda' cs' | _, _ => 0 end.
  (** f(x) - sum lambda_i c_i(x) + sigma / 2 * sum c_i(x)^2 *)
  Definition augmented (f : list R -> R) (cs : list (list R -> R)) (lambda : list R) (sigma : R) (x : list R) : R :=
    f x - csum (fun l c => l * c x) lambda cs + sigma / 2 * csum (fun _ c => c x ^ 2) lambda cs.
End Value.

Section Method.
  Context {N : Num} {S : Type}.
  Notation vec := (list N).
  Variables (thrFactor sigmaFactor tolerance : N).
  Variable f : vec -> N.
  Variable cs : list (vec -> N).
  Variable solve : list (aev N) -> S -> vec -> N -> vec -> vec * S.

  (** where the method is between two outer iterations: coordinates, multipliers,
      penalty parameter, threshold, last objective, inner optimizer *)
  Record outer : Type := { q_x : vec; q_lambda : vec; q_sigma : N; q_thr : N; q_last : N; q_s : S }.

  (** sum of squared constraints *)
  Definition violation (x : vec) : N := fold_left (fun a c => nadd a (nmul (c x) (c x))) cs n0.
  (** multipliers moved by - sigma * c_i(x) *)
  Definition moved (lambda : vec) (sigma : N) (x lambda' : vec) : Prop :=
    forall i, nth_error lambda' i =
      match nth_error lambda i, nth_error cs i with
      | Some l, Some c => Some (nsub l (nmul sigma (c x)))
      | o, _ => o
      end.
  (** the inner optimizer, run on the current augmented Lagrangian, found [x'] *)
  Definition inner (a : outer) (x' : vec) (s' : S) : Prop :=
    exists h, solve h (q_s a) (q_lambda a) (q_sigma a) (q_x a) = (x', s').
  Definition converged (a : outer) (x' : vec) : Prop :=
    nlt (nabs (nsub (q_last a) (f x'))) tolerance = true /\ nlt (nofZ 500000) (q_sigma a) = true.
  Definition too_large (sigma : N) : Prop := nle (ndiv nmax (nofZ 2)) sigma = true.

  Definition update (a : outer) (x' : vec) (s' : S) (b : outer) : Prop :=
    q_x b = x' /\ q_last b = f x' /\ q_s b = s' /\
    ((nlt (violation x') (q_thr a) = true /\ moved (q_lambda a) (q_sigma a) x' (q_lambda b) /\
      q_sigma b = q_sigma a /\ q_thr b = nmul thrFactor (violation x')) \/
     (nlt (violation x') (q_thr a) = false /\ q_lambda b = q_lambda a /\
      q_sigma b = nmul (q_sigma a) sigmaFactor /\ ~ too_large (q_sigma b) /\ q_thr b = q_thr a)).

  (** [reach a0 k a]: state [a] after [k] complete outer iterations *)
  Inductive reach (a0 : outer) : nat -> outer -> Prop :=
  | reach_0 : reach a0 0 a0
  | reach_S : forall k a x' s' b, reach a0 k a -> inner a x' s' -> ~ converged a x' -> update a x' s' b ->
              reach a0 (Datatypes.S k) b.

  Definition a_asks (e : aev N) : bool :=
    match e with AEval _ _ | ACon _ _ _ | AStep _ => true | _ => false end.
  Definition a_asked (stop : list (aev N) -> bool) (tr : list (aev N)) : Prop :=
    exists h e rest, tr = rev h ++ e :: rest /\ a_asks e = true /\ stop (e :: h) = true.
  Definition a_step (e : aev N) : bool := match e with AStep _ => true | _ => false end.
  Definition a_end (e : aev N) : bool := match e with AEnd _ => true | _ => false end.

  (** how a call ends, after [k] complete iterations and in state [a] *)
  Definition Ends (maxIterations k : nat) (a : outer) (r : ALRes (N:=N) (S:=S)) : Prop :=
    (* between two iterations: limit or request *)
    (al_ret r = false /\ al_members r = None /\ (k = al_limit maxIterations \/ al_term r = true) /\
     al_x r = q_x a /\ al_lambda r = q_lambda a /\ al_sigma r = q_sigma a) \/
    (exists x' s', inner a x' s' /\ al_x r = x' /\
      ((* converged *)
       (al_ret r = true /\ converged a x' /\ al_members r = Some (q_lambda a, q_sigma a)) \/
       (* a request during the iteration *)
       (al_ret r = false /\ al_members r = None /\ ~ converged a x' /\ al_term r = true /\
        al_lambda r = q_lambda a /\ al_sigma r = q_sigma a) \/
       (* the penalty parameter became too large *)
       (al_ret r = false /\ al_members r = None /\ ~ converged a x' /\
        nlt (violation x') (q_thr a) = false /\ too_large (nmul (q_sigma a) sigmaFactor)))).
End Method.
Arguments outer : clear implicits.
