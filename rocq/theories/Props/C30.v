(** C30: VanillaUpdate, MomentumUpdate, NesterovMomentumUpdate and QHUpdate, in
    exact arithmetic.  Histories are (stepSize, gradient) pairs, oldest first; [run]
    feeds them to the policy one after the other, the velocity starting at 0. *)
From Coq Require Import List Reals Lra.
From Verif.Base Require Import Num Instances.
From Verif.Model Require Import Updates.
From Verif.Spec Require Import UpdatesSpec.
From Verif.Proof Require Import UpdatesProof.
Import ListNotations.
Local Open Scope R_scope.

(** The policies act on every coordinate separately (any arithmetic, any policy of
    Model/Updates.v). *)
Theorem C30_coordinatewise :
  forall (N : Num) (S : Type) (up : S -> N -> N -> N -> S * N) l ss xs j s x,
  length ss = length xs -> Forall (fun hg => length (snd hg) = length xs) l ->
  nth_error ss j = Some s -> nth_error xs j = Some x ->
  nth_error (snd (vec_run up ss xs l)) j =
    Some (snd (run up s x (map (fun hg => (fst hg, nth j (snd hg) n0)) l))).
Proof. exact @vec_run_nth. Qed.
Print Assumptions C30_coordinatewise.

(** Gradient i, followed by k later updates, has weight 1 (vanilla),
    1 + mu + ... + mu^k (momentum) or 1 + mu + ... + mu^(k+1) (Nesterov). *)
Theorem C30_vanilla : forall (mx : R) (l : list (R * R)) (x : R),
  snd (run (N := RNum mx) (vanilla_up (N := RNum mx)) tt x l) = x - weighted (fun _ => 1) l.
Proof. exact vanilla_moves. Qed.
Theorem C30_momentum : forall (mx mu x : R) (l : list (R * R)),
  snd (run (N := RNum mx) (momentum_up (N := RNum mx) mu) 0 x l) = x - weighted (geom mu) l.
Proof. exact momentum_moves0. Qed.
Theorem C30_nesterov : forall (mx mu x : R) (l : list (R * R)),
  snd (run (N := RNum mx) (nesterov_up (N := RNum mx) mu) 0 x l) = x - weighted (fun k => geom mu (S k)) l.
Proof. exact nesterov_moves0. Qed.
Theorem C30_quasi_hyperbolic : forall (mx mu nu x : R) (l : list (R * R)),
  snd (run (N := RNum mx) (qh_up (N := RNum mx) mu nu) 0 x l) = x - qh_sum mu nu l.
Proof. exact qh_moves0. Qed.
Print Assumptions C30_momentum.
Print Assumptions C30_nesterov.
Print Assumptions C30_quasi_hyperbolic.

(** Without momentum all of them are plain gradient descent. *)
Theorem C30_zero_momentum : forall (mx x : R) (l : list (R * R)),
  let van := snd (run (N := RNum mx) (vanilla_up (N := RNum mx)) tt x l) in
  snd (run (N := RNum mx) (momentum_up (N := RNum mx) 0) 0 x l) = van /\
  snd (run (N := RNum mx) (nesterov_up (N := RNum mx) 0) 0 x l) = van /\
  (forall mu, snd (run (N := RNum mx) (qh_up (N := RNum mx) mu 0) 0 x l) = van) /\
  (forall nu, snd (run (N := RNum mx) (qh_up (N := RNum mx) 0 nu) 0 x l) = van).
Proof. exact zero_momentum. Qed.
Print Assumptions C30_zero_momentum.

(* three updates from 10, computed *)
Example C30_momentum_run : forall mx,
  snd (run (N := RNum mx) (momentum_up (N := RNum mx) (1/2)) 0 10 [(1, 4); (1, 2); (1/2, 4)]) = -2.
Proof. intros. rewrite C30_momentum. unfold weighted, geom. simpl. eqR. lra. Qed.
Example C30_nesterov_run : forall mx,
  snd (run (N := RNum mx) (nesterov_up (N := RNum mx) (1/2)) 0 10 [(1, 4); (1, 2)]) = 0.
Proof. intros. rewrite C30_nesterov. unfold weighted, geom. simpl. eqR. lra. Qed.
