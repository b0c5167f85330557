(** Vocabulary for the convergence of SGD with a constant step size. *)
From Coq Require Import List Arith Reals Permutation.
From Verif.Base Require Import Num Instances.
From Verif.Model Require Import Sgd SgdPolicies.
From Verif.Spec Require Import ConvergeSpec VrRateSpec.
Import ListNotations.
Local Open Scope R_scope.

(** the distance of two points, and the length of a vector *)
Definition dist (a b : list R) : R := sqrt (sqdist a b).
Definition len (a : list R) : R := sqrt (sqn a).
(** [f] is made of the functions 0 .. n-1 with gradients [gr i]; the shuffles permute them, and the
    gradient of a batch is the sum of the gradients of its functions *)
Definition sgd_sum (mx : R) (p : nat) (f : SepFun (RNum mx) (list R) (list R)) (gr : nat -> list R -> list R) : Prop :=
  forall j, exists order : list nat, Permutation order (seq 0 (sf_num f)) /\
    forall x b c, length x = p -> (b + c <= sf_num f)%nat ->
      snd (sf_evalgrad f j x b c) = sum_vec p (map (fun i => gr i x) (firstn c (skipn b order))).
(** how much the functions disagree at [y]: the lengths of their gradients there, added up *)
Definition disagreement (n : nat) (gr : nat -> list R -> list R) (y : list R) : R :=
  sumR (map (fun i => len (gr i y)) (seq 0 n)).
(** the number of passes reported by EndEpoch *)
Definition passes {N X G} (tr : list (event N X G)) : nat :=
  length (filter (fun e => match e with EndEpoch _ _ _ => true | _ => false end) tr).
(** callbacks that leave the gradients alone *)
Definition watches {N X G} (cb : Callbacks N X G) : Prop := forall h g, cb_grad cb h g = g.
(** SGD with the plain update and a constant step size *)
Definition plain_sgd (mx : R) (batch max : nat) (tol : R) (shuffle exact : bool) : Cfg (RNum mx) (list R) (list R) (list unit) unit :=
  Build_Cfg (RNum mx) (list R) (list R) (list unit) unit batch max tol shuffle exact
    (sgd_vanilla (N := RNum mx)) (sgd_no_decay (N := RNum mx)).
(** the bound after [e] passes from the distance [d]: the start is forgotten geometrically, up to a
    floor proportional to the step size and to the disagreement of the functions *)
Definition floor_bound (n : nat) (L mu h s d : R) (e : nat) : R :=
  (1 - h * INR n * mu / 4) ^ e * d + 8 * h * L * s / mu.
