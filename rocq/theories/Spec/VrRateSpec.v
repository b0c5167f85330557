(** Vocabulary for the convergence of SVRG and SARAH: sums of smooth functions whose order
    a shuffle permutes. *)
From Coq Require Import List Arith Reals Permutation.
From Verif.Base Require Import Num Instances.
From Verif.Model Require Import VarRed.
From Verif.Spec Require Import Gradient ConvergeSpec.
Import ListNotations.
Local Open Scope R_scope.

Fixpoint plus_vec (a b : list R) : list R :=
  match a, b with x :: a', y :: b' => (x + y) :: plus_vec a' b' | _, _ => [] end.
(** the sum of vectors with [p] coordinates *)
Definition sum_vec (p : nat) (l : list (list R)) : list R := fold_right plus_vec (repeat 0 p) l.

Section Sum.
  Variable mx : R.
  (** [f] is made of the functions 0 .. n-1 with gradients [gr i]; the shuffles permute them,
      and the gradient of a batch is the sum of the gradients of its functions *)
  Definition shuffled_sum (p : nat) (f : VFun (RNum mx)) (gr : nat -> list R -> list R) : Prop :=
    forall j, exists order : list nat, Permutation order (seq 0 (vf_num f)) /\
      forall x b c, length x = p -> (b + c <= vf_num f)%nat ->
        vf_grad f j x b c = sum_vec p (map (fun i => gr i x) (firstn c (skipn b order))).
  (** every gradient is Lipschitz with constant L *)
  Definition each_smooth (p n : nat) (L : R) (gr : nat -> list R -> list R) : Prop :=
    forall i x y, (i < n)%nat -> length x = p -> length y = p ->
      length (gr i x) = p /\ sqdist (gr i x) (gr i y) <= L * L * sqdist x y.
  (** the average of the gradients *)
  Definition avg_grad (p n : nat) (gr : nat -> list R -> list R) (x : list R) : list R :=
    map (fun a => a / INR n) (sum_vec p (map (fun i => gr i x) (seq 0 n))).
  (** callbacks that watch *)
  Definition watching (cb : VCB (RNum mx)) : Prop := forall h x g, vc_hook cb h x g = g.
  (** the number of steps reported *)
  Definition reported (tr : list (vev (RNum mx))) : nat :=
    length (filter (fun e => match e with VStep _ _ => true | _ => false end) tr).
End Sum.
