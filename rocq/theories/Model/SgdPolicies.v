(** The policies of the plain SGD optimizers StandardSGD and AdaGrad, on vectors. *)
From Coq Require Import List.
From Verif.Base Require Import Num.
From Verif.Model Require Import Updates.
Import ListNotations.

Section Policies.
  Context {N : Num}.
  (** sgd/update_policies/vanilla_update.hpp 61-67; no state *)
  Definition sgd_vanilla (u : list unit) (x : list N) (h : N) (g : list N) : list unit * list N := vec_up vanilla_up u x h g.
  (** ada_grad/ada_grad_update.hpp 94-101; state: squaredGradient *)
  Definition sgd_adagrad (eps : N) (u x : list N) (h : N) (g : list N) : list N * list N := vec_up (adagrad_up eps) u x h g.
  (** the states made by the constructors (vanilla_update.hpp 46-48, ada_grad_update.hpp
      76-83: zeros of the iterate's size) *)
  Definition sgd_vanilla_init (x : list N) : list unit := map (fun _ => tt) x.
  Definition sgd_adagrad_init (x : list N) : list N := map (fun _ => n0) x.
  (** sgd/decay_policies/no_decay.hpp 54-59 *)
  Definition sgd_no_decay (d : unit) (x : list N) (h : N) (g : list N) : unit * N := (d, h).

  (** sgd/update_policies/momentum_update.hpp 111-117, nesterov_momentum_update.hpp 88-95,
      quasi_hyperbolic_update.hpp 93-101; state: velocity *)
  Definition sgd_momentum (mu : N) (u x : list N) (h : N) (g : list N) : list N * list N := vec_up (momentum_up mu) u x h g.
  Definition sgd_nesterov (mu : N) (u x : list N) (h : N) (g : list N) : list N * list N := vec_up (nesterov_up mu) u x h g.
  Definition sgd_qh (mu nu : N) (u x : list N) (h : N) (g : list N) : list N * list N := vec_up (qh_up mu nu) u x h g.
  (** the constructors (momentum_update.hpp 95-97, nesterov_momentum_update.hpp 71-73,
      quasi_hyperbolic_update.hpp 79-84): zeros of the iterate's size *)
  Definition sgd_velocity_init (x : list N) : list N := map (fun _ => n0) x.
  (** adam/adam_update.hpp 108-132, adam/amsgrad_update.hpp 104-126; state: the moments and
      the iteration counter (the same in every coordinate); [pw] is std::pow *)
  Definition sgd_adam (pw : N -> nat -> N) (eps b1 b2 : N) (u : list (@adam_st N)) (x : list N) (h : N) (g : list N) : list (@adam_st N) * list N :=
    vec_up (adam_up pw eps b1 b2) u x h g.
  Definition sgd_amsgrad (pw : N -> nat -> N) (eps b1 b2 : N) (u : list (@adam_st N)) (x : list N) (h : N) (g : list N) : list (@adam_st N) * list N :=
    vec_up (amsgrad_up pw eps b1 b2) u x h g.
  (** adam_update.hpp 92-98, amsgrad_update.hpp 88-95 *)
  Definition sgd_adam_init (x : list N) : list (@adam_st N) := map (fun _ => adam_init) x.
End Policies.
