(** Specification for C60. *)
From Coq Require Import Arith List.
From Verif.Base Require Import Num.
From Verif.Model Require Import Common Sgd Eve.

(** the same SGD (or Eve) object with another maxIterations *)
Definition with_max {N X G U D} (M : nat) (c : Cfg N X G U D) : Cfg N X G U D :=
  {| c_batch := c_batch c; c_max := M; c_tol := c_tol c; c_shuffle := c_shuffle c; c_exact := c_exact c;
     c_up := c_up c; c_dp := c_dp c |}.
Definition eve_with_max {N : Num} (M : nat) (c : @ecfg N) : @ecfg N :=
  {| e_step := e_step c; e_batch := e_batch c; e_b1 := e_b1 c; e_b2 := e_b2 c; e_b3 := e_b3 c; e_eps := e_eps c;
     e_clip := e_clip c; e_max := M; e_tol := e_tol c; e_shuffle := e_shuffle c; e_exact := e_exact c |}.

(** A run that is watched for a while: CMA-ES is watched by its samples, the generations
    from F on are not looked at. *)
Definition watched {A B} (F : nat) (sample : nat -> A -> option B) (i : nat) (a : A) : option B := if i <? F then sample i a else None.

(** no StepTaken in a history *)
Definition no_step {N X G} (tr : list (ev N X G)) : Prop := forall y, ~ In (St y) tr.
