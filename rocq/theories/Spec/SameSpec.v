(** Vocabulary for runs that cannot be told apart. *)
From Coq Require Import List Arith Reals.
From Verif.Base Require Import Num Vec Instances.
From Verif.Model Require Import Common Sgd VarRed.
Import ListNotations.

Section Same.
  Context {N : Num} {X G U D U' D' : Type}.
  (** the same value returned, the same final point, the same evaluations, steps and callbacks in
      the same order *)
  Definition same_run (o : outcome (res N X G U D)) (o' : outcome (res N X G U' D')) : Prop :=
    match o, o' with
    | Return r, Return r' => r_val r' = r_val r /\ r_x r' = r_x r /\ r_trace r' = r_trace r
    | UB, UB => True
    | Diverge, Diverge => True
    | _, _ => False
    end.
  (** the configurations differ in the update policy only *)
  Definition same_settings (c : Cfg N X G U D) (c' : Cfg N X G U' D') : Prop :=
    c_batch c' = c_batch c /\ c_max c' = c_max c /\ c_tol c' = c_tol c /\ c_shuffle c' = c_shuffle c /\ c_exact c' = c_exact c.
End Same.

(** SGD with the update policy [up], a fixed step size [h] and the settings [batch] .. [exact] *)
Definition sgd_with {N : Num} {U : Type} (up : U -> list N -> N -> list N -> U * list N) (batch max : nat) (tol : N) (shuffle exact : bool)
    : Cfg N (list N) (list N) U unit :=
  {| c_batch := batch; c_max := max; c_tol := tol; c_shuffle := shuffle; c_exact := exact;
     c_up := up; c_dp := fun d _ h _ => (d, h) |}.

(** the points reported as steps *)
Definition points {N : Num} (tr : list (event N (list N) (list N))) : list (list N) :=
  flat_map (fun e => match e with Step x => [x] | _ => [] end) tr.
Definition gd_points {N : Num} (tr : list (ev N (list N) (list N))) : list (list N) :=
  flat_map (fun e => match e with St x => [x] | _ => [] end) tr.

Definition vr_points {N : Num} (tr : list (vev N)) : list (list N) :=
  flat_map (fun e => match e with VStep x _ => [x] | _ => [] end) tr.
(** step x, step (step x), .. *)
Fixpoint orbit_of {A : Type} (step : A -> A) (k : nat) (x : A) : list A :=
  match k with O => [] | S k' => step x :: orbit_of step k' (step x) end.

(** a function of one coordinate with two parts, whose gradient is 1 everywhere *)
Definition ramp {N : Num} : SepFun N (list N) (list N) :=
  {| sf_num := 2; sf_eval := fun _ _ _ _ => n0; sf_evalgrad := fun _ _ _ _ => (n0, [n1]) |}.
(** callbacks that do nothing *)
Definition mute {N : Num} : Callbacks N (list N) (list N) := {| cb_stop := fun _ => false; cb_grad := fun _ g => g |}.
Definition quiet {N : Num} : CB N (list N) (list N) := {| cs_stop := fun _ => false; cs_grad := fun _ _ _ g => g |}.
(** std::pow with an integer exponent *)
Definition rpow (a : R) (k : nat) : R := (a ^ k)%R.
