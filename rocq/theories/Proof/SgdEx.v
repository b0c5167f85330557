(** A small concrete objective used by the examples: f_i(x) = (x - i)^2 for
    i < n over the integers, steps of size 1/10 rounded towards zero. *)
From Coq Require Import List ZArith Bool.
From Verif.Base Require Import Num Instances.
From Verif.Model Require Import Sgd.
Import ListNotations.
Local Open Scope Z_scope.

Definition ex_f (n : nat) : SepFun ZNum Z Z := Build_SepFun ZNum Z Z n
  (fun _ x b k =>
    fold_left (fun a i => a + (x - Z.of_nat i) * (x - Z.of_nat i)) (seq b k) 0)
  (fun _ x b k =>
    (fold_left (fun a i => a + (x - Z.of_nat i) * (x - Z.of_nat i)) (seq b k) 0,
     fold_left (fun a i => a + 2 * (x - Z.of_nat i)) (seq b k) 0)).

Definition ex_c (batch max : nat) (tol : Z) (shuffle exact : bool) : Cfg ZNum Z Z unit unit :=
  Build_Cfg ZNum Z Z unit unit batch max tol shuffle exact
    (fun _ x step g => (tt, x - step * (Z.quot g 10)))
    (fun _ _ step _ => (tt, step)).

Definition ex_cb (stop : list (event ZNum Z Z) -> bool) : Callbacks ZNum Z Z :=
  {| cb_stop := stop; cb_grad := fun _ g => g |}.
Definition nostop_cb := ex_cb (fun _ => false).
(* asks to stop at the end of epoch [k] *)
Definition stop_at_epoch_end (k : nat) := ex_cb (fun h =>
  match h with EndEpoch _ e _ :: _ => Nat.eqb e k | _ => false end).
(* asks to stop right after the k-th evaluation *)
Definition stop_at_eval (k : nat) := ex_cb (fun h =>
  match h with EvalGrad _ _ _ _ _ :: r =>
    Nat.eqb (length (filter (fun e => match e with EvalGrad _ _ _ _ _ => true | _ => false end) h)) k
  | _ => false end).

Definition ex_run c (f : SepFun ZNum Z Z) cb fuel x := optimize_with c f cb fuel tt tt (1 : ZNum) x.
