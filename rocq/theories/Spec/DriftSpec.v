(** Three linear functions of one variable, 10x, -x and -x: their sum is 8x. *)
From Coq Require Import List Arith Reals.
From Verif.Base Require Import Num Instances.
From Verif.Model Require Import Sgd.
From Verif.Spec Require Import ConvergeSpec.
Import ListNotations.
Local Open Scope R_scope.

Definition coef (i : nat) : R := match i with O => 10 | _ => -1 end.
Definition lin3 (mx : R) : SepFun (RNum mx) (list R) (list R) := @Build_SepFun (RNum mx) (list R) (list R)
  3
  (fun _ x b k => sumR (map (fun i => coef i * nth 0 x 0) (seq b k)))
  (fun _ x b k => (sumR (map (fun i => coef i * nth 0 x 0) (seq b k)), [sumR (map coef (seq b k))])).
