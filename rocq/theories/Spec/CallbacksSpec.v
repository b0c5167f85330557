(** Vocabulary for C06-C08. *)
From Coq Require Import List Bool.
From Verif.Base Require Import Num.
Import ListNotations.

Section S.
  Context {N : Num}.
  (** [v] is a new minimum after the values [seen]: it is a number below the
      largest double, and no earlier value is at or below it. *)
  Definition new_min (seen : list N) (v : N) : Prop :=
    nlt v nmax = true /\ forall w, In w seen -> nle w v = false.
End S.
