(** What the optimizers other than SGD have in common: the events a user sees and
    the callbacks. *)
From Coq Require Import List Arith Bool.
From Verif.Base Require Import Num Size.
Import ListNotations.

(** Events of one Optimize() call.  A callback event carries the data shown to the
    callbacks; an evaluation carries the value computed by the user's function. *)
Inductive ev (N : Num) (X G : Type) : Type :=
| Begin (x : X)                          (* Callback::BeginOptimization            *)
| End (x : X)                            (* Callback::EndOptimization              *)
| EvG (x : X) (v : N) (g g' : G)         (* EvaluateWithGradient and its callback;
                                            g' is g after the Gradient hooks       *)
| Ev (x : X) (v : N)                     (* Evaluate and its callback              *)
| Gr (x : X) (k : nat) (g g' : G)        (* Gradient (of part k) and its callback  *)
| St (x : X).                            (* StepTaken                              *)
Arguments Begin {N X G}. Arguments End {N X G}. Arguments EvG {N X G}. Arguments Ev {N X G}.
Arguments Gr {N X G}. Arguments St {N X G}.

(** The callback pack (see Model/Sgd.v): answers are functions of the history,
    newest event first.  [cs_grad h x v g] is what the Gradient hooks make of g. *)
Record CB (N : Num) (X G : Type) : Type := {
  cs_stop : list (ev N X G) -> bool;
  cs_grad : list (ev N X G) -> X -> N -> G -> G
}.
Arguments cs_stop {N X G}. Arguments cs_grad {N X G}.

Record Res (N : Num) (X G : Type) : Type := {
  o_val : N;                    (* returned value              *)
  o_x : X;                      (* the iterate after the call  *)
  o_tr : list (ev N X G)        (* events, oldest first        *)
}.
Arguments o_val {N X G}. Arguments o_x {N X G}. Arguments o_tr {N X G}.

(** [for (size_t i = 1; i != maxIterations; ++i)]: with maxIterations = 0 the
    counter has to wrap around, so the loop runs while i <> 2^64. *)
Definition bound (maxIterations : nat) : nat :=
  match maxIterations with O => S size_max | _ => maxIterations end.

Inductive outc (A : Type) : Type :=
| Ret (a : A)        (* returned normally                                     *)
| Bad                (* undefined behaviour, or an out-of-bounds access that
                        Armadillo reports by an exception                     *)
| More.              (* not finished within the given number of rounds        *)
Arguments Ret {A}. Arguments Bad {A}. Arguments More {A}.
