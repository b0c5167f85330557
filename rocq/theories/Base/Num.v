(** The arithmetic the C++ code computes with.

    ensmallen is templated over the element type of the matrices (float or
    double).  [Num] lists the operations the code uses on that type, and no
    laws: a theorem stated for every [N : Num] holds for IEEE arithmetic,
    for the reals and for anything else.  When a law is needed it appears as
    a hypothesis of the theorem. *)
From Coq Require Import ZArith Bool.

Record Num : Type := mkNum {
  T :> Type;
  n0 : T;                       (* ElemType(0)                               *)
  n1 : T;                       (* ElemType(1)                               *)
  nadd : T -> T -> T;
  nsub : T -> T -> T;
  nmul : T -> T -> T;
  ndiv : T -> T -> T;
  nopp : T -> T;
  nabs : T -> T;                (* std::abs                                  *)
  nsqrt : T -> T;               (* std::sqrt                                 *)
  nlt : T -> T -> bool;         (* operator<   (a > b is written nlt b a)    *)
  nle : T -> T -> bool;         (* operator<=                                *)
  neq : T -> T -> bool;         (* operator==                                *)
  nisnan : T -> bool;           (* std::isnan                                *)
  nisinf : T -> bool;           (* std::isinf                                *)
  nmax : T;                     (* std::numeric_limits<ElemType>::max()      *)
  nofZ : Z -> T                 (* conversion of an integer                  *)
}.

Arguments n0 {_}. Arguments n1 {_}.
Arguments nadd {_}. Arguments nsub {_}. Arguments nmul {_}. Arguments ndiv {_}.
Arguments nopp {_}. Arguments nabs {_}. Arguments nsqrt {_}.
Arguments nlt {_}. Arguments nle {_}. Arguments neq {_}.
Arguments nisnan {_}. Arguments nisinf {_}. Arguments nmax {_}. Arguments nofZ {_}.

Definition nofnat {N : Num} (n : nat) : N := nofZ (Z.of_nat n).

Declare Scope num_scope.
Delimit Scope num_scope with num.
Notation "x + y" := (nadd x y) : num_scope.
Notation "x - y" := (nsub x y) : num_scope.
Notation "x * y" := (nmul x y) : num_scope.
Notation "x / y" := (ndiv x y) : num_scope.
Notation "- x" := (nopp x) : num_scope.
Notation "x <? y" := (nlt x y) : num_scope.
Notation "x <=? y" := (nle x y) : num_scope.
Notation "x =? y" := (neq x y) : num_scope.

(** What the comparison operators of every C++ floating-point type satisfy
    (NaN compares false with everything, so these hold for it too). *)
Record OrdLaws (N : Num) : Prop := {
  ol_irrefl : forall x : N, nlt x x = false;
  ol_trans : forall x y z : N, nlt x y = true -> nlt y z = true -> nlt x z = true;
  ol_lt_le : forall x y : N, nlt x y = true -> nle x y = true;
  ol_le_lt : forall x y z : N, nle x y = true -> nlt y z = true -> nlt x z = true;
  ol_lt_le_trans : forall x y z : N, nlt x y = true -> nle y z = true -> nlt x z = true;
  ol_le_trans : forall x y z : N, nle x y = true -> nle y z = true -> nle x z = true;
  (* two comparable numbers (neither is NaN) are ordered *)
  ol_total : forall x y : N, nisnan x = false -> nisnan y = false ->
               nlt x y = false -> nle y x = true;
  ol_le_not_lt : forall x y : N, nle x y = true -> nlt y x = false;
  ol_nan_lt_l : forall x y : N, nisnan x = true -> nlt x y = false;
  ol_nan_lt_r : forall x y : N, nisnan y = true -> nlt x y = false;
  ol_eq : forall x y : N, neq x y = true <-> nle x y = true /\ nle y x = true
}.
