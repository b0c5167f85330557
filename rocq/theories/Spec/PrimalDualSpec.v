(** Positive definite matrices, the contracts of the linear algebra routines the primal-dual
    solver calls, and the equations its search directions solve. *)
From Coq Require Import List Arith Reals.
From Verif.Spec Require Import LpSpec SvecSpec.
Import ListNotations.
Local Open Scope R_scope.

Notation Mt := (nat -> nat -> R).

(** equality of n by n matrices *)
Definition meq (n : nat) (A B : Mt) : Prop := forall i j, (i < n)%nat -> (j < n)%nat -> A i j = B i j.
(** v^T A v *)
Definition quad (n : nat) (A : Mt) (v : nat -> R) : R := sum_n n (fun i => sum_n n (fun j => v i * A i j * v j)).
Definition pos_def (n : nat) (A : Mt) : Prop := forall v, (exists i, (i < n)%nat /\ v i <> 0) -> 0 < quad n A v.
(** sum of the products of the elements *)
Definition frob (n : nat) (A B : Mt) : R := sum_n n (fun i => sum_n n (fun j => A i j * B i j)).
(** y_0 A_0 + y_1 A_1 + ... *)
Definition combo (y : list R) (As : list Mt) (i j : nat) : R :=
  sumR (map (fun q => fst q * (snd q) i j) (combine y As)).

(** Armadillo's routines *)
Definition chol_ok (n : nat) (chol : Mt -> option Mt) : Prop :=
  forall a l, chol a = Some l -> meq n a (matmul n l (fun i j => l j i)).
Definition inv_ok (n : nat) (inv : Mt -> option Mt) : Prop :=
  forall l li, inv l = Some li ->
    meq n (matmul n li l) (fun i j => if Nat.eqb i j then 1 else 0) /\
    meq n (matmul n l li) (fun i j => if Nat.eqb i j then 1 else 0).
(** the largest eigenvalue of a symmetric matrix bounds its Rayleigh quotients *)
Definition eig_ok (n : nat) (eigmax : Mt -> option R) : Prop :=
  forall m e, symmetric n m -> eigmax m = Some e -> forall v, quad n m v <= e * sum_n n (fun i => v i * v i).
(** a x + x b + c = 0, asked for with a = b positive definite *)
Definition syl_ok (n : nat) (syl : Mt -> Mt -> Mt -> Mt) : Prop :=
  forall a c, symmetric n a -> pos_def n a -> symmetric n c ->
    symmetric n (syl a a c) /\
    meq n (fun i j => matmul n a (syl a a c) i j + matmul n (syl a a c) a i j + c i j) (fun _ _ => 0).
Definition lsolve_ok (lsolve : list (list R) -> list R -> option (list R)) : Prop :=
  forall m rhs x, lsolve m rhs = Some x -> length x = length m /\ map (fun r => dotv r x) m = rhs.
(** 1 / x; for a zero it is an infinity of its sign *)
Definition recip_ok (tau : R) (recip : R -> R) : Prop :=
  (forall x, x <> 0 -> recip x = 1 / x) /\ (recip 0 < 0 \/ 1 <= tau * recip 0).

(** the linearised optimality conditions: primal feasibility, dual feasibility and
    complementarity with right-hand side Rc *)
Definition newton_direction (n : nat) (C : Mt) (As : list Mt) (bs : list R) (X : Mt) (y : list R) (Z : Mt) (Rc : Mt)
    (dX : Mt) (dy : list R) (dZ : Mt) : Prop :=
  symmetric n dX /\ symmetric n dZ /\ length dy = length As /\
  (forall k A b, nth_error As k = Some A -> nth_error bs k = Some b -> frob n A X + frob n A dX = b) /\
  meq n (fun i j => Z i j + dZ i j + (combo y As i j + combo dy As i j)) C /\
  meq n (fun i j => half_sum (matmul n Z dX) (matmul n dX Z) i j + half_sum (matmul n X dZ) (matmul n dZ X) i j) Rc.
