(** C29: projections onto the l1 ball and onto sparse vectors. *)
From Coq Require Import List Arith Bool ZArith Reals Lra Lia.
From Verif.Base Require Import Num Instances Vec SortIdx.
From Verif.Model Require Import Common Proximal.
From Verif.Spec Require Import LpSpec ProximalSpec.
From Verif.Proof Require Import ProximalProof ProximalL0 ProximalEx.
Import ListNotations.
Local Open Scope R_scope.

(** ProjectToL1Ball, radius tau >= 0: the result is in the ball; a point of the ball is left
    alone; no element grows or changes sign; the result is the nearest point among those
    whose 1-norm is not larger than its own. *)
Theorem C29_l1 :
  forall mx sortd (v : list R) (tau : R) (r : list R), sorts_down sortd -> 0 <= tau ->
  project_l1 (N := RNum mx) sortd v tau = Ret r ->
  length r = length v /\ norm1 r <= tau /\ (norm1 v <= tau -> r = v) /\
  (forall j x z, nth_error v j = Some x -> nth_error r j = Some z -> 0 <= x * z /\ Rabs z <= Rabs x) /\
  (forall y, length y = length v -> norm1 y <= norm1 r -> dist2 v r <= dist2 v y).
Proof. exact l1_ok. Qed.
Print Assumptions C29_l1.

(** It is not the nearest point of the ball: theta is divided by rho, not by rho + 1. *)
Theorem C29_l1_refuted :
  forall mx, exists v tau r y, 0 < tau /\
  project_l1 (N := RNum mx) sort_down v tau = Ret r /\ length y = length v /\ norm1 y <= tau /\ dist2 v y < dist2 v r.
Proof. exact l1_not_projection. Qed.
Print Assumptions C29_l1_refuted.

(** When rho is 0 a positive number is divided by zero (so theta is infinite, as modelled). *)
Theorem C29_l1_division :
  forall mx sortd (v : list R) (tau : R), sorts_down sortd -> tau < norm1 v -> v <> [] ->
  let s := sortd (map Rabs v) in
  find_rho (N := RNum mx) tau s (cumsum (N := RNum mx) s) (length s) = 0%nat ->
  0 < nth 0 (cumsum (N := RNum mx) s) 0 - tau.
Proof. exact l1_infinite. Qed.
Print Assumptions C29_l1_division.

(** ProjectToL0Ball, 0 <= tau <= n, every number type: n - tau elements become zero, the others
    stay, and none that stays has a smaller magnitude than one that does not. *)
Theorem C29_l0 :
  forall (N : Num) (sort : list N -> list nat) (v : list N) tau r,
  (forall l, sorted_index l (sort l)) -> (0 <= tau <= Z.of_nat (length v))%Z -> (Z.of_nat (length v) < 2 ^ 64)%Z ->
  project_l0 sort v tau = Ret r ->
  exists kill, NoDup kill /\ Z.of_nat (length kill) = (Z.of_nat (length v) - tau)%Z /\
    (forall i, In i kill -> (i < length v)%nat) /\ length r = length v /\
    (forall j, nth_error r j = if in_dec Nat.eq_dec j kill then Some n0 else nth_error v j) /\
    (forall i j x y, In i kill -> ~ In j kill -> nth_error v i = Some x -> nth_error v j = Some y -> nlt (nabs y) (nabs x) = false).
Proof.
  intros N sort v tau r S0 R0 L E. destruct (l0_ok sort v tau r S0 R0 L E) as (kill & A & B & C & D & F & G & _).
  exists kill. exact (conj A (conj B (conj C (conj D (conj F G))))).
Qed.
Print Assumptions C29_l0.
(** Over the reals no vector with at most tau non-zero elements is closer. *)
Theorem C29_l0_best :
  forall mx sort (v : list R) tau (r : list R),
  (forall l, sorted_index (N := RNum mx) l (sort l)) -> (0 <= tau <= Z.of_nat (length v))%Z -> (Z.of_nat (length v) < 2 ^ 64)%Z ->
  project_l0 (N := RNum mx) sort v tau = Ret r ->
  (Z.of_nat (length v) - tau <= Z.of_nat (zeros_of r))%Z /\
  forall y, length y = length v -> (Z.of_nat (length v) - tau <= Z.of_nat (zeros_of y))%Z -> dist2 v r <= dist2 v y.
Proof. exact l0_best. Qed.
Print Assumptions C29_l0_best.
(** It returns for every vector without NaN. *)
Theorem C29_l0_returns :
  forall (N : Num) (sort : list N -> list nat) (v : list N) tau,
  (0 <= tau <= Z.of_nat (length v))%Z -> (Z.of_nat (length v) < 2 ^ 64)%Z -> (forall x, In x v -> nisnan (nabs x) = false) ->
  exists r, project_l0 sort v tau = Ret r.
Proof. exact @l0_ret. Qed.
Print Assumptions C29_l0_returns.
(** For every other int the number of elements to kill wraps round and the loop leaves the vector. *)
Theorem C29_l0_bad :
  forall (N : Num) (sort : list N -> list nat) (v : list N) tau,
  (- 2 ^ 31 <= tau < 2 ^ 31)%Z -> (Z.of_nat (length v) < 2 ^ 63)%Z -> (tau < 0 \/ Z.of_nat (length v) < tau)%Z ->
  project_l0 sort v tau = Bad.
Proof. exact @l0_bad. Qed.
Print Assumptions C29_l0_bad.

Example C29_ex1 : sorts_down sort_down /\ project_l1 (N := RNum 0) sort_down [2; 2] 2 = Ret [0; 0].
Proof. exact (conj sort_down_ok (l1_two 0)). Qed.
Example C29_ex2 : project_l0 (N := ZNum) isort_index [3; -5; 1; 4]%Z 2 = Ret [0; -5; 0; 4]%Z.
Proof. reflexivity. Qed.
Example C29_ex3 : project_l0 (N := ZNum) isort_index [3; -5; 1; 4]%Z (-1) = Bad.
Proof. reflexivity. Qed.
