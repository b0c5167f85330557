(** C42: the weight vectors of MOEA/D. *)
From Coq Require Import List Arith Bool ZArith Reals Lia Lra Permutation.
From Verif.Base Require Import Num Vec Instances.
From Verif.Model Require Import DasDennis.
From Verif.Spec Require Import DasDennisSpec LpSpec.
From Verif.Proof Require Import DasDennisProof DasDennisReal.
Import ListNotations.

(** The binomial coefficient is exact as long as the products of its loop fit in 64 bits. *)
Theorem C42_binomial : forall n k, k <= n -> (Z.of_nat (choose n k * Nat.min k (n - k)) < 2 ^ 64)%Z ->
  binomial_coefficient n k = Z.of_nat (choose n k).
Proof. exact binomial_ok. Qed.
Print Assumptions C42_binomial.

Example C42_binomial_ex : binomial_coefficient 12 5 = 792%Z.
Proof. rewrite C42_binomial; [reflexivity|lia|vm_compute; reflexivity]. Qed.

(** The number of partitions found is the greatest whose lattice has no more points than asked
    for (and at least one). *)
Theorem C42_partitions : forall fuel m n, 2 <= m -> 1 <= n -> (Z.of_nat ((m + n) * (m + n)) < 2 ^ 64)%Z -> n <= fuel ->
  exists q, find_partitions fuel m (Z.of_nat n) = Some q /\ 1 <= q /\
    n < choose (m + (q + 1) - 1) (q + 1) /\ (q = 1 \/ choose (m + q - 1) q <= n).
Proof. intros fuel m n Hm Hn HB HF. destruct (find_partitions_ok fuel m n Hm Hn HB HF) as (q & A & B & C & D). exists q. rewrite Nat.add_1_r. auto. Qed.
Print Assumptions C42_partitions.

Example C42_partitions_ex : exists q, find_partitions 100 3 (Z.of_nat 17) = Some q /\ q = 4.
Proof. exists 4. split; reflexivity. Qed.

(** In any number type: when the number of points is that of a lattice, the columns are the
    lattice points (i_1, ..., i_m) / p + epsilon, each exactly once. *)
Theorem C42_lattice : forall (N : Num) m n p (nan epsilon : N), 2 <= m -> 1 <= p -> n = choose (m + p - 1) p ->
  (Z.of_nat ((m + n) * (m + n)) < 2 ^ 64)%Z ->
  exists cs fuel0, NoDup cs /\ (forall c, In c cs <-> lattice m p c) /\ length cs = n /\
    forall fuel, fuel0 <= fuel -> generate fuel m n nan epsilon =
      GRet (map (map (fun i => nadd (nmul (ndiv n1 (nofnat p)) (nofnat i)) epsilon)) cs).
Proof. exact generate_ok. Qed.
Print Assumptions C42_lattice.

(** In real arithmetic: as many different columns as asked for, each non-negative and summing to
    one, up to the epsilon that is added to every entry. *)
Theorem C42_simplex : forall mx m n p (nan eps : R), (2 <= m)%nat -> (1 <= p)%nat -> n = choose (m + p - 1) p ->
  (Z.of_nat ((m + n) * (m + n)) < 2 ^ 64)%Z ->
  exists ws fuel0, (forall fuel, (fuel0 <= fuel)%nat -> generate (N := RNum mx) fuel m n nan eps = GRet ws) /\
    length ws = n /\ NoDup ws /\
    (forall w, In w ws <-> exists c, lattice m p c /\ w = map (fun i => INR i / INR p + eps)%R c) /\
    forall w, In w ws -> length w = m /\ sumR w = (1 + INR m * eps)%R /\ ((0 <= eps)%R -> forall a, In a w -> (0 <= a)%R).
Proof. exact generate_real. Qed.
Print Assumptions C42_simplex.

(** three objectives, two partitions: the hypotheses hold with six points *)
Example C42_ex : choose (3 + 2 - 1) 2 = 6 /\ (Z.of_nat ((3 + 6) * (3 + 6)) < 2 ^ 64)%Z /\
  generate (N := ZNum) 100 3 6 (-7)%Z 0%Z =
    GRet [[0; 0; 0]; [0; 0; 0]; [0; 0; 0]; [0; 0; 0]; [0; 0; 0]; [0; 0; 0]]%Z /\
  forall c, In c [[2; 0; 0]; [1; 1; 0]; [1; 0; 1]; [0; 2; 0]; [0; 1; 1]; [0; 0; 2]] -> lattice 3 2 c.
Proof.
  split; [reflexivity|]. split; [reflexivity|]. split; [vm_compute; reflexivity|].
  intros c H. cbn in H. repeat destruct H as [<-|H]; try (split; reflexivity); destruct H.
Qed.

(** Any other number of points is rejected. *)
Theorem C42_throws : forall (N : Num) m n (nan epsilon : N), 2 <= m ->
  (forall p, 1 <= p -> n <> choose (m + p - 1) p) -> (Z.of_nat ((m + n) * (m + n)) < 2 ^ 64)%Z ->
  forall fuel, n <= fuel -> generate fuel m n nan epsilon = GThrow.
Proof. exact generate_throws. Qed.
Print Assumptions C42_throws.

Example C42_throws_ex : generate (N := ZNum) 10 3 5 0%Z 0%Z = GThrow.
Proof. vm_compute. reflexivity. Qed.

(** With a single objective the only weight is not a number. *)
Theorem C42_one_objective_refuted : forall fuel (nan epsilon : F64),
  generate (N := F64) (S fuel) 1 1 nan epsilon = GRet [[fnan]].
Proof. intros fuel nan epsilon. destruct fuel, epsilon; reflexivity. Qed.
Print Assumptions C42_one_objective_refuted.

(** Broken-stick weights: for draws in the unit interval, non-negative and summing to one up to
    epsilon. *)
Theorem C42_bbs : forall mx sortv m (u : list R) (eps : R), sorts_up sortv -> (1 <= m)%nat -> length u = (m + 1)%nat ->
  (forall x, In x u -> (0 <= x <= 1)%R) ->
  let w := bbs_column (N := RNum mx) sortv u eps in
  length w = m /\ sumR w = (1 + INR m * eps)%R /\ ((0 <= eps)%R -> forall x, In x w -> (0 <= x)%R).
Proof. exact bbs_ok. Qed.
Print Assumptions C42_bbs.

Example C42_bbs_ex : sorts_up sortR /\
  forall x, In x [0.3; 0.9; 0.2; 0.5]%R -> (0 <= x <= 1)%R.
Proof. split; [exact sortR_ok|]. intros x H. cbn in H. repeat destruct H as [<-|H]; lra. Qed.

(** Dirichlet weights: for positive draws, positive and summing to exactly one. *)
Theorem C42_dirichlet : forall mx (g : list R) (eps : R), g <> [] -> (forall x, In x g -> (0 < x)%R) -> (0 <= eps)%R ->
  let w := dirichlet_column (N := RNum mx) g eps in
  length w = length g /\ sumR w = 1%R /\ (forall x, In x w -> (0 < x)%R).
Proof. exact dirichlet_ok. Qed.
Print Assumptions C42_dirichlet.

Example C42_dirichlet_ex : [1; 3]%R <> [] /\ forall x, In x [1; 3]%R -> (0 < x)%R.
Proof. split; [discriminate|]. intros x H. cbn in H. repeat destruct H as [<-|H]; lra. Qed.
