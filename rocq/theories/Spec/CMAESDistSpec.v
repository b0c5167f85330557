(** Vocabulary for the distribution CMA-ES samples from, over the reals. *)
From Coq Require Import List Arith Reals.
From Verif.Base Require Import Num Instances.
From Verif.Spec Require Import LpSpec SvecSpec PrimalDualSpec.
Import ListNotations.
Local Open Scope R_scope.

(** the i-th element of a vector; 0 outside *)
Definition elR (v : list R) (i : nat) : R := nth i v 0.
(** the identity matrix *)
Definition idm : Mt := fun i j => if Nat.eqb i j then 1 else 0.

(** A covariance matrix: symmetric, and no direction has a negative variance. *)
Definition covariance (n : nat) (A : Mt) : Prop := symmetric n A /\ forall v, 0 <= quad n A v.

(** arma::chol(L, A, "lower"): succeeds exactly on positive definite matrices *)
Definition chol_lower (n : nat) (chol : Mt -> option Mt) : Prop :=
  forall A, symmetric n A ->
    (pos_def n A <-> chol A <> None) /\
    forall L, chol A = Some L ->
      (forall i j, (i < j < n)%nat -> L i j = 0) /\ (forall i, (i < n)%nat -> 0 < L i i) /\
      meq n A (matmul n L (fun i j => L j i)).
(** arma::eig_sym: orthonormal eigenvectors in the columns of V, eigenvalues ascending *)
Definition eig_sym (n : nat) (eig : Mt -> list R * Mt) : Prop :=
  forall A, symmetric n A ->
    let l := fst (eig A) in let V := snd (eig A) in
    length l = n /\
    (forall j k, (j <= k < n)%nat -> elR l j <= elR l k) /\
    meq n (matmul n (fun i j => V j i) V) idm /\ meq n (matmul n V (fun i j => V j i)) idm /\
    meq n A (fun i j => sum_n n (fun k => V i k * elR l k * V j k)).

(** Recombination weights: positive, each larger than the next, with sum 1. *)
Definition recombination_weights (m : nat) (w : list R) : Prop :=
  length w = m /\ Forall (fun a => 0 < a) w /\
  (forall j, (S j < m)%nat -> elR w (S j) < elR w j) /\ sumR w = 1.

(** A x = b *)
Definition solves (n : nat) (A : Mt) (x b : nat -> R) : Prop :=
  forall i, (i < n)%nat -> sum_n n (fun k => A i k * x k) = b i.

(** The constants of CMA-ES as published, for n dimensions and recombination weights w. *)
Record consts := { k_mueff : R; k_cs : R; k_ds : R; k_cc : R; k_c1 : R; k_cmu : R; k_enn : R; k_h : R }.
Definition mueff (w : list R) : R := 1 / sumR (map (fun a => a * a) w).
Definition cma_consts (n : nat) (w : list R) : consts :=
  let d := INR n in
  let m := mueff w in
  let cs := (m + 2) / (d + m + 5) in
  let enn := sqrt d * (1 - 1 / (4 * d) + 1 / (21 * d ^ 2)) in
  let c1 := 2 / ((d + 1.3) ^ 2 + m) in
  {| k_mueff := m; k_cs := cs;
     k_ds := 1 + cs + 2 * Rmax (sqrt ((m - 1) / (d + 1)) - 1) 0;
     k_cc := (4 + m / d) / (4 + d + 2 * m / d);
     k_c1 := c1;
     k_cmu := Rmin (1 - c1) (2 * (m - 2 + 1 / m) / ((d + 2) ^ 2 + m));
     k_enn := enn;
     k_h := (1.4 + 2 / (d + 1)) * enn |}.

(** the Euclidean norm *)
Definition norm_n (n : nat) (v : list R) : R := sqrt (sum_n n (fun i => elR v i ^ 2)).

(** One generation's change of the step-size path ps, the covariance path pc, the covariance
    matrix C and the step size sigma, given the population's steps, their ranking idx (best first)
    and their weighted sum. *)
Definition cma_update (n : nat) (w : list R) (i : nat) (C : Mt) (ps pc : list R) (sigma : R)
    (steps : list (list R)) (idx : list nat) (step : list R) (C' : Mt) (ps' pc' : list R) (sigma' : R) : Prop :=
  let k := cma_consts n w in
  let small := norm_n n ps' / sqrt (1 - (1 - k_cs k) ^ (2 * i)) < k_h k in
  let best p q := sumR (map (fun e => fst e * elR (nth (snd e) steps []) p * elR (nth (snd e) steps []) q) (combine w idx)) in
  (exists y, solves n C y (elR step) /\
     forall p, (p < n)%nat -> elR ps' p = (1 - k_cs k) * elR ps p + sqrt (k_cs k * (2 - k_cs k) * k_mueff k) * y p) /\
  sigma' = sigma * exp (k_cs k / k_ds k * (norm_n n ps' / k_enn k - 1)) /\
  (small ->
     (forall p, (p < n)%nat -> elR pc' p = (1 - k_cc k) * elR pc p + sqrt (k_cc k * (2 - k_cc k) * k_mueff k) * elR step p) /\
     forall p q, (p < n)%nat -> (q < n)%nat ->
       C' p q = (1 - k_c1 k - k_cmu k) * C p q + k_c1 k * (elR pc' p * elR pc' q) + k_cmu k * best p q) /\
  (~ small ->
     (forall p, (p < n)%nat -> elR pc' p = (1 - k_cc k) * elR pc p) /\
     forall p q, (p < n)%nat -> (q < n)%nat ->
       C' p q = (1 - k_c1 k - k_cmu k) * C p q +
                k_c1 k * (elR pc' p * elR pc' q + k_cc k * (2 - k_cc k) * C p q) + k_cmu k * best p q).

(** [reach adapt n a0 s0 i a s]: (a, s) is the distribution and step size after i generations,
    whatever was sampled and however it was ranked. *)
Inductive reach {A : Type} (adapt : nat -> A -> R -> list (list R) -> list nat -> list R -> A * R) (n : nat) (a0 : A) (s0 : R) :
  nat -> A -> R -> Prop :=
| reach_start : reach adapt n a0 s0 0 a0 s0
| reach_next i a s steps idx step a' s' : reach adapt n a0 s0 i a s -> length step = n ->
    (a', s') = adapt (S i) a s steps idx step -> reach adapt n a0 s0 (S i) a' s'.
