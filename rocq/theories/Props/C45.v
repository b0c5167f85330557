(** C45: vectorisation of symmetric matrices. *)
From Coq Require Import List Arith Bool ZArith Reals Lia Lra.
From Verif.Base Require Import Num Vec Instances.
From Verif.Model Require Import Svec.
From Verif.Spec Require Import LpSpec SvecSpec.
From Verif.Proof Require Import SvecProof.
Import ListNotations.

(** SvecIndex maps the pairs i <= j < n one to one onto 0 .. n(n+1)/2 - 1, and does not care for
    the order of the pair. *)
Theorem C45_index : forall n,
  (forall i j, i < n -> j < n -> svec_index i j n < n * (n + 1) / 2) /\
  (forall i j, svec_index i j n = svec_index j i n) /\
  (forall i j i' j', i <= j -> j < n -> i' <= j' -> j' < n -> svec_index i j n = svec_index i' j' n -> i = i' /\ j = j') /\
  (forall k, k < n * (n + 1) / 2 -> exists i j, i <= j /\ j < n /\ svec_index i j n = k).
Proof.
  intros n. exact (conj (index_range n) (conj (fun i j => svec_index_sym i j n) (conj (index_inj n) (index_surj n)))).
Qed.
Print Assumptions C45_index.

Example C45_index_ex : map (fun ij => svec_index (fst ij) (snd ij) 3) [(0, 0); (0, 1); (0, 2); (1, 1); (1, 2); (2, 2)] = [0; 1; 2; 3; 4; 5].
Proof. reflexivity. Qed.

Local Open Scope R_scope.

(** The size Smat() computes is the ceiling of (-1 + sqrt(1 + 8 len)) / 2. *)
Theorem C45_size : forall len, let x := (-1 + sqrt (1 + 8 * INR len)) / 2 in
  x <= INR (smat_size len) < x + 1.
Proof. exact size_real. Qed.
Print Assumptions C45_size.

(** Smat(Svec(A)) = A. *)
Theorem C45_inverse : forall mx n (A : nat -> nat -> R), symmetric n A ->
  exists B, smat (N := RNum mx) (sqrt 2) (/ 2) (svec (N := RNum mx) (sqrt 2) n A) = Some (n, B) /\
    forall i j, (i < n)%nat -> (j < n)%nat -> B i j = A i j.
Proof. exact smat_svec. Qed.
Print Assumptions C45_inverse.

(** dot(Svec(A), Svec(B)) = tr(A B). *)
Theorem C45_dot : forall mx n (A B : nat -> nat -> R), symmetric n A -> symmetric n B ->
  dotv (svec (N := RNum mx) (sqrt 2) n A) (svec (N := RNum mx) (sqrt 2) n B) = trace n (matmul n A B).
Proof. exact svec_dot. Qed.
Print Assumptions C45_dot.

(** SymKronId(A) * Svec(H) = Svec((A H + H A) / 2). *)
Theorem C45_kron : forall mx n (A H : nat -> nat -> R), symmetric n H ->
  apply_rows (sym_kron_id (N := RNum mx) (sqrt 2) (/ 2) n A) (svec (N := RNum mx) (sqrt 2) n H)
  = svec (N := RNum mx) (sqrt 2) n (half_sum (matmul n A H) (matmul n H A)).
Proof. exact sym_kron_ok. Qed.
Print Assumptions C45_kron.

(** The overload for sparse matrices gives the same vector. *)
Theorem C45_sparse : forall mx n (A : nat -> nat -> R) es, elements_of n A es ->
  svec_sparse (N := RNum mx) (sqrt 2) n es = svec (N := RNum mx) (sqrt 2) n A.
Proof. exact svec_sparse_ok. Qed.
Print Assumptions C45_sparse.

(** a symmetric matrix that is not diagonal, and its non-zero elements *)
Definition A3 (i j : nat) : R :=
  match i, j with 0%nat, 0%nat => 1 | 0%nat, 1%nat => 5 | 1%nat, 0%nat => 5 | _, _ => 0 end.

Example C45_ex : symmetric 2 A3 /\ elements_of 2 A3 [(0%nat, 0%nat, 1); (1%nat, 0%nat, 5); (0%nat, 1%nat, 5)].
Proof.
  split.
  - intros [|[|i]] [|[|j]] Hi Hj; try lia; reflexivity.
  - split; [|split].
    + cbn. repeat constructor; cbn; intuition congruence.
    + intros i j v H. cbn in H. repeat destruct H as [H|H]; try contradiction; injection H as <- <- <-; cbn; repeat split; try lia; reflexivity.
    + intros [|[|i]] [|[|j]] Hi Hj Hn; try lia; cbn in *; auto; lra.
Qed.

(** A vector whose length is no n(n+1)/2 makes Smat() read past its end. *)
Theorem C45_length_refuted : forall mx (a b : R), smat (N := RNum mx) (sqrt 2) (/ 2) [a; b] = None.
Proof. intros mx a b. reflexivity. Qed.
Print Assumptions C45_length_refuted.
