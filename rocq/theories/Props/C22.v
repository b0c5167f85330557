(** C22: L-BFGS keeps the last numBasis correction pairs. *)
From Coq Require Import List Arith ZArith QArith.
From Verif.Base Require Import Num Instances QInst Vec.
From Verif.Model Require Import LBFGS.
From Verif.Spec Require Import LBFGSSpec.
From Verif.Proof Require Import LBFGSProof.
Import ListNotations.

(** After any number of updates, starting with arbitrary contents of the buffers, the
    search direction is the two-loop recursion over the (at most numBasis) most recent
    differences, newest first, and the scaling factor is taken from the newest one. *)
Theorem C22_most_recent_pairs :
  forall (N : Num) (nb : nat) (us : list (list N * list N * (list N * list N))) (s0 y0 : list (list N)),
  (0 < nb)%nat -> length s0 = nb -> length y0 = nb ->
  exists s y, feed (update_basis nb) 0 us s0 y0 = Some (s, y) /\
    (forall g gamma, search_direction nb g (length us) gamma s y =
       Some (direction gamma (firstn nb (rev (map difference us))) g)) /\
    (forall tol normF g, choose_scaling nb tol normF (length us) g s y =
       Some (scaling tol normF (firstn nb (rev (map difference us))) g)).
Proof. intros. apply updates_then_direction; assumption. Qed.
Print Assumptions C22_most_recent_pairs.

(** Pairs older than the numBasis most recent ones have no influence. *)
Theorem C22_older_pairs_forgotten :
  forall (N : Num) (nb : nat) (us us' : list (list N * list N * (list N * list N))) (s0 y0 s0' y0' s y s' y' : list (list N)),
  (0 < nb)%nat -> length s0 = nb -> length y0 = nb -> length s0' = nb -> length y0' = nb ->
  firstn nb (rev (map difference us)) = firstn nb (rev (map difference us')) ->
  feed (update_basis nb) 0 us s0 y0 = Some (s, y) -> feed (update_basis nb) 0 us' s0' y0' = Some (s', y') ->
  forall g gamma, search_direction nb g (length us) gamma s y = search_direction nb g (length us') gamma s' y'.
Proof.
  intros N nb us us' s0 y0 s0' y0' s y s' y' NB A B A' B' E F F' g gamma.
  destruct (updates_then_direction nb NB us s0 y0 A B) as (s1 & y1 & F1 & D & _).
  destruct (updates_then_direction nb NB us' s0' y0' A' B') as (s2 & y2 & F2 & D' & _).
  rewrite F in F1. injection F1 as <- <-. rewrite F' in F2. injection F2 as <- <-.
  rewrite D, D', E. reflexivity.
Qed.
Print Assumptions C22_older_pairs_forgotten.

(** With numBasis = 0 the first update computes a remainder by zero. *)
Theorem C22_zero_basis_refuted :
  forall (N : Num) (x xo g go : list N) s y k, update_basis 0 k x xo g go s y = None.
Proof. reflexivity. Qed.
Print Assumptions C22_zero_basis_refuted.

(** Four updates with a memory of three: the first one is forgotten. *)
Example C22_run :
  let u (a b : Z) : list QNum * list QNum * (list QNum * list QNum) := ([inject_Z a], [0%Q], ([inject_Z b], [0%Q])) in
  let z := repeat [0%Q] 3 in
  exists s y, feed (N := QNum) (update_basis (N := QNum) 3) 0 [u 9 9; u 1 1; u 2 2; u 3 4]%Z z z = Some (s, y) /\
    s = [[3%Q]; [1%Q]; [2%Q]] /\
    search_direction (N := QNum) 3 [1%Q] 4 (3 # 4)%Q s y = Some [(-3 # 4)%Q].
Proof. do 2 eexists. split; [vm_compute; reflexivity|]. split; vm_compute; reflexivity. Qed.
