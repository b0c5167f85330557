(** C12: coordinate descent. *)
From Coq Require Import List Arith ZArith Bool.
From Verif.Base Require Import Num Vec Instances Size.
From Verif.Model Require Import Common CD.
From Verif.Spec Require Import CommonSpec GDSpec CDSpec HeardSpec.
From Verif.Proof Require Import CDProof HeardProof.
Import ListNotations.

(** [es]: the partial gradients computed, in order. *)
Theorem C12_coordinate_descent :
  forall (N : Num) (stepSize : N) maxIterations (tolerance : N) updateInterval f pg policy
         (cb : CB N (list (list N)) (list (list N))) fuel x r,
  cd stepSize maxIterations tolerance updateInterval f pg policy cb fuel x = Ret r ->
  let es := grads (o_tr r) in
  let max := match maxIterations with 0 => S size_max | _ => maxIterations end in
  bracketed x (o_x r) (o_tr r) /\
  o_val r = f (o_x r) /\
  walk stepSize x es (steps_to (o_tr r)) /\
  o_x r = List.last (steps_to (o_tr r)) x /\
  (forall k e, nth_error es k = Some e ->
     policy (S k) (p_at e) = Some (p_feat e) /\ p_grad e = pg (p_at e) (p_feat e)) /\
  length es <= max - 1 /\
  Forall (fun p => snd p = f (fst p)) (evals (o_tr r)) /\
  (length es = max - 1 \/ asked cb (o_tr r) \/
   (exists ps p, evals (o_tr r) = ps ++ [p] /\
      stop_test tolerance (List.last (map snd ps) nmax) (snd p) = true)) /\
  (forall h e rest, asked_at cb (o_tr r) h e rest -> grads rest = []).
Proof. exact @cd_ok. Qed.
Print Assumptions C12_coordinate_descent.

(** Round-robin: any NumFeatures() consecutive iterations pick every feature once. *)
Theorem C12_cyclic_round_robin :
  forall nf i, 0 < nf -> forall j, j < nf ->
  exists! k, k < nf /\ cyclic_descent nf (i + k) = Some j.
Proof. exact cyclic_round. Qed.
Print Assumptions C12_cyclic_round_robin.

(** Greedy descent picks the first feature whose summed partial gradient is
    largest, if that sum is positive, and feature 0 otherwise. *)
Theorem C12_greedy :
  forall (N : Num), OrdLaws N -> forall (pg : list (list N) -> nat -> list (list N)) nf x,
  let r := greedy_descent pg nf x in
  let s := fun j => accu (pg x j) in
  (r = 0 /\ forall j, j < nf -> nlt n0 (s j) = false) \/
  (r < nf /\ nlt n0 (s r) = true /\ (forall j, j < nf -> nlt (s r) (s j) = false) /\
   forall j, j < r -> nle (s r) (s j) = false).
Proof.
  intros N L pg nf x. destruct (greedy_scan_ok pg L x nf 0 0 n0) as [[E H]|(A & B & C & D)].
  - left. split; [exact E|]. intros j Hj. apply H. split; [apply Nat.le_0_l|exact Hj].
  - right. split; [apply A|]. split; [exact B|]. split; [intros j Hj; apply C; split; [apply Nat.le_0_l|exact Hj]|].
    intros j Hj. apply D. split; [apply Nat.le_0_l|exact Hj].
Qed.
Print Assumptions C12_greedy.

(** In particular it does not pick the steepest feature when partial derivatives
    are negative. *)
Theorem C12_greedy_steepest_refuted :
  exists (pg : list (list Z) -> nat -> list (list Z)) x,
    greedy_descent (N := ZNum) pg 2 x = 0 /\
    (Z.abs (accu (N := ZNum) (pg x 0%nat)) < Z.abs (accu (N := ZNum) (pg x 1%nat)))%Z.
Proof.
  exists (fun _ j => match j with O => [[-1]; [0]] | _ => [[0]; [-9]] end%Z), [[0]; [0]]%Z.
  split; [reflexivity|]. reflexivity.
Qed.
Print Assumptions C12_greedy_steepest_refuted.

Local Open Scope Z_scope.
Example C12_example :
  exists r, cd (N := ZNum) 1 4%nat 0 2%nat
     (fun x => match x with [[a]; [b]] => a * a + b * b | _ => 0 end)
     (fun x j => match x, j with [[a]; [b]], 0%nat => [[a]; [0]] | [[a]; [b]], _ => [[0]; [b]] | _, _ => [] end)
     (fun i _ => cyclic_descent 2 i)
     {| cs_stop := fun _ => false; cs_grad := fun _ _ _ g => g |} 10%nat [[3]; [5]] = Ret r /\
    o_x r = [[0]; [0]] /\ length (grads (o_tr r)) = 3%nat.
Proof. eexists. split; [vm_compute; reflexivity|]. auto. Qed.

(** The gradient the run goes on with is the one the callbacks handed back for the history
    at that point and the last objective computed (for example a clipped one). *)
Theorem C12_callbacks_heard :
  forall (N : Num) (stepSize : N) maxIterations (tolerance : N) updateInterval f pg policy
         (cb : CB N (list (list N)) (list (list N))) fuel x r,
  cd stepSize maxIterations tolerance updateInterval f pg policy cb fuel x = Ret r -> heard cb (rev (o_tr r)).
Proof. exact @cd_heard_all. Qed.
Print Assumptions C12_callbacks_heard.
