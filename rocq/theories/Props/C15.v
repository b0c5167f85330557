(** C15: simulated annealing. *)
From Coq Require Import List Arith Bool ZArith Lia.
From Verif.Base Require Import Num Vec Instances.
From Verif.Model Require Import Common SA.
From Verif.Spec Require Import CommonSpec SASpec.
From Verif.Proof Require Import SAProof.
Import ListNotations.

(** Over any ordered number type (IEEE doubles included), for every objective,
    random stream, cooling schedule, callbacks and limits, and every starting point
    with at least one coordinate, Optimize() returns, and its events are those of
    Metropolis moves (see Spec/SASpec.v): at most initMoves moves at the initial
    temperature, then one cooling per kept-or-rejected move.  The returned value is
    the objective at the final iterate, which is the current state of the walk (not
    the best one seen).  The run ends at the iteration limit, at a stop request, or
    at the first moment the energy has not changed by [tolerance] for
    maxToleranceSweep * moveCtrlSweep * n coolings. *)
Theorem C15_annealing :
  forall {N : Num} (maxIterations initMoves moveCtrlSweep maxToleranceSweep : nat)
         (tolerance maxMoveCoef initMoveCoef gain target : N) next lg ex f rnd
         (cb : CB N (list N) (list N)) (x0 : list N) (t0 : N),
  OrdLaws N -> x0 <> [] ->
  exists r T,
    sa_optimize maxIterations initMoves moveCtrlSweep maxToleranceSweep tolerance maxMoveCoef initMoveCoef gain target
      next lg ex f rnd cb t0 x0 = Ret (r, T) /\
  let path := sa_path f lg ex next rnd x0 t0 (size_ok initMoveCoef maxMoveCoef) in
  exists h1 x1 j1 h2 j,
    let h := h2 ++ h1 in
    let energies := map f (stepped h2) ++ [f x1] in
    let K := maxToleranceSweep * moveCtrlSweep * length x0 in
    (* the initial moves *)
    path h1 x1 t0 j1 /\ stepped h1 = [] /\ j1 <= initMoves /\ (j1 = initMoves \/ asked cb (rev h1)) /\
    (* everything *)
    o_tr r = rev h ++ [End (o_x r)] /\ path h (o_x r) T j /\ o_val r = f (o_x r) /\
    length (stepped h2) <= maxIterations /\ j1 + length (stepped h2) <= j <= j1 + length (stepped h2) + 1 /\
    (* why and when it ends *)
    never tolerance K energies /\
    (length (stepped h2) = maxIterations /\ j = j1 + maxIterations \/ asked cb (o_tr r) \/ froze tolerance K energies).
Proof. intros N m i c t tol mm im g tg next lg ex f rnd cb x0 t0 L NE. exact (sa_ok m i c t tol mm im g tg next lg ex f rnd cb x0 t0 L NE). Qed.
Print Assumptions C15_annealing.

(** The move size is the configured initial size or at most the maximum; so an
    initial size above the maximum is used as it is. *)
Definition r15 (m init : nat) (mm im : Z) :=
  sa_optimize (N := ZNum) m init 2 3 1%Z mm im 0%Z 0%Z (fun t _ => t) (fun _ => (-1)%Z) (fun _ => 0%Z)
    (fun x => fold_right (fun a s => a * a + s)%Z 0%Z x) (fun j => (Z.of_nat (Nat.div2 j mod 2), 0%Z))
    {| cs_stop := fun _ => false; cs_grad := fun _ _ _ g => g |} 5%Z [3%Z; 4%Z].

Theorem C15_move_size_le_maximum_refuted :
  exists r T y v, r15 1 0 1%Z 2%Z = Ret (r, T) /\ In (Ev y v) (o_tr r) /\ hd_error y = Some (3 - 2)%Z.
Proof. eexists _, _, [1%Z; 4%Z], 17%Z. split; [vm_compute; reflexivity|]. split; [vm_compute; tauto|reflexivity]. Qed.
Print Assumptions C15_move_size_le_maximum_refuted.

(** A run with kept and rejected moves. *)
Example C15_run : exists r T, r15 4 2 1%Z 1%Z = Ret (r, T) /\
  (o_val r, o_x r) = (13%Z, [2%Z; 3%Z]) /\ length (o_tr r) = 13.
Proof. eexists _, _. split; [vm_compute; reflexivity|]. split; vm_compute; reflexivity. Qed.
