(** C35: SnapshotSGDR averages the right points. *)
From Coq Require Import List Arith ZArith Lia.
From Verif.Base Require Import Num Vec Instances.
From Verif.Model Require Import Sgd Schedules.
From Verif.Spec Require Import SgdSpec SchedulesSpec.
From Verif.Proof Require Import SchedulesProof SnapshotProof ScheduleEx.
Import ListNotations.

(** The snapshots held after a run are the iterates right after the updates
    numbered [mark k + 1] (the k-th restart), for those k whose next period has
    reached snapshotEpochs, in order. *)
Theorem C35_snapshots :
  forall (N : Num) (X G U : Type) (mul : nat -> nat) (t0 : nat) (cosf : N -> N) (pi h0 eb : N) (se : nat)
         (c : Cfg N X G U (cyc * list X)) (f : SepFun N X G) (cb : Callbacks N X G),
  (forall k, 1 <= period mul t0 k) -> c_dp c = snap_dp mul cosf pi h0 eb se ->
  forall (fuel : nat) (u : U) (step : N) (x : X) (r : res N X G U (cyc * list X)),
  0 < sf_num f -> 0 < c_batch c ->
  optimize_with c f cb fuel u (cyc_init t0, []) step x = Return r ->
  exists p, snd (r_d r) = pick p 0 (step_points (r_trace r)) /\
    forall n, p n = true <-> exists k, n = mark mul t0 k + 1 /\ se <= period mul t0 (S k).
Proof. exact @snapshots_of_run. Qed.
Print Assumptions C35_snapshots.

(** Their number never exceeds the number requested, if at most one more than the
    number of restarts is requested and the periods really grow. *)
Theorem C35_at_most_requested :
  forall (N : Num) (X G U : Type) (mul : nat -> nat) (t0 : nat) (cosf : N -> N) (pi h0 eb : N) (se : nat)
         (c : Cfg N X G U (cyc * list X)) (f : SepFun N X G) (cb : Callbacks N X G),
  (forall k, 1 <= period mul t0 k) -> c_dp c = snap_dp mul cosf pi h0 eb se ->
  forall (powm : nat -> nat) (wrap : nat -> nat -> nat) (requested fuel : nat) (u : U) (step : N) (x : X)
         (r : res N X G U (cyc * list X)),
  0 < sf_num f -> 0 < c_batch c -> 0 < c_max c ->
  (forall k, period mul t0 k <= powm k) -> (forall i j, i < j -> powm i < powm j) ->
  (forall a b, b <= a -> wrap a b = a - b) ->
  requested <= count_restarts mul t0 (c_max c) + 1 ->
  se = snapshot_epochs mul powm wrap t0 (c_max c) requested ->
  optimize_with c f cb fuel u (cyc_init t0, []) step x = Return r ->
  length (snd (r_d r)) <= requested.
Proof. exact @snapshots_bounded. Qed.
Print Assumptions C35_at_most_requested.

(** The returned iterate is the mean of the final iterate and the snapshots, and the
    returned value is the objective there, when accumulating; otherwise both are
    those of the run. *)
Theorem C35_mean :
  forall (N : Num) (G U : Type) (c : Cfg N (list N) G U (cyc * list (list N))) (f : SepFun N (list N) G)
         (cb : Callbacks N (list N) G) (accumulate : bool) (fuel : nat) (u : U) (d : cyc * list (list N)) (step : N)
         (x : list N) (v : N) (y : list N) (r : res N (list N) G U (cyc * list (list N))),
  snapshot_optimize c f cb accumulate fuel u d step x = Return (v, y, r) ->
  optimize_with c f cb fuel u d step x = Return r /\
  if accumulate then
    (forall n, (forall z, In z (r_x r :: snd (r_d r)) -> length z = n) ->
      length y = n /\
      forall i, i < n -> exists a s, nth_error y i = Some (ndiv s (nofnat (S (length (snd (r_d r)))))) /\
        nth_error (r_x r) i = Some a /\
        s = fold_left (fun acc z => nadd acc (nth i z n0)) (snd (r_d r)) a) /\
    v = fold_left (fun acc i => nadd acc (sf_eval f (count_shuffles (r_trace r)) y i 1)) (seq 0 (sf_num f)) n0
  else v = r_val r /\ y = r_x r.
Proof. exact @snapshot_mean. Qed.
Print Assumptions C35_mean.

(** With multFactor = 1 every restart stores a snapshot: one was requested, three
    are held. *)
Theorem C35_at_most_requested_refuted :
  exists (maxIterations requested : nat) (pts : list nat),
  let t0 := 3 in let mul := fun t => t in
  let se := snapshot_epochs mul (fun _ => t0) Nat.sub t0 maxIterations requested in
  requested <= count_restarts mul t0 maxIterations + 1 /\ length pts <= maxIterations /\
  length (snd (fold_left (fun d x => fst (snap_dp (N := ZNum) (X := nat) (G := unit) mul (fun z => z) 0%Z 0%Z 1%Z se d x 0%Z tt))
                         pts (cyc_init t0, []))) > requested.
Proof. exists 12, 1, (seq 0 12). vm_compute. repeat split; lia. Qed.
Print Assumptions C35_at_most_requested_refuted.

(** Requesting more snapshots than there are restarts wraps the exponent of
    multFactor around in size_t. *)
Theorem C35_too_many_requested_refuted :
  exists (t0 maxIterations requested : nat),
  let K := Z.of_nat (count_restarts (fun t => 2 * t) t0 maxIterations) in
  ((K - Z.of_nat requested + 1) mod 2 ^ 64 > 2 ^ 63)%Z.
Proof. exists 3, 6, 4. vm_compute. reflexivity. Qed.
Print Assumptions C35_too_many_requested_refuted.

(** Growing periods 2, 4, 8: of the restarts at updates 3, 7 and 15 the last two are
    stored when two snapshots are requested. *)
Example C35_example :
  let mul := fun t => 2 * t in
  count_restarts mul 2 20 = 3 /\ snapshot_epochs mul (fun k => 2 * 2 ^ k) Nat.sub 2 20 2 = 8 /\
  snd (fold_left (fun d x => fst (snap_dp (N := ZNum) (X := nat) (G := unit) mul (fun z => z) 0%Z 0%Z 1%Z 8 d x 0%Z tt))
                 (seq 100 20) (cyc_init 2, [])) = [107; 115] /\
  (forall k, period mul 2 k <= 2 * 2 ^ k).
Proof.
  cbv zeta. repeat split; try (vm_compute; reflexivity). induction k as [|k IH]; [reflexivity|].
  simpl in *. lia.
Qed.
