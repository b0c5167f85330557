(** C51: Lookahead. *)
From Coq Require Import List Arith Bool ZArith Lia.
From Verif.Base Require Import Num Vec Size Instances.
From Verif.Model Require Import Common Sgd Lookahead.
From Verif.Spec Require Import SgdSpec LookaheadSpec.
From Verif.Proof Require Import LookaheadProof LookaheadEx.
Import ListNotations.

(** For every base optimizer, decay policy, function and callback: a call that returns has made
    rounds as [follow] says (slow + step * (fast - slow), at most maxIterations of them, the fast
    iterate on convergence), every inner run is a call of the base optimizer with limit k, StepTaken
    is asked after every move and a request ends the call, and the value is that of the last inner
    run or, with exactObjective, the sum over all batches at the final iterate. *)
Theorem C51_lookahead : forall (N : Num) (B D E : Type) base has_max base_max k maxIterations (tolerance : N) exactObjective
    (dp : D -> list N -> N -> list N -> D * N) numFunctions batchSize feval stop fuel (b : B) d step x (r : @lres N B D E),
  lookahead base has_max base_max k maxIterations tolerance exactObjective dp numFunctions batchSize feval stop fuel b d step x = Ret r ->
  lookahead_report base has_max base_max k maxIterations tolerance exactObjective dp numFunctions batchSize feval stop x d step r.
Proof. intros. eapply lookahead_ok; eassumption. Qed.
Print Assumptions C51_lookahead.

(** It returns if every inner run does. *)
Theorem C51_returns : forall (N : Num) (B D E : Type) (base : nat -> B -> list (lev N E) -> list N -> option (B * list N * N * list E))
    has_max base_max k maxIterations (tolerance : N) exactObjective
    (dp : D -> list N -> N -> list N -> D * N) numFunctions batchSize feval stop fuel (b : B) d step x,
  (forall m b h y, base m b h y <> None) -> 0 < batchSize -> limit maxIterations < fuel -> numFunctions <= fuel ->
  exists r, lookahead base has_max base_max k maxIterations tolerance exactObjective dp numFunctions batchSize feval stop fuel b d step x = Ret r.
Proof. intros. apply lookahead_returns; auto. Qed.
Print Assumptions C51_returns.

(** With SGD as base optimizer an inner run visits at most k functions ... *)
Theorem C51_inner_limit : forall (N : Num) (G U D : Type) (c : nat -> Cfg N (list N) G U D) f cb fuel k b h x b' fast obj inner,
  (forall m, c_max (c m) = m) -> 0 < k -> 0 < sf_num (f h) -> 0 < c_batch (c k) ->
  sgd_base c f cb fuel k b h x = Some (b', fast, obj, inner) -> visits inner <= k.
Proof. exact sgd_inner_limit. Qed.
Print Assumptions C51_inner_limit.

(** ... but k = 0 sets no limit. *)
Theorem C51_zero_refuted : forall (N : Num) (G U D : Type) (c : nat -> Cfg N (list N) G U D) f cb fuel b h x b' fast obj inner,
  (forall m, c_max (c m) = m) -> 0 < sf_num (f h) -> 0 < c_batch (c 0) ->
  sgd_base c f cb fuel 0 b h x = Some (b', fast, obj, inner) ->
  visits inner = size_max \/ stop_requested (cb h) inner \/ stops_at (c_tol (c 0)) nmax (pass_sums n0 inner).
Proof. exact sgd_inner_zero. Qed.
Print Assumptions C51_zero_refuted.

(** A request to stop made inside an inner run (at Evaluate, Gradient, BeginEpoch or EndEpoch, as
    most of the shipped stopping callbacks do) does not stop Lookahead. *)
Theorem C51_inner_stop_refuted : exists r, lk_run lk_eager false 4 3 = Ret r /\ length (lr_log r) = 3 /\
  forall slow fast obj inner, In (LRun slow fast obj inner) (lr_tr r) -> stop_requested lk_eager inner /\ visits inner = 1.
Proof. exact lk_ignored. Qed.
Print Assumptions C51_inner_stop_refuted.

(** Without exactObjective the value is not that of the final iterate. *)
Theorem C51_value_refuted : exists r, lk_run lk_quiet false 4 3 = Ret r /\
  lr_val r <> fold_left Z.add (map (fun _ => lk_val (lr_x r) 1) (seq 0 2)) 0%Z.
Proof. destruct lk_plain as (r & H & _ & _ & _ & _ & _ & V). exists r. auto. Qed.
Print Assumptions C51_value_refuted.

Example C51_ex : exists r, lk_run lk_quiet false 4 3 = Ret r /\ map rd_slow (lr_log r) = [[100]; [92]; [84]]%Z /\
  map rd_fast (lr_log r) = [[96]; [88]; [80]]%Z /\ lr_x r = [76]%Z /\ lr_val r = 163%Z /\ lr_conv r = false.
Proof. destruct lk_plain as (r & H). exists r. tauto. Qed.
Example C51_ex_exact : exists r, lk_run lk_quiet true 4 3 = Ret r /\ lr_x r = [76]%Z /\ lr_val r = 152%Z.
Proof. exact lk_exact. Qed.

(** ** On convex functions *)
From Coq Require Import Reals Lra.
From Verif.Spec Require Import FWSpec ConvergeSpec.
From Verif.Proof Require Import LookaheadConvex.
Local Open Scope R_scope.

(** Averaging loses nothing but a factor: if the function is convex and bounded below by [low] on a
    convex set, every inner run stays in the set and brings the excess over [low] down to at most q
    times what it was (q = 1: does not raise the objective), the step size is in [0, 1] and does not
    decay, then every round brings it down to at most 1 - step + step q times what it was.  In
    particular Lookahead never raises the objective if its base optimizer does not. *)
Theorem C51_convex_rate :
  forall (mx : R) (B D E : Type) (n : nat) (K : list R -> Prop) (f : list R -> R) (low q step : R)
    (base : nat -> B -> list (lev (RNum mx) E) -> list R -> option (B * list R * R * list E))
    has_max base_max k maxIterations (tolerance : R) exactObjective numFunctions batchSize feval stop fuel (b : B) (d : D) (x : list R)
    (r : @lres (RNum mx) B D E),
  convex_set n K -> convex_on K f -> (forall x, K x -> low <= f x) -> 0 <= q <= 1 -> 0 <= step <= 1 ->
  (forall m b h y b' fast obj inner, K y -> base m b h y = Some (b', fast, obj, inner) -> K fast /\ f fast - low <= q * (f y - low)) ->
  K x -> lookahead (N := RNum mx) base has_max base_max k maxIterations tolerance exactObjective (fun d _ s _ => (d, s)) numFunctions batchSize feval stop fuel b d step x = Ret r ->
  (forall i rd, nth_error (lr_log r) i = Some rd -> f (rd_slow rd) - low <= (1 - step + step * q) ^ i * (f x - low)) /\
  f (lr_x r) - low <= (1 - step + step * q) ^ length (lr_log r) * (f x - low).
Proof.
  intros mx B D E n K f low q step base has_max base_max k maxIterations tolerance exactObjective numFunctions batchSize feval stop fuel b d x r H1 H2 H3 H4 H5 H6 H7 H8.
  exact (lookahead_improves mx n K f low q step H1 H2 H3 H4 H5 base has_max base_max k maxIterations tolerance exactObjective numFunctions batchSize feval stop fuel b d x r H6 H7 H8).
Qed.
Print Assumptions C51_convex_rate.
(** x^2 / 2 in one dimension and a base optimizer that halves the iterate: q = 1/4, and a run with step
    size 1/2 brings the objective down to at most 5/8 in every round *)
Definition halving (mx : R) (m : nat) (b : unit) (h : list (lev (RNum mx) unit)) (y : list R) : option (unit * list R * R * list unit) :=
  Some (b, map (fun a => a / 2) y, 1 / 2 * sqn (map (fun a => a / 2) y), []).
Example C51_convex_example : forall mx (x : list R), length x = 1%nat ->
  exists r : @lres (RNum mx) unit unit unit,
    lookahead (N := RNum mx) (halving mx) true 0 5 10 0 false (fun d _ s _ => (d, s)) 1 1 (fun _ _ _ _ => 0) (fun _ => false) 12 tt tt (1 / 2) x = Ret r /\
    1 / 2 * sqn (lr_x r) - 0 <= (5 / 8) ^ length (lr_log r) * (1 / 2 * sqn x - 0).
Proof.
  intros mx x Lx.
  destruct (C51_returns (RNum mx) unit unit unit (halving mx) true 0 5 10 0 false (fun d _ s _ => (d, s)) 1 1 (fun _ _ _ _ => 0) (fun _ => false) 12 tt tt (1 / 2) x) as [r E];
    [discriminate|lia|cbn; lia|lia|].
  exists r. split; [exact E|]. replace (5 / 8) with (1 - 1 / 2 + 1 / 2 * (1 / 4)) by lra.
  eapply (C51_convex_rate mx unit unit unit 1 (space 1) (fun x => 1 / 2 * sqn x) 0 (1 / 4) (1 / 2)); try exact E; try exact Lx; try lra.
  - split; [auto|]. intros t [|a [|]] [|a' [|]] T A A'; try discriminate. reflexivity.
  - intros t [|a [|]] [|a' [|]] T A A'; try discriminate. unfold sqn. cbn. assert (0 <= t * (1 - t) * ((a - a') * (a - a'))) by (apply Rmult_le_pos; [apply Rmult_le_pos; lra|apply Rle_0_sqr]). lra.
  - intros [|a [|]] A; try discriminate. unfold sqn. cbn. pose proof (Rle_0_sqr a) as Q. unfold Rsqr in Q. lra.
  - intros m b h y b' fast obj inner Ly H. injection H as <- <- <- <-. destruct y as [|a [|]]; try discriminate. split; [reflexivity|]. unfold sqn. cbn. lra.
Qed.
