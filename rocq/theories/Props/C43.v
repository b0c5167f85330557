(** C43: the quality indicators IGD, IGD+ and Epsilon. *)
From Coq Require Import List Arith Bool ZArith Reals Lia Lra.
From Verif.Base Require Import Num Vec Instances.
From Verif.Model Require Import Indicators.
From Verif.Spec Require Import LpSpec IndicatorsSpec.
From Verif.Proof Require Import LpProof IndicatorsProof.
Import ListNotations.
Local Open Scope R_scope.

(** IGD is the power mean of the distances from the reference points to the front. *)
Theorem C43_igd : forall mx k front ref (p : R), fronts k front ref ->
  (forall a z, In a front -> In z ref -> dist2 a z <= mx) ->
  exists ms, Forall2 (fun z m => least (fun a => dist2 a z) front m) ref ms /\
    igd (N := RNum mx) powR front ref p = powR (sumR (map (fun m => powR m p) ms) / INR (length ref)) (1 / p).
Proof. exact igd_formula. Qed.
Print Assumptions C43_igd.

(** It is zero iff every reference point is in the front. *)
Theorem C43_igd_zero : forall mx k front ref (p : R), fronts k front ref ->
  (forall a z, In a front -> In z ref -> dist2 a z <= mx) ->
  (igd (N := RNum mx) powR front ref p = 0 <-> forall z, In z ref -> In z front).
Proof. exact igd_zero. Qed.
Print Assumptions C43_igd_zero.

(** IGD+ is the mean of the one-sided distances. *)
Theorem C43_igd_plus : forall mx k front ref, fronts k front ref ->
  (forall a z, In a front -> In z ref -> dist2_plus a z <= mx) ->
  exists ms, Forall2 (fun z m => least (fun a => dist2_plus a z) front m) ref ms /\
    igd_plus (N := RNum mx) front ref = sumR ms / INR (length ref).
Proof. exact igd_plus_formula. Qed.
Print Assumptions C43_igd_plus.

(** It is zero iff every reference point is weakly dominated by a point of the front. *)
Theorem C43_igd_plus_zero : forall mx k front ref, fronts k front ref ->
  (forall a z, In a front -> In z ref -> dist2_plus a z <= mx) ->
  (igd_plus (N := RNum mx) front ref = 0 <-> forall z, In z ref -> exists a, In a front /\ weakly_dominates a z).
Proof. exact igd_plus_zero. Qed.
Print Assumptions C43_igd_plus_zero.

(** IGD+ never exceeds IGD, for any exponent p >= 1. *)
Theorem C43_igd_plus_le : forall mx k front ref (p : R), fronts k front ref -> 1 <= p ->
  (forall a z, In a front -> In z ref -> dist2 a z <= mx) ->
  igd_plus (N := RNum mx) front ref <= igd (N := RNum mx) powR front ref p.
Proof. exact igd_plus_le. Qed.
Print Assumptions C43_igd_plus_le.

(** For a positive reference front, Epsilon is the least non-negative factor by which the front
    covers it. *)
Theorem C43_epsilon : forall mx k front ref, fronts k front ref ->
  (forall z y, In z ref -> In y z -> 0 < y) ->
  (forall a z q, In a front -> In z ref -> In q (combine a z) -> fst q <= mx * snd q) ->
  let e := epsilon (N := RNum mx) front ref in
  0 <= e /\ covers front ref e /\ forall e', 0 <= e' -> covers front ref e' -> e <= e'.
Proof. exact epsilon_ok. Qed.
Print Assumptions C43_epsilon.

(** two fronts that meet the hypotheses, in neither of which IGD or IGD+ is zero *)
Definition A1 : list (list R) := [[1; 4]; [4; 1]].
Definition Z1 : list (list R) := [[1; 3]; [2; 2]; [4; 1]].

Example C43_ex : fronts 2 A1 Z1 /\
  (forall a z, In a A1 -> In z Z1 -> dist2_plus a z <= dist2 a z <= 100) /\
  (forall z y, In z Z1 -> In y z -> 0 < y) /\
  (forall a z q, In a A1 -> In z Z1 -> In q (combine a z) -> fst q <= 100 * snd q) /\
  ~ (forall z, In z Z1 -> exists a, In a A1 /\ weakly_dominates a z).
Proof.
  split; [|split; [|split; [|split]]].
  - constructor; [lia|discriminate|discriminate|]. unfold A1, Z1. cbn. intros a [H|H]; repeat destruct H as [<-|H]; try reflexivity; destruct H.
  - intros a z Ha Hz. split; [apply dist2_plus_le|]. unfold A1, Z1 in *. cbn in Ha, Hz.
    assert (Q : forall x, x <= 10000 -> sqrt x <= 100).
    { intros x Hx. replace 100 with (sqrt (100 * 100)) by (apply sqrt_square; lra). apply sqrt_le_1_alt. lra. }
    repeat destruct Ha as [<-|Ha]; repeat destruct Hz as [<-|Hz]; try contradiction; apply Q; cbn; lra.
  - unfold Z1. cbn. intros z y Hz Hy. repeat destruct Hz as [<-|Hz]; try contradiction; cbn in Hy; repeat destruct Hy as [<-|Hy]; try contradiction; lra.
  - unfold A1, Z1. cbn. intros a z q Ha Hz Hq.
    repeat destruct Ha as [<-|Ha]; repeat destruct Hz as [<-|Hz]; try contradiction; cbn in Hq;
      repeat destruct Hq as [<-|Hq]; try contradiction; cbn; lra.
  - intros H. destruct (H [2; 2]) as (a & Ha & W); [right; left; reflexivity|].
    unfold A1 in Ha. cbn in Ha. destruct Ha as [<-|[<-|[]]].
    + specialize (W (4, 2)). cbn in W. assert (4 <= 2) by (apply W; right; left; reflexivity). lra.
    + specialize (W (4, 2)). cbn in W. assert (4 <= 2) by (apply W; left; reflexivity). lra.
Qed.

(** With a zero in the reference front, Epsilon reports perfect coverage of points that no factor
    covers: here 5 against 0. *)
Theorem C43_epsilon_zero_refuted :
  epsilon (N := F64) [[nofZ 5%Z]] [[n0]] = n0 /\ ~ exists e, covers [[5]] [[0]] e.
Proof.
  split; [vm_compute; reflexivity|]. intros (e & H). destruct (H [0] (or_introl eq_refl)) as (a & Ha & Q).
  destruct Ha as [<-|[]]. specialize (Q (5, 0) (or_introl eq_refl)). cbn in Q. lra.
Qed.
Print Assumptions C43_epsilon_zero_refuted.

(** Against an empty reference front IGD+ is not a number. *)
Theorem C43_empty_refuted : forall front, nisnan (igd_plus (N := F64) front []) = true.
Proof. intros front. reflexivity. Qed.
Print Assumptions C43_empty_refuted.

(** A front that is at least as good, in the sense that each point of the other front is weakly
    dominated by one of its points, has no larger IGD+ ... *)
Theorem C43_igd_plus_better : forall mx k A B ref, fronts k A ref -> fronts k B ref ->
  (forall a z, In a A \/ In a B -> In z ref -> dist2_plus a z <= mx) ->
  (forall b, In b B -> exists a, In a A /\ weakly_dominates a b) ->
  igd_plus (N := RNum mx) A ref <= igd_plus (N := RNum mx) B ref.
Proof. exact igd_plus_mono. Qed.
Print Assumptions C43_igd_plus_better.

(** ... and, for a positive reference front, no larger Epsilon. *)
Theorem C43_epsilon_better : forall mx k A B ref, fronts k A ref -> fronts k B ref ->
  (forall z y, In z ref -> In y z -> 0 < y) ->
  (forall a z q, In a A \/ In a B -> In z ref -> In q (combine a z) -> fst q <= mx * snd q) ->
  (forall b, In b B -> exists a, In a A /\ weakly_dominates a b) ->
  epsilon (N := RNum mx) A ref <= epsilon (N := RNum mx) B ref.
Proof.
  intros mx k A B ref FA FB P M D.
  destruct (C43_epsilon mx k A ref FA P (fun a z q Ha => M a z q (or_introl Ha))) as (_ & _ & LA).
  destruct (C43_epsilon mx k B ref FB P (fun a z q Ha => M a z q (or_intror Ha))) as (PB & CB & _).
  apply LA; [exact PB|]. exact (covers_mono k A B ref _ FA FB D CB).
Qed.
Print Assumptions C43_epsilon_better.

(** IGD does not have that property, even when no point is better than a reference point: (1, 5)
    dominates (1, 10), but lies further from the reference point (0, 10). *)
Theorem C43_igd_better_refuted :
  weakly_dominates [1; 5] [1; 10] /\ ~ weakly_dominates [1; 5] [0; 10] /\
  igd (N := RNum 1000) powR [[1; 10]] [[0; 10]] 1 < igd (N := RNum 1000) powR [[1; 5]] [[0; 10]] 1.
Proof.
  split; [|split].
  - intros q Hq. cbn in Hq. destruct Hq as [<-|[<-|[]]]; cbn; lra.
  - intros W. specialize (W (1, 0) (or_introl eq_refl)). cbn in W. lra.
  - assert (forall y, dist2 [1; y] [0; 10] <= 1000 -> igd (N := RNum 1000) powR [[1; y]] [[0; 10]] 1 = dist2 [1; y] [0; 10]) as F.
    { intros y Hy. destruct (C43_igd 1000 2 [[1; y]] [[0; 10]] 1) as (ms & L & E).
      - constructor; [lia|discriminate|discriminate|]. intros a [[<-|[]]|[<-|[]]]; reflexivity.
      - intros a z [<-|[]] [<-|[]]. exact Hy.
      - inversion L as [|z m r' ms' Hm L']; subst. inversion L'; subst. destruct Hm as ((a & [<-|[]] & <-) & _).
        etransitivity; [exact E|]. cbn [map sumR length INR]. rewrite (powR_1r (dist2 [1; y] [0; 10])) by apply dist2_nonneg.
        replace (1 / 1) with 1 by field. replace ((dist2 [1; y] [0; 10] + 0) / 1) with (dist2 [1; y] [0; 10]) by field. apply powR_1r, dist2_nonneg. }
    assert (dist2 [1; 10] [0; 10] = 1) as E1.
    { unfold dist2. cbn. replace ((1 - 0) * (1 - 0) + ((10 - 10) * (10 - 10) + 0)) with (1 * 1) by ring. apply sqrt_square. lra. }
    assert (5 <= dist2 [1; 5] [0; 10] <= 6) as E2.
    { unfold dist2. cbn. replace ((1 - 0) * (1 - 0) + ((5 - 10) * (5 - 10) + 0)) with 26 by ring.
      split; [replace 5 with (sqrt (5 * 5)) by (apply sqrt_square; lra)|replace 6 with (sqrt (6 * 6)) by (apply sqrt_square; lra)]; apply sqrt_le_1_alt; lra. }
    rewrite (F 10) by lra. rewrite (F 5) by lra. lra.
Qed.
Print Assumptions C43_igd_better_refuted.
Example C43_better_ex : igd_plus (N := RNum 1000) [[1; 5]] [[0; 10]] <= igd_plus (N := RNum 1000) [[1; 10]] [[0; 10]].
Proof.
  apply (C43_igd_plus_better 1000 2).
  - constructor; [lia|discriminate|discriminate|]. intros a [[<-|[]]|[<-|[]]]; reflexivity.
  - constructor; [lia|discriminate|discriminate|]. intros a [[<-|[]]|[<-|[]]]; reflexivity.
  - assert (forall x, x <= 1000000 -> sqrt x <= 1000) as Q.
    { intros x Hx. replace 1000 with (sqrt (1000 * 1000)) by (apply sqrt_square; lra). apply sqrt_le_1_alt. lra. }
    intros a z [[<-|[]]|[<-|[]]] [<-|[]]; apply Q; cbn; unfold Rmax; repeat destruct (Rle_dec _ _); lra.
  - intros b [<-|[]]. exists [1; 5]. split; [left; reflexivity|]. intros q Hq. cbn in Hq. destruct Hq as [<-|[<-|[]]]; cbn; lra.
Qed.
