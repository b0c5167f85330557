(** C32: AdaGrad, AdaSqrt, RMSProp, AdaDelta, SMORMS3 and WNGrad, in exact
    arithmetic, with epsilon > 0 and step sizes >= 0.  [xs l] is the iterate after
    the history l, H = l ++ [(h, g)] a longer history. *)
From Coq Require Import List Reals Lra.
From Verif.Base Require Import Num Instances.
From Verif.Model Require Import Updates.
From Verif.Spec Require Import UpdatesSpec.
From Verif.Proof Require Import UpdatesProof AdamProof AccumProof.
Import ListNotations.
Local Open Scope R_scope.

(** AdaGrad divides by the root of the sum of all squared gradients, moves against
    the gradient and by at most the step size. *)
Theorem C32_adagrad : forall mx eps, 0 < eps -> forall (x : R) (l : list (R * R)) (h g : R), 0 <= h ->
  let H := l ++ [(h, g)] in
  let xs := fun l => snd (run (N := RNum mx) (adagrad_up (N := RNum mx) eps) 0 x l) in
  xs H = xs l - h * g / (sqrt (sumsq H) + eps) /\
  (xs H - xs l) * g <= 0 /\ Rabs (xs H - xs l) <= h.
Proof. exact adagrad_ok. Qed.
Print Assumptions C32_adagrad.

Theorem C32_adasqrt : forall mx eps, 0 < eps -> forall (x : R) (l : list (R * R)) (h g : R), 0 <= h ->
  let H := l ++ [(h, g)] in
  let xs := fun l => snd (run (N := RNum mx) (adasqrt_up (N := RNum mx) eps) (0, O) x l) in
  xs H = xs l - h * sqrt (INR (length H)) * g / (sumsq H + eps) /\
  (xs H - xs l) * g <= 0.
Proof. exact adasqrt_ok. Qed.
Print Assumptions C32_adasqrt.

(** RMSProp divides by the root of the exponential average of the squared gradients
    (which C31_ranges bounds by the largest squared gradient). *)
Theorem C32_rmsprop : forall mx eps, 0 < eps -> forall (x alpha : R) (l : list (R * R)) (h g : R), 0 <= h ->
  let H := l ++ [(h, g)] in
  let xs := fun l => snd (run (N := RNum mx) (rmsprop_up (N := RNum mx) eps alpha) 0 x l) in
  xs H = xs l - h * g / (sqrt (M2 alpha H) + eps) /\ (xs H - xs l) * g <= 0.
Proof. exact rmsprop_ok. Qed.
Print Assumptions C32_rmsprop.

(** AdaDelta: [delta_dirs] lists the directions of all updates. *)
Theorem C32_adadelta : forall mx eps, 0 < eps ->
  forall (x rho : R) (l : list (R * R)) (h g : R), 0 <= rho < 1 -> 0 <= h ->
  let H := l ++ [(h, g)] in
  let xs := fun l => snd (run (N := RNum mx) (adadelta_up (N := RNum mx) rho eps) (0, 0) x l) in
  let d := sqrt ((ema rho (map sq (delta_dirs eps rho (rev l))) + eps) / (M2 rho H + eps)) * g in
  delta_dirs eps rho (rev H) = delta_dirs eps rho (rev l) ++ [d] /\
  xs H = xs l - h * d /\ (xs H - xs l) * g <= 0 /\
  0 <= ema rho (map sq (delta_dirs eps rho (rev l))) /\ 0 <= M2 rho H.
Proof. intros mx eps _. exact (adadelta_ok mx eps). Qed.
Print Assumptions C32_adadelta.

(** SMORMS3: memory at least 1, squared average at most the average square, and a
    relative step between 0 and min(stepSize, 1). *)
Theorem C32_smorms3 : forall mx eps, 0 < eps -> forall (x : R) (l : list (R * R)) (h g : R),
  Forall (fun p => 0 <= fst p) l -> 0 <= h -> let H := l ++ [(h, g)] in
  let up := smorms3_up (N := RNum mx) eps in
  let s := fun l => fst (run (N := RNum mx) up smorms_init x l) in
  let xs := fun l => snd (run (N := RNum mx) up smorms_init x l) in
  1 <= m_mem (s H) /\ m_g (s H) * m_g (s H) <= m_g2 (s H) /\
  exists rate : R, 0 <= rate <= Rmin h 1 /\
    xs H = xs l - rate * g / (sqrt (m_g2 (s H)) + eps) /\ (xs H - xs l) * g <= 0.
Proof. exact smorms3_ok. Qed.
Print Assumptions C32_smorms3.

(** WNGrad: b never decreases and every coordinate moves against its gradient. *)
Theorem C32_wngrad : forall (mx : R) (norm : list R -> R) b x h (g : list R),
  0 < b -> 0 <= h -> length g = length x ->
  let '(b', x') := wngrad_up (N := RNum mx) norm b x h g in
  b' = b + h * h / b * (norm g * norm g) /\ b <= b' /\
  forall j xj gj, nth_error x j = Some xj -> nth_error g j = Some gj ->
    exists xj', nth_error x' j = Some xj' /\ xj' = xj - h * gj / b' /\ (xj' - xj) * gj <= 0.
Proof. exact wngrad_ok. Qed.
Theorem C32_wngrad_run : forall (mx : R) (norm : list R -> R) (l : list (R * list R)) (b : R) (x : list R),
  0 < b -> b <= fst (wn_run (N := RNum mx) norm b x l).
Proof. exact wn_run_ok. Qed.
Print Assumptions C32_wngrad.
Print Assumptions C32_wngrad_run.

(* AdaGrad from 10 with gradients 3 and 4, step 6, epsilon 1: 10 - 18/4 - 24/6 *)
Example C32_adagrad_run : forall mx,
  snd (run (N := RNum mx) (adagrad_up (N := RNum mx) 1) 0 10 [(6, 3); (6, 4)]) = 10 - 18/4 - 24/6.
Proof.
  intros mx.
  destruct (C32_adagrad mx 1 ltac:(lra) 10 [(6, 3)] 6 4 ltac:(lra)) as [E _].
  destruct (C32_adagrad mx 1 ltac:(lra) 10 [] 6 3 ltac:(lra)) as [E' _].
  etransitivity; [exact E|]. cbv beta. cbn [app] in E'. rewrite E'. eqR.
  cbn -[sqrt]. replace (3 * 3 + 0) with (3 * 3) by ring.
  replace (3 * 3 + (4 * 4 + 0)) with (5 * 5) by ring. rewrite !sqrt_square by lra. lra.
Qed.
