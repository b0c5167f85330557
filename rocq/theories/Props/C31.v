(** C31: the Adam family, in exact arithmetic.

    Each step theorem says where the iterate goes at the last update (h, g) after an
    arbitrary earlier history l, in terms of the whole history H = l ++ [(h, g)]:
    [M1 b1 H] is the exponential average of all gradients, [M2 b2 H] that of their
    squares, [corr b H] = 1 - b^n the bias correction. *)
From Coq Require Import List Reals Lra ZArith.
From Verif.Base Require Import Num Instances.
From Verif.Model Require Import Updates.
From Verif.Spec Require Import UpdatesSpec.
From Verif.Proof Require Import UpdatesProof AdamProof.
Import ListNotations.
Local Open Scope R_scope.

(** The code keeps epsilon outside the bias correction, so it is divided by
    sqrt(1 - b2^n) compared with the textbook. *)
Theorem C31_adam : forall mx eps b1 b2, 0 <= b1 < 1 -> 0 <= b2 < 1 -> 0 < eps ->
  forall (x : R) (l : list (R * R)) (h g : R), let H := l ++ [(h, g)] in
  snd (run (N := RNum mx) (adam_up (N := RNum mx) pow eps b1 b2) adam_init x H) =
  snd (run (N := RNum mx) (adam_up (N := RNum mx) pow eps b1 b2) adam_init x l)
    - h * (M1 b1 H / corr b1 H) / (sqrt (M2 b2 H / corr b2 H) + eps / sqrt (corr b2 H)).
Proof. exact adam_step. Qed.
Print Assumptions C31_adam.

(** AMSGrad: the same with the largest second moment seen so far. *)
Theorem C31_amsgrad : forall mx eps b1 b2, 0 <= b1 < 1 -> 0 <= b2 < 1 -> 0 < eps ->
  forall (x : R) (l : list (R * R)) (h g : R), let H := l ++ [(h, g)] in
  snd (run (N := RNum mx) (amsgrad_up (N := RNum mx) pow eps b1 b2) adam_init x H) =
  snd (run (N := RNum mx) (amsgrad_up (N := RNum mx) pow eps b1 b2) adam_init x l)
    - h * (M1 b1 H / corr b1 H) / (sqrt (M2max b2 H / corr b2 H) + eps / sqrt (corr b2 H)).
Proof. exact amsgrad_step. Qed.
Print Assumptions C31_amsgrad.

Theorem C31_padam : forall mx eps b1 b2 (rpw : R -> R -> R), 0 <= b2 < 1 ->
  forall (x : R) partial (l : list (R * R)) (h g : R), let H := l ++ [(h, g)] in
  snd (run (N := RNum mx) (padam_up (N := RNum mx) pow rpw eps b1 b2 partial) adam_init x H) =
  snd (run (N := RNum mx) (padam_up (N := RNum mx) pow rpw eps b1 b2 partial) adam_init x l)
    - h * sqrt (corr b2 H) * (M1 b1 H / corr b1 H) / rpw (M2max b2 H + eps) partial.
Proof. exact padam_step. Qed.
Print Assumptions C31_padam.

(** AdaMax: the denominator is the largest |g_i| discounted by b2^age. *)
Theorem C31_adamax : forall mx eps b1 b2, 0 <= b1 < 1 -> 0 <= b2 < 1 ->
  forall (x : R) (l : list (R * R)) (h g : R), let H := l ++ [(h, g)] in
  snd (run (N := RNum mx) (adamax_up (N := RNum mx) pow eps b1 b2) adam_init x H) =
  snd (run (N := RNum mx) (adamax_up (N := RNum mx) pow eps b1 b2) adam_init x l)
    - h * (M1 b1 H / corr b1 H) / (discmax b2 (gs_of H) + eps).
Proof. exact adamax_step. Qed.
Print Assumptions C31_adamax.

(** OptimisticAdam moves by twice the current Adam direction minus the previous one
    (which is 0 before the first update). *)
Theorem C31_optimistic_adam : forall mx eps b1 b2 (x : R) (l : list (R * R)) (h g : R),
  let H := l ++ [(h, g)] in
  let up := optimistic_up (N := RNum mx) pow eps b1 b2 in
  let direction := fun l => M1 b1 l / corr b1 l / (sqrt (M2 b2 l / corr b2 l) + eps) in
  snd (run (N := RNum mx) up adam_init x H) =
  snd (run (N := RNum mx) up adam_init x l) - 2 * h * direction H + h * direction l.
Proof. exact optimistic_step. Qed.
Print Assumptions C31_optimistic_adam.

Theorem C31_qhadam : forall mx eps b1 b2 (x v1 v2 : R) (l : list (R * R)) (h g : R),
  let H := l ++ [(h, g)] in
  let up := qhadam_up (N := RNum mx) pow eps b1 b2 v1 v2 in
  snd (run (N := RNum mx) up adam_init x H) =
  snd (run (N := RNum mx) up adam_init x l)
    - h * (((1 - v1) * g + v1 * (M1 b1 H / corr b1 H)) /
           (sqrt ((1 - v2) * (g * g) + v2 * (M2 b2 H / corr b2 H)) + eps)).
Proof. exact qhadam_step. Qed.
Print Assumptions C31_qhadam.

(** AdaBelief: [belief] averages (gradient - first moment)^2, adding epsilon at each
    update, so it is at least epsilon. *)
Theorem C31_adabelief : forall mx eps b1 b2, 0 <= b2 < 1 -> 0 < eps ->
  forall (x : R) (l : list (R * R)) (h g : R), let H := l ++ [(h, g)] in
  let up := adabelief_up (N := RNum mx) pow eps b1 b2 in
  snd (run (N := RNum mx) up adam_init x H) =
  snd (run (N := RNum mx) up adam_init x l)
    - h * (M1 b1 H / corr b1 H) / (sqrt (belief eps b1 b2 H / corr b2 H) + eps) /\
  eps <= belief eps b1 b2 H.
Proof.
  intros mx eps b1 b2 B2 EP x l h g. split.
  - exact (adabelief_step mx eps b1 b2 x l h g).
  - apply belief_ge; [assumption|assumption|apply snoc_ne].
Qed.
Print Assumptions C31_adabelief.

(** Yogi: the second moment v moves by (1 - b2) g^2 towards g^2, stays non-negative
    and below (2 - b2) times the largest squared gradient. *)
Theorem C31_yogi : forall mx eps b1 b2, 0 <= b2 < 1 ->
  forall (x : R) (l : list (R * R)) (h g : R), let H := l ++ [(h, g)] in
  let up := yogi_up (N := RNum mx) eps b1 b2 in
  (exists v v', 0 <= v /\
     v' = v + (1 - b2) * (g * g) * (match total_order_T v (g * g) with
             | inleft (left _) => 1 | inleft (right _) => 0 | inright _ => -1 end) /\
     v = a_v (fst (run (N := RNum mx) up adam_init x l)) /\
     v' = a_v (fst (run (N := RNum mx) up adam_init x H)) /\
     snd (run (N := RNum mx) up adam_init x H) =
     snd (run (N := RNum mx) up adam_init x l) - h * M1 b1 H / (sqrt v' + eps)) /\
  0 <= a_v (fst (run (N := RNum mx) up adam_init x H)) <= (2 - b2) * rmax (map sq (gs_of H)).
Proof.
  intros mx eps b1 b2 B2 x l h g. split.
  - exact (yogi_step mx eps b1 b2 B2 x l h g).
  - exact (proj2 (yogi_moments mx eps b1 b2 B2 x _)).
Qed.
Print Assumptions C31_yogi.

(** NAdam and NadaMax: beta1 at update t is b1 (1 - 0.96^(t sd)/2); the gradient and
    the first moment are corrected by the running product of these, which stays
    below 1.  [rpw] is std::pow, of which only 0 <= 0.96^(t sd) <= 1 is used. *)
Theorem C31_nadam : forall mx eps b1 b2 sd (rpw : R -> R -> R),
  0 <= b1 < 1 -> 0 <= b2 < 1 -> 0 < eps ->
  (forall t, 0 <= rpw (96 / 100) (INR t * sd) <= 1) ->
  let beta := fun t => b1 * (1 - 1 / 2 * rpw (96 / 100) (INR t * sd)) in
  forall (x : R) (l : list (R * R)) (h g : R),
  let H := l ++ [(h, g)] in let n := length H in
  let mix := (1 - beta n) / (1 - prod1 beta n) * g + beta (S n) / (1 - prod1 beta (S n)) * M1 b1 H in
  let na := nadam_up (N := RNum mx) pow rpw eps b1 b2 sd in
  let nm := nadamax_up (N := RNum mx) rpw eps b1 b2 sd in
  snd (run (N := RNum mx) na nadam_init x H) =
    snd (run (N := RNum mx) na nadam_init x l)
      - h * mix / (sqrt (M2 b2 H / corr b2 H) + eps / sqrt (corr b2 H)) /\
  snd (run (N := RNum mx) nm nadam_init x H) =
    snd (run (N := RNum mx) nm nadam_init x l) - h * mix / (discmax b2 (gs_of H) + eps) /\
  0 <= prod1 beta n < 1 /\ 0 <= prod1 beta (S n) < 1.
Proof.
  intros mx eps b1 b2 sd rpw B1 B2 EP PW beta x l h g H n mix na nm.
  split; [exact (nadam_step mx eps b1 b2 sd rpw B2 EP x l h g)|].
  split; [exact (nadamax_step mx eps b1 b2 sd rpw B1 B2 PW x l h g)|].
  split; apply (prod_lt1 b1 sd rpw B1 PW);
    unfold n, H; rewrite app_length; simpl; auto with arith.
Qed.
Print Assumptions C31_nadam.

(** The moments stay within the range of the gradients; AMSGrad's and Padam's second
    moment never decreases; AdaMax's denominator is at least the last |g|. *)
Theorem C31_ranges : forall b, 0 <= b < 1 ->
  forall (l : list (R * R)) p, let H := l ++ [p] in
  Rabs (M1 b H) <= rmax (map Rabs (gs_of H)) /\
  0 <= M2 b H <= rmax (map sq (gs_of H)) /\
  M2max b l <= M2max b H /\ M2 b H <= M2max b H <= rmax (map sq (gs_of H)) /\
  Rabs (snd p) <= discmax b (gs_of H) <= rmax (map Rabs (gs_of H)) /\
  0 < corr b H <= 1.
Proof.
  intros b B l p H. destruct (M2max_range b l p B) as (A1 & A2 & A3).
  split; [apply M1_range; auto|]. split; [apply M2_range; auto|].
  split; [auto|]. split; [auto|].
  split; [|apply corr_pos; [auto|apply snoc_ne]].
  split; [|apply discmax_range; auto].
  unfold H, gs_of. rewrite map_app. apply discmax_ge; auto.
Qed.
Print Assumptions C31_ranges.

(** A constant gradient is estimated without bias at every update, and Adam then
    moves by h g / (|g| + epsilon'). *)
Theorem C31_constant_gradient : forall b g, 0 <= b < 1 ->
  forall (l : list (R * R)), l <> [] -> Forall (fun p => snd p = g) l ->
  M1 b l / corr b l = g /\ M2 b l / corr b l = g * g.
Proof.
  intros b g B l N F. rewrite (M1_const b g l F), (M2_const b g l F).
  pose proof (corr_pos b l B N). split; field; lra.
Qed.
Theorem C31_adam_constant_gradient : forall mx eps b1 b2 (x g : R),
  0 <= b1 < 1 -> 0 <= b2 < 1 -> 0 < eps ->
  forall (l : list (R * R)) (h : R), Forall (fun p => snd p = g) l ->
  let up := adam_up (N := RNum mx) pow eps b1 b2 in
  let H := l ++ [(h, g)] in
  snd (run (N := RNum mx) up adam_init x H) =
  snd (run (N := RNum mx) up adam_init x l) - h * g / (Rabs g + eps / sqrt (corr b2 H)).
Proof. exact adam_const. Qed.
Print Assumptions C31_adam_constant_gradient.

(* gradients 4 then 2 with beta = 1/2: moments by hand *)
Example C31_moments : M1 (1/2) [(1, 4); (1, 2)] = 2 /\ M2 (1/2) [(1, 4); (1, 2)] = 6 /\
  M2max (1/2) [(1, 4); (1, 1)] = 8 /\ corr (1/2) [(1, 4); (1, 2)] = 3/4.
Proof.
  unfold M2max, M1, M2, corr, gs_of, sq. simpl. split; [lra|split;[lra|split;[|lra]]].
  unfold Rmax. repeat (destruct (Rle_dec _ _)); lra.
Qed.
Example C31_first_step : forall mx,
  snd (run (N := RNum mx) (adam_up (N := RNum mx) pow 1 (1/2) 0) adam_init 10 [(3, 2)]) = 8.
Proof.
  intros mx. pose proof (C31_adam_constant_gradient mx 1 (1/2) 0 10 2 ltac:(lra) ltac:(lra) ltac:(lra) [] 3 ltac:(constructor)) as E.
  etransitivity; [exact E|]. eqR. cbn -[sqrt Rabs corr].
  unfold corr. simpl. replace (1 - 0 * 1) with 1 by ring. rewrite sqrt_1, Rabs_pos_eq by lra. lra.
Qed.
