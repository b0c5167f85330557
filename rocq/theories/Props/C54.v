(** C54: SARAH and Katyusha. *)
From Coq Require Import List Arith Bool ZArith QArith Reals Lra Lia.
From Verif.Base Require Import Num Vec Size Instances QInst.
From Verif.Model Require Import Common VarRed SVRG Sarah Katyusha.
From Verif.Spec Require Import SgdSpec VarRedSpec VarRedReal SarahSpec LpSpec.
From Verif.Proof Require Import VarRedProof SVRGProof SVRGReal SarahProof KatyushaProof SarahReal.
Import ListNotations.
Local Open Scope nat_scope.

(** ---- SARAH and SARAH+ ---- *)
(** For every function, callback, norm, early-exit rule and starting point: a call that returns
    has made rounds as [sarah_report] says.  Each evaluates the objective and the average
    gradient v at the current point over batches containing every function once, moves by
    -eta * v and then takes steps v := v + (g(x) - g(previous x)) / c, x := x - eta * v, both
    gradients on the same batch, the batches running cyclically through the functions.  All
    evaluations are of functions that exist, and no step follows a request to stop. *)
Theorem C54_sarah : forall (N : Num) (f : VFun N) cb b maxIterations (tol : N) shuffle exact (eta : N) norm early fuel inner x r,
  0 < b -> 0 < vf_num f ->
  sarah f cb b maxIterations tol shuffle exact eta norm early fuel inner x = Ret r ->
  sarah_report (vf_num f) b (vr_st r) shuffle eta norm early cb maxIterations tol exact x (vr_val r) (vr_x r) (vr_tr r) (vr_conv r) /\
  vr_st r = (match inner with O => vf_num f | _ => inner end) /\
  Forall (in_range (vf_num f) b) (vr_tr r) /\ computed f cb (vr_tr r) /\ honoured cb (vr_tr r).
Proof. intros. eapply sarah_ok; eassumption. Qed.
Print Assumptions C54_sarah.
Theorem C54_sarah_returns : forall (N : Num) (f : VFun N) cb b maxIterations (tol : N) shuffle exact (eta : N) norm early fuel inner x,
  0 < b -> 0 < vf_num f -> limit maxIterations < fuel -> vf_num f <= fuel ->
  (match inner with O => vf_num f | _ => inner end) < fuel ->
  exists r, sarah f cb b maxIterations tol shuffle exact eta norm early fuel inner x = Ret r.
Proof. intros. apply sarah_returns; auto. Qed.
Print Assumptions C54_sarah_returns.
(** A batch size of 0 is not rejected: the first pass never ends. *)
Theorem C54_sarah_zero_batch_refuted : forall (N : Num) (f : VFun N) cb maxIterations (tol : N) shuffle exact (eta : N) norm early fuel inner x,
  0 < vf_num f -> sarah f cb 0 maxIterations tol shuffle exact eta norm early fuel inner x = More.
Proof. intros. apply s_diverges. assumption. Qed.
Print Assumptions C54_sarah_zero_batch_refuted.

(** Over the real numbers, for a function whose batch gradients are sums: the mean of the next
    estimate over the batches of a pass is v + avg(x) - avg(previous x). *)
Theorem C54_sarah_mean : forall mx p n b (G : list (RNum mx) -> nat -> nat -> list (RNum mx)) (v x y : list (RNum mx)) l j,
  additive mx p n G -> 0 < n -> length v = p -> split_of n b l -> j < p ->
  sumR (map (fun q => INR (snd q) / INR n * nth j (sarah_v (N := RNum mx) v (G x (fst q) (snd q)) (G y (fst q) (snd q)) (snd q)) 0)%R l)
  = (nth j v 0 + avg mx n G x j - avg mx n G y j)%R.
Proof. intros. eapply sarah_mean; eassumption. Qed.
Print Assumptions C54_sarah_mean.
(** With one batch of all functions the estimate of a step at x is avg(x) + (v - avg(x1)), where
    v is the average gradient at the snapshot and x1 the point after the first move: the error
    v - avg(x1) stays for the whole round ... *)
Theorem C54_sarah_drift : forall mx p n (G : list (RNum mx) -> nat -> nat -> list (RNum mx)) (eta : RNum mx) early vn l x v l' s j,
  additive mx p n G -> 0 < n -> sarah_steps eta early vn None x v l -> batch_grads G n None l -> length v = p ->
  l = l' ++ [s] -> j < p ->
  nth j (m_v s) 0%R = (nth j v 0 + avg mx n G (t_x (m_t s)) j - avg mx n G x j)%R.
Proof. intros. eapply drift; eassumption. Qed.
Print Assumptions C54_sarah_drift.
(** ... so "the estimate is the gradient when the batches are full" is false: three functions
    3x^2, all in one batch, step size 1, start 1.  The average gradient at -5 is -30, the step
    there is to -11 and not to 25; and the move from 1 to -5 is not reported as a step. *)
Theorem C54_sarah_full_batch_refuted : exists r, srun sarah_early 3 1 9 = Ret r /\
  vsteps (vr_tr r) = [[-11]; [19]; [-131]]%Z /\ In (VGrad [-5]%Z 0 3 [-90]%Z [-90]%Z) (vr_tr r).
Proof. destruct s_plain as (r & H & A & _ & B & _). eauto. Qed.
Print Assumptions C54_sarah_full_batch_refuted.
(** SARAH+ does not report the step that ends the inner loop. *)
Theorem C54_sarah_plus_told_refuted : exists r, srun splus 3 1 9 = Ret r /\ vsteps (vr_tr r) = [] /\ vr_x r = [-11]%Z.
Proof. exact s_plus. Qed.
Print Assumptions C54_sarah_plus_told_refuted.

(** ---- Katyusha ---- *)
(** As C54_sarah, for [katyusha_report]: the coupling steps, with the gradient passes and the
    weighted mean of the points as the next snapshot. *)
Theorem C54_katyusha : forall (N : Num) (f : VFun N) cb proximal (cv L : N) b maxIterations (tol : N) shuffle exact fuel inner x r,
  0 < b -> 0 < vf_num f ->
  katyusha f cb proximal cv L b maxIterations tol shuffle exact fuel inner x = Ret r ->
  katyusha_report (vf_num f) b (vr_st r) shuffle proximal L (tau1 cv L b) tau2 (alpha cv L b) (kr cv L b (vr_st r))
    (normalizer f cv L b (vr_st r)) cb maxIterations tol exact x (vr_val r) (vr_x r) (vr_tr r) (vr_conv r) /\
  vr_st r = (match inner with O => vf_num f | _ => inner end) /\
  Forall (in_range (vf_num f) b) (vr_tr r) /\ computed f cb (vr_tr r) /\ honoured cb (vr_tr r).
Proof. intros. eapply katyusha_ok; eassumption. Qed.
Print Assumptions C54_katyusha.
Theorem C54_katyusha_returns : forall (N : Num) (f : VFun N) cb proximal (cv L : N) b maxIterations (tol : N) shuffle exact fuel inner x,
  0 < b -> 0 < vf_num f -> limit maxIterations < fuel -> vf_num f <= fuel ->
  (match inner with O => vf_num f | _ => inner end) < fuel ->
  exists r, katyusha f cb proximal cv L b maxIterations tol shuffle exact fuel inner x = Ret r.
Proof. intros. apply katyusha_returns; auto. Qed.
Print Assumptions C54_katyusha_returns.
(** A batch size of 0 divides by zero. *)
Theorem C54_katyusha_zero_batch_refuted : forall (N : Num) (f : VFun N) cb proximal (cv L : N) maxIterations (tol : N) shuffle exact fuel inner x,
  katyusha f cb proximal cv L 0 maxIterations tol shuffle exact fuel inner x = Bad.
Proof. reflexivity. Qed.
Print Assumptions C54_katyusha_zero_batch_refuted.

(** Over the real numbers: the points are convex combinations of z, the snapshot and y ... *)
Theorem C54_convex_combination : forall mx (cv L : R) b, 0 < b -> (0 < cv)%R -> (0 < L)%R ->
  (0 < tau1 (N := RNum mx) cv L b <= / 2)%R /\ tau2 (N := RNum mx) = (/ 2)%R /\
  (0 <= 1 - tau1 (N := RNum mx) cv L b - tau2 (N := RNum mx))%R /\ (0 < alpha (N := RNum mx) cv L b)%R.
Proof.
  intros. pose proof (tau1_bounds mx cv L b H H0 H1). pose proof (tau2_half mx) as E. rewrite E.
  pose proof (alpha_pos mx cv L b H H0 H1). repeat split; try tauto; lra.
Qed.
Print Assumptions C54_convex_combination.
(** ... and if the batch size divides the number of functions, z moves by the average gradient in
    the mean over the batches of a pass. *)
Theorem C54_katyusha_mean : forall mx p n b (G : list (RNum mx) -> nat -> nat -> list (RNum mx)) (z full x x0 : list (RNum mx)) (cv L : RNum mx) l j,
  additive mx p n G -> 0 < n -> 0 < b -> length z = p -> length full = p -> split_of n b l -> Forall (fun q => snd q = b) l -> j < p ->
  nth j full 0%R = avg mx n G x0 j ->
  sumR (map (fun q => INR (snd q) / INR n *
     nth j (kat_z (N := RNum mx) cv L b z full (G x (fst q) (snd q)) (G x0 (fst q) (snd q))) 0)%R l)
  = (nth j z 0 - alpha (N := RNum mx) cv L b * avg mx n G x j)%R.
Proof. intros. eapply kat_mean; eassumption. Qed.
Print Assumptions C54_katyusha_mean.
(** Otherwise it does not: the difference of a smaller batch is divided by the configured batch size. *)
Theorem C54_katyusha_mean_refuted :
  let G := fun (x : list (RNum 0%R)) (i c : nat) => [(INR c * nth 0 x 0)%R] in
  additive 0%R 1 3 G /\ split_of 3 2 [(0, 2); (2, 1)] /\
  (sumR (map (fun q => INR (snd q) / INR 3 *
     nth 0 (kat_z (N := RNum 0%R) 3 1 2 [0] [0] (G [1] (fst q) (snd q)) (G [0] (fst q) (snd q))) 0) [(0%nat, 2%nat); (2%nat, 1%nat)])
  <> 0 - alpha (N := RNum 0%R) 3 1 2 * avg 0 3 G [1] 0)%R.
Proof.
  split; [|split; [split; [reflexivity|repeat constructor]|]].
  - intros x i c _ _. split; [reflexivity|]. intros j Hj. assert (j = 0) by lia. subst j. cbn [nth].
    induction c as [|c IH] in i |- *; [cbn; ring|]. cbn [seq map sumR]. rewrite <- IH, S_INR. cbn. ring.
  - pose proof (alpha_pos 0%R 3 1 2 ltac:(lia) ltac:(lra) ltac:(lra)) as A. set (a := alpha _ _ _) in *.
    assert (E : forall g h : list (RNum 0%R), kat_z (N := RNum 0%R) 3%R 1%R 2 [0%R] [0%R] g h = vsub (N := RNum 0%R) [0%R] (vscale (N := RNum 0%R) a (vadd (N := RNum 0%R) [0%R] (map (fun q => (q / 2)%R) (vsub (N := RNum 0%R) g h : list R))))).
    { intros. reflexivity. }
    unfold avg. cbn [map fst snd]. rewrite !E. cbn in A |- *. lra.
Qed.
Print Assumptions C54_katyusha_mean_refuted.

(** The weights of the snapshot do not add up to 1: with m batches the weights are 1, r, ...,
    r^(m-1) with r > 1, and normalised they add up to less than 1 ... *)
Theorem C54_snapshot_weights_refuted : forall mx (cv L : R) b inner (f : VFun (RNum mx)), 0 < b -> 0 < inner -> (0 < cv)%R -> (0 < L)%R ->
  (normalizer f cv L b inner * sumR (map (fun k => kr (N := RNum mx) cv L b inner ^ k) (seq 0 (knumBatches f b inner))) < 1)%R.
Proof. intros. apply shrink. apply Rlt_le. apply kr_gt1; assumption. Qed.
Print Assumptions C54_snapshot_weights_refuted.
(** ... so Katyusha leaves a minimum: one function (x - 1)^2, start 1. *)
Theorem C54_leaves_minimum_refuted : exists r, krun 1 1 3 0 1%Q = Ret r /\
  vsteps (vr_tr r) = [[1%Q]; [7 # 10]; [11 # 25]] /\ vr_x r = [11 # 25] /\ vr_val r = (324 # 625).
Proof. exact k_min. Qed.
Print Assumptions C54_leaves_minimum_refuted.
(** The full gradient of a round is not one of a single point: from the second round on the first
    batch is evaluated at the iterate (2/3), the rest at the snapshot (1/6). *)
Theorem C54_full_gradient_point_refuted : exists r, krun 2 1 2 0 0%Q = Ret r /\ exists h t : list (vev QNum), vr_tr r = h ++
    [VGrad (N := QNum) [2 # 3] 0 1 [-2 # 3] [-2 # 3]; VGrad (N := QNum) [1 # 6] 1 1 [-5 # 3] [-5 # 3]; VShuffle] ++ t.
Proof. exact k_mixed. Qed.
Print Assumptions C54_full_gradient_point_refuted.

Example C54_ex_sarah : exists r, srun sarah_early 3 1 9 = Ret r /\ vsteps (vr_tr r) = [[-11]; [19]; [-131]]%Z /\ vr_x r = [-131]%Z /\
    In (VGrad [-5]%Z 0 3 [-90]%Z [-90]%Z) (vr_tr r) /\ vr_val r = 9%Z /\ vr_st r = 9.
Proof. exact s_plain. Qed.
Example C54_ex_katyusha : exists r, krun 2 1 2 0 0%Q = Ret r /\ vr_conv r = false /\ vr_x r = [89 # 108] /\ vr_val r = (25 # 18).
Proof. exact k_value. Qed.
(** two steps of a full-batch round with gradient x (n = 1) *)
Example C54_ex_drift :
  let G := fun (x : list (RNum 0%R)) (i c : nat) => [(INR c * nth 0 x 0)%R] in
  let st x y g h v := {| m_t := {| t_sh := false; t_x := [x]; t_f := 0; t_c := 1; t_g := [g]; t_g' := [g]; t_h := [h]; t_h' := [h]; t_to := [y] |};
                         m_v := [v]; m_told := true |} : @sstep (RNum 0%R) in
  let l := [st 0 (-1) 0 0 1; st (-1) (-1) (-1) 0 0]%R in
  sarah_steps (N := RNum 0%R) 1%R (fun _ _ => false) 0%R None [0%R] [1%R] l /\ batch_grads (N := RNum 0%R) G 1 None l.
Proof.
  cbn. repeat split; try discriminate; try reflexivity; f_equal; try lra; try (unfold nofnat; cbn; lra).
  all: intros; try discriminate; reflexivity.
Qed.
