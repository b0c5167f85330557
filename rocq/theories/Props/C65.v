(** C65: the distribution CMA-ES samples from. *)
From Coq Require Import List Arith Bool ZArith Reals Lra Lia.
From Verif.Base Require Import Num Vec SortIdx Instances.
From Verif.Model Require Import Common CMAES LRSDP CMAESAdapt.
From Verif.Spec Require Import LpSpec SvecSpec PrimalDualSpec CommonSpec CMAESSpec CMAESDistSpec.
From Verif.Proof Require Import LpMore PrimalDualRun CMAESProof CMAESWeights CMAESDist CMAESMain CMAESRun.
Import ListNotations.
Local Open Scope R_scope.

Section C65.
(** Over the reals (mx is only the largest number of the type).  n >= 1 variables, lambda members,
    any Cholesky and symmetric eigenvalue routines that meet their contracts, any random
    numbers z. *)
Variable mx : R.
Notation RN := (RNum mx).
Variables (n lambda fuel : nat) (eps : R).
Variable chol : Mt -> option Mt.
Variable eig : Mt -> list R * Mt.
Variable z : nat -> nat -> list R.
Notation adapt := (adapt (N := RN) ln exp eps chol eig n lambda fuel).
Notation active_adapt := (active_adapt (N := RN) exp eps chol eig n lambda fuel).
Notation settled := (settled (N := RN) eps chol fuel).
Notation sample := (sample (N := RN) eps chol z n lambda fuel).
Notation dist0 := (dist0 (N := RN) n).
Notation w := (CMAESAdapt.weights (N := RN) ln lambda).

(** The recombination weights are positive, decreasing, and sum to 1; the effective number of
    parents lies between 1 and their number. *)
Theorem C65_weights : (2 <= lambda)%nat ->
  recombination_weights (lambda / 2) w /\ 1 <= mueff w <= INR (lambda / 2).
Proof.
  intros H. split; [apply weights_ok; exact H|].
  pose proof (mu_eff_ok mx lambda H) as M. unfold mu_eff in M. rewrite LpMore.vsum_sumR in M. exact M.
Qed.

(** The learning rates are the published ones and are usable: each between 0 and 1, and the
    new covariance matrix is a convex combination. *)
Theorem C65_learning_rates : (1 <= n)%nat -> (2 <= lambda)%nat ->
  let k := cma_consts n w in
  (mu_eff (N := RN) ln lambda = k_mueff k /\ c_s (N := RN) ln n lambda = k_cs k /\ d_s (N := RN) ln n lambda = k_ds k /\
   c_c (N := RN) ln n lambda = k_cc k /\ c_1 (N := RN) ln n lambda = k_c1 k /\ c_mu (N := RN) ln n lambda = k_cmu k /\
   enn (N := RN) n = k_enn k /\ h_s (N := RN) n = k_h k) /\
  0 < k_cs k < 1 /\ 1 < k_ds k /\ 0 < k_cc k < 1 /\ 0 < k_h k /\ 0 < k_c1 k < 1 /\ 0 <= k_cmu k /\ k_c1 k + k_cmu k <= 1.
Proof.
  intros Hn HL k. pose proof (consts_eq mx n lambda Hn HL) as E. cbv zeta in E. fold k in E. split; [exact E|].
  destruct E as (_ & <- & <- & <- & <- & <- & _ & <-). exact (constants_ok mx n lambda Hn HL).
Qed.

Section Runs.
Hypothesis Hn : (1 <= n)%nat.
Hypothesis HL : (2 <= lambda)%nat.
Hypothesis Heps : 0 < eps.
Hypothesis Hfuel : (2 <= fuel)%nat.
Hypothesis Hchol : chol_lower n chol.
Hypothesis Heig : eig_sym n eig.

(** CMAES: after any number of generations, whatever was sampled and however it was ranked,
    the matrix is a covariance matrix and the step size is positive. *)
Theorem C65_covariance : forall s0 i a s, 0 < s0 -> reach adapt n dist0 s0 i a s ->
  covariance n (d_C a) /\ 0 < s.
Proof. intros s0 i a s H0 H. destruct (reach_ok mx n lambda fuel eps chol eig Hn HL Heps Hfuel Hchol Heig s0 i a s H0 H) as (A & _ & B). auto. Qed.

(** The population is drawn: lambda vectors L z with L L' the covariance matrix, or that
    matrix plus eps on the diagonal if it was singular. *)
Theorem C65_samples : forall s0 i a s, 0 < s0 -> reach adapt n dist0 s0 i a s ->
  exists L draws, sample (S i) a = Some draws /\ length draws = lambda /\
    (settled (d_C a) = d_C a \/ meq n (settled (d_C a)) (fun p q => d_C a p q + eps * idm p q)) /\
    meq n (settled (d_C a)) (matmul n L (fun p q => L q p)) /\
    forall j, (j < lambda)%nat -> length (nth j draws []) = n /\
      forall p, (p < n)%nat -> elR (nth j draws []) p = sum_n n (fun q => L p q * elR (z (S i) j) q).
Proof.
  intros s0 i a s H0 H. apply (sample_ok mx n lambda fuel eps chol Heps Hfuel Hchol z (S i) a).
  apply (reach_ok mx n lambda fuel eps chol eig Hn HL Heps Hfuel Hchol Heig s0 i a s H0 H).
Qed.

(** One generation changes the paths, the matrix and the step size as in [cma_update].  In
    particular the repair of negative eigenvalues never changes anything. *)
Theorem C65_update : forall s0 i a s steps idx step, 0 < s0 -> reach adapt n dist0 s0 i a s -> length step = n ->
  let r := adapt (S i) a s steps idx step in
  cma_update n w (S i) (settled (d_C a)) (d_ps a) (d_pc a) s steps idx step
    (d_C (fst r)) (d_ps (fst r)) (d_pc (fst r)) (snd r).
Proof.
  intros s0 i a s steps idx step H0 H LS.
  destruct (reach_ok mx n lambda fuel eps chol eig Hn HL Heps Hfuel Hchol Heig s0 i a s H0 H) as (C & Z & _).
  apply (adapt_ok mx n lambda fuel eps chol eig Hn HL Heps Hfuel Hchol Heig (S i) a s steps idx step C Z LS).
Qed.

(** Every run of CMAES, and of ActiveCMAES, comes to an end, for any objective, batches,
    transformation, callbacks and limits: no Cholesky loop is endless. *)
Theorem C65_returns : forall maxIterations tolerance big feval cs tf sort_index (cb : CB RN (list R) (list R)) sigma0 x,
  (forall l : list RN, no_nan l -> sorted_index l (sort_index l)) ->
  (exists r, cmaes (N := RN) ln exp eps chol eig z n lambda fuel maxIterations tolerance big feval cs (fun _ _ => cs) tf sort_index cb sigma0 x = Ret r) /\
  (exists r, active_cmaes (N := RN) exp eps chol eig z n lambda fuel maxIterations tolerance big feval cs (fun _ _ => cs) tf sort_index cb sigma0 x = Ret r).
Proof.
  intros. split.
  - apply (cmaes_returns mx n lambda fuel eps chol eig Hn HL Heps Hfuel Hchol Heig). assumption.
  - apply (active_returns mx n lambda fuel eps chol eig Hn HL Heps Hfuel Hchol Heig). assumption.
Qed.

(** ActiveCMAES: the matrix stays a covariance matrix and the step size positive. *)
Theorem C65_active_covariance : forall s0 i a s, 0 < s0 -> reach active_adapt n dist0 s0 i a s ->
  covariance n (d_C a) /\ 0 < s.
Proof. exact (active_reach_ok mx n lambda fuel eps chol eig Heps Hfuel Hchol Heig). Qed.

(** ActiveCMAES: let B be the matrix that adds the steps of the lambda / 4 best members and
    subtracts those of the lambda / 4 worst.  If B is a covariance matrix it is the next one.  If
    some direction has a negative variance in B, the next matrix is zero, and the next
    population is drawn from eps times the identity: everything learned is lost. *)
Theorem C65_active_update : forall s0 i a s steps idx step, 0 < s0 -> reach active_adapt n dist0 s0 i a s ->
  let r := active_adapt (S i) a s steps idx step in
  let pc := d_pc (fst r) in
  let d := INR n in let m := INR (lambda / 4) in
  let ccov := 2 / (d + sqrt 2) ^ 2 in
  let c := (4 * m - 2) / ((d + 12) ^ 2 + 4 * m) * (1 / m) in
  let part l p q := sumR (map (fun k => elR (nth k steps []) p * elR (nth k steps []) q) l) in
  let B p q := (1 - ccov) * settled (d_C a) p q + ccov * (elR pc p * elR pc q) +
               c * part (firstn (lambda / 4) idx) p q - c * part (skipn (lambda - lambda / 4) idx) p q in
  ((forall v, 0 <= quad n B v) -> meq n (d_C (fst r)) B) /\
  (forall v, quad n B v < 0 -> (forall p q, d_C (fst r) p q = 0) /\
     meq n (settled (d_C (fst r))) (fun p q => eps * idm p q)).
Proof.
  intros s0 i a s steps idx step H0 H. cbv zeta.
  destruct (active_reach_ok mx n lambda fuel eps chol eig Heps Hfuel Hchol Heig s0 i a s H0 H) as [C _].
  destruct (active_ok mx n lambda fuel eps chol eig Heps Hfuel Hchol Heig (S i) a s steps idx step C) as (_ & P & Q). cbv zeta in P, Q.
  set (r := active_adapt (S i) a s steps idx step) in *.
  pose proof (active_eq mx n lambda (settled (d_C a)) (d_pc (fst r)) steps idx) as E. cbv zeta in E.
  destruct (active_consts mx n lambda Hn) as (K1 & _ & _ & K4 & K5). cbv zeta in K1, K4, K5. rewrite K1, K4, K5 in E.
  split.
  - intros G. rewrite P.
    + intros p q _ _. apply E.
    + intros v. rewrite (PrimalDualRun.quad_ext n _ _ v (fun p q _ _ => E p q)). apply G.
  - intros v G. rewrite (Q v).
    + split; [reflexivity|]. exact (after_reset mx n lambda fuel eps chol Hn HL Heps Hfuel Hchol).
    + rewrite (PrimalDualRun.quad_ext n _ _ v (fun p q _ _ => E p q)). exact G.
Qed.

(** ActiveCMAES: the paths and the step size. *)
Theorem C65_active_paths : forall s0 i a s steps idx step, reach active_adapt n dist0 s0 i a s -> length step = n ->
  let r := active_adapt (S i) a s steps idx step in
  let c := 4 / (INR n + 4) in
  let m := INR (lambda / 4) in
  (exists y, solves n (settled (d_C a)) y (elR step) /\
     forall p, (p < n)%nat -> elR (d_ps (fst r)) p = (1 - c) * elR (d_ps a) p + sqrt (c * (2 - c) * m) * y p) /\
  (forall p, (p < n)%nat -> elR (d_pc (fst r)) p = (1 - c) * elR (d_pc a) p + sqrt (c * (2 - c) * m) * elR step p) /\
  snd r = s * exp (c / (1 + c) * (norm_n n (d_ps (fst r)) / k_enn (cma_consts n w) - 1)).
Proof.
  intros s0 i a s steps idx step H LS.
  destruct (active_reach_sized mx n lambda fuel eps chol eig Hn HL Heps Hfuel Hchol Heig s0 i a s H) as [C Z].
  apply (active_paths mx n lambda fuel eps chol eig Hn HL Heps Hfuel Hchol Heig (S i) a s steps idx step C Z LS).
Qed.
End Runs.
End C65.
Print Assumptions C65_weights.
Print Assumptions C65_learning_rates.
Print Assumptions C65_covariance.
Print Assumptions C65_samples.
Print Assumptions C65_update.
Print Assumptions C65_returns.
Print Assumptions C65_active_covariance.
Print Assumptions C65_active_update.
Print Assumptions C65_active_paths.

(** The hypotheses can be met: routines for one variable, and a generation. *)
Example C65_routines : chol_lower 1 chol1 /\ eig_sym 1 eig1.
Proof. split; [apply chol1_ok|apply eig1_ok]. Qed.
Example C65_reached : exists a s, reach (adapt (N := RNum 1) ln exp (1 / 2) chol1 eig1 1 2 2) 1 (dist0 (N := RNum 1) 1) 1 1 a s /\
  d_C a 0%nat 0%nat <> 1.
Proof.
  exists (fst (first1 1)), (snd (first1 1)). split.
  - eapply (reach_next _ _ _ _ 0 (dist0 (N := RNum 1) 1) 1 [[0]; [0]] [0%nat; 1%nat] [0]); [apply reach_start|reflexivity|]. symmetry. apply surjective_pairing.
  - exact (first1_value 1).
Qed.

(** The published algorithm adds C^(-1/2) times the step to the step-size path.  The code uses the
    reciprocals of the eigenvalues, not of their square roots, so it adds C^(-1) times the step:
    already in the second generation of a run the two differ. *)
Theorem C65_published_path_refuted : forall mx, exists a s,
  reach (adapt (N := RNum mx) ln exp (1 / 2) chol1 eig1 1 2 2) 1 (dist0 (N := RNum mx) 1) 1 1 a s /\ length [1] = 1%nat /\
  ~ published_path 1 (cma_consts 1 (CMAESAdapt.weights (N := RNum mx) ln 2))
      (settled (N := RNum mx) (1 / 2) chol1 2 (d_C a)) (d_ps a) [1]
      (d_ps (fst (adapt (N := RNum mx) ln exp (1 / 2) chol1 eig1 1 2 2 2 a s [[0]; [0]] [0%nat; 1%nat] [1]))).
Proof. exact path_not_sqrt. Qed.
Print Assumptions C65_published_path_refuted.

(** ActiveCMAES does not keep the directions the repair has no reason to touch: in the first
    generation of a run with two variables and four members, the worst of which went far along
    the second axis, the updated matrix has a positive variance along the first axis and the
    repaired one has none. *)
Theorem C65_active_repair_refuted : forall mx fuel eps chol eig, 0 < eps -> (2 <= fuel)%nat -> chol_lower 2 chol -> eig_sym 2 eig ->
  forall sigma,
  let steps := [[0; 0]; [0; 0]; [0; 0]; [0; 100]] in
  let axis i := if Nat.eqb i 0 then 1 else 0 in
  let a := dist0 (N := RNum mx) 2 in
  let r := active_adapt (N := RNum mx) exp eps chol eig 2 4 fuel 1 a sigma steps [0; 1; 2; 3]%nat [0; 0] in
  let B := active_C (N := RNum mx) 2 4 (settled (N := RNum mx) eps chol fuel (d_C a)) (d_pc (fst r)) steps [0; 1; 2; 3]%nat in
  0 < quad 2 B axis /\ quad 2 (d_C (fst r)) axis = 0.
Proof. exact active_loses. Qed.
Print Assumptions C65_active_repair_refuted.

(** ActiveCMAES with fewer than four members: the weight is 1 / 0, and in double arithmetic no element
    of the mean is finite after the first generation. *)
Theorem C65_active_few_members_refuted : forall lambda (m : list F64) sigma steps idx step, (lambda < 4)%nat ->
  weighted (aweights (N := F64) lambda) steps idx step -> Forall not_finite (vadd m (vscale sigma step)).
Proof. exact active_few. Qed.
Print Assumptions C65_active_few_members_refuted.
Example C65_active_few : weighted (aweights (N := F64) 3) [[fz 1]; [fz 2]; [fz 3]] [2; 0; 1]%nat [finf] /\
  vadd [fz 0] (vscale (fz 1) [finf]) = [finf].
Proof. split; [exists [finf], []; split; reflexivity|reflexivity]. Qed.
