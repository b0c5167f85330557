(** C60: maxIterations = 0 imposes no iteration limit. *)
From Coq Require Import List Arith Bool ZArith Reals Lra Lia.
From Coq Require Import Floats.SpecFloat.
From Verif.Base Require Import Num Vec Size Instances QInst.
From Verif.Model Require Import Common Sgd Eve.
From Verif.Model Require GradientDescent CD FrankWolfe LBFGS AugLag ParallelSgd PrimalDual SVRG Sarah Katyusha BigBatch Spalera Lookahead IQN CMAES SA SPSA Updates.
From Verif.Spec Require Import NoLimitSpec.
From Verif.Proof Require Import NoLimit NoLimitMore NoLimitVar NoLimitRefuted SgdEx.
Import ListNotations.

(** In each theorem the call is watched for [fuel] rounds of its main loop.  What is seen --
    the result if it has returned, the events, or that it is still running -- is the same with
    maxIterations = 0 as with any limit M that is too large to be reached in that time.  The
    number of rounds is arbitrary below 2^64 - 1, the largest value of the counter. *)

(** SGD, with all its update and decay policies; the counter counts functions, not batches. *)
Theorem C60_sgd : forall (N : Num) X G U D (c : Cfg N X G U D) f cb fuel M u d step x,
  fuel * c_batch c < M -> fuel * c_batch c < size_max ->
  optimize_with (with_max 0 c) f cb fuel u d step x = optimize_with (with_max M c) f cb fuel u d step x.
Proof. exact @sgd_no_limit. Qed.
Print Assumptions C60_sgd.

Theorem C60_eve : forall (N : Num) pw (c : @ecfg N) f cb fuel M x,
  fuel * e_batch c < M -> fuel * e_batch c < size_max ->
  eve_optimize pw (eve_with_max 0 c) f cb fuel x = eve_optimize pw (eve_with_max M c) f cb fuel x.
Proof. exact @eve_no_limit. Qed.
Print Assumptions C60_eve.

Theorem C60_gradient_descent : forall (N : Num) (stepSize tolerance : N) f cb M fuel x, S fuel < M -> fuel < size_max ->
  GradientDescent.gd stepSize 0 tolerance f cb fuel x = GradientDescent.gd stepSize M tolerance f cb fuel x.
Proof. intros N h tol. exact (gd_no_limit h tol). Qed.
Print Assumptions C60_gradient_descent.

Theorem C60_cd : forall (N : Num) (stepSize tolerance : N) updateInterval f pg policy cb M fuel x, S fuel < M -> fuel < size_max ->
  CD.cd stepSize 0 tolerance updateInterval f pg policy cb fuel x = CD.cd stepSize M tolerance updateInterval f pg policy cb fuel x.
Proof. intros N h tol. exact (cd_no_limit h tol). Qed.
Print Assumptions C60_cd.

Theorem C60_frank_wolfe : forall (N : Num) (tolerance : N) f lmo rule cb M fuel x, S fuel < M -> fuel < size_max ->
  FrankWolfe.frank_wolfe 0 tolerance f lmo rule cb fuel x = FrankWolfe.frank_wolfe M tolerance f lmo rule cb fuel x.
Proof. intros N tol. exact (fw_no_limit tol). Qed.
Print Assumptions C60_frank_wolfe.

(** L-BFGS has no counter to run into: there is no bound on the number of rounds. *)
Theorem C60_lbfgs : forall (N : Num) nb (ar mg wo fa mi ma : N) mt tol n2 nF f cb M fuel t s y x, fuel < M ->
  LBFGS.lbfgs nb 0 ar mg wo fa mi ma mt tol n2 nF f cb fuel t s y x = LBFGS.lbfgs nb M ar mg wo fa mi ma mt tol n2 nF f cb fuel t s y x.
Proof. exact @lbfgs_no_limit. Qed.
Print Assumptions C60_lbfgs.

Theorem C60_aug_lagrangian : forall (N : Num) S thrFactor sigmaFactor (tolerance : N) f cs (solve : _ -> S -> _) stop M fuel t s l sg x,
  Datatypes.S fuel < M -> fuel < size_max ->
  AugLag.auglag 0 thrFactor sigmaFactor tolerance f cs solve stop fuel t s l sg x = AugLag.auglag M thrFactor sigmaFactor tolerance f cs solve stop fuel t s l sg x.
Proof. exact @al_no_limit. Qed.
Print Assumptions C60_aug_lagrangian.

Theorem C60_parallel_sgd : forall (N : Num) (tolerance : N) shuffle T share f step perm cbE grad cbG cbS sched M n fuel x, fuel < M -> fuel <= size_max ->
  ParallelSgd.psgd 0 tolerance shuffle T share f step perm cbE grad cbG cbS sched n fuel x =
  ParallelSgd.psgd M tolerance shuffle T share f step perm cbE grad cbG cbS sched n fuel x.
Proof. exact @psgd_no_limit. Qed.
Print Assumptions C60_parallel_sgd.

Theorem C60_primal_dual : forall (N : Num) (s2 hf : N) p ch iv em sy ls nv nf rc ta t1 t2 t3 cb cu M fuel X ys yd Z, S fuel < M -> fuel < size_max ->
  PrimalDual.pd_optimize s2 hf p ch iv em sy ls nv nf rc ta t1 t2 t3 0 cb cu fuel X ys yd Z =
  PrimalDual.pd_optimize s2 hf p ch iv em sy ls nv nf rc ta t1 t2 t3 M cb cu fuel X ys yd Z.
Proof. exact @pd_no_limit. Qed.
Print Assumptions C60_primal_dual.

Theorem C60_svrg : forall (N : Num) D (f : VarRed.VFun N) cb b (tolerance : N) shuffle exact (dp : D -> _) M fuel inner d eta x, fuel < M -> fuel < size_max ->
  SVRG.svrg f cb b 0 tolerance shuffle exact dp fuel inner d eta x = SVRG.svrg f cb b M tolerance shuffle exact dp fuel inner d eta x.
Proof. exact @svrg_no_limit. Qed.
Print Assumptions C60_svrg.

Theorem C60_sarah : forall (N : Num) (f : VarRed.VFun N) cb b (tolerance : N) shuffle exact eta norm early M fuel inner x, fuel < M -> fuel < size_max ->
  Sarah.sarah f cb b 0 tolerance shuffle exact eta norm early fuel inner x = Sarah.sarah f cb b M tolerance shuffle exact eta norm early fuel inner x.
Proof. exact @sarah_no_limit. Qed.
Print Assumptions C60_sarah.

Theorem C60_katyusha : forall (N : Num) (f : VarRed.VFun N) cb proximal convexity lipschitz b (tolerance : N) shuffle exact M fuel inner x, fuel < M -> fuel < size_max ->
  Katyusha.katyusha f cb proximal convexity lipschitz b 0 tolerance shuffle exact fuel inner x =
  Katyusha.katyusha f cb proximal convexity lipschitz b M tolerance shuffle exact fuel inner x.
Proof. exact @katyusha_no_limit. Qed.
Print Assumptions C60_katyusha.

Theorem C60_lookahead : forall (N : Num) B D E base has_max base_max k (tolerance : N) exact (dp : D -> _) n b feval (stop : list (Lookahead.lev N E) -> bool) M fuel (base0 : B) d step x,
  fuel < M -> fuel < size_max ->
  Lookahead.lookahead base has_max base_max k 0 tolerance exact dp n b feval stop fuel base0 d step x =
  Lookahead.lookahead base has_max base_max k M tolerance exact dp n b feval stop fuel base0 d step x.
Proof. exact @lookahead_no_limit. Qed.
Print Assumptions C60_lookahead.

Theorem C60_iqn : forall (N : Num) solve norm (f : VarRed.VFun N) cb eta b (tolerance : N) rows M fuel init x, S fuel < M -> fuel < size_max ->
  IQN.iqn solve norm f cb eta b 0 tolerance rows fuel init x = IQN.iqn solve norm f cb eta b M tolerance rows fuel init x.
Proof. exact @iqn_no_limit. Qed.
Print Assumptions C60_iqn.

Theorem C60_spalera : forall (N : Num) npow nexp (tiny al ep ra : N) (f : VarRed.VFun N) cb b tolerance lambda shuffle exact D (decay : D -> _) M fuel old eta d x,
  fuel * b < M -> fuel * b < size_max ->
  Spalera.spalera npow nexp tiny al ep ra f cb b 0 tolerance lambda shuffle exact decay fuel old eta d x =
  Spalera.spalera npow nexp tiny al ep ra f cb b M tolerance lambda shuffle exact decay fuel old eta d x.
Proof. exact @spalera_no_limit. Qed.
Print Assumptions C60_spalera.

Theorem C60_bigbatch : forall (N : Num) (f : VarRed.VFun N) cb pol (tolerance : N) shuffle exact norm offset M fuel bs eta prev x,
  fuel * VarRed.vf_num f < M -> fuel * VarRed.vf_num f < size_max ->
  BigBatch.bigbatch f cb pol 0 tolerance shuffle exact norm offset fuel bs eta prev x =
  BigBatch.bigbatch f cb pol M tolerance shuffle exact norm offset fuel bs eta prev x.
Proof. exact @bigbatch_no_limit. Qed.
Print Assumptions C60_bigbatch.

(** CMA-ES and active CMA-ES, watched for the generations before F *)
Theorem C60_cmaes : forall (N : Num) la pa (tolerance big : N) feval ic sel tf w A sample adapt srt cb F M a0 sg x, 1 <= F -> F < M -> F <= size_max ->
  CMAES.cma_optimize 0 la pa tolerance big feval ic sel tf w A (watched F sample) adapt srt cb a0 sg x =
  CMAES.cma_optimize M la pa tolerance big feval ic sel tf w A (watched F sample) adapt srt cb a0 sg x.
Proof. exact @cma_no_limit. Qed.
Print Assumptions C60_cmaes.

(** A run without limit: 5 functions in batches of 2, until the objective stops changing. *)
Example C60_example :
  exists r, ex_run (with_max 0 (ex_c 2 1 1 false false)) (ex_f 5) nostop_cb 200 40%Z = Return r /\
    length (r_trace r) = 58 /\
    ex_run (with_max 1000 (ex_c 2 1 1 false false)) (ex_f 5) nostop_cb 200 40%Z = Return r.
Proof.
  eexists. split.
  - unfold ex_run. rewrite (C60_sgd _ _ _ _ _ _ _ _ 200 1000); [vm_compute; reflexivity|cbn; lia|].
    assert (401 <= size_max) by (apply size_max_ge; vm_compute; discriminate). cbn [c_batch ex_c]. lia.
  - split; vm_compute; reflexivity.
Qed.

(** ---- where the documentation says the same, but it is not so ---- *)
(** SPSA does nothing at all. *)
Theorem C60_spsa_refuted :
  forall (N : Num) alpha gamma stepSize ess ak (tolerance : N) pw f coin cb fuel x,
  SPSA.spsa alpha gamma stepSize ess ak 0 tolerance pw f coin cb fuel x =
  Some {| o_val := f x; o_x := x; o_tr := [Begin x; Ev x (f x); End x] |}.
Proof. intros. destruct fuel; reflexivity. Qed.
Print Assumptions C60_spsa_refuted.

(** Simulated annealing makes its initial moves and returns: no step is taken and the
    temperature stays what it was. *)
Theorem C60_sa_refuted : forall (N : Num) im mc mt (tol mm ic ga ta : N) next lg ex f rnd cb t0 x r t,
  SA.sa_optimize 0 im mc mt tol mm ic ga ta next lg ex f rnd cb t0 x = Ret (r, t) -> t = t0 /\ no_step (o_tr r).
Proof. exact @sa_zero. Qed.
Print Assumptions C60_sa_refuted.

(** The line search of Frank-Wolfe (UpdateLineSearch) stays where it is whenever the minimum
    lies strictly between the two points. *)
Theorem C60_linesearch_refuted : forall mx (tol : R) f grad (x1 x2 : list R), length x1 = length x2 ->
  let d gamma := FrankWolfe.ls_derivative (N := RNum mx) grad x1 (vsub (N := RNum mx) x2 x1) gamma in
  (d 0 < 0)%R -> (0 < d 1)%R -> FrankWolfe.line_search (N := RNum mx) 0 tol f grad x1 x2 = (x1, f x1).
Proof. exact linesearch_zero. Qed.
Print Assumptions C60_linesearch_refuted.
Example C60_linesearch_example :
  let d gamma := FrankWolfe.ls_derivative (N := RNum 1000) (fun x => x) [(-1)%R] (vsub (N := RNum 1000) [3%R] [(-1)%R]) gamma in
  (d 0 < 0)%R /\ (0 < d 1)%R.
Proof. cbn. lra. Qed.

(** DemonSGD divides by its number of iterations, maxIterations * batchSize: whatever the
    momentum, the step sizes and the gradients, every entry is NaN after two steps (in
    floating point; a debug build aborts instead). *)
Theorem C60_demon_refuted : forall (momentum : F64) (hg : list (F64 * F64)) (x : F64) batchSize, 2 <= length hg ->
  snd (fold_left (fun s q => Updates.demon_sgd_up momentum (0 * batchSize) (fst s) (snd s) (fst q) (snd q)) hg ((tt, 0), x)) = S754_nan.
Proof. intros momentum hg x batchSize. exact (demon_zero momentum hg x). Qed.
Print Assumptions C60_demon_refuted.
