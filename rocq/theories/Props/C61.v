(** C61: BeginOptimization and EndOptimization. *)
From Coq Require Import List Arith Bool ZArith QArith Lia.
From Verif.Base Require Import Num Vec Instances QInst.
From Verif.Model Require Import Common.
From Verif.Model Require Sgd GradientDescent SPSA FrankWolfe CD PSO SA DE CNE CMAES PopCMAES LBFGS AugLag ParallelSgd NSGA2 MOEAD Eve VarRed SVRG Sarah Katyusha
  IQN BigBatch Spalera Lookahead PrimalDual Callbacks Svec.
From Verif.Spec Require Import BracketSpec.
From Verif.Proof Require Import Bracket BracketLoops BracketNested PrimalDualTrace.
From Verif.Proof Require LookaheadEx LBFGSEx ReuseRefuted.
Import ListNotations.
Local Open Scope nat_scope.

(** Optimizers that call BeginOptimization (with the starting point) before anything else and
    EndOptimization (with the final point) after everything else, and neither of them in
    between: whatever the function, the callbacks and the reason for returning. *)
Theorem C61_sgd : forall (N : Num) (X G U D : Type) (c : Sgd.Cfg N X G U D) f cb fuel u d step x r,
  Sgd.optimize_with c f cb fuel u d step x = Sgd.Return r ->
  framed sgd_mark (Sgd.BeginOpt x) (Sgd.EndOpt (Sgd.r_x r)) (Sgd.r_trace r).
Proof. exact @sgd_frame. Qed.
Theorem C61_eve : forall (N : Num) pw (c : @Eve.ecfg N) f cb fuel x r,
  Eve.eve_optimize pw c f cb fuel x = Sgd.Return r ->
  framed sgd_mark (Sgd.BeginOpt x) (Sgd.EndOpt (Eve.er_x r)) (Eve.er_trace r).
Proof. exact @eve_frame. Qed.
Theorem C61_gradient_descent : forall (N : Num) step max tol f cb fuel (x : list N) r,
  GradientDescent.gd step max tol f cb fuel x = Some r -> framed ev_mark (Begin x) (End (o_x r)) (o_tr r).
Proof. exact @gd_frame. Qed.
Theorem C61_spsa : forall (N : Num) alpha gamma step evalStep ak max tol pw f coin cb fuel (x : list N) r,
  SPSA.spsa alpha gamma step evalStep ak max tol pw f coin cb fuel x = Some r -> framed ev_mark (Begin x) (End (o_x r)) (o_tr r).
Proof. exact @spsa_frame. Qed.
Theorem C61_frank_wolfe : forall (N : Num) max tol f lmo rule cb fuel (x : list N) r,
  FrankWolfe.frank_wolfe max tol f lmo rule cb fuel x = Ret r -> framed ev_mark (Begin x) (End (o_x r)) (o_tr r).
Proof. exact @fw_frame. Qed.
Theorem C61_coordinate_descent : forall (N : Num) step max tol interval f pg policy cb fuel (x : list (list N)) r,
  CD.cd step max tol interval f pg policy cb fuel x = Ret r -> framed ev_mark (Begin x) (End (o_x r)) (o_tr r).
Proof. exact @cd_frame. Qed.
Theorem C61_pso : forall (N : Num) max horizon (tol : N) f vel cb pos0 vel0 x r,
  PSO.pso_optimize max horizon tol f vel cb pos0 vel0 x = Some (Ret r) -> framed ev_mark (Begin x) (End (o_x r)) (o_tr r).
Proof. exact @pso_frame. Qed.
Theorem C61_parallel_sgd : forall (N : Num) max tol shuffle threads share f step perm cbE grad cbG cbS sched n fuel (x0 : list N) v x tr,
  ParallelSgd.psgd max tol shuffle threads share f step perm cbE grad cbG cbS sched n fuel x0 = Ret (v, x, tr) ->
  framed (@o_mark N) (ParallelSgd.OBegin x0) (ParallelSgd.OEnd x) tr.
Proof. exact @psgd_frame. Qed.
Theorem C61_nsga2 : forall (N : Num) size gens (cp mp ms eps : N) lb ub fs stop init rnd sortp sorti fuel x r,
  NSGA2.optimize size gens cp mp ms eps lb ub fs stop init rnd sortp sorti fuel x = NSGA2.NRet r ->
  framed n_mark (NSGA2.NBegin x) (NSGA2.NEnd (NSGA2.r_x r)) (NSGA2.r_tr r).
Proof. exact @nsga2_frame. Qed.
Theorem C61_moead : forall (N : Num) size gens (cp np : N) ns di dw mr lb ub agg ws fs stop npow ssort init shuf shuff rnd rows x r,
  MOEAD.moead size gens cp np ns di dw mr lb ub agg ws fs stop npow ssort init shuf shuff rnd rows x = NSGA2.NRet r ->
  framed n_mark (NSGA2.NBegin x) (NSGA2.NEnd (MOEAD.q_x r)) (MOEAD.q_tr r).
Proof. exact @moead_frame. Qed.
Theorem C61_svrg : forall (N : Num) (f : VarRed.VFun N) cb b (D : Type) max tol shuffle exact (dp : D -> list N -> list N -> list N -> nat -> N -> D * N) fuel inner d eta x r,
  SVRG.svrg f cb b max tol shuffle exact dp fuel inner d eta x = Ret r ->
  framed v_mark (VarRed.VBegin x) (VarRed.VEnd (SVRG.vr_x r)) (SVRG.vr_tr r).
Proof. exact @svrg_frame. Qed.
Theorem C61_sarah : forall (N : Num) (f : VarRed.VFun N) cb b max tol shuffle exact eta norm early fuel inner x r,
  Sarah.sarah f cb b max tol shuffle exact eta norm early fuel inner x = Ret r ->
  framed v_mark (VarRed.VBegin x) (VarRed.VEnd (SVRG.vr_x r)) (SVRG.vr_tr r).
Proof. exact @sarah_frame. Qed.
Theorem C61_katyusha : forall (N : Num) (f : VarRed.VFun N) cb b proximal cv lip max tol shuffle exact fuel inner x r,
  Katyusha.katyusha f cb proximal cv lip b max tol shuffle exact fuel inner x = Ret r ->
  framed v_mark (VarRed.VBegin x) (VarRed.VEnd (SVRG.vr_x r)) (SVRG.vr_tr r).
Proof. exact @kat_frame. Qed.
Theorem C61_bigbatch : forall (N : Num) (f : VarRed.VFun N) cb pol max tol shuffle exact norm offset fuel bs eta prev x r,
  BigBatch.bigbatch f cb pol max tol shuffle exact norm offset fuel bs eta prev x = Ret r ->
  framed b_mark (BigBatch.BBegin x) (BigBatch.BEnd (BigBatch.br_x r)) (BigBatch.br_tr r).
Proof. exact @bb_frame. Qed.
Theorem C61_spalera : forall (N : Num) (D : Type) npow nexp tiny alpha epsilon rate (f : VarRed.VFun N) cb b max tol lambda shuffle exact
    (decay : D -> list N -> N -> list N -> D * N) fuel old eta d x r,
  Spalera.spalera npow nexp tiny alpha epsilon rate f cb b max tol lambda shuffle exact decay fuel old eta d x = Ret r ->
  framed p_mark (Spalera.PBegin x) (Spalera.PEnd (Spalera.pr_x r)) (Spalera.pr_tr r).
Proof. exact @sp_frame. Qed.

(** Optimizers that call each exactly once, and EndOptimization last, but evaluate the
    function (with callbacks) before BeginOptimization. *)
Theorem C61_sa : forall (N : Num) max im mc mt tol mm imc gain target next lg ex f rnd cb temp (x : list N) r,
  SA.sa_optimize max im mc mt tol mm imc gain target next lg ex f rnd cb temp x = Ret r ->
  framed_after ev_mark [Ev x (f x)] (Begin x) (End (o_x (fst r))) (o_tr (fst r)).
Proof. exact @sa_frame. Qed.
Theorem C61_de : forall (N : Num) size gens (cr w tol inf : N) f noise draws unif cb fuel x r,
  DE.de_optimize size gens cr w tol inf f noise draws unif cb fuel x = Some (Ret r) ->
  exists pre, framed_after ev_mark pre (Begin x) (End (o_x r)) (o_tr r).
Proof. exact @de_frame. Qed.
Theorem C61_cne : forall (N : Num) size gens fl (mp ms tol inf : N) f si noise parents coin mu mz cb x r,
  CNE.cne_optimize size gens fl mp ms tol inf f si noise parents coin mu mz cb x = Some (Ret r) ->
  framed_after ev_mark [Ev x (f x)] (Begin x) (End (o_x r)) (o_tr r).
Proof. exact @cne_frame. Qed.
Theorem C61_cmaes : forall (N : Num) max lam pat (tol big : N) fe ic select tf w A sample adapt si cb a0 s0 x r,
  CMAES.cma_optimize max lam pat tol big fe ic select tf w A sample adapt si cb a0 s0 x = Ret r ->
  exists pre, framed_after ev_mark pre (Begin (tf x)) (End (o_x r)) (o_tr r).
Proof. exact @cma_frame. Qed.
Theorem C61_lbfgs : forall (N : Num) nb max arm mgn wolfe factr mins maxs mt (tol : N) norm2 normF f cb fuel t s0 y0 x r,
  LBFGS.lbfgs nb max arm mgn wolfe factr mins maxs mt tol norm2 normF f cb fuel t s0 y0 x = Ret r ->
  let '(v, g) := f x in framed_after ev_mark [EvG x v g (cs_grad cb [] x v g)] (Begin x) (End (o_x (fst r))) (o_tr (fst r)).
Proof. exact @lbfgs_frame. Qed.
Theorem C61_iqn : forall (N : Num) (f : VarRed.VFun N) cb b solve norm eta max tol rows fuel init x r,
  IQN.iqn solve norm f cb eta b max tol rows fuel init x = Ret r ->
  exists pre, framed_after v_mark pre (VarRed.VBegin x) (VarRed.VEnd (IQN.ir_x r)) (IQN.ir_tr r).
Proof. exact @iqn_frame. Qed.
(** The augmented Lagrangian and Lookahead: the same for their own calls (the runs of the
    inner optimizer are single events). *)
Theorem C61_auglag : forall (N : Num) (S : Type) max tf sf (tol : N) f cs (solve : list (AugLag.aev N) -> S -> list N -> N -> list N -> list N * S) stop fuel t s l sg x r,
  AugLag.auglag max tf sf tol f cs solve stop fuel t s l sg x = Ret r ->
  exists pre, framed_after a_mark pre (AugLag.ABegin x) (AugLag.AEnd (AugLag.al_x r)) (AugLag.al_tr r).
Proof. exact @auglag_frame. Qed.
Theorem C61_lookahead : forall (N : Num) (B D E : Type) base has_max base_max k max tol exact dp nf bs feval stop fuel (b : B) (d : D) step x (r : @Lookahead.lres N B D E),
  Lookahead.lookahead base has_max base_max k max tol exact dp nf bs feval stop fuel b d step x = Ret r ->
  framed l_mark (Lookahead.LBegin x) (Lookahead.LEnd (Lookahead.lr_x r)) (Lookahead.lr_tr r).
Proof. exact @la_frame. Qed.

(** The primal-dual solver keeps to it unless it converges. *)
Theorem C61_primal_dual : forall (N : Num) (sqrt2 half : N) p chol inv eigmax syl lsolve normv normF recip tau t1 t2 t3 max cb chol_upper fuel X ys yd Z r,
  PrimalDual.pd_optimize sqrt2 half p chol inv eigmax syl lsolve normv normF recip tau t1 t2 t3 max cb chol_upper fuel X ys yd Z = inr (Ret r) ->
  (PrimalDual.r_exit r = PrimalDual.XLimit \/ PrimalDual.r_exit r = PrimalDual.XAlpha ->
   framed ev_mark (Begin (PrimalDual.a_mat X)) (End (PrimalDual.ps_X (PrimalDual.r_state r))) (PrimalDual.r_tr r)) /\
  (PrimalDual.r_exit r = PrimalDual.XConverged ->
   exists body, PrimalDual.r_tr r = Begin (PrimalDual.a_mat X) :: body /\ plain ev_mark body).
Proof.
  intros N sqrt2 half p chol inv eigmax syl lsolve normv normF recip tau t1 t2 t3 max cb chol_upper fuel X ys yd Z r E.
  unfold PrimalDual.pd_optimize in E. destruct (PrimalDual.validate _ _ _ _ _ _); [discriminate|]. injection E as E.
  destruct (loop_trace sqrt2 half p chol inv eigmax syl lsolve normv normF recip tau t1 t2 t3 max cb
    fuel 1 false _ _ r ltac:(unfold bound; destruct max; lia) E) as (xs & T & _).
  assert (Q : plain ev_mark (map (St (N := N) (G := Svec.matrix (N := N))) xs)).
  { intros e I. apply in_map_iff in I. destruct I as (y & <- & _). reflexivity. }
  unfold closing in T. split.
  - intros H. exists (map St xs). split; [|exact Q]. destruct H as [H|H]; rewrite H in T; exact T.
  - intros H. rewrite H, app_nil_r in T. exists (map St xs). split; [exact T|exact Q].
Qed.
(** Convergence does happen: [C47_end_refuted] runs to it. *)

(** "BeginOptimization comes first" is false of simulated annealing, CNE and L-BFGS in every
    call: the first event is the evaluation of the starting point. *)
Theorem C61_first_refuted : forall (N : Num) nb max arm mgn wolfe factr mins maxs mt (tol : N) norm2 normF f cb fuel t s0 y0 x r,
  LBFGS.lbfgs nb max arm mgn wolfe factr mins maxs mt tol norm2 normF f cb fuel t s0 y0 x = Ret r ->
  exists v g g' rest, o_tr (fst r) = EvG x v g g' :: Begin x :: rest.
Proof.
  intros. pose proof (C61_lbfgs _ _ _ _ _ _ _ _ _ _ _ _ _ _ _ _ _ _ _ _ _ H) as K. destruct (f x) as [v g].
  destruct K as (b & T & _). cbn in T. eauto.
Qed.
(** Restarted CMA-ES calls them for each of its runs and EndOptimization once more at the
    end: with n runs n times and n + 1 times; the last two calls are with the point of the last run. *)
Theorem C61_pop_cmaes_refuted : forall (N : Num) bipop maxRestarts maxFunctionEvaluations lambda0 (step0 : N) run grow small v x rs,
  (forall i lam st, exists pre x, framed_after ev_mark pre (Begin x) (End (o_x (fst (run i lam st)))) (o_tr (fst (run i lam st)))) ->
  PopCMAES.pop_optimize bipop maxRestarts maxFunctionEvaluations lambda0 step0 run grow small = (v, x, rs) ->
  begins (PopCMAES.pop_events rs) = length rs /\ ends (PopCMAES.pop_events rs) = S (length rs) /\
  exists tr r c, PopCMAES.pop_events rs = tr ++ [End (o_x r); End (o_x r)] /\ In (r, c) rs.
Proof. intros N bp mr mf l0 s0 run gr sm v x rs H. exact (pop_counts bp mr mf l0 s0 run gr sm H v x rs). Qed.
(** The callbacks given to Lookahead over SGD see both calls again for every inner run. *)
Theorem C61_lookahead_refuted : forall (N : Num) (G U D D' : Type) (c : nat -> Sgd.Cfg N (list N) G U D) f cb fuel0 has_max base_max k max tol exact
    (dp : D' -> list N -> N -> list N -> D' * N) nf bs feval stop fuel b d step x r,
  Lookahead.lookahead (Lookahead.sgd_base c f cb fuel0) has_max base_max k max tol exact dp nf bs feval stop fuel b d step x = Ret r ->
  count_marks l_mark_all (shown_by_lookahead (Lookahead.lr_tr r)) = 2 + 2 * inner_runs (Lookahead.lr_tr r).
Proof. exact @la_shown. Qed.

(** Cases that meet the hypotheses *)
Definition gd61 cb : option (Res ZNum (list ZNum) (list ZNum)) :=
  GradientDescent.gd (N := ZNum) 1%Z 3 1%Z (fun x => (nth 0 x 0 * nth 0 x 0, [nth 0 x 0]))%Z cb 10 [3%Z].
Example C61_example_gd : exists r, gd61 {| cs_stop := fun h => match h with St _ :: _ => true | _ => false end; cs_grad := fun _ _ _ g => g |} = Some r /\
  o_tr r = [Begin [3]; EvG [3] 9 [3] [3]; St [0]; End [0]]%Z.
Proof. eexists. split; vm_compute; reflexivity. Qed.
Example C61_example_lbfgs : exists v o, ReuseRefuted.lb_call false (ReuseRefuted.lb_in LBFGSEx.quiet) = Ret (v, o) /\
  begins (o_tr v) = 1 /\ ends (o_tr v) = 1 /\ 4 < length (o_tr v).
Proof.
  let v := eval vm_compute in (ReuseRefuted.lb_call false (ReuseRefuted.lb_in LBFGSEx.quiet)) in match v with Ret (?a, ?b) => exists a, b end.
  split; [vm_compute; reflexivity|]. vm_compute. repeat split; lia.
Qed.
Example C61_example_lookahead : exists r, LookaheadEx.lk_run LookaheadEx.lk_quiet false 4 3 = Ret r /\
  inner_runs (Lookahead.lr_tr r) = 3 /\ count_marks l_mark_all (shown_by_lookahead (Lookahead.lr_tr r)) = 8.
Proof.
  let v := eval vm_compute in (LookaheadEx.lk_run LookaheadEx.lk_quiet false 4 3) in match v with Ret ?r => exists r end.
  split; [vm_compute; reflexivity|]. split; vm_compute; reflexivity.
Qed.
Print Assumptions C61_sgd.
Print Assumptions C61_eve.
Print Assumptions C61_gradient_descent.
Print Assumptions C61_spsa.
Print Assumptions C61_frank_wolfe.
Print Assumptions C61_coordinate_descent.
Print Assumptions C61_pso.
Print Assumptions C61_parallel_sgd.
Print Assumptions C61_nsga2.
Print Assumptions C61_moead.
Print Assumptions C61_svrg.
Print Assumptions C61_sarah.
Print Assumptions C61_katyusha.
Print Assumptions C61_bigbatch.
Print Assumptions C61_spalera.
Print Assumptions C61_sa.
Print Assumptions C61_de.
Print Assumptions C61_cne.
Print Assumptions C61_cmaes.
Print Assumptions C61_lbfgs.
Print Assumptions C61_iqn.
Print Assumptions C61_auglag.
Print Assumptions C61_lookahead.
Print Assumptions C61_primal_dual.
Print Assumptions C61_first_refuted.
Print Assumptions C61_pop_cmaes_refuted.
Print Assumptions C61_lookahead_refuted.
