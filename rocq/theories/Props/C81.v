(** C81: what an objective that is not finite does to a run. *)
From Coq Require Import List Arith Bool SpecFloat ZArith.
From Verif.Base Require Import Num Instances.
From Verif.Model Require Import VarRed BigBatch Spalera Sgd ParallelSgd Lookahead SVRG Sarah Katyusha IQN Eve SPSA LBFGS GradientDescent CD Common.
From Verif.Spec Require Import FiniteSpec.
From Verif.Proof Require Import FiniteProof FiniteSgd FiniteVr FiniteMore FiniteEx.
Import ListNotations.

(** The law used below holds for the doubles the optimizers run on. *)
Theorem C81_doubles : sticky F64.
Proof. exact F64_sticky. Qed.
Print Assumptions C81_doubles.

(** Gradient descent: nothing happens after an objective that is not finite, and it is what is
    returned. *)
Theorem C81_gradient_descent :
  forall (N : Num) (h : N) max tol f cb fuel x r, gd h max tol f cb fuel x = Some r ->
  afterwards bad_ev only_end (Common.o_tr r) /\ (Exists bad_ev (Common.o_tr r) -> nonfinite (Common.o_val r)).
Proof. intro N; exact gd_end. Qed.
Print Assumptions C81_gradient_descent.

(** Coordinate descent, which looks at the objective every updateInterval iterations. *)
Theorem C81_coordinate_descent :
  forall (N : Num) (h tol : N) ui max (f : list (list N) -> N) pg policy cb fuel x r,
  cd h max tol ui f pg policy cb fuel x = Ret r ->
  afterwards bad_ev only_end (Common.o_tr r) /\ (Exists bad_ev (Common.o_tr r) -> nonfinite (Common.o_val r)).
Proof. intro N; exact cd_end. Qed.
Print Assumptions C81_coordinate_descent.

(** Parallel SGD (Hogwild): whatever the schedule of the threads. *)
Theorem C81_parallel_sgd :
  forall (N : Num) max tol shuffle T share f step perm cbE grad cbG cbS sched n fuel x0 (v : N) x tr,
  psgd max tol shuffle T share f step perm cbE grad cbG cbS sched n fuel x0 = Ret (v, x, tr) ->
  afterwards bad_oev only_oend tr /\ (Exists bad_oev tr -> nonfinite v).
Proof. intro N; exact psgd_end. Qed.
Print Assumptions C81_parallel_sgd.

(** Lookahead: nothing happens after a run of the base optimizer that ends badly. *)
Theorem C81_lookahead :
  forall (N : Num) (B D E : Type) (base : nat -> B -> list (lev N E) -> list N -> option (B * list N * N * list E)) hm bm k max tol exact
    (dp : D -> list N -> N -> list N -> D * N) nf bs feval stop fuel b d step x r,
  lookahead base hm bm k max tol exact dp nf bs feval stop fuel b d step x = Ret r ->
  afterwards bad_lev only_lend (lr_tr r) /\ (Exists bad_lev (lr_tr r) -> nonfinite (lr_val r)).
Proof. intros N B D E; exact lookahead_end. Qed.
Print Assumptions C81_lookahead.

(** The optimizers of the SGD family finish the epoch: no epoch begins and nothing is shuffled
    after an objective that is not finite, and without exactObjective the returned value is not
    finite either. *)
Theorem C81_sgd :
  forall (N : Num), sticky N -> forall (X G U D : Type) (c : Cfg N X G U D) f cb fuel u d step x r,
  optimize_with c f cb fuel u d step x = Return r ->
  afterwards bad_event same_epoch (r_trace r) /\ (c_exact c = false -> Exists bad_event (r_trace r) -> nonfinite (r_val r)).
Proof. intros N K X G U D; exact (sgd_end K). Qed.
Print Assumptions C81_sgd.

Theorem C81_eve :
  forall (N : Num), sticky N -> forall pw (c : @ecfg N) f cb fuel x r, eve_optimize pw c f cb fuel x = Return r ->
  afterwards bad_event same_epoch (er_trace r) /\ (e_exact c = false -> Exists bad_event (er_trace r) -> nonfinite (er_val r)).
Proof. intros N K; exact (eve_end K). Qed.
Print Assumptions C81_eve.

Theorem C81_big_batch :
  forall (N : Num), sticky N -> forall f cb pol max (tol : N) shuffle exact norm offset fuel bs eta prev x r,
  bigbatch f cb pol max tol shuffle exact norm offset fuel bs eta prev x = Ret r ->
  afterwards bad_bev same_bepoch (br_tr r) /\ (exact = false -> Exists bad_bev (br_tr r) -> nonfinite (br_val r)).
Proof. intros N K; exact (bigbatch_end K). Qed.
Print Assumptions C81_big_batch.

(** SPALeRA: the value is only promised when the run is reported as converged. *)
Theorem C81_spalera :
  forall (N : Num), sticky N -> forall npow nexp (tiny alpha epsilon rate : N) f cb b max tol lambda shuffle exact (D : Type)
    (decay : D -> list N -> N -> list N -> D * N) fuel old eta d x r,
  spalera npow nexp tiny alpha epsilon rate f cb b max tol lambda shuffle exact decay fuel old eta d x = Ret r ->
  afterwards bad_pev same_pepoch (pr_tr r) /\ (pr_end r = PConverged -> Exists bad_pev (pr_tr r) -> nonfinite (pr_val r)).
Proof. intros N K npow nexp tiny alpha epsilon rate f cb b max tol lambda shuffle exact D; exact (spalera_end K npow nexp tiny alpha epsilon rate f cb b max tol lambda shuffle exact). Qed.
Print Assumptions C81_spalera.

(** The variance-reduced methods finish the pass that computes the objective: after a batch
    objective that is not finite come other batch objectives and the end, no gradient and no step. *)
Theorem C81_svrg :
  forall (N : Num), sticky N -> forall (D : Type) f cb b max (tol : N) shuffle exact
    (dp : D -> list N -> list N -> list N -> nat -> N -> D * N) fuel inner d eta x r,
  svrg f cb b max tol shuffle exact dp fuel inner d eta x = Ret r ->
  afterwards bad_vev only_values (vr_tr r) /\ (exact = false -> Exists bad_vev (vr_tr r) -> nonfinite (vr_val r)).
Proof. intros N K D; exact (svrg_end K). Qed.
Print Assumptions C81_svrg.

Theorem C81_sarah :
  forall (N : Num), sticky N -> forall f cb b max (tol : N) shuffle exact eta norm early fuel inner x r,
  sarah f cb b max tol shuffle exact eta norm early fuel inner x = Ret r ->
  afterwards bad_vev only_values (vr_tr r) /\ (exact = false -> Exists bad_vev (vr_tr r) -> nonfinite (vr_val r)).
Proof. intros N K; exact (sarah_end K). Qed.
Print Assumptions C81_sarah.

Theorem C81_katyusha :
  forall (N : Num), sticky N -> forall f cb proximal (convexity lipschitz : N) b max tol shuffle exact fuel inner x r,
  katyusha f cb proximal convexity lipschitz b max tol shuffle exact fuel inner x = Ret r ->
  afterwards bad_vev only_values (vr_tr r) /\ (exact = false -> Exists bad_vev (vr_tr r) -> nonfinite (vr_val r)).
Proof. intros N K; exact (katyusha_end K). Qed.
Print Assumptions C81_katyusha.

Theorem C81_iqn :
  forall (N : Num), sticky N -> forall solve norm f cb (eta : N) b max tol rows fuel init x r,
  iqn solve norm f cb eta b max tol rows fuel init x = Ret r ->
  afterwards bad_vev only_values (ir_tr r) /\ (Exists bad_vev (ir_tr r) -> nonfinite (ir_val r)).
Proof. intros N K; exact (iqn_end K). Qed.
Print Assumptions C81_iqn.

(** SPSA: when the objective at the point just stepped to is not finite, no step follows and
    the returned value is not finite. *)
Theorem C81_spsa :
  forall (N : Num) (alpha gamma stepSize evaluationStepSize ak : N) max tol pw f coin cb fuel x r,
  spsa alpha gamma stepSize evaluationStepSize ak max tol pw f coin cb fuel x = Some r ->
  forall pre e e' post, Common.o_tr r = pre ++ e :: e' :: post -> bad_after_step e e' ->
  Forall (fun e => ~ is_step e) post /\ nonfinite (Common.o_val r).
Proof. intro N; exact spsa_end. Qed.
Print Assumptions C81_spsa.

(** L-BFGS: no callback is ever shown a NaN objective but that of the starting point; then the
    run ends there at once and returns it. *)
Theorem C81_lbfgs :
  forall (N : Num) numBasis max (armijo minGradientNorm wolfe factr minStep maxStep : N) maxTrials tol norm2 normF f cb fuel term0 s0 y0 x r,
  lbfgs numBasis max armijo minGradientNorm wolfe factr minStep maxStep maxTrials tol norm2 normF f cb fuel term0 s0 y0 x = Ret r ->
  afterwards nan_ev only_marks (Common.o_tr (fst r)) /\
  (Exists nan_ev (Common.o_tr (fst r)) -> Common.o_x (fst r) = x /\ Common.o_val (fst r) = fst (f x) /\ nisnan (fst (f x)) = true).
Proof. intro N; exact lbfgs_end. Qed.
Print Assumptions C81_lbfgs.

(** ** Runs that meet a bad objective *)
Definition no_cb : CB F64 (list F64) (list F64) := {| cs_stop := fun _ => false; cs_grad := fun _ _ _ g => g |}.
(** infinite left of 1 *)
Definition cliff (x : list F64) : F64 := match x with [a] => if nlt a (fz 1%Z) then finf else a | _ => fnan end.

(** gradient descent from 3 with step 4 falls off at its second evaluation *)
Example C81_ex_gd :
  let ok v := match v with Some r => map (fun e : ev F64 (list F64) (list F64) => match e with Begin _ => 0 | End _ => 1 | EvG _ v _ _ => if nisinf v then 3 else 2 | Ev _ _ => 4 | Gr _ _ _ _ => 5 | St _ => 6 end) (Common.o_tr r) | None => [] end in
  ok (gd (N := F64) (fz 4%Z) 90 (fz 0%Z) (fun x => (cliff x, [fz 1%Z])) no_cb 10 [fz 3%Z]) = [0; 2; 6; 3; 1].
Proof. vm_compute. reflexivity. Qed.

(** SGD over three functions, the second of which is NaN: the third is still visited, the
    epoch ends, no other begins *)
Example C81_ex_sgd :
  let f := {| sf_num := 3; sf_eval := fun _ _ _ _ => fz 0%Z; sf_evalgrad := fun _ x i _ => (if i =? 1 then fnan else fz 1%Z, x) |} in
  let c := {| c_batch := 1; c_max := 90; c_tol := fz 0%Z; c_shuffle := true; c_exact := false;
              c_up := fun (u : unit) x _ _ => (u, x); c_dp := fun (d : unit) _ s _ => (d, s) |} in
  match optimize_with (N := F64) c f {| cb_stop := fun _ => false; cb_grad := fun _ g => g |} 20 tt tt (fz 1%Z) [fz 1%Z] with
  | Return r => (nisnan (r_val r), map (fun e : event F64 (list F64) (list F64) => match e with BeginOpt _ => 0 | EndOpt _ => 1 | BeginEpoch _ _ _ => 2
      | EndEpoch _ _ _ => 3 | EvalGrad _ _ _ v _ => if nisnan v then 5 else 4 | Step _ => 6 | Eval _ _ _ _ => 7 | Shuffled => 8 end) (r_trace r))
  | _ => (false, [])
  end = (true, [0; 2; 4; 6; 5; 6; 4; 6; 3; 1]).
Proof. vm_compute. reflexivity. Qed.

(** SVRG over two functions, the first infinite: the objective pass is finished, nothing else *)
Example C81_ex_svrg :
  let f := {| vf_num := 2; vf_eval := fun _ _ i _ => if i =? 0 then finf else fz 1%Z; vf_grad := fun _ x _ _ => x |} in
  match svrg (N := F64) f {| vc_stop := fun _ => false; vc_hook := fun _ _ g => g |} 1 90 (fz 0%Z) true false (fun (d : unit) _ _ _ _ e => (d, e)) 20 0 tt (fz 1%Z) [fz 1%Z] with
  | Ret r => (nisinf (vr_val r), map (fun e : vev F64 => match e with VBegin _ => 0 | VEval _ _ _ _ => 1 | VGrad _ _ _ _ _ => 2 | VGradQ _ _ _ _ => 3 | VShuffle => 4
      | VStep _ _ => 5 | VEnd _ => 6 end) (vr_tr r))
  | _ => (false, [])
  end = (true, [0; 1; 1; 6]).
Proof. vm_compute. reflexivity. Qed.

(** SPSA does not look at the two perturbed evaluations: after one that is infinite it still
    takes a step. *)
Theorem C81_spsa_perturbed_refuted :
  ~ (forall (alpha gamma stepSize evaluationStepSize ak : F64) max tol pw f coin cb fuel x r,
     spsa alpha gamma stepSize evaluationStepSize ak max tol pw f coin cb fuel x = Some r ->
     afterwards bad_ev (fun e => ~ is_step e) (Common.o_tr r)).
Proof. exact spsa_perturbed. Qed.
Print Assumptions C81_spsa_perturbed_refuted.

(** L-BFGS does not stop at an infinite objective: it only looks for NaN.  Started where the
    objective is infinite it evaluates again. *)
Theorem C81_lbfgs_infinite_refuted :
  ~ (forall numBasis max (armijo minGradientNorm wolfe factr minStep maxStep : F64) maxTrials tol norm2 normF f cb fuel term0 s0 y0 x r,
     lbfgs numBasis max armijo minGradientNorm wolfe factr minStep maxStep maxTrials tol norm2 normF f cb fuel term0 s0 y0 x = Ret r ->
     afterwards bad_ev only_marks (Common.o_tr (fst r))).
Proof. exact lbfgs_infinite. Qed.
Print Assumptions C81_lbfgs_infinite_refuted.
