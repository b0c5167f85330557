(** C85: what the caller's matrix holds when the caller's function or a callback throws. *)
From Coq Require Import List Arith Bool Reals ZArith QArith Lra Lia.
From Verif.Base Require Import Num Vec Instances QInst.
From Verif.Base Require Import SortIdx.
From Verif.Model Require Import Common GradientDescent CD SPSA SA LBFGS DE CNE Sgd Throw ThrowCNE.
From Verif.Spec Require Import ThrowSpec.
From Verif.Proof Require Import ThrowProof ThrowProof2 ThrowProof3 ThrowReal ThrowDE ThrowCNE LBFGSEx.
Import ListNotations.

(** SGD with any update and decay policy: whenever the function or a callback is called, the caller's
    matrix is the point being shown, and it is the point of the last reported step (or the start). *)
Theorem C85_sgd : forall (N : Num) X G U D (c : Cfg N X G U D) f cb fuel u d step x,
  at_every_call x (sgd_log c f cb fuel u d step x)
    (fun m h a => match sgd_shown a with Some y => m = y | None => True end /\ m = sgd_reached x h).
Proof. intros. apply sgd_throw. Qed.
Print Assumptions C85_sgd.

(** The list of calls and writes is the run of the model: same callbacks, same final matrix. *)
Theorem C85_sgd_log : forall (N : Num) X G U D (c : Cfg N X G U D) f cb fuel u d step x r,
  optimize_with c f cb fuel u d step x = Return r ->
  told (sgd_log c f cb fuel u d step x) = r_trace r /\ memory x (sgd_log c f cb fuel u d step x) = r_x r.
Proof. intros. apply sgd_log_ok. assumption. Qed.
Print Assumptions C85_sgd_log.

(** Gradient descent: the same. *)
Theorem C85_gd : forall (N : Num) (stepSize : N) maxIterations tolerance f cb fuel x,
  let log := gd_log stepSize maxIterations tolerance f cb fuel x in
  at_every_call x log (fun m h c => m = shown c /\ m = reached x h) /\
  forall r, gd stepSize maxIterations tolerance f cb fuel x = Some r -> told log = o_tr r /\ memory x log = o_x r.
Proof. intros. split; [apply gd_throw|intros; apply gd_log_ok; assumption]. Qed.
Print Assumptions C85_gd.

(** Coordinate descent with any policy: the same. *)
Theorem C85_cd : forall (N : Num) (stepSize : N) maxIterations tolerance updateInterval f pg policy cb fuel x,
  let log := cd_log stepSize maxIterations tolerance updateInterval f pg policy cb fuel x in
  at_every_call x log (fun m h c => m = shown c /\ m = reached x h) /\
  forall r, cd stepSize maxIterations tolerance updateInterval f pg policy cb fuel x = Ret r -> told log = o_tr r /\ memory x log = o_x r.
Proof. intros. split; [apply cd_throw|intros; apply cd_log_ok; assumption]. Qed.
Print Assumptions C85_cd.

(** L-BFGS: the points tried by the line search never reach the caller's matrix. *)
Theorem C85_lbfgs : forall (N : Num) numBasis maxIterations (armijo minGradientNorm wolfe factr minStep maxStep : N) maxTrials tol norm2 normF f cb fuel term0 s0 y0 x,
  let log := lbfgs_log numBasis maxIterations armijo minGradientNorm wolfe factr minStep maxStep maxTrials tol norm2 normF f cb fuel term0 s0 y0 x in
  at_every_call x log (fun m h c => match c with Cb (End y) => m = y | _ => m = reached x h end) /\
  forall r t, lbfgs numBasis maxIterations armijo minGradientNorm wolfe factr minStep maxStep maxTrials tol norm2 normF f cb fuel term0 s0 y0 x = Ret (r, t) ->
    told log = o_tr r /\ memory x log = o_x r.
Proof. intros. split; [apply lbfgs_throw|intros r t H; eapply lbfgs_log_ok; eassumption]. Qed.
Print Assumptions C85_lbfgs.

(** SPSA in real arithmetic: the caller's matrix is the point being shown.  It is the point of the last
    step, or every element is off by exactly the perturbation c_k of the current iteration. *)
Theorem C85_spsa : forall mx (alpha gamma stepSize ess ak : R) maxIterations (tolerance : R) pw f coin (cb : CB (RNum mx) (list R) (list R)) fuel (x : list R),
  (forall k, length (coin k) = length x) ->
  let log := spsa_log (N := RNum mx) alpha gamma stepSize ess ak maxIterations tolerance pw f coin cb fuel x in
  at_every_call x log (fun m h c => m = shown c /\
    (m = reached x h \/ off_by (ess / pw (INR (length (steps_in h) + 1)) gamma) m (reached x h))) /\
  forall r, spsa (N := RNum mx) alpha gamma stepSize ess ak maxIterations tolerance pw f coin cb fuel x = Some r ->
    told log = o_tr r /\ memory x log = o_x r.
Proof. intros. split; [apply spsa_throw_real; assumption|]. intros r E. exact (spsa_log_ok (N := RNum mx) alpha gamma stepSize ess ak maxIterations tolerance pw f coin cb fuel x r E). Qed.
Print Assumptions C85_spsa.

(** One might expect an exception to leave the start or a point that was reported as a step.  SPSA
    evaluates the function with the perturbation added to the caller's matrix: if its first evaluation
    throws, the caller is left with a perturbed start, for every function and every non-zero perturbation. *)
Theorem C85_spsa_refuted : forall mx (alpha gamma stepSize ess ak : R) maxIterations (tolerance : R) pw f coin (cb : CB (RNum mx) (list R) (list R)) fuel (x : list R),
  (forall k, length (coin k) = length x) -> x <> [] -> (0 < maxIterations)%nat -> (0 < fuel)%nat ->
  (ess / pw 1 gamma <> 0)%R -> (tolerance <= Rabs (mx - 0))%R ->
  ~ at_every_call x (spsa_log (N := RNum mx) alpha gamma stepSize ess ak maxIterations tolerance pw f coin cb fuel x)
      (fun m h c => m = x \/ In m (steps_in h)).
Proof. intros. apply spsa_leaves; assumption. Qed.
Print Assumptions C85_spsa_refuted.

(** Simulated annealing: the caller's matrix is the point being shown. *)
Theorem C85_sa : forall (N : Num) maxIterations initMoves moveCtrlSweep maxToleranceSweep (tolerance maxMoveCoef initMoveCoef gain target : N) next lg ex f rnd cb t0 x,
  let log := sa_log maxIterations initMoves moveCtrlSweep maxToleranceSweep tolerance maxMoveCoef initMoveCoef gain target next lg ex f rnd cb t0 x in
  at_every_call x log (fun m h c => m = shown c) /\
  forall r t, sa_optimize maxIterations initMoves moveCtrlSweep maxToleranceSweep tolerance maxMoveCoef initMoveCoef gain target next lg ex f rnd cb t0 x = Ret (r, t) ->
    told log = o_tr r /\ memory x log = o_x r.
Proof. intros. split; [apply sa_throw|intros r t H; eapply sa_log_ok; eassumption]. Qed.
Print Assumptions C85_sa.

(** Simulated annealing makes its move on the caller's matrix before the move is accepted: if the first
    evaluation of a move throws, the caller is left with a point that was never accepted. *)
Theorem C85_sa_refuted : forall (N : Num) maxIterations initMoves moveCtrlSweep maxToleranceSweep (tolerance maxMoveCoef initMoveCoef gain target : N) next lg ex f rnd cb t0 (x0 : N) (x : list N),
  (0 < initMoves)%nat -> nadd x0 (laplace lg initMoveCoef (fst (rnd O))) <> x0 ->
  ~ at_every_call (x0 :: x) (sa_log maxIterations initMoves moveCtrlSweep maxToleranceSweep tolerance maxMoveCoef initMoveCoef gain target next lg ex f rnd cb t0 (x0 :: x))
      (fun m h c => m = x0 :: x \/ In m (steps_in h)).
Proof. intros. apply sa_leaves; assumption. Qed.
Print Assumptions C85_sa_refuted.

(** Differential evolution: the caller's matrix is the start or a point whose objective has been reported. *)
Theorem C85_de : forall (N : Num) populationSize maxGenerations (crossoverRate weight tolerance inf : N) f noise draws unif cb fuel x,
  let log := de_log populationSize maxGenerations crossoverRate weight tolerance inf f noise draws unif cb fuel x in
  at_every_call x log (fun m h c => match c with Cb (End y) => m = y | _ => m = x \/ In m (evaluated h) end) /\
  forall r, de_optimize populationSize maxGenerations crossoverRate weight tolerance inf f noise draws unif cb fuel x = Some (Ret r) ->
    told log = o_tr r /\ memory x log = o_x r.
Proof. intros. split; [apply de_throw|apply de_log_ok]. Qed.
Print Assumptions C85_de.

(** CNE: the caller's matrix is the candidate being evaluated or shown (at first the start, at the end
    the result), and the list of calls and writes is the run of the model. *)
Theorem C85_cne : forall (N : Num) P maxGenerations fl (mutationProb mutationSize tolerance inf : N) f sort_index noise parents coin mu mz cb x,
  let log := cne_log P maxGenerations fl mutationProb mutationSize tolerance inf f sort_index noise parents coin mu mz cb x in
  at_every_call x log (fun m h c => m = shown c) /\
  forall r, cne_optimize P maxGenerations fl mutationProb mutationSize tolerance inf f sort_index noise parents coin mu mz cb x = Some (Ret r) ->
    told log = o_tr r /\ memory x log = o_x r.
Proof. intros. split; [apply cne_throw|apply cne_parts]. Qed.
Print Assumptions C85_cne.

Local Open Scope Z_scope.
Definition hush : CB ZNum (list Z) (list Z) := {| cs_stop := fun _ => false; cs_grad := fun _ _ _ g => g |}.
Definition square (l : list Z) : Z := fold_right (fun a s => a * a + s) 0 l.
Definition de_run := de_log (N := ZNum) 3 1 2 1 0 1000000 square (fun i => [3 - Z.of_nat i]) (fun k => k) (fun _ => [1]) hush 9 [0].

(** One might expect it to be the best point seen.  It is not: when objectives 9, 4 and 1 have been found,
    the first evaluation of the first generation has the worst member in the caller's matrix. *)
Theorem C85_de_refuted : ~ at_every_call [0] de_run (fun m h c => forall p, In p (evaluated h) -> (square m <= square p)).
Proof.
  intros H. set (l := de_run) in *. vm_compute in l. subst l.
  match type of H with at_every_call _ (?a :: ?b :: ?c :: ?d :: ?e :: ?f :: ?g :: ?p :: ?q :: ?r) _ =>
    specialize (H [a; b; c; d; e; f; g; p] q r eq_refl eq_refl) end.
  specialize (H [1] ltac:(cbn; auto)). vm_compute in H. apply H. reflexivity.
Qed.
Print Assumptions C85_de_refuted.

Definition cne_run := cne_log (N := ZNum) 4 1 2 1 1 0 nmax square (isort_index (N := ZNum))
  (fun i => [Z.of_nat i + 1; 2]) (fun _ i => (i, S i)) (fun _ _ k => Nat.even k) (fun _ i => [0; 0]) (fun _ i => [-1; -1]) hush [0; 0].

(** CNE does not keep the best point there either: started at the minimum it has already overwritten
    the caller's matrix when the first candidate is shown, before that candidate has been evaluated. *)
Theorem C85_cne_refuted : ~ at_every_call [0; 0] cne_run (fun m h c => forall p, In p (evaluated h) -> (square m <= square p)).
Proof.
  intros H. set (l := cne_run) in *. vm_compute in l. subst l.
  match type of H with at_every_call _ (?a :: ?b :: ?c :: ?d :: ?e :: ?r) _ =>
    specialize (H [a; b; c; d] e r eq_refl eq_refl) end.
  specialize (H [0; 0] ltac:(cbn; auto)). vm_compute in H. apply H. reflexivity.
Qed.
Print Assumptions C85_cne_refuted.
Example C85_cne_ex : length cne_run = 23%nat /\ memory [0; 0] (firstn 4 cne_run) = [1; 2] /\ nth_error cne_run 5 = Some (Fn [1; 2]).
Proof. vm_compute. repeat split. Qed.

(** Runs of each optimizer in which the caller's code is called after a write. *)
Definition gd_run := gd_log (N := ZNum) 1 4 (-1) (fun x => (square x, map Z.sgn x)) hush 9 [5; -4].
Example C85_gd_ex : memory [5; -4] (firstn 4 gd_run) = [4; -3] /\ nth_error gd_run 5 = Some (Fn [4; -3]) /\ length gd_run = 14%nat /\
  memory [5; -4] gd_run = [2; -1].
Proof. vm_compute. repeat split. Qed.
Example C85_de_ex : (20 <= length de_run)%nat /\ memory [0] (firstn 8 de_run) = [3] /\ nth_error de_run 8 = Some (Fn [3]) /\ memory [0] de_run <> [3].
Proof. vm_compute. repeat split; try discriminate; repeat constructor. Qed.
Definition hush_s : Callbacks ZNum (list Z) (list Z) := {| cb_stop := fun _ => false; cb_grad := fun _ g => g |}.
Definition sgd_run := sgd_log (N := ZNum) (U := unit) (D := unit)
  {| c_batch := 1; c_max := 4; c_tol := -1; c_shuffle := true; c_exact := true;
     c_up := fun u x s g => (u, map2 (fun a b => a - s * b) x g); c_dp := fun d _ s _ => (d, s) |}
  {| sf_num := 2; sf_eval := fun _ x _ _ => square x; sf_evalgrad := fun _ x _ _ => (square x, map Z.sgn x) |} hush_s 9 tt tt 1 [5; -4].
Example C85_sgd_ex : memory [5; -4] (firstn 8 sgd_run) = [4; -3] /\ memory [5; -4] sgd_run = [1; 0] /\ (24 <= length sgd_run)%nat.
Proof. vm_compute. repeat split; repeat constructor. Qed.
Definition sa_run := sa_log (N := ZNum) 3 1 1 2 (-1) 9 2 0 1 (fun t _ => t) (fun _ => 1) (fun _ => 0) square (fun _ => (0, 1)) hush 5 [5; -4].
Example C85_sa_ex : (0 < 1)%nat /\ 5 + laplace (N := ZNum) (fun _ => 1) 2 0 <> 5 /\ (8 <= length sa_run)%nat /\ nth_error sa_run 4 = Some (Fn [7; -4]) /\ memory [5; -4] (firstn 4 sa_run) = [7; -4].
Proof. vm_compute. repeat split; try discriminate; repeat constructor. Qed.
Example C85_spsa_ex : (forall k : nat, length ((fun _ : nat => [true; false]) k) = length [1; 2]%R) /\ [1; 2]%R <> [] /\ (0 < 10)%nat /\
  (1 / (fun _ _ : R => 1) 1 1 <> 0)%R /\ (1 / 100 <= Rabs (5 - 0))%R.
Proof. repeat split; try discriminate; try lia; try lra. rewrite Rabs_right; lra. Qed.
Definition cd_run := cd_log (N := ZNum) 1 4 (-1) 1 (fun x => square (concat x)) (fun x j => map (map Z.sgn) x) (fun i _ => Some (Nat.modulo i 2))
  {| cs_stop := fun _ => false; cs_grad := fun _ _ _ g => g |} 9 [[5]; [-4]].
Example C85_cd_ex : (12 <= length cd_run)%nat /\ memory [[5]; [-4]] (firstn 4 cd_run) = [[5]; [-3]] /\ nth_error cd_run 5 = Some (Fn [[5]; [-3]]).
Proof. vm_compute. repeat split; repeat constructor. Qed.
(** L-BFGS on (x - 3)^2 / 2 from 10 tries points other than 10 while the caller's matrix is 10. *)
Definition lb_run := lbfgs_log (N := QNum) 2 5 (1 # 10000)%Q (1 # 1000000)%Q (9 # 10)%Q (1 # 1000000)%Q (1 # 1000000)%Q (1000000)%Q
    9 (1 # 1000000)%Q abs1 abs1 half_square quiet 9 false [[0%Q]; [0%Q]] [[0%Q]; [0%Q]] [10%Q].
Example C85_lbfgs_ex : exists p, nth_error lb_run 3 = Some (Fn p) /\ p <> [10%Q] /\ memory [10%Q] (firstn 3 lb_run) = [10%Q] /\ memory [10%Q] lb_run <> [10%Q].
Proof. vm_compute. eexists. repeat split; discriminate. Qed.
