(** C72: DE, CNE, PSO, CMA-ES and grid search use objective values only by comparing them. *)
From Coq Require Import List Arith Bool ZArith Lia Reals Lra.
From Verif.Base Require Import Num Vec Instances SortIdx.
From Verif.Model Require Import Common SA DE CNE PSO CMAES.
From Verif.Model Require GridSearch.
From Verif.Spec Require Import RankSpec.
From Verif.Proof Require Import RankProof.
Import ListNotations.
Local Open Scope nat_scope.

(** Two objectives that order all points alike, callbacks that do not look at the values, and a
    tolerance that no change of the objective is below (0, say): the two runs, with the same
    random numbers, evaluate the same points in the same order, take the same steps and return
    the same point. *)
Theorem C72_de : forall (N : Num) P maxGenerations (crossoverRate weight tolerance inf : N) f f' noise draws unif cb fuel x,
  ordered_alike inf f f' -> value_blind cb -> (forall d : N, nlt (nabs d) tolerance = false) ->
  same_call inf f f'
    (de_optimize P maxGenerations crossoverRate weight tolerance inf f noise draws unif cb fuel x)
    (de_optimize P maxGenerations crossoverRate weight tolerance inf f' noise draws unif cb fuel x).
Proof. intros. apply de_rank; assumption. Qed.
Print Assumptions C72_de.

Theorem C72_cne : forall (N : Num) P maxGenerations fl (mutationProb mutationSize tolerance inf : N) f f' sort_index noise parents coin mu mz cb x,
  ordered_alike inf f f' -> value_blind cb -> (forall d : N, nlt (nabs d) tolerance = false) -> only_compares sort_index ->
  same_call inf f f'
    (cne_optimize P maxGenerations fl mutationProb mutationSize tolerance inf f sort_index noise parents coin mu mz cb x)
    (cne_optimize P maxGenerations fl mutationProb mutationSize tolerance inf f' sort_index noise parents coin mu mz cb x).
Proof. intros. apply cne_rank; assumption. Qed.
Print Assumptions C72_cne.

(** PSO, with any velocity policy that only compares the values it is given.  Its tolerance is on
    an improvement, which is never negative. *)
Theorem C72_pso : forall (N : Num) maxIterations horizonSize (impTolerance inf : N) f f' velocity cb pos0 vel0 x, OrdLaws N ->
  ordered_alike inf f f' -> value_blind cb ->
  (forall a b : N, a = b \/ nlt b a = true -> nlt (nsub a b) impTolerance = false) ->
  (forall it pos vel pb fit fit', length pos <= length fit -> Forall2 (corr inf f f') fit fit' ->
     velocity it pos vel pb fit = velocity it pos vel pb fit') ->
  same_call inf f f'
    (pso_optimize maxIterations horizonSize impTolerance f velocity cb pos0 vel0 x)
    (pso_optimize maxIterations horizonSize impTolerance f' velocity cb pos0 vel0 x).
Proof. intros. apply pso_rank; assumption. Qed.
Print Assumptions C72_pso.

(** The policy of LBestPSO is one. *)
Theorem C72_lbest : forall (N : Num) (inf : N) (f f' : list N -> N) (chi c1 c2 : N) (r1 r2 : nat -> nat -> list N),
  ordered_alike inf f f' ->
  forall (it : nat) pos vel pb fit fit', length pos <= length fit -> Forall2 (corr inf f f') fit fit' ->
  lbest_velocity chi c1 c2 (r1 it) (r2 it) pos vel pb fit = lbest_velocity chi c1 c2 (r1 it) (r2 it) pos vel pb fit'.
Proof. intros. eapply lbest_rank; eassumption. Qed.
Print Assumptions C72_lbest.

(** CMA-ES and ActiveCMAES with FullSelection, whatever the adaptation of the distribution; the
    objective is the sum over the batches. *)
Theorem C72_cmaes : forall (N : Num) maxIterations lambda patience (tolerance big inf : N) feval feval' n batchSize cs transform w
    (D : Type) sample adapt sort_index cb (a0 : D) sigma0 x,
  full_chunks n batchSize = Some cs ->
  ordered_alike inf (total_over feval cs) (total_over feval' cs) -> value_blind cb ->
  (forall d : N, nlt (nabs d) tolerance = false) ->
  only_compares sort_index -> (forall l : list N, no_nan l -> sorted_index l (sort_index l)) ->
  (forall i a d, sample i a = Some d -> length d = lambda) ->
  same_outcome inf (total_over feval cs) (total_over feval' cs)
    (cma_optimize maxIterations lambda patience tolerance big feval cs (fun _ _ => cs) transform w D sample adapt sort_index cb a0 sigma0 x)
    (cma_optimize maxIterations lambda patience tolerance big feval' cs (fun _ _ => cs) transform w D sample adapt sort_index cb a0 sigma0 x).
Proof. intros. apply cma_rank; assumption. Qed.
Print Assumptions C72_cmaes.

Theorem C72_grid_search : forall (N : Num) (inf : N) f f' categorical cats junk, ordered_alike inf f f' ->
  match GridSearch.grid_search f categorical cats junk, GridSearch.grid_search f' categorical cats junk with
  | Some s, Some s' => corr inf f f' (GridSearch.g_best s) (GridSearch.g_best s') /\
                       GridSearch.g_params s = GridSearch.g_params s' /\ GridSearch.g_log s = GridSearch.g_log s'
  | None, None => True
  | _, _ => False
  end.
Proof. intros. apply grid_rank; assumption. Qed.
Print Assumptions C72_grid_search.

(** In particular a strictly increasing function of the objective may replace it: doubling it,
    adding a constant, exponentiating, ... as long as no value reaches DBL_MAX. *)
Theorem C72_increasing : forall (mx inf : R) (X : Type) (f : X -> RNum mx) (phi : R -> R),
  (forall a b : R, (a < b)%R -> (phi a < phi b)%R) ->
  (forall x, (f x < mx)%R /\ (f x < inf)%R /\ (phi (f x) < mx)%R /\ (phi (f x) < inf)%R) ->
  ordered_alike (N := RNum mx) inf f (fun x => phi (f x)).
Proof.
  intros mx inf X f phi HP HX.
  assert (M : forall a b, Rltb (phi a) (phi b) = Rltb a b).
  { intros a b. destruct (Rltb_spec (phi a) (phi b)), (Rltb_spec a b); auto.
    destruct (Rtotal_order a b) as [K|[K|K]]; [contradiction|subst; lra|specialize (HP _ _ K); lra]. }
  assert (E : forall a b, Reqb (phi a) (phi b) = Reqb a b).
  { intros a b. unfold Reqb. destruct (Req_EM_T (phi a) (phi b)), (Req_EM_T a b); auto; [|subst; congruence].
    destruct (Rtotal_order a b) as [K|[K|K]]; [specialize (HP _ _ K); lra|congruence|specialize (HP _ _ K); lra]. }
  assert (LT : forall a b, (a < b)%R -> Rltb a b = true /\ Rltb b a = false /\ Reqb a b = false /\ Reqb b a = false).
  { intros a b L. unfold Rltb, Reqb. destruct (Rlt_dec a b), (Rlt_dec b a), (Req_EM_T a b), (Req_EM_T b a); repeat split; lra. }
  intros a a' b b' H K. destruct H as [x| |], K as [y| |]; cbn.
  all: try (destruct (HX x) as (H1 & H2 & H3 & H4); destruct (LT _ _ H1) as (? & ? & ? & ?), (LT _ _ H2) as (? & ? & ? & ?),
    (LT _ _ H3) as (? & ? & ? & ?), (LT _ _ H4) as (? & ? & ? & ?)).
  all: try (destruct (HX y) as (J1 & J2 & J3 & J4); destruct (LT _ _ J1) as (? & ? & ? & ?), (LT _ _ J2) as (? & ? & ? & ?),
    (LT _ _ J3) as (? & ? & ? & ?), (LT _ _ J4) as (? & ? & ? & ?)).
  all: repeat split; try reflexivity; try (symmetry; apply M); try (symmetry; apply E); congruence.
Qed.
Print Assumptions C72_increasing.

(** The hypotheses are met: over the reals tolerance 0 is below every change ... *)
Example C72_tolerance : forall (mx d : R), nlt (n := RNum mx) (nabs (n := RNum mx) d) (n0 (n := RNum mx)) = false.
Proof. intros mx d. cbn. pose proof (Rabs_pos d). destruct (Rltb_spec (Rabs d) 0); [lra|reflexivity]. Qed.
Example C72_improvement : forall (mx a b : R), a = b \/ nlt (n := RNum mx) b a = true ->
  nlt (n := RNum mx) (nsub (n := RNum mx) a b) (n0 (n := RNum mx)) = false.
Proof.
  intros mx a b H. cbn in *. destruct (Rltb_spec (a - b) 0); [|reflexivity]. destruct H as [->|H]; [lra|].
  destruct (Rltb_spec b a); [lra|discriminate].
Qed.
(** ... the insertion sort only compares, and so do callbacks that ask to stop after a number of events ... *)
Example C72_sort : forall N : Num, only_compares (isort_index (N := N)).
Proof. intros. apply isort_only_compares. Qed.
Example C72_callback : forall (N : Num) n, value_blind (N := N) (X := list N) (G := list N)
  {| cs_stop := fun h => n <? length h; cs_grad := fun _ _ _ g => g |}.
Proof. intros N n h h' H. cbn. rewrite (f2_len _ _ _ H). reflexivity. Qed.

(** ... and - |x| and - x^2 are ordered alike. *)
Definition f72 (x : list ZNum) : ZNum := (- Z.abs (nth 0 x 0))%Z.
Definition f72' (x : list ZNum) : ZNum := (- (nth 0 x 0 * nth 0 x 0))%Z.
Example C72_alike : ordered_alike (N := ZNum) (2 * nmax)%Z f72 f72'.
Proof.
  assert (M : forall a b : Z, (- Z.abs a < - Z.abs b <-> - (a * a) < - (b * b))%Z) by (intros a b; nia).
  assert (E : forall a b : Z, (- Z.abs a = - Z.abs b <-> - (a * a) = - (b * b))%Z) by (intros a b; nia).
  intros a a' b b' H K. unfold f72, f72' in *.
  destruct H as [x| |], K as [y| |]; (split; [|split; [|split; reflexivity]]); cbn [nlt neq nmax ZNum];
    apply eq_true_iff_eq; rewrite ?Z.ltb_lt, ?Z.eqb_eq; auto; try tauto; nia.
Qed.
Definition quiet72 : CB ZNum (list ZNum) (list ZNum) := {| cs_stop := fun _ => false; cs_grad := fun _ _ _ g => g |}.
Definition de72 (tol : Z) (f : list ZNum -> ZNum) :=
  de_optimize (N := ZNum) 3 3 1%Z 1%Z tol (2 * nmax)%Z f (fun i => [Z.of_nat i]%Z) (fun p => p + 2)
    (fun _ => [0%Z]) quiet72 5 [3%Z].
Example C72_run : match de72 0 f72, de72 0 f72' with
  | Some (Ret r), Some (Ret r') => (o_x r, o_val r, length (o_tr r)) = ([15%Z], (-15)%Z, 27) /\
                                   (o_x r', o_val r', length (o_tr r')) = ([15%Z], (-225)%Z, 27)
  | _, _ => False end.
Proof. vm_compute. split; reflexivity. Qed.

(** With a tolerance that matters the size of the values does too: the same objectives, run with
    tolerance 6, stop after different numbers of generations and return different points. *)
Theorem C72_tolerance_refuted : exists r r', de72 6 f72 = Some (Ret r) /\ de72 6 f72' = Some (Ret r') /\
  o_x r = [5%Z] /\ o_x r' = [15%Z] /\ length (o_tr r) < length (o_tr r').
Proof. eexists _, _. split; [vm_compute; reflexivity|]. split; [vm_compute; reflexivity|]. repeat split. cbn. lia. Qed.
Print Assumptions C72_tolerance_refuted.
