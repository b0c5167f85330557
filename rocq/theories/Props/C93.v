(** C93: big-batch SGD with the backtracking line search converges for every initial step size. *)
From Coq Require Import List Arith Bool Reals Lra Lia.
From Verif.Base Require Import Num Instances.
From Verif.Model Require Import Common VarRed BigBatch.
From Verif.Spec Require Import SgdSpec Gradient VarRedSpec BigBatchSpec FWSpec BigBatchRateSpec ConvergeSpec.
From Verif.Proof Require Import SmoothProof WnConverge BigBatchRate BigBatchEnds.
Import ListNotations.
Local Open Scope R_scope.

(** The objective [F] (the sum of the functions) has a gradient with Lipschitz constant L and is
    bounded below by [low]; it need not be convex.  The batch size is at least NumFunctions(), so
    that every batch is the whole objective, maxIterations is a multiple of NumFunctions(), and the
    callbacks do not change the gradients (they may stop the run).  Then, for every initial step size
    and however long the run is: StepSize() never grows and never falls below
    min(stepSize, (1 - searchParameter) / L); the coordinates are the last point reported by
    StepTaken; the objective is not above the initial one; the squared gradients at all the points
    left behind add up to at most the initial excess times n^2 / (searchParameter * that minimum), so
    that one of the k points is at most that divided by k. *)
Theorem C93_any_step_size :
  forall mx p (f : VFun (RNum mx)) (L low sp eta : R) F grad gi cb maxIterations (tol : R) shuffle exact offset fuel b prev (x0 : list R) r,
  smooth_on (space p) L F grad -> 0 < L -> (forall x, length x = p -> low <= F x) -> whole_sum mx p f F grad gi ->
  0 < sp < 1 -> 0 < eta -> (0 < vf_num f <= b)%nat -> (limit maxIterations mod vf_num f = 0)%nat -> length x0 = p ->
  (forall h x g, bc_hook cb h x g = g) ->
  bigbatch (N := RNum mx) f cb (Backtrack (N := RNum mx) sp) maxIterations tol shuffle exact (fun g => sqrt (sqn g)) offset fuel b eta prev x0 = Ret r ->
  let m := least_step eta sp L in
  let steps := stepped mx (br_tr r) in
  let points := removelast (x0 :: steps) in
  m <= (br_eta r : R) <= eta /\ br_x r = last steps x0 /\ F (br_x r) <= F x0 /\
  sp * m / (INR (vf_num f) * INR (vf_num f)) * sumR (map (fun y => sqn (grad y)) points) <= F x0 - low /\
  (steps <> [] -> exists y, In y points /\ sp * m / (INR (vf_num f) * INR (vf_num f)) * (INR (length steps) * sqn (grad y)) <= F x0 - low).
Proof. exact bb_rate. Qed.
Print Assumptions C93_any_step_size.

(** And no line search runs forever: from every point and every step size it ends after at most k
    halvings, when stepSize * L <= 2 (1 - searchParameter) 2^k. *)
Theorem C93_search_ends :
  forall mx p (f : VFun (RNum mx)) (L sp : R) F grad gi k (x : list R) (eta : R) tr,
  smooth_on (space p) L F grad -> 0 < L -> whole_sum mx p f F grad gi -> 0 < sp < 1 -> 0 < eta -> (0 < vf_num f)%nat -> length x = p ->
  eta * L <= 2 * (1 - sp) * 2 ^ k ->
  exists eta' tr', backtrack (N := RNum mx) f k (fun e => e / 2) sp x (grad x) (mean_sq (N := RNum mx) (fun g => sqrt (sqn g)) (vf_num f) (grad x)) 0 (vf_num f) eta tr
    = Some (eta', tr').
Proof. exact search_ends. Qed.
Print Assumptions C93_search_ends.

(** So every run ends: it returns whenever the loops may go around more often than maxIterations and
    than k times. *)
Theorem C93_returns :
  forall mx p (f : VFun (RNum mx)) (L sp eta : R) F grad gi k cb maxIterations (tol : R) shuffle exact offset fuel b prev (x0 : list R),
  smooth_on (space p) L F grad -> 0 < L -> whole_sum mx p f F grad gi ->
  0 < sp < 1 -> 0 < eta -> (0 < vf_num f <= b)%nat -> (limit maxIterations mod vf_num f = 0)%nat -> length x0 = p ->
  (forall h x g, bc_hook cb h x g = g) ->
  eta * L <= 2 * (1 - sp) * 2 ^ k -> (k <= fuel)%nat -> (limit maxIterations < fuel)%nat ->
  exists r, bigbatch (N := RNum mx) f cb (Backtrack (N := RNum mx) sp) maxIterations tol shuffle exact (fun g => sqrt (sqn g)) offset fuel b eta prev x0 = Ret r.
Proof.
  intros mx p f L sp eta F grad gi k cb maxIterations tol shuffle exact offset fuel b prev x0 SM HL WS HS HE [HN HB] HD LX HK BK HF HM.
  exact (run_ends mx p f L sp eta F grad gi k cb maxIterations tol shuffle exact offset SM HL WS HS HN HK BK fuel b prev x0 HF HM HE HB HD LX).
Qed.
Print Assumptions C93_returns.

(** x^2 / 2 from 2, with the step size 4 (with which plain SGD diverges): the search halves it twice
    and the step reaches the minimum. *)
Definition half_square_v mx : VFun (RNum mx) :=
  @Build_VFun (RNum mx) 1 (fun _ (x : list R) _ _ => / 2 * sqn x) (fun _ (x : list R) _ _ => x).
Example C93_case : forall mx,
  smooth_on (space 1) 1 (fun x => / 2 * sqn x) (fun x => x) /\ (forall x, length x = 1%nat -> 0 <= / 2 * sqn x) /\
  whole_sum mx 1 (half_square_v mx) (fun x => / 2 * sqn x) (fun x => x) (fun _ x => x) /\
  exists r, bigbatch (N := RNum mx) (half_square_v mx) (@Build_BCB (RNum mx) (fun _ => false) (fun _ _ g => g))
      (Backtrack (N := RNum mx) (1 / 10)) 1 0 true false (fun g => sqrt (sqn g)) (fun k => k) 3 2 4 [] [2] = Ret r /\
    (br_eta r : R) = 1 /\ exists y, stepped mx (br_tr r) = [[y]] /\ y = 0.
Proof.
  intros mx. split; [apply half_square_smooth|].
  split; [intros x _; pose proof (sqn_nonneg x); lra|].
  split; [repeat split|].
  assert (Q : sqrt (2 / 1 * (2 / 1) + 0) * sqrt (2 / 1 * (2 / 1) + 0) = 4) by (rewrite sqrt_sqrt; lra).
  unfold bigbatch. cbn -[Rltb sqrt].
  match goal with |- context [Rltb ?a ?b] => destruct (Rltb_spec a b) as [C|C]; [clear C|exfalso; lra] end. cbn -[Rltb sqrt].
  match goal with |- context [Rltb ?a ?b] => destruct (Rltb_spec a b) as [C|C]; [clear C|exfalso; lra] end. cbn -[Rltb sqrt].
  match goal with |- context [Rltb ?a ?b] => destruct (Rltb_spec a b) as [C|C]; [exfalso; lra|clear C] end. cbn -[Rltb sqrt].
  match goal with |- context [Rltb ?a ?b] => destruct (Rltb_spec a b) as [C|C] end.
  { exfalso. match type of C with Rabs ?a < 0 => pose proof (Rabs_pos a); lra end. }
  cbn -[Rltb sqrt]. eexists. split; [reflexivity|]. cbn. split; [field|]. eexists. split; [reflexivity|]. field.
Qed.
