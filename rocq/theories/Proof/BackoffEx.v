From Coq Require Import List Arith Bool Reals Lra Lia Permutation.
From Verif.Base Require Import Num Vec Instances Size.
From Verif.Model Require Import Common SA ParallelSgd ReuseSwarm Problems ProblemsN.
From Verif.Spec Require Import ConvergeSpec ParSpec ParSerialSpec BackoffSpec.
From Verif.Proof Require Import SgdRate ParSerial ParSparse ParFloorEx Backoff BackoffRun.
Import ListNotations.
Local Open Scope R_scope.

(** ** A product of factors 1 - c h is at least 1 - c times the sum of the h *)
Fixpoint prod_from (c : R) (step : nat -> R) (i e : nat) : R :=
  match e with O => 1 | S e' => (1 - c * step i) * prod_from c step (S i) e' end.
Fixpoint sum_from (step : nat -> R) (i e : nat) : R :=
  match e with O => 0 | S e' => step i + sum_from step (S i) e' end.
Lemma sum_from_total step : forall e i, sum_from step i e = sumR (map step (seq i e)).
Proof. induction e as [|e IH]; intros i; cbn; [reflexivity|]. rewrite IH. reflexivity. Qed.
Lemma prod_lower c step : 0 <= c -> forall e i, (forall j, (i <= j)%nat -> 0 < step j) -> c * sum_from step i e <= 1 ->
  1 - c * sum_from step i e <= prod_from c step i e <= 1.
Proof.
  intros C. induction e as [|e IH]; intros i P SM; cbn [sum_from prod_from] in *; [lra|].
  assert (A : 0 < step i) by (apply P; lia).
  assert (B : 0 <= sum_from step (S i) e).
  { clear -P. assert (Q : forall j, (S i <= j)%nat -> 0 < step j) by (intros; apply P; lia). clear P. revert i Q. induction e as [|e IH]; intros i Q; cbn; [lra|].
    assert (0 < step (S i)) by (apply Q; lia). assert (0 <= sum_from step (S (S i)) e) by (apply IH; intros; apply Q; lia). lra. }
  assert (CA : 0 <= c * step i) by (apply Rmult_le_pos; lra). assert (CB : 0 <= c * sum_from step (S i) e) by (apply Rmult_le_pos; lra).
  rewrite Rmult_plus_distr_l in *. destruct (IH (S i)) as [L U]; [intros; apply P; lia|lra|].
  set (p := prod_from c step (S i) e) in *. set (a := c * step i) in *. set (b := c * sum_from step (S i) e) in *.
  split.
  - apply Rle_trans with ((1 - a) * (1 - b)); [|apply Rmult_le_compat_l; lra]. pose proof (Rmult_le_pos a b CA CB). lra.
  - apply Rle_trans with ((1 - a) * 1); [apply Rmult_le_compat_l; lra|lra].
Qed.
Lemma shrink_prod step : forall e i, shrink step i e = prod_from 2 step i e.
Proof. induction e as [|e IH]; intros i; cbn; [reflexivity|]. rewrite IH. reflexivity. Qed.

Lemma sparse_backoff :
  forall mx first q (beta s : R) maxIterations (tolerance : R) f shuffle T share perm cbE grad cbG cbS sched,
  0 < beta < 1 -> 0 < s -> (1 <= first)%nat -> whole_part first beta q -> 2 * backoff_total first q s beta <= 1 ->
  (forall h l, Permutation (perm h l) l) -> (4 <= T * share)%nat ->
  (forall h, cbE h = false) -> (forall h0 h, cbG h0 h = false) -> (forall h0 h, cbS h0 h = false) ->
  (forall x v h0 h idx, (idx < 4)%nat -> exists y, seen (N := RNum mx) x h y /\
     grad (OEval (N := RNum mx) x v :: h0) h idx = nonzeros 0 (sparse_gradient y idx 1)) ->
  forall fuel (x0 : list R) v (xf : list R) full, length x0 = 4%nat ->
  psgd (N := RNum mx) maxIterations tolerance shuffle T share f (backoff_step_size (N := RNum mx) q beta (first, s)) perm cbE grad cbG cbS sched 4 fuel x0 = Ret (v, xf, full) ->
  forall k, (k < 4)%nat ->
  (1 - 2 * backoff_total first q s beta) * Rabs (co x0 k - - (co sparse_bi k / 2)) <= Rabs (co xf k - - (co sparse_bi k / 2)).
Proof.
  intros mx first q beta s maxIterations tolerance f shuffle T share perm cbE grad cbG cbS sched HB HS HF WH SM PM LT C1 C2 C3 SN fuel x0 v xf full L0 Run k K.
  pose proof (whole_pos first beta q HB HF WH) as HQ.
  destruct (sparse_run mx maxIterations tolerance f _ shuffle T share perm cbE grad cbG cbS sched PM LT C1 C2 C3 SN fuel x0 v xf full L0 Run) as (e & _ & _ & A).
  specialize (A k K). pose proof (backoff_sum mx q first beta s HB HS HQ HF e) as TS. unfold step_total in TS. rewrite <- sum_from_total in TS.
  rewrite shrink_prod in A.
  destruct (prod_lower 2 (backoff_step_size (N := RNum mx) q beta (first, s)) ltac:(lra) e 1%nat (backoff_pos mx q first beta s HB HS HQ HF)) as [PL _]; [lra|].
  replace (co xf k - - (co sparse_bi k / 2)) with (co xf k + co sparse_bi k / 2) by ring. rewrite A, Rabs_mult.
  replace (co x0 k - - (co sparse_bi k / 2)) with (co x0 k + co sparse_bi k / 2) by ring.
  apply Rmult_le_compat_r; [apply Rabs_pos|]. rewrite Rabs_pos_eq by lra. lra.
Qed.

(** ** One function, half the square of the only element, one thread *)
Lemma solo_epoch {N : Num} (a x v : N) h0 :
  let '(s, ls) := pexec 1 [0%nat] a (sq_now (OEval [x] v :: h0)) (fun _ => false) (fun _ => false) alone
                    {| s_it := [x]; s_term := false; s_log := [] |} (start 1 1) in
  s_it s = [nsub x (nmul a x)] /\ s_term s = false /\ finished 1 [0%nat] ls = true.
Proof. vm_compute. auto. Qed.
Definition solo_run mx (step : nat -> R) (f : list R -> R) (M fuel : nat) (x : R) :=
  psgd (N := RNum mx) (S M) 0 false 1 1 f step (fun _ l => l) (fun _ => false) (sq_now (N := RNum mx))
    (fun _ _ => false) (fun _ _ => false) (fun _ => alone) 1 fuel [x].
Lemma abs_not_below a : Rltb (Rabs a) 0 = false.
Proof. destruct (Rltb_spec (Rabs a) 0) as [C|_]; [pose proof (Rabs_pos a); lra|reflexivity]. Qed.
Lemma solo_loop mx (step : nat -> R) f : forall M k fuel (x last : R) tr, (M < fuel)%nat -> exists v full,
  psgd_loop (N := RNum mx) (S (k + M)) 0 false 1 1 f step (fun _ l => l) (fun _ => false) (sq_now (N := RNum mx))
    (fun _ _ => false) (fun _ _ => false) (fun _ => alone) fuel (S k) [0%nat] [x] last false tr = Ret (v, [prod_from 1 step (S k) M * x], full).
Proof.
  induction M as [|M IH]; intros k fuel x last tr LF; (destruct fuel as [|fuel]; [lia|]); cbn [psgd_loop]; change (bound (S ?u)) with (S u).
  - rewrite Nat.add_0_r, Nat.eqb_refl. cbn [orb prod_from]. eexists _, _. rewrite Rmult_1_l. reflexivity.
  - assert (NE : (S k =? S (k + S M))%nat = false) by (apply Nat.eqb_neq; lia). rewrite NE. cbn [orb nisnan nisinf RNum].
    change (nlt (n := RNum mx)) with Rltb. change (nabs (n := RNum mx)) with Rabs. rewrite abs_not_below.
    pose proof (solo_epoch (N := RNum mx) (step (S k)) x (f [x]) tr) as E.
    destruct (pexec _ _ _ _ _ _ _ _ _) as [s ls]. destruct E as (E1 & E2 & E3).
    assert (E4 : s_it s = [(1 - 1 * step (S k)) * x]) by (refine (eq_trans E1 _); apply f_equal2; [change (x - step (S k) * x = (1 - 1 * step (S k)) * x); ring|reflexivity]).
    rewrite E3, E4, E2. replace (S (k + S M)) with (S (S k + M)) by lia.
    match goal with |- context [psgd_loop _ _ _ _ _ _ _ _ _ _ _ _ _ fuel _ _ _ ?la _ ?t] => destruct (IH (S k) fuel ((1 - 1 * step (S k)) * x) la t ltac:(lia)) as (v & full & Q) end.
    exists v, full. cbn [prod_from]. replace ((1 - 1 * step (S k)) * prod_from 1 step (S (S k)) M * x) with (prod_from 1 step (S (S k)) M * ((1 - 1 * step (S k)) * x)) by ring. exact Q.
Qed.
Lemma prod_const c : forall e i, prod_from 1 (fun _ => c) i e = (1 - c) ^ e.
Proof. induction e as [|e IH]; intros i; cbn; [reflexivity|]. rewrite IH. ring. Qed.
Lemma backoff_stuck mx f M fuel x : (M < fuel)%nat ->
  (exists v full c, solo_run mx (backoff_step_size (N := RNum mx) 20 (/ 2) (10%nat, / 100)) f M fuel x = Ret (v, [c * x], full) /\ 71 / 100 <= c <= 1) /\
  (exists v full, solo_run mx (fun _ => / 100) f M fuel x = Ret (v, [(99 / 100) ^ M * x], full)).
Proof.
  intros LF. split.
  - destruct (solo_loop mx (backoff_step_size (N := RNum mx) 20 (/ 2) (10%nat, / 100)) f M 0 fuel x (nmax (n := RNum mx)) [OBegin (N := RNum mx) [x]] LF) as (v & full & Q).
    eexists v, full, _. split; [exact Q|].
    pose proof (backoff_sum mx 20 10 (/ 2) (/ 100) ltac:(lra) ltac:(lra) ltac:(lia) ltac:(lia) M) as TS. unfold step_total in TS. rewrite <- sum_from_total in TS.
    assert (BT : backoff_total 10 20 (/ 100) (/ 2) = 29 / 100) by (unfold backoff_total; cbn; field). rewrite BT in TS.
    pose proof (prod_lower 1 (backoff_step_size (N := RNum mx) 20 (/ 2) (10%nat, / 100)) ltac:(lra) M 1%nat
      (backoff_pos mx 20 10 (/ 2) (/ 100) ltac:(lra) ltac:(lra) ltac:(lia) ltac:(lia)) ltac:(lra)). lra.
  - destruct (solo_loop mx (fun _ => / 100) f M 0 fuel x (nmax (n := RNum mx)) [OBegin (N := RNum mx) [x]] LF) as (v & full & Q).
    exists v, full. rewrite prod_const in Q. replace (1 - / 100) with (99 / 100) in Q by field. exact Q.
Qed.
