From Coq Require Import List Arith Reals Lra Lia ZArith FunctionalExtensionality.
From Verif.Base Require Import Num Instances.
From Verif.Model Require Import LRSDP.
From Verif.Spec Require Import LpSpec SvecSpec LRSDPSpec.
From Verif.Proof Require Import ProximalProof IndicatorsProof.
Import ListNotations.
Local Open Scope R_scope.

(** ** Finite sums *)
Lemma sum_n_S n f : sum_n (S n) f = sum_n n f + f n.
Proof. unfold sum_n. rewrite seq_S, map_app, sumR_app. cbn. lra. Qed.
Lemma sum_n_0 f : sum_n 0 f = 0. Proof. reflexivity. Qed.
Lemma sum_n_ext n f g : (forall i, (i < n)%nat -> f i = g i) -> sum_n n f = sum_n n g.
Proof.
  induction n as [|n IH]; intros H; [reflexivity|]. rewrite !sum_n_S, IH by (intros; apply H; lia).
  rewrite (H n) by lia. reflexivity.
Qed.
Lemma sum_n_plus n f g : sum_n n (fun i => f i + g i) = sum_n n f + sum_n n g.
Proof. induction n as [|n IH]; [cbn; lra|]. rewrite !sum_n_S, IH. lra. Qed.
Lemma sum_n_scal n c f : sum_n n (fun i => c * f i) = c * sum_n n f.
Proof. induction n as [|n IH]; [cbn; lra|]. rewrite !sum_n_S, IH. lra. Qed.
Lemma sum_n_scal_r n c f : sum_n n (fun i => f i * c) = sum_n n f * c.
Proof. induction n as [|n IH]; [cbn; lra|]. rewrite !sum_n_S, IH. lra. Qed.
Lemma sum_n_zero n : sum_n n (fun _ => 0) = 0.
Proof. induction n as [|n IH]; [reflexivity|]. rewrite sum_n_S, IH. lra. Qed.
Lemma sum_n_swap n m f : sum_n n (fun i => sum_n m (fun j => f i j)) = sum_n m (fun j => sum_n n (fun i => f i j)).
Proof.
  induction n as [|n IH].
  - rewrite (sum_n_ext m (fun j => sum_n 0 (fun i => f i j)) (fun _ => 0)) by reflexivity. rewrite sum_n_zero. reflexivity.
  - rewrite sum_n_S, IH, <- sum_n_plus. apply sum_n_ext. intros j _. rewrite sum_n_S. reflexivity.
Qed.
Lemma sum_n_first n f : sum_n (S n) f = f 0%nat + sum_n n (fun i => f (S i)).
Proof. unfold sum_n. cbn [seq map sumR]. rewrite <- seq_shift, map_map. reflexivity. Qed.
Lemma sum_n_deriv n (f : nat -> R -> R) d x :
  (forall i, (i < n)%nat -> derivable_pt_lim (f i) x (d i)) ->
  derivable_pt_lim (fun t => sum_n n (fun i => f i t)) x (sum_n n d).
Proof.
  induction n as [|n IH]; intros H.
  - rewrite sum_n_0. apply (derivable_pt_lim_const 0).
  - rewrite sum_n_S.
    replace (fun t => sum_n (S n) (fun i => f i t)) with ((fun t => sum_n n (fun i => f i t)) + f n)%F
      by (apply functional_extensionality; intros t; rewrite sum_n_S; reflexivity).
    apply derivable_pt_lim_plus; [apply IH; intros; apply H; lia|apply H; lia].
Qed.

Section A.
Variable mx : R.
Notation RN := (RNum mx).
Lemma msum_R n (f : nat -> R) : msum (N := RN) n f = sum_n n f.
Proof. unfold msum, sum_n. refine (eq_trans (fold_sum mx f (seq 0 n) 0) _). lra. Qed.

Variable p : sdp (N := RN).
Notation n := (sp_n p).
Notation r := (sp_r p).
Definition all_constraints : list ((nat -> nat -> R) * R) := sp_sparse p ++ sp_dense p.

(** sum of the elementwise product *)
Definition inner (A B : nat -> nat -> R) : R := sum_n n (fun i => sum_n n (fun j => A i j * B i j)).

Lemma accu_inner A B : accu_schur p A B = inner A B.
Proof.
  unfold accu_schur, inner. rewrite (sum_n_swap n n). refine (eq_trans (msum_R n _) _).
  apply sum_n_ext. intros j _. exact (msum_R n _).
Qed.
Lemma mk_rrt_gram Rm : mk_rrt p Rm = gram r Rm.
Proof. apply functional_extensionality; intros i. apply functional_extensionality; intros j. exact (msum_R r _). Qed.
Lemma gram_sym Rm i j : gram r Rm i j = gram r Rm j i.
Proof. apply sum_n_ext. intros. lra. Qed.
Lemma inner_tr A Rm : inner A (gram r Rm) = tr_prod n A (gram r Rm).
Proof.
  unfold inner, tr_prod, trace, matmul. apply sum_n_ext; intros i _. apply sum_n_ext; intros j _.
  rewrite gram_sym. reflexivity.
Qed.
Lemma rar_tr A Rm : trace_rar p A Rm = tr_prod n A (gram r Rm).
Proof.
  unfold trace_rar. refine (eq_trans (msum_R r _) _).
  transitivity (sum_n r (fun k => sum_n n (fun i => sum_n n (fun j => A i j * (Rm i k * Rm j k))))).
  - apply sum_n_ext; intros k _. refine (eq_trans (msum_R n _) _). rewrite sum_n_swap. apply sum_n_ext; intros j _.
    cbn [nmul RNum]. rewrite msum_R. rewrite <- sum_n_scal_r. apply sum_n_ext; intros i _. cbn. lra.
  - rewrite sum_n_swap. rewrite <- inner_tr. unfold inner. apply sum_n_ext; intros i _.
    rewrite sum_n_swap. apply sum_n_ext; intros j _. unfold gram. rewrite <- sum_n_scal. reflexivity.
Qed.

Variable lambda : nat -> R.
Variable sigma : R.

Definition lag_term (X : nat -> nat -> R) (l : nat) (c : (nat -> nat -> R) * R) : R :=
  - (lambda l * (inner (fst c) X - snd c)) + sigma / 2 * ((inner (fst c) X - snd c) * (inner (fst c) X - snd c)).
Lemma update_objective_sum X : forall cs o off,
  update_objective p lambda sigma o X cs off = o + sum_n (length cs) (fun l => lag_term X (off + l) (constr cs l)).
Proof.
  induction cs as [|[A b] cs IH]; intros o off; [cbn; lra|].
  cbn [length]. rewrite sum_n_first. cbn [update_objective]. rewrite IH. rewrite accu_inner.
  rewrite (sum_n_ext _ (fun i => lag_term X (off + S i) (constr ((A, b) :: cs) (S i)))
             (fun i => lag_term X (S off + i) (constr cs i)))
    by (intros i _; rewrite Nat.add_succ_r; reflexivity).
  rewrite Nat.add_0_r. change (constr ((A, b) :: cs) 0) with (A, b). unfold lag_term at 2. cbn [fst snd].
  cbn [nsub nadd nmul ndiv nofZ RNum]. cbn [T RNum]. field.
Qed.
Lemma update_gradient_sum X : forall cs s off i j,
  update_gradient p lambda sigma s X cs off i j
  = s i j - sum_n (length cs) (fun l => (lambda (off + l)%nat - sigma * (inner (fst (constr cs l)) X - snd (constr cs l))) * fst (constr cs l) i j).
Proof.
  induction cs as [|[A b] cs IH]; intros s off i j; [cbn; lra|].
  cbn [length]. rewrite sum_n_first. cbn [update_gradient]. rewrite IH. rewrite accu_inner.
  rewrite (sum_n_ext _ (fun i0 => (lambda (off + S i0)%nat - sigma * (inner (fst (constr ((A, b) :: cs) (S i0))) X - snd (constr ((A, b) :: cs) (S i0)))) * fst (constr ((A, b) :: cs) (S i0)) i j)
             (fun l => (lambda (S off + l)%nat - sigma * (inner (fst (constr cs l)) X - snd (constr cs l))) * fst (constr cs l) i j))
    by (intros l _; rewrite Nat.add_succ_r; reflexivity).
  rewrite Nat.add_0_r. change (constr ((A, b) :: cs) 0) with (A, b). cbn [fst snd nsub nmul RNum]. cbn [T RNum]. lra.
Qed.

Lemma sum_split (f : nat -> (nat -> nat -> R) * R -> R) (a b : list ((nat -> nat -> R) * R)) :
  sum_n (length a) (fun l => f l (constr a l)) + sum_n (length b) (fun l => f (length a + l)%nat (constr b l))
  = sum_n (length (a ++ b)) (fun l => f l (constr (a ++ b) l)).
Proof.
  revert f. induction a as [|c a IH]; intros f; cbn [length app].
  - rewrite sum_n_0. cbn [Nat.add]. lra.
  - rewrite !sum_n_first. rewrite Rplus_assoc. f_equal. exact (IH (fun l => f (S l))).
Qed.

Lemma evaluate_is_lagrangian Rm :
  snd (evaluate_impl p lambda sigma Rm) = lagrangian n r (sp_C p) all_constraints lambda sigma Rm.
Proof.
  unfold evaluate_impl. cbn [snd]. rewrite !update_objective_sum, rar_tr, mk_rrt_gram.
  unfold lagrangian. cbn zeta. rewrite Rplus_assoc.
  transitivity (tr_prod n (sp_C p) (gram r Rm) + sum_n (length all_constraints) (fun l => lag_term (gram r Rm) l (constr all_constraints l))).
  - f_equal. exact (sum_split (lag_term (gram r Rm)) (sp_sparse p) (sp_dense p)).
  - unfold Rminus. rewrite Rplus_assoc. f_equal.
    rewrite <- sum_n_scal, <- (Rmult_1_l (sum_n _ (fun i => lambda i * _))), Ropp_mult_distr_l, <- sum_n_scal, <- sum_n_plus.
    apply sum_n_ext; intros l _. unfold lag_term, slack. rewrite inner_tr. lra.
Qed.

Lemma gradient_is_2SR Rm i k :
  gradient_impl p lambda sigma (gram r Rm) Rm i k
  = 2 * sum_n n (fun j => dual_slack n r (sp_C p) all_constraints lambda sigma Rm i j * Rm j k).
Proof.
  unfold gradient_impl. refine (eq_trans (msum_R n _) _). rewrite <- sum_n_scal. apply sum_n_ext; intros j _.
  rewrite !update_gradient_sum. unfold dual_slack.
  pose (F l (c : (nat -> nat -> R) * R) := (lambda l - sigma * (inner (fst c) (gram r Rm) - snd c)) * fst c i j).
  pose proof (sum_split F (sp_sparse p) (sp_dense p)) as E. unfold F in E.
  rewrite (sum_n_ext (length all_constraints) _ (fun l => (lambda l - sigma * (inner (fst (constr all_constraints l)) (gram r Rm) - snd (constr all_constraints l))) * fst (constr all_constraints l) i j))
    by (intros l _; unfold slack; rewrite inner_tr; reflexivity).
  unfold all_constraints.
  match type of E with ?a + ?b = ?c =>
    transitivity (2 * (sp_C p i j - a - b) * Rm j k); [reflexivity|];
    replace (sp_C p i j - a - b) with (sp_C p i j - c) by (rewrite <- E; lra) end.
  exact (Rmult_assoc _ _ _).
Qed.

(** ** The gradient *)
Definition inner_r (G D : nat -> nat -> R) : R := sum_n n (fun i => sum_n r (fun k => G i k * D i k)).

(** tr(A X) along a line, for a symmetric A *)
Lemma tr_deriv A Rm D : symmetric n A ->
  derivable_pt_lim (fun t => tr_prod n A (gram r (fun i k => Rm i k + t * D i k))) 0
    (inner_r (fun i k => 2 * sum_n n (fun j => A i j * Rm j k)) D).
Proof.
  intros SA.
  pose (H i j := sum_n r (fun k => D i k * D j k)).
  pose (M i j := sum_n r (fun k => Rm i k * D j k + D i k * Rm j k)).
  assert (E : forall t, tr_prod n A (gram r (fun i k => Rm i k + t * D i k))
                = tr_prod n A (gram r Rm) + t * inner A M + t * t * inner A H).
  { intros t. rewrite <- !inner_tr. unfold inner. rewrite <- !sum_n_scal, <- !sum_n_plus. apply sum_n_ext; intros i _.
    rewrite <- !sum_n_scal, <- !sum_n_plus. apply sum_n_ext; intros j _.
    assert (EG : gram r (fun i0 k => Rm i0 k + t * D i0 k) i j = gram r Rm i j + t * M i j + t * t * H i j).
    { unfold gram, M, H. rewrite <- !sum_n_scal, <- !sum_n_plus. apply sum_n_ext; intros k _. lra. }
    rewrite EG. lra. }
  assert (EI : inner A M = inner_r (fun i k => 2 * sum_n n (fun j => A i j * Rm j k)) D).
  { transitivity (2 * sum_n n (fun i => sum_n n (fun j => A i j * sum_n r (fun k => D i k * Rm j k)))).
    - assert (E1 : inner A M = sum_n n (fun i => sum_n n (fun j => A i j * sum_n r (fun k => Rm i k * D j k)))
                     + sum_n n (fun i => sum_n n (fun j => A i j * sum_n r (fun k => D i k * Rm j k)))).
      { unfold inner. rewrite <- sum_n_plus. apply sum_n_ext; intros i _. rewrite <- sum_n_plus. apply sum_n_ext; intros j _.
        unfold M. rewrite sum_n_plus. lra. }
      rewrite E1.
      assert (E2 : sum_n n (fun i => sum_n n (fun j => A i j * sum_n r (fun k => Rm i k * D j k)))
               = sum_n n (fun i => sum_n n (fun j => A i j * sum_n r (fun k => D i k * Rm j k)))).
      { rewrite sum_n_swap. apply sum_n_ext; intros i Hi. apply sum_n_ext; intros j Hj.
        rewrite (SA j i Hj Hi). f_equal. apply sum_n_ext; intros k _. lra. }
      rewrite E2. lra.
    - unfold inner_r. rewrite <- sum_n_scal. apply sum_n_ext; intros i _.
      transitivity (2 * sum_n n (fun j => sum_n r (fun k => A i j * Rm j k * D i k))).
      + f_equal. apply sum_n_ext; intros j _. rewrite <- sum_n_scal. apply sum_n_ext; intros k _. lra.
      + rewrite sum_n_swap, <- sum_n_scal. apply sum_n_ext; intros k _. rewrite sum_n_scal_r. lra. }
  rewrite <- EI.
  replace (fun t => tr_prod n A (gram r (fun i k => Rm i k + t * D i k)))
    with ((fct_cte (tr_prod n A (gram r Rm)) + id * fct_cte (inner A M)) + (id * id) * fct_cte (inner A H))%F
    by (apply functional_extensionality; intros t; rewrite E; reflexivity).
  replace (inner A M) with ((0 + (1 * fct_cte (inner A M) 0 + id 0 * 0)) + ((1 * id 0 + id 0 * 1) * fct_cte (inner A H) 0 + (id * id)%F 0 * 0)) at 2
    by (unfold fct_cte, id, mult_fct; lra).
  apply derivable_pt_lim_plus.
  - apply derivable_pt_lim_plus; [apply derivable_pt_lim_const|].
    apply derivable_pt_lim_mult; [apply derivable_pt_lim_id|apply derivable_pt_lim_const].
  - apply derivable_pt_lim_mult; [|apply derivable_pt_lim_const].
    apply derivable_pt_lim_mult; apply derivable_pt_lim_id.
Qed.

Lemma inner_r_scal c G D : c * inner_r G D = inner_r (fun i k => c * G i k) D.
Proof.
  unfold inner_r. rewrite <- sum_n_scal. apply sum_n_ext; intros i _. rewrite <- sum_n_scal.
  apply sum_n_ext; intros k _. lra.
Qed.
Lemma inner_r_plus G1 G2 D : inner_r G1 D + inner_r G2 D = inner_r (fun i k => G1 i k + G2 i k) D.
Proof.
  unfold inner_r. rewrite <- sum_n_plus. apply sum_n_ext; intros i _. rewrite <- sum_n_plus.
  apply sum_n_ext; intros k _. lra.
Qed.
Lemma inner_r_ext G1 G2 D : (forall i k, (i < n)%nat -> (k < r)%nat -> G1 i k = G2 i k) -> inner_r G1 D = inner_r G2 D.
Proof. intros H. apply sum_n_ext; intros i Hi. apply sum_n_ext; intros k Hk. rewrite H by assumption. reflexivity. Qed.
Lemma inner_r_sum m (G : nat -> nat -> nat -> R) D :
  sum_n m (fun l => inner_r (G l) D) = inner_r (fun i k => sum_n m (fun l => G l i k)) D.
Proof.
  unfold inner_r. rewrite sum_n_swap. apply sum_n_ext; intros i _. rewrite sum_n_swap. apply sum_n_ext; intros k _.
  apply sum_n_scal_r.
Qed.

Lemma deriv_ext f g x l : (forall t, f t = g t) -> derivable_pt_lim f x l -> derivable_pt_lim g x l.
Proof. intros H. replace g with f by (apply functional_extensionality; exact H). exact (fun h => h). Qed.

Lemma lagrangian_gradient Rm :
  symmetric n (sp_C p) -> (forall A b, In (A, b) all_constraints -> symmetric n A) ->
  mat_gradient_at n r (lagrangian n r (sp_C p) all_constraints lambda sigma) Rm
    (gradient_impl p lambda sigma (gram r Rm) Rm).
Proof.
  intros SC SAs D.
  pose (cs := all_constraints). pose (m := length cs).
  pose (b l := inner_r (fun i k => 2 * sum_n n (fun j => fst (constr cs l) i j * Rm j k)) D).
  pose (q l t := slack n (gram r (fun i k => Rm i k + t * D i k)) (constr cs l)).
  assert (Q0 : forall l, q l 0 = slack n (gram r Rm) (constr cs l)).
  { intros l. unfold q. do 2 f_equal. apply functional_extensionality; intros i. apply functional_extensionality; intros k. lra. }
  assert (DQ : forall l, (l < m)%nat -> derivable_pt_lim (q l) 0 (b l)).
  { intros l Hl. assert (SL : symmetric n (fst (constr cs l))).
    { destruct (constr cs l) as [A bb] eqn:E. cbn. apply (SAs A bb). rewrite <- E. apply nth_In. exact Hl. }
    unfold q, slack. replace (b l) with (b l - 0) by lra.
    apply (derivable_pt_lim_minus (fun t => tr_prod n (fst (constr cs l)) (gram r (fun i k => Rm i k + t * D i k))) (fct_cte (snd (constr cs l)))).
    - apply tr_deriv. exact SL.
    - apply derivable_pt_lim_const. }
  assert (DL : derivable_pt_lim (fun t => tr_prod n (sp_C p) (gram r (fun i k => Rm i k + t * D i k))
                 - sum_n m (fun l => lambda l * q l t) + sigma / 2 * sum_n m (fun l => q l t * q l t)) 0
             (inner_r (fun i k => 2 * sum_n n (fun j => sp_C p i j * Rm j k)) D - sum_n m (fun l => lambda l * b l)
              + (sigma / 2) * sum_n m (fun l => b l * q l 0 + q l 0 * b l))).
  { apply (derivable_pt_lim_plus (fun t => tr_prod n (sp_C p) (gram r (fun i k => Rm i k + t * D i k)) - sum_n m (fun l => lambda l * q l t))
             (fun t => sigma / 2 * sum_n m (fun l => q l t * q l t))).
    - apply (derivable_pt_lim_minus (fun t => tr_prod n (sp_C p) (gram r (fun i k => Rm i k + t * D i k))) (fun t => sum_n m (fun l => lambda l * q l t))).
      + apply tr_deriv. exact SC.
      + apply (sum_n_deriv m (fun l t => lambda l * q l t) (fun l => lambda l * b l)). intros l Hl.
        apply (derivable_pt_lim_scal (q l)). apply DQ. exact Hl.
    - apply (derivable_pt_lim_scal (fun t => sum_n m (fun l => q l t * q l t))).
      apply (sum_n_deriv m (fun l t => q l t * q l t) (fun l => b l * q l 0 + q l 0 * b l)). intros l Hl.
      apply (derivable_pt_lim_mult (q l) (q l)); apply DQ; exact Hl. }
  change (derivable_pt_lim (fun t => tr_prod n (sp_C p) (gram r (fun i k => Rm i k + t * D i k))
                 - sum_n m (fun l => lambda l * q l t) + sigma / 2 * sum_n m (fun l => q l t * q l t)) 0
      (inner_r (gradient_impl p lambda sigma (gram r Rm) Rm) D)).
  match type of DL with derivable_pt_lim _ _ ?v => replace (inner_r (gradient_impl p lambda sigma (gram r Rm) Rm) D) with v; [exact DL|] end.
  pose (w l := lambda l - sigma * slack n (gram r Rm) (constr cs l)).
  transitivity (inner_r (fun i k => 2 * sum_n n (fun j => sp_C p i j * Rm j k)) D + - 1 * sum_n m (fun l => w l * b l)).
  - unfold Rminus. rewrite Rplus_assoc. f_equal.
    rewrite <- (Rmult_1_l (sum_n m (fun l => lambda l * b l))), Ropp_mult_distr_l, <- !sum_n_scal, <- sum_n_plus.
    apply sum_n_ext; intros l _. rewrite Q0. unfold w. field.
  - transitivity (inner_r (fun i k => 2 * sum_n n (fun j => sp_C p i j * Rm j k)) D
        + -1 * inner_r (fun i k => sum_n m (fun l => w l * (2 * sum_n n (fun j => fst (constr cs l) i j * Rm j k)))) D).
    + do 2 f_equal. rewrite <- inner_r_sum. apply sum_n_ext; intros l _. unfold b. rewrite inner_r_scal. reflexivity.
    + rewrite inner_r_scal, inner_r_plus. apply inner_r_ext. intros i k _ _. rewrite gradient_is_2SR. unfold dual_slack. fold cs m.
      rewrite <- !sum_n_scal.
      transitivity (sum_n n (fun j => 2 * (sp_C p i j * Rm j k)) + -1 * sum_n m (fun l => sum_n n (fun j => w l * (2 * (fst (constr cs l) i j * Rm j k))))).
      * f_equal. rewrite <- sum_n_scal. apply sum_n_ext; intros l _. rewrite !sum_n_scal. reflexivity.
      * rewrite sum_n_swap, <- sum_n_scal, <- sum_n_plus. apply sum_n_ext; intros j _.
        rewrite (sum_n_ext m _ (fun l => (2 * Rm j k) * (w l * fst (constr cs l) i j))) by (intros; lra).
        rewrite sum_n_scal. fold (w). unfold w. lra.
Qed.
End A.
