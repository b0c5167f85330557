(** The adaptive methods move each coordinate by at most a multiple of the step size. *)
From Coq Require Import List Arith Reals Lra Lia Bool ZArith.
From Verif.Base Require Import Num Instances Vec.
From Verif.Model Require Import Updates Sgd.
From Verif.Spec Require Import UpdatesSpec StepBoundSpec SgdSpec.
From Verif.Proof Require Import UpdatesProof AdamProof SgdMore.
Import ListNotations.
Local Open Scope R_scope.

(** ** averages *)
Lemma corr_snoc b l p : corr b (l ++ [p]) = b * corr b l + (1 - b).
Proof. unfold corr. rewrite app_length. simpl. rewrite Nat.add_1_r. simpl. ring. Qed.
Lemma corr_nonneg b l : 0 <= b < 1 -> 0 <= corr b l <= 1.
Proof. intros B. unfold corr. pose proof (pow_01 b (length l) B). lra. Qed.
Lemma M2_nonneg b l : 0 <= b < 1 -> 0 <= M2 b l.
Proof. intros B. apply M2_range. exact B. Qed.

Lemma cross c V m g : 0 <= c -> 0 <= V -> m * m <= c * V -> 2 * m * g <= c * (g * g) + V.
Proof.
  intros C W H. destruct (Rle_lt_or_eq_dec 0 c C) as [P|<-].
  - assert (0 <= c * (c * (g * g) + V - 2 * m * g)) by (pose proof (Rle_0_sqr (c * g - m)) as Q; unfold Rsqr in Q; nra).
    destruct (Rle_dec (2 * m * g) (c * (g * g) + V)) as [L|L]; [exact L|exfalso].
    assert (c * (c * (g * g) + V - 2 * m * g) < 0) by nra. lra.
  - assert (m = 0) by nra. subst. nra.
Qed.

(** the average of the gradients against the average of their squares *)
Lemma jensen b l : 0 <= b < 1 -> M1 b l * M1 b l <= corr b l * M2 b l.
Proof.
  intros B. induction l as [|[h g] l IH] using rev_ind.
  - unfold M1, M2, corr. simpl. lra.
  - rewrite M1_snoc, M2_snoc, corr_snoc. pose proof (corr_nonneg b l B). pose proof (M2_nonneg b l B).
    pose proof (cross (corr b l) (M2 b l) (M1 b l) g ltac:(lra) ltac:(lra) IH) as K.
    assert (0 <= b * (1 - b)) by nra.
    assert (0 <= b * (1 - b) * (corr b l * (g * g) + M2 b l - 2 * M1 b l * g)) by (apply Rmult_le_pos; lra).
    assert (0 <= b * b * (corr b l * M2 b l - M1 b l * M1 b l)) by (apply Rmult_le_pos; nra).
    nra.
Qed.
(** averages of squares with different discounts *)
Lemma discounts b1 b2 l : 0 <= b1 <= b2 -> b2 < 1 -> M2 b1 l <= (1 - b1) / (1 - b2) * M2 b2 l.
Proof.
  intros B1 B2. set (K := (1 - b1) / (1 - b2)).
  assert (KE : K * (1 - b2) = 1 - b1) by (unfold K; field; lra).
  assert (KP : 0 <= K) by (unfold K; apply Rmult_le_pos; [lra|left; apply Rinv_0_lt_compat; lra]).
  induction l as [|[h g] l IH] using rev_ind; [unfold M2; simpl; lra|].
  rewrite !M2_snoc. pose proof (M2_nonneg b2 l ltac:(lra)) as V.
  assert (M2 b1 l * b1 <= K * M2 b2 l * b2).
  { apply Rle_trans with (K * M2 b2 l * b1); [apply Rmult_le_compat_r; lra|]. apply Rmult_le_compat_l; [apply Rmult_le_pos; lra|lra]. }
  nra.
Qed.
Lemma corr_le b1 b2 l : 0 <= b1 <= b2 -> corr b2 l <= corr b1 l.
Proof. intros B. unfold corr. pose proof (pow_incr b1 b2 (length l) B). lra. Qed.

(** the corrected first moment against the corrected second *)
Lemma moment_ratio b1 b2 l : 0 <= b1 <= b2 -> b2 < 1 -> l <> [] ->
  Rabs (M1 b1 l / corr b1 l) <= sqrt ((1 - b1) / (1 - b2)) * sqrt (M2 b2 l / corr b2 l).
Proof.
  intros B1 B2 L. pose proof (corr_pos b1 l ltac:(lra) L) as C1. pose proof (corr_pos b2 l ltac:(lra) L) as C2.
  set (K := (1 - b1) / (1 - b2)).
  assert (KP : 0 <= K) by (unfold K; apply Rmult_le_pos; [lra|left; apply Rinv_0_lt_compat; lra]).
  pose proof (M2_nonneg b2 l ltac:(lra)) as V. rewrite <- sqrt_mult_alt by exact KP.
  rewrite <- sqrt_Rsqr_abs. apply sqrt_le_1_alt. unfold Rsqr.
  pose proof (jensen b1 l ltac:(lra)) as J. pose proof (discounts b1 b2 l B1 B2) as D. fold K in D.
  pose proof (corr_le b1 b2 l B1) as CL.
  assert (I1 : 0 < / corr b1 l) by (apply Rinv_0_lt_compat; lra).
  assert (I2 : / corr b1 l <= / corr b2 l) by (apply Rinv_le_contravar; lra).
  assert (KV : 0 <= K * M2 b2 l) by (apply Rmult_le_pos; lra).
  replace (M1 b1 l / corr b1 l * (M1 b1 l / corr b1 l)) with ((M1 b1 l * M1 b1 l) * (/ corr b1 l * / corr b1 l)) by (unfold Rdiv; ring).
  apply Rle_trans with (corr b1 l * M2 b1 l * (/ corr b1 l * / corr b1 l)).
  - apply Rmult_le_compat_r; [nra|exact J].
  - replace (corr b1 l * M2 b1 l * (/ corr b1 l * / corr b1 l)) with (M2 b1 l * / corr b1 l) by (field; lra).
    unfold Rdiv. rewrite <- Rmult_assoc. apply Rle_trans with (K * M2 b2 l * / corr b1 l).
    + apply Rmult_le_compat_r; [lra|exact D].
    + apply Rmult_le_compat_l; [exact KV|exact I2].
Qed.
Lemma m1_ratio b1 b2 l : 0 <= b1 <= b2 -> b2 < 1 -> l <> [] ->
  Rabs (M1 b1 l) <= sqrt ((1 - b1) / (1 - b2)) * sqrt (M2 b2 l / corr b2 l).
Proof.
  intros B1 B2 L. eapply Rle_trans; [|apply moment_ratio; eassumption].
  pose proof (corr_pos b1 l ltac:(lra) L) as C1.
  unfold Rdiv. rewrite Rabs_mult, (Rabs_pos_eq (/ corr b1 l)) by (left; apply Rinv_0_lt_compat; lra).
  rewrite <- (Rmult_1_r (Rabs (M1 b1 l))) at 1. apply Rmult_le_compat_l; [apply Rabs_pos|].
  rewrite <- Rinv_1 at 1. apply Rinv_le_contravar; lra.
Qed.

Lemma quot_le a c d q : 0 <= q -> 0 <= c -> 0 <= d -> Rabs a <= c * q -> 0 < q + d -> Rabs (a / (q + d)) <= c.
Proof.
  intros Q C D H P. unfold Rdiv. rewrite Rabs_mult, (Rabs_pos_eq (/ (q + d))) by (left; apply Rinv_0_lt_compat; lra).
  apply Rmult_le_reg_r with (q + d); [exact P|]. rewrite Rmult_assoc, Rinv_l, Rmult_1_r by lra. nra.
Qed.
Lemma step_le h a c : 0 <= h -> Rabs a <= c -> Rabs (h * a) <= c * h.
Proof. intros H A. rewrite Rabs_mult, (Rabs_pos_eq h H). nra. Qed.
Lemma minus_abs a d : Rabs (a - d - a) = Rabs d.
Proof. replace (a - d - a) with (- d) by ring. apply Rabs_Ropp. Qed.

Lemma shift_abs a b d : a = b - d -> Rabs (a - b) = Rabs d.
Proof. intros ->. apply minus_abs. Qed.

Section Adam.
  Variables (mx eps b1 b2 : R) (rpw : R -> R -> R).
  Hypothesis B1 : 0 <= b1 <= b2.
  Hypothesis B2 : b2 < 1.
  Hypothesis EP : 0 < eps.
  Notation N := (RNum mx).
  Notation C := (sqrt ((1 - b1) / (1 - b2))).

  Lemma ratio_pos : 0 <= C. Proof. apply sqrt_pos. Qed.
  Lemma eps_pos l : l <> [] -> 0 < eps / sqrt (corr b2 l).
  Proof.
    intros L. pose proof (corr_pos b2 l ltac:(lra) L). apply Rmult_lt_0_compat; [exact EP|]. apply Rinv_0_lt_compat, sqrt_lt_R0. lra.
  Qed.

  Lemma adam_moves : moves_at_most mx (adam_up (N := N) pow eps b1 b2) adam_init C.
  Proof.
    intros x l h g Hh. rewrite (adam_step mx eps b1 b2 ltac:(lra) ltac:(lra) EP). rewrite minus_abs.
    set (H := l ++ [(h, g)]). unfold Rdiv at 1. rewrite Rmult_assoc. apply step_le; [exact Hh|].
    assert (L : H <> []) by apply snoc_ne. pose proof (eps_pos H L). pose proof (sqrt_pos (M2 b2 H / corr b2 H)).
    apply (quot_le (M1 b1 H / corr b1 H)); [assumption|apply ratio_pos|lra|apply moment_ratio; auto|lra].
  Qed.

  Lemma amsgrad_moves : moves_at_most mx (amsgrad_up (N := N) pow eps b1 b2) adam_init C.
  Proof.
    intros x l h g Hh. rewrite (amsgrad_step mx eps b1 b2 ltac:(lra) ltac:(lra) EP). rewrite minus_abs.
    set (H := l ++ [(h, g)]). unfold Rdiv at 1. rewrite Rmult_assoc. apply step_le; [exact Hh|].
    assert (L : H <> []) by apply snoc_ne. pose proof (eps_pos H L). pose proof (sqrt_pos (M2max b2 H / corr b2 H)).
    apply (quot_le (M1 b1 H / corr b1 H)); [assumption|apply ratio_pos|lra| |lra].
    eapply Rle_trans; [apply moment_ratio; eauto|]. apply Rmult_le_compat_l; [apply ratio_pos|]. apply sqrt_le_1_alt.
    apply Rmult_le_compat_r; [left; apply Rinv_0_lt_compat; apply (corr_pos b2 H); [lra|exact L]|].
    apply (M2max_range b2 l (h, g)). lra.
  Qed.

  Lemma direction_le l : Rabs (M1 b1 l / corr b1 l / (sqrt (M2 b2 l / corr b2 l) + eps)) <= C.
  Proof.
    destruct l as [|p l]; [unfold M1; simpl; unfold Rdiv; rewrite !Rmult_0_l, Rabs_R0; apply ratio_pos|].
    set (H := p :: l). assert (L : H <> []) by discriminate. pose proof (sqrt_pos (M2 b2 H / corr b2 H)).
    apply (quot_le (M1 b1 H / corr b1 H)); [assumption|apply ratio_pos|lra|apply moment_ratio; auto|lra].
  Qed.
  Lemma optimistic_moves : moves_at_most mx (optimistic_up (N := N) pow eps b1 b2) adam_init (3 * C).
  Proof.
    intros x l h g Hh. rewrite (optimistic_step mx eps b1 b2). set (H := l ++ [(h, g)]).
    pose proof (direction_le H) as D1. pose proof (direction_le l) as D2.
    change (M1 b1 H / corr b1 H / (sqrt (M2 b2 H / corr b2 H) + eps)) with (opt_u eps b1 b2 H) in D1.
    change (M1 b1 l / corr b1 l / (sqrt (M2 b2 l / corr b2 l) + eps)) with (opt_u eps b1 b2 l) in D2.
    set (d1 := opt_u eps b1 b2 H) in *. set (d2 := opt_u eps b1 b2 l) in *.
    match goal with |- Rabs (?a - ?b + ?c - ?d) <= _ => replace (a - b + c - d) with (h * (d2 - 2 * d1)) by ring end.
    apply step_le; [exact Hh|]. unfold Rabs in *. repeat destruct (Rcase_abs _); lra.
  Qed.

  Lemma qhadam_moves v1 v2 : 0 <= v1 <= 1 -> 0 < v2 < 1 ->
    moves_at_most mx (qhadam_up (N := N) pow eps b1 b2 v1 v2) adam_init
      (sqrt (Rmax ((1 - v1) / (1 - v2)) (v1 * ((1 - b1) / (1 - b2)) / v2))).
  Proof.
    intros V1 V2 x l h g Hh. rewrite (qhadam_step mx eps b1 b2). rewrite minus_abs.
    set (H := l ++ [(h, g)]). apply step_le; [exact Hh|].
    assert (L : H <> []) by apply snoc_ne.
    set (K := (1 - b1) / (1 - b2)). set (Q := Rmax ((1 - v1) / (1 - v2)) (v1 * K / v2)).
    assert (KP : 0 <= K) by (unfold K; apply Rmult_le_pos; [lra|left; apply Rinv_0_lt_compat; lra]).
    assert (QP : 0 <= Q). { eapply Rle_trans; [|apply Rmax_l]. apply Rmult_le_pos; [lra|left; apply Rinv_0_lt_compat; lra]. }
    pose proof (moment_ratio b1 b2 H B1 B2 L) as MR. fold K in MR.
    pose proof (corr_pos b2 H ltac:(lra) L) as C2. pose proof (M2_nonneg b2 H ltac:(lra)) as VV.
    set (m := M1 b1 H / corr b1 H) in *. set (v := M2 b2 H / corr b2 H) in *.
    assert (VP : 0 <= v) by (unfold v; apply Rmult_le_pos; [lra|left; apply Rinv_0_lt_compat; lra]).
    assert (MM : m * m <= K * v).
    { rewrite <- sqrt_mult_alt in MR by exact KP. rewrite <- (sqrt_def (K * v)) by (apply Rmult_le_pos; assumption).
      rewrite <- (Rabs_pos_eq (m * m)) by nra. rewrite Rabs_mult. pose proof (Rabs_pos m). nra. }
    set (D := (1 - v2) * (g * g) + v2 * v).
    assert (DP : 0 <= D) by (unfold D; nra).
    pose proof (sqrt_pos D). apply quot_le; [assumption|apply sqrt_pos|lra| |lra].
    rewrite <- sqrt_mult_alt by exact QP. rewrite <- sqrt_Rsqr_abs. apply sqrt_le_1_alt. unfold Rsqr.
    assert (Q1 : 1 - v1 <= Q * (1 - v2)).
    { apply Rmult_le_reg_r with (/ (1 - v2)); [apply Rinv_0_lt_compat; lra|]. rewrite Rmult_assoc, Rinv_r, Rmult_1_r by lra. apply Rmax_l. }
    assert (Q2 : v1 * K <= Q * v2).
    { apply Rmult_le_reg_r with (/ v2); [apply Rinv_0_lt_compat; lra|]. rewrite (Rmult_assoc Q), Rinv_r, Rmult_1_r by lra. apply Rmax_r. }
    apply Rle_trans with ((1 - v1) * (g * g) + v1 * (m * m)).
    { assert (0 <= v1 * (1 - v1)) by nra. pose proof (Rle_0_sqr (g - m)) as S0. unfold Rsqr in S0. nra. }
    apply Rle_trans with ((1 - v1) * (g * g) + v1 * (K * v)); [nra|]. unfold D.
    assert (0 <= g * g) by nra. nra.
  Qed.

  (** NAdam *)
  Variable sd : R.
  Hypothesis PW : forall t, 0 <= rpw (96 / 100) (INR t * sd) <= 1.
  Notation beta := (fun t => b1 * (1 - 1 / 2 * rpw (96 / 100) (INR t * sd))).

  Lemma g_ratio l h g : Rabs g <= / sqrt (1 - b2) * sqrt (M2 b2 (l ++ [(h, g)]) / corr b2 (l ++ [(h, g)])).
  Proof.
    set (H := l ++ [(h, g)]). assert (L : H <> []) by apply snoc_ne.
    pose proof (corr_pos b2 H ltac:(lra) L) as C2. pose proof (M2_nonneg b2 H ltac:(lra)) as VV.
    pose proof (M2_nonneg b2 l ltac:(lra)) as VL.
    assert (E : M2 b2 H = M2 b2 l * b2 + (1 - b2) * (g * g)) by apply M2_snoc.
    assert (I2 : 1 <= / corr b2 H) by (rewrite <- Rinv_1; apply Rinv_le_contravar; lra).
    rewrite <- sqrt_inv. rewrite <- sqrt_mult_alt by (left; apply Rinv_0_lt_compat; lra).
    rewrite <- sqrt_Rsqr_abs. apply sqrt_le_1_alt. unfold Rsqr.
    apply Rmult_le_reg_l with (1 - b2); [lra|]. rewrite <- (Rmult_assoc (1 - b2) (/ (1 - b2))), Rinv_r, Rmult_1_l by lra.
    apply Rle_trans with (M2 b2 H); [rewrite E; nra|]. unfold Rdiv. nra.
  Qed.

  Lemma mix_coeffs n : (0 < n)%nat ->
    0 <= (1 - beta n) / (1 - prod1 beta n) <= 1 /\ 0 <= beta (S n) / (1 - prod1 beta (S n)) <= b1 / (1 - b1).
  Proof.
    intros P. assert (BR : forall t, b1 / 2 <= beta t <= b1) by (intros t; pose proof (PW t); cbv beta; nra).
    assert (PR : forall k, 0 <= prod1 beta k <= 1).
    { induction k as [|k IH]; [simpl; lra|]. cbn [prod1]. pose proof (BR (S k)) as BK. revert BK IH. cbv beta.
      generalize (b1 * (1 - 1 / 2 * rpw (96 / 100) (INR (S k) * sd))). generalize (prod1 beta k). intros; nra. }
    assert (PL : forall k, (0 < k)%nat -> prod1 beta k <= beta k).
    { intros [|k] Hk; [lia|]. cbn [prod1]. pose proof (PR k) as PK. pose proof (BR (S k)) as BK. revert BK PK. cbv beta.
      generalize (b1 * (1 - 1 / 2 * rpw (96 / 100) (INR (S k) * sd))). generalize (prod1 beta k). intros; nra. }
    pose proof (PL n P) as L1. pose proof (PL (S n) ltac:(lia)) as L2.
    pose proof (PR n) as R1. pose proof (PR (S n)) as R2. pose proof (BR n) as K1. pose proof (BR (S n)) as K2.
    set (p1 := prod1 beta n) in *. set (p2 := prod1 beta (S n)) in *. cbv beta in *.
    set (c1 := b1 * _) in L1, K1 |- *. set (c2 := b1 * (1 - 1 / 2 * rpw (96 / 100) (INR (S n) * sd))) in *.
    assert (I1 : 0 < / (1 - p1)) by (apply Rinv_0_lt_compat; lra). assert (I2 : 0 < / (1 - p2)) by (apply Rinv_0_lt_compat; lra).
    split; split.
    - apply Rmult_le_pos; lra.
    - apply Rmult_le_reg_r with (1 - p1); [lra|]. unfold Rdiv. rewrite Rmult_assoc, Rinv_l, Rmult_1_r by lra. lra.
    - apply Rmult_le_pos; lra.
    - unfold Rdiv. apply Rmult_le_compat; try lra. apply Rinv_le_contravar; lra.
  Qed.

  Lemma nadam_moves : moves_at_most mx (nadam_up (N := N) pow rpw eps b1 b2 sd) nadam_init
    (/ sqrt (1 - b2) + b1 / (1 - b1) * C).
  Proof.
    intros x l h g Hh. rewrite (nadam_step mx eps b1 b2 sd rpw ltac:(lra) EP). rewrite minus_abs.
    set (H := l ++ [(h, g)]). assert (L : H <> []) by apply snoc_ne.
    unfold Rdiv at 1. rewrite Rmult_assoc. apply step_le; [exact Hh|].
    pose proof (eps_pos H L). pose proof (sqrt_pos (M2 b2 H / corr b2 H)) as SP.
    assert (SI : 0 < / sqrt (1 - b2)) by (apply Rinv_0_lt_compat, sqrt_lt_R0; lra).
    assert (CB : 0 <= b1 / (1 - b1)) by (apply Rmult_le_pos; [lra|left; apply Rinv_0_lt_compat; lra]).
    pose proof ratio_pos as CP.
    match goal with |- Rabs (?a * / (?q + ?d)) <= _ => apply (quot_le a _ d q) end; [assumption| |lra| |lra].
    { apply Rplus_le_le_0_compat; [lra|apply Rmult_le_pos; assumption]. }
    pose proof (g_ratio l h g) as G. fold H in G. pose proof (m1_ratio b1 b2 H B1 B2 L) as M.
    destruct (mix_coeffs (length H) ltac:(unfold H; rewrite app_length; simpl; lia)) as [M1' M2'].
    unfold nesterov_mix. match goal with |- Rabs (?a * g + ?c * ?m) <= _ => set (A := a) in *; set (B := c) in * end.
    eapply Rle_trans; [apply Rabs_triang|]. rewrite !Rabs_mult.
    change (0 <= A <= 1) in M1'. change (0 <= B <= b1 / (1 - b1)) in M2'.
    rewrite (Rabs_pos_eq A), (Rabs_pos_eq B) by lra. rewrite Rmult_plus_distr_r.
    apply Rplus_le_compat.
    - pose proof (Rabs_pos g). nra.
    - rewrite Rmult_assoc. apply Rmult_le_compat; try lra. apply Rabs_pos.
  Qed.
End Adam.

(** ** the infinity-norm variants *)
Lemma discmax_snoc b vs v : 0 <= b -> discmax b (vs ++ [v]) = Rmax (discmax b vs * b) (Rabs v).
Proof.
  intros B. induction vs as [|w vs IH]; simpl.
  - rewrite Rmult_0_l, Rmult_1_l. apply Rmax_comm.
  - rewrite IH, app_length. simpl. rewrite Nat.add_1_r. simpl.
    rewrite (Rmult_comm (Rmax _ _) b), <- (RmaxRmult _ _ _ B), <- Rmax_assoc. f_equal; [ring|]. f_equal. ring.
Qed.
Lemma discmax_nonneg b vs : 0 <= discmax b vs.
Proof. induction vs as [|v vs IH]; simpl; [lra|]. eapply Rle_trans; [exact IH|apply Rmax_r]. Qed.

Lemma max_ratio b1 b2 l : 0 <= b1 < b2 -> b2 < 1 -> Rabs (M1 b1 l) <= (1 - b1) * (b2 / (b2 - b1)) * discmax b2 (gs_of l).
Proof.
  intros B1 B2. set (K := (1 - b1) * (b2 / (b2 - b1))).
  assert (KE : K * (b2 - b1) = (1 - b1) * b2) by (unfold K; field; lra).
  assert (KP : 0 <= K) by (unfold K; apply Rmult_le_pos; [lra|apply Rmult_le_pos; [lra|left; apply Rinv_0_lt_compat; lra]]).
  induction l as [|[h g] l IH] using rev_ind.
  - unfold M1; simpl. rewrite Rabs_R0. lra.
  - rewrite M1_snoc. unfold gs_of. rewrite map_app. cbn [map snd]. rewrite discmax_snoc by lra. fold (gs_of l).
    set (u := discmax b2 (gs_of l)) in *. pose proof (Rmax_l (u * b2) (Rabs g)) as L1. pose proof (Rmax_r (u * b2) (Rabs g)) as L2.
    set (w := Rmax _ _) in *. pose proof (discmax_nonneg b2 (gs_of l)) as UP. fold u in UP.
    eapply Rle_trans; [apply Rabs_triang|]. rewrite !Rabs_mult, (Rabs_pos_eq b1), (Rabs_pos_eq (1 - b1)) by lra.
    assert (A1 : Rabs (M1 b1 l) * b1 <= K * u * b1) by (apply Rmult_le_compat_r; lra).
    apply Rmult_le_reg_r with b2; [lra|].
    assert (K * u * b1 * b2 <= K * b1 * w) by (replace (K * u * b1 * b2) with (K * b1 * (u * b2)) by ring; apply Rmult_le_compat_l; [apply Rmult_le_pos; lra|exact L1]).
    assert (Rabs (M1 b1 l) * b1 * b2 <= K * u * b1 * b2) by (apply Rmult_le_compat_r; lra).
    assert (K * (b2 - b1) * Rabs g <= K * (b2 - b1) * w) by (apply Rmult_le_compat_l; [apply Rmult_le_pos; lra|exact L2]).
    rewrite Rmult_plus_distr_r. replace ((1 - b1) * Rabs g * b2) with (K * (b2 - b1) * Rabs g) by (rewrite KE; ring). lra.
Qed.

Section Max.
  Variables (mx eps b1 b2 : R) (rpw : R -> R -> R).
  Hypothesis B1 : 0 <= b1 < b2.
  Hypothesis B2 : b2 < 1.
  Hypothesis EP : 0 < eps.
  Notation N := (RNum mx).

  Lemma K_pos : 0 <= b2 / (b2 - b1).
  Proof. apply Rmult_le_pos; [lra|left; apply Rinv_0_lt_compat; lra]. Qed.
  Lemma adamax_moves : moves_at_most mx (adamax_up (N := N) pow eps b1 b2) adam_init (b2 / (b2 - b1)).
  Proof.
    intros x l h g Hh. rewrite (adamax_step mx eps b1 b2 ltac:(lra) ltac:(lra)). rewrite minus_abs.
    set (H := l ++ [(h, g)]). assert (L : H <> []) by apply snoc_ne.
    unfold Rdiv at 1. rewrite Rmult_assoc. apply step_le; [exact Hh|].
    pose proof (discmax_nonneg b2 (gs_of H)). pose proof K_pos.
    apply (quot_le (M1 b1 H / corr b1 H)); [assumption|assumption|lra| |lra].
    pose proof (max_ratio b1 b2 H B1 B2) as M. pose proof (corr_pos b1 H ltac:(lra) L) as C1.
    assert (C1' : 1 - b1 <= corr b1 H) by (unfold H; rewrite corr_snoc; pose proof (corr_nonneg b1 l ltac:(lra)); nra).
    unfold Rdiv at 1. rewrite Rabs_mult, (Rabs_pos_eq (/ corr b1 H)) by (left; apply Rinv_0_lt_compat; lra).
    apply Rmult_le_reg_r with (corr b1 H); [lra|]. rewrite Rmult_assoc, Rinv_l, Rmult_1_r by lra.
    eapply Rle_trans; [exact M|]. set (u := discmax b2 (gs_of H)) in *. set (k := b2 / (b2 - b1)) in *.
    assert (0 <= k * u) by (apply Rmult_le_pos; assumption). nra.
  Qed.

  Variable sd : R.
  Hypothesis PW : forall t, 0 <= rpw (96 / 100) (INR t * sd) <= 1.
  Lemma nadamax_moves : moves_at_most mx (nadamax_up (N := N) rpw eps b1 b2 sd) nadam_init (1 + b1 * (b2 / (b2 - b1))).
  Proof.
    intros x l h g Hh. rewrite (nadamax_step mx eps b1 b2 sd rpw ltac:(lra) ltac:(lra) PW). rewrite minus_abs.
    set (H := l ++ [(h, g)]). assert (L : H <> []) by apply snoc_ne.
    unfold Rdiv at 1. rewrite Rmult_assoc. apply step_le; [exact Hh|].
    pose proof (discmax_nonneg b2 (gs_of H)) as UP. pose proof K_pos as KP.
    match goal with |- Rabs (?a * / (?q + ?d)) <= _ => apply (quot_le a _ d q) end; [assumption| |lra| |lra].
    { apply Rplus_le_le_0_compat; [lra|apply Rmult_le_pos; lra]. }
    pose proof (max_ratio b1 b2 H B1 B2) as M.
    assert (G : Rabs g <= discmax b2 (gs_of H)) by (unfold H, gs_of; rewrite map_app; apply discmax_ge; lra).
    destruct (mix_coeffs b1 b2 rpw ltac:(lra) ltac:(lra) sd PW (length H) ltac:(unfold H; rewrite app_length; simpl; lia)) as [M1' M2'].
    unfold nesterov_mix. match goal with |- Rabs (?a * g + ?c * ?m) <= _ => set (A := a) in *; set (B := c) in * end.
    eapply Rle_trans; [apply Rabs_triang|]. rewrite !Rabs_mult.
    change (0 <= A <= 1) in M1'. change (0 <= B <= b1 / (1 - b1)) in M2'.
    rewrite (Rabs_pos_eq A), (Rabs_pos_eq B) by lra. rewrite Rmult_plus_distr_r.
    set (u := discmax b2 (gs_of H)) in *. set (k := b2 / (b2 - b1)) in *.
    apply Rplus_le_compat; [pose proof (Rabs_pos g); nra|].
    apply Rle_trans with (b1 / (1 - b1) * ((1 - b1) * k * u)).
    - apply Rmult_le_compat; try lra. apply Rabs_pos.
    - right. unfold Rdiv. field. lra.
  Qed.
End Max.

(** ** Yogi *)
Lemma m1_sq b l : 0 <= b < 1 -> M1 b l * M1 b l <= M2 b l.
Proof. intros B. pose proof (jensen b l B). pose proof (corr_nonneg b l B). pose proof (M2_nonneg b l B). nra. Qed.

Lemma yogi_moves mx eps b1 b2 : 0 <= b1 < b2 -> b2 < 1 -> 0 < eps ->
  moves_at_most mx (yogi_up (N := RNum mx) eps b1 b2) adam_init
    (sqrt (Rmax ((1 - b1) / (1 - b2)) ((1 - b1) / (b2 - b1)))).
Proof.
  intros B1 B2 EP x l h g Hh. set (Q := Rmax _ _).
  assert (Q1 : 1 - b1 <= Q * (1 - b2)).
  { apply Rmult_le_reg_r with (/ (1 - b2)); [apply Rinv_0_lt_compat; lra|]. rewrite (Rmult_assoc Q), Rinv_r, Rmult_1_r by lra. apply Rmax_l. }
  assert (Q2 : 1 - b1 <= Q * (b2 - b1)).
  { apply Rmult_le_reg_r with (/ (b2 - b1)); [apply Rinv_0_lt_compat; lra|]. rewrite (Rmult_assoc Q), Rinv_r, Rmult_1_r by lra. apply Rmax_r. }
  assert (QP : 0 < Q) by nra.
  pose proof (fun l h g => yogi_step mx eps b1 b2 ltac:(lra) x l h g) as Y. cbv zeta in Y.
  set (up := yogi_up (N := RNum mx) eps b1 b2) in *.
  assert (INV : forall l : list (R * R), M2 b1 l <= Q * (a_v (fst (run (N := RNum mx) up adam_init x l)) : R)).
  { clear l h g Hh. intros l. induction l as [|[h g] l IH] using rev_ind.
    - unfold M2. simpl. lra.
    - destruct (Y l h g) as (v & v' & V & E & Ev & Ev' & _). rewrite M2_snoc.
      eapply Rle_trans; [|right; exact (f_equal (fun z => Q * z) Ev')].
      assert (IH' : M2 b1 l <= Q * v) by (eapply Rle_trans; [exact IH|right; exact (f_equal (fun z => Q * z) (eq_sym Ev))]).
      assert (P : M2 b1 l * b1 <= Q * v * b1) by (apply Rmult_le_compat_r; lra).
      rewrite E. pose proof (Rle_0_sqr g) as G. unfold Rsqr in G.
      destruct (total_order_T v (g * g)) as [[T|T]|T].
      + assert (Q * v * b1 <= Q * v) by (assert (0 <= Q * v) by nra; nra).
        assert ((1 - b1) * (g * g) <= Q * (1 - b2) * (g * g)) by (apply Rmult_le_compat_r; assumption). nra.
      + subst v. assert (1 - b1 <= Q * (1 - b1)).
        { assert (Q * (b2 - b1) <= Q * (1 - b1)) by (apply Rmult_le_compat_l; lra). lra. }
        assert ((1 - b1) * (g * g) <= Q * (1 - b1) * (g * g)) by (apply Rmult_le_compat_r; assumption). nra.
      + assert (A1 : (1 - b1) * (g * g) <= Q * (b2 - b1) * (g * g)) by (apply Rmult_le_compat_r; assumption).
        assert (A2 : Q * (1 - b1) * (g * g) <= Q * (1 - b1) * v) by (apply Rmult_le_compat_l; nra). nra. }
  destruct (Y l h g) as (v & v' & V & E & Ev & Ev' & X). rewrite X, minus_abs.
  set (H := l ++ [(h, g)]) in *. unfold Rdiv. rewrite Rmult_assoc. apply step_le; [exact Hh|].
  pose proof (sqrt_pos v'). apply (quot_le (M1 b1 H)); [assumption|apply sqrt_pos|lra| |lra].
  rewrite <- sqrt_mult_alt by lra. rewrite <- sqrt_Rsqr_abs. apply sqrt_le_1_alt. unfold Rsqr.
  eapply Rle_trans; [apply m1_sq; lra|]. eapply Rle_trans; [apply INV|]. right. exact (f_equal (fun z => Q * z) (eq_sym Ev')).
Qed.

(** ** AdaGrad, RMSProp, AdaSqrt, WNGrad *)
From Verif.Proof Require Import AccumProof.
Lemma adagrad_moves mx eps : 0 < eps -> moves_at_most mx (adagrad_up (N := RNum mx) eps) 0 1.
Proof. intros EP x l h g Hh. rewrite Rmult_1_l. apply (adagrad_ok mx eps EP x l h g Hh). Qed.

Lemma rmsprop_moves mx eps alpha : 0 < eps -> 0 <= alpha < 1 ->
  moves_at_most mx (rmsprop_up (N := RNum mx) eps alpha) 0 (/ sqrt (1 - alpha)).
Proof.
  intros EP A x l h g Hh. destruct (rmsprop_ok mx eps EP x alpha l h g Hh) as [E _]. cbv zeta in E. rewrite E, minus_abs.
  set (H := l ++ [(h, g)]). unfold Rdiv. rewrite Rmult_assoc. apply step_le; [exact Hh|].
  pose proof (sqrt_pos (M2 alpha H)). assert (S1 : 0 < sqrt (1 - alpha)) by (apply sqrt_lt_R0; lra).
  apply quot_le; [assumption|left; apply Rinv_0_lt_compat; exact S1|lra| |lra].
  rewrite <- sqrt_inv. rewrite <- sqrt_mult_alt by (left; apply Rinv_0_lt_compat; lra).
  rewrite <- sqrt_Rsqr_abs. apply sqrt_le_1_alt. unfold Rsqr, H. rewrite M2_snoc. pose proof (M2_nonneg alpha l A).
  apply Rmult_le_reg_l with (1 - alpha); [lra|]. rewrite <- (Rmult_assoc (1 - alpha) (/ (1 - alpha))), Rinv_r, Rmult_1_l by lra. nra.
Qed.

Lemma adasqrt_moves mx eps x (l : list (R * R)) h g : 0 < eps -> 0 <= h ->
  Rabs (snd (run (N := RNum mx) (adasqrt_up (N := RNum mx) eps) (0, O) x (l ++ [(h, g)]))
        - snd (run (N := RNum mx) (adasqrt_up (N := RNum mx) eps) (0, O) x l))
  <= sqrt (INR (S (length l))) / (2 * sqrt eps) * h.
Proof.
  intros EP Hh. destruct (adasqrt_ok mx eps EP x l h g Hh) as [E _]. cbv zeta in E.
  eapply Rle_trans; [right; exact (shift_abs _ _ _ E)|].
  change (Rabs (h * sqrt (INR (@length (R * R) (l ++ [(h, g)]))) * g / (sumsq (l ++ [(h, g)]) + eps))
          <= sqrt (INR (S (@length (R * R) l))) / (2 * sqrt eps) * h).
  rewrite app_length. cbn [length]. rewrite Nat.add_1_r.
  set (r := sqrt (INR (S (length l)))). assert (RP : 0 <= r) by apply sqrt_pos.
  assert (SE : sumsq (l ++ [(h, g)]) = sumsq l + g * g).
  { clear. induction l as [|p l IH]; [unfold sumsq; simpl; ring|]. change (snd p * snd p + sumsq (l ++ [(h, g)]) = snd p * snd p + sumsq l + g * g). rewrite IH. ring. }
  assert (SP : 0 <= sumsq l) by (clear; unfold sumsq; induction l as [|p l IH]; simpl; nra).
  rewrite SE. set (d := sumsq l + g * g + eps). assert (DP : 0 < d) by (unfold d; nra).
  assert (S1 : 0 < sqrt eps) by (apply sqrt_lt_R0; exact EP). assert (S2 : sqrt eps * sqrt eps = eps) by (apply sqrt_def; lra).
  replace (h * r * g / d) with (h * (r * (g / d))) by (unfold Rdiv; ring). apply step_le; [exact Hh|].
  rewrite Rabs_mult, (Rabs_pos_eq r RP). apply Rmult_le_compat_l; [exact RP|].
  unfold Rdiv. rewrite Rabs_mult, (Rabs_pos_eq (/ d)) by (left; apply Rinv_0_lt_compat; lra).
  apply Rmult_le_reg_r with (d * (2 * sqrt eps)); [apply Rmult_lt_0_compat; lra|].
  replace (Rabs g * / d * (d * (2 * sqrt eps))) with (2 * sqrt eps * Rabs g) by (field; lra).
  replace (/ (2 * sqrt eps) * (d * (2 * sqrt eps))) with d by (field; lra).
  assert (G : Rabs g * Rabs g = g * g) by (rewrite <- Rabs_mult; apply Rabs_pos_eq; nra).
  pose proof (Rle_0_sqr (sqrt eps - Rabs g)) as Z. unfold Rsqr in Z. unfold d. nra.
Qed.

Lemma wngrad_moves (mx : R) (norm : list R -> R) b x h (g : list R) :
  0 < b -> 0 <= h -> length g = length x -> (forall v, In v g -> Rabs v <= norm g) ->
  forall j xj xj', nth_error x j = Some xj -> nth_error (snd (wngrad_up (N := RNum mx) norm b x h g)) j = Some xj' ->
  Rabs (xj' - xj) <= 1 / 2.
Proof.
  intros B Hh L NR j xj xj' Ex Ex'. pose proof (wngrad_ok mx norm b x h g B Hh L) as W.
  destruct (wngrad_up (N := RNum mx) norm b x h g) as [b' x'] eqn:EW. destruct W as (Eb & Hb & W). simpl in Ex'.
  assert (J : (j < length g)%nat) by (rewrite L; apply nth_error_Some; congruence).
  destruct (nth_error g j) as [gj|] eqn:Eg; [|apply nth_error_None in Eg; lia].
  destruct (W j xj gj Ex Eg) as (z & Ez & E & _). pose proof (eq_trans (eq_sym Ex') Ez) as ZZ. injection ZZ as ->. rewrite E, minus_abs.
  pose proof (NR gj (nth_error_In _ _ Eg)) as NG. set (n := norm g) in *.
  assert (BP : 0 < b') by lra.
  assert (K : 2 * (h * n) <= b').
  { apply Rmult_le_reg_r with b; [exact B|]. rewrite Eb.
    replace ((b + h * h / b * (n * n)) * b) with (b * b + (h * n) * (h * n)) by (field; lra).
    pose proof (Rle_0_sqr (b - h * n)) as Z. unfold Rsqr in Z. nra. }
  unfold Rdiv at 1. rewrite Rabs_mult, (Rabs_pos_eq (/ b')) by (left; apply Rinv_0_lt_compat; lra).
  apply Rmult_le_reg_r with b'; [exact BP|]. rewrite Rmult_assoc, Rinv_l, Rmult_1_r by lra.
  rewrite Rabs_mult, (Rabs_pos_eq h Hh). assert (h * Rabs gj <= h * n) by (apply Rmult_le_compat_l; assumption). lra.
Qed.

(** ** a run of SGD *)
Lemma vec_run_snoc {N : Num} {S : Type} (up : S -> N -> N -> N -> S * N) ss xs l h g :
  vec_run up ss xs (l ++ [(h, g)]) = vec_up up (fst (vec_run up ss xs l)) (snd (vec_run up ss xs l)) h g.
Proof. unfold vec_run. rewrite fold_left_app. reflexivity. Qed.
Section Run.
  Context (mx : R) {S D : Type} (up : S -> R -> R -> R -> S * R) (s0 : S) (C : R).
  Notation N := (RNum mx).
  Variables (f : SepFun N (list R) (list R)) (cb : Callbacks N (list R) (list R)) (step : R) (x0 : list R) (d0 : D).
  Variable dp : D -> list R -> R -> list R -> D * R.
  Hypothesis M : moves_at_most mx up s0 C.
  Hypothesis ST : 0 <= step.
  Hypothesis ND : forall d x s g, snd (dp d x s g) = s.
  Hypothesis GL : forall j x b k, length x = length x0 -> length (snd (sf_evalgrad f j x b k)) = length x0.
  Hypothesis CL : forall h g, length g = length x0 -> length (cb_grad cb h g) = length x0.

  Lemma stepped_app a b : stepped (N := N) (X := list R) (G := list R) (a ++ b) = stepped a ++ stepped b.
  Proof. induction a as [|[] a IH]; simpl; rewrite ?IH; reflexivity. Qed.
  Lemma close_snoc B l a b : close_by B (l ++ [a]) -> length a = length b -> (forall i, Rabs (nth i a 0 - nth i b 0) <= B) ->
    close_by B (l ++ [a; b]).
  Proof.
    induction l as [|c [|d l] IH]; intros H L K.
    - simpl. repeat split; auto.
    - simpl in H |- *. destruct H as (H1 & H2 & _). repeat split; auto.
    - destruct H as (H1 & H2 & H3). split; [exact H1|]. split; [exact H2|]. apply IH; assumption.
  Qed.

  Lemma run_close h x u d s :
    moved f (vec_up (N := N) up) dp cb x0 (repeat s0 (length x0)) d0 step h x u d s ->
    s = step /\ length x = length x0 /\
    (exists l : list (R * list R), Forall (fun hg => fst hg = step /\ length (snd hg) = length x0) l /\
       (u, x) = vec_run (N := N) up (repeat s0 (length x0)) x0 l) /\
    exists p, x0 :: stepped (rev h) = p ++ [x] /\ close_by (C * step) (x0 :: stepped (rev h)).
  Proof.
    induction 1 as [|h e x u d s Hm IH He|h b k o g x u d s Hm IH Eg h1 g' x'].
    - repeat split. { exists []. split; [constructor|reflexivity]. } exists []. split; [reflexivity|exact I].
    - destruct IH as (A1 & A2 & A3 & A4). repeat split; auto.
      assert (E : stepped (rev (e :: h)) = stepped (rev h)).
      { simpl rev. rewrite stepped_app. destruct e; simpl in *; try contradiction; apply app_nil_r. }
      rewrite E. exact A4.
    - destruct IH as (-> & A2 & (l & FL & EL) & p & EP & CP).
      assert (LG : length g' = length x0).
      { unfold g'. apply CL. pose proof (GL (count_shuffles h) x b k A2) as Q. rewrite Eg in Q. exact Q. }
      assert (RL : length (repeat s0 (length x0)) = length x0) by apply repeat_length.
      assert (FL' : Forall (fun hg : R * list R => length (snd hg) = length x0) l) by (eapply Forall_impl; [|exact FL]; simpl; tauto).
      assert (VR : vec_run (N := N) up (repeat s0 (length x0)) x0 (l ++ [(step, g')]) = vec_up (N := N) up u x step g').
      { etransitivity; [exact (vec_run_snoc (N := N) up (repeat s0 (length x0)) x0 l step g')|]. exact (f_equal (fun p => vec_up (N := N) up (fst p) (snd p) step g') (eq_sym EL)). }
      assert (LU : length u = length x).
      { assert (Z : forall l, Forall (fun hg : R * list R => length (snd hg) = length x0) l ->
          length (fst (vec_run (N := N) up (repeat s0 (length x0)) x0 l)) = length x0 /\
          length (snd (vec_run (N := N) up (repeat s0 (length x0)) x0 l)) = length x0).
        { clear - RL. intros l. induction l as [|[hh gg] l IH] using rev_ind; intros F; [split; [exact RL|reflexivity]|].
          apply Forall_app in F. destruct F as [F1 F2]. inversion F2 as [|? ? F3 _]; subst. simpl in F3.
          destruct (IH F1) as [I1 I2].
          destruct (vec_up_length (N := N) up _ _ hh gg (eq_trans I1 (eq_sym I2)) (eq_trans F3 (eq_sym I2))) as [P Q].
          pose proof (vec_run_snoc (N := N) up (repeat s0 (length x0)) x0 l hh gg) as VS.
          split; [etransitivity; [exact (f_equal (fun z => length (fst z)) VS)|etransitivity; [exact P|exact I2]]|
                  etransitivity; [exact (f_equal (fun z => length (snd z)) VS)|etransitivity; [exact Q|exact I2]]]. }
        destruct (Z l FL') as [Z1 Z2]. rewrite <- EL in Z1, Z2. simpl in Z1, Z2. transitivity (length x0); [exact Z1|symmetry; exact Z2]. }
      assert (LX : length x' = length x0).
      { unfold x'. etransitivity; [apply (vec_up_length (N := N) up u x step g' LU)|exact A2]. transitivity (length x0); auto. }
      repeat split; auto.
      + exists (l ++ [(step, g')]). split; [apply Forall_app; split; [exact FL|constructor; [split; [reflexivity|exact LG]|constructor]]|].
        etransitivity; [|symmetry; exact VR]. unfold x'. destruct (vec_up (N := N) up u x step g'). reflexivity.
      + exists (p ++ [x]). unfold h1. simpl rev. rewrite <- !app_assoc, stepped_app. simpl stepped.
        assert (Q : x0 :: stepped (rev h) ++ [x'] = (p ++ [x]) ++ [x']) by (rewrite <- EP; reflexivity).
        rewrite <- app_assoc in Q.
        split; [exact Q|]. rewrite Q. apply close_snoc; [rewrite <- EP; exact CP|congruence|].
        intros i. destruct (Nat.lt_ge_cases i (length x0)) as [I|I].
        * assert (Ei : nth_error x0 i = Some (nth i x0 0)) by (apply nth_error_nth'; exact I).
          assert (Es : nth_error (repeat s0 (length x0)) i = Some s0).
          { rewrite (nth_error_nth' _ s0) by (rewrite RL; exact I). f_equal. apply nth_repeat. }
          pose proof (vec_run_nth (N := N) up l _ _ i s0 (nth i x0 0) RL FL' Es Ei) as P1.
          assert (FL2 : Forall (fun hg : R * list R => length (snd hg) = length x0) (l ++ [(step, g')]))
            by (apply Forall_app; split; [exact FL'|constructor; [exact LG|constructor]]).
          pose proof (vec_run_nth (N := N) up (l ++ [(step, g')]) _ _ i s0 (nth i x0 0) RL FL2 Es Ei) as P2.
          rewrite VR in P2. change (snd (vec_up (N := N) up u x step g')) with x' in P2. rewrite <- EL in P1. simpl snd in P1.
          rewrite map_app in P2. cbn [map fst snd] in P2.
          apply (nth_error_nth _ _ (0 : R)) in P1. apply (nth_error_nth _ _ (0 : R)) in P2.
          eapply Rle_trans; [right; exact (f_equal Rabs (f_equal2 Rminus P1 P2))|]. rewrite Rabs_minus_sym. apply M. exact ST.
        * rewrite !nth_overflow by (rewrite ?A2, ?LX; exact I). rewrite Rminus_0_r, Rabs_R0.
          pose proof (M 0 [] step 0 ST) as Z. eapply Rle_trans; [apply Rabs_pos|exact Z].
  Qed.

  Lemma close_far B l a p x : 0 <= B -> a :: l = p ++ [x] -> close_by B (a :: l) -> forall i, Rabs (nth i x 0 - nth i a 0) <= B * INR (length l).
  Proof.
    intros BP. revert a p. induction l as [|b l IH]; intros a p E H i.
    - destruct p as [|? [|? ?]]; try discriminate. injection E as ->. simpl. rewrite Rminus_diag_eq, Rabs_R0 by reflexivity. lra.
    - destruct p as [|c p]; [discriminate|]. injection E as -> E. destruct H as (_ & H1 & H2).
      specialize (IH b p E H2 i). specialize (H1 i). cbn [length]. rewrite S_INR.
      unfold Rabs in *. repeat destruct (Rcase_abs _); lra.
  Qed.
End Run.

Theorem sgd_close : forall (mx : R) (S D : Type) (up : S -> R -> R -> R -> S * R) (s0 : S) (C : R)
    (c : Cfg (RNum mx) (list R) (list R) (list S) D) (f : SepFun (RNum mx) (list R) (list R))
    (cb : Callbacks (RNum mx) (list R) (list R)) (x0 : list R) (d0 : D) (step : R) (fuel : nat)
    (r : res (RNum mx) (list R) (list R) (list S) D),
  moves_at_most mx up s0 C -> 0 <= C -> 0 <= step ->
  c_up c = vec_up (N := RNum mx) up -> (forall d x s g, snd (c_dp c d x s g) = s) ->
  (forall j x b k, length x = length x0 -> length (snd (sf_evalgrad f j x b k)) = length x0) ->
  (forall h g, length g = length x0 -> length (cb_grad cb h g) = length x0) ->
  (0 < sf_num f)%nat -> (0 < c_batch c)%nat ->
  optimize_with c f cb fuel (repeat s0 (length x0)) d0 step x0 = Return r ->
  let xs := stepped (r_trace r) in
  close_by (C * step) (x0 :: xs) /\ r_x r = last xs x0 /\
  forall i, Rabs (nth i (r_x r) 0 - nth i x0 0) <= C * step * INR (length xs).
Proof.
  intros mx S D up s0 C c f cb x0 d0 step fuel r M CP ST EU ND GL CL NF BS E.
  pose proof (c63 c f cb x0 (repeat s0 (length x0)) d0 step fuel NF BS r E) as V. rewrite EU in V.
  destruct (run_close mx up s0 C f cb step x0 d0 (c_dp c) M ST ND GL CL _ _ _ _ _ V) as (_ & _ & _ & p & E1 & E2).
  rewrite rev_involutive in E1, E2. cbv zeta. split; [exact E2|]. split.
  - assert (Q : last (x0 :: stepped (r_trace r)) x0 = r_x r) by (rewrite E1; apply last_last).
    rewrite <- Q. destruct (stepped (r_trace r)); reflexivity.
  - apply (close_far (C * step) (stepped (r_trace r)) x0 p (r_x r)); auto. apply Rmult_le_pos; assumption.
Qed.
