From Coq Require Import Arith Bool List Reals Lra Lia.
From Verif.Model Require Import Softmax.
From Verif.Spec Require Import SoftmaxSpec.
Import ListNotations.
Local Open Scope R_scope.

(** ** sums *)
Lemma fold_shift l : forall a, fold_right Rplus a l = fold_right Rplus 0 l + a.
Proof. induction l as [|x l IH]; intros a; cbn; [lra|]. rewrite IH. lra. Qed.
Lemma total_usum n f : total n f = usum n f.
Proof.
  unfold total. induction n as [|n IH]; [reflexivity|]. rewrite seq_S, map_app, fold_right_app. cbn [usum map fold_right].
  rewrite fold_shift, IH. cbn [Nat.add]. lra.
Qed.
Lemma usum_ext n f g : (forall i, (i < n)%nat -> f i = g i) -> usum n f = usum n g.
Proof. induction n as [|n IH]; intros H; [reflexivity|]. cbn. rewrite IH by (intros; apply H; lia). rewrite H by lia. reflexivity. Qed.
Lemma usum_plus n f g : usum n (fun i => f i + g i) = usum n f + usum n g.
Proof. induction n as [|n IH]; cbn; [lra|]. rewrite IH. lra. Qed.
Lemma usum_scal n c f : usum n (fun i => c * f i) = c * usum n f.
Proof. induction n as [|n IH]; cbn; [lra|]. rewrite IH. lra. Qed.
Lemma usum_0 n : usum n (fun _ => 0) = 0.
Proof. induction n as [|n IH]; cbn; lra. Qed.
Lemma usum_const n c : usum n (fun _ => c) = INR n * c.
Proof. induction n as [|n IH]; [cbn; lra|]. cbn [usum]. rewrite IH, S_INR. lra. Qed.
Lemma usum_front n f : usum (S n) f = f 0%nat + usum n (fun i => f (S i)).
Proof. induction n as [|n IH]; [cbn; lra|]. cbn [usum] in *. rewrite IH. lra. Qed.
Lemma usum_le n f g : (forall i, (i < n)%nat -> f i <= g i) -> usum n f <= usum n g.
Proof. induction n as [|n IH]; intros H; cbn; [lra|]. specialize (IH (fun i L => H i ltac:(lia))). specialize (H n ltac:(lia)). lra. Qed.
Lemma usum_pos n f : (0 < n)%nat -> (forall i, (i < n)%nat -> 0 < f i) -> 0 < usum n f.
Proof.
  destruct n as [|n]; [lia|]. intros _ H. cbn. pose proof (H n ltac:(lia)).
  pose proof (usum_le n (fun _ => 0) f (fun i L => Rlt_le _ _ (H i ltac:(lia)))) as G. rewrite usum_0 in G. lra.
Qed.
Lemma usum_swap n m f : usum n (fun i => usum m (fun j => f i j)) = usum m (fun j => usum n (fun i => f i j)).
Proof. induction n as [|n IH]; cbn; [rewrite usum_0; reflexivity|]. rewrite IH, <- usum_plus. reflexivity. Qed.
Lemma usum_pick n k c : usum n (fun i => if (i =? k)%nat then c i else 0) = if (k <? n)%nat then c k else 0.
Proof.
  induction n as [|n IH]; [reflexivity|]. cbn [usum]. rewrite IH.
  destruct (Nat.ltb_spec k n), (Nat.ltb_spec k (S n)), (Nat.eqb_spec n k); subst; try lia; lra.
Qed.
Lemma usum_deriv n (f f' : nat -> R -> R) x :
  (forall i, (i < n)%nat -> derivable_pt_lim (f i) x (f' i x)) ->
  derivable_pt_lim (fun t => usum n (fun i => f i t)) x (usum n (fun i => f' i x)).
Proof.
  induction n as [|n IH]; intros H; cbn; [apply derivable_pt_lim_const|].
  apply (derivable_pt_lim_plus (fun t => usum n (fun i => f i t)) (f n)); [apply IH; intros; apply H; lia|apply H; lia].
Qed.

Lemma deriv_ext f g x d : (forall t, f t = g t) -> derivable_pt_lim f x d -> derivable_pt_lim g x d.
Proof. intros E H eps P. destruct (H eps P) as [dl Hd]. exists dl. intros h A B. rewrite <- !E. apply Hd; assumption. Qed.

Section Doc.
  Variables (data : mat) (rows : nat) (labels : nat -> nat) (classes : nat) (lambda : R) (intercept : bool).
  Hypothesis CP : (0 < classes)%nat.
  Notation width := (width rows intercept).
  Notation feature := (feature data intercept).
  Notation logit := (logit data rows intercept).
  Notation loss := (loss data rows labels classes intercept).
  Notation objective := (objective data rows labels classes lambda intercept).

  Definition Z (par : mat) (i : nat) : R := usum classes (fun k => exp (logit par k i)).
  Definition P (par : mat) (k i : nat) : R := exp (logit par k i) / Z par i.

  Lemma Z_pos par i : 0 < Z par i.
  Proof. apply usum_pos; [exact CP|]. intros. apply exp_pos. Qed.
  Lemma P_pos par k i : 0 < P par k i.
  Proof. apply Rmult_lt_0_compat; [apply exp_pos|apply Rinv_0_lt_compat, Z_pos]. Qed.
  Lemma P_sum par i : usum classes (fun k => P par k i) = 1.
  Proof.
    unfold P. etransitivity; [apply usum_ext; intros; apply Rmult_comm|]. rewrite usum_scal. apply Rinv_l.
    pose proof (Z_pos par i) as Q. unfold Z in Q. lra.
  Qed.
  Lemma loss_eq par i : loss par i = ln (Z par i) - logit par (labels i) i.
  Proof.
    unfold SoftmaxSpec.loss. rewrite total_usum. fold (Z par i). unfold Rdiv. rewrite ln_mult, ln_Rinv, ln_exp;
    [lra|apply Z_pos|apply exp_pos|apply Rinv_0_lt_compat, Z_pos].
  Qed.

  Lemma logit_put par k j v a i : (j < width)%nat ->
    logit (put par k j v) a i = logit par a i + (if (a =? k)%nat then feature i j else 0) * (v - par k j).
  Proof.
    intros J. unfold SoftmaxSpec.logit. rewrite !total_usum. unfold put. destruct (Nat.eqb_spec a k) as [->|N]; cbn [andb].
    - transitivity (usum width (fun c => par k c * feature i c) + usum width (fun c => if (c =? j)%nat then feature i c * (v - par k c) else 0)).
      + rewrite <- usum_plus. apply usum_ext. intros c L. destruct (Nat.eqb_spec c j) as [->|]; ring.
      + rewrite usum_pick. apply Nat.ltb_lt in J. rewrite J. ring.
    - rewrite Rmult_0_l, Rplus_0_r. reflexivity.
  Qed.

  Lemma affine_deriv a c p : derivable_pt_lim (fun t => a + c * (t - p)) p c.
  Proof.
    intros eps EP. exists (mkposreal 1 Rlt_0_1). intros h HN _.
    replace ((a + c * (p + h - p) - (a + c * (p - p))) / h - c) with 0 by (field; exact HN). rewrite Rabs_R0. exact EP.
  Qed.

  Definition truth (k i : nat) : R := if (labels i =? k)%nat then 1 else 0.

  Lemma loss_deriv par k j i : (k < classes)%nat -> (j < width)%nat ->
    derivable_pt_lim (fun v => loss (put par k j v) i) (par k j) ((P par k i - truth k i) * feature i j).
  Proof.
    intros K J. set (c := fun a => if (a =? k)%nat then feature i j else 0). set (p := par k j).
    apply deriv_ext with (fun v => ln (usum classes (fun a => exp (logit par a i + c a * (v - p)))) - (logit par (labels i) i + c (labels i) * (v - p))).
    { intros v. rewrite loss_eq. unfold Z. rewrite (logit_put par k j v (labels i) i J). f_equal. f_equal.
      apply usum_ext. intros a _. rewrite (logit_put par k j v a i J). reflexivity. }
    set (g := fun v => usum classes (fun a => exp (logit par a i + c a * (v - p)))).
    assert (GZ : g p = Z par i).
    { unfold g, Z. apply usum_ext. intros a _. f_equal. ring. }
    assert (GD : derivable_pt_lim g p (usum classes (fun a => exp (logit par a i + c a * (p - p)) * c a))).
    { apply (usum_deriv classes (fun a v => exp (logit par a i + c a * (v - p))) (fun a v => exp (logit par a i + c a * (v - p)) * c a)).
      intros a _. apply (derivable_pt_lim_comp (fun v => logit par a i + c a * (v - p)) exp); [apply affine_deriv|apply derivable_pt_lim_exp]. }
    assert (GV : usum classes (fun a => exp (logit par a i + c a * (p - p)) * c a) = exp (logit par k i) * feature i j).
    { transitivity (usum classes (fun a => if (a =? k)%nat then exp (logit par a i) * feature i j else 0)).
      - apply usum_ext. intros a _. replace (logit par a i + c a * (p - p)) with (logit par a i) by ring. unfold c. destruct (a =? k)%nat; ring.
      - rewrite usum_pick. apply Nat.ltb_lt in K. rewrite K. reflexivity. }
    rewrite GV in GD. pose proof (Z_pos par i) as ZP.
    assert (LD : derivable_pt_lim (fun v => ln (g v)) p (/ g p * (exp (logit par k i) * feature i j))).
    { apply (derivable_pt_lim_comp g ln); [exact GD|]. apply derivable_pt_lim_ln. rewrite GZ. exact ZP. }
    rewrite GZ in LD.
    replace ((P par k i - truth k i) * feature i j) with (/ Z par i * (exp (logit par k i) * feature i j) - c (labels i)).
    - apply (derivable_pt_lim_minus (fun v => ln (g v)) (fun v => logit par (labels i) i + c (labels i) * (v - p))); [exact LD|apply affine_deriv].
    - unfold P, truth, c. destruct (labels i =? k)%nat; field; lra.
  Qed.

  Lemma norm_deriv par k j : (k < classes)%nat -> (j < width)%nat ->
    derivable_pt_lim (fun v => square_norm rows classes intercept (put par k j v)) (par k j) (2 * par k j).
  Proof.
    intros K J. set (p := par k j).
    apply deriv_ext with (fun v => square_norm rows classes intercept par + (v * v - p * p)).
    { intros v. unfold square_norm. rewrite !total_usum.
      transitivity (usum classes (fun a => usum width (fun b => par a b * par a b)) + usum classes (fun a => if (a =? k)%nat then v * v - p * p else 0)).
      - rewrite usum_pick. pose proof (proj2 (Nat.ltb_lt _ _) K) as K'. rewrite K'. f_equal. apply usum_ext. intros. apply total_usum.
      - rewrite <- usum_plus. apply usum_ext. intros a _. rewrite total_usum. unfold put. destruct (Nat.eqb_spec a k) as [->|N]; cbn [andb].
        + transitivity (usum width (fun c => par k c * par k c) + usum width (fun c => if (c =? j)%nat then v * v - par k c * par k c else 0)).
          * rewrite usum_pick. pose proof (proj2 (Nat.ltb_lt _ _) J) as J'. rewrite J'. reflexivity.
          * rewrite <- usum_plus. apply usum_ext. intros c L. destruct (Nat.eqb_spec c j) as [->|]; ring.
        + ring. }
    replace (2 * p) with (0 + (1 * p + p * 1 - 0)) by ring.
    apply (derivable_pt_lim_plus (fun _ => _) (fun v => v * v - p * p)); [apply derivable_pt_lim_const|].
    apply (derivable_pt_lim_minus (fun v => v * v) (fun _ => p * p)); [|apply derivable_pt_lim_const].
    apply (derivable_pt_lim_mult (fun v => v) (fun v => v)); apply derivable_pt_lim_id.
  Qed.

  (** the gradient, entry by entry *)
  Definition G (start b : nat) (par : mat) (k j : nat) : R :=
    usum b (fun i => (P par k (start + i) - truth k (start + i)) * feature (start + i) j) / INR b + lambda * par k j.

  Lemma objective_deriv start b par k j : (k < classes)%nat -> (j < width)%nat ->
    derivable_pt_lim (fun v => objective start b (put par k j v)) (par k j) (G start b par k j).
  Proof.
    intros K J. set (p := par k j). unfold SoftmaxSpec.objective, G. fold p.
    apply (derivable_pt_lim_plus (fun v => total b (fun i => loss (put par k j v) (start + i)) / INR b)
             (fun v => lambda / 2 * square_norm rows classes intercept (put par k j v))).
    - apply deriv_ext with (fun v => / INR b * usum b (fun i => loss (put par k j v) (start + i))).
      { intros v. rewrite total_usum. unfold Rdiv. ring. }
      match goal with |- derivable_pt_lim _ _ (?s / _) => replace (s / INR b) with (0 * usum b (fun i => loss (put par k j p) (start + i)) + / INR b * s) by (unfold Rdiv; ring) end.
      apply (derivable_pt_lim_mult (fun _ => / INR b) (fun v => usum b (fun i => loss (put par k j v) (start + i)))); [apply derivable_pt_lim_const|].
      apply (usum_deriv b (fun i v => loss (put par k j v) (start + i)) (fun i _ => (P par k (start + i) - truth k (start + i)) * feature (start + i) j)).
      intros i _. apply loss_deriv; assumption.
    - replace (lambda * p) with (0 * square_norm rows classes intercept (put par k j p) + lambda / 2 * (2 * p)) by field.
      apply (derivable_pt_lim_mult (fun _ => lambda / 2) (fun v => square_norm rows classes intercept (put par k j v))); [apply derivable_pt_lim_const|].
      apply norm_deriv; assumption.
  Qed.

  (** ** convexity *)
  Lemma exp_ge u : 1 + u <= exp u. Proof. apply exp_ineq1_le. Qed.

  Lemma loss_convex par q i : (labels i < classes)%nat ->
    loss q i >= loss par i + usum classes (fun k => (P par k i - truth k i) * (logit q k i - logit par k i)).
  Proof.
    intros LI. rewrite !loss_eq. set (u := fun k => logit q k i - logit par k i).
    set (s := usum classes (fun k => P par k i * u k)).
    assert (E1 : usum classes (fun k => (P par k i - truth k i) * u k) = s - u (labels i)).
    { transitivity (s + usum classes (fun k => if (k =? labels i)%nat then - u k else 0)).
      - unfold s. rewrite <- usum_plus. apply usum_ext. intros k _. unfold truth.
        rewrite (Nat.eqb_sym k). destruct (Nat.eqb_spec (labels i) k); ring.
      - rewrite usum_pick. apply Nat.ltb_lt in LI. rewrite LI. ring. }
    change (usum classes (fun k => (P par k i - truth k i) * (logit q k i - logit par k i))) with (usum classes (fun k => (P par k i - truth k i) * u k)).
    rewrite E1.
    assert (ZQ : Z par i * exp s <= Z q i).
    { assert (E : Z q i = Z par i * exp s * usum classes (fun k => P par k i * exp (u k - s))).
      { rewrite <- usum_scal. unfold Z at 1. apply usum_ext. intros k _.
        replace (logit q k i) with (logit par k i + s + (u k - s)) by (unfold u; ring). rewrite !exp_plus.
        unfold P. pose proof (Z_pos par i). field. lra. }
      rewrite E. rewrite <- (Rmult_1_r (Z par i * exp s)) at 1. apply Rmult_le_compat_l.
      { apply Rmult_le_pos; [left; apply Z_pos|left; apply exp_pos]. }
      apply Rle_trans with (usum classes (fun k => P par k i * (1 + (u k - s)))).
      - right. transitivity (usum classes (fun k => (1 - s) * P par k i) + s).
        + rewrite usum_scal, P_sum. ring.
        + unfold s at 2. rewrite <- usum_plus. apply usum_ext. intros. ring.
      - apply usum_le. intros k _. apply Rmult_le_compat_l; [left; apply P_pos|apply exp_ge]. }
    assert (L : ln (Z par i) + s <= ln (Z q i)).
    { rewrite <- (ln_exp s) at 1. rewrite <- ln_mult; [|apply Z_pos|apply exp_pos].
      destruct ZQ as [ZQ|ZQ]; [left; apply ln_increasing; [apply Rmult_lt_0_compat; [apply Z_pos|apply exp_pos]|exact ZQ]|rewrite ZQ; lra]. }
    unfold u. lra.
  Qed.

  Lemma logit_diff q par k i : logit q k i - logit par k i = usum width (fun j => (q k j - par k j) * feature i j).
  Proof.
    unfold SoftmaxSpec.logit. rewrite !total_usum. replace (usum width (fun j => q k j * feature i j)) with
      (usum width (fun j => (q k j - par k j) * feature i j) + usum width (fun j => par k j * feature i j)); [ring|].
    rewrite <- usum_plus. apply usum_ext. intros. ring.
  Qed.

  Lemma objective_convex start b par q : (0 < b)%nat -> (forall i, (i < b)%nat -> (labels (start + i) < classes)%nat) ->
    objective start b q >= objective start b par
      + inner_product classes width (G start b par) (fun k j => q k j - par k j)
      + lambda / 2 * square_norm rows classes intercept (fun k j => q k j - par k j).
  Proof.
    intros B LB. assert (BI : 0 < INR b) by (apply lt_0_INR; exact B).
    unfold SoftmaxSpec.objective, inner_product, square_norm. rewrite !total_usum.
    assert (S1 : usum b (fun i => loss q (start + i)) >= usum b (fun i => loss par (start + i))
       + usum b (fun i => usum classes (fun k => (P par k (start + i) - truth k (start + i)) * (logit q k (start + i) - logit par k (start + i))))).
    { rewrite <- usum_plus. apply Rle_ge, usum_le. intros i L. apply Rge_le, loss_convex. apply LB. exact L. }
    assert (S2 : usum classes (fun k => total width (fun j => G start b par k j * (q k j - par k j))) =
      usum b (fun i => usum classes (fun k => (P par k (start + i) - truth k (start + i)) * (logit q k (start + i) - logit par k (start + i)))) / INR b
      + lambda * usum classes (fun k => usum width (fun j => par k j * (q k j - par k j)))).
    { rewrite usum_swap. unfold Rdiv. rewrite Rmult_comm, <- !usum_scal, <- usum_plus. apply usum_ext. intros k _. rewrite total_usum.
      transitivity (usum width (fun j => usum b (fun i => / INR b * ((P par k (start + i) - truth k (start + i)) * ((q k j - par k j) * feature (start + i) j))))
        + lambda * usum width (fun j => par k j * (q k j - par k j))).
      - rewrite <- usum_scal, <- usum_plus. apply usum_ext. intros j _. unfold G.
        rewrite (usum_ext b (fun i => / INR b * ((P par k (start + i) - truth k (start + i)) * ((q k j - par k j) * feature (start + i) j)))
          (fun i => / INR b * (q k j - par k j) * ((P par k (start + i) - truth k (start + i)) * feature (start + i) j))) by (intros; ring).
        rewrite usum_scal. unfold Rdiv. ring.
      - f_equal. rewrite <- usum_swap, <- usum_scal. apply usum_ext. intros i _. rewrite logit_diff, <- !usum_scal. apply usum_ext. intros. ring. }
    rewrite S2.
    assert (S3 : usum classes (fun k => total width (fun j => q k j * q k j)) = usum classes (fun k => total width (fun j => par k j * par k j))
      + 2 * usum classes (fun k => usum width (fun j => par k j * (q k j - par k j)))
      + usum classes (fun k => total width (fun j => (q k j - par k j) * (q k j - par k j)))).
    { rewrite <- usum_scal, <- !usum_plus. apply usum_ext. intros k _. rewrite !total_usum. rewrite <- usum_scal, <- !usum_plus. apply usum_ext. intros. ring. }
    rewrite S3. set (A := usum b (fun i => loss q (start + i))) in *. set (A0 := usum b (fun i => loss par (start + i))) in *.
    set (D := usum b (fun i => usum classes (fun k => (P par k (start + i) - truth k (start + i)) * (logit q k (start + i) - logit par k (start + i))))) in *.
    assert (S4 : A / INR b >= A0 / INR b + D / INR b).
    { unfold Rdiv. rewrite <- Rmult_plus_distr_r. apply Rle_ge, Rmult_le_compat_r; [left; apply Rinv_0_lt_compat; lra|lra]. }
    set (V := usum classes (fun k => usum width (fun j => par k j * (q k j - par k j)))) in *. lra.
  Qed.
End Doc.
