From Coq Require Import Arith Bool List Reals Lra Lia FinFun.
From Verif.Model Require Import Softmax.
From Verif.Spec Require Import SoftmaxSpec.
From Verif.Proof Require Import SoftmaxProof.
Import ListNotations.
Local Open Scope R_scope.

Section Model.
  Variables (data : mat) (rows cols : nat) (labels : nat -> nat) (classes : nat) (lambda : R) (intercept : bool).
  Hypothesis CP : (0 < classes)%nat.
  Notation s := (construct data rows cols labels classes lambda intercept).
  Notation width := (width rows intercept).
  Notation feature := (feature data intercept).
  Notation logit := (logit data rows intercept).
  Notation objective := (objective data rows labels classes lambda intercept).

  Lemma nf : num_features s = width. Proof. reflexivity. Qed.
  Lemma score_eq par start k i : score s par start k i = logit par k (start + i).
  Proof.
    unfold score, SoftmaxSpec.logit, SoftmaxSpec.width, SoftmaxSpec.feature. rewrite total_usum. cbn [construct sm_intercept sm_rows sm_data].
    destruct intercept; [|reflexivity]. rewrite usum_front. rewrite Rmult_1_r. reflexivity.
  Qed.
  Lemma prob_eq par start k i : probabilities s par start k i = P data rows classes intercept par k (start + i).
  Proof.
    unfold probabilities, P, Z. rewrite score_eq. cbn [construct sm_classes]. apply (f_equal (Rdiv _)). apply usum_ext. intros. rewrite score_eq. reflexivity.
  Qed.

  Lemma likelihood par start b : (forall i, (i < b)%nat -> (labels (start + i)%nat < classes)%nat) ->
    accu classes b (fun k i => ground_truth labels k (start + i)%nat * ln (probabilities s par start k i)) =
    - usum b (fun i => loss data rows labels classes intercept par (start + i)).
  Proof.
    intros L. unfold accu. replace (- usum b (fun i => loss data rows labels classes intercept par (start + i)))
      with (usum b (fun i => -1 * loss data rows labels classes intercept par (start + i))) by (rewrite usum_scal; ring).
    apply usum_ext. intros i I. transitivity (usum classes (fun k => if (k =? labels (start + i))%nat then ln (probabilities s par start k i) else 0)).
    - apply usum_ext. intros k _. unfold ground_truth. rewrite (Nat.eqb_sym k). destruct (_ =? _)%nat; ring.
    - rewrite usum_pick. specialize (L i I). apply Nat.ltb_lt in L. rewrite L. rewrite prob_eq. unfold loss, P, Z. rewrite total_usum. ring.
  Qed.
  Lemma decay par : accu classes width (fun k j => par k j * par k j) = square_norm rows classes intercept par.
  Proof. unfold accu, square_norm. rewrite total_usum, usum_swap. apply usum_ext. intros. symmetry. apply total_usum. Qed.

  Lemma evaluate_ok par : (forall i, (i < cols)%nat -> (labels i < classes)%nat) -> evaluate s par = objective 0 cols par.
  Proof.
    intros L. unfold evaluate, SoftmaxSpec.objective. rewrite nf. cbn [construct sm_classes sm_cols sm_truth sm_lambda].
    pose proof (likelihood par 0 cols L) as E. cbn [Nat.add] in E. change (accu classes cols
      (fun k i => ground_truth labels k i * ln (probabilities s par 0 k i)) = - usum cols (fun i => loss data rows labels classes intercept par i)) in E.
    cbv zeta. etransitivity; [apply (f_equal2 Rplus); [apply (f_equal (fun z => - (z / INR cols))); exact E|apply (f_equal (fun z => / 2 * lambda * z)); apply decay]|].
    rewrite total_usum. cbn [Nat.add]. unfold Rdiv. ring.
  Qed.
  Lemma evaluate_batch_ok par start b : (forall i, (i < b)%nat -> (labels (start + i)%nat < classes)%nat) ->
    evaluate_batch s par start b =
    if (classes =? width)%nat then
      Some (objective start b par + lambda / 2 *
        (accu classes width (fun k j => usum classes (fun a => par k a * par a j)) - square_norm rows classes intercept par))
    else None.
  Proof.
    intros L. unfold evaluate_batch, SoftmaxSpec.objective. rewrite nf. cbn [construct sm_classes sm_truth sm_lambda].
    destruct (classes =? width)%nat; [|reflexivity]. f_equal. cbv zeta.
    etransitivity; [apply (f_equal2 Rplus); [apply (f_equal (fun z => - (z / INR b))); exact (likelihood par start b L)|reflexivity]|].
    rewrite total_usum. unfold Rdiv. ring.
  Qed.

  Lemma gradient_ok par start b k j : gradient_batch s par start b k j = G data rows labels classes lambda intercept start b par k j.
  Proof.
    assert (E : forall f : nat -> R, (forall i, f i = feature (start + i) j) ->
      grad_col s (fun k i => probabilities s par start k i - ground_truth labels k (start + i)%nat) b par j f k = G data rows labels classes lambda intercept start b par k j).
    { intros f F. unfold grad_col, G. cbn [construct sm_lambda]. apply (f_equal (fun z => z / INR b + lambda * par k j)). apply usum_ext. intros i _. rewrite prob_eq, F. reflexivity. }
    unfold gradient_batch. cbn [construct sm_intercept sm_truth sm_data]. unfold SoftmaxSpec.feature in E.
    destruct intercept; [destruct j as [|j]|]; apply E; intros i; reflexivity.
  Qed.

  Lemma partial_ok par j : intercept = false -> (j < rows)%nat ->
    exists g, partial_gradient s par j = Some g /\
      forall k c, g k c = if (c =? j)%nat then gradient s par k c else 0.
  Proof.
    intros I J. unfold partial_gradient, gradient, gradient_batch. cbn [construct sm_intercept sm_rows sm_data sm_truth sm_cols]. rewrite I. cbn [andb].
    apply Nat.ltb_lt in J. rewrite J. eexists. split; [reflexivity|]. intros k c. cbn beta. destruct (Nat.eqb_spec c j) as [->|]; reflexivity.
  Qed.
  Lemma partial_intercept par j : intercept = true -> (0 < rows)%nat ->
    (partial_gradient s par rows = None) /\
    ((1 <= j < rows)%nat -> exists g, partial_gradient s par j = Some g /\
      forall k, g k j = usum cols (fun i => (P data rows classes intercept par k i - truth labels k i) * data j i) / INR cols + lambda * par k j).
  Proof.
    intros I R0. unfold partial_gradient. cbn [construct sm_intercept sm_rows sm_data sm_truth sm_cols]. rewrite I. cbn [andb]. split.
    - destruct (Nat.eqb_spec rows 0); [lia|]. rewrite Nat.ltb_irrefl. reflexivity.
    - intros [J1 J2]. destruct (Nat.eqb_spec j 0); [lia|]. apply Nat.ltb_lt in J2. rewrite J2. eexists. split; [reflexivity|].
      intros k. cbn beta. rewrite Nat.eqb_refl. unfold grad_col. cbn [construct sm_lambda]. apply (f_equal (fun z => z / INR cols + lambda * par k j)). apply usum_ext. intros i _.
      rewrite <- I. rewrite (prob_eq par 0 k i). reflexivity.
  Qed.

  Lemma shuffle_throws ord rev : (classes < cols)%nat -> (forall i, (i < cols)%nat -> (ord i < cols)%nat /\ rev (ord i) = i) ->
    shuffle s labels ord rev = None.
  Proof.
    intros C O. unfold shuffle. cbn [construct sm_classes sm_cols]. destruct (forallb _ _) eqn:F; [|reflexivity]. exfalso.
    rewrite forallb_forall in F. destruct (O (cols - 1)%nat ltac:(lia)) as [O1 O2].
    specialize (F (ord (cols - 1)%nat) ltac:(apply in_seq; lia)). apply andb_prop in F. destruct F as [F _]. apply Nat.ltb_lt in F. lia.
  Qed.
End Model.

Section Facts.
  Variables (data : mat) (rows cols : nat) (labels : nat -> nat) (classes : nat) (lambda : R) (intercept : bool).
  Hypothesis CP : (0 < classes)%nat.
  Notation s := (construct data rows cols labels classes lambda intercept).
  Notation objective := (objective data rows labels classes lambda intercept).
  Hypothesis LB : forall i, (i < cols)%nat -> (labels i < classes)%nat.

  Lemma gradient_of_evaluate par k j : (k < classes)%nat -> (j < num_features s)%nat ->
    derivable_pt_lim (fun v => evaluate s (put par k j v)) (par k j) (gradient s par k j).
  Proof.
    intros K J. apply deriv_ext with (fun v => objective 0 cols (put par k j v)).
    { intros v. symmetry. apply evaluate_ok; assumption. }
    unfold gradient. rewrite gradient_ok. apply objective_deriv; assumption.
  Qed.
  Lemma gradient_of_batch par start b k j : (k < classes)%nat -> (j < num_features s)%nat ->
    derivable_pt_lim (fun v => objective start b (put par k j v)) (par k j) (gradient_batch s par start b k j).
  Proof. intros K J. rewrite gradient_ok. apply objective_deriv; assumption. Qed.

  Lemma evaluate_convex par q : (0 < cols)%nat ->
    evaluate s q >= evaluate s par + inner_product classes (num_features s) (gradient s par) (fun k j => q k j - par k j)
      + lambda / 2 * square_norm rows classes intercept (fun k j => q k j - par k j).
  Proof.
    intros CN. rewrite !evaluate_ok by assumption.
    eapply Rge_trans; [apply (objective_convex data rows labels classes lambda intercept CP 0 cols par q CN LB)|]. right. f_equal. f_equal.
    unfold inner_product. rewrite !total_usum. apply usum_ext. intros k _. rewrite !total_usum. apply usum_ext. intros j _.
    unfold gradient. rewrite gradient_ok. reflexivity.
  Qed.
  Lemma stationary par q : (0 < cols)%nat -> 0 <= lambda ->
    (forall k j, (k < classes)%nat -> (j < num_features s)%nat -> gradient s par k j = 0) -> evaluate s par <= evaluate s q.
  Proof.
    intros CN LP Z0. pose proof (evaluate_convex par q CN) as C.
    assert (E : inner_product classes (num_features s) (gradient s par) (fun k j => q k j - par k j) = 0).
    { unfold inner_product. rewrite total_usum. rewrite <- (usum_0 classes). apply usum_ext. intros k K. rewrite total_usum, <- (usum_0 (num_features s)).
      apply usum_ext. intros j J. rewrite Z0 by assumption. ring. }
    rewrite E in C. assert (0 <= square_norm rows classes intercept (fun k j => q k j - par k j)).
    { unfold square_norm. rewrite total_usum, <- (usum_0 classes). apply usum_le. intros k _. rewrite total_usum, <- (usum_0 (width rows intercept)).
      apply usum_le. intros j _. apply Rle_0_sqr. }
    assert (0 <= lambda / 2 * square_norm rows classes intercept (fun k j => q k j - par k j)) by (apply Rmult_le_pos; lra). lra.
  Qed.

  Lemma probabilities_ok par start i :
    (forall k, 0 < probabilities s par start k i) /\ total classes (fun k => probabilities s par start k i) = 1.
  Proof.
    split; [intros k; rewrite prob_eq; apply P_pos; exact CP|]. rewrite total_usum.
    rewrite <- (P_sum data rows classes intercept CP par (start + i)). apply usum_ext. intros. apply prob_eq.
  Qed.

  Lemma loss_nonneg par i : (labels i < classes)%nat -> 0 <= loss data rows labels classes intercept par i.
  Proof.
    intros L. unfold loss. rewrite total_usum.
    assert (PP : 0 < P data rows classes intercept par (labels i) i <= 1).
    { split; [apply P_pos; exact CP|]. rewrite <- (P_sum data rows classes intercept CP par i).
      apply Rle_trans with (usum classes (fun k => if (k =? labels i)%nat then P data rows classes intercept par k i else 0)).
      - rewrite usum_pick. apply Nat.ltb_lt in L. rewrite L. lra.
      - apply usum_le. intros k _. pose proof (P_pos data rows classes intercept CP par k i). destruct (k =? labels i)%nat; lra. }
    fold (Z data rows classes intercept par i). fold (P data rows classes intercept par (labels i) i).
    destruct PP as [P1 [P2|P2]]; [pose proof (ln_increasing _ _ P1 P2); rewrite ln_1 in *; lra|rewrite P2, ln_1; lra].
  Qed.

  Lemma evaluate_nonneg par : (0 < cols)%nat -> 0 <= lambda -> 0 <= evaluate s par.
  Proof.
    intros CN LP. rewrite evaluate_ok by assumption. unfold SoftmaxSpec.objective. rewrite total_usum.
    assert (0 <= usum cols (fun i => loss data rows labels classes intercept par (0 + i))).
    { rewrite <- (usum_0 cols). apply usum_le. intros i I. apply loss_nonneg. apply LB. exact I. }
    assert (0 <= square_norm rows classes intercept par).
    { unfold square_norm. rewrite total_usum, <- (usum_0 classes). apply usum_le. intros k _. rewrite total_usum, <- (usum_0 (width rows intercept)).
      apply usum_le. intros j _. apply Rle_0_sqr. }
    apply Rplus_le_le_0_compat; apply Rmult_le_pos; try lra. left. apply Rinv_0_lt_compat, lt_0_INR. exact CN.
  Qed.

  (** the objectives of the single samples add up to [cols] times the whole *)
  Lemma singles par : (0 < cols)%nat -> total cols (fun i => objective i 1 par) = INR cols * evaluate s par.
  Proof.
    intros CN. rewrite evaluate_ok by assumption. assert (0 < INR cols) by (apply lt_0_INR; exact CN).
    unfold SoftmaxSpec.objective. rewrite !total_usum.
    rewrite (usum_ext cols _ (fun i => loss data rows labels classes intercept par i + lambda / 2 * square_norm rows classes intercept par)).
    - rewrite usum_plus, usum_const.
      change (usum cols (fun i => loss data rows labels classes intercept par (0 + i))) with (usum cols (loss data rows labels classes intercept par)).
      change (usum cols (fun i => loss data rows labels classes intercept par i)) with (usum cols (loss data rows labels classes intercept par)).
      field. lra.
    - intros i _. rewrite total_usum. cbn [usum INR]. rewrite Nat.add_0_r. rewrite Rplus_0_l. unfold Rdiv at 1. rewrite Rinv_1, Rmult_1_r. reflexivity.
  Qed.
End Facts.
