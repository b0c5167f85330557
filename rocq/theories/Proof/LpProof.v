From Coq Require Import List Arith Bool Reals Lra Lia.
From Verif.Base Require Import Num Instances Vec.
From Verif.Model Require Import Common SA LpBall.
From Verif.Spec Require Import Gradient LpSpec FWSpec.
From Verif.Proof Require Import GradientProof SAProof.
Import ListNotations.
Local Open Scope R_scope.

(** ** Powers *)
Lemma powR_nonneg x y : 0 <= powR x y.
Proof. unfold powR. destruct (Rlt_dec 0 x); [|lra]. left. apply exp_pos. Qed.
Lemma powR_pos x y : 0 < x -> 0 < powR x y.
Proof. intros H. unfold powR. destruct (Rlt_dec 0 x); [apply exp_pos|lra]. Qed.
Lemma powR_0 y : powR 0 y = 0.
Proof. unfold powR. destruct (Rlt_dec 0 0); [lra|reflexivity]. Qed.
Lemma powR_1l y : powR 1 y = 1.
Proof. unfold powR. destruct (Rlt_dec 0 1); [|lra]. unfold Rpower. rewrite ln_1, Rmult_0_r. apply exp_0. Qed.
Lemma powR_1r x : 0 <= x -> powR x 1 = x.
Proof. intros H. unfold powR. destruct (Rlt_dec 0 x); [apply Rpower_1; assumption|lra]. Qed.
Lemma powR_powR x a b : powR (powR x a) b = powR x (a * b).
Proof.
  unfold powR at 2 3. destruct (Rlt_dec 0 x); [|apply powR_0].
  unfold powR. destruct (Rlt_dec 0 (Rpower x a)) as [|H]; [apply Rpower_mult|]. destruct H. apply exp_pos.
Qed.
Lemma powR_plus x a b : powR x a * powR x b = powR x (a + b).
Proof. unfold powR. destruct (Rlt_dec 0 x); [symmetry; apply Rpower_plus|lra]. Qed.
Lemma powR_mult x y a : 0 <= x -> 0 <= y -> powR (x * y) a = powR x a * powR y a.
Proof.
  intros X Y. destruct (Req_dec x 0) as [->|NX]; [rewrite Rmult_0_l, powR_0; lra|].
  destruct (Req_dec y 0) as [->|NY]; [rewrite Rmult_0_r, powR_0; lra|].
  assert (0 < x * y) by (apply Rmult_lt_0_compat; lra).
  unfold powR. destruct (Rlt_dec 0 x), (Rlt_dec 0 y), (Rlt_dec 0 (x * y)); try lra. symmetry. apply Rpower_mult_distr; assumption.
Qed.
Lemma powR_inv x a : 0 < x -> powR (/ x) a = / powR x a.
Proof.
  intros X. assert (0 < / x) by (apply Rinv_0_lt_compat; exact X).
  assert (E : powR (x * / x) a = powR x a * powR (/ x) a) by (apply powR_mult; lra).
  rewrite Rinv_r, powR_1l in E by lra. pose proof (powR_pos x a X). apply Rmult_eq_reg_l with (powR x a); [|lra].
  rewrite Rinv_r by lra. lra.
Qed.

Lemma exp_tangent a m : exp a >= exp m * (1 + (a - m)).
Proof.
  replace (exp a) with (exp m * exp (a - m)) by (rewrite <- exp_plus; f_equal; lra).
  apply Rle_ge, Rmult_le_compat_l; [left; apply exp_pos|]. pose proof (exp_ineq1_le (a - m)). lra.
Qed.
(** Young's inequality *)
Lemma young u w p q : 1 < p -> 1 / p + 1 / q = 1 -> 0 <= u -> 0 <= w -> u * w <= powR u p / p + powR w q / q.
Proof.
  intros P PQ U W.
  assert (IP : 0 < 1 / p) by (apply Rdiv_lt_0_compat; lra).
  assert (IP1 : 1 / p < 1). { apply Rmult_lt_reg_r with p; [lra|]. unfold Rdiv. rewrite Rmult_assoc, Rinv_l; lra. }
  assert (IQ : 0 < 1 / q) by lra.
  assert (NQ : q <> 0). { intros ->. unfold Rdiv in IQ. rewrite Rinv_0 in IQ. lra. }
  pose proof (powR_nonneg u p). pose proof (powR_nonneg w q).
  assert (NN : 0 <= powR u p / p + powR w q / q).
  { unfold Rdiv in *. rewrite Rmult_1_l in IP, IQ. apply Rplus_le_le_0_compat; apply Rmult_le_pos; lra. }
  destruct (Req_dec u 0) as [->|NU]; [lra|]. destruct (Req_dec w 0) as [->|NW]; [lra|].
  assert (U' : 0 < u) by lra. assert (W' : 0 < w) by lra.
  unfold powR. destruct (Rlt_dec 0 u); [|lra]. destruct (Rlt_dec 0 w); [|lra]. unfold Rpower.
  set (a := p * ln u). set (b := q * ln w).
  assert (UW : u * w = exp (a * (1 / p) + b * (1 / q))).
  { unfold a, b. replace (p * ln u * (1 / p) + q * ln w * (1 / q)) with (ln u + ln w) by (field; lra).
    rewrite exp_plus, !exp_ln by assumption. reflexivity. }
  rewrite UW. set (m := a * (1 / p) + b * (1 / q)).
  pose proof (exp_tangent a m) as TA. pose proof (exp_tangent b m) as TB. pose proof (exp_pos m) as EM.
  assert (S1 : exp a * (1 / p) + exp b * (1 / q) >= exp m).
  { assert (exp a * (1 / p) >= exp m * (1 + (a - m)) * (1 / p)) by (apply Rmult_ge_compat_r; lra).
    assert (exp b * (1 / q) >= exp m * (1 + (b - m)) * (1 / q)) by (apply Rmult_ge_compat_r; lra).
    assert (exp m * (1 + (a - m)) * (1 / p) + exp m * (1 + (b - m)) * (1 / q)
            = exp m * ((1 / p + 1 / q) * (1 - m) + m)) by (unfold m; ring).
    rewrite PQ in H3. replace (exp m * (1 * (1 - m) + m)) with (exp m) in H3 by ring. lra. }
  unfold Rdiv in *. rewrite Rmult_1_l in S1. rewrite Rmult_1_l in S1. lra.
Qed.

(** ** Signs *)
Lemma sign_abs mx x : nsign (N := RNum mx) x * x = Rabs x.
Proof.
  unfold nsign. cbn. destruct (Rltb_spec 0 x); [rewrite Rabs_pos_eq; lra|].
  destruct (Rltb_spec x 0); [rewrite Rabs_left; lra|]. assert (x = 0) by lra. subst. rewrite Rabs_R0. lra.
Qed.
Lemma abs_sign_le mx x : Rabs (nsign (N := RNum mx) x) <= 1.
Proof.
  unfold nsign. cbn. destruct (Rltb_spec 0 x); [rewrite Rabs_pos_eq; lra|].
  destruct (Rltb_spec x 0); [rewrite Rabs_Ropp, Rabs_pos_eq; lra|]. rewrite Rabs_R0. lra.
Qed.
Lemma abs_sign mx x : x <> 0 -> Rabs (nsign (N := RNum mx) x) = 1.
Proof.
  unfold nsign. cbn. intros H. destruct (Rltb_spec 0 x); [rewrite Rabs_pos_eq; lra|].
  destruct (Rltb_spec x 0); [rewrite Rabs_Ropp, Rabs_pos_eq; lra|]. lra.
Qed.

Definition pos (l : list R) : Prop := Forall (fun a => 0 < a) l.

(** weights 1 when there is no regularisation *)
Lemma by_lambda_weights mx lambda (v s : list R) : length s = length v ->
  by_lambda (N := RNum mx) lambda s = map2 Rdiv s (weights lambda v).
Proof.
  intros L. destruct lambda as [l|]; cbn; [reflexivity|]. revert v L.
  induction s as [|a s IH]; intros [|b v] L; try discriminate; cbn; [reflexivity|].
  f_equal; [field|]. apply IH. cbn in L. lia.
Qed.

(** ** p = infinity *)
Lemma inf_in_ball mx : forall (l v : list R), pos l -> length v = length l ->
  in_ball (mx := mx) PInf l (map2 Rdiv (map (fun x : R => - nsign (N := RNum mx) x) v) l).
Proof.
  intros l v PL L. split; [rewrite map2_length, map_length; cbn [T RNum] in *; lia|]. intros i a b A B.
  rewrite nth_error_map2, A in B. rewrite nth_error_map in B. destruct (nth_error v i) as [x|]; [|cbn in B; discriminate].
  cbn in B. injection B as <-. unfold pos in PL. rewrite Forall_forall in PL. pose proof (PL a (nth_error_In _ _ A)) as PA.
  replace (a * (- nsign (N := RNum mx) x / a)) with (- nsign (N := RNum mx) x) by (field; lra).
  rewrite Rabs_Ropp. apply abs_sign_le.
Qed.
Lemma inf_value mx : forall (l v : list R), pos l -> length v = length l ->
  dotR v (map2 Rdiv (map (fun x : R => - nsign (N := RNum mx) x) v) l) = - sumR (map2 (fun x a => Rabs x / a) v l).
Proof.
  induction l as [|a l IH]; intros [|x v] PL L; try discriminate; cbn [map map2 dotR sumR fold_right]; [lra|].
  apply Forall_cons_iff in PL. destruct PL as [PA PL]. rewrite IH by (cbn in L; auto; lia).
  unfold Rdiv. rewrite <- (sign_abs mx x). ring.
Qed.
Lemma inf_lower mx : forall (l v y : list R), pos l -> length v = length l -> in_ball (mx := mx) PInf l y ->
  - sumR (map2 (fun x a => Rabs x / a) v l) <= dotR v y.
Proof.
  induction l as [|a l IH]; intros [|x v] [|b y] PL L [LY H]; try discriminate; cbn [map map2 dotR sumR fold_right]; [lra|].
  apply Forall_cons_iff in PL. destruct PL as [PA PL].
  assert (IHy := IH v y PL ltac:(cbn in L; lia)).
  assert (K : - sumR (map2 (fun x a => Rabs x / a) v l) <= dotR v y).
  { apply IHy. split; [cbn in LY; lia|]. intros i a' b' A B. apply (H (S i)); assumption. }
  specialize (H O a b eq_refl eq_refl). rewrite Rabs_mult, (Rabs_pos_eq a) in H by lra.
  assert (- (Rabs x / a) <= x * b).
  { assert (B1 : Rabs b <= / a). { apply Rmult_le_reg_l with a; [exact PA|]. rewrite Rinv_r; lra. }
    assert (Rabs (x * b) <= Rabs x * / a). { rewrite Rabs_mult. apply Rmult_le_compat_l; [apply Rabs_pos|exact B1]. }
    pose proof (Rle_abs (- (x * b))). rewrite Rabs_Ropp in H1. unfold Rdiv. lra. }
  cbn in *. lra.
Qed.

(** ** 1 < p < infinity *)
Lemma conj_exp p q : p <> 0 -> q <> 0 -> 1 / p + 1 / q = 1 -> (q - 1) * p = q.
Proof.
  intros P Q H. assert (q + p = p * q).
  { replace (q + p) with ((1 / p + 1 / q) * (p * q)) by (field; auto). rewrite H. lra. }
  lra.
Qed.

Section Mid.
  Variables (mx p : R).
  Hypothesis P : 1 < p.
  Let q := 1 / (1 - 1 / p).
  Lemma pq : 1 / p + 1 / q = 1.
  Proof. unfold q. assert (1 - 1 / p <> 0). { intros H. assert (p = 1) by (apply Rmult_eq_reg_r with (1 / p); [field_simplify; lra|apply Rgt_not_eq, Rdiv_lt_0_compat; lra]). lra. }
    field. split; [lra|]. intros K. lra. Qed.
  Lemma ip : 0 < 1 / p < 1.
  Proof. split; [apply Rdiv_lt_0_compat; lra|]. apply Rmult_lt_reg_r with p; [lra|]. unfold Rdiv. rewrite Rmult_assoc, Rinv_l; lra. Qed.
  Lemma q_gt : 1 < q.
  Proof.
    unfold q. pose proof ip. apply Rmult_lt_reg_r with (1 - 1 / p); [lra|]. unfold Rdiv at 2. rewrite Rmult_assoc, Rinv_l by lra. lra.
  Qed.
  Lemma qp : (q - 1) * p = q.
  Proof. apply conj_exp; [lra|pose proof q_gt; lra|apply pq]. Qed.

  (** sum of w_j^q with w_j = |v_j / l_j| *)
  Definition wsum (v l : list R) : R := sumR (map2 (fun x a => powR (Rabs (x / a)) q) v l).
  Lemma wsum_nonneg : forall v l, 0 <= wsum v l.
  Proof. unfold wsum. induction v as [|x v IH]; intros [|a l]; cbn; try lra. pose proof (powR_nonneg (Rabs (x / a)) q). specialize (IH l). lra. Qed.

  Lemma mid_lower c : 0 < c -> forall l v y, pos l -> length v = length l -> length y = length l ->
    - c * (sumR (map2 (fun a b => powR (Rabs (a * b)) p) l y) / p + wsum v l / powR c q / q) <= dotR v y.
  Proof.
    intros C. pose proof q_gt as QG. induction l as [|a l IH]; intros [|x v] [|b y] PL L LY; try discriminate; unfold wsum; cbn [map map2 dotR sumR fold_right].
    - unfold Rdiv. rewrite !Rmult_0_l. lra.
    - apply Forall_cons_iff in PL. destruct PL as [PA PL].
      assert (K := IH v y PL ltac:(cbn in L; lia) ltac:(cbn in LY; lia)). unfold wsum in K.
      assert (Y := young (Rabs (a * b)) (Rabs (x / a) / c) p q P pq (Rabs_pos _)
                    (Rle_mult_inv_pos _ _ (Rabs_pos _) C)).
      assert (PC := powR_pos c q C).
      replace (powR (Rabs (x / a) / c) q) with (powR (Rabs (x / a)) q / powR c q) in Y.
      2: { unfold Rdiv at 3. rewrite powR_mult; [|apply Rabs_pos|left; apply Rinv_0_lt_compat; exact C].
           rewrite powR_inv by exact C. reflexivity. }
      assert (B : - (Rabs (a * b) * Rabs (x / a)) <= x * b).
      { rewrite <- Rabs_mult. replace (a * b * (x / a)) with (x * b) by (field; lra).
        pose proof (Rle_abs (- (x * b))). rewrite Rabs_Ropp in H. lra. }
      assert (Y' : Rabs (a * b) * Rabs (x / a) <= c * (powR (Rabs (a * b)) p / p + powR (Rabs (x / a)) q / powR c q / q)).
      { replace (Rabs (a * b) * Rabs (x / a)) with (c * (Rabs (a * b) * (Rabs (x / a) / c))) by (field; lra).
        apply Rmult_le_compat_l; lra. }
      set (s1 := sumR (map2 _ l y)) in *. set (s2 := sumR (map2 _ v l)) in *.
      replace (- c * ((powR (Rabs (a * b)) p + s1) / p + (powR (Rabs (x / a)) q + s2) / powR c q / q))
        with (- c * (s1 / p + s2 / powR c q / q) - c * (powR (Rabs (a * b)) p / p + powR (Rabs (x / a)) q / powR c q / q))
        by (field; repeat split; lra).
      lra.
  Qed.

  (** the vector t of the code, and its norm *)
  Notation tvec v l := (map2 (fun x y : R => - nsign (N := RNum mx) x * powR (Rabs y) (q - 1)) v (map2 Rdiv v l)).
  Lemma t_norm : forall v l, pos l -> length v = length l ->
    sumR (map (fun x => powR (Rabs x) p) (tvec v l)) = wsum v l.
  Proof.
    unfold wsum. induction v as [|x v IH]; intros [|a l] PL L; try discriminate; cbn [map map2 dotR sumR fold_right]; [reflexivity|].
    apply Forall_cons_iff in PL. destruct PL as [PA PL]. rewrite IH by (auto; cbn in L; lia). f_equal.
    rewrite Rabs_mult, Rabs_Ropp.
    destruct (Req_dec x 0) as [->|NX].
    - unfold Rdiv. rewrite Rmult_0_l, Rabs_R0, !powR_0, Rabs_R0, Rmult_0_r. apply powR_0.
    - rewrite abs_sign, Rmult_1_l by exact NX. rewrite (Rabs_pos_eq (powR _ _)) by apply powR_nonneg.
      rewrite powR_powR, qp. reflexivity.
  Qed.
  Lemma t_dot : forall v l n, pos l -> length v = length l -> n <> 0 ->
    dotR v (map2 Rdiv (map (fun x => x / n) (tvec v l)) l) = - wsum v l / n.
  Proof.
    unfold wsum. intros v l n. revert l. induction v as [|x v IH]; intros [|a l] PL L NZ; try discriminate; cbn [map map2 dotR sumR fold_right]; [unfold Rdiv; lra|].
    apply Forall_cons_iff in PL. destruct PL as [PA PL]. rewrite IH by (auto; cbn in L; lia).
    replace (powR (Rabs (x / a)) q) with (Rabs (x / a) * powR (Rabs (x / a)) (q - 1)).
    2: { rewrite <- (powR_1r (Rabs (x / a))) at 1 by apply Rabs_pos. rewrite powR_plus. f_equal. lra. }
    unfold Rdiv at 7. rewrite (Rabs_mult x), (Rabs_pos_eq (/ a)) by (left; apply Rinv_0_lt_compat; exact PA).
    rewrite <- (sign_abs mx x). field. split; lra.
  Qed.
  Lemma t_ball : forall v l n, pos l -> length v = length l -> 0 < n ->
    sumR (map2 (fun a b => powR (Rabs (a * b)) p) l (map2 Rdiv (map (fun x => x / n) (tvec v l)) l))
      = wsum v l / powR n p.
  Proof.
    intros v l n PL L NP. rewrite <- t_norm by assumption. assert (PN := powR_pos n p NP).
    revert l PL L. induction v as [|x v IH]; intros [|a l] PL L; try discriminate; cbn [map map2 dotR sumR fold_right]; [unfold Rdiv; lra|].
    apply Forall_cons_iff in PL. destruct PL as [PA PL]. rewrite IH by (auto; cbn in L; lia).
    set (t := - nsign (N := RNum mx) x * _).
    replace (a * (t / n / a)) with (t * / n) by (field; split; lra).
    rewrite Rabs_mult, (Rabs_pos_eq (/ n)) by (left; apply Rinv_0_lt_compat; exact NP).
    rewrite powR_mult by (try apply Rabs_pos; left; apply Rinv_0_lt_compat; exact NP).
    rewrite powR_inv by exact NP. field. lra.
  Qed.
  Lemma dot_zero : forall v l y, pos l -> length v = length l -> wsum v l = 0 -> dotR v y = 0.
  Proof.
    unfold wsum. induction v as [|x v IH]; intros [|a l] y PL L E; try discriminate; cbn [map map2 dotR sumR fold_right]; [reflexivity|].
    apply Forall_cons_iff in PL. destruct PL as [PA PL]. destruct y as [|b y]; [reflexivity|]. cbn in E.
    pose proof (powR_nonneg (Rabs (x / a)) q). pose proof (wsum_nonneg v l) as W. unfold wsum in W.
    rewrite (IH l y) by (auto; try (cbn in L; lia); lra).
    assert (E0 : powR (Rabs (x / a)) q = 0) by lra.
    destruct (Req_dec x 0) as [->|NX]; [lra|]. exfalso.
    assert (0 < Rabs (x / a)). { apply Rabs_pos_lt. intros K. apply NX. apply Rmult_eq_reg_r with (/ a); [unfold Rdiv in K; lra|]. apply Rinv_neq_0_compat. lra. }
    pose proof (powR_pos _ q H0). lra.
  Qed.

  Lemma mid_value v l : pos l -> length v = length l ->
    let n := powR (wsum v l) (1 / p) in
    let n' := if Reqb n 0 then 1 else n in
    dotR v (map2 Rdiv (map (fun x => x / n') (tvec v l)) l) = - powR (wsum v l) (1 / q).
  Proof.
    intros PL L n n'. pose proof (wsum_nonneg v l) as W. pose proof ip. pose proof q_gt as QG.
    destruct (Req_dec (wsum v l) 0) as [Z|NZ].
    - rewrite (dot_zero v l) by assumption. rewrite Z, powR_0. lra.
    - assert (NP : 0 < n) by (unfold n; apply powR_pos; lra).
      assert (E : n' = n) by (unfold n'; destruct (Reqb_spec n 0); lra).
      rewrite E, t_dot by (auto; lra). unfold Rdiv at 1.
      assert (powR (wsum v l) (1 / q) * n = wsum v l).
      { unfold n. rewrite powR_plus. replace (1 / q + 1 / p) with 1 by (pose proof pq; lra). apply powR_1r, W. }
      rewrite <- H0 at 1. field. lra.
  Qed.

  Lemma mid_ok v l : pos l -> length v = length l ->
    let n := powR (wsum v l) (1 / p) in
    let n' := if Reqb n 0 then 1 else n in
    let s := map2 Rdiv (map (fun x => x / n') (tvec v l)) l in
    in_ball (mx := mx) (PNum (N := RNum mx) p) l s /\
    forall y, in_ball (mx := mx) (PNum (N := RNum mx) p) l y -> dotR v s <= dotR v y.
  Proof.
    intros PL L n n' s. pose proof (wsum_nonneg v l) as W. pose proof ip. pose proof q_gt as QG.
    assert (LS : length s = length l). { unfold s. rewrite map2_length, map_length, map2_length, map2_length. lia. }
    destruct (Req_dec (wsum v l) 0) as [Z|NZ].
    - split; [|intros y _; rewrite !(dot_zero v l) by assumption; lra].
      split; [exact LS|]. cbn. assert (n = 0) by (unfold n; rewrite Z; apply powR_0).
      unfold s, n'. destruct (Reqb_spec n 0); [|contradiction]. rewrite t_ball by (auto; lra). rewrite Z. unfold Rdiv. lra.
    - assert (NP : 0 < n) by (unfold n; apply powR_pos; lra).
      assert (E : n' = n) by (unfold n'; destruct (Reqb_spec n 0); lra).
      unfold s. rewrite E. assert (NPP : powR n p = wsum v l).
      { unfold n. rewrite powR_powR. replace (1 / p * p) with 1 by (field; lra). apply powR_1r, W. }
      split.
      + split; [rewrite map2_length, map_length, map2_length, map2_length; lia|]. rewrite t_ball by auto. rewrite NPP.
        right. field. exact NZ.
      + intros y [LY BY]. cbn in BY. rewrite t_dot by (auto; lra).
        set (c := powR (wsum v l) (1 / q)). assert (C : 0 < c) by (apply powR_pos; lra).
        assert (CQ : powR c q = wsum v l).
        { unfold c. rewrite powR_powR. replace (1 / q * q) with 1 by (field; lra). apply powR_1r, W. }
        pose proof (mid_lower c C l v y PL L LY) as K. rewrite CQ in K.
        assert (CN : - wsum v l / n = - c).
        { unfold Rdiv. assert (c * n = wsum v l).
          { unfold c, n. rewrite powR_plus. replace (1 / q + 1 / p) with 1 by (pose proof pq; lra). apply powR_1r, W. }
          rewrite <- H0. field. lra. }
        rewrite CN. set (sy := sumR _) in *.
        assert (sy / p + wsum v l / wsum v l / q <= 1).
        { replace (wsum v l / wsum v l / q) with (1 / q) by (field; split; lra).
          assert (sy / p <= 1 / p) by (apply Rmult_le_compat_r; [left; apply Rinv_0_lt_compat; lra|lra]).
          pose proof pq. lra. }
        assert (- c * 1 <= - c * (sy / p + wsum v l / wsum v l / q)).
        { apply Rmult_le_compat_neg_l; lra. }
        lra.
  Qed.
End Mid.
