(** The coordinate-wise update policies in changed coordinates. *)
From Coq Require Import List Arith Bool Reals Lra Lia.
From Verif.Base Require Import Num Instances.
From Verif.Model Require Import Updates.
From Verif.Spec Require Import InvarianceSpec.
Import ListNotations.
Local Open Scope R_scope.

(** one step at a time *)
Lemma follows_sim {S : Type} (up up' : S -> R -> R -> R -> S * R) s0 (ok : R -> Prop) (eta : R -> R) k (RS : R -> R -> S -> S -> Prop) :
  (forall sg c, RS sg c s0 s0) ->
  (forall sg c s s' x h g, sg * sg = 1 -> ok h -> RS sg c s s' ->
    RS sg c (fst (up s x h g)) (fst (up' s' (sg * x + c) (eta h) (sg * k * g))) /\
    snd (up' s' (sg * x + c) (eta h) (sg * k * g)) = sg * snd (up s x h g) + c) ->
  follows up up' s0 ok eta k.
Proof.
  intros H0 H mx sg c x0 l SG F.
  assert (K : forall s s' x x', RS sg c s s' -> x' = sg * x + c ->
    snd (run (N := RNum mx) up' s' x' (map (fun hg : R * R => (eta (fst hg), sg * k * snd hg)) l)) = sg * snd (run (N := RNum mx) up s x l) + c).
  { induction l as [|[h g] l IH]; intros s s' x x' Q X; [exact X|].
    unfold run. cbn [map fold_left fst snd]. inversion F as [|y ys Fy Fl]; subst.
    destruct (H sg c s s' x h g SG Fy Q) as [A B].
    change (snd (run (N := RNum mx) up' (fst (up' s' (sg * x + c) (eta h) (sg * k * g))) (snd (up' s' (sg * x + c) (eta h) (sg * k * g))) (map (fun hg : R * R => (eta (fst hg), sg * k * snd hg)) l))
            = sg * snd (run (N := RNum mx) up (fst (up s x h g)) (snd (up s x h g)) l) + c) || idtac.
    destruct (up s x h g) as [s1 x1], (up' s' (sg * x + c) (eta h) (sg * k * g)) as [s1' x1']. cbn [fst snd] in *.
    exact (IH Fl s1 s1' x1 x1' A B). }
  exact (K s0 s0 x0 (sg * x0 + c) (H0 sg c) eq_refl).
Qed.

Lemma sqrt_scale k v : 0 < k -> sqrt (k * k * v) = k * sqrt v.
Proof. intros H. rewrite sqrt_mult_alt by nra. rewrite sqrt_square by lra. reflexivity. Qed.
Lemma square_turn sg k g : sg * sg = 1 -> (sg * k * g) * (sg * k * g) = k * k * (g * g).
Proof. intros H. replace (sg * k * g * (sg * k * g)) with (sg * sg * (k * k * (g * g))) by ring. rewrite H. ring. Qed.
Lemma abs_turn sg k g : sg * sg = 1 -> 0 < k -> Rabs (sg * k * g) = k * Rabs g.
Proof.
  intros H K. rewrite !Rabs_mult. rewrite (Rabs_pos_eq k) by lra.
  assert (A : Rabs sg = 1). { assert (Q : (sg - 1) * (sg + 1) = 0) by lra. apply Rmult_integral in Q as [Q|Q]; unfold Rabs; destruct (Rcase_abs sg); lra. }
  rewrite A. lra.
Qed.
(** a quotient whose numerator and denominator both grow by k *)
Lemma ratio_turn a sg k m d : 0 < k -> a * (sg * k * m) / (k * d) = sg * (a * m / d).
Proof. intros K. unfold Rdiv. rewrite Rinv_mult. generalize (/ d). intros i. field. lra. Qed.

Section P.
  Variable mx : R.
  Notation RN := (RNum mx).
  Variables (pw : R -> nat -> R) (rpw : R -> R -> R) (k : R).
  Hypothesis HK : 0 < k.
  Notation any := (fun _ : R => True).
  Notation same := (fun h : R => h).
  Notation less := (fun h : R => h / k).
  Notation adam_t := (adam_st (N := RN)).

  Lemma emax_scale a b : emax (N := RN) (k * a) (k * b) = k * emax (N := RN) a b.
  Proof. unfold emax. cbn. destruct (Rltb_spec (k * a) (k * b)), (Rltb_spec a b); try reflexivity; nra. Qed.
  Lemma emax_scale2 a b : emax (N := RN) (k * k * a) (k * k * b) = k * k * emax (N := RN) a b.
  Proof. unfold emax. cbn. assert (0 < k * k) by nra. destruct (Rltb_spec (k * k * a) (k * k * b)), (Rltb_spec a b); try reflexivity; nra. Qed.
  Lemma esign_scale a : esign (N := RN) (k * k * a) = esign (N := RN) a.
  Proof.
    unfold esign. cbn. assert (0 < k * k) by nra.
    destruct (Rltb_spec 0 (k * k * a)), (Rltb_spec 0 a), (Rltb_spec (k * k * a) 0), (Rltb_spec a 0); try reflexivity; nra.
  Qed.

  Lemma vanilla_follows : follows (vanilla_up (N := RN)) (vanilla_up (N := RN)) tt any less k.
  Proof.
    apply (follows_sim _ _ _ _ _ _ (fun _ _ _ _ => True)); [auto|]. intros sg c s s' x h g SG _ _. split; [exact Logic.I|]. cbn. field. lra.
  Qed.
  Lemma momentum_follows mu : follows (momentum_up (N := RN) mu) (momentum_up (N := RN) mu) 0 any less k.
  Proof.
    apply (follows_sim _ _ _ _ _ _ (fun sg _ s s' => s' = sg * s)); [intros; ring|]. intros sg c s s' x h g SG _ ->. cbn. split; field; lra.
  Qed.
  Lemma nesterov_follows mu : follows (nesterov_up (N := RN) mu) (nesterov_up (N := RN) mu) 0 any less k.
  Proof.
    apply (follows_sim _ _ _ _ _ _ (fun sg _ s s' => s' = sg * s)); [intros; ring|]. intros sg c s s' x h g SG _ ->. cbn. split; field; lra.
  Qed.
  Lemma qh_follows mu nu : follows (qh_up (N := RN) mu nu) (qh_up (N := RN) mu nu) 0 any less k.
  Proof.
    apply (follows_sim _ _ _ _ _ _ (fun sg _ s s' => s' = sg * k * s)); [intros; ring|]. intros sg c s s' x h g SG _ ->. cbn. split; field; lra.
  Qed.

  (** first moment turned, second scaled twice, third as given *)
  Definition adam_rel (third : R -> R -> R -> Prop) (sg _ : R) (s s' : adam_t) : Prop :=
    (a_m s' : R) = sg * k * a_m s /\ (a_v s' : R) = k * k * a_v s /\ third sg (a_w s) (a_w s') /\ a_t s' = a_t s.
  Lemma adam_rel0 (third : R -> R -> R -> Prop) : (forall sg, third sg 0 0) -> forall sg c, adam_rel third sg c adam_init adam_init.
  Proof. intros H sg c. unfold adam_rel. cbn. repeat split; [ring|ring|apply H]. Qed.

  Ltac start third := apply (follows_sim _ _ _ _ _ _ (adam_rel third)); [apply adam_rel0; intros; cbn; try ring|];
    intros sg c s s' x h g SG _ (M & V & W & A); destruct s as [m v w t], s' as [m' v' w' t']; cbn in M, V, W, A; subst m' v' t'.
  Ltac rel := unfold adam_rel; cbn [a_m a_v a_w a_t fst snd]; repeat split.

  Lemma adam_follows eps b1 b2 : follows (adam_up (N := RN) pw eps b1 b2) (adam_up (N := RN) pw (k * eps) b1 b2) adam_init any same k.
  Proof.
    start (fun _ w w' : R => w' = w). subst w'. cbn.
    assert (V : k * k * v * b2 + (1 - b2) * (sg * k * g * (sg * k * g)) = k * k * (v * b2 + (1 - b2) * (g * g))) by (rewrite square_turn by exact SG; ring).
    rewrite V, sqrt_scale by exact HK. split; [rel; ring|].
    replace (sg * k * m * b1 + (1 - b1) * (sg * k * g)) with (sg * k * (m * b1 + (1 - b1) * g)) by ring.
    rewrite <- Rmult_plus_distr_l, ratio_turn by exact HK. ring.
  Qed.
  Lemma amsgrad_follows eps b1 b2 : follows (amsgrad_up (N := RN) pw eps b1 b2) (amsgrad_up (N := RN) pw (k * eps) b1 b2) adam_init any same k.
  Proof.
    start (fun _ w w' : R => w' = k * k * w). subst w'. cbn.
    assert (V : k * k * v * b2 + (1 - b2) * (sg * k * g * (sg * k * g)) = k * k * (v * b2 + (1 - b2) * (g * g))) by (rewrite square_turn by exact SG; ring).
    rewrite V, emax_scale2, sqrt_scale by exact HK. split; [rel; ring|].
    replace (sg * k * m * b1 + (1 - b1) * (sg * k * g)) with (sg * k * (m * b1 + (1 - b1) * g)) by ring.
    rewrite <- Rmult_plus_distr_l, ratio_turn by exact HK. ring.
  Qed.
  Lemma optimistic_follows eps b1 b2 : follows (optimistic_up (N := RN) pw eps b1 b2) (optimistic_up (N := RN) pw (k * eps) b1 b2) adam_init any same k.
  Proof.
    start (fun sg w w' : R => w' = sg * w). subst w'. cbn.
    assert (V : k * k * v * b2 + (1 - b2) * (sg * k * g * (sg * k * g)) = k * k * (v * b2 + (1 - b2) * (g * g))) by (rewrite square_turn by exact SG; ring).
    rewrite V. replace (k * k * (v * b2 + (1 - b2) * (g * g)) / (1 - pw b2 (S t))) with (k * k * ((v * b2 + (1 - b2) * (g * g)) / (1 - pw b2 (S t)))) by (unfold Rdiv; ring).
    rewrite sqrt_scale by exact HK.
    assert (U : (sg * k * m * b1 + (1 - b1) * (sg * k * g)) / (1 - pw b1 (S t)) / (k * sqrt ((v * b2 + (1 - b2) * (g * g)) / (1 - pw b2 (S t))) + k * eps)
                = sg * ((m * b1 + (1 - b1) * g) / (1 - pw b1 (S t)) / (sqrt ((v * b2 + (1 - b2) * (g * g)) / (1 - pw b2 (S t))) + eps))).
    { rewrite <- Rmult_plus_distr_l. unfold Rdiv. rewrite Rinv_mult. set (i := / (_ + eps)). set (j := / (1 - _)). field. lra. }
    rewrite U. split; [rel; ring|]. ring.
  Qed.
  Lemma yogi_follows eps b1 b2 : follows (yogi_up (N := RN) eps b1 b2) (yogi_up (N := RN) (k * eps) b1 b2) adam_init any same k.
  Proof.
    start (fun _ w w' : R => w' = w). subst w'. cbn. rewrite square_turn by exact SG.
    replace (k * k * v - k * k * (g * g)) with (k * k * (v - g * g)) by ring. rewrite esign_scale.
    set (e := esign _).
    replace (k * k * v - (1 - b2) * e * (k * k * (g * g))) with (k * k * (v - (1 - b2) * e * (g * g))) by ring.
    rewrite sqrt_scale by exact HK. split; [rel; ring|].
    replace (sg * k * m * b1 + (1 - b1) * (sg * k * g)) with (sg * k * (m * b1 + (1 - b1) * g)) by ring.
    rewrite <- Rmult_plus_distr_l, ratio_turn by exact HK. ring.
  Qed.
  Lemma qhadam_follows eps b1 b2 v1 v2 : follows (qhadam_up (N := RN) pw eps b1 b2 v1 v2) (qhadam_up (N := RN) pw (k * eps) b1 b2 v1 v2) adam_init any same k.
  Proof.
    start (fun _ w w' : R => w' = w). subst w'. cbn. rewrite square_turn by exact SG.
    assert (V : k * k * v * b2 + (1 - b2) * (k * k * (g * g)) = k * k * (v * b2 + (1 - b2) * (g * g))) by ring.
    rewrite V. set (q := v * b2 + (1 - b2) * (g * g)).
    replace ((1 - v2) * (k * k * (g * g)) + v2 * (k * k * q / (1 - pw b2 (S t)))) with (k * k * ((1 - v2) * (g * g) + v2 * (q / (1 - pw b2 (S t))))) by (unfold Rdiv; ring).
    rewrite sqrt_scale by exact HK. split; [rel; ring|].
    rewrite <- Rmult_plus_distr_l. unfold Rdiv. rewrite Rinv_mult. set (i := / (_ + eps)). set (j := / (1 - pw b1 _)). field. lra.
  Qed.
  Lemma nadam_follows eps b1 b2 sd : follows (nadam_up (N := RN) pw rpw eps b1 b2 sd) (nadam_up (N := RN) pw rpw (k * eps) b1 b2 sd) nadam_init any same k.
  Proof.
    apply (follows_sim _ _ _ _ _ _ (adam_rel (fun _ w w' : R => w' = w))); [intros; unfold adam_rel; cbn; repeat split; ring|].
    intros sg c s s' x h g SG _ (M & V & W & A); destruct s as [m v w t], s' as [m' v' w' t']; cbn [a_m a_v a_w a_t] in M, V, W, A; subst m' v' t' w'.
    unfold nadam_up. cbn [a_m a_v a_w a_t fst snd nadd nsub nmul ndiv nsqrt n1 RNum].
    set (p := nadam_beta (N := RN) rpw b1 sd (S t)). set (q := nadam_beta (N := RN) rpw b1 sd (S (S t))). set (z := pw b2 (S t)).
    clearbody p q z. cbn in p, q.
    assert (V : k * k * v * b2 + (1 - b2) * (sg * k * g) * (sg * k * g) = k * k * (v * b2 + (1 - b2) * g * g)).
    { replace ((1 - b2) * (sg * k * g) * (sg * k * g)) with ((1 - b2) * (sg * k * g * (sg * k * g))) by ring. rewrite square_turn by exact SG. ring. }
    split.
    - unfold adam_rel. cbn [a_m a_v a_w a_t]. split; [ring|]. split; [exact V|]. split; reflexivity.
    - rewrite V, sqrt_scale by exact HK. rewrite <- Rmult_plus_distr_l. unfold Rdiv. rewrite Rinv_mult.
      generalize (/ (sqrt (v * b2 + (1 - b2) * g * g) + eps)) (/ (1 - w * p)) (/ (1 - w * p * q)). intros i j l. field. lra.
  Qed.

  (** the maximum norm: scaled once *)
  Definition max_rel (sg _ : R) (s s' : adam_t) : Prop :=
    (a_m s' : R) = sg * k * a_m s /\ (a_v s' : R) = k * a_v s /\ a_w s' = a_w s /\ a_t s' = a_t s.
  Lemma adamax_follows eps b1 b2 : follows (adamax_up (N := RN) pw eps b1 b2) (adamax_up (N := RN) pw (k * eps) b1 b2) adam_init any same k.
  Proof.
    apply (follows_sim _ _ _ _ _ _ max_rel); [intros; unfold max_rel; cbn; repeat split; ring|].
    intros sg c s s' x h g SG _ (M & V & W & A); destruct s as [m v w t], s' as [m' v' w' t']; cbn in M, V, W, A; subst m' v' t' w'.
    unfold adamax_up. cbn [a_m a_v a_w a_t fst snd nadd nsub nmul ndiv nabs neq n0 n1 RNum].
    rewrite abs_turn by assumption. replace (k * v * b2) with (k * (v * b2)) by ring. rewrite emax_scale.
    set (u := emax (N := RN) (v * b2) (Rabs g)). clearbody u. cbn in u.
    split; [unfold max_rel; cbn; repeat split; ring|].
    destruct (negb _); [|reflexivity].
    rewrite <- Rmult_plus_distr_l. unfold Rdiv. rewrite Rinv_mult. generalize (/ (u + eps)) (/ (1 - pw b1 (S t))). intros i j. field. lra.
  Qed.
  Lemma nadamax_follows eps b1 b2 sd : follows (nadamax_up (N := RN) rpw eps b1 b2 sd) (nadamax_up (N := RN) rpw (k * eps) b1 b2 sd) nadam_init any same k.
  Proof.
    apply (follows_sim _ _ _ _ _ _ max_rel); [intros; unfold max_rel; cbn; repeat split; ring|].
    intros sg c s s' x h g SG _ (M & V & W & A); destruct s as [m v w t], s' as [m' v' w' t']; cbn [a_m a_v a_w a_t] in M, V, W, A; subst m' v' t' w'.
    unfold nadamax_up. cbn [a_m a_v a_w a_t fst snd nadd nsub nmul ndiv nabs neq n0 n1 RNum].
    set (p := nadam_beta (N := RN) rpw b1 sd (S t)). set (q := nadam_beta (N := RN) rpw b1 sd (S (S t))). clearbody p q. cbn in p, q.
    rewrite abs_turn by assumption. replace (k * v * b2) with (k * (v * b2)) by ring. rewrite emax_scale.
    set (u := emax (N := RN) (v * b2) (Rabs g)). clearbody u. cbn in u.
    split; [unfold max_rel; cbn; repeat split; ring|].
    destruct (negb _ && negb _)%bool; [|reflexivity].
    rewrite <- Rmult_plus_distr_l. unfold Rdiv. rewrite Rinv_mult. generalize (/ (u + eps)) (/ (1 - w * p)) (/ (1 - w * p * q)). intros i j l. field. lra.
  Qed.

  Lemma adagrad_follows eps : follows (adagrad_up (N := RN) eps) (adagrad_up (N := RN) (k * eps)) 0 any same k.
  Proof.
    apply (follows_sim _ _ _ _ _ _ (fun _ _ s s' => s' = k * k * s)); [intros; ring|]. intros sg c s s' x h g SG _ ->. cbn.
    rewrite square_turn by exact SG. rewrite <- Rmult_plus_distr_l, sqrt_scale by exact HK. split; [reflexivity|].
    rewrite <- Rmult_plus_distr_l, ratio_turn by exact HK. ring.
  Qed.
  Lemma rmsprop_follows eps alpha : follows (rmsprop_up (N := RN) eps alpha) (rmsprop_up (N := RN) (k * eps) alpha) 0 any same k.
  Proof.
    apply (follows_sim _ _ _ _ _ _ (fun _ _ s s' => s' = k * k * s)); [intros; ring|]. intros sg c s s' x h g SG _ ->. cbn.
    rewrite square_turn by exact SG. replace (k * k * s * alpha + (1 - alpha) * (k * k * (g * g))) with (k * k * (s * alpha + (1 - alpha) * (g * g))) by ring.
    rewrite sqrt_scale by exact HK. split; [reflexivity|]. rewrite <- Rmult_plus_distr_l, ratio_turn by exact HK. ring.
  Qed.
  (** AdaSqrt divides by the sum of squares itself *)
  Lemma adasqrt_follows eps : follows (adasqrt_up (N := RN) eps) (adasqrt_up (N := RN) (k * k * eps)) (0, 0%nat) any (fun h => k * h) k.
  Proof.
    apply (follows_sim _ _ _ _ _ _ (fun _ _ (s s' : R * nat) => fst s' = k * k * fst s /\ snd s' = snd s)); [intros; cbn; split; [ring|reflexivity]|].
    intros sg c [q t] [q' t'] x h g SG _ [A B]. cbn [fst snd] in A, B. subst q' t'. unfold adasqrt_up. cbn [fst snd nadd nsub nmul ndiv nsqrt RNum].
    rewrite square_turn by exact SG. split; [split; [ring|reflexivity]|].
    replace (k * k * q + k * k * (g * g) + k * k * eps) with (k * k * (q + g * g + eps)) by ring.
    unfold Rdiv. rewrite !Rinv_mult. generalize (/ (q + g * g + eps)). intros i. field. lra.
  Qed.
  (** AdaBound, AMSBound: the bounds are on the rate, so they shrink with the factor *)
  Lemma bound_follows ams lr gamma eps b1 b2 :
    follows (bound_up (N := RN) pw ams lr gamma eps b1 b2) (bound_up (N := RN) pw ams (lr / k) gamma (k * eps) b1 b2) bound_init any same k.
  Proof.
    apply (follows_sim _ _ _ _ _ _ (fun sg _ (s s' : bound_st (N := RN)) =>
      (b_m s' : R) = sg * k * b_m s /\ (b_v s' : R) = k * k * b_v s /\ (b_w s' : R) = k * k * b_w s /\ b_h0 s' = b_h0 s /\ b_t s' = b_t s));
      [intros; cbn; repeat split; ring|].
    intros sg c [m v w h0 t] [m' v' w' h0' t'] x h g SG _ (M & V & W & A & B). cbn [b_m b_v b_w b_h0 b_t] in M, V, W, A, B. subst m' v' w' h0' t'.
    unfold bound_up. cbn [b_m b_v b_w b_h0 b_t fst snd nadd nsub nmul ndiv nsqrt n1 RNum].
    set (e0 := match h0 with Some h1 => h1 | None => h end).
    assert (V : k * k * v * b2 + (1 - b2) * (sg * k * g * (sg * k * g)) = k * k * (v * b2 + (1 - b2) * (g * g))) by (rewrite square_turn by exact SG; ring).
    rewrite V, emax_scale2. set (u := v * b2 + (1 - b2) * (g * g)).
    split; [repeat split; ring|].
    assert (Cl : forall lo hi a : R, eclamp (N := RN) (lo / k) (hi / k) (a / k) = eclamp (N := RN) lo hi a / k).
    { intros lo hi a. unfold eclamp. cbn. assert (I : 0 < / k) by (apply Rinv_0_lt_compat; exact HK). unfold Rdiv.
      destruct (Rltb_spec (a * / k) (lo * / k)) as [p|p], (Rltb_spec a lo) as [q|q]; try reflexivity; try (exfalso; nra).
      destruct (Rltb_spec (hi * / k) (a * / k)) as [p1|p1], (Rltb_spec hi a) as [q1|q1]; try reflexivity; exfalso; nra. }
    assert (Lo : @eq R (bound_lower (N := RN) (lr / k) gamma h e0 (S t)) (bound_lower (N := RN) lr gamma h e0 (S t) / k)).
    { unfold bound_lower. cbn [nadd nsub nmul ndiv n1 RNum]. unfold Rdiv. ring. }
    assert (Hi : @eq R (bound_upper (N := RN) (lr / k) gamma h e0 (S t)) (bound_upper (N := RN) lr gamma h e0 (S t) / k)).
    { unfold bound_upper. cbn [nadd nsub nmul ndiv n1 RNum]. unfold Rdiv. ring. }
    rewrite Lo, Hi.
    assert (Fin : forall y : R, sg * x + c - eclamp (N := RN) (bound_lower (N := RN) lr gamma h e0 (S t) / k) (bound_upper (N := RN) lr gamma h e0 (S t) / k)
        (h * sqrt (1 - pw b2 (S t)) / (1 - pw b1 (S t)) / (sqrt (k * k * y) + k * eps)) * (sg * k * m * b1 + (1 - b1) * (sg * k * g))
      = sg * (x - eclamp (N := RN) (bound_lower (N := RN) lr gamma h e0 (S t)) (bound_upper (N := RN) lr gamma h e0 (S t))
        (h * sqrt (1 - pw b2 (S t)) / (1 - pw b1 (S t)) / (sqrt y + eps)) * (m * b1 + (1 - b1) * g)) + c).
    { intros y. rewrite sqrt_scale by exact HK. rewrite <- Rmult_plus_distr_l. set (den := sqrt y + eps).
      replace (h * sqrt (1 - pw b2 (S t)) / (1 - pw b1 (S t)) / (k * den)) with (h * sqrt (1 - pw b2 (S t)) / (1 - pw b1 (S t)) / den / k) by (unfold Rdiv; rewrite (Rinv_mult k den); ring).
      rewrite Cl. set (r := eclamp (N := RN) _ _ _). clearbody r. cbn in r. field. lra. }
    destruct ams; apply Fin.
  Qed.

  (** FTML recomputes the iterate from its sums: the offset enters through them *)
  Lemma ftml_follows eps b1 b2 junk : 0 < eps -> (forall n, pw b1 n <> 1 \/ n = 0%nat) ->
    follows (ftml_up (N := RN) pw eps b1 b2) (ftml_up (N := RN) pw (k * eps) b1 b2) (ftml_init junk) (fun h => h <> 0) same k.
  Proof.
    intros EP HP.
    apply (follows_sim _ _ _ _ _ _ (fun sg c (s s' : ftml_st (N := RN)) =>
      (t_v s' : R) = k * k * t_v s /\ (t_d s' : R) = k * t_d s /\ (t_z s' : R) = sg * k * t_z s - k * t_d s * c /\ t_t s' = t_t s));
      [intros; cbn; repeat split; ring|].
    intros sg c [v z d t] [v' z' d' t'] x h g SG OH (V & D & Z & A). cbn [t_v t_z t_d t_t] in V, D, Z, A. subst v' d' z' t'.
    unfold ftml_up. cbn [t_v t_z t_d t_t fst snd nadd nsub nmul ndiv nopp nsqrt n1 RNum].
    assert (V : k * k * v * b2 + (1 - b2) * (sg * k * g * (sg * k * g)) = k * k * (v * b2 + (1 - b2) * (g * g))) by (rewrite square_turn by exact SG; ring).
    rewrite V. set (u := v * b2 + (1 - b2) * (g * g)).
    replace (k * k * u / (1 - pw b2 (S t))) with (k * k * (u / (1 - pw b2 (S t)))) by (unfold Rdiv; ring).
    rewrite sqrt_scale by exact HK. rewrite <- Rmult_plus_distr_l.
    set (w := sqrt (u / (1 - pw b2 (S t))) + eps). assert (WP : 0 < w) by (unfold w; pose proof (sqrt_pos (u / (1 - pw b2 (S t)))); lra).
    set (y := (1 - pw b1 (S t)) / h * w).
    assert (Y : y <> 0).
    { unfold y, Rdiv. destruct (HP (S t)) as [P|P]; [|discriminate]. repeat apply Rmult_integral_contrapositive_currified; [lra|now apply Rinv_neq_0_compat|lra]. }
    replace ((1 - pw b1 (S t)) / h * (k * w)) with (k * y) by (unfold y; ring).
    clearbody y w u. split; [repeat split; ring|]. field_simplify; [|lra|lra]. 
    match goal with |- ?a / _ = ?b / _ => replace a with (k * b) by (replace (sg * sg) with 1; ring) || idtac end.
    field. split; lra.
  Qed.
End P.

(** the policies with a constant that does not scale: signs and offsets only *)
Section P1.
  Variable mx : R.
  Notation RN := (RNum mx).
  Variables (pw : R -> nat -> R) (rpw : R -> R -> R).
  Notation any := (fun _ : R => True).
  Notation same := (fun h : R => h).
  Lemma square_turn1 sg g : sg * sg = 1 -> (sg * 1 * g) * (sg * 1 * g) = g * g.
  Proof. intros H. rewrite square_turn by exact H. ring. Qed.

  Lemma padam_follows eps b1 b2 partial : follows (padam_up (N := RN) pw rpw eps b1 b2 partial) (padam_up (N := RN) pw rpw eps b1 b2 partial) adam_init any same 1.
  Proof.
    apply (follows_sim _ _ _ _ _ _ (fun sg _ (s s' : adam_st (N := RN)) => (a_m s' : R) = sg * a_m s /\ a_v s' = a_v s /\ a_w s' = a_w s /\ a_t s' = a_t s));
      [intros; cbn; repeat split; ring|].
    intros sg c [m v w t] [m' v' w' t'] x h g SG _ (M & V & W & A). cbn in M, V, W, A. subst m' v' w' t'. cbn [padam_up a_m a_v a_w a_t fst snd].
    cbn. rewrite square_turn1 by exact SG. split; [repeat split; ring|]. unfold Rdiv. ring.
  Qed.
  Lemma adabelief_follows eps b1 b2 : follows (adabelief_up (N := RN) pw eps b1 b2) (adabelief_up (N := RN) pw eps b1 b2) adam_init any same 1.
  Proof.
    apply (follows_sim _ _ _ _ _ _ (fun sg _ (s s' : adam_st (N := RN)) => (a_m s' : R) = sg * a_m s /\ a_v s' = a_v s /\ a_w s' = a_w s /\ a_t s' = a_t s));
      [intros; cbn; repeat split; ring|].
    intros sg c [m v w t] [m' v' w' t'] x h g SG _ (M & V & W & A). cbn in M, V, W, A. subst m' v' w' t'. cbn.
    replace ((sg * 1 * g - (sg * m * b1 + (1 - b1) * (sg * 1 * g))) * (sg * 1 * g - (sg * m * b1 + (1 - b1) * (sg * 1 * g))))
      with (sg * sg * ((g - (m * b1 + (1 - b1) * g)) * (g - (m * b1 + (1 - b1) * g)))) by ring. rewrite SG, Rmult_1_l.
    split; [repeat split; ring|]. unfold Rdiv. ring.
  Qed.
  Lemma adadelta_follows rho eps : follows (adadelta_up (N := RN) rho eps) (adadelta_up (N := RN) rho eps) (0, 0) any same 1.
  Proof.
    apply (follows_sim _ _ _ _ _ _ (fun _ _ (s s' : R * R) => s' = s)); [reflexivity|].
    intros sg c [p q] s' x h g SG _ ->. cbn. rewrite square_turn1 by exact SG.
    set (r := sqrt _). replace (r * (sg * 1 * g) * (r * (sg * 1 * g))) with (sg * sg * (r * g * (r * g))) by ring. rewrite SG, Rmult_1_l.
    split; [reflexivity|]. ring.
  Qed.
  Lemma smorms3_follows eps : follows (smorms3_up (N := RN) eps) (smorms3_up (N := RN) eps) smorms_init any same 1.
  Proof.
    apply (follows_sim _ _ _ _ _ _ (fun sg _ (s s' : smorms_st (N := RN)) => m_mem s' = m_mem s /\ (m_g s' : R) = sg * m_g s /\ m_g2 s' = m_g2 s));
      [intros; cbn; repeat split; ring|].
    intros sg c [p q r] [p' q' r'] x h g SG _ (A & B & C). cbn in A, B, C. subst p' q' r'. cbn. rewrite square_turn1 by exact SG.
    set (i := 1 / (p + 1)).
    replace (((1 - i) * (sg * q) + i * (sg * 1 * g)) * ((1 - i) * (sg * q) + i * (sg * 1 * g))) with (sg * sg * (((1 - i) * q + i * g) * ((1 - i) * q + i * g))) by ring.
    rewrite SG, Rmult_1_l. split; [repeat split; ring|]. unfold Rdiv. ring.
  Qed.

  (** DemonSGD multiplies the iterate, so the origin matters *)
  Lemma demon_not_follows : exists c x0 l,
    snd (run (N := RN) (demon_sgd_up (N := RN) (1 / 2) 10) (tt, 0%nat) (x0 + c) l) <>
    snd (run (N := RN) (demon_sgd_up (N := RN) (1 / 2) 10) (tt, 0%nat) x0 l) + c.
  Proof. exists 1, 0, [(1, 0)]. cbn. lra. Qed.
End P1.
