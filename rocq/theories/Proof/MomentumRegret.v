(** Regret of the momentum methods. *)
From Coq Require Import List Arith Bool Reals Lra Lia.
From Verif.Base Require Import Num Instances.
From Verif.Model Require Import Sgd Updates SgdPolicies.
From Verif.Spec Require Import SgdSpec Gradient ConvergeSpec RegretSpec.
From Verif.Proof Require Import SgdMore SmoothProof RegretProof.
Import ListNotations.
Local Open Scope R_scope.

(** ** One coordinate pays for itself, so the vector does *)
Section Lift.
  Variable mx : R.
  Notation RN := (RNum mx).
  Variables (up : R -> R -> R -> R -> R * R) (alpha c : R) (pot1 : R -> R -> R -> R).
  Hypothesis S1 : forall v x y g, g * (x - y) + pot1 (fst (up v x alpha g)) (snd (up v x alpha g)) y <= pot1 v x y + c * (g * g).
  Hypothesis P0 : forall v x y, 0 <= pot1 v x y.

  Fixpoint potv (v x y : list R) : R :=
    match v, x, y with a :: v', b :: x', d :: y' => pot1 a b d + potv v' x' y' | _, _, _ => 0 end.
  Lemma potv_nonneg : forall v x y, 0 <= potv v x y.
  Proof. induction v as [|a v IH]; intros [|b x] [|d y]; cbn; try lra. specialize (IH x y). specialize (P0 a b d). lra. Qed.
  Notation vup := (vec_up (N := RN) up).
  Lemma vup_cons (a : R) (v : list R) (b : R) (x : list R) (d : R) (g : list R) :
    vup (a :: v) (b :: x) alpha (d :: g) = (fst (up a b alpha d) :: fst (vup v x alpha g), snd (up a b alpha d) :: snd (vup v x alpha g)).
  Proof. exact (vec_up_cons (N := RN) up a v b x alpha d g). Qed.
  Lemma vup_len : forall v x g : list R, length v = length x -> length g = length x ->
    length (fst (vup v x alpha g)) = length x /\ length (snd (vup v x alpha g)) = length x.
  Proof.
    induction v as [|a v IH]; intros [|b x] [|d g] E1 E2; try discriminate; [cbn; auto|].
    cbn in E1, E2. destruct (IH x g ltac:(lia) ltac:(lia)) as [I1 I2]. rewrite vup_cons. cbn [fst snd length]. split; f_equal; assumption.
  Qed.
  Lemma vup_pot : forall v x y g : list R, length v = length x -> length g = length x -> length y = length x ->
    dotR g x - dotR g y + potv (fst (vup v x alpha g)) (snd (vup v x alpha g)) y <= potv v x y + c * sqn g.
  Proof.
    unfold sqn. induction v as [|a v IH]; intros [|b x] [|e y] [|d g] E1 E2 E3; try discriminate; [cbn; lra|].
    cbn in E1, E2, E3. specialize (IH x y g ltac:(lia) ltac:(lia) ltac:(lia)). pose proof (S1 a b e d) as Q.
    rewrite vup_cons. cbn [fst snd potv dotR]. lra.
  Qed.

  Theorem lift_regret n f (cb : Callbacks RN (list R) (list R)) (cfg : Cfg RN (list R) (list R) (list R) unit) (x0 v0 : list R) fuel (r : res RN (list R) (list R) (list R) unit) y :
    convex_batches mx f n -> (forall h g, cb_grad cb h g = g) -> length x0 = n -> length v0 = n -> length y = n ->
    (0 < sf_num f)%nat -> (0 < c_batch cfg)%nat -> c_up cfg = vup -> c_dp cfg = sgd_no_decay (N := RN) ->
    optimize_with cfg f cb fuel v0 tt alpha x0 = Return r ->
    sumR (paid mx (r_trace r)) - sumR (at_point mx f y 0 (r_trace r)) <=
      potv v0 x0 y + c * sumR (map sqn (batch_grads mx (r_trace r))).
  Proof.
    intros CVX CB L0 Lv Ly HN HB EU ED E. assert (M := c63 cfg f cb x0 _ _ _ fuel HN HB r E). rewrite EU, ED in M.
    pose proof (regret_moved mx f y vup (sgd_no_decay (N := RN)) cb CB (fun _ _ _ _ => eq_refl) n alpha
      (fun u x _ => length u = n /\ length x = n) (fun _ => True) (fun u x => potv u x y) (fun g => c * sqn g) Ly CVX) as P.
    destruct (P (fun u x gs H => proj2 H)) with (4 := M) as (_ & _ & B).
    - intros u x gs g [H1 H2] H3. destruct (vup_len u x g) as [Q1 Q2]; [congruence|congruence|]. split; [exact (eq_trans Q1 H2)|exact (eq_trans Q2 H2)].
    - intros u x gs g [H1 H2] _ H3. apply vup_pot; congruence.
    - auto.
    - apply Forall_forall. auto.
    - rewrite rev_involutive in B. pose proof (potv_nonneg (r_u r) (r_x r) y) as NN.
      assert (S : forall l, sumR (map (fun g => c * sqn g) l) = c * sumR (map sqn l)).
      { induction l as [|g l IH]; cbn; [lra|]. rewrite IH. lra. }
      rewrite S in B. cbn beta in B. lra.
  Qed.
End Lift.

Lemma potv_zeros pot1 k : (forall x y, pot1 0 x y = k * ((x - y) * (x - y))) ->
  forall x y : list R, length x = length y -> potv pot1 (map (fun _ => 0) x) x y = k * sqdist x y.
Proof. intros H. induction x as [|a x IH]; intros [|b y] L; try discriminate; cbn; [lra|]. rewrite H, IH by (cbn in L; lia). lra. Qed.

(** ** The potentials *)
Lemma div_pos a b : 0 <= a -> 0 < b -> 0 <= a / b.
Proof. intros A B. unfold Rdiv. apply Rmult_le_pos; [exact A|left; apply Rinv_0_lt_compat; exact B]. Qed.

Section Pots.
  Variables mu alpha : R.
  Hypothesis HM : 0 <= mu < 1.
  Hypothesis HA : 0 < alpha.
  (** the shadow point z = x + q v moves by plain steps of size st *)
  Variables q st : R.
  Hypothesis HS : 0 < st.
  Hypothesis HQ : 0 <= q.
  Definition mom_pot (v x y : R) : R :=
    / (2 * st) * ((x + q * v - y) * (x + q * v - y)) + q / (2 * alpha) * (v * v).
  Definition mom_cost : R := st / 2 + alpha * q / (1 - mu).
  Lemma mom_step1 v x y g v' x' : v' = mu * v - alpha * g -> x' + q * v' = x + q * v - st * g ->
    g * (x - y) + mom_pot v' x' y <= mom_pot v x y + mom_cost * (g * g).
  Proof.
    intros EV EZ. unfold mom_pot. rewrite EZ. set (z := x + q * v). replace (x - y) with (z - y - q * v) by (unfold z; ring).
    replace (z - st * g - y) with ((z - y) - st * g) by ring. set (w := z - y).
    assert (A1 : / (2 * st) * ((w - st * g) * (w - st * g)) =
      / (2 * st) * (w * w) - g * w + st / 2 * (g * g)) by (field; lra).
    rewrite A1.
    (* the velocity shrinks, and what it gains is paid by g *)
    assert (K : - (g * v) + / (2 * alpha) * (v' * v') <= / (2 * alpha) * (v * v) + alpha / (1 - mu) * (g * g)).
    { subst v'. apply Rmult_le_reg_l with (2 * alpha * (1 - mu)); [apply Rmult_lt_0_compat; lra|].
      replace (2 * alpha * (1 - mu) * (- (g * v) + / (2 * alpha) * ((mu * v - alpha * g) * (mu * v - alpha * g))))
        with ((1 - mu) * (- 2 * alpha * g * v + (mu * v - alpha * g) * (mu * v - alpha * g))) by (field; lra).
      replace (2 * alpha * (1 - mu) * (/ (2 * alpha) * (v * v) + alpha / (1 - mu) * (g * g)))
        with ((1 - mu) * (v * v) + 2 * (alpha * g) * (alpha * g)) by (field; lra).
      set (b := alpha * g).
      replace ((1 - mu) * (- 2 * alpha * g * v + (mu * v - b) * (mu * v - b))) with
        ((1 - mu) * (- 2 * b * v + (mu * v - b) * (mu * v - b))) by (unfold b; ring).
      assert (SQ : 0 <= (1 + mu) * (((1 - mu) * v + b) * ((1 - mu) * v + b))) by (apply Rmult_le_pos; [lra|apply Rle_0_sqr]).
      lra. }
    apply (Rmult_le_compat_l q) in K; [|exact HQ]. unfold mom_cost, Rdiv in *. fold w in K |- *. nra.
  Qed.
  Lemma mom_pot_nonneg v x y : 0 <= mom_pot v x y.
  Proof.
    unfold mom_pot. apply Rplus_le_le_0_compat; apply Rmult_le_pos; try apply Rle_0_sqr; [left; apply Rinv_0_lt_compat|apply div_pos]; lra.
  Qed.
  Lemma mom_pot_0 x y : mom_pot 0 x y = / (2 * st) * ((x - y) * (x - y)).
  Proof. unfold mom_pot. rewrite !Rmult_0_r, !Rplus_0_r. reflexivity. Qed.
End Pots.

(** ** The three methods *)
Section Methods.
  Variable mx : R.
  Notation RN := (RNum mx).
  Variables mu alpha : R.
  Hypothesis HM : 0 <= mu < 1.
  Hypothesis HA : 0 < alpha.
  Variables (n : nat) (f : SepFun RN (list R) (list R)) (cb : Callbacks RN (list R) (list R)) (cfg : Cfg RN (list R) (list R) (list R) unit).
  Variables (x0 y : list R) (fuel : nat) (r : res RN (list R) (list R) (list R) unit).
  Hypothesis CVX : convex_batches mx f n.
  Hypothesis CB : forall h g, cb_grad cb h g = g.
  Hypothesis L0 : length x0 = n.
  Hypothesis Ly : length y = n.
  Hypothesis HN : (0 < sf_num f)%nat.
  Hypothesis HB : (0 < c_batch cfg)%nat.
  Hypothesis ED : c_dp cfg = sgd_no_decay (N := RN).
  Hypothesis E : optimize_with cfg f cb fuel (sgd_velocity_init (N := RN) x0) tt alpha x0 = Return r.
  Notation regret := (sumR (paid mx (r_trace r)) - sumR (at_point mx f y 0 (r_trace r))).
  Notation squared := (sumR (map sqn (batch_grads mx (r_trace r)))).

  Lemma init_len : length (sgd_velocity_init (N := RN) x0) = n.
  Proof. unfold sgd_velocity_init. rewrite map_length. exact L0. Qed.
  Lemma momentum_regret : c_up cfg = sgd_momentum (N := RN) mu ->
    regret <= (1 - mu) / (2 * alpha) * sqdist x0 y + alpha * (1 + mu) / (2 * ((1 - mu) * (1 - mu))) * squared.
  Proof.
    intros EU. set (q := mu / (1 - mu)). set (st := alpha / (1 - mu)).
    assert (Q : 0 <= q) by (apply div_pos; lra). assert (S : 0 < st) by (apply Rdiv_lt_0_compat; lra).
    pose proof (lift_regret mx (momentum_up (N := RN) mu) alpha (mom_cost mu alpha q st) (mom_pot alpha q st)) as P.
    specialize (P ltac:(intros v x y' g; apply (mom_step1 mu alpha HM HA q st S Q); [reflexivity|unfold q, st; cbn; field; lra]) (mom_pot_nonneg alpha HA q st S Q)).
    specialize (P n f cb cfg x0 _ fuel r y CVX CB L0 init_len Ly HN HB EU ED E).
    unfold sgd_velocity_init in P. change (@n0 RN) with 0 in P.
    rewrite (potv_zeros _ (/ (2 * st)) (mom_pot_0 alpha q st)) in P by congruence.
    replace ((1 - mu) / (2 * alpha)) with (/ (2 * st)) by (unfold st; field; lra).
    replace (alpha * (1 + mu) / (2 * ((1 - mu) * (1 - mu)))) with (mom_cost mu alpha q st) by (unfold mom_cost, q, st; field; lra).
    exact P.
  Qed.
  Lemma nesterov_regret : c_up cfg = sgd_nesterov (N := RN) mu ->
    regret <= (1 - mu) / (2 * alpha) * sqdist x0 y + alpha * (1 - mu + 2 * mu * mu) / (2 * ((1 - mu) * (1 - mu))) * squared.
  Proof.
    intros EU. set (q := mu * mu / (1 - mu)). set (st := alpha / (1 - mu)).
    assert (Q : 0 <= q) by (apply div_pos; [apply Rmult_le_pos|]; lra). assert (S : 0 < st) by (apply Rdiv_lt_0_compat; lra).
    pose proof (lift_regret mx (nesterov_up (N := RN) mu) alpha (mom_cost mu alpha q st) (mom_pot alpha q st)) as P.
    specialize (P ltac:(intros v x y' g; apply (mom_step1 mu alpha HM HA q st S Q); [reflexivity|unfold q, st; cbn; field; lra]) (mom_pot_nonneg alpha HA q st S Q)).
    specialize (P n f cb cfg x0 _ fuel r y CVX CB L0 init_len Ly HN HB EU ED E).
    unfold sgd_velocity_init in P. change (@n0 RN) with 0 in P.
    rewrite (potv_zeros _ (/ (2 * st)) (mom_pot_0 alpha q st)) in P by congruence.
    replace ((1 - mu) / (2 * alpha)) with (/ (2 * st)) by (unfold st; field; lra).
    replace (alpha * (1 - mu + 2 * mu * mu) / (2 * ((1 - mu) * (1 - mu)))) with (mom_cost mu alpha q st) by (unfold mom_cost, q, st; field; lra).
    exact P.
  Qed.
  Variable nu : R.
  Hypothesis HNu : 0 <= nu.
  Lemma qh_regret : c_up cfg = sgd_qh (N := RN) mu nu ->
    regret <= / (2 * alpha) * sqdist x0 y + alpha * (1 - mu + 2 * mu * nu) / (2 * (1 - mu)) * squared.
  Proof.
    intros EU. set (q := nu * mu). set (st := alpha).
    assert (Q : 0 <= q) by (apply Rmult_le_pos; lra). assert (S : 0 < st) by exact HA.
    pose proof (lift_regret mx (qh_up (N := RN) mu nu) alpha (mom_cost mu alpha q st) (fun v => mom_pot alpha q st (- (alpha / (1 - mu)) * v))) as P.
    specialize (P ltac:(intros v x y' g; apply (mom_step1 mu alpha HM HA q st S Q); [cbn; field; lra|unfold q, st; cbn; field; lra]) (fun v => mom_pot_nonneg alpha HA q st S Q _)).
    specialize (P n f cb cfg x0 _ fuel r y CVX CB L0 init_len Ly HN HB EU ED E).
    unfold sgd_velocity_init in P. change (@n0 RN) with 0 in P.
    rewrite (potv_zeros _ (/ (2 * st))) in P; [|intros; rewrite Rmult_0_r; apply mom_pot_0|congruence].
    replace (mom_cost mu alpha q st) with (alpha * (1 - mu + 2 * mu * nu) / (2 * (1 - mu))) in P by (unfold mom_cost, q, st; field; lra).
    exact P.
  Qed.
End Methods.
