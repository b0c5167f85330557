(** Regret of SGD and AdaGrad. *)
From Coq Require Import List Arith Bool Reals Lra Lia.
From Verif.Base Require Import Num Instances.
From Verif.Model Require Import Sgd Updates SgdPolicies.
From Verif.Spec Require Import SgdSpec Gradient ConvergeSpec RegretSpec.
From Verif.Proof Require Import SgdMore SmoothProof.
Import ListNotations.
Local Open Scope R_scope.

Lemma sumR_app l : forall m, sumR (l ++ m) = sumR l + sumR m.
Proof. induction l as [|a l IH]; intros m; cbn; [lra|]. rewrite IH. lra. Qed.

Section Regret.
  Variable mx : R.
  Notation RN := (RNum mx).
  Notation event := (event RN (list R) (list R)).
  Variable f : SepFun RN (list R) (list R).
  Variable y : list R.

  Lemma paid_app : forall (a b : list event), paid mx (a ++ b) = paid mx a ++ paid mx b.
  Proof. induction a as [|e a IH]; intros b; [reflexivity|]. destruct e; cbn; rewrite ?IH; reflexivity. Qed.
  Lemma grads_app : forall (a b : list event), batch_grads mx (a ++ b) = batch_grads mx a ++ batch_grads mx b.
  Proof. induction a as [|e a IH]; intros b; [reflexivity|]. destruct e; cbn; rewrite ?IH; reflexivity. Qed.
  Lemma points_app : forall (a b : list event), batch_points mx (a ++ b) = batch_points mx a ++ batch_points mx b.
  Proof. induction a as [|e a IH]; intros b; [reflexivity|]. destruct e; cbn; rewrite ?IH; reflexivity. Qed.
  Lemma at_app : forall (a b : list event) j, at_point mx f y j (a ++ b) = at_point mx f y j a ++ at_point mx f y (j + count_shuffles a) b.
  Proof.
    induction a as [|e a IH]; intros b j; [cbn; rewrite Nat.add_0_r; reflexivity|].
    destruct e; cbn; rewrite ?IH; try reflexivity. rewrite Nat.add_succ_r. reflexivity.
  Qed.
  Lemma shuffles_app : forall (a b : list event), count_shuffles (a ++ b) = (count_shuffles a + count_shuffles b)%nat.
  Proof. induction a as [|e a IH]; intros b; [reflexivity|]. destruct e; cbn; rewrite ?IH; reflexivity. Qed.
  Lemma shuffles_rev : forall (a : list event), count_shuffles (rev a) = count_shuffles a.
  Proof. induction a as [|e a IH]; [reflexivity|]. cbn [rev]. rewrite shuffles_app, IH. destruct e; cbn; lia. Qed.

  Context {U D : Type}.
  Variables (up : U -> list R -> R -> list R -> U * list R) (dp : D -> list R -> R -> list R -> D * R).
  Variable cb : Callbacks RN (list R) (list R).
  Hypothesis CB : forall h g, cb_grad cb h g = g.
  Hypothesis DP : forall d x h g, snd (dp d x h g) = h.
  (** a potential that pays for the linear regret of every step, up to [cost] *)
  Variables (n : nat) (alpha : R) (Inv : U -> list R -> list (list R) -> Prop) (near : list R -> Prop) (pot : U -> list R -> R) (cost : list R -> R).
  Hypothesis Ly : length y = n.
  Hypothesis CVX : convex_batches mx f n.
  Hypothesis Inv_len : forall u x gs, Inv u x gs -> length x = n.
  Hypothesis Inv_up : forall u x gs g, Inv u x gs -> length g = n -> Inv (fst (up u x alpha g)) (snd (up u x alpha g)) (gs ++ [g]).
  Hypothesis Pot : forall u x gs g, Inv u x gs -> near x -> length g = n ->
    dotR g x - dotR g y + pot (fst (up u x alpha g)) (snd (up u x alpha g)) <= pot u x + cost g.

  Lemma regret_moved x0 u0 d0 h x u d s : Inv u0 x0 [] ->
    moved (N := RN) f up dp cb x0 u0 d0 alpha h x u d s -> Forall near (batch_points mx (rev h)) ->
    s = alpha /\ Inv u x (batch_grads mx (rev h)) /\
    sumR (paid mx (rev h)) - sumR (at_point mx f y 0 (rev h)) + pot u x <= pot u0 x0 + sumR (map cost (batch_grads mx (rev h))).
  Proof.
    intros I0 M. induction M as [|h e x u d s M IH NE|h b k o g x u d s M IH E h1 g' x']; intros NR.
    - cbn. split; [reflexivity|]. split; [exact I0|]. lra.
    - cbn [rev] in *. rewrite grads_app, paid_app, at_app, shuffles_rev in *. rewrite points_app in NR. apply Forall_app in NR as [NR _].
      destruct (IH NR) as (-> & I & B). split; [reflexivity|].
      destruct e; cbn; try contradiction; rewrite ?app_nil_r; auto.
    - assert (G' : g' = g) by apply CB. clearbody g'. subst g'. cbn [rev] in *. unfold h1 in *. cbn [rev] in *.
      rewrite !grads_app, !paid_app, !at_app. rewrite !points_app in NR.
      apply Forall_app in NR as [NR _]. apply Forall_app in NR as [NR NX]. cbn in NX. apply Forall_inv in NX.
      destruct (IH NR) as (-> & I & B). rewrite shuffles_app, shuffles_rev. cbn [paid at_point batch_grads count_shuffles app].
      rewrite !app_nil_r, !sumR_app, map_app, sumR_app. cbn [sumR map].
      pose proof (Inv_len _ _ _ I) as Lx.
      destruct (CVX (count_shuffles h) b k x y Lx Ly) as [Lg T]. unfold batch_value in *. rewrite E in Lg, T. cbn [fst snd] in Lg, T.
      unfold x'. rewrite DP. split; [reflexivity|]. split; [apply Inv_up; assumption|].
      pose proof (Pot _ _ _ _ I NX Lg) as P. rewrite Nat.add_0_l. unfold batch_value. lra.
  Qed.
End Regret.

(** ** Plain SGD *)
Section Vanilla.
  Variable mx : R.
  Notation RN := (RNum mx).
  Lemma vanilla_vec : forall u (x g : list R) h, length u = length x -> length g = length x ->
    length (fst (sgd_vanilla (N := RN) u x h g)) = length x /\ length (snd (sgd_vanilla (N := RN) u x h g)) = length x.
  Proof.
    unfold sgd_vanilla. induction u as [|a u IH]; intros [|b x] [|c g] h E1 E2; try discriminate; [cbn; auto|].
    cbn in E1, E2. destruct (IH x g h) as [A B]; [lia|lia|]. cbn. destruct (vec_up (N := RN) vanilla_up u x h g). cbn in *. lia.
  Qed.
  Lemma vanilla_pot (alpha : R) : 0 < alpha -> forall u x g y : list R, forall u' : list unit, length u' = length x -> length g = length x -> length y = length x ->
    2 * alpha * (dotR g x - dotR g y) + sqdist (snd (sgd_vanilla (N := RN) u' x alpha g)) y = sqdist x y + alpha * alpha * sqn g.
  Proof.
    intros A _ x g y u'. unfold sgd_vanilla, sqn. revert x g y. induction u' as [|a u IH]; intros [|b x] [|c g] [|e y] E1 E2 E3; try discriminate; [cbn; lra|].
    cbn in E1, E2, E3. specialize (IH x g y ltac:(lia) ltac:(lia) ltac:(lia)). cbn. cbn in IH. destruct (vec_up (N := RN) vanilla_up u x alpha g). cbn in *. lra.
  Qed.

  Theorem sgd_regret n alpha f (cb : Callbacks RN (list R) (list R)) (c : Cfg RN (list R) (list R) (list unit) unit) (x0 : list R) fuel (r : res RN (list R) (list R) (list unit) unit) y :
    0 < alpha -> convex_batches mx f n -> (forall h g, cb_grad cb h g = g) -> length x0 = n -> length y = n ->
    (0 < sf_num f)%nat -> (0 < c_batch c)%nat -> c_up c = sgd_vanilla (N := RN) -> c_dp c = sgd_no_decay (N := RN) ->
    optimize_with c f cb fuel (sgd_vanilla_init (N := RN) x0) tt alpha x0 = Return r ->
    2 * alpha * (sumR (paid mx (r_trace r)) - sumR (at_point mx f y 0 (r_trace r))) <=
      sqdist x0 y - sqdist (r_x r) y + alpha * alpha * sumR (map sqn (batch_grads mx (r_trace r))).
  Proof.
    intros A CVX CB L0 Ly HN HB EU ED E. assert (M := c63 c f cb x0 _ _ _ fuel HN HB r E). rewrite EU, ED in M.
    pose proof (regret_moved mx f y (sgd_vanilla (N := RN)) (sgd_no_decay (N := RN)) cb CB (fun _ _ _ _ => eq_refl) n alpha
      (fun u x _ => length u = n /\ length x = n) (fun _ => True) (fun _ x => / (2 * alpha) * sqdist x y) (fun g => alpha / 2 * sqn g) Ly CVX) as P.
    destruct (P (fun u x gs H => proj2 H)) with (4 := M) as (_ & _ & B).
    - intros u x gs g [H1 H2] H3. destruct (vanilla_vec u x g alpha) as [Q1 Q2]; [congruence|congruence|]. split; [exact (eq_trans Q1 H2)|exact (eq_trans Q2 H2)].
    - intros u x gs g [H1 H2] _ H3. pose proof (vanilla_pot alpha A [] x g y u) as Q.
      specialize (Q ltac:(congruence) ltac:(congruence) ltac:(congruence)).
      cbn beta. match goal with |- context [sqdist ?q y] => lazymatch q with snd _ => set (x1 := q) end end.
      assert (Q' : 2 * alpha * (dotR g x - dotR g y) + sqdist x1 y = sqdist x y + alpha * alpha * sqn g) by exact Q. clear Q.
      apply Rmult_le_reg_l with (2 * alpha); [lra|]. rewrite !Rmult_plus_distr_l.
      replace (2 * alpha * (/ (2 * alpha) * sqdist x1 y)) with (sqdist x1 y) by (field; lra).
      replace (2 * alpha * (/ (2 * alpha) * sqdist x y)) with (sqdist x y) by (field; lra).
      lra.
    - unfold sgd_vanilla_init. rewrite map_length. auto.
    - apply Forall_forall. auto.
    - rewrite rev_involutive in B.
      assert (S : sumR (map (fun g => alpha / 2 * sqn g) (batch_grads mx (r_trace r))) = alpha / 2 * sumR (map sqn (batch_grads mx (r_trace r)))).
      { generalize (batch_grads mx (r_trace r)). intros l. induction l as [|g l IH]; cbn; [lra|]. rewrite IH. lra. }
      rewrite S in B. apply (Rmult_le_compat_l (2 * alpha)) in B; [|lra]. rewrite !Rmult_plus_distr_l in B.
      replace (2 * alpha * (/ (2 * alpha) * sqdist (r_x r) y)) with (sqdist (r_x r) y) in B by (field; lra).
      replace (2 * alpha * (/ (2 * alpha) * sqdist x0 y)) with (sqdist x0 y) in B by (field; lra). lra.
  Qed.
End Vanilla.

(** ** AdaGrad *)
Lemma vec_up_cons {N : Num} {S} (up : S -> N -> N -> N -> S * N) s ss x xs h g gs :
  vec_up up (s :: ss) (x :: xs) h (g :: gs) =
  (fst (up s x h g) :: fst (vec_up up ss xs h gs), snd (up s x h g) :: snd (vec_up up ss xs h gs)).
Proof. cbn. destruct (up s x h g), (vec_up up ss xs h gs). reflexivity. Qed.
Section AdaGrad.
  Variable mx : R.
  Notation RN := (RNum mx).
  Variables (eps alpha D : R).
  Hypothesis HE : 0 < eps.
  Hypothesis HA : 0 < alpha.

  Definition ada_pot1 (q x y : R) : R := (sqrt q + eps) * ((x - y) * (x - y) - D * D) / (2 * alpha) - alpha * sqrt q.
  Lemma ada_step1 q x y g : 0 <= q -> Rabs (x - y) <= D ->
    g * (x - y) + ada_pot1 (q + g * g) (x - alpha * g / (sqrt (q + g * g) + eps)) y <= ada_pot1 q x y.
  Proof.
    intros Q N. assert (Q' : 0 <= q + g * g) by nra. set (q' := q + g * g) in *.
    assert (SQ : sqrt q <= sqrt q') by (apply sqrt_le_1; unfold q'; nra).
    pose proof (sqrt_pos q) as P. pose proof (sqrt_sqrt q Q) as E. pose proof (sqrt_sqrt q' Q') as E'.
    set (a := sqrt q) in *. set (b := sqrt q') in *. set (s := b + eps).
    assert (S0 : 0 < s) by (unfold s; lra).
    assert (ND : (x - y) * (x - y) <= D * D).
    { assert (0 <= D) by (pose proof (Rabs_pos (x - y)); lra). apply Rsqr_le_abs_1. rewrite (Rabs_right D); lra. }
    unfold ada_pot1. fold a b. fold s.
    assert (X : s * ((x - alpha * g / s - y) * (x - alpha * g / s - y) - D * D) / (2 * alpha) =
      s * ((x - y) * (x - y) - D * D) / (2 * alpha) - g * (x - y) + alpha * (g * g / s) / 2) by (field; lra).
    rewrite X.
    assert (G : g * g / s <= 2 * (b - a)).
    { assert (GG : g * g = (b - a) * (b + a)) by (unfold q' in E'; lra). rewrite GG.
      apply Rmult_le_reg_r with s; [exact S0|]. unfold Rdiv. rewrite Rmult_assoc, Rinv_l, Rmult_1_r by lra.
      rewrite (Rmult_comm 2), Rmult_assoc. apply Rmult_le_compat_l; [lra|]. unfold s. lra. }
    assert (G2 : alpha * (g * g / s) / 2 <= alpha * (b - a)).
    { apply (Rmult_le_compat_l alpha) in G; lra. }
    assert (M : s * ((x - y) * (x - y) - D * D) / (2 * alpha) <= (a + eps) * ((x - y) * (x - y) - D * D) / (2 * alpha)).
    { unfold Rdiv. apply Rmult_le_compat_r; [left; apply Rinv_0_lt_compat; lra|]. unfold s. nra. }
    lra.
  Qed.

  Fixpoint ada_pot (q x y : list R) : R :=
    match q, x, y with a :: q', b :: x', c :: y' => ada_pot1 a b c + ada_pot q' x' y' | _, _, _ => 0 end.
  Lemma within_tl a x b y : within D (a :: x) (b :: y) -> Rabs (a - b) <= D /\ within D x y.
  Proof. intros H. split; [exact (H 0%nat)|]. intros i. exact (H (S i)). Qed.
  Lemma ada_cons (a : R) (q : list R) (b : R) (x : list R) (d : R) (g : list R) :
    sgd_adagrad (N := RN) eps (a :: q) (b :: x) alpha (d :: g) =
    (a + d * d :: fst (sgd_adagrad (N := RN) eps q x alpha g), b - alpha * d / (sqrt (a + d * d) + eps) :: snd (sgd_adagrad (N := RN) eps q x alpha g)).
  Proof. exact (vec_up_cons (N := RN) (adagrad_up (N := RN) eps) a q b x alpha d g). Qed.
  Lemma ada_step : forall q x y g : list R, length q = length x -> length g = length x -> length y = length x -> Forall (fun a => 0 <= a) q -> within D x y ->
    dotR g x - dotR g y + ada_pot (fst (sgd_adagrad (N := RN) eps q x alpha g)) (snd (sgd_adagrad (N := RN) eps q x alpha g)) y <= ada_pot q x y.
  Proof.
    induction q as [|a q IH]; intros [|b x] [|c y] [|d g] E1 E2 E3 F W; try discriminate; [cbn; lra|].
    inversion F as [|? ? F0 F']; subst. apply within_tl in W as [W0 W]. cbn in E1, E2, E3.
    specialize (IH x y g ltac:(lia) ltac:(lia) ltac:(lia) F' W). pose proof (ada_step1 a b c d F0 W0) as S.
    rewrite ada_cons. cbn [fst snd ada_pot dotR]. lra.
  Qed.
  Lemma ada_state : forall q x g : list R, length q = length x -> length g = length x ->
    fst (sgd_adagrad (N := RN) eps q x alpha g) = map (fun ab => fst ab + snd ab * snd ab) (combine q g) /\
    length (snd (sgd_adagrad (N := RN) eps q x alpha g)) = length x.
  Proof.
    induction q as [|a q IH]; intros [|b x] [|d g] E1 E2; try discriminate; [cbn; auto|].
    cbn in E1, E2. destruct (IH x g ltac:(lia) ltac:(lia)) as [I1 I2]. rewrite ada_cons.
    cbn [fst snd length combine map]. split; [f_equal; exact I1|f_equal; exact I2].
  Qed.
  Lemma squares_snoc n gs g : length g = n -> map (fun ab => fst ab + snd ab * snd ab) (combine (squares n gs) g) = squares n (gs ++ [g]).
  Proof.
    intros <-. unfold squares.
    assert (G : forall (g : list R) k (u : nat -> R) (w : nat -> R), (forall i, nth i g 0 = w (k + i)%nat) ->
      map (fun ab => fst ab + snd ab * snd ab) (combine (map u (seq k (length g))) g) = map (fun i => u i + w i * w i) (seq k (length g))).
    { clear. induction g as [|a g IH]; intros k u w H; [reflexivity|]. cbn [length seq map combine].
      assert (A := H 0%nat). rewrite Nat.add_0_r in A. cbn in A. rewrite (IH (S k) u w).
      - cbn [fst snd]. rewrite A. reflexivity.
      - intros i. replace (Datatypes.S k + i)%nat with (k + Datatypes.S i)%nat by lia. exact (H (S i)). }
    rewrite (G g 0%nat _ (fun i => nth i g 0)) by reflexivity. apply map_ext. intros i. rewrite map_app, sumR_app. cbn. lra.
  Qed.
  Lemma squares_nil n : squares n [] = map (fun _ => 0) (seq 0 n).
  Proof. reflexivity. Qed.
  Lemma squares_nonneg n gs : Forall (fun a => 0 <= a) (squares n gs).
  Proof.
    apply Forall_forall. intros a I. unfold squares in I. apply in_map_iff in I as (i & <- & _).
    induction gs as [|g gs IH]; cbn; [lra|]. nra.
  Qed.
  Lemma squares_length n gs : length (squares n gs) = n.
  Proof. unfold squares. rewrite map_length, seq_length. reflexivity. Qed.
  Lemma ada_pot_low : forall q x y, length q = length x -> length y = length x -> Forall (fun a => 0 <= a) q ->
    - ada_pot q x y <= (D * D / (2 * alpha) + alpha) * sumR (map sqrt q) + INR (length x) * (D * D * eps / (2 * alpha)).
  Proof.
    induction q as [|a q IH]; intros [|b x] [|c y] E1 E2 F; try discriminate.
    - cbn. assert (0 <= D * D * eps / (2 * alpha)); [|lra]. assert (0 <= / (2 * alpha)) by (left; apply Rinv_0_lt_compat; lra).
      assert (0 <= D * D) by nra. apply Rmult_le_pos; nra.
    - inversion F as [|? ? F0 F']; subst. cbn in E1, E2. specialize (IH x y ltac:(lia) ltac:(lia) F').
      change (length (b :: x)) with (S (length x)). rewrite S_INR. cbn [ada_pot map sumR]. unfold ada_pot1.
      assert (0 <= (sqrt a + eps) * ((b - c) * (b - c)) / (2 * alpha)).
      { pose proof (sqrt_pos a). apply Rmult_le_pos; [|left; apply Rinv_0_lt_compat; lra]. apply Rmult_le_pos; [lra|apply Rle_0_sqr]. }
      assert (X : (sqrt a + eps) * ((b - c) * (b - c) - D * D) / (2 * alpha) = (sqrt a + eps) * ((b - c) * (b - c)) / (2 * alpha) - D * D / (2 * alpha) * sqrt a - D * D * eps / (2 * alpha)) by (field; lra).
      rewrite X. lra.
  Qed.
  Lemma ada_pot_start : forall x0 x y : list R, length x = length x0 -> length y = length x0 -> within D x y -> ada_pot (map (fun _ => 0) x0) x y <= 0.
  Proof.
    induction x0 as [|a x0 IH]; intros [|b x] [|c y] E1 E2 W; try discriminate; [cbn; lra|].
    apply within_tl in W as [W0 W]. cbn in E1, E2. specialize (IH x y ltac:(lia) ltac:(lia) W). cbn [map ada_pot]. unfold ada_pot1. rewrite sqrt_0.
    assert (ND : (b - c) * (b - c) <= D * D).
    { assert (0 <= D) by (pose proof (Rabs_pos (b - c)); lra). apply Rsqr_le_abs_1. rewrite (Rabs_right D); lra. }
    assert (0 <= (0 + eps) * (D * D - (b - c) * (b - c)) / (2 * alpha)).
    { apply Rmult_le_pos; [apply Rmult_le_pos; lra|left; apply Rinv_0_lt_compat; lra]. }
    replace ((0 + eps) * ((b - c) * (b - c) - D * D) / (2 * alpha)) with (- ((0 + eps) * (D * D - (b - c) * (b - c)) / (2 * alpha))) by (field; lra). lra.
  Qed.

  Theorem adagrad_regret n f (cb : Callbacks RN (list R) (list R)) (c : Cfg RN (list R) (list R) (list R) unit) (x0 : list R) fuel
      (r : res RN (list R) (list R) (list R) unit) y :
    convex_batches mx f n -> (forall h g, cb_grad cb h g = g) -> length x0 = n -> length y = n ->
    (0 < sf_num f)%nat -> (0 < c_batch c)%nat -> c_up c = sgd_adagrad (N := RN) eps -> c_dp c = sgd_no_decay (N := RN) ->
    optimize_with c f cb fuel (sgd_adagrad_init (N := RN) x0) tt alpha x0 = Return r ->
    within D x0 y -> Forall (fun x => within D x y) (batch_points mx (r_trace r)) ->
    sumR (paid mx (r_trace r)) - sumR (at_point mx f y 0 (r_trace r)) <=
      (D * D / (2 * alpha) + alpha) * sumR (map sqrt (squares n (batch_grads mx (r_trace r)))) + INR n * (D * D * eps / (2 * alpha)).
  Proof.
    intros CVX CB L0 Ly HN HB EU ED E W0 W. assert (M := c63 c f cb x0 _ _ _ fuel HN HB r E). rewrite EU, ED in M.
    pose proof (regret_moved mx f y (sgd_adagrad (N := RN) eps) (sgd_no_decay (N := RN)) cb CB (fun _ _ _ _ => eq_refl) n alpha
      (fun u x gs => length x = n /\ u = squares n gs) (fun x => within D x y) (fun u x => ada_pot u x y) (fun g => 0) Ly CVX) as P.
    destruct (P (fun u x gs H => proj1 H)) with (4 := M) as (_ & [I1 I2] & B).
    - intros u x gs g [H1 ->] H3. destruct (ada_state (squares n gs) x g) as [Q1 Q2]; [rewrite squares_length; congruence|congruence|].
      split; [exact (eq_trans Q2 H1)|]. exact (eq_trans Q1 (squares_snoc n gs g H3)).
    - intros u x gs g [H1 ->] H2 H3. rewrite Rplus_0_r. apply ada_step; try exact H2; try apply squares_nonneg; rewrite ?squares_length; congruence.
    - split; [exact L0|]. unfold sgd_adagrad_init. rewrite squares_nil, <- L0. clear. change (n0 (n := RN)) with 0. change (T RN) with R.
      generalize 0%nat. induction x0 as [|a x IH]; intros k; [reflexivity|]. cbn. f_equal. apply IH.
    - rewrite rev_involutive. exact W.
    - rewrite rev_involutive in B, I2.
      assert (Z : sumR (map (fun _ : list R => 0) (batch_grads mx (r_trace r))) = 0).
      { generalize (batch_grads mx (r_trace r)). intros l. induction l as [|g l IH]; cbn; [lra|]. rewrite IH. lra. }
      rewrite Z in B. pose proof (ada_pot_start x0 x0 y eq_refl) as S0. specialize (S0 ltac:(congruence) W0).
      change (sgd_adagrad_init (N := RN) x0) with (map (fun _ : R => 0) x0) in B.
      pose proof (ada_pot_low (r_u r) (r_x r) y) as LO. rewrite I1 in LO. rewrite I2 in LO at 1. rewrite squares_length in LO.
      specialize (LO eq_refl Ly). rewrite I2 in LO at 1. specialize (LO (squares_nonneg _ _)). rewrite I2 in LO at 2. lra.
  Qed.
End AdaGrad.

(** ** Whole passes *)
Section Passes.
  Variable mx : R.
  Notation RN := (RNum mx).
  Variable f : SepFun RN (list R) (list R).
  Variable term : nat -> nat -> list R -> R.
  Variable y : list R.
  Hypothesis ST : sum_of_terms mx f term.
  Lemma at_point_visited : forall tr j, sumR (at_point mx f y j tr) = sumR (map (fun p => term (fst p) (snd p) y) (visited (N := RN) j tr)).
  Proof.
    induction tr as [|e tr IH]; intros j; [reflexivity|]. destruct e; cbn [at_point visited]; try apply IH.
    rewrite map_app, sumR_app. cbn [sumR]. rewrite IH, ST, map_map. reflexivity.
  Qed.
  Lemma passes_sum (Phi : R) n (HN : (0 < n)%nat) (sh : bool) : (forall j, sumR (map (fun i => term j i y) (seq 0 n)) = Phi) ->
    forall p, sumR (map (fun p => term (fst p) (snd p) y) (map (fun j => ((if sh then j / n else 0)%nat, (j mod n)%nat)) (seq 0 (p * n)))) = INR p * Phi.
  Proof.
    intros TOT. induction p as [|p IH]; [cbn; lra|]. rewrite S_INR. replace (S p * n)%nat with (p * n + n)%nat by lia.
    rewrite seq_app, !map_app, sumR_app, IH. cbn [Nat.add]. rewrite Rmult_plus_distr_r, Rmult_1_l. f_equal.
    rewrite <- (TOT (if sh then p else 0)%nat). rewrite map_map. cbn [fst snd].
    assert (G : forall m k, (k + m <= n)%nat ->
      map (fun x => term (if sh then x / n else 0)%nat (x mod n)%nat y) (seq (p * n + k) m) = map (fun i => term (if sh then p else 0)%nat i y) (seq k m)).
    { induction m as [|m IHm]; intros k L; [reflexivity|]. cbn [seq map]. rewrite <- Nat.add_succ_r, IHm by lia. f_equal.
      rewrite Nat.add_comm, Nat.div_add, Nat.mod_add, Nat.mod_small, Nat.div_small by lia. reflexivity. }
    rewrite <- (G n 0%nat) by lia. rewrite Nat.add_0_r. reflexivity.
  Qed.
End Passes.
