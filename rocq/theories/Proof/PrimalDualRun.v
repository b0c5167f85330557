From Coq Require Import List Arith Bool ZArith Reals Lra Lia FunctionalExtensionality.
From Verif.Base Require Import Num Vec Instances.
From Verif.Model Require Import Common Svec LRSDP PrimalDual.
From Verif.Spec Require Import LpSpec SvecSpec Gradient CommonSpec PrimalDualSpec.
From Verif.Proof Require Import ProximalProof SvecProof GradientProof LRSDPProof PrimalDualProof PrimalDualMain.
Import ListNotations.
Local Open Scope R_scope.

(** ** Quadratic forms *)
Definition dotn (n : nat) (x y : nat -> R) : R := sum_n n (fun i => x i * y i).
Definition mvec (n : nat) (A : Mt) (v : nat -> R) (i : nat) : R := sum_n n (fun j => A i j * v j).
Lemma quad_dotn n A v : quad n A v = dotn n v (mvec n A v).
Proof. unfold quad, dotn, mvec. apply sum_n_ext; intros i _. rewrite <- sum_n_scal. apply sum_n_ext; intros j _. lra. Qed.
Lemma dotn_trans n A x y : dotn n x (mvec n A y) = dotn n (mvec n (fun i j => A j i) x) y.
Proof.
  unfold dotn, mvec. transitivity (sum_n n (fun i => sum_n n (fun j => x i * A i j * y j))).
  - apply sum_n_ext; intros i _. rewrite <- sum_n_scal. apply sum_n_ext; intros j _. lra.
  - rewrite sum_n_swap. apply sum_n_ext; intros j _. rewrite <- sum_n_scal_r. apply sum_n_ext; intros i _. lra.
Qed.
Lemma mvec_matmul n A B v i : mvec n (matmul n A B) v i = mvec n A (mvec n B v) i.
Proof.
  unfold mvec, matmul. transitivity (sum_n n (fun j => sum_n n (fun k => A i k * B k j * v j))).
  - apply sum_n_ext; intros j _. rewrite <- sum_n_scal_r. reflexivity.
  - rewrite sum_n_swap. apply sum_n_ext; intros k _. rewrite <- sum_n_scal. apply sum_n_ext; intros j _. lra.
Qed.
Lemma mvec_ext n A B v w i : (i < n)%nat -> meq n A B -> (forall j, (j < n)%nat -> v j = w j) -> mvec n A v i = mvec n B w i.
Proof. intros Hi HA HV. apply sum_n_ext. intros j Hj. rewrite HA, HV by assumption. reflexivity. Qed.
Lemma dotn_ext n x y x' y' : (forall i, (i < n)%nat -> x i = x' i) -> (forall i, (i < n)%nat -> y i = y' i) -> dotn n x y = dotn n x' y'.
Proof. intros H1 H2. apply sum_n_ext. intros i Hi. rewrite H1, H2 by assumption. reflexivity. Qed.
Lemma mvec_id n v i : (i < n)%nat -> mvec n (fun i j => if Nat.eqb i j then 1 else 0) v i = v i.
Proof. intros Hi. unfold mvec. exact (sum_n_delta n v i Hi). Qed.

Lemma quad_plus n A B v : quad n (fun i j => A i j + B i j) v = quad n A v + quad n B v.
Proof. unfold quad. rewrite <- sum_n_plus. apply sum_n_ext; intros i _. rewrite <- sum_n_plus. apply sum_n_ext; intros j _. lra. Qed.
Lemma quad_scale n c A v : quad n (fun i j => c * A i j) v = c * quad n A v.
Proof. unfold quad. rewrite <- sum_n_scal. apply sum_n_ext; intros i _. rewrite <- sum_n_scal. apply sum_n_ext; intros j _. lra. Qed.
Lemma quad_ext n A B v : meq n A B -> quad n A v = quad n B v.
Proof. intros H. apply sum_n_ext; intros i Hi. apply sum_n_ext; intros j Hj. rewrite H by assumption. reflexivity. Qed.

(** A = l l^T, l li = 1, and -li dA li^T bounded by e *)
Lemma congruence n a l li dA e :
  meq n a (matmul n l (fun i j => l j i)) ->
  meq n (matmul n l li) (fun i j => if Nat.eqb i j then 1 else 0) ->
  (forall v, quad n (matmul n (matmul n (fun i j => - li i j) dA) (fun i j => li j i)) v <= e * dotn n v v) ->
  forall v, (exists i, (i < n)%nat /\ v i <> 0) ->
    exists q, 0 < q /\ quad n a v = q /\ - e * q <= quad n dA v.
Proof.
  intros HA HI HE v (i0 & Hi0 & Hv).
  pose (w := mvec n (fun i j => l j i) v).
  assert (U : forall j, (j < n)%nat -> mvec n (fun i j => li j i) w j = v j).
  { intros j Hj. rewrite <- (mvec_id n v j Hj). unfold w. rewrite <- mvec_matmul.
    apply mvec_ext; [exact Hj| |reflexivity]. intros a0 b0 Ha0 Hb0. unfold matmul.
    transitivity (matmul n l li b0 a0); [apply sum_n_ext; intros; lra|]. rewrite HI by assumption. rewrite Nat.eqb_sym. reflexivity. }
  exists (dotn n w w).
  assert (NN : 0 <= dotn n w w) by (apply sum_n_nonneg; intros; apply Rle_0_sqr).
  split; [|split].
  - destruct NN as [H|H]; [exact H|]. exfalso. apply Hv. rewrite <- (U i0 Hi0). unfold mvec.
    rewrite (sum_n_ext n _ (fun _ => 0)); [apply sum_n_zero|]. intros k Hk.
    assert (E : w k * w k = 0) by (apply (sum_n_zero_each n (fun i => w i * w i)); [intros; apply Rle_0_sqr|symmetry; exact H|exact Hk]).
    apply Rmult_integral in E. replace (w k) with 0 by (destruct E; auto). lra.
  - rewrite (quad_ext n _ _ v HA), quad_dotn.
    transitivity (dotn n v (mvec n l w)); [apply dotn_ext; [reflexivity|]; intros i _; apply mvec_matmul|].
    rewrite dotn_trans. reflexivity.
  - pose proof (HE w) as H. rewrite quad_dotn in H.
    assert (E : dotn n w (mvec n (matmul n (matmul n (fun i j => - li i j) dA) (fun i j => li j i)) w) = - quad n dA v).
    { transitivity (dotn n w (mvec n (fun i j => - li i j) (mvec n dA (mvec n (fun i j => li j i) w)))).
      - apply dotn_ext; [reflexivity|]. intros i Hi. rewrite mvec_matmul. apply mvec_matmul.
      - rewrite dotn_trans. rewrite quad_dotn. unfold dotn. rewrite <- sum_n_opp. apply sum_n_ext. intros i Hi.
        rewrite (mvec_ext n dA dA _ v i Hi (fun _ _ _ _ => eq_refl) U).
        assert (EQ : mvec n (fun i0 j => - li j i0) w i = - v i).
        { rewrite <- (U i Hi). unfold mvec. rewrite <- sum_n_opp. apply sum_n_ext; intros; lra. }
        rewrite EQ. lra. }
    rewrite E in H. lra.
Qed.

Section A.
Variable mx : R.
Notation RN := (RNum mx).
Variable p : program (N := RN).
Notation n := (pd_n p).
Variable chol : Mt -> option Mt.
Variable inv : Mt -> option Mt.
Variable eigmax : Mt -> option R.
Variable recip : R -> R.
Hypothesis Hchol : chol_ok n chol.
Hypothesis Hinv : inv_ok n inv.
Hypothesis Heig : eig_ok n eigmax.
Variable tau : R.
Hypothesis Htau : 0 < tau < 1.
Hypothesis Hrecip : recip_ok tau recip.

Lemma alpha_of_range ev : 0 < alpha_of (N := RN) recip tau ev <= 1 /\ alpha_of (N := RN) recip tau ev * ev < 1.
Proof.
  destruct Hrecip as (HR & H0). unfold alpha_of. cbn [nlt nmul n0 n1 RNum].
  destruct (Req_dec ev 0) as [->|Ne].
  - destruct H0 as [H0|H0].
    + destruct (Rltb_spec (recip 0) 0) as [_|C]; [|lra].
      destruct (Rltb_spec (tau * 1) 1); lra.
    + destruct (Rltb_spec (recip 0) 0) as [C|_].
      * assert (tau * recip 0 < tau * 0) by (apply Rmult_lt_compat_l; lra). lra.
      * destruct (Rltb_spec (tau * recip 0) 1); lra.
  - rewrite (HR ev Ne). destruct (Rltb_spec (1 / ev) 0) as [L|L].
    + assert (ev < 0).
      { destruct (Rtotal_order ev 0) as [?|[?|P]]; [assumption|lra|]. assert (0 < / ev) by (apply Rinv_0_lt_compat; exact P). unfold Rdiv in L. lra. }
      assert (E1 : tau * 1 * ev < 0) by nra. assert (E2 : 1 * ev < 0) by lra.
      destruct (Rltb_spec (tau * 1) 1); split; try lra; try nra.
    + assert (PE : 0 < ev).
      { destruct (Rtotal_order ev 0) as [P|[?|P]]; [|lra|exact P]. assert (/ ev < 0) by (apply Rinv_lt_0_compat; exact P). unfold Rdiv in L. lra. }
      assert (0 < / ev) by (apply Rinv_0_lt_compat; exact PE).
      assert (PT : 0 < tau * (1 / ev)) by (unfold Rdiv; nra).
      assert (EQ : tau * (1 / ev) * ev = tau) by (field; lra).
      destruct (Rltb_spec (tau * (1 / ev)) 1) as [L2|L2].
      * split; [lra|]. cbn [T RNum] in *. rewrite EQ. lra.
      * split; [lra|]. assert (1 <= tau * (1 / ev)) by lra.
        assert (1 * ev <= tau * (1 / ev) * ev) by (apply Rmult_le_compat_r; lra). lra.
Qed.

Lemma alpha_ok (a dA : Mt) (t : R) : symmetric n dA -> alpha (N := RN) p chol inv eigmax recip tau a dA = Some t ->
  0 < t <= 1 /\ pos_def n a /\ pos_def n (fun i j => a i j + t * dA i j).
Proof.
  intros SD. unfold alpha. destruct (chol a) as [l|] eqn:EC; [|discriminate].
  destruct (inv l) as [li|] eqn:EI; [|discriminate]. destruct (eigmax _) as [ev|] eqn:EE; [|discriminate].
  intros E. assert (ET : alpha_of (N := RN) recip tau ev = t) by congruence. clear E.
  destruct (alpha_of_range ev) as (R1 & R2).
  replace (alpha_of (N := RN) recip tau ev) with t in R1 by (symmetry; exact ET).
  replace (alpha_of (N := RN) recip tau ev) with t in R2 by (symmetry; exact ET).
  destruct (Hinv l li EI) as (_ & HI).
  assert (SM : symmetric n (mmul (N := RN) p (mmul (N := RN) p (mneg (N := RN) li) dA) (mtrans (N := RN) li))).
  { intros i j Hi Hj. rewrite !mmul_eq. unfold mtrans, mneg. cbn [nopp RNum].
    change (matmul n (matmul n (fun i j => - li i j) dA) (fun i j => li j i) i j
          = matmul n (matmul n (fun i j => - li i j) dA) (fun i j => li j i) j i).
    unfold matmul.
    transitivity (sum_n n (fun k => sum_n n (fun k0 => - li i k0 * dA k0 k * li j k))).
    - apply sum_n_ext; intros k _. rewrite <- sum_n_scal_r. reflexivity.
    - rewrite sum_n_swap. apply sum_n_ext; intros k0 Hk0. rewrite <- sum_n_scal_r. apply sum_n_ext; intros k Hk.
      rewrite (SD k0 k) by assumption. lra. }
  assert (HE : forall v, quad n (matmul n (matmul n (fun i j => - li i j) dA) (fun i j => li j i)) v <= ev * dotn n v v).
  { intros v. pose proof (Heig _ ev SM EE v) as H. rewrite !mmul_eq in H. exact H. }
  pose proof (congruence n a l li dA ev (Hchol a l EC) HI HE) as K.
  split; [exact R1|]. split.
  - intros v Hv. destruct (K v Hv) as (q & Q & -> & _). exact Q.
  - intros v Hv. destruct (K v Hv) as (q & Q & E1 & E2). rewrite quad_plus, quad_scale, E1.
    assert (t * (- ev * q) <= t * quad n dA v) by (apply Rmult_le_compat_l; [lra|exact E2]).
    assert (0 < (1 - t * ev) * q) by (apply Rmult_lt_0_compat; lra).
    assert (E3 : t * (- ev * q) = (1 - t * ev) * q - q) by ring. lra.
Qed.

Variable syl : Mt -> Mt -> Mt -> Mt.
Variable lsolve : list (list R) -> list R -> option (list R).
Variable normv : list R -> R.
Variable normF : Mt -> R.
Hypothesis Hsyl : syl_ok n syl.
Hypothesis Hsolve : lsolve_ok lsolve.
Hypothesis HAs : forall A, In A (As mx p) -> symmetric n A.
Hypothesis HC : symmetric n (pd_C p).
Hypothesis HsB : length (pd_sB p) = length (pd_sA p).
Hypothesis HdB : length (pd_dB p) = length (pd_dA p).
Variables normXzTol primalTol dualTol : R.
Notation iter := (iteration (N := RN) (sqrt 2) (/ 2) p chol inv eigmax syl lsolve normv normF recip tau normXzTol primalTol dualTol).
Notation conv := (converged (N := RN) (sqrt 2) p normv normF normXzTol primalTol dualTol).

(** what holds of the state in every iteration *)
Definition inv_state (s : pstate (N := RN)) : Prop :=
  symmetric n (ps_X s) /\ pos_def n (ps_X s) /\ symmetric n (ps_Z s) /\ pos_def n (ps_Z s) /\
  length (ps_ys s) = length (pd_sA p) /\ length (ps_yd s) = length (pd_dA p).

Lemma combo_app : forall y1 (l1 : list Mt) y2 l2 i j, length y1 = length l1 ->
  combo (y1 ++ y2) (l1 ++ l2) i j = combo y1 l1 i j + combo y2 l2 i j.
Proof.
  induction y1 as [|c y1 IH]; intros [|A l1] y2 l2 i j L; try discriminate; [change (combo y2 l2 i j = 0 + combo y2 l2 i j); lra|].
  cbn [app]. rewrite !combo_cons, IH by (cbn in L; lia). lra.
Qed.
Lemma combo_step b : forall (y dy : list R) (l : list Mt) i j, length y = length l -> length dy = length l ->
  combo (vadd (N := RN) y (vscale (N := RN) b dy)) l i j = combo y l i j + b * combo dy l i j.
Proof.
  induction y as [|c y IH]; intros [|d dy] [|A l] i j L1 L2; try discriminate; [change (0 = 0 + b * 0); lra|].
  unfold vadd, vscale in *. cbn [map map2]. rewrite !combo_cons. rewrite IH by (cbn in *; lia). cbn. lra.
Qed.
Lemma rc_pred_sym X Z : symmetric n X -> symmetric n Z -> symmetric n (rc_predictor (N := RN) (/ 2) p X Z).
Proof.
  intros SX SZ i j Hi Hj. unfold rc_predictor, mscale, madd. rewrite !mmul_eq. cbn.
  rewrite (matmul_sym n X Z i j), (matmul_sym n Z X i j) by assumption. lra.
Qed.
Lemma rc_corr_sym mu X Z dX dZ : symmetric n X -> symmetric n Z -> symmetric n dX -> symmetric n dZ ->
  symmetric n (rc_corrector (N := RN) (/ 2) p mu X Z dX dZ).
Proof.
  intros SX SZ SdX SdZ i j Hi Hj. unfold rc_corrector, mscale, madd, msub, meye. rewrite !mmul_eq. cbn.
  rewrite (matmul_sym n X Z i j), (matmul_sym n Z X i j), (matmul_sym n dX dZ i j), (matmul_sym n dZ dX i j) by assumption.
  rewrite (Nat.eqb_sym i j). lra.
Qed.

(** one iteration: a corrector direction and two step lengths *)
Definition step_of (s s' : pstate (N := RN)) (a b : R) (dX : Mt) (dy : list R) (dZ : Mt) : Prop :=
  meq n (ps_X s') (fun i j => ps_X s i j + a * dX i j) /\
  meq n (ps_Z s') (fun i j => ps_Z s i j + b * dZ i j) /\
  (forall i j, combo (ps_ys s' ++ ps_yd s') (As mx p) i j = combo (ps_ys s ++ ps_yd s) (As mx p) i j + b * combo dy (As mx p) i j) /\
  ps_obj s' = frob n (pd_C p) (ps_X s').

Lemma mdot_frob (A B : Mt) : mdot (N := RN) p A B = frob n A B.
Proof.
  unfold mdot, frob. rewrite (sum_n_swap n n). refine (eq_trans (msum_R mx n _) _).
  apply sum_n_ext. intros j _. exact (msum_R mx n _).
Qed.

Lemma iteration_ok s X s' c : inv_state s -> iter s = IStep X s' c ->
  X = ps_X s' /\ c = conv (ps_X s') (ps_ys s') (ps_yd s') (ps_Z s') /\ inv_state s' /\
  exists a b Rc dX dy dZ, 0 < a <= 1 /\ 0 < b <= 1 /\
    newton_direction n (pd_C p) (As mx p) (pd_sB p ++ pd_dB p) (ps_X s) (ps_ys s ++ ps_yd s) (ps_Z s) Rc dX dy dZ /\
    step_of s s' a b dX dy dZ.
Proof.
  intros (SX & PX & SZ & PZ & LS & LD) EI. unfold iteration in EI.
  assert (LB : length (pd_sB p ++ pd_dB p) = length (As mx p)).
  { unfold As. rewrite !app_length. f_equal; [exact HsB|exact HdB]. }
  destruct (direction _ _ p syl lsolve s (rc_predictor _ p (ps_X s) (ps_Z s))) as [[[dX0 dy0] dZ0]|] eqn:E0; [|discriminate].
  destruct (direction_ok mx p syl lsolve Hsyl Hsolve HAs HC s _ dX0 dZ0 dy0 SX SZ PZ (rc_pred_sym _ _ SX SZ) LB E0) as (SdX0 & SdZ0 & _).
  destruct (alpha p chol inv eigmax recip tau (ps_X s) dX0) as [a0|] eqn:EA0; [|discriminate].
  destruct (alpha p chol inv eigmax recip tau (ps_Z s) dZ0) as [b0|] eqn:EB0; [|discriminate].
  match type of EI with context[rc_corrector _ p ?m _ _ _ _] => pose (mu := m) end.
  match type of EI with match ?d with _ => _ end = _ => destruct d as [[[dX dy] dZ]|] eqn:E1; [|discriminate] end.
  pose proof (direction_ok mx p syl lsolve Hsyl Hsolve HAs HC s _ dX dZ dy SX SZ PZ (rc_corr_sym mu _ _ _ _ SX SZ SdX0 SdZ0) LB E1) as ND.
  destruct (alpha p chol inv eigmax recip tau (ps_X s) dX) as [a|] eqn:EA; [|discriminate].
  destruct (alpha p chol inv eigmax recip tau (ps_Z s) dZ) as [b|] eqn:EB; [|discriminate].
  pose proof ND as (SdX & SdZ & LY & _).
  destruct (alpha_ok _ _ _ SdX EA) as (Ra & _ & PX'). destruct (alpha_ok _ _ _ SdZ EB) as (Rb & _ & PZ').
  injection EI as <- <- <-. cbn [ps_X ps_Z ps_ys ps_yd ps_obj].
  assert (LY' : length dy = (length (pd_sA p) + length (pd_dA p))%nat) by exact (eq_trans LY (app_length _ _)).
  assert (L1 : length (firstn (length (pd_sA p)) dy) = length (pd_sA p)) by (rewrite firstn_length; lia).
  assert (L2 : length (skipn (length (pd_sA p)) dy) = length (pd_dA p)) by (rewrite skipn_length; lia).
  split; [reflexivity|]. split; [reflexivity|]. split.
  - split; [|split; [|split; [|split; [|split]]]].
    + intros i j Hi Hj. cbn. unfold madd, mscale. cbn. rewrite (SX i j), (SdX i j) by assumption. reflexivity.
    + exact PX'.
    + intros i j Hi Hj. cbn. unfold madd, mscale. cbn. rewrite (SZ i j), (SdZ i j) by assumption. reflexivity.
    + exact PZ'.
    + cbn [ps_ys]. unfold vadd, vscale. rewrite map2_length, map_length. cbn [T RNum] in *. rewrite L1, LS. apply Nat.min_id.
    + cbn [ps_yd]. unfold vadd, vscale. rewrite map2_length, map_length. cbn [T RNum] in *. rewrite L2, LD. apply Nat.min_id.
  - exists a, b, (rc_corrector (N := RN) (/ 2) p mu (ps_X s) (ps_Z s) dX0 dZ0), dX, dy, dZ. split; [exact Ra|]. split; [exact Rb|]. split; [exact ND|].
    split; [|split; [|split]].
    + intros i j _ _. reflexivity.
    + intros i j _ _. reflexivity.
    + intros i j. cbn [ps_ys ps_yd].
      assert (LV : length (vadd (N := RN) (ps_ys s) (vscale (N := RN) b (firstn (length (pd_sA p)) dy))) = length (pd_sA p))
        by (unfold vadd, vscale; rewrite map2_length, map_length; cbn [T RNum] in *; rewrite L1, LS; apply Nat.min_id).
      refine (eq_trans (combo_app _ _ _ _ i j LV) _).
      refine (eq_trans (f_equal2 Rplus (combo_step b (ps_ys s) _ (pd_sA p) i j LS L1) (combo_step b (ps_yd s) _ (pd_dA p) i j LD L2)) _).
      assert (ED : combo dy (As mx p) i j = combo (firstn (length (pd_sA p)) dy) (pd_sA p) i j + combo (skipn (length (pd_sA p)) dy) (pd_dA p) i j).
      { refine (eq_trans _ (combo_app _ (pd_sA p) _ (pd_dA p) i j L1)). rewrite firstn_skipn. reflexivity. }
      rewrite ED. refine (eq_trans _ (eq_sym (f_equal (fun u => u + _) (combo_app (ps_ys s) (pd_sA p) (ps_yd s) (pd_dA p) i j LS)))).
      ring.
    + cbn [ps_obj]. apply mdot_frob.
Qed.

(** the residuals shrink by the same factor everywhere *)
Definition shrunk (s0 s : pstate (N := RN)) : Prop :=
  (exists c, 0 <= c <= 1 /\ forall k A b, nth_error (As mx p) k = Some A -> nth_error (pd_sB p ++ pd_dB p) k = Some b ->
     b - frob n A (ps_X s) = c * (b - frob n A (ps_X s0))) /\
  (exists c, 0 <= c <= 1 /\ meq n (fun i j => pd_C p i j - ps_Z s i j - combo (ps_ys s ++ ps_yd s) (As mx p) i j)
     (fun i j => c * (pd_C p i j - ps_Z s0 i j - combo (ps_ys s0 ++ ps_yd s0) (As mx p) i j))).
Lemma shrunk_refl s : shrunk s s.
Proof. split; exists 1; (split; [lra|]); intros; [lra|]. intros i j _ _. lra. Qed.
Lemma shrunk_step s0 s s' a b Rc dX dy dZ : shrunk s0 s -> 0 < a <= 1 -> 0 < b <= 1 ->
  newton_direction n (pd_C p) (As mx p) (pd_sB p ++ pd_dB p) (ps_X s) (ps_ys s ++ ps_yd s) (ps_Z s) Rc dX dy dZ ->
  step_of s s' a b dX dy dZ -> shrunk s0 s'.
Proof.
  intros ((c1 & R1 & H1) & (c2 & R2 & H2)) Ra Rb (_ & _ & _ & NP & NDu & _) (EX & EZ & EY & _). split.
  - exists ((1 - a) * c1). split; [split; [apply Rmult_le_pos; lra|]|].
    + assert ((1 - a) * c1 <= 1 * c1) by (apply Rmult_le_compat_r; lra). lra.
    + intros k A bb HA Hb. specialize (NP k A bb HA Hb). specialize (H1 k A bb HA Hb).
      rewrite (frob_ext mx p A _ _ EX). rewrite frob_plus, frob_scale.
      replace (frob n A dX) with (bb - frob n A (ps_X s)) by lra. rewrite Rmult_assoc, <- H1. lra.
  - exists ((1 - b) * c2). split; [split; [apply Rmult_le_pos; lra|]|].
    + assert ((1 - b) * c2 <= 1 * c2) by (apply Rmult_le_compat_r; lra). lra.
    + intros i j Hi Hj. specialize (NDu i j Hi Hj). specialize (H2 i j Hi Hj). cbn beta in *.
      rewrite (EZ i j Hi Hj), EY. rewrite Rmult_assoc, <- H2.
      replace (dZ i j) with (pd_C p i j - ps_Z s i j - combo (ps_ys s ++ ps_yd s) (As mx p) i j - combo dy (As mx p) i j) by lra. lra.
Qed.

Variable maxIterations : nat.
Variable cb : CB RN Mt Mt.
Notation loop := (pd_loop (N := RN) (sqrt 2) (/ 2) p chol inv eigmax syl lsolve normv normF recip tau normXzTol primalTol dualTol maxIterations cb).

Lemma loop_ok s0 : forall fuel it t s tr r, inv_state s -> shrunk s0 s -> loop fuel it t s tr = Ret r ->
  inv_state (r_state r) /\ shrunk s0 (r_state r) /\
  (r_state r = s \/ ps_obj (r_state r) = frob n (pd_C p) (ps_X (r_state r))) /\
  (r_exit r = XConverged -> conv (ps_X (r_state r)) (ps_ys (r_state r)) (ps_yd (r_state r)) (ps_Z (r_state r)) = true /\
     ps_obj (r_state r) = frob n (pd_C p) (ps_X (r_state r))).
Proof.
  induction fuel as [|fuel IH]; intros it t s tr r HI HS E; cbn [pd_loop] in E.
  - destruct (_ || _); [|discriminate]. injection E as <-. cbn. repeat split; auto; try apply HI; try apply HS; discriminate.
  - destruct (_ || _).
    { injection E as <-. cbn. split; [exact HI|]. split; [exact HS|]. split; [left; reflexivity|discriminate]. }
    destruct (iter s) as [| |X s' c] eqn:EI.
    + injection E as <-. cbn. split; [exact HI|]. split; [exact HS|]. split; [left; reflexivity|discriminate].
    + injection E as <-. cbn. split; [exact HI|]. split; [exact HS|]. split; [left; reflexivity|discriminate].
    + destruct (iteration_ok s X s' c HI EI) as (EX & EC & HI' & a & b & Rc & dX & dy & dZ & Ra & Rb & ND & ST).
      pose proof (shrunk_step s0 s s' a b Rc dX dy dZ HS Ra Rb ND ST) as HS'.
      destruct ST as (_ & _ & _ & OB). destruct c.
      * injection E as <-. cbn. split; [exact HI'|]. split; [exact HS'|]. split; [right; exact OB|]. intros _. split; [symmetry; exact EC|exact OB].
      * destruct (IH _ _ _ _ _ HI' HS' E) as (A1 & A2 & A3 & A4). split; [exact A1|]. split; [exact A2|]. split; [|exact A4].
        right. destruct A3 as [->|A3]; [exact OB|exact A3].
Qed.
End A.
