(** What one generation of CMAES and of ActiveCMAES does to the distribution. *)
From Coq Require Import List Arith Bool ZArith Reals Lra Lia.
From Verif.Base Require Import Num Vec SortIdx Instances.
From Verif.Model Require Import Common CMAES LRSDP CMAESAdapt.
From Verif.Spec Require Import LpSpec SvecSpec PrimalDualSpec CommonSpec CMAESSpec CMAESDistSpec.
From Verif.Proof Require Import ProximalProof LRSDPProof PrimalDualProof PrimalDualRun LpMore CMAESProof CMAESWeights CMAESDist.
Import ListNotations.
Local Open Scope R_scope.

Section M.
Variable mx : R.
Notation RN := (RNum mx).
Notation weights := (CMAESAdapt.weights (N := RN) ln).

Lemma nofnat_lit : forall k z, Z.of_nat k = z -> nofnat (N := RN) k = IZR z.
Proof. intros k z <-. reflexivity. Qed.
Ltac lits := rewrite ?(nofnat_lit 4 4), ?(nofnat_lit 5 5), ?(nofnat_lit 21 21), ?(nofnat_lit 14 14), ?(nofnat_lit 13 13), ?(nofnat_lit 10 10), ?(nofnat_lit 12 12) by reflexivity.
Ltac unf := unfold CMAESAdapt.dec, two, nN; lits; rewrite ?nofnat_R; cbn [nmul nsub nadd ndiv nsqrt n1 n0 nlt RNum T].

(** The constants are the published ones. *)
Lemma consts_eq : forall n lambda, (1 <= n)%nat -> (2 <= lambda)%nat ->
  let k := cma_consts n (weights lambda) in
  mu_eff (N := RN) ln lambda = k_mueff k /\ c_s (N := RN) ln n lambda = k_cs k /\ d_s (N := RN) ln n lambda = k_ds k /\
  c_c (N := RN) ln n lambda = k_cc k /\ c_1 (N := RN) ln n lambda = k_c1 k /\ c_mu (N := RN) ln n lambda = k_cmu k /\
  enn (N := RN) n = k_enn k /\ h_s (N := RN) n = k_h k.
Proof.
  intros n lambda Hn HL k.
  assert (D : 1 <= INR n) by (change 1 with (INR 1); apply le_INR; exact Hn).
  assert (EM : mu_eff (N := RN) ln lambda = k_mueff k).
  { unfold mu_eff. rewrite vsum_sumR. reflexivity. }
  assert (M1 : 1 <= k_mueff k) by (rewrite <- EM; apply mu_eff_ok; exact HL).
  assert (ES : c_s (N := RN) ln n lambda = k_cs k).
  { unfold c_s. rewrite EM. unf. cbn [k k_cs cma_consts k_mueff]. unfold k; cbn. field. cbn in M1. lra. }
  assert (EN : enn (N := RN) n = k_enn k).
  { unfold enn. unf. unfold k; cbn [k_enn cma_consts]. f_equal. cbn [pow]. rewrite Rmult_1_r. reflexivity. }
  assert (E1 : c_1 (N := RN) ln n lambda = k_c1 k).
  { unfold c_1. rewrite EM. unf. unfold k; cbn [k_c1 k_mueff cma_consts]. cbn [pow]. f_equal; lra. }
  split; [exact EM|]. split; [exact ES|]. split; [|split; [|split; [exact E1|split; [|split; [exact EN|]]]]].
  - unfold d_s. rewrite ES, EM. unf. unfold k; cbn [k_ds k_mueff k_cs cma_consts]. set (m := mueff _). set (cs := _ / _).
    set (a := sqrt _ - 1). unfold Rmax. destruct (Rltb_spec a 0), (Rle_dec a 0); lra.
  - unfold c_c. rewrite EM. unf. unfold k; cbn [k_cc k_mueff cma_consts]. reflexivity.
  - unfold c_mu. rewrite E1, EM. unf. set (c1 := k_c1 k). unfold k; cbn [k_cmu k_mueff cma_consts k_c1].
    change (2 / ((INR n + 1.3) ^ 2 + mueff (weights lambda))) with c1. set (m := mueff _) in *.
    match goal with |- (if Rltb ?b _ then _ else _) = Rmin _ ?b' => assert (EB : b = b') end.
    { change (k_mueff k) with m in M1. cbn [pow]. field. split; nra. }
    rewrite EB. set (b := 2 * _ / _). unfold Rmin. destruct (Rltb_spec b (1 - c1)), (Rle_dec (1 - c1) b); lra.
  - unfold h_s. rewrite EN. unf. unfold k; cbn [k_h k_enn cma_consts]. reflexivity.
Qed.

Variables (n lambda fuel : nat) (eps : R).
Variable chol : Mt -> option Mt.
Variable eig : Mt -> list R * Mt.
Hypothesis Hn : (1 <= n)%nat.
Hypothesis HL : (2 <= lambda)%nat.
Hypothesis Heps : 0 < eps.
Hypothesis Hfuel : (2 <= fuel)%nat.
Hypothesis Hchol : chol_lower n chol.
Hypothesis Heig : eig_sym n eig.

Notation settled := (settled (N := RN) eps chol fuel).
Notation adapt := (adapt (N := RN) ln exp eps chol eig n lambda fuel).
Notation active_adapt := (active_adapt (N := RN) exp eps chol eig n lambda fuel).
Notation dist := (dist (N := RN)).

Lemma combine_weights idx : Forall (fun q : R * nat => 0 <= fst q) (combine (weights lambda) idx).
Proof.
  destruct (weights_ok mx lambda HL) as (_ & P & _). apply Forall_forall. intros [a k] H. apply in_combine_l in H.
  rewrite Forall_forall in P. left. apply P. exact H.
Qed.

(** the matrix before the repair is a covariance matrix, so the repair does nothing *)
Lemma new_cov (C : Mt) (s : bool) pc steps idx : covariance n C ->
  covariance n (add_steps (N := RN) (c_mu (N := RN) ln n lambda) (rank_one (N := RN) ln n lambda s C pc) steps (combine (weights lambda) idx)).
Proof.
  intros [S P]. destruct (constants_ok mx n lambda Hn HL) as (_ & _ & CC & _ & C1 & CM & SUM).
  assert (P2 : 0 <= c_c (N := RN) ln n lambda * (2 - c_c (N := RN) ln n lambda)) by nra.
  set (c1 := c_1 (N := RN) ln n lambda) in *. set (cm := c_mu (N := RN) ln n lambda) in *. set (cc := c_c (N := RN) ln n lambda) in *.
  set (q := if s then 0 else cc * (2 - cc)).
  assert (Hq : 0 <= q) by (unfold q; destruct s; lra).
  apply (cov_ext n (fun i j => ((1 - c1 - cm) * C i j + c1 * (elR pc i * elR pc j + q * C i j)) + spread_of cm steps (combine (weights lambda) idx) i j)).
  - intros i j _ _. rewrite (add_steps_eq mx). f_equal. unfold rank_one, outer, two. fold c1 cm cc. cbn [nadd nmul nsub n1 RNum].
    change (el (N := RN)) with elR. unfold q. replace (1 + 1) with 2 by lra. destruct s; lra.
  - destruct (spread_cov n cm steps (combine (weights lambda) idx) CM (combine_weights idx)) as [S2 Q2]. split.
    + intros i j Hi Hj. rewrite (S i j Hi Hj), (S2 i j Hi Hj). lra.
    + intros v. rewrite quad_plus, quad_plus, quad_scale, quad_scale, quad_plus, quad_scale, quad_outer.
      specialize (P v). specialize (Q2 v). pose proof (Rle_0_sqr (dotn n (elR pc) v)) as Q. unfold Rsqr in Q.
      apply Rplus_le_le_0_compat; [|exact Q2]. apply Rplus_le_le_0_compat; [apply Rmult_le_pos; lra|].
      apply Rmult_le_pos; [lra|]. apply Rplus_le_le_0_compat; [exact Q|apply Rmult_le_pos; assumption].
Qed.

Definition sized (a : dist) : Prop := length (d_ps a) = n /\ length (d_pc a) = n.

Lemma el_vadd : forall (a b : list R) p, length a = n -> length b = n -> (p < n)%nat ->
  elR (vadd (N := RN) a b) p = elR a p + elR b p.
Proof.
  intros a b p La Lb Hp. unfold elR, vadd. rewrite <- La in Lb, Hp. clear La. revert b p Lb Hp.
  induction a as [|x a IH]; intros [|y b] p Lb Hp; cbn in *; try lia. destruct p; [reflexivity|]. apply IH; lia.
Qed.
Lemma el_vscale : forall (c : R) (a : list R) p, elR (vscale (N := RN) c a) p = c * elR a p.
Proof.
  intros c a p. unfold elR, vscale. revert p. induction a as [|x a IH]; intros [|p]; cbn; try lra. apply IH.
Qed.
Lemma len_vadd : forall (a b : list R), length a = n -> length b = n -> length (vadd (N := RN) a b) = n.
Proof. intros a b La Lb. unfold vadd. etransitivity; [apply map2_length|]. etransitivity; [exact (f_equal2 Nat.min La Lb)|]. apply Nat.min_id. Qed.
Lemma len_vscale : forall (c : R) (a : list R), length (vscale (N := RN) c a) = length a.
Proof. intros c a. exact (map_length _ a). Qed.

Lemma spread_scale : forall (c : R) steps (wi : list (R * nat)) p q,
  spread_of c steps wi p q = c * sumR (map (fun e => fst e * elR (nth (snd e) steps []) p * elR (nth (snd e) steps []) q) wi).
Proof.
  intros c steps wi p q. unfold spread_of. induction wi as [|e wi IH]; cbn [map sumR]; [lra|]. rewrite IH. lra.
Qed.
Lemma norm2_eq : forall v, norm2 (N := RN) n v = norm_n n v.
Proof.
  intros v. unfold norm2, norm_n. rewrite msum_R. cbn [nsqrt RNum]. f_equal. apply sum_n_ext. intros i _.
  change (el (N := RN)) with elR. cbn [nmul RNum pow]. lra.
Qed.
Lemma npow_eq : forall x k, npow (N := RN) x k = x ^ k.
Proof. intros x k. induction k as [|k IH]; [reflexivity|]. cbn [npow pow]. rewrite IH. reflexivity. Qed.

Lemma adapt_ok : forall i (a : dist) sigma steps idx step, covariance n (d_C a) -> sized a -> length step = n ->
  let r := adapt i a sigma steps idx step in
  covariance n (d_C (fst r)) /\ sized (fst r) /\
  cma_update n (weights lambda) i (settled (d_C a)) (d_ps a) (d_pc a) sigma steps idx step
    (d_C (fst r)) (d_ps (fst r)) (d_pc (fst r)) (snd r).
Proof.
  intros i a sigma steps idx step HC [L1 L2] LS. cbv zeta.
  destruct (settled_ok mx n fuel eps chol Heps Hfuel Hchol (d_C a) HC) as (_ & HC' & HP).
  set (C := settled (d_C a)) in *.
  assert (E : adapt i a sigma steps idx step =
    (let ps := next_ps (N := RN) eig n (c_s (N := RN) ln n lambda) (mu_eff (N := RN) ln lambda) C (d_ps a) step in
     let s := slow (N := RN) ln n lambda i (norm2 (N := RN) n ps) in
     let pc := next_pc (N := RN) ln n lambda s (d_pc a) step in
     ({| d_C := CMAESAdapt.repair (N := RN) eig (add_steps (N := RN) (c_mu (N := RN) ln n lambda) (rank_one (N := RN) ln n lambda s C pc) steps (combine (weights lambda) idx));
         d_ps := ps; d_pc := pc |}, next_sigma (N := RN) exp n (c_s (N := RN) ln n lambda) (d_s (N := RN) ln n lambda) sigma ps))) by reflexivity.
  rewrite E. clear E. cbv zeta. cbn [fst snd d_C d_ps d_pc].
  destruct (whiten_ok mx n eig Heig C step (proj1 HC') HP) as [LW SW].
  destruct (consts_eq n lambda Hn HL) as (K1 & K2 & K3 & K4 & K5 & K6 & K7 & K8).
  set (ps := next_ps _ _ _ _ _ _ _). set (s := slow _ _ _ _ _). set (pc := next_pc _ _ _ _ _ _).
  pose proof (new_cov C s pc steps idx HC') as NC.
  destruct (repair_cases mx n fuel eig Hfuel Heig _ (proj1 NC)) as [[_ ->]|[[v Hv] _]].
  2: { exfalso. pose proof (proj2 NC v). lra. }
  assert (LP : length ps = n). { unfold ps, next_ps. apply len_vadd; rewrite len_vscale; assumption. }
  assert (LC : length pc = n). { unfold pc, next_pc. destruct s; [apply len_vadd; rewrite len_vscale; assumption|rewrite len_vscale; assumption]. }
  split; [exact NC|]. split; [split; assumption|].
  unfold cma_update. cbv zeta. set (k := cma_consts n (weights lambda)) in *.
  assert (PC : forall p, (p < n)%nat -> elR pc p = (1 - k_cc k) * elR (d_pc a) p + (if s then sqrt (k_cc k * (2 - k_cc k) * k_mueff k) * elR step p else 0)).
  { intros p Hp. unfold pc, next_pc, two. rewrite K1, K4. replace (nadd (n := RN) n1 n1) with 2 by (cbn; lra). cbn [nsub nmul n1 nsqrt RNum]. destruct s.
    - rewrite el_vadd by (rewrite ?len_vscale; assumption). rewrite !el_vscale. reflexivity.
    - rewrite el_vscale. lra. }
  assert (CE : forall p q, add_steps (N := RN) (c_mu (N := RN) ln n lambda) (rank_one (N := RN) ln n lambda s C pc) steps (combine (weights lambda) idx) p q =
     (1 - k_c1 k - k_cmu k) * C p q + k_c1 k * (elR pc p * elR pc q + (if s then 0 else k_cc k * (2 - k_cc k) * C p q)) +
     k_cmu k * sumR (map (fun e => fst e * elR (nth (snd e) steps []) p * elR (nth (snd e) steps []) q) (combine (weights lambda) idx))).
  { intros p q. rewrite (add_steps_eq mx). f_equal.
    - unfold rank_one, outer, two. rewrite K4, K5, K6. replace (nadd (n := RN) n1 n1) with 2 by (cbn; lra). cbn [nadd nmul nsub n1 RNum].
      change (el (N := RN)) with elR. destruct s; lra.
    - rewrite K6. apply spread_scale. }
  assert (SM : s = true <-> norm_n n ps / sqrt (1 - (1 - k_cs k) ^ (2 * i)) < k_h k).
  { unfold s, slow. rewrite norm2_eq, npow_eq, K2, K8. cbn [nlt ndiv nsub nsqrt n1 RNum].
    match goal with |- Rltb ?x ?y = true <-> _ => destruct (Rltb_spec x y) as [X|X] end; split; intros; try assumption; try reflexivity; try discriminate; contradiction. }
  split; [|split; [|split]].
  - exists (elR (whiten (N := RN) eig n C step)). split; [exact SW|]. intros p Hp. unfold ps, next_ps, two.
    rewrite K1, K2. replace (nadd (n := RN) n1 n1) with 2 by (cbn; lra). cbn [nsub nmul n1 nsqrt RNum].
    rewrite el_vadd by (rewrite ?len_vscale; assumption). rewrite !el_vscale. reflexivity.
  - unfold next_sigma. rewrite norm2_eq, K2, K3, K7. reflexivity.
  - intros SMALL. apply SM in SMALL. split.
    + intros p Hp. rewrite PC by exact Hp. rewrite SMALL. reflexivity.
    + intros p q _ _. rewrite CE, SMALL. cbv beta iota. rewrite Rplus_0_r. reflexivity.
  - intros NS. assert (SF : s = false) by (destruct s; [exfalso; apply NS; apply SM; reflexivity|reflexivity]). split.
    + intros p Hp. rewrite PC by exact Hp. rewrite SF. lra.
    + intros p q _ _. rewrite CE, SF. reflexivity.
Qed.

Lemma start_ok : covariance n (d_C (dist0 (N := RN) n)) /\ sized (dist0 (N := RN) n).
Proof. split; [exact (cov_eye n)|]. split; cbn; apply repeat_length. Qed.

Lemma reach_ok : forall s0 i a s, 0 < s0 -> reach adapt n (dist0 (N := RN) n) s0 i a s ->
  covariance n (d_C a) /\ sized a /\ 0 < s.
Proof.
  intros s0 i a s H0 H. induction H as [|i a s steps idx step a' s' H IH LS E].
  - destruct start_ok. auto.
  - destruct IH as (C & Z & P). pose proof (adapt_ok (S i) a s steps idx step C Z LS) as X. rewrite <- E in X. cbn [fst snd] in X.
    destruct X as (X1 & X2 & _ & XS & _). split; [exact X1|]. split; [exact X2|]. rewrite XS. apply Rmult_lt_0_compat; [exact P|apply exp_pos].
Qed.

(** ** Sampling *)
Lemma sample_ok : forall z i (a : dist), covariance n (d_C a) ->
  exists L draws, sample (N := RN) eps chol z n lambda fuel i a = Some draws /\ length draws = lambda /\
    (settled (d_C a) = d_C a \/ meq n (settled (d_C a)) (fun p q => d_C a p q + eps * idm p q)) /\
    meq n (settled (d_C a)) (matmul n L (fun p q => L q p)) /\
    forall j, (j < lambda)%nat -> length (nth j draws []) = n /\
      forall p, (p < n)%nat -> elR (nth j draws []) p = sum_n n (fun q => L p q * elR (z i j) q).
Proof.
  intros z i a HC. destruct (settle_ok mx n fuel eps chol Heps Hfuel Hchol (d_C a) HC) as (C' & L & E & H1 & H2 & H3 & H4).
  exists L. unfold sample. unfold CMAESAdapt.settled. rewrite E.
  eexists. split; [reflexivity|]. split; [rewrite map_length, seq_length; reflexivity|].
  split; [destruct H1 as [H1|[_ H1]]; auto|]. split; [apply (Hchol C' (proj1 H2)); exact H4|].
  intros j Hj.
  assert (EN : nth j (map (fun j => CMAESAdapt.mvec (N := RN) n L (z i j)) (seq 0 lambda)) [] = CMAESAdapt.mvec (N := RN) n L (z i j)).
  { rewrite (nth_indep _ [] (CMAESAdapt.mvec (N := RN) n L (z i 0%nat))) by (rewrite map_length, seq_length; exact Hj).
    rewrite (map_nth (fun j => CMAESAdapt.mvec (N := RN) n L (z i j))). rewrite seq_nth by exact Hj. reflexivity. }
  rewrite EN. unfold CMAESAdapt.mvec. split; [rewrite map_length, seq_length; reflexivity|].
  intros p Hp. unfold elR at 1. rewrite (el_map_seq n _ p Hp). rewrite msum_R. reflexivity.
Qed.

(** ** ActiveCMAES *)
Lemma active_sym (C : Mt) pc steps idx : symmetric n C -> symmetric n (active_C (N := RN) n lambda C pc steps idx).
Proof.
  intros S. unfold active_C.
  assert (G : forall (c : R) l (B : Mt), symmetric n B ->
    symmetric n (fold_left (fun C k => fun i j => nadd (n := RN) (C i j) (nmul (n := RN) (nmul (n := RN) c (el (N := RN) (nth k steps []) i)) (el (N := RN) (nth k steps []) j))) l B) /\
    symmetric n (fold_left (fun C k => fun i j => nsub (n := RN) (C i j) (nmul (n := RN) (nmul (n := RN) c (el (N := RN) (nth k steps []) i)) (el (N := RN) (nth k steps []) j))) l B)).
  { intros c l. induction l as [|k l IH]; intros B HB; [split; exact HB|]. cbn [fold_left]. split; apply IH.
    - intros i j Hi Hj. cbn [nadd nmul RNum]. rewrite (HB i j Hi Hj). lra.
    - intros i j Hi Hj. cbn [nsub nmul RNum]. rewrite (HB i j Hi Hj). lra. }
  apply G. apply G. intros i j Hi Hj. unfold outer. cbn [nadd nmul nsub n1 RNum]. rewrite (S i j Hi Hj). lra.
Qed.
Lemma active_eq (C : Mt) pc steps idx i j :
  let c := beta (N := RN) n lambda * aw (N := RN) lambda in
  active_C (N := RN) n lambda C pc steps idx i j =
  (1 - c_cov (N := RN) n) * C i j + c_cov (N := RN) n * (elR pc i * elR pc j) +
  c * sumR (map (fun k => elR (nth k steps []) i * elR (nth k steps []) j) (firstn (lambda / 4) idx)) -
  c * sumR (map (fun k => elR (nth k steps []) i * elR (nth k steps []) j) (skipn (lambda - lambda / 4) idx)).
Proof.
  cbv zeta. unfold active_C, amu. cbn [nadd nmul nsub n1 RNum].
  change (el (N := RN)) with elR. unfold outer. change (el (N := RN)) with elR. cbn [nmul RNum].
  set (c := beta (N := RN) n lambda * aw (N := RN) lambda).
  assert (G1 : forall l (B : Mt), fold_left (fun (C0 : Mt) k => fun i j => C0 i j + c * elR (nth k steps []) i * elR (nth k steps []) j) l B i j =
     B i j + c * sumR (map (fun k => elR (nth k steps []) i * elR (nth k steps []) j) l)).
  { intros l. induction l as [|k l IH]; intros B; cbn [fold_left map sumR]; [lra|]. rewrite IH. lra. }
  assert (G2 : forall l (B : Mt), fold_left (fun (C0 : Mt) k => fun i j => C0 i j - c * elR (nth k steps []) i * elR (nth k steps []) j) l B i j =
     B i j - c * sumR (map (fun k => elR (nth k steps []) i * elR (nth k steps []) j) l)).
  { intros l. induction l as [|k l IH]; intros B; cbn [fold_left map sumR]; [lra|]. rewrite IH. lra. }
  etransitivity; [apply G2|]. rewrite G1. reflexivity.
Qed.

Lemma active_adapt_C : forall i (a : dist) sigma steps idx step,
  let r := active_adapt i a sigma steps idx step in
  d_C (fst r) = CMAESAdapt.repair (N := RN) eig (active_C (N := RN) n lambda (settled (d_C a)) (d_pc (fst r)) steps idx) /\
  exists e, snd r = sigma * exp e.
Proof. intros. split; [reflexivity|]. eexists. reflexivity. Qed.

Lemma active_ok : forall i (a : dist) sigma steps idx step, covariance n (d_C a) ->
  let r := active_adapt i a sigma steps idx step in
  let B := active_C (N := RN) n lambda (settled (d_C a)) (d_pc (fst r)) steps idx in
  covariance n (d_C (fst r)) /\
  ((forall v, 0 <= quad n B v) -> d_C (fst r) = B) /\
  (forall v, quad n B v < 0 -> d_C (fst r) = fun _ _ => 0).
Proof.
  intros i a sigma steps idx step HC. cbv zeta.
  destruct (active_adapt_C i a sigma steps idx step) as [E _]. cbv zeta in E. rewrite E.
  set (B := active_C _ _ _ _ _ _).
  destruct (settled_ok mx n fuel eps chol Heps Hfuel Hchol (d_C a) HC) as (_ & HC' & HP).
  assert (S : symmetric n B) by (apply active_sym; apply HC').
  split; [apply (repair_cov mx n fuel eig Hfuel Heig B S)|].
  destruct (repair_cases mx n fuel eig Hfuel Heig B S) as [[P ->]|[[v0 V] ->]]; split; intros H; auto.
  - intros Hv. exfalso. specialize (P H). lra.
  - exfalso. specialize (H v0). lra.
Qed.
Lemma active_reach_ok : forall s0 i a s, 0 < s0 -> reach active_adapt n (dist0 (N := RN) n) s0 i a s ->
  covariance n (d_C a) /\ 0 < s.
Proof.
  intros s0 i a s H0 H. induction H as [|i a s steps idx step a' s' H IH LS E].
  - destruct start_ok. auto.
  - destruct IH as (C & P). pose proof (active_ok (S i) a s steps idx step C) as (X & _).
    destruct (active_adapt_C (S i) a s steps idx step) as [_ [e XE]]. rewrite <- E in X, XE. cbn [fst snd] in X, XE.
    split; [exact X|]. rewrite XE. apply Rmult_lt_0_compat; [exact P|apply exp_pos].
Qed.
(** the constants and the paths of ActiveCMAES *)
Lemma active_consts : (1 <= n)%nat -> let d := INR n in let m := INR (lambda / 4) in
  aw (N := RN) lambda = 1 / m /\ ac_s (N := RN) n = 4 / (d + 4) /\ ad_s (N := RN) n = 1 + 4 / (d + 4) /\
  c_cov (N := RN) n = 2 / (d + sqrt 2) ^ 2 /\ beta (N := RN) n lambda = (4 * m - 2) / ((d + 12) ^ 2 + 4 * m).
Proof.
  intros _ d m. unfold ad_s, ac_s, aw, c_cov, beta, amu. unf. fold d m. replace (1 + 1) with 2 by lra. cbn [pow]. rewrite !Rmult_1_r. auto.
Qed.
Lemma active_paths : forall i (a : dist) sigma steps idx step, covariance n (d_C a) -> sized a -> length step = n ->
  let r := active_adapt i a sigma steps idx step in
  let c := 4 / (INR n + 4) in
  let m := INR (lambda / 4) in
  sized (fst r) /\
  (exists y, solves n (settled (d_C a)) y (elR step) /\
     forall p, (p < n)%nat -> elR (d_ps (fst r)) p = (1 - c) * elR (d_ps a) p + sqrt (c * (2 - c) * m) * y p) /\
  (forall p, (p < n)%nat -> elR (d_pc (fst r)) p = (1 - c) * elR (d_pc a) p + sqrt (c * (2 - c) * m) * elR step p) /\
  snd r = sigma * exp (c / (1 + c) * (norm_n n (d_ps (fst r)) / k_enn (cma_consts n (weights lambda)) - 1)).
Proof.
  intros i a sigma steps idx step HC [L1 L2] LS. cbv zeta.
  destruct (active_consts Hn) as (_ & A2 & A3 & _).
  destruct (consts_eq n lambda Hn HL) as (_ & _ & _ & _ & _ & _ & K7 & _).
  destruct (settled_ok mx n fuel eps chol Heps Hfuel Hchol (d_C a) HC) as (_ & HC' & HP).
  destruct (whiten_ok mx n eig Heig (settled (d_C a)) step (proj1 HC') HP) as [LW SW].
  set (r := active_adapt i a sigma steps idx step).
  assert (EP : d_ps (fst r) = next_ps (N := RN) eig n (ac_s (N := RN) n) (nofnat (N := RN) (amu lambda)) (settled (d_C a)) (d_ps a) step) by reflexivity.
  assert (EC : d_pc (fst r) = vadd (N := RN) (vscale (N := RN) (nsub (n := RN) n1 (ac_s (N := RN) n)) (d_pc a))
    (vscale (N := RN) (nsqrt (n := RN) (nmul (n := RN) (nmul (n := RN) (ac_s (N := RN) n) (nsub (n := RN) (two (N := RN)) (ac_s (N := RN) n))) (nofnat (N := RN) (amu lambda)))) step)) by reflexivity.
  assert (ES : snd r = next_sigma (N := RN) exp n (ac_s (N := RN) n) (ad_s (N := RN) n) sigma (d_ps (fst r))) by reflexivity.
  rewrite A2, nofnat_R in EP, EC. rewrite A2, A3 in ES. unfold amu, two in EP, EC. unfold next_ps, two in EP.
  replace (nadd (n := RN) n1 n1) with 2 in EP, EC by (cbn; lra). cbn [nsub nmul n1 nsqrt RNum] in EP, EC.
  split; [|split; [|split]].
  - split; [rewrite EP|rewrite EC]; apply len_vadd; rewrite len_vscale; assumption.
  - exists (elR (whiten (N := RN) eig n (settled (d_C a)) step)). split; [exact SW|]. intros p Hp. rewrite EP.
    rewrite el_vadd by (rewrite ?len_vscale; assumption). rewrite !el_vscale. reflexivity.
  - intros p Hp. rewrite EC. rewrite el_vadd by (rewrite ?len_vscale; assumption). rewrite !el_vscale. reflexivity.
  - rewrite ES. unfold next_sigma. rewrite norm2_eq, K7. reflexivity.
Qed.
Lemma active_reach_sized : forall s0 i a s, reach active_adapt n (dist0 (N := RN) n) s0 i a s -> covariance n (d_C a) /\ sized a.
Proof.
  intros s0 i a s H. induction H as [|i a s steps idx step a' s' H IH LS E]; [apply start_ok|].
  destruct IH as (C & Z). pose proof (active_ok (S i) a s steps idx step C) as (X & _). cbv zeta in X.
  pose proof (active_paths (S i) a s steps idx step C Z LS) as (Y & _). rewrite <- E in X, Y. split; [exact X|exact Y].
Qed.
(** after the reset the next population is drawn from eps times the identity *)
Lemma after_reset : meq n (settled (fun _ _ => 0)) (fun p q => eps * idm p q).
Proof.
  destruct (settled_ok mx n fuel eps chol Heps Hfuel Hchol _ (cov_zero n)) as ([E|[_ E]] & _ & P).
  - exfalso. rewrite E in P. assert (X : 0 < quad n (fun _ _ => 0) (fun _ => 1)) by (apply P; exists 0%nat; split; [lia|lra]).
    rewrite quad_zero in X. lra.
  - intros p q Hp Hq. rewrite E by assumption. unfold CMAESDist.shifted. lra.
Qed.
End M.
