(** The covariance matrix of CMA-ES over the reals. *)
From Coq Require Import List Arith Bool ZArith Reals Lra Lia.
From Verif.Base Require Import Num Vec Instances.
From Verif.Model Require Import Common CMAES LRSDP CMAESAdapt.
From Verif.Spec Require Import LpSpec SvecSpec PrimalDualSpec CMAESDistSpec.
From Verif.Proof Require Import ProximalProof LRSDPProof PrimalDualProof PrimalDualRun LpMore CMAESWeights.
Import ListNotations.
Local Open Scope R_scope.

(** ** Quadratic forms *)
Lemma quad_outer n a v : quad n (fun i j => a i * a j) v = dotn n a v * dotn n a v.
Proof.
  unfold quad, dotn. rewrite <- sum_n_scal_r. apply sum_n_ext; intros i _.
  rewrite <- sum_n_scal. apply sum_n_ext; intros j _. lra.
Qed.
Lemma quad_id n v : quad n idm v = dotn n v v.
Proof. rewrite quad_dotn. apply dotn_ext; [reflexivity|]. intros i Hi. apply (mvec_id n v i Hi). Qed.
Lemma sq_pos n v : (exists i, (i < n)%nat /\ v i <> 0) -> 0 < dotn n v v.
Proof.
  intros (i & Hi & H). unfold dotn.
  assert (P : forall k, (k < n)%nat -> 0 <= v k * v k) by (intros; apply Rle_0_sqr).
  destruct (sum_n_nonneg n (fun k => v k * v k) P) as [G|G]; [exact G|]. exfalso.
  pose proof (sum_n_zero_each n _ P (eq_sym G) i Hi) as Z. cbv beta in Z. nra.
Qed.
Lemma quad_zero n v : quad n (fun _ _ => 0) v = 0.
Proof.
  unfold quad. rewrite (sum_n_ext n _ (fun _ => 0)); [apply sum_n_zero|]. intros i _.
  rewrite (sum_n_ext n _ (fun _ => 0)); [apply sum_n_zero|]. intros j _. lra.
Qed.
Lemma cov_eye n : covariance n idm.
Proof.
  split.
  - intros i j _ _. unfold idm. rewrite Nat.eqb_sym. reflexivity.
  - intros v. rewrite quad_id. apply sum_n_nonneg. intros; apply Rle_0_sqr.
Qed.
Lemma cov_zero n : covariance n (fun _ _ => 0).
Proof. split; [intros i j _ _; reflexivity|]. intros v. rewrite quad_zero. lra. Qed.
Lemma cov_ext n A B : meq n A B -> covariance n A -> covariance n B.
Proof.
  intros E [S P]. split; [|intros v; rewrite <- (quad_ext n A B v E); apply P].
  intros i j Hi Hj. rewrite <- !E by assumption. apply S; assumption.
Qed.

(** ** Spectral decomposition *)
Section Spec.
Variable n : nat.
Variables (l : list R) (V A : Mt).
Hypothesis HV : meq n (matmul n (fun i j => V j i) V) idm.
Hypothesis HV' : meq n (matmul n V (fun i j => V j i)) idm.
Hypothesis HA : meq n A (fun i j => sum_n n (fun k => V i k * elR l k * V j k)).
Definition coord (v : nat -> R) (k : nat) : R := sum_n n (fun i => V i k * v i).

Lemma quad_spec v : quad n A v = sum_n n (fun k => elR l k * (coord v k * coord v k)).
Proof.
  rewrite (quad_ext n A _ v HA). unfold quad.
  transitivity (sum_n n (fun i => sum_n n (fun k => V i k * v i * (elR l k * coord v k)))).
  - apply sum_n_ext; intros i _.
    transitivity (sum_n n (fun j => sum_n n (fun k => v i * (V i k * elR l k * V j k) * v j))).
    + apply sum_n_ext; intros j _. rewrite <- sum_n_scal, <- sum_n_scal_r. reflexivity.
    + rewrite sum_n_swap. apply sum_n_ext; intros k _. unfold coord. rewrite <- sum_n_scal, <- sum_n_scal.
      apply sum_n_ext; intros j _. lra.
  - rewrite sum_n_swap. apply sum_n_ext; intros k _. rewrite sum_n_scal_r. fold (coord v k). lra.
Qed.
Lemma coord_col m k : (m < n)%nat -> (k < n)%nat -> coord (fun i => V i m) k = if Nat.eqb k m then 1 else 0.
Proof. intros Hm Hk. exact (HV k m Hk Hm). Qed.
Lemma quad_col m : (m < n)%nat -> quad n A (fun i => V i m) = elR l m.
Proof.
  intros Hm. rewrite quad_spec.
  rewrite (sum_n_ext n _ (fun k => (if Nat.eqb m k then 1 else 0) * elR l k)).
  - apply sum_n_delta. exact Hm.
  - intros k Hk. rewrite coord_col by assumption. rewrite Nat.eqb_sym. destruct (Nat.eqb m k); lra.
Qed.
Lemma col_nonzero m : (m < n)%nat -> exists i, (i < n)%nat /\ V i m <> 0.
Proof.
  intros Hm. destruct (Forall_Exists_dec (fun i => V i m = 0) (fun i => Req_EM_T (V i m) 0) (seq 0 n)) as [F|E].
  - exfalso. pose proof (coord_col m m Hm Hm) as C. rewrite Nat.eqb_refl in C. unfold coord in C.
    rewrite (sum_n_ext n _ (fun _ => 0)) in C.
    + rewrite sum_n_zero in C. lra.
    + intros i Hi. rewrite Forall_forall in F. rewrite (F i); [lra|]. apply in_seq. lia.
  - apply Exists_exists in E as (i & Hi & H). exists i. apply in_seq in Hi. split; [lia|exact H].
Qed.
Lemma expand w i : (i < n)%nat -> sum_n n (fun k => V i k * coord w k) = w i.
Proof.
  intros Hi. transitivity (mvec n (matmul n V (fun i j => V j i)) w i); [rewrite mvec_matmul; reflexivity|].
  rewrite (mvec_ext n _ idm w w i Hi HV' (fun _ _ => eq_refl)). apply (mvec_id n w i Hi).
Qed.
(** A times the vector with coordinates y *)
Lemma apply_spec y i : (i < n)%nat ->
  sum_n n (fun j => A i j * sum_n n (fun k => V j k * y k)) = sum_n n (fun k => V i k * (elR l k * y k)).
Proof.
  intros Hi.
  transitivity (sum_n n (fun m => V i m * elR l m * coord (fun j => sum_n n (fun k => V j k * y k)) m)).
  - transitivity (sum_n n (fun j => sum_n n (fun m => V i m * elR l m * V j m * sum_n n (fun k => V j k * y k)))).
    + apply sum_n_ext; intros j Hj. rewrite HA by assumption. rewrite <- sum_n_scal_r. reflexivity.
    + rewrite sum_n_swap. apply sum_n_ext; intros m _. unfold coord. rewrite <- sum_n_scal. apply sum_n_ext; intros j _. lra.
  - apply sum_n_ext; intros m Hm.
    assert (E : coord (fun j => sum_n n (fun k => V j k * y k)) m = y m); [|rewrite E; lra].
    unfold coord. transitivity (sum_n n (fun k => matmul n (fun i j => V j i) V m k * y k)).
    + transitivity (sum_n n (fun j => sum_n n (fun k => V j m * V j k * y k))).
      * apply sum_n_ext; intros j _. rewrite <- sum_n_scal. apply sum_n_ext; intros k _. lra.
      * rewrite sum_n_swap. apply sum_n_ext; intros k _. unfold matmul. rewrite <- sum_n_scal_r. reflexivity.
    + rewrite (sum_n_ext n _ (fun k => (if Nat.eqb m k then 1 else 0) * y k)); [apply sum_n_delta; exact Hm|].
      intros k Hk. rewrite (HV m k Hm Hk). reflexivity.
Qed.
End Spec.

Section Dist.
Variable mx : R.
Notation RN := (RNum mx).
Variables (n lambda fuel : nat) (eps : R).
Variable chol : Mt -> option Mt.
Variable eig : Mt -> list R * Mt.
Hypothesis Heps : 0 < eps.
Hypothesis Hfuel : (2 <= fuel)%nat.
Hypothesis Hchol : chol_lower n chol.
Hypothesis Heig : eig_sym n eig.

Notation settle := (settle (N := RN) eps chol).
Notation settled := (settled (N := RN) eps chol fuel).
Notation repair := (repair (N := RN) eig).

(** ** The Cholesky loop *)
Definition shifted (C : Mt) : Mt := fun i j => C i j + eps * idm i j.

Lemma shifted_pd C : covariance n C -> symmetric n (shifted C) /\ pos_def n (shifted C).
Proof.
  intros [S P]. split.
  - intros i j Hi Hj. unfold shifted. rewrite (S i j Hi Hj). unfold idm. rewrite (Nat.eqb_sym i j). reflexivity.
  - intros v Hv. unfold shifted. rewrite quad_plus, quad_scale, quad_id. pose proof (sq_pos n v Hv). specialize (P v). nra.
Qed.
Lemma shift_fun C : meq n (fun i j => if Nat.eqb i j then C i j + eps else C i j) (shifted C).
Proof. intros i j _ _. unfold shifted, idm. destruct (Nat.eqb i j); lra. Qed.

Definition bump (C : Mt) : Mt := fun i j => if Nat.eqb i j then C i j + eps else C i j.
Lemma settle_S k C : settle (S k) C = match chol C with Some L => Some (C, L) | None => settle k (bump C) end.
Proof. reflexivity. Qed.
Lemma settle_ok C : covariance n C ->
  exists C' L, settle fuel C = Some (C', L) /\ (C' = C \/ (chol C = None /\ meq n C' (shifted C))) /\
    covariance n C' /\ pos_def n C' /\ chol C' = Some L.
Proof.
  intros HC. destruct fuel as [|[|k]]; try lia. rewrite !settle_S.
  destruct (chol C) as [L|] eqn:E.
  - exists C, L. split; [reflexivity|]. split; [left; reflexivity|]. split; [exact HC|]. split; [|exact E].
    apply (Hchol C (proj1 HC)). rewrite E. discriminate.
  - set (C' := bump C).
    assert (M : meq n C' (shifted C)) by apply shift_fun. destruct (shifted_pd C HC) as [S P].
    assert (S' : symmetric n C') by (intros i j Hi Hj; rewrite !M by assumption; apply S; assumption).
    assert (P' : pos_def n C') by (intros v Hv; rewrite (quad_ext n _ _ v M); apply P; exact Hv).
    destruct (chol C') as [L|] eqn:E'.
    + exists C', L. split; [reflexivity|]. split; [right; split; [reflexivity|exact M]|]. split; [|split; [exact P'|exact E']].
      split; [exact S'|]. intros v. rewrite (quad_ext n _ _ v M). unfold shifted. rewrite quad_plus, quad_scale, quad_id.
      pose proof (proj2 HC v). assert (0 <= dotn n v v) by (apply sum_n_nonneg; intros; apply Rle_0_sqr). nra.
    + exfalso. apply (proj1 (proj1 (Hchol C' S')) P'). exact E'.
Qed.
Lemma settled_ok C : covariance n C ->
  (settled C = C \/ (chol C = None /\ meq n (settled C) (shifted C))) /\ covariance n (settled C) /\ pos_def n (settled C).
Proof.
  intros HC. destruct (settle_ok C HC) as (C' & L & E & H1 & H2 & H3 & _). unfold CMAESAdapt.settled. rewrite E. auto.
Qed.

(** ** The repair *)
Lemma first_neg_none : forall (l : list R) k, first_neg (N := RN) k l = None -> forall a, In a l -> 0 <= a.
Proof.
  induction l as [|a l IH]; intros k H x Hx; [destruct Hx|]. cbn in H. destruct (Rltb_spec a 0) as [|G]; [discriminate|].
  destruct Hx as [<-|Hx]; [lra|]. eapply IH; eauto.
Qed.
Lemma first_neg_some : forall (l : list R) k j, first_neg (N := RN) k l = Some j -> (k <= j < k + length l)%nat /\ nth (j - k) l 0 < 0.
Proof.
  induction l as [|a l IH]; intros k j H; [discriminate|]. cbn in H. destruct (Rltb_spec a 0) as [G|G].
  - injection H as <-. cbn [length]. split; [lia|]. rewrite Nat.sub_diag. exact G.
  - apply IH in H as (H1 & H2). cbn [length]. split; [lia|]. replace (j - k)%nat with (S (j - S k)) by lia. exact H2.
Qed.
Lemma first_neg_zero : forall (l : list R) k, first_neg (N := RN) 0 l = Some k -> nth 0 l 0 < 0 -> k = 0%nat.
Proof. intros [|a l] k H H0; [discriminate|]. cbn in H, H0. destruct (Rltb_spec a 0); [congruence|lra]. Qed.

(** Either no eigenvalue is negative and nothing changes, or the matrix becomes zero. *)
Lemma repair_cases A : symmetric n A ->
  ((forall v, 0 <= quad n A v) /\ repair A = A) \/
  ((exists v, quad n A v < 0) /\ repair A = fun _ _ => 0).
Proof.
  intros S. specialize (Heig A S). unfold CMAESAdapt.repair. destruct (eig A) as [l V]. cbn [fst snd] in Heig.
  destruct Heig as (L & Asc & HV & HV' & HA).
  destruct (first_neg (N := RN) 0 l) as [k|] eqn:E.
  - apply first_neg_some in E as X. destruct X as [X1 X2]. rewrite Nat.sub_0_r in X2.
    assert (N0 : nth 0 l 0 < 0).
    { specialize (Asc 0%nat k). unfold elR in Asc. assert (nth 0 l 0 <= nth k l 0) by (apply Asc; lia). lra. }
    pose proof (first_neg_zero l k E N0). subst k. right. split; [|reflexivity].
    exists (fun i => V i 0%nat). rewrite (quad_col n l V A HV HA) by lia. exact N0.
  - left. split; [|reflexivity]. intros v. rewrite (quad_spec n l V A HA). apply sum_n_nonneg. intros k Hk.
    apply Rmult_le_pos; [|apply Rle_0_sqr]. eapply first_neg_none; [exact E|]. apply nth_In. lia.
Qed.
Lemma repair_cov A : symmetric n A -> covariance n (repair A).
Proof.
  intros S. destruct (repair_cases A S) as [[P ->]|[_ ->]]; [split; assumption|apply cov_zero].
Qed.

(** ** The paths *)
Lemma el_map_seq : forall (f : nat -> R) i, (i < n)%nat -> nth i (map f (seq 0 n)) 0 = f i.
Proof.
  intros f i Hi. rewrite (nth_indep _ 0 (f 0%nat)) by (rewrite map_length, seq_length; exact Hi).
  rewrite (map_nth f). rewrite seq_nth by exact Hi. reflexivity.
Qed.
Lemma whiten_ok A step : symmetric n A -> pos_def n A ->
  length (whiten (N := RN) eig n A step) = n /\ solves n A (elR (whiten (N := RN) eig n A step)) (elR step).
Proof.
  intros S P. specialize (Heig A S). unfold whiten. destruct (eig A) as [l V]. cbn [fst snd] in Heig.
  destruct Heig as (L & Asc & HV & HV' & HA).
  assert (Pos : forall k, (k < n)%nat -> 0 < elR l k).
  { intros k Hk. rewrite <- (quad_col n l V A HV HA k Hk). apply P. apply (col_nonzero n V HV k Hk). }
  unfold CMAESAdapt.mvec. split; [rewrite map_length, seq_length; reflexivity|]. intros i Hi.
  set (y := fun k => 1 / elR l k * coord n V (elR step) k).
  assert (EY : forall k, (k < n)%nat -> el (N := RN) (map (fun k => nmul (n := RN) (ndiv (n := RN) n1 (el (N := RN) l k)) (msum (N := RN) n (fun i => nmul (n := RN) (V i k) (el (N := RN) step i)))) (seq 0 n)) k = y k).
  { intros k Hk. unfold el at 1. change (@n0 RN) with 0. rewrite (el_map_seq _ k Hk). rewrite msum_R. reflexivity. }
  rewrite (sum_n_ext n _ (fun j => A i j * sum_n n (fun k => V j k * y k))).
  - rewrite (apply_spec n l V A HV HA y i Hi). rewrite <- (expand n V HV' (elR step) i Hi).
    apply sum_n_ext; intros k Hk. unfold y. specialize (Pos k Hk). field. lra.
  - intros j Hj. f_equal. unfold elR at 1. rewrite (el_map_seq _ j Hj). rewrite msum_R. apply sum_n_ext; intros k Hk.
    cbn [nmul RNum]. f_equal. exact (EY k Hk).
Qed.

(** ** Adding steps *)
Definition spread_of (c : R) (steps : list (list R)) (wi : list (R * nat)) (i j : nat) : R :=
  sumR (map (fun q => c * fst q * elR (nth (snd q) steps []) i * elR (nth (snd q) steps []) j) wi).
Lemma add_steps_eq : forall c steps wi C i j,
  add_steps (N := RN) c C steps wi i j = C i j + spread_of c steps wi i j.
Proof.
  intros c steps wi. unfold add_steps. induction wi as [|[a k] wi IH]; intros C i j; [cbn; lra|].
  cbn [fold_left]. rewrite IH. unfold spread_of. cbn [map sumR fst snd]. change (el (N := RN)) with elR. cbn [nadd nmul RNum]. rewrite Rplus_assoc. reflexivity.
Qed.
Lemma spread_cov c steps wi : 0 <= c -> Forall (fun q => 0 <= fst q) wi -> covariance n (spread_of c steps wi).
Proof.
  intros Hc F. induction F as [|[a k] wi Ha F IH].
  - eapply cov_ext; [|apply cov_zero]. intros i j _ _. reflexivity.
  - destruct IH as [S P]. cbn [fst] in Ha. split.
    + intros i j Hi Hj. unfold spread_of in *. cbn [map sumR fst snd]. rewrite (S i j Hi Hj). lra.
    + intros v. unfold spread_of in *. cbn [map sumR fst snd].
      rewrite (quad_ext n _ (fun i j => c * a * (elR (nth k steps []) i * elR (nth k steps []) j) +
        sumR (map (fun q => c * fst q * elR (nth (snd q) steps []) i * elR (nth (snd q) steps []) j) wi)))
        by (intros i j _ _; lra).
      rewrite quad_plus, quad_scale, quad_outer. specialize (P v). pose proof (Rle_0_sqr (dotn n (elR (nth k steps [])) v)) as Q. unfold Rsqr in Q.
      apply Rplus_le_le_0_compat; [|exact P]. apply Rmult_le_pos; [|exact Q]. apply Rmult_le_pos; assumption.
Qed.
End Dist.
