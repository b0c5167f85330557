From Coq Require Import List Arith Bool ZArith Reals Lra Lia.
From Verif.Base Require Import Num Instances Vec.
From Verif.Model Require Import Common SA LpBall.
From Verif.Spec Require Import Gradient LpSpec FWSpec.
From Verif.Proof Require Import GradientProof SAProof LpProof.
Import ListNotations.
Local Open Scope R_scope.

(** ** p = 1 *)
Lemma index_max_ok mx : forall (l : list R) i bi (b : R) (full : list R),
  (forall j, nth_error full (i + j) = nth_error l j) -> (bi < length full)%nat -> nth_error full bi = Some b ->
  (forall j x, (j < i)%nat -> nth_error full j = Some x -> x <= b) ->
  exists c, nth_error full (index_max_from (N := RNum mx) l i bi b) = Some c /\
    forall j x, nth_error full j = Some x -> x <= c.
Proof.
  induction l as [|x l IH]; intros i bi b full A LB B H; cbn [index_max_from].
  - exists b. split; [exact B|]. intros j x E. destruct (Nat.lt_ge_cases j i) as [L|L]; [eauto|].
    specialize (A (j - i)%nat). replace (i + (j - i))%nat with j in A by lia. rewrite E in A. destruct (j - i)%nat; discriminate.
  - pose proof (A O) as A0. rewrite Nat.add_0_r in A0. cbn in A0.
    assert (A' : forall j, nth_error full (S i + j) = nth_error l j).
    { intros j. specialize (A (S j)). rewrite Nat.add_succ_r in A. exact A. }
    cbn [nlt RNum]. destruct (Rltb_spec b x) as [K|K].
    + apply (IH (S i) i x full A'); [apply nth_error_Some; congruence|exact A0|].
      intros j y L E. destruct (Nat.eq_dec j i) as [->|]; [rewrite A0 in E; injection E as <-; lra|].
      assert (y <= b) by (apply (H j); [lia|exact E]). lra.
    + apply (IH (S i) bi b full A'); [exact LB|exact B|].
      intros j y L E. destruct (Nat.eq_dec j i) as [->|]; [rewrite A0 in E; injection E as <-; lra|].
      apply (H j); [lia|exact E].
Qed.
Lemma index_max_spec mx (l : list R) : l <> [] -> exists k c, index_max (N := RNum mx) l = Some k /\
  nth_error l k = Some c /\ forall j x, nth_error l j = Some x -> x <= c.
Proof.
  destruct l as [|a l]; [congruence|]. intros _. cbn [index_max].
  destruct (index_max_ok mx l 1 0 a (a :: l)) as (c & E & H).
  - reflexivity.
  - cbn. lia.
  - reflexivity.
  - intros [|j] x L E; [injection E as <-; lra|lia].
  - eauto.
Qed.

Definition zeros (v : list R) : list R := map (fun _ => 0) v.
Lemma dot_zeros : forall v w l : list R, dotR v (map2 Rdiv (zeros w) l) = 0.
Proof. unfold zeros. induction v as [|x v IH]; intros [|y w] [|a l]; cbn; try reflexivity. rewrite IH. unfold Rdiv. lra. Qed.
Lemma dot_set : forall (v l : list R) k x a (b : R), length v = length l -> nth_error v k = Some x -> nth_error l k = Some a ->
  dotR v (map2 Rdiv (set_nth k b (zeros v)) l) = x * (b / a).
Proof.
  unfold zeros. induction v as [|y v IH]; intros [|c l] [|k] x a b L E F; try discriminate; cbn [map set_nth map2 dotR].
  - injection E as ->. injection F as ->. fold (zeros v). rewrite dot_zeros. lra.
  - rewrite (IH l k x a b) by (auto; cbn in L; lia). unfold Rdiv. lra.
Qed.
Lemma sum_zeros : forall w l : list R, sumR (map2 (fun a b => powR (Rabs (a * b)) 1) l (map2 Rdiv (zeros w) l)) = 0.
Proof.
  unfold zeros. induction w as [|y w IH]; intros [|a l]; cbn; try reflexivity. rewrite IH. unfold Rdiv.
  rewrite Rmult_0_l, Rmult_0_r, Rabs_R0, powR_0. lra.
Qed.
Lemma sum_set : forall (v l : list R) k a (b : R), pos l -> length v = length l -> nth_error l k = Some a ->
  sumR (map2 (fun a b => powR (Rabs (a * b)) 1) l (map2 Rdiv (set_nth k b (zeros v)) l)) = Rabs b.
Proof.
  unfold zeros. induction v as [|y v IH]; intros [|c l] [|k] a b PL L F; try discriminate; cbn [map set_nth map2 sumR].
  - injection F as ->. apply Forall_cons_iff in PL. destruct PL as [PA _]. fold (zeros v). rewrite sum_zeros.
    replace (a * (b / a)) with b by (field; lra). rewrite powR_1r by apply Rabs_pos. lra.
  - apply Forall_cons_iff in PL. destruct PL as [_ PL]. rewrite (IH l k a b) by (auto; cbn in L; lia).
    unfold Rdiv. rewrite Rmult_0_l, Rmult_0_r, Rabs_R0, powR_0. lra.
Qed.
Lemma one_lower (c : R) : forall l v y : list R, pos l -> length v = length l -> length y = length l -> 0 <= c ->
  (forall j x a, nth_error v j = Some x -> nth_error l j = Some a -> Rabs (x / a) <= c) ->
  - c * sumR (map2 (fun a b => powR (Rabs (a * b)) 1) l y) <= dotR v y.
Proof.
  induction l as [|a l IH]; intros [|x v] [|b y] PL L LY C H; try discriminate; cbn [map2 sumR dotR]; [lra|].
  apply Forall_cons_iff in PL. destruct PL as [PA PL].
  assert (K := IH v y PL ltac:(cbn in L; lia) ltac:(cbn in LY; lia) C (fun j x' a' E F => H (S j) x' a' E F)).
  specialize (H O x a eq_refl eq_refl). rewrite powR_1r by apply Rabs_pos.
  assert (- (Rabs (a * b) * c) <= x * b).
  { assert (Rabs (a * b) * Rabs (x / a) <= Rabs (a * b) * c) by (apply Rmult_le_compat_l; [apply Rabs_pos|exact H]).
    rewrite <- Rabs_mult in H0. replace (a * b * (x / a)) with (x * b) in H0 by (field; lra).
    pose proof (Rle_abs (- (x * b))). rewrite Rabs_Ropp in H1. lra. }
  lra.
Qed.

Definition npowR (mx : R) : RNum mx -> RNum mx -> RNum mx := powR.

(** lambda, if given, has one positive weight per element *)
Definition lambda_ok (lambda : option (list R)) (v : list R) : Prop :=
  match lambda with None => True | Some l => length l = length v /\ Forall (fun a => 0 < a) l end.
Lemma weights_ok lambda v : lambda_ok lambda v -> pos (weights lambda v) /\ length v = length (weights lambda v).
Proof.
  destruct lambda as [l|]; cbn; [intros [A B]; auto|]. intros _. split; [|rewrite map_length; reflexivity].
  apply Forall_forall. intros x I. apply in_map_iff in I. destruct I as (? & <- & _). lra.
Qed.

Lemma vsum_sumR mx : forall l : list R, vsum (N := RNum mx) l = sumR l.
Proof. unfold vsum. cbn. induction l as [|x l IH]; cbn; [reflexivity|]. rewrite fold_sum_R, IH. lra. Qed.

Lemma lpball_ok mx (p : lp (RNum mx)) (pn : R) lambda v s0 :
  lambda_ok lambda v -> v <> [] ->
  (match p with PInf => True | PNum p => 1 <= p /\ (1 < p -> pn = p) end) ->
  exists s, lpball (N := RNum mx) (npowR mx) p pn lambda v s0 = Ret s /\
    in_ball p (weights lambda v) s /\ forall y, in_ball p (weights lambda v) y -> dotR v s <= dotR v y.
Proof.
  intros LO NV HP. destruct (weights_ok lambda v LO) as [PL L]. set (l := weights lambda v) in *.
  destruct p as [|p]; cbn [lpball].
  - eexists. split; [reflexivity|]. rewrite (by_lambda_weights mx lambda v) by apply map_length. fold l.
    split; [apply (inf_in_ball mx l v); auto|]. intros y Y.
    change (dotR v (map2 Rdiv (map (fun x : R => - nsign (N := RNum mx) x) v) l) <= dotR v y).
    rewrite (inf_value mx l v PL L). apply (inf_lower mx); auto.
  - destruct HP as [P1 PN]. cbn [nlt neq RNum n1]. destruct (Rltb_spec 1 p) as [P|P].
    + specialize (PN P). subst pn. eexists. split; [reflexivity|].
      rewrite (by_lambda_weights mx lambda v v) by reflexivity. fold l.
      rewrite (by_lambda_weights mx lambda v).
      2: { unfold normalise. rewrite map_length, map2_length, map2_length. cbn [T RNum] in *. lia. }
      fold l. pose proof (mid_ok mx p P v l PL L) as M. cbn zeta in M.
      rewrite <- (t_norm mx p P v l PL L), <- (vsum_sumR mx) in M. exact M.
    + assert (p = 1) by lra. subst p. destruct (Reqb_spec 1 1) as [_|F]; [|lra].
      rewrite (by_lambda_weights mx lambda v v) by reflexivity. fold l.
      destruct (index_max_spec mx (map Rabs (map2 Rdiv v l))) as (k & c & IM & EC & MX).
      { destruct v as [|x v]; [congruence|]. destruct l as [|a l']; [discriminate|]. discriminate. }
      change (map (nabs (n := RNum mx)) (map2 Rdiv v l)) with (map Rabs (map2 Rdiv v l)). rewrite IM.
      rewrite nth_error_map in EC. destruct (nth_error (map2 Rdiv v l) k) as [w|] eqn:EW; [|discriminate].
      cbn in EC. injection EC as <-. rewrite nth_error_map2 in EW.
      destruct (nth_error v k) as [x|] eqn:EX; [|discriminate]. destruct (nth_error l k) as [a|] eqn:EA; [|discriminate].
      injection EW as <-. rewrite (nth_error_nth v k _ EX).
      assert (PA : 0 < a) by (unfold pos in PL; rewrite Forall_forall in PL; apply PL; eapply nth_error_In; exact EA).
      eexists. split; [reflexivity|]. set (z := nopp _).
      assert (Z : z = - nsign (N := RNum mx) x).
      { unfold z, nsign. cbn. destruct (Rltb_spec 0 x), (Rltb_spec x 0); lra. }
      rewrite (by_lambda_weights mx lambda v) by (rewrite set_nth_length; apply map_length). fold l.
      change (map (fun _ : RNum mx => n0) v) with (zeros v).
      split.
      * split; [rewrite map2_length, set_nth_length; unfold zeros; rewrite map_length; lia|].
        refine (Rle_trans _ _ _ (Req_le _ _ (sum_set v l k a z PL L EA)) _). rewrite Z, Rabs_Ropp. apply abs_sign_le.
      * intros y [LY BY]. refine (Rle_trans _ _ _ (Req_le _ _ (dot_set v l k x a z L EX EA)) _).
        assert (V : x * (z / a) = - Rabs (x / a)).
        { unfold Rdiv at 2. rewrite Rabs_mult, (Rabs_pos_eq (/ a)) by (left; apply Rinv_0_lt_compat; exact PA).
          rewrite <- (sign_abs mx x), Z. field. lra. }
        rewrite V.
        assert (K := one_lower (Rabs (x / a)) l v y PL L LY (Rabs_pos _)).
        assert (MX' : forall j x0 a0, nth_error v j = Some x0 -> nth_error l j = Some a0 -> Rabs (x0 / a0) <= Rabs (x / a)).
        { intros j x0 a0 E F. apply (MX j). rewrite nth_error_map, nth_error_map2, E, F. reflexivity. }
        specialize (K MX'). pose proof (Rabs_pos (x / a)).
        assert (- Rabs (x / a) * 1 <= - Rabs (x / a) * sumR (map2 (fun a b => powR (Rabs (a * b)) 1) l y)).
        { apply Rmult_le_compat_neg_l; [lra|exact BY]. }
        lra.
Qed.
