From Coq Require Import List Arith Bool ZArith Reals Lra Lia Permutation.
From Verif.Base Require Import Num Instances Vec SortIdx.
From Verif.Model Require Import Common SA Proximal.
From Verif.Spec Require Import Gradient LpSpec ProximalSpec.
From Verif.Proof Require Import GradientProof SAProof LpProof LpMore LpGroup.
Import ListNotations.
Local Open Scope R_scope.

Lemma sumR_app a b : sumR (a ++ b) = sumR a + sumR b.
Proof. induction a as [|x a IH]; cbn; [lra|]. rewrite IH. lra. Qed.
Lemma sumR_perm a b : Permutation a b -> sumR a = sumR b.
Proof. induction 1; cbn; lra. Qed.
Lemma sumR_le_map {A} (f g : A -> R) l : (forall x, In x l -> f x <= g x) -> sumR (map f l) <= sumR (map g l).
Proof. induction l as [|x l IH]; intros H; cbn; [lra|]. assert (f x <= g x) by (apply H; left; reflexivity). assert (sumR (map f l) <= sumR (map g l)) by (apply IH; intros; apply H; right; assumption). lra. Qed.
Lemma sumR_shift t l : sumR (map (fun x => x - t) l) = sumR l - INR (length l) * t.
Proof. induction l as [|x l IH]; [cbn; lra|]. cbn [map sumR length]. rewrite IH, S_INR. lra. Qed.
Lemma sumR_nonneg l : (forall x, In x l -> 0 <= x) -> 0 <= sumR l.
Proof. induction l as [|x l IH]; intros H; cbn; [lra|]. assert (0 <= x) by (apply H; left; reflexivity). assert (0 <= sumR l) by (apply IH; intros; apply H; right; assumption). lra. Qed.

(** ** Thresholding *)
Lemma nofZ_R mx n : nofZ (n := RNum mx) (Z.of_nat n) = INR n.
Proof. cbn. symmetry. apply INR_IZR_INZ. Qed.
Lemma cumsum_from_nth mx : forall (l : list R) acc j, (j < length l)%nat ->
  nth j (cumsum_from (N := RNum mx) acc l) 0 = acc + sumR (firstn (S j) l).
Proof.
  induction l as [|x l IH]; intros acc j L; [cbn in L; lia|]. cbn [cumsum_from]. destruct j as [|j]; cbn [nth firstn sumR].
  - cbn. lra.
  - rewrite IH by (cbn in L; lia). cbn [nadd RNum firstn sumR]. lra.
Qed.
Lemma cumsum_nth mx (l : list R) j : (j < length l)%nat -> nth j (cumsum (N := RNum mx) l) 0 = sumR (firstn (S j) l).
Proof.
  destruct l as [|x l]; cbn [cumsum]; [cbn; lia|]. destruct j as [|j]; intros L; [cbn; lra|]. cbn [nth].
  rewrite cumsum_from_nth by (cbn in L; lia). reflexivity.
Qed.

Definition nu (tau : R) (s : list R) (j : nat) : R := nth j s 0 - (sumR (firstn (S j) s) - tau) / INR (j + 1).
Lemma find_rho_spec mx (tau : R) (s : list R) : forall k, (k <= length s)%nat ->
  let rho := find_rho (N := RNum mx) tau s (cumsum (N := RNum mx) s) k in
  (rho = 0%nat \/ (rho < k)%nat /\ 0 < nu tau s rho) /\ (forall j, (rho < j < k)%nat -> nu tau s j <= 0).
Proof.
  induction k as [|k IH]; intros L; cbn [find_rho].
  - split; [auto|]. intros; lia.
  - cbn [n0 nlt nsub ndiv RNum]. rewrite cumsum_nth by lia. rewrite nofZ_R. change (nth k s 0 - (sumR (firstn (S k) s) - tau) / INR (k + 1)) with (nu tau s k).
    destruct (Rltb_spec 0 (nu tau s k)) as [K|K]; cbv zeta.
    + split; [right; split; [lia|exact K]|]. intros; lia.
    + destruct (IH ltac:(lia)) as (A & B). split; [destruct A as [A|[A A1]]; [left; exact A|right; split; [lia|exact A1]]|].
      intros j J. destruct (Nat.eq_dec j k) as [->|]; [lra|]. apply B. lia.
Qed.

Definition desc (s : list R) : Prop := forall i j a b, (i < j)%nat -> nth_error s i = Some a -> nth_error s j = Some b -> b <= a.
Lemma desc_nth s i j : desc s -> (i <= j < length s)%nat -> nth j s 0 <= nth i s 0.
Proof.
  intros D [L J]. destruct (Nat.eq_dec i j) as [->|]; [lra|].
  apply (D i j); [lia| |]; apply nth_error_nth'; lia.
Qed.
Lemma firstn_In_nth {A} (d : A) n l x : In x (firstn n l) -> exists j, (j < n)%nat /\ (j < length l)%nat /\ nth j l d = x.
Proof.
  revert l. induction n as [|n IH]; intros [|y l] H; cbn in H; try contradiction. destruct H as [<-|H].
  - exists O. cbn. split; [lia|split; [lia|reflexivity]].
  - destruct (IH l H) as (j & J1 & J2 & J3). exists (S j). cbn. split; [lia|split; [lia|exact J3]].
Qed.
Lemma skipn_In_nth {A} (d : A) n l x : In x (skipn n l) -> exists j, (n <= j < length l)%nat /\ nth j l d = x.
Proof.
  revert l. induction n as [|n IH]; intros l H.
  - destruct (In_nth l x d H) as (j & J1 & J2). exists j. split; [lia|exact J2].
  - destruct l as [|y l]; [destruct H|]. destruct (IH l H) as (j & J1 & J2). exists (S j). cbn. split; [lia|exact J2].
Qed.
Lemma firstn_S (s : list R) j : (j < length s)%nat -> sumR (firstn (S j) s) = sumR (firstn j s) + nth j s 0.
Proof.
  revert s. induction j as [|j IH]; intros [|x s] L; cbn in L; try lia; [cbn; lra|].
  cbn [firstn sumR nth]. specialize (IH s ltac:(lia)). cbn [firstn sumR] in IH. rewrite IH. lra.
Qed.

Section L1.
  Variables (tau : R) (s : list R) (rho : nat).
  Hypotheses (D : desc s) (NN : forall x, In x s -> 0 <= x) (TOT : tau < sumR s) (RL : (rho < length s)%nat)
    (ABOVE : forall j, (rho < j < length s)%nat -> nu tau s j <= 0).
  Let c := sumR (firstn (S rho) s).
  Let th := (c - tau) / INR (rho + 1).
  Lemma r1 : 0 < INR (rho + 1). Proof. apply lt_0_INR. lia. Qed.
  Lemma c_eq : c - tau = th * INR (rho + 1).
  Proof. unfold th. pose proof r1. field. lra. Qed.
  Lemma next_le : (S rho < length s)%nat -> nth (S rho) s 0 <= th.
  Proof.
    intros L. specialize (ABOVE (S rho) ltac:(lia)). unfold nu in ABOVE. rewrite firstn_S in ABOVE by exact L. fold c in ABOVE.
    set (x := nth (S rho) s 0) in *. assert (P : 0 < INR (S rho + 1)) by (apply lt_0_INR; lia).
    assert (x * INR (S rho + 1) <= c + x - tau).
    { apply Rmult_le_compat_r with (r := INR (S rho + 1)) in ABOVE; [|lra].
      replace ((x - (c + x - tau) / INR (S rho + 1)) * INR (S rho + 1)) with (x * INR (S rho + 1) - (c + x - tau)) in ABOVE by (field; lra). lra. }
    replace (S rho + 1)%nat with (S (rho + 1)) in H by lia. rewrite S_INR in H.
    pose proof r1. pose proof c_eq. apply Rmult_le_reg_r with (INR (rho + 1)); [assumption|]. lra.
  Qed.
  Lemma above_le x : In x (skipn (S rho) s) -> x <= th.
  Proof.
    intros H. destruct (skipn_In_nth 0 _ _ _ H) as (j & J & <-).
    apply Rle_trans with (nth (S rho) s 0); [apply desc_nth; [exact D|lia]|apply next_le; lia].
  Qed.
  Lemma th_nonneg : 0 <= c - tau.
  Proof.
    destruct (Nat.eq_dec (S rho) (length s)) as [E|NE].
    - unfold c. rewrite firstn_all2 by lia. lra.
    - pose proof (next_le ltac:(lia)) as H. assert (0 <= nth (S rho) s 0) by (apply NN, nth_In; lia).
      rewrite c_eq. apply Rmult_le_pos; [lra|]. left. apply r1.
  Qed.
  Lemma numerator_pos : 0 < c - tau.
  Proof.
    destruct (Rle_lt_or_eq_dec _ _ th_nonneg) as [|E]; [assumption|]. exfalso.
    assert (T0 : th = 0) by (unfold th; rewrite <- E; unfold Rdiv; lra).
    assert (Z : sumR (skipn (S rho) s) <= 0).
    { assert (G : forall l, (forall x, In x l -> x <= 0) -> sumR l <= 0).
      { induction l as [|x l IH]; intros H; cbn; [lra|]. assert (x <= 0) by (apply H; left; reflexivity). assert (sumR l <= 0) by (apply IH; intros; apply H; right; assumption). lra. }
      apply G. intros x H. rewrite <- T0. apply above_le, H. }
    rewrite <- (firstn_skipn (S rho) s), sumR_app in TOT. fold c in TOT. lra.
  Qed.
  Lemma shrunk_sum t : 0 < nu tau s rho -> th <= t -> sumR (map (fun x => Rmax (x - t) 0) s) <= tau.
  Proof.
    intros NU T. unfold nu in NU. fold c in NU. fold th in NU.
    rewrite <- (firstn_skipn (S rho) s) at 1. rewrite map_app, sumR_app.
    assert (A : sumR (map (fun x => Rmax (x - t) 0) (firstn (S rho) s)) <= sumR (map (fun x => x - th) (firstn (S rho) s))).
    { apply sumR_le_map. intros x H. destruct (firstn_In_nth 0 _ _ _ H) as (j & J1 & J2 & <-).
      assert (nth rho s 0 <= nth j s 0) by (apply desc_nth; [exact D|lia]). apply Rmax_lub; lra. }
    rewrite sumR_shift in A. rewrite firstn_length, Nat.min_l in A by lia. fold c in A.
    assert (B : sumR (map (fun x => Rmax (x - t) 0) (skipn (S rho) s)) <= sumR (map (fun _ => 0) (skipn (S rho) s))).
    { apply sumR_le_map. intros x H. apply above_le in H. apply Rmax_lub; lra. }
    assert (Z : forall l : list R, sumR (map (fun _ => 0) l) = 0) by (induction l as [|x l IH]; cbn; lra).
    rewrite Z in B. pose proof c_eq. assert (EI : INR (S rho) = INR (rho + 1)) by (f_equal; lia). rewrite EI in A. lra.
  Qed.
End L1.

(** what thresholding does to one element *)
Lemma shrink_spec mx t x : 0 <= t -> let y := l1_shrink (N := RNum mx) (Some t) x in
  Rabs y = Rmax (Rabs x - t) 0 /\ 0 <= x * y /\ Rabs (x - y) <= t /\ (x - y) * y = t * Rabs y.
Proof.
  intros H. cbn. destruct (Rleb_spec 0 x) as [X|X].
  - rewrite (Rabs_pos_eq x) by lra. destruct (Rltb_spec (x - t) 0) as [K|K].
    + rewrite Rabs_R0, Rmax_right by lra. split; [reflexivity|]. split; [lra|]. split; [rewrite Rabs_pos_eq; lra|lra].
    + rewrite (Rabs_pos_eq (x - t)), Rmax_left by lra. split; [reflexivity|]. split; [apply Rmult_le_pos; lra|].
      replace (x - (x - t)) with t by lra. rewrite Rabs_pos_eq by lra. split; lra.
  - rewrite (Rabs_left x) by lra. destruct (Rltb_spec 0 (x + t)) as [K|K].
    + rewrite Rabs_R0, Rmax_right by lra. split; [reflexivity|]. split; [lra|]. split; [rewrite Rabs_left; lra|lra].
    + rewrite (Rabs_left1 (x + t)), Rmax_left by lra. split; [lra|].
      split; [replace (x * (x + t)) with ((- x) * (- (x + t))) by ring; apply Rmult_le_pos; lra|].
      replace (x - (x + t)) with (- t) by lra. rewrite Rabs_Ropp, Rabs_pos_eq by lra. split; lra.
Qed.

Lemma closest t : 0 <= t -> forall v r y : list R, length r = length v -> length y = length v ->
  (forall j x z, nth_error v j = Some x -> nth_error r j = Some z -> Rabs (x - z) <= t /\ (x - z) * z = t * Rabs z) ->
  dist2 v r + 2 * t * (norm1 r - norm1 y) <= dist2 v y.
Proof.
  intros T. unfold dist2, norm1. induction v as [|x v IH]; intros [|z r] [|b y] LR LY H; try discriminate; cbn [map map2 sumR]; [lra|].
  assert (K := IH r y ltac:(cbn in LR; lia) ltac:(cbn in LY; lia) (fun j x' z' => H (S j) x' z')).
  destruct (H O x z eq_refl eq_refl) as [A B].
  assert ((x - z) * (x - z) + 2 * t * (Rabs z - Rabs b) <= (x - b) * (x - b)).
  { replace ((x - b) * (x - b)) with ((x - z) * (x - z) + 2 * ((x - z) * z - (x - z) * b) + (z - b) * (z - b)) by ring. rewrite B.
    assert ((x - z) * b <= t * Rabs b).
    { apply Rle_trans with (Rabs (x - z) * Rabs b); [rewrite <- Rabs_mult; apply Rle_abs|].
      apply Rmult_le_compat_r; [apply Rabs_pos|exact A]. }
    pose proof (Rle_0_sqr (z - b)) as SQ. unfold Rsqr in SQ. lra. }
  lra.
Qed.

Lemma map_zero_norm (v : list R) : norm1 (map (fun _ => 0) v) = 0.
Proof. unfold norm1. induction v as [|x v IH]; cbn [map sumR]; [reflexivity|]. rewrite IH, Rabs_R0. lra. Qed.
Lemma norm1_zero : forall y : list R, norm1 y <= 0 -> y = map (fun _ => 0) y.
Proof.
  unfold norm1. induction y as [|x y IH]; cbn [map sumR]; intros H; [reflexivity|].
  assert (0 <= sumR (map Rabs y)) by (apply sumR_nonneg; intros z I; apply in_map_iff in I; destruct I as (w & <- & _); apply Rabs_pos).
  pose proof (Rabs_pos x). f_equal; [|apply IH; lra]. destruct (Req_dec x 0); [assumption|]. pose proof (Rabs_pos_lt x H2). lra.
Qed.

Lemma map_some {A B} (f : A -> B) l j x z : nth_error l j = Some x -> nth_error (map f l) j = Some z -> f x = z.
Proof. intros E H. rewrite nth_error_map, E in H. injection H as <-. reflexivity. Qed.
Lemma l1_ok mx sortd (v : list R) (tau : R) (r : list R) : sorts_down sortd -> 0 <= tau ->
  project_l1 (N := RNum mx) sortd v tau = Ret r ->
  length r = length v /\ norm1 r <= tau /\ (norm1 v <= tau -> r = v) /\
  (forall j x z, nth_error v j = Some x -> nth_error r j = Some z -> 0 <= x * z /\ Rabs z <= Rabs x) /\
  (forall y, length y = length v -> norm1 y <= norm1 r -> dist2 v r <= dist2 v y).
Proof.
  intros SD TN E. unfold project_l1 in E. rewrite vsum_sumR in E. change (map (nabs (n := RNum mx)) v) with (map Rabs v) in E.
  change (sumR (map Rabs v)) with (norm1 v) in E. cbn [nle RNum] in E. destruct (Rleb_spec (norm1 v) tau) as [K|K].
  - injection E as <-. split; [reflexivity|]. split; [exact K|]. split; [reflexivity|]. split.
    + intros j x z A B. rewrite A in B. injection B as <-. split; [apply Rle_0_sqr|lra].
    + intros y LY _. assert (Z : dist2 v v = 0). { unfold dist2. clear. induction v as [|x v IH]; cbn [map2 sumR]; [reflexivity|]. rewrite IH. lra. }
      rewrite Z. unfold dist2. clear. revert y. induction v as [|x v IH]; intros [|b y]; cbn [map2 sumR]; try lra.
      specialize (IH y). pose proof (Rle_0_sqr (x - b)) as Q. unfold Rsqr in Q. lra.
  - destruct (existsb _ _); [discriminate|]. destruct v as [|x0 v0]; [discriminate|]. set (v := x0 :: v0) in *.
    set (s := sortd (map Rabs v)).
    change (Ret (map (l1_shrink (N := RNum mx) (l1_theta (N := RNum mx) tau s)) v) = Ret r) in E.
    apply (f_equal (fun o : outc (list R) => match o with Ret x => x | _ => r end)) in E. cbv beta iota in E. subst r. destruct (SD (map Rabs v)) as [PM DS]. fold s in PM, DS.
    assert (NNs : forall x, In x s -> 0 <= x).
    { intros x I. apply (Permutation_in _ PM) in I. apply in_map_iff in I. destruct I as (w & <- & _). apply Rabs_pos. }
    assert (SS : sumR s = norm1 v) by (apply sumR_perm; exact PM).
    assert (LSs : length s = length v) by (rewrite (Permutation_length PM); apply map_length).
    split; [apply map_length|].
    set (rho := find_rho (N := RNum mx) tau s (cumsum (N := RNum mx) s) (length s)).
    destruct (find_rho_spec mx tau s (length s) (le_n _)) as (F1 & F2). fold rho in F1, F2.
    assert (RL : (rho < length s)%nat) by (destruct F1 as [->|[A _]]; [rewrite LSs; unfold v; cbn; lia|exact A]).
    assert (TOT : tau < sumR s) by (rewrite SS; lra).
    assert (TH : l1_theta (N := RNum mx) tau s = if (rho =? 0)%nat then None else Some ((sumR (firstn (S rho) s) - tau) / INR rho)).
    { rewrite <- (cumsum_nth mx) by exact RL. rewrite <- (nofZ_R mx rho). reflexivity. }
    rewrite TH. destruct (Nat.eqb_spec rho 0) as [R0|RN].
    + change (map (l1_shrink (N := RNum mx) None) v) with (map (fun _ : R => 0) v).
      assert (MZ : norm1 (map (fun _ : R => 0) v) = 0) by apply map_zero_norm.
      split; [refine (Rle_trans _ _ _ (Req_le _ _ MZ) TN)|].
      split; [intros; lra|]. split.
      * intros j x z A B. apply (map_some _ v j x z A) in B. subst z. rewrite Rabs_R0. pose proof (Rabs_pos x). split; lra.
      * intros y LY NY. assert (NY0 : norm1 y <= 0) by (refine (Rle_trans _ _ _ NY (Req_le _ _ MZ))). clear NY. rename NY0 into NY.
        apply norm1_zero in NY. right. f_equal. rewrite NY. clear - LY.
        revert y LY. induction v as [|x v IH]; intros [|b y] L; try discriminate; cbn; [reflexivity|]. f_equal. apply IH. cbn in L. lia.
    + destruct F1 as [F1|[_ F1]]; [contradiction|].
      set (c := sumR (firstn (S rho) s)). set (t := (c - tau) / INR rho).
      pose proof (th_nonneg tau s rho NNs TOT RL F2) as CN. fold c in CN.
      assert (IR : 0 < INR rho) by (apply lt_0_INR; lia).
      assert (T0 : 0 <= t) by (apply Rmult_le_pos; [exact CN|left; apply Rinv_0_lt_compat; exact IR]).
      assert (TT : (c - tau) / INR (rho + 1) <= t).
      { unfold t. apply Rmult_le_compat_l; [exact CN|]. apply Rinv_le_contravar; [exact IR|]. apply le_INR. lia. }
      pose proof (shrunk_sum tau s rho DS RL F2 t F1 TT) as SH.
      assert (NR : norm1 (map (l1_shrink (N := RNum mx) (Some t)) v) = sumR (map (fun x => Rmax (x - t) 0) s)).
      { unfold norm1. rewrite map_map.
        transitivity (sumR (map (fun x => Rmax (x - t) 0) (map Rabs v))).
        - rewrite map_map. f_equal. apply map_ext. intros x. apply (shrink_spec mx t x T0).
        - apply sumR_perm, Permutation_map. symmetry. exact PM. }
      split; [refine (Rle_trans _ _ _ (Req_le _ _ NR) SH)|]. split; [intros; lra|]. split.
      * intros j x z A B. apply (map_some _ v j x z A) in B. subst z.
        destruct (shrink_spec mx t x T0) as (S1 & S2 & _ & _). split; [exact S2|].
        refine (Rle_trans _ _ _ (Req_le _ _ S1) _). apply Rmax_lub; [lra|apply Rabs_pos].
      * intros y LY NY.
        pose proof (closest t T0 v (map (l1_shrink (N := RNum mx) (Some t)) v) y (map_length _ _) LY) as CL.
        assert (CH : forall j x z, nth_error v j = Some x -> nth_error (map (l1_shrink (N := RNum mx) (Some t)) v) j = Some z ->
          Rabs (x - z) <= t /\ (x - z) * z = t * Rabs z).
        { intros j x z A B. apply (map_some _ v j x z A) in B. subst z. destruct (shrink_spec mx t x T0) as (_ & _ & S3 & S4). auto. }
        specialize (CL CH).
        assert (0 <= 2 * t * (norm1 (map (l1_shrink (N := RNum mx) (Some t)) v) - norm1 y)).
        { apply Rmult_le_pos; [lra|]. change (norm1 y <= norm1 (map (l1_shrink (N := RNum mx) (Some t)) v)) in NY. lra. }
        change (dist2 v (map (l1_shrink (N := RNum mx) (Some t)) v) <= dist2 v y). lra.
Qed.

(** the numerator of theta is positive when it is divided by zero *)
Lemma l1_infinite mx sortd (v : list R) (tau : R) : sorts_down sortd -> tau < norm1 v -> v <> [] ->
  let s := sortd (map Rabs v) in find_rho (N := RNum mx) tau s (cumsum (N := RNum mx) s) (length s) = 0%nat ->
  0 < nth 0 (cumsum (N := RNum mx) s) 0 - tau.
Proof.
  intros SD K NV s R0. destruct (SD (map Rabs v)) as [PM DS]. fold s in PM, DS.
  assert (LSs : length s = length v) by (rewrite (Permutation_length PM); apply map_length).
  assert (RL : (0 < length s)%nat) by (rewrite LSs; destruct v; [congruence|cbn; lia]).
  rewrite cumsum_nth by exact RL. apply (numerator_pos tau s 0 DS).
  - intros x I. apply (Permutation_in _ PM) in I. apply in_map_iff in I. destruct I as (w & <- & _). apply Rabs_pos.
  - rewrite (sumR_perm _ _ PM). exact K.
  - exact RL.
  - destruct (find_rho_spec mx tau s (length s) (le_n _)) as (_ & F2). rewrite R0 in F2. exact F2.
Qed.
