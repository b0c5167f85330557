(** Parallel SGD with step sizes that change from epoch to epoch. *)
From Coq Require Import List Arith Bool Reals Lra Lia Permutation.
From Verif.Base Require Import Num Vec Instances.
From Verif.Model Require Import Common SA ParallelSgd.
From Verif.Spec Require Import Gradient ConvergeSpec FWSpec VrRateSpec SgdRateSpec ParSpec ParSerialSpec BackoffSpec DecaySpec.
From Verif.Proof Require Import SmoothProof GDConverge NormProof VrRate SgdRate SAProof ParProof ParRun ParSerial ParFloor ParFloorRun BackoffRun.
Import ListNotations.
Local Open Scope R_scope.

Section Run.
  Variable mx : R.
  Notation RN := (RNum mx).
  Variables (p n : nat) (L mu : R) (gr : nat -> list R -> list R) (F : list R -> R) (y : list R) (step : nat -> R).
  Hypothesis ES : each_smooth p n L gr.
  Hypothesis SM : smooth_on (space p) L F (avg_grad p n gr).
  Hypothesis SC : strongly_convex_on (space p) mu F.
  Hypothesis HM : 0 < mu <= L.
  Hypothesis Hn : (0 < n)%nat.
  Hypothesis Hy : length y = p.
  Hypothesis MN : forall z, length z = p -> F y <= F z.
  Hypothesis HE : forall i, (1 <= i)%nat -> 0 < step i /\ 8 * (step i * INR n) * (L * L) <= mu.

  Variable x0 : list R.
  Notation B := (decay_bound n L mu step (disagreement n gr y) (dst x0 y)).
  Variables (maxIterations : nat) (tolerance : R).
  Variable f : list R -> R.
  Variables (shuffle : bool) (T share : nat).
  Variable perm : list (oev RN) -> list nat -> list nat.
  Variable cbE : list (oev RN) -> bool.
  Variable grad : list (oev RN) -> list (pev RN) -> nat -> list (nat * R).
  Variables (cbG cbS : list (oev RN) -> list (pev RN) -> bool).
  Variable sched : list (oev RN) -> list nat.
  Hypothesis PERM : forall hh l, Permutation (perm hh l) l.
  Hypothesis LT : (n <= T * share)%nat.
  Hypothesis SEEN : forall x v h0 hh idx, (idx < n)%nat -> exists z, seen (N := RN) x hh z /\ grad (OEval (N := RN) x v :: h0) hh idx = nonzeros 0 (gr idx z).

  Lemma decay_near : forall fuel i order (x : list R) last term tr v (xf : list R) full,
    psgd_loop (N := RN) maxIterations tolerance shuffle T share f step perm cbE grad cbG cbS sched fuel i order x last term tr = Ret (v, xf, full) ->
    Permutation order (seq 0 n) -> length x = p -> length (epochs (N := RN) tr) = (i - 1)%nat -> (1 <= i)%nat ->
    dst x y <= B (i - 1)%nat -> (forall j o a es z, In (OEpoch (N := RN) j o a es z) tr -> dst z y <= B j) ->
    (forall j o a es z, In (OEpoch (N := RN) j o a es z) full -> dst z y <= B j) /\ dst xf y <= B (length (epochs (N := RN) full)).
  Proof.
    assert (EN : forall tr e, match e with OEpoch _ _ _ _ _ => False | _ => True end -> length (epochs (N := RN) (e :: tr)) = length (epochs (N := RN) tr)) by (intros tr [] H; try contradiction; reflexivity).
    assert (ER : forall tr, length (epochs (N := RN) (rev tr)) = length (epochs (N := RN) tr)).
    { intros tr. unfold epochs. induction tr as [|e tr IH]; [reflexivity|]. cbn. rewrite flat_map_app, app_length, IH. cbn. rewrite app_nil_r.
      destruct e; cbn; lia. }
    induction fuel as [|fuel IH]; intros i order x last term tr v xf full E PO Lx LE I1 DX ET; cbn [psgd_loop] in E; [discriminate|].
    assert (STOP : forall v' tr', Ret (v', x, rev (OEnd (N := RN) x :: tr')) = Ret (v, xf, full) ->
      (forall j o a es z, In (OEpoch (N := RN) j o a es z) tr' -> dst z y <= B j) -> length (epochs (N := RN) tr') = (i - 1)%nat ->
      (forall j o a es z, In (OEpoch (N := RN) j o a es z) full -> dst z y <= B j) /\ dst xf y <= B (length (epochs (N := RN) full))).
    { intros v' tr' Q H1 H2. injection Q as _ <- <-. split.
      - intros j o a es z I. apply (H1 j o a es z). apply in_app_or in I. destruct I as [I|[I|[]]]; [apply in_rev in I; exact I|discriminate].
      - change (rev tr' ++ [OEnd (N := RN) x]) with (rev (OEnd (N := RN) x :: tr')). rewrite ER, EN by exact Logic.I. rewrite H2. exact DX. }
    destruct ((i =? bound maxIterations) || term)%bool; [exact (STOP _ _ E ET LE)|].
    assert (ET' : forall j o a es z, In (OEpoch (N := RN) j o a es z) (OEval (N := RN) x (f x) :: tr) -> dst z y <= B j) by (intros j o a es z [Q|I]; [discriminate|exact (ET j o a es z I)]).
    assert (LE' : length (epochs (N := RN) (OEval (N := RN) x (f x) :: tr)) = (i - 1)%nat) by (rewrite EN by exact Logic.I; exact LE).
    destruct (nisnan (n := RN) (f x) || nisinf (n := RN) (f x))%bool; [exact (STOP _ _ E ET' LE')|].
    destruct (nlt (n := RN) (nabs (n := RN) (nsub (n := RN) last (f x))) tolerance); [exact (STOP _ _ E ET' LE')|].
    set (order1 := if shuffle then perm (OEval (N := RN) x (f x) :: tr) order else order) in *.
    assert (PO1 : Permutation order1 (seq 0 n)) by (unfold order1; destruct shuffle; [rewrite PERM|]; exact PO).
    destruct (pexec _ _ _ _ _ _ _ _ _) as [s ls] eqn:PE.
    destruct (finished share order1 ls) eqn:FI; [|discriminate].
    destruct (HE i I1) as [H1 H2].
    destruct (epoch_near mx p n L mu (step i) gr y ES HM H1 Hn Hy H2 share order1 _ _ _ T _ x _ s ls Lx PO1 LT (SEEN x (f x) tr) PE FI) as (o & PO2 & M).
    pose proof (mid_end mx p n L mu (step i) gr F y ES SM SC HM H1 Hn Hy MN H2 o PO2 x (s_it s) M) as NX0.
    assert (NX : dst (s_it s) y <= B i).
    { replace i with (S (i - 1)) by lia. cbn [decay_bound]. replace (S (i - 1)) with i by lia. eapply Rle_trans; [exact NX0|].
      pose proof (q_range n L mu (step i) HM H1 Hn H2). apply Rplus_le_compat_r. apply Rmult_le_compat_l; [lra|exact DX]. }
    apply (IH _ _ _ _ _ _ _ _ _ E PO1).
    - exact (proj1 (proj2 M)).
    - change (S (length (epochs (N := RN) (OEval (N := RN) x (f x) :: tr))) = (S i - 1)%nat). rewrite LE'. lia.
    - lia.
    - replace (S i - 1)%nat with i by lia. exact NX.
    - intros j o' a es z [Q|I]; [injection Q as <- _ _ _ <-; exact NX|exact (ET' j o' a es z I)].
  Qed.
  Theorem psgd_decay fuel v (xf : list R) full : length x0 = p ->
    psgd (N := RN) maxIterations tolerance shuffle T share f step perm cbE grad cbG cbS sched n fuel x0 = Ret (v, xf, full) ->
    (forall j o a es z, In (OEpoch (N := RN) j o a es z) full -> dist z y <= decay_bound n L mu step (disagreement n gr y) (dist x0 y) j) /\
    dist xf y <= decay_bound n L mu step (disagreement n gr y) (dist x0 y) (length (epochs (N := RN) full)).
  Proof.
    intros L0 E. rewrite !dist_dst.
    destruct (decay_near fuel 1 (seq 0 n) x0 _ false [OBegin (N := RN) x0] v xf full E (Permutation_refl _) L0 eq_refl (le_n 1)) as [A C].
    - cbn. lra.
    - intros j o a es z [Q|[]]. discriminate.
    - split; [|exact C]. intros j o a es z I. rewrite dist_dst. exact (A j o a es z I).
  Qed.
End Run.

(** ** The bound tends to zero *)
Section Limit.
  Variables (n : nat) (L mu : R) (step : nat -> R) (s d : R).
  Hypothesis HM : 0 < mu <= L.
  Hypothesis Hn : (0 < n)%nat.
  Hypothesis HE : forall i, (1 <= i)%nat -> 0 < step i /\ 8 * (step i * INR n) * (L * L) <= mu.
  Hypothesis HS : 0 <= s.
  Hypothesis HD : 0 <= d.
  Notation B := (decay_bound n L mu step s d).
  Notation c := (INR n * mu / 4).
  Lemma c_pos : 0 < c.
  Proof. assert (0 < INR n) by (apply lt_0_INR; exact Hn). assert (0 < INR n * mu) by (apply Rmult_lt_0_compat; lra). lra. Qed.
  Lemma bound_nonneg k : 0 <= B k.
  Proof.
    induction k as [|k IH]; [exact HD|]. cbn [decay_bound]. destruct (HE (S k)) as [H1 H2]; [lia|].
    pose proof (q_range n L mu (step (S k)) HM H1 Hn H2) as Q.
    assert (0 <= (1 - step (S k) * INR n * mu / 4) * B k) by (apply Rmult_le_pos; lra).
    assert (0 <= 2 * step (S k) * step (S k) * INR n * L * s) by (repeat apply Rmult_le_pos; try lra; apply pos_INR). lra.
  Qed.
  (** the sum of the steps K + 1, ..., K + m *)
  Definition tail (K m : nat) : R := step_total step (K + m) - step_total step K.
  Lemma tail_S K m : tail K (S m) = tail K m + step (S (K + m)).
  Proof. unfold tail. rewrite Nat.add_succ_r, total_S. ring. Qed.
  Lemma tail_nonneg K m : 0 <= tail K m.
  Proof. induction m as [|m IH]; [unfold tail; rewrite Nat.add_0_r; lra|]. rewrite tail_S. destruct (HE (S (K + m))); [lia|lra]. Qed.

  Lemma above_falls K e : 0 < e -> (forall k, (K <= k)%nat -> 8 * L * s * step k <= e * mu) -> forall m,
    B (K + m) <= e \/ (B (K + m) - e) * (1 + c * tail K m) <= B K.
  Proof.
    intros E SMALL. pose proof c_pos as CP. induction m as [|m IH].
    - right. unfold tail. rewrite Nat.add_0_r. replace (step_total step K - step_total step K) with 0 by ring. lra.
    - rewrite tail_S, Nat.add_succ_r. cbn [decay_bound]. set (k := S (K + m)). set (b := B (K + m)) in *. set (t := tail K m) in *.
      assert (TN : 0 <= t) by apply tail_nonneg. destruct (HE k) as [H1 H2]; [unfold k; lia|]. set (h := step k) in *.
      pose proof (q_range n L mu h HM H1 Hn H2) as Q. assert (SK : 8 * L * s * h <= e * mu) by (apply SMALL; unfold k; lia).
      set (ch := c * h). assert (CH : 0 < ch < 1) by (unfold ch; split; [apply Rmult_lt_0_compat; lra|replace (c * h) with (h * INR n * mu / 4) by field; lra]).
      assert (SO : 2 * h * h * INR n * L * s <= ch * e).
      { replace (2 * h * h * INR n * L * s) with (h * INR n / 4 * (8 * L * s * h)) by field. replace (ch * e) with (h * INR n / 4 * (e * mu)) by (unfold ch; field).
        apply Rmult_le_compat_l; [|exact SK]. assert (0 <= h * INR n) by (apply Rmult_le_pos; [lra|apply pos_INR]). lra. }
      replace (1 - h * INR n * mu / 4) with (1 - ch) by (unfold ch; field).
      destruct IH as [IH|IH].
      + left. assert ((1 - ch) * b <= (1 - ch) * e) by (apply Rmult_le_compat_l; lra). lra.
      + destruct (Rle_or_lt b e) as [BE|BE].
        * left. assert ((1 - ch) * b <= (1 - ch) * e) by (apply Rmult_le_compat_l; lra). lra.
        * right. apply Rle_trans with ((1 - ch) * (b - e) * (1 + c * (t + h))).
          { apply Rmult_le_compat_r; [|lra]. assert (0 <= c * (t + h)) by (apply Rmult_le_pos; lra). lra. }
          apply Rle_trans with (2 := IH).
          replace ((1 - ch) * (b - e) * (1 + c * (t + h))) with ((b - e) * ((1 - ch) * (1 + c * t + ch))) by (unfold ch; ring).
          apply Rmult_le_compat_l; [lra|].
          replace ((1 - ch) * (1 + c * t + ch)) with (1 + c * t - (ch * ch + ch * (c * t))) by ring.
          assert (0 <= ch * ch) by (apply Rmult_le_pos; lra). assert (0 <= ch * (c * t)) by (apply Rmult_le_pos; [lra|apply Rmult_le_pos; lra]). lra.
  Qed.
  Theorem bound_vanishes : vanishing step -> unbounded_sum step -> forall eps, 0 < eps -> exists E, forall k, (E <= k)%nat -> B k <= eps.
  Proof.
    intros V U eps EP. pose proof c_pos as CP. set (e := eps / 2). assert (E0 : 0 < e) by (unfold e; lra).
    assert (LS : 0 <= 8 * L * s) by (repeat apply Rmult_le_pos; lra).
    destruct (V (e * mu / (8 * L * s + 1))) as [K HK].
    { apply Rmult_lt_0_compat; [apply Rmult_lt_0_compat; lra|apply Rinv_0_lt_compat; lra]. }
    set (K1 := S K).
    assert (SMALL : forall k, (K1 <= k)%nat -> 8 * L * s * step k <= e * mu).
    { intros k I. assert (A : step k <= e * mu / (8 * L * s + 1)) by (apply HK; unfold K1 in I; lia). destruct (HE k) as [H1 _]; [unfold K1 in I; lia|].
      assert (C : (8 * L * s + 1) * step k <= (8 * L * s + 1) * (e * mu / (8 * L * s + 1))) by (apply Rmult_le_compat_l; lra).
      replace ((8 * L * s + 1) * (e * mu / (8 * L * s + 1))) with (e * mu) in C by (field; lra). lra. }
    destruct (U (step_total step K1 + B K1 / (c * e))) as [k0 HK0].
    assert (B0 : 0 <= B K1 / (c * e)) by (apply Rmult_le_pos; [apply bound_nonneg|left; apply Rinv_0_lt_compat, Rmult_lt_0_compat; lra]).
    exists (Nat.max K1 k0). intros k I. replace k with (K1 + (k - K1))%nat by lia. set (m := (k - K1)%nat).
    destruct (above_falls K1 e E0 SMALL m) as [A|A]; [unfold e in A; lra|].
    assert (TL : B K1 / (c * e) <= tail K1 m).
    { unfold tail. replace (K1 + m)%nat with k by (unfold m; lia).
      pose proof (total_mono step (fun i I => proj1 (HE i I)) k0 k ltac:(lia)). lra. }
    destruct (Rle_or_lt (B (K1 + m)) eps) as [Q|Q]; [exact Q|exfalso].
    assert (X : e * (1 + c * tail K1 m) <= B K1).
    { apply Rle_trans with (2 := A). apply Rmult_le_compat_r; [|unfold e in *; lra]. pose proof (tail_nonneg K1 m).
      assert (0 <= c * tail K1 m) by (apply Rmult_le_pos; lra). lra. }
    assert (Y : c * e * (B K1 / (c * e)) <= c * e * tail K1 m) by (apply Rmult_le_compat_l; [left; apply Rmult_lt_0_compat; lra|exact TL]).
    assert (Z : forall z b, 0 < z -> z * (b / z) = b) by (intros; field; lra). rewrite Z in Y by (apply Rmult_lt_0_compat; lra). lra.
  Qed.
End Limit.

Lemma psgd_converges :
  forall mx p n L mu (gr : nat -> list R -> list R) (F : list R -> R) (y : list R) (step : nat -> R),
  each_smooth p n L gr -> smooth_on (space p) L F (avg_grad p n gr) -> strongly_convex_on (space p) mu F ->
  0 < mu <= L -> (0 < n)%nat -> length y = p -> (forall z, length z = p -> F y <= F z) ->
  (forall i, (1 <= i)%nat -> 0 < step i /\ 8 * (step i * INR n) * (L * L) <= mu) -> vanishing step -> unbounded_sum step ->
  forall (x0 : list R) eps, length x0 = p -> 0 < eps ->
  exists E, forall maxIterations (tolerance : R) f shuffle T share perm cbE grad cbG cbS sched,
  (forall hh l, Permutation (perm hh l) l) -> (n <= T * share)%nat ->
  (forall x v h0 hh idx, (idx < n)%nat -> exists z, seen (N := RNum mx) x hh z /\
     grad (OEval (N := RNum mx) x v :: h0) hh idx = nonzeros 0 (gr idx z)) ->
  forall fuel v (xf : list R) full,
  psgd (N := RNum mx) maxIterations tolerance shuffle T share f step perm cbE grad cbG cbS sched n fuel x0 = Ret (v, xf, full) ->
  forall j o a es z, In (OEpoch (N := RNum mx) j o a es z) full -> (E <= j)%nat -> dist z y <= eps.
Proof.
  intros mx p n L mu gr F y step ES SM SC HM Hn Hy MN HE V U x0 eps L0 EP.
  assert (D0 : 0 <= dist x0 y) by (unfold dist; apply sqrt_pos).
  destruct (bound_vanishes n L mu step (disagreement n gr y) (dist x0 y) HM Hn HE (S0_nonneg n gr y) D0 V U eps EP) as [E HB].
  exists E. intros maxIterations tolerance f shuffle T share perm cbE grad cbG cbS sched PM LT SN fuel v xf full Run j o a es z I LE.
  destruct (psgd_decay mx p n L mu gr F y step ES SM SC HM Hn Hy MN HE x0 maxIterations tolerance f shuffle T share perm cbE grad cbG cbS sched PM LT SN fuel v xf full L0 Run) as [A _].
  exact (Rle_trans _ _ _ (A j o a es z I) (HB j LE)).
Qed.

(** ** The harmonic step sizes a / i *)
Lemma harmonic_vanishing a : 0 < a -> vanishing (fun i => a / INR i).
Proof.
  intros A d D. destruct (archimed_cor1 (d / a)) as (N & H1 & H2); [apply Rmult_lt_0_compat; [lra|apply Rinv_0_lt_compat; lra]|].
  exists N. intros k I. assert (N0 : 0 < INR N) by (apply lt_0_INR; exact H2). assert (K0 : INR N <= INR k) by (apply le_INR; exact I).
  assert (I2 : / INR k <= / INR N) by (apply Rinv_le_contravar; lra).
  unfold Rdiv. apply Rle_trans with (a * (d / a)); [apply Rmult_le_compat_l; lra|]. right. field. lra.
Qed.
Lemma harmonic_block a k : 0 < a -> (0 < k)%nat -> forall m, (m <= k)%nat ->
  step_total (fun i => a / INR i) k + INR m * (a / (2 * INR k)) <= step_total (fun i => a / INR i) (k + m).
Proof.
  intros A K. assert (K0 : 0 < INR k) by (apply lt_0_INR; exact K). induction m as [|m IH]; intros I; [rewrite Nat.add_0_r; cbn [INR]; lra|].
  rewrite Nat.add_succ_r, total_S, S_INR. assert (P0 : INR (S (k + m)) <= 2 * INR k) by (replace (2 * INR k) with (INR (k + k)) by (rewrite plus_INR; ring); apply le_INR; lia).
  assert (P1 : 0 < INR (S (k + m))) by (apply lt_0_INR; lia).
  assert (/ (2 * INR k) <= / INR (S (k + m))) by (apply Rinv_le_contravar; lra).
  assert (a / (2 * INR k) <= a / INR (S (k + m))) by (unfold Rdiv; apply Rmult_le_compat_l; lra).
  specialize (IH ltac:(lia)). lra.
Qed.
Lemma harmonic_unbounded a : 0 < a -> unbounded_sum (fun i => a / INR i).
Proof.
  intros A. assert (P : forall m, INR m * (a / 2) <= step_total (fun i => a / INR i) (2 ^ m)).
  { induction m as [|m IH]; [cbn; lra|]. assert (K : (0 < 2 ^ m)%nat) by (apply Nat.neq_0_lt_0, Nat.pow_nonzero; lia).
    pose proof (harmonic_block a (2 ^ m) A K (2 ^ m) (le_n _)) as H. replace (2 ^ S m)%nat with (2 ^ m + 2 ^ m)%nat by (cbn; lia).
    assert (K0 : 0 < INR (2 ^ m)) by (apply lt_0_INR; exact K). replace (INR (2 ^ m) * (a / (2 * INR (2 ^ m)))) with (a / 2) in H by (field; lra).
    rewrite S_INR. lra. }
  intros B. destruct (archimed_cor1 (a / 2 / (Rabs B + 1))) as (N & H1 & H2).
  { apply Rmult_lt_0_compat; [lra|apply Rinv_0_lt_compat; pose proof (Rabs_pos B); lra]. }
  exists (2 ^ N)%nat. apply Rle_trans with (2 := P N). pose proof (Rabs_pos B). assert (N0 : 0 < INR N) by (apply lt_0_INR; exact H2).
  apply Rle_trans with (Rabs B + 1); [pose proof (Rle_abs B); lra|].
  assert (Q : INR N * (Rabs B + 1) * / INR N < INR N * (Rabs B + 1) * (a / 2 / (Rabs B + 1))) by (apply Rmult_lt_compat_l; [apply Rmult_lt_0_compat; lra|exact H1]).
  replace (INR N * (Rabs B + 1) * / INR N) with (Rabs B + 1) in Q by (field; lra).
  replace (INR N * (Rabs B + 1) * (a / 2 / (Rabs B + 1))) with (INR N * (a / 2)) in Q by (field; lra). lra.
Qed.
