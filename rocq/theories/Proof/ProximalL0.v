From Coq Require Import List Arith Bool ZArith Reals Lra Lia Permutation.
From Verif.Base Require Import Num Instances Vec SortIdx.
From Verif.Model Require Import Common SA Proximal.
From Verif.Spec Require Import Gradient LpSpec ProximalSpec.
From Verif.Proof Require Import GradientProof SAProof LpProof LpMore LpGroup ProximalProof.
Import ListNotations.

Section L0.
  Context {N : Num}.
  Lemma kill_length : forall idx (v : list N), length (kill_all idx v) = length v.
  Proof. unfold kill_all. induction idx as [|i idx IH]; intros v; cbn [fold_left]; [reflexivity|]. rewrite IH. apply set_nth_length. Qed.
  Lemma kill_out : forall idx (v : list N) j, ~ In j idx -> nth_error (kill_all idx v) j = nth_error v j.
  Proof.
    unfold kill_all. induction idx as [|i idx IH]; intros v j H; cbn [fold_left]; [reflexivity|].
    rewrite IH by (intros K; apply H; right; exact K). apply set_nth_other. intros ->. apply H. left. reflexivity.
  Qed.
  Lemma kill_in : forall idx (v : list N) j, In j idx -> j < length v -> nth_error (kill_all idx v) j = Some n0.
  Proof.
    unfold kill_all. induction idx as [|i idx IH]; intros v j H L; [destruct H|]. cbn [fold_left].
    destruct (in_dec Nat.eq_dec j idx) as [I|NI]; [apply IH; [exact I|rewrite set_nth_length; exact L]|].
    destruct H as [->|H]; [|contradiction]. pose proof (kill_out idx (set_nth j n0 v) j NI) as K. unfold kill_all in K. rewrite K.
    apply set_nth_same, L.
  Qed.

  Lemma In_firstn {A} n (l : list A) x : In x (firstn n l) -> In x l.
  Proof. intros H. rewrite <- (firstn_skipn n l). apply in_or_app. left. exact H. Qed.
  Lemma NoDup_firstn {A} n (l : list A) : NoDup l -> NoDup (firstn n l).
  Proof.
    intros H. rewrite <- (firstn_skipn n l) in H. revert H. generalize (skipn n l). generalize (firstn n l).
    induction l0 as [|x a IH]; intros b H; cbn in *; [constructor|]. apply NoDup_cons_iff in H. destruct H as [A1 A2].
    constructor; [|apply (IH b); exact A2]. intros I. apply A1, in_or_app. left. exact I.
  Qed.

  Lemma kill_range n tau : (0 <= tau <= Z.of_nat n)%Z -> (Z.of_nat n < 2 ^ 64)%Z ->
    ((Z.of_nat n - tau) mod 2 ^ 64 = Z.of_nat n - tau)%Z.
  Proof. intros H L. apply Z.mod_small. lia. Qed.

  (** the elements set to zero: n - tau positions, none with a larger magnitude than one that stays *)
  Lemma l0_ok (sort : list N -> list nat) (v : list N) tau r :
    (forall l, sorted_index l (sort l)) -> (0 <= tau <= Z.of_nat (length v))%Z -> (Z.of_nat (length v) < 2 ^ 64)%Z ->
    project_l0 sort v tau = Ret r ->
    exists kill, NoDup kill /\ Z.of_nat (length kill) = (Z.of_nat (length v) - tau)%Z /\
      (forall i, In i kill -> i < length v) /\ length r = length v /\
      (forall j, nth_error r j = if in_dec Nat.eq_dec j kill then Some n0 else nth_error v j) /\
      (forall i j x y, In i kill -> ~ In j kill -> nth_error v i = Some x -> nth_error v j = Some y -> nlt (nabs y) (nabs x) = false) /\
      (kill = [] \/ exists c, In c kill /\ forall i x y, In i kill -> nth_error v i = Some x -> nth_error v c = Some y -> i <> c -> nlt (nabs y) (nabs x) = false).
  Proof.
    intros SO TR LN E. unfold project_l0 in E. destruct (existsb _ _); [discriminate|].
    rewrite (kill_range _ _ TR LN) in E. destruct (_ <=? _)%Z; [|discriminate].
    assert (ER : r = kill_all (firstn (Z.to_nat (Z.of_nat (length v) - tau)) (sort (map nabs v))) v) by congruence. clear E. subst r.
    set (m := Z.to_nat (Z.of_nat (length v) - tau)). destruct (SO (map nabs v)) as [PM AS]. set (idx := sort (map nabs v)) in *.
    rewrite map_length in PM. assert (LI : length idx = length v) by (rewrite (Permutation_length PM); apply seq_length).
    assert (ML : m <= length idx) by (unfold m; lia).
    assert (ND : NoDup idx) by (apply (Permutation_NoDup (l := seq 0 (length v))); [symmetry; exact PM|apply seq_NoDup]).
    assert (IR : forall i, In i idx -> i < length v) by (intros i I; apply (Permutation_in _ PM) in I; apply in_seq in I; lia).
    exists (firstn m idx). split; [apply NoDup_firstn, ND|]. split; [rewrite firstn_length, Nat.min_l by exact ML; unfold m; lia|].
    split; [intros i I; apply IR; eapply In_firstn; exact I|]. split; [apply kill_length|]. split; [|split].
    - intros j. destruct (in_dec Nat.eq_dec j (firstn m idx)) as [I|NI]; [|apply kill_out, NI].
      apply kill_in; [exact I|]. apply IR. eapply In_firstn; exact I.
    - intros i j x y I NI X Y. destruct (firstn_In_nth O m idx i I) as (a & A1 & A2 & A3).
      assert (J : In j idx). { apply (Permutation_in (l := seq 0 (length v))); [symmetry; exact PM|]. apply in_seq. split; [lia|]. apply nth_error_Some. congruence. }
      destruct (In_nth idx j O J) as (b & B1 & B2).
      assert (m <= b). { destruct (Nat.lt_ge_cases b m) as [L|]; [|assumption]. exfalso. apply NI. rewrite <- B2.
        rewrite <- (firstn_skipn m idx) at 1. rewrite app_nth1 by (rewrite firstn_length; lia). apply nth_In. rewrite firstn_length. lia. }
      apply (AS a b i j); [lia| | | |].
      + rewrite <- A3. apply nth_error_nth'. exact A2.
      + rewrite <- B2. apply nth_error_nth'. exact B1.
      + rewrite nth_error_map, X. reflexivity.
      + rewrite nth_error_map, Y. reflexivity.
    - destruct m as [|m]; [left; reflexivity|]. right. exists (nth m idx O).
      assert (IC : In (nth m idx O) (firstn (S m) idx)).
      { rewrite <- (firstn_skipn (S m) idx) at 1. rewrite app_nth1 by (rewrite firstn_length; lia). apply nth_In. rewrite firstn_length. lia. }
      split; [exact IC|]. intros i x y I X Y NE. destruct (firstn_In_nth O (S m) idx i I) as (a & A1 & A2 & A3).
      destruct (Nat.eq_dec a m) as [->|NA]; [congruence|].
      apply (AS a m i (nth m idx O)); [lia| | | |].
      + rewrite <- A3. apply nth_error_nth'. exact A2.
      + apply nth_error_nth'. lia.
      + rewrite nth_error_map, X. reflexivity.
      + rewrite nth_error_map, Y. reflexivity.
  Qed.
  (** outside 0..n the count wraps round and the index runs out of bounds *)
  Lemma l0_bad (sort : list N -> list nat) (v : list N) tau :
    (- 2 ^ 31 <= tau < 2 ^ 31)%Z -> (Z.of_nat (length v) < 2 ^ 63)%Z -> (tau < 0 \/ Z.of_nat (length v) < tau)%Z ->
    project_l0 sort v tau = Bad.
  Proof.
    intros IT LV TR. unfold project_l0. destruct (existsb _ _); [reflexivity|].
    assert (K : (Z.of_nat (length v) < (Z.of_nat (length v) - tau) mod 2 ^ 64)%Z).
    { destruct TR as [TR|TR].
      - rewrite Z.mod_small by lia. lia.
      - rewrite <- (Z_mod_plus_full _ 1). rewrite Z.mod_small by lia. lia. }
    destruct (Z.leb_spec ((Z.of_nat (length v) - tau) mod 2 ^ 64) (Z.of_nat (length v))); [lia|reflexivity].
  Qed.
  Lemma l0_ret (sort : list N -> list nat) (v : list N) tau :
    (0 <= tau <= Z.of_nat (length v))%Z -> (Z.of_nat (length v) < 2 ^ 64)%Z -> (forall x, In x v -> nisnan (nabs x) = false) ->
    exists r, project_l0 sort v tau = Ret r.
  Proof.
    intros TR LV NN. unfold project_l0. destruct (existsb nisnan (map nabs v)) eqn:E.
    - apply existsb_exists in E. destruct E as (a & I & B). apply in_map_iff in I. destruct I as (x & <- & I). rewrite NN in B by exact I. discriminate.
    - rewrite kill_range by assumption. destruct (Z.leb_spec (Z.of_nat (length v) - tau) (Z.of_nat (length v))); [eauto|lia].
  Qed.
End L0.

Local Open Scope R_scope.
(** ** No sparse vector is closer *)
Fixpoint countb (k : list bool) : nat := match k with [] => O | b :: r => ((if b then 1 else 0) + countb r)%nat end.
Lemma sparse_closest c : 0 <= c -> forall (k : list bool) (v r y : list R),
  length k = length v -> length r = length v -> length y = length v ->
  (forall j b x z, nth_error k j = Some b -> nth_error v j = Some x -> nth_error r j = Some z ->
     if b then z = 0 /\ x * x <= c else z = x /\ c <= x * x) ->
  dist2 v r - c * INR (countb k) <= dist2 v y - c * INR (zeros_of y).
Proof.
  intros C. unfold dist2. induction k as [|b k IH]; intros [|x v] [|z r] [|w y] LK LR LY H; try discriminate; cbn [map2 sumR countb zeros_of]; [lra|].
  assert (K := IH v r y ltac:(cbn in LK; lia) ltac:(cbn in LR; lia) ltac:(cbn in LY; lia) (fun j b' x' z' => H (S j) b' x' z')).
  specialize (H O b x z eq_refl eq_refl eq_refl). rewrite !plus_INR.
  pose proof (Rle_0_sqr (x - w)) as Q. unfold Rsqr in Q.
  destruct b, (zero_dec w) as [->|W]; destruct H as [-> H]; cbn [INR]; try lra.
Qed.
Lemma countb_mem (kill : list nat) n : NoDup kill -> (forall i, In i kill -> (i < n)%nat) ->
  countb (map (fun j => if in_dec Nat.eq_dec j kill then true else false) (seq 0 n)) = length kill.
Proof.
  intros ND IR. set (p := fun j => if in_dec Nat.eq_dec j kill then true else false).
  assert (A : forall l, countb (map p l) = length (filter p l)).
  { induction l as [|x l IH]; cbn [map countb filter]; [reflexivity|]. destruct (p x); cbn [length]; lia. }
  rewrite A. apply Permutation_length. apply NoDup_Permutation; [apply NoDup_filter, seq_NoDup|exact ND|].
  intros x. rewrite filter_In, in_seq. unfold p. destruct (in_dec Nat.eq_dec x kill) as [I|NI].
  - split; [auto|]. intros _. specialize (IR x I). split; [lia|reflexivity].
  - split; [intros [_ F]; discriminate|contradiction].
Qed.
Lemma abs_sq x y : Rabs x <= Rabs y -> x * x <= y * y.
Proof.
  intros H. apply Rsqr_le_abs_1 in H. exact H.
Qed.
Lemma l0_best mx sort (v : list R) tau (r : list R) :
  (forall l, sorted_index (N := RNum mx) l (sort l)) -> (0 <= tau <= Z.of_nat (length v))%Z -> (Z.of_nat (length v) < 2 ^ 64)%Z ->
  project_l0 (N := RNum mx) sort v tau = Ret r ->
  (Z.of_nat (length v) - tau <= Z.of_nat (zeros_of r))%Z /\
  forall y, length y = length v -> (Z.of_nat (length v) - tau <= Z.of_nat (zeros_of y))%Z -> dist2 v r <= dist2 v y.
Proof.
  intros SO TR LN E. destruct (l0_ok (N := RNum mx) sort v tau r SO TR LN E) as (kill & ND & LK & IR & LR & RJ & SM & CC).
  set (k := map (fun j => if in_dec Nat.eq_dec j kill then true else false) (seq 0 (length v))).
  assert (CK : countb k = length kill) by (apply countb_mem; assumption).
  assert (LKK : length k = length v) by (unfold k; rewrite map_length, seq_length; reflexivity).
  assert (KJ : forall j b, nth_error k j = Some b -> b = if in_dec Nat.eq_dec j kill then true else false).
  { intros j b H. unfold k in H. rewrite nth_error_map in H. destruct (nth_error (seq 0 (length v)) j) as [i|] eqn:EI; [|discriminate].
    pose proof (nth_error_nth _ _ O EI) as EN. assert (JL : (j < length (seq 0 (length v)))%nat) by (apply nth_error_Some; congruence).
    rewrite seq_length in JL. rewrite seq_nth in EN by exact JL. cbn in EN. subst i. cbn in H. congruence. }
  assert (NTH : forall j, (nth_error r j = if in_dec Nat.eq_dec j kill then Some 0 else nth_error v j)) by exact RJ.
  clear RJ. cbn [nlt nabs RNum] in SM, CC.
  assert (CH : exists c, 0 <= c /\ forall j b x z, nth_error k j = Some b -> nth_error v j = Some x -> nth_error r j = Some z ->
     if b then z = 0 /\ x * x <= c else z = x /\ c <= x * x).
  { destruct CC as [->|(i & I & CC)].
    - exists 0. split; [lra|]. intros j b x z B X Z. apply KJ in B. specialize (NTH j). destruct (in_dec Nat.eq_dec j []) as [[]|]. subst b.
      split; [congruence|]. apply Rle_0_sqr.
    - assert (IL := IR i I). assert (XI : nth_error v i = Some (nth i v 0)) by (apply nth_error_nth', IL).
      exists (nth i v 0 * nth i v 0). split; [apply Rle_0_sqr|]. intros j b x z B X Z. apply KJ in B. specialize (NTH j).
      destruct (in_dec Nat.eq_dec j kill) as [J|NJ]; subst b.
      + split; [congruence|]. destruct (Nat.eq_dec j i) as [->|NE]; [rewrite XI in X; injection X as <-; lra|].
        apply abs_sq. specialize (CC j x (nth i v 0) J X XI NE). destruct (Rltb_spec (Rabs (nth i v 0)) (Rabs x)); [discriminate|lra].
      + split; [congruence|]. apply abs_sq. specialize (SM i j (nth i v 0) x I NJ XI X).
        destruct (Rltb_spec (Rabs x) (Rabs (nth i v 0))); [discriminate|lra]. }
  destruct CH as (c & C & CH). split.
  - cbn [T RNum] in *. refine (Z.le_trans _ _ _ (Z.eq_le_incl _ _ (eq_sym LK)) _). apply Nat2Z.inj_le. rewrite <- CK.
    assert (G : forall (k : list bool) (v r : list R), length k = length v -> length r = length v ->
       (forall j b x z, nth_error k j = Some b -> nth_error v j = Some x -> nth_error r j = Some z ->
          if b then z = 0 /\ x * x <= c else z = x /\ c <= x * x) -> (countb k <= zeros_of r)%nat).
    { clear. induction k as [|b k IH]; intros [|x v] [|z r] L1 L2 H; try discriminate; cbn [countb zeros_of]; [lia|].
      assert (K := IH v r ltac:(cbn in L1; lia) ltac:(cbn in L2; lia) (fun j b' x' z' => H (S j) b' x' z')).
      specialize (H O b x z eq_refl eq_refl eq_refl). destruct b; [destruct H as [-> _]; destruct (zero_dec 0); [lia|contradiction]|lia]. }
    apply (G k v r LKK LR CH).
  - intros y LY ZY. pose proof (sparse_closest c C k v r y LKK LR LY CH) as S0. rewrite CK in S0.
    assert (ZL : (length kill <= zeros_of y)%nat).
    { apply Nat2Z.inj_le. refine (Z.le_trans _ _ _ (Z.eq_le_incl _ _ LK) ZY). } apply le_INR in ZL.
    assert (c * INR (length kill) <= c * INR (zeros_of y)) by (apply Rmult_le_compat_l; assumption). lra.
Qed.
