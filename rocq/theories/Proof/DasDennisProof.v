(** Binomial coefficients, the search for the number of partitions, the lattice. *)
From Coq Require Import List Arith Bool ZArith Lia Permutation.
From Verif.Base Require Import Num Vec.
From Verif.Model Require Import DasDennis.
From Verif.Spec Require Import DasDennisSpec.
From Verif.Proof Require Import ParetoProof.
Import ListNotations.

(** ** Pascal's triangle *)
Lemma choose_0 : forall n, choose n 0 = 1.
Proof. destruct n; reflexivity. Qed.
Lemma choose_gt : forall n k, n < k -> choose n k = 0.
Proof.
  induction n as [|n IH]; intros [|k] H; cbn; try lia. rewrite !IH by lia. reflexivity.
Qed.
Lemma choose_diag : forall n, choose n n = 1.
Proof. induction n as [|n IH]; cbn; [reflexivity|]. rewrite IH, choose_gt by lia. reflexivity. Qed.
Lemma choose_S : forall n k, choose (S n) (S k) = choose n k + choose n (S k).
Proof. reflexivity. Qed.
Lemma choose_pos : forall n k, k <= n -> 1 <= choose n k.
Proof.
  induction n as [|n IH]; intros [|k] H; cbn; try lia. specialize (IH k ltac:(lia)). lia.
Qed.
Lemma choose_step : forall n k, choose n (S k) * S k = choose n k * (n - k).
Proof.
  induction n as [|n IH]; intros k.
  - cbn. destruct k; reflexivity.
  - rewrite choose_S. destruct k as [|k].
    + rewrite !choose_0. specialize (IH 0). rewrite choose_0 in IH. lia.
    + rewrite choose_S. assert (A := IH k). assert (B := IH (S k)).
      destruct (Nat.le_gt_cases n k) as [L|L].
      * rewrite !(choose_gt n) by lia. replace (S n - S k) with 0 by lia. lia.
      * replace (S n - S k) with (n - k) by lia.
        replace (choose n (S k) * S (S k)) with (choose n (S k) * S k + choose n (S k)) by lia.
        rewrite !Nat.mul_add_distr_r. rewrite B, <- A.
        assert (E : choose n (S k) * (n - k) = choose n (S k) * (n - S k) + choose n (S k)) by (replace (n - k) with (S (n - S k)) by lia; lia).
        rewrite E. lia.
Qed.
Lemma choose_absorb : forall n k, k <= n -> choose (S n) (S k) * S k = S n * choose n k.
Proof.
  intros n k H. rewrite choose_S, Nat.mul_add_distr_r, choose_step.
  replace (S n) with (S k + (n - k)) by lia. lia.
Qed.
Lemma choose_sym : forall n k, k <= n -> choose n k = choose n (n - k).
Proof.
  induction n as [|n IH]; intros [|k] H; try lia.
  - reflexivity.
  - rewrite choose_0, Nat.sub_0_r, choose_diag. reflexivity.
  - rewrite choose_S. replace (S n - S k) with (n - k) by lia.
    destruct (Nat.eq_dec k n) as [->|Ne].
    + rewrite Nat.sub_diag, choose_0, choose_diag, choose_gt by lia. reflexivity.
    + assert (A := IH k ltac:(lia)). assert (B := IH (S k) ltac:(lia)).
      replace (n - k) with (S (n - S k)) in A |- * by lia. rewrite choose_S. lia.
Qed.

Lemma wrap_id : forall z, (0 <= z < 2 ^ 64)%Z -> wrap z = z.
Proof. intros z H. unfold wrap. apply Z.mod_small. exact H. Qed.

Lemma binom_loop_ok : forall fuel n i,
  (forall j, i <= j < i + fuel -> (Z.of_nat (choose n j * (n - j)) < 2 ^ 64)%Z) -> i + fuel <= n ->
  binom_loop fuel (Z.of_nat n) (Z.of_nat i) (Z.of_nat (choose n i)) = Z.of_nat (choose n (i + fuel)).
Proof.
  induction fuel as [|fuel IH]; intros n i H L; cbn [binom_loop]; [rewrite Nat.add_0_r; reflexivity|].
  replace (Z.of_nat n - Z.of_nat i)%Z with (Z.of_nat (n - i)) by lia.
  rewrite <- Nat2Z.inj_mul. rewrite wrap_id by (split; [apply Nat2Z.is_nonneg|apply H; lia]).
  rewrite <- choose_step. replace (Z.of_nat i + 1)%Z with (Z.of_nat (S i)) by lia.
  rewrite Nat2Z.inj_mul, Z.div_mul by lia.
  rewrite IH; [f_equal; f_equal; lia| |lia]. intros j Hj. apply H. lia.
Qed.

(** exact whenever the last product fits into 64 bits *)
Lemma binomial_ok : forall n k, k <= n -> (Z.of_nat (choose n k * Nat.min k (n - k)) < 2 ^ 64)%Z ->
  binomial_coefficient n k = Z.of_nat (choose n k).
Proof.
  intros n k Hk HB. unfold binomial_coefficient.
  assert (G : forall k', k' <= n - k' -> (Z.of_nat (choose n k' * k') < 2 ^ 64)%Z ->
            binom_loop k' (Z.of_nat n) 0 1 = Z.of_nat (choose n k')).
  { intros k' L B. assert (X := binom_loop_ok k' n 0). rewrite choose_0 in X. cbn [Nat.add] in X. apply X; [|lia].
    intros j Hj. rewrite <- choose_step.
    (* the products grow up to the middle *)
    assert (M : forall d, S j + d <= k' -> choose n (S j) * S j <= choose n (S j + d) * (S j + d)).
    { induction d as [|d IH]; intros Hd; [rewrite Nat.add_0_r; lia|].
      etransitivity; [apply IH; lia|]. replace (S j + S d) with (S (S j + d)) by lia.
      rewrite choose_step. apply Nat.mul_le_mono_l. lia. }
    specialize (M (k' - S j) ltac:(lia)). replace (S j + (k' - S j)) with k' in M by lia. lia. }
  destruct (Nat.ltb_spec (n - k) k).
  - rewrite (choose_sym n k) by exact Hk. apply G; [lia|].
    rewrite <- choose_sym by exact Hk. rewrite Nat.min_r in HB by lia. exact HB.
  - apply G; [lia|]. rewrite Nat.min_l in HB by lia. exact HB.
Qed.

(** ** the number of points for p partitions *)
Definition points (m p : nat) : nat := choose (m + p - 1) p.

Lemma points_S : forall m p, 1 <= m -> points m (S p) * S p = points m p * (m + p).
Proof.
  intros m p H. unfold points. replace (m + S p - 1) with (S (m + p - 1)) by lia.
  rewrite choose_absorb by lia. replace (S (m + p - 1)) with (m + p) by lia. lia.
Qed.
Lemma points_lt : forall m p, 2 <= m -> points m p < points m (S p).
Proof.
  intros m p H. unfold points. replace (m + S p - 1) with (S (m + p - 1)) by lia. rewrite choose_S.
  assert (1 <= choose (m + p - 1) (S p)) by (apply choose_pos; lia). lia.
Qed.
Lemma points_ge : forall m p, 2 <= m -> S p <= points m p.
Proof.
  intros m p H. induction p as [|p IH]; [unfold points; rewrite choose_0; lia|]. assert (X := points_lt m p H). lia.
Qed.
Lemma points_mono : forall m p q, 2 <= m -> p < q -> points m p < points m q.
Proof.
  intros m p q H L. induction L as [|q L IH]; [apply points_lt; exact H|].
  assert (X := points_lt m q H). lia.
Qed.
Lemma points_1 : forall m, 1 <= m -> points m 1 = m.
Proof. intros m H. assert (X := points_S m 0 H). unfold points in X at 2. rewrite choose_0 in X. lia. Qed.

Lemma num_points_ok : forall m n p, 2 <= m -> 1 <= n -> (Z.of_nat ((m + n) * (m + n)) < 2 ^ 64)%Z ->
  p <= 2 \/ points m (p - 1) <= n -> num_uniform_points m p = Z.of_nat (points m p).
Proof.
  intros m n p Hm Hn HB Hp. unfold num_uniform_points. apply binomial_ok; [lia|]. fold (points m p).
  destruct p as [|p]; [rewrite Nat.min_0_l, Nat.mul_0_r; reflexivity|].
  assert (E : points m (S p) * S p <= (m + n) * (m + n)).
  { rewrite points_S by lia. destruct Hp as [Hp|Hp].
    - destruct p as [|[|p]]; [|rewrite points_1 by lia; apply Nat.mul_le_mono; lia|lia].
      unfold points. rewrite choose_0. nia.
    - replace (S p - 1) with p in Hp by lia. assert (X := points_ge m p Hm). apply Nat.mul_le_mono; lia. }
  assert (points m (S p) * Nat.min (S p) (m + S p - 1 - S p) <= points m (S p) * S p) by (apply Nat.mul_le_mono_l; lia).
  lia.
Qed.

Lemma partitions_loop_ok : forall fuel m n p, 2 <= m -> 1 <= n -> (Z.of_nat ((m + n) * (m + n)) < 2 ^ 64)%Z ->
  2 <= p -> (p = 2 \/ points m (p - 1) <= n) -> n < fuel + p ->
  exists q, partitions_loop fuel m (Z.of_nat n) p (Z.of_nat (points m p)) = Some q /\ p - 1 <= q /\
    n < points m (S q) /\ (q = p - 1 \/ points m q <= n).
Proof.
  induction fuel as [|fuel IH]; intros m n p Hm Hn HB Hp HI HF; cbn [partitions_loop].
  - assert (X := points_ge m p Hm).
    destruct (Z.leb_spec (Z.of_nat (points m p)) (Z.of_nat n)); [lia|].
    exists (p - 1). split; [reflexivity|]. replace (S (p - 1)) with p by lia. lia.
  - destruct (Z.leb_spec (Z.of_nat (points m p)) (Z.of_nat n)) as [L|L].
    + assert (L' : points m (p + 1 - 1) <= n) by (replace (p + 1 - 1) with p by lia; lia).
      rewrite (num_points_ok m n) by auto.
      destruct (IH m n (p + 1)) as (q & E1 & E2 & E3 & E4); auto; try lia.
      exists q. split; [exact E1|]. split; [lia|]. split; [exact E3|]. right.
      destruct E4 as [E4|E4]; [|exact E4]. rewrite E4. exact L'.
    + exists (p - 1). split; [reflexivity|]. replace (S (p - 1)) with p by lia. lia.
Qed.

Lemma find_partitions_ok : forall fuel m n, 2 <= m -> 1 <= n -> (Z.of_nat ((m + n) * (m + n)) < 2 ^ 64)%Z -> n <= fuel ->
  exists q, find_partitions fuel m (Z.of_nat n) = Some q /\ 1 <= q /\ n < points m (S q) /\ (q = 1 \/ points m q <= n).
Proof.
  intros fuel m n Hm Hn HB HF. unfold find_partitions.
  replace (Nat.eqb m 1) with false by (symmetry; apply Nat.eqb_neq; lia).
  assert (E1 : num_uniform_points 1 m = 1%Z).
  { unfold num_uniform_points. replace (1 + m - 1) with m by lia. rewrite binomial_ok.
    - rewrite choose_diag. reflexivity.
    - lia.
    - rewrite Nat.sub_diag, Nat.min_0_r, Nat.mul_0_r. reflexivity. }
  rewrite E1. destruct fuel as [|fuel]; [lia|]. cbn [partitions_loop].
  replace (1 <=? Z.of_nat n)%Z with true by (symmetry; apply Z.leb_le; lia).
  change (1 + 1) with 2. rewrite (num_points_ok m n) by (auto; left; lia).
  destruct (partitions_loop_ok fuel m n 2) as (q & A & B & C & D); auto; [lia|].
  exists q. split; [exact A|]. split; [lia|]. split; [exact C|]. destruct D; [left; lia|right; assumption].
Qed.

Lemma find_partitions_0 : forall fuel m, 2 <= m -> find_partitions fuel m 0 = Some 0.
Proof.
  intros fuel m Hm. unfold find_partitions.
  replace (Nat.eqb m 1) with false by (symmetry; apply Nat.eqb_neq; lia).
  assert (E1 : num_uniform_points 1 m = 1%Z).
  { unfold num_uniform_points. replace (1 + m - 1) with m by lia. rewrite binomial_ok.
    - rewrite choose_diag. reflexivity.
    - lia.
    - rewrite Nat.sub_diag, Nat.min_0_r, Nat.mul_0_r. reflexivity. }
  rewrite E1. destruct fuel; reflexivity.
Qed.

(** ** the lattice *)
(** r + 1 numbers with sum p, in the order of the stack *)
Fixpoint comps (r p : nat) : list (list nat) :=
  match r with
  | O => [[p]]
  | S r => flat_map (fun i => map (cons i) (comps r (p - i))) (rev (seq 0 (p + 1)))
  end.

Lemma comps_In : forall r p c, In c (comps r p) <-> lattice (S r) p c.
Proof.
  unfold lattice, list_sum. induction r as [|r IH]; intros p c; cbn [comps].
  - split.
    + intros [<-|[]]. cbn. split; [reflexivity|lia].
    + intros [H1 H2]. destruct c as [|a [|b c]]; cbn in *; try lia. left. f_equal. lia.
  - rewrite in_flat_map. split.
    + intros (i & Hi & Hc). apply in_map_iff in Hc. destruct Hc as (c' & <- & Hc). apply IH in Hc.
      rewrite <- in_rev, in_seq in Hi. cbn. lia.
    + intros [H1 H2]. destruct c as [|a c]; cbn in *; [lia|]. exists a. split; [rewrite <- in_rev, in_seq; lia|].
      apply in_map. apply IH. lia.
Qed.

Lemma nodup_flat : forall {A B} (f : A -> list B) l, NoDup l -> (forall a, In a l -> NoDup (f a)) ->
  (forall a b x, In a l -> In b l -> In x (f a) -> In x (f b) -> a = b) -> NoDup (flat_map f l).
Proof.
  intros A B f l; induction l as [|a l IH]; intros H1 H2 H3; cbn; [constructor|]. inversion H1; subst.
  apply nodup_app.
  - apply H2. left; reflexivity.
  - apply IH; [assumption|intros; apply H2; right; assumption|intros; eapply H3; eauto; right; assumption].
  - intros x Hx Hf. apply in_flat_map in Hf. destruct Hf as (b & Hb & Hxb).
    assert (a = b) by (eapply H3; eauto; [left; reflexivity|right; exact Hb]). subst. contradiction.
Qed.

Lemma comps_NoDup : forall r p, NoDup (comps r p).
Proof.
  induction r as [|r IH]; intros p; cbn [comps]; [constructor; [intros []|constructor]|].
  apply nodup_flat.
  - apply NoDup_rev, seq_NoDup.
  - intros i _. apply FinFun.Injective_map_NoDup; [|apply IH]. intros x y E. injection E. auto.
  - intros i j x _ _ Hi Hj. apply in_map_iff in Hi, Hj. destruct Hi as (u & <- & _). destruct Hj as (v & E & _). congruence.
Qed.

Lemma flat_length : forall {A B} (f : A -> list B) l, length (flat_map f l) = list_sum (map (fun a => length (f a)) l).
Proof. intros A B f l; induction l as [|a l IH]; cbn; [reflexivity|]. rewrite app_length, IH. reflexivity. Qed.
Lemma list_sum_perm : forall l1 l2, Permutation l1 l2 -> list_sum l1 = list_sum l2.
Proof. intros l1 l2 P. unfold list_sum. induction P; cbn; lia. Qed.

Lemma hockey : forall r p, list_sum (map (fun j => choose (r + j) j) (seq 0 (p + 1))) = choose (S r + p) p.
Proof.
  intros r p; induction p as [|p IH].
  - cbn. rewrite choose_0. reflexivity.
  - replace (S p + 1) with (S (p + 1)) by lia. rewrite seq_S, map_app, list_sum_app, IH. cbn [map list_sum fold_right].
    replace (0 + (p + 1)) with (S p) by lia. replace (S r + S p) with (S (r + S p)) by lia. rewrite choose_S.
    replace (S r + p) with (r + S p) by lia. lia.
Qed.

Lemma map_nodup : forall {A B} (f : A -> B) l, (forall x y, In x l -> In y l -> f x = f y -> x = y) -> NoDup l -> NoDup (map f l).
Proof.
  intros A B f l; induction l as [|a l IH]; intros HI ND; cbn; [constructor|]. inversion ND; subst. constructor.
  - intros H. apply in_map_iff in H. destruct H as (b & E & Hb). apply HI in E; [|right; exact Hb|left; reflexivity]. subst. contradiction.
  - apply IH; [|assumption]. intros x y Hx Hy. apply HI; right; assumption.
Qed.

Lemma seq_flip : forall p, Permutation (map (fun i => p - i) (seq 0 (p + 1))) (seq 0 (p + 1)).
Proof.
  intros p. apply NoDup_Permutation_bis.
  - apply map_nodup; [|apply seq_NoDup]. intros x y Hx Hy E. apply in_seq in Hx, Hy. lia.
  - rewrite map_length. lia.
  - intros x Hx. apply in_map_iff in Hx. destruct Hx as (i & <- & Hi). apply in_seq in Hi. apply in_seq. lia.
Qed.

Lemma comps_length : forall r p, length (comps r p) = choose (r + p) p.
Proof.
  induction r as [|r IH]; intros p; cbn [comps]; [cbn; rewrite choose_diag; reflexivity|].
  rewrite flat_length. rewrite <- hockey.
  rewrite <- (list_sum_perm _ _ (Permutation_map (fun j => choose (r + j) j) (seq_flip p))). rewrite map_map.
  rewrite (list_sum_perm _ _ (Permutation_map _ (Permutation_sym (Permutation_rev (seq 0 (p + 1)))))).
  f_equal. apply map_ext. intros i. rewrite map_length. apply IH.
Qed.

Section H.
  Context {N : Num}.
  Notation vec := (list N).
  Variables (m numPoints : nat) (delta epsilon : N).

  Definition coord (i : nat) : N := nmul delta (nofnat i).
  Definition finish (point : vec) (c : list nat) : vec := map (fun a => nadd a epsilon) (point ++ map coord c).

  Lemma helper_run : forall r point beta rest out,
    length point + S r = m -> length out + length (comps r beta) <= numPoints ->
    exists k, forall fuel, helper (k + fuel) m numPoints delta epsilon ((point, beta) :: rest) out =
      helper fuel m numPoints delta epsilon rest (out ++ map (finish point) (comps r beta)).
  Proof.
    induction r as [|r IH]; intros point beta rest out HL HB.
    - exists 1. intros fuel. cbn [Nat.add helper]. cbn in HB.
      replace (Nat.ltb (length out) numPoints) with true by (symmetry; apply Nat.ltb_lt; lia).
      replace (Nat.eqb (length point + 1) m) with true by (symmetry; apply Nat.eqb_eq; lia). reflexivity.
    - assert (PE : 1 <= length (comps (S r) beta)) by (rewrite comps_length; apply choose_pos; lia).
      cbn [comps] in *.
      assert (G : forall l rest out, length out + length (flat_map (fun i => map (cons i) (comps r (beta - i))) l) <= numPoints ->
        exists k, forall fuel,
          helper (k + fuel) m numPoints delta epsilon (map (fun i => (point ++ [nmul delta (nofnat i)], beta - i)) l ++ rest) out =
          helper fuel m numPoints delta epsilon rest (out ++ map (finish point) (flat_map (fun i => map (cons i) (comps r (beta - i))) l))).
      { intros l; induction l as [|i l IHl]; intros rest' out' B.
        - exists 0. intros fuel. cbn. rewrite app_nil_r. reflexivity.
        - cbn [flat_map map app] in *. rewrite app_length, map_length in B.
          destruct (IH (point ++ [nmul delta (nofnat i)]) (beta - i)
                      (map (fun i => (point ++ [nmul delta (nofnat i)], beta - i)) l ++ rest') out') as [k1 E1].
          { rewrite app_length. cbn. lia. } { lia. }
          assert (FE : map (finish point) (map (cons i) (comps r (beta - i))) = map (finish (point ++ [nmul delta (nofnat i)])) (comps r (beta - i))).
          { rewrite map_map. apply map_ext. intros c. unfold finish. cbn [map]. rewrite <- app_assoc. reflexivity. }
          destruct (IHl rest' (out' ++ map (finish (point ++ [nmul delta (nofnat i)])) (comps r (beta - i)))) as [k2 E2].
          { rewrite app_length, map_length. lia. }
          exists (k1 + k2). intros fuel. rewrite <- Nat.add_assoc, E1, E2. f_equal.
          rewrite map_app, FE, app_assoc. reflexivity. }
      destruct (G (rev (seq 0 (beta + 1))) rest out HB) as [k E]. exists (S k). intros fuel. cbn [Nat.add helper].
      replace (Nat.ltb (length out) numPoints) with true by (symmetry; apply Nat.ltb_lt; lia).
      replace (Nat.eqb (length point + 1) m) with false by (symmetry; apply Nat.eqb_neq; lia). apply E.
  Qed.
End H.

Lemma das_dennis_ok : forall (N : Num) m p (nan epsilon : N), 1 <= m ->
  exists fuel0, forall fuel, fuel0 <= fuel ->
  das_dennis fuel m (points m p) p nan epsilon =
    GRet (map (map (fun i => nadd (nmul (ndiv n1 (nofnat p)) (nofnat i)) epsilon)) (comps (m - 1) p)).
Proof.
  intros N m p nan epsilon Hm. set (delta := ndiv n1 (nofnat p)).
  destruct (helper_run m (points m p) delta epsilon (m - 1) [] p [] []) as [k E].
  { cbn. lia. }
  { rewrite comps_length. unfold points. replace (m - 1 + p) with (m + p - 1) by lia. cbn. lia. }
  exists (S k). intros fuel HF. unfold das_dennis. fold delta.
  replace fuel with (k + (fuel - k)) by lia. rewrite E. cbn [app].
  assert (L : length (map (finish delta epsilon []) (comps (m - 1) p)) = points m p).
  { rewrite map_length, comps_length. unfold points. f_equal. lia. }
  assert (R : helper (fuel - k) m (points m p) delta epsilon [] (map (finish delta epsilon []) (comps (m - 1) p)) =
              Some (map (finish delta epsilon []) (comps (m - 1) p))).
  { destruct (fuel - k); cbn [helper]; rewrite L, Nat.ltb_irrefl; reflexivity. }
  rewrite R, L, Nat.sub_diag. cbn [repeat]. rewrite app_nil_r. f_equal. apply map_ext. intros c.
  unfold finish. cbn [app]. rewrite map_map. reflexivity.
Qed.

(** which numbers of points are accepted, and what they give *)
Theorem generate_ok : forall (N : Num) m n p (nan epsilon : N), 2 <= m -> 1 <= p -> n = points m p ->
  (Z.of_nat ((m + n) * (m + n)) < 2 ^ 64)%Z ->
  exists cs fuel0, NoDup cs /\ (forall c, In c cs <-> lattice m p c) /\ length cs = n /\
    forall fuel, fuel0 <= fuel -> generate fuel m n nan epsilon =
      GRet (map (map (fun i => nadd (nmul (ndiv n1 (nofnat p)) (nofnat i)) epsilon)) cs).
Proof.
  intros N m n p nan epsilon Hm Hp -> HB.
  destruct (das_dennis_ok N m p nan epsilon) as [f0 E]; [lia|].
  exists (comps (m - 1) p), (f0 + points m p). split; [apply comps_NoDup|]. split.
  - intros c. rewrite comps_In. replace (S (m - 1)) with m by lia. reflexivity.
  - split; [rewrite comps_length; unfold points; f_equal; lia|]. intros fuel HF.
    assert (P1 : 1 <= points m p) by (apply choose_pos; lia).
    unfold generate. destruct (find_partitions_ok fuel m (points m p)) as (q & Q1 & Q2 & Q3 & Q4); auto; [lia|].
    assert (q = p).
    { destruct (Nat.lt_trichotomy q p) as [L|[L|L]]; [|exact L|].
      - assert (points m (S q) <= points m p).
        { destruct (Nat.eq_dec (S q) p) as [->|Ne]; [lia|]. apply Nat.lt_le_incl, points_mono; lia. }
        lia.
      - destruct Q4 as [Q4|Q4]; [lia|]. assert (X := points_mono m p q Hm L). lia. }
    subst q. rewrite Q1.
    assert (PP : points m (p - 1) <= points m p) by (apply Nat.lt_le_incl, points_mono; lia).
    rewrite (num_points_ok m (points m p) p Hm P1 HB (or_intror PP)).
    rewrite Z.eqb_refl. cbn [negb]. apply E. lia.
Qed.

Theorem generate_throws : forall (N : Num) m n (nan epsilon : N), 2 <= m ->
  (forall p, 1 <= p -> n <> points m p) -> (Z.of_nat ((m + n) * (m + n)) < 2 ^ 64)%Z ->
  forall fuel, n <= fuel -> generate fuel m n nan epsilon = GThrow.
Proof.
  intros N m n nan epsilon Hm HN HB fuel HF. unfold generate. destruct (Nat.eq_dec n 0) as [->|Ne].
  - cbn [Z.of_nat]. rewrite find_partitions_0 by exact Hm.
    assert (E : num_uniform_points m 0 = 1%Z).
    { unfold num_uniform_points. rewrite binomial_ok; [rewrite choose_0; reflexivity|lia|]. rewrite Nat.min_0_l, Nat.mul_0_r. reflexivity. }
    rewrite E. reflexivity.
  - destruct (find_partitions_ok fuel m n) as (q & Q1 & Q2 & Q3 & Q4); auto; [lia|]. rewrite Q1.
    rewrite (num_points_ok m n).
    + destruct (Z.eqb_spec (Z.of_nat n) (Z.of_nat (points m q))) as [E|E]; [|reflexivity].
      exfalso. apply (HN q); [exact Q2|lia].
    + exact Hm.
    + lia.
    + exact HB.
    + destruct Q4 as [->|Q4]; [left; lia|]. right. destruct q as [|q]; [lia|]. replace (S q - 1) with q by lia.
      assert (X := points_lt m q Hm). lia.
Qed.
