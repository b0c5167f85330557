(** The shapes shared by the multi-objective test problems. *)
From Coq Require Import List Arith Bool Reals Lia Lra Psatz.
From Verif.Model Require Import Problems MultiProblems.
From Verif.Spec Require Import MultiSpec.
Import ListNotations.
Local Open Scope R_scope.

(** ** sums of coordinates *)
Lemma fold_sum : forall (t : nat -> R) l s, fold_left (fun s i => s + t i) l s = s + fold_left (fun s i => s + t i) l 0.
Proof.
  intros t l; induction l as [|i l IH]; intros s; cbn; [lra|]. rewrite IH, (IH (0 + t i)). lra.
Qed.

Lemma fold_sum_ge : forall (t : nat -> R) (m : R) l, (forall i, In i l -> m <= t i) ->
  m * INR (length l) <= fold_left (fun s i => s + t i) l 0.
Proof.
  intros t m l; induction l as [|i l IH]; intros H; [cbn; lra|].
  cbn [fold_left]. rewrite fold_sum. cbn [length]. rewrite S_INR.
  assert (m <= t i) by (apply H; left; reflexivity).
  assert (m * INR (length l) <= fold_left (fun s i => s + t i) l 0) by (apply IH; intros j Hj; apply H; right; exact Hj). lra.
Qed.

Lemma fold_sum_eq : forall (t : nat -> R) (m : R) l, (forall i, In i l -> m <= t i) ->
  fold_left (fun s i => s + t i) l 0 = m * INR (length l) -> forall i, In i l -> t i = m.
Proof.
  intros t m l; induction l as [|i l IH]; intros H E j Hj; [destruct Hj|].
  cbn [fold_left length] in E. rewrite fold_sum, S_INR in E.
  assert (m <= t i) by (apply H; left; reflexivity).
  assert (m * INR (length l) <= fold_left (fun s i => s + t i) l 0) by (apply fold_sum_ge; intros k Hk; apply H; right; exact Hk).
  destruct Hj as [<-|Hj]; [lra|]. apply IH; [intros k Hk; apply H; right; exact Hk|lra|exact Hj].
Qed.

Lemma fold_sum_const : forall (t : nat -> R) (m : R) l, (forall i, In i l -> t i = m) ->
  fold_left (fun s i => s + t i) l 0 = m * INR (length l).
Proof.
  intros t m l; induction l as [|i l IH]; intros H; [cbn; lra|].
  cbn [fold_left length]. rewrite fold_sum, S_INR, IH by (intros k Hk; apply H; right; exact Hk).
  rewrite (H i) by (left; reflexivity). lra.
Qed.

Lemma rest_co : forall v k n x, length x = (k + n)%nat -> rest_is v k x <-> (forall i, In i (seq k n) -> co x i = v).
Proof.
  intros v k n x L. unfold rest_is, co. rewrite Forall_forall. split.
  - intros H i Hi. apply in_seq in Hi. apply H.
    rewrite <- (firstn_skipn k x) at 1. rewrite app_nth2; rewrite firstn_length_le by lia; [|lia].
    apply nth_In. rewrite skipn_length. lia.
  - intros H a Ha. apply (In_nth _ _ 0) in Ha. destruct Ha as (j & Hj & <-). rewrite skipn_length in Hj.
    rewrite <- (H (k + j)%nat) by (apply in_seq; lia).
    rewrite <- (firstn_skipn k x) at 2. rewrite app_nth2; rewrite firstn_length_le by lia; [|lia].
    f_equal. lia.
Qed.

(** [accu] over the coordinates k .. k + n - 1 of a vector of that length, for a term with the
    strict minimum m at v *)
Lemma accu_min : forall (t : R -> R) (m v : R) k n x (P : R -> Prop), length x = (k + n)%nat ->
  (forall i, In i (seq k n) -> P (co x i)) -> (forall a, P a -> m <= t a) -> (forall a, P a -> t a = m <-> a = v) ->
  m * INR n <= accu t k n x /\ (accu t k n x = m * INR n <-> rest_is v k x).
Proof.
  intros t m v k n x P L HP Hm Hs. unfold accu.
  assert (G := fold_sum_ge (fun i => t (co x i)) m (seq k n) (fun i Hi => Hm _ (HP i Hi))). rewrite seq_length in G.
  split; [exact G|]. rewrite (rest_co v k n x L). split.
  - intros E i Hi. apply (Hs _ (HP i Hi)).
    apply (fold_sum_eq (fun i => t (co x i)) m (seq k n) (fun i Hi => Hm _ (HP i Hi))); [rewrite seq_length; exact E|exact Hi].
  - intros E. rewrite <- (seq_length n k) at 2. apply fold_sum_const. intros i Hi. apply Hs; [apply HP; exact Hi|]. apply E. exact Hi.
Qed.

Lemma box_co : forall lo hi n x i, in_box lo hi n x -> (i < n)%nat -> lo <= co x i <= hi.
Proof.
  intros lo hi n x i [L F] Hi. rewrite Forall_forall in F. apply F. apply nth_In. lia.
Qed.

(** moving the coordinates from the k-th on to v *)
Definition move (k n : nat) (v : R) (x : list R) : list R := firstn k x ++ repeat v n.
Lemma move_length : forall k n v x, (k <= length x)%nat -> length (move k n v x) = (k + n)%nat.
Proof. intros. unfold move. rewrite app_length, firstn_length_le, repeat_length by lia. reflexivity. Qed.
Lemma move_box : forall lo hi k n v x, in_box lo hi (k + n) x -> lo <= v <= hi -> in_box lo hi (k + n) (move k n v x).
Proof.
  intros lo hi k n v x [L F] Hv. split; [apply move_length; lia|].
  unfold move. apply Forall_app. split.
  - rewrite Forall_forall in *. intros a Ha. apply F. rewrite <- (firstn_skipn k x). apply in_or_app. left. exact Ha.
  - apply Forall_forall. intros a Ha. apply repeat_spec in Ha. subst a. exact Hv.
Qed.
Lemma move_rest : forall k n v x, (k <= length x)%nat -> rest_is v k (move k n v x).
Proof.
  intros k n v x L. unfold rest_is, move. rewrite skipn_app, skipn_all2 by (rewrite firstn_length_le; lia).
  rewrite firstn_length_le, Nat.sub_diag by lia. cbn. apply Forall_forall. intros a Ha. exact (repeat_spec n v a Ha).
Qed.
Lemma move_co : forall k n v x i, (i < k)%nat -> (k <= length x)%nat -> co (move k n v x) i = co x i.
Proof.
  intros k n v x i Hi L. unfold co, move. rewrite app_nth1 by (rewrite firstn_length_le; lia).
  rewrite <- (firstn_skipn k x) at 2. rewrite app_nth1 by (rewrite firstn_length_le; lia). reflexivity.
Qed.

(** ** three shares of a whole, scaled *)
Definition incr (phi : R -> R) : Prop := forall a b, 0 <= a -> a < b -> phi a < phi b.
Lemma incr_le : forall phi, incr phi -> forall a b, 0 <= a -> a <= b -> phi a <= phi b.
Proof. intros phi H a b Ha [L|E]; [left; apply H; assumption|subst; lra]. Qed.
Lemma incr_inv : forall phi, incr phi -> forall a b, 0 <= b -> phi a <= phi b -> a <= b.
Proof. intros phi H a b Hb E. apply Rnot_lt_le. intros L. apply (H b a Hb) in L. lra. Qed.

Lemma pow_lt1 : forall e, (1 <= e)%nat -> forall a b, 0 <= a -> a < b -> a ^ e < b ^ e.
Proof.
  intros e He a b Ha L. induction e as [|k IH]; [lia|].
  destruct k as [|k]; [rewrite !pow_1; exact L|]. assert (H := IH ltac:(lia)).
  change (a * a ^ S k < b * b ^ S k). assert (0 <= a ^ S k) by (apply pow_le; exact Ha). nra.
Qed.

Lemma as_good3 : forall a b c a' b' c', a <= a' -> b <= b' -> c <= c' -> as_good [a; b; c] [a'; b'; c'].
Proof. intros. unfold as_good. apply Forall2_cons; [assumption|]. apply Forall2_cons; [assumption|]. apply Forall2_cons; [assumption|]. constructor. Qed.
Lemma as_good2 : forall a b a' b', a <= a' -> b <= b' -> as_good [a; b] [a'; b'].
Proof. intros. unfold as_good. apply Forall2_cons; [assumption|]. apply Forall2_cons; [assumption|]. constructor. Qed.

Section Shares.
  Variable feasible : list R -> Prop.
  Variable e : nat.                            (* the shares to the power e add up to one *)
  Hypothesis He : (1 <= e)%nat.
  Variables s0 s1 s2 h : list R -> R.
  Hypothesis Hs : forall x, feasible x -> 0 <= s0 x /\ 0 <= s1 x /\ 0 <= s2 x /\ s0 x ^ e + s1 x ^ e + s2 x ^ e = 1.
  Hypothesis Hh : forall x, feasible x -> 1 <= h x.
  Variable moved : list R -> list R.
  Hypothesis Hm : forall x, feasible x -> feasible (moved x) /\ h (moved x) = 1 /\
    s0 (moved x) = s0 x /\ s1 (moved x) = s1 x /\ s2 (moved x) = s2 x.

  Lemma pow_le1 : forall a b, 0 <= a -> a <= b -> a ^ e <= b ^ e.
  Proof. intros a b Ha Hab. apply pow_incr. lra. Qed.
  Lemma pow_inj1 : forall a b, 0 <= a -> a <= b -> a ^ e = b ^ e -> a = b.
  Proof.
    intros a b Ha [L|E] H; [|exact E]. exfalso. assert (Q := pow_lt1 e He a b Ha L). lra.
  Qed.
  Lemma pow01e : forall a, a = 0 -> a ^ e = 0.
  Proof. intros a ->. apply pow_i. lia. Qed.

  (** whoever has no larger share anywhere has the same shares *)
  Lemma same_shares : forall x y, feasible x -> feasible y -> s0 y <= s0 x -> s1 y <= s1 x -> s2 y <= s2 x ->
    s0 y = s0 x /\ s1 y = s1 x /\ s2 y = s2 x.
  Proof.
    intros x y Fx Fy L0 L1 L2. destruct (Hs x Fx) as (A0 & A1 & A2 & A3). destruct (Hs y Fy) as (B0 & B1 & B2 & B3).
    assert (P0 := pow_le1 _ _ B0 L0). assert (P1 := pow_le1 _ _ B1 L1). assert (P2 := pow_le1 _ _ B2 L2).
    repeat split; apply pow_inj1; try assumption; lra.
  Qed.

  (** direct: objective i is an increasing function of h times share i *)
  Variables p0 p1 p2 : R -> R.
  Hypotheses (I0 : incr p0) (I1 : incr p1) (I2 : incr p2).
  Definition direct (x : list R) : list R := [p0 (h x * s0 x); p1 (h x * s1 x); p2 (h x * s2 x)].
  Lemma direct_enough : forall x, feasible x -> h x = 1 -> pareto_optimal feasible direct x.
  Proof.
    intros x Fx E. destruct (Hs x Fx) as (A0 & A1 & A2 & A3).
    split; [exact Fx|]. intros y Fy [D ND]. destruct (Hs y Fy) as (B0 & B1 & B2 & B3). assert (H2 := Hh y Fy).
    unfold direct in D. rewrite E in D. inversion D as [|? ? ? ? D0 D']; subst. inversion D' as [|? ? ? ? D1 D'']; subst.
    inversion D'' as [|? ? ? ? D2 _]; subst. clear D D' D''.
    apply incr_inv in D0; [|exact I0|nra]. apply incr_inv in D1; [|exact I1|nra]. apply incr_inv in D2; [|exact I2|nra].
    destruct (same_shares x y Fx Fy ltac:(nra) ltac:(nra) ltac:(nra)) as (E0 & E1 & E2).
    apply ND. unfold direct. rewrite E. f_equal; [|f_equal; [|f_equal]]; f_equal; nra.
  Qed.
  Lemma direct_optimal : forall x, feasible x -> (pareto_optimal feasible direct x <-> h x = 1).
  Proof.
    intros x Fx. destruct (Hs x Fx) as (A0 & A1 & A2 & A3). assert (H1 := Hh x Fx). split.
    - intros [_ P]. destruct H1 as [H1|H1]; [exfalso|lra].
      destruct (Hm x Fx) as (Fm & E & E0 & E1 & E2). apply (P _ Fm). unfold direct. rewrite E, E0, E1, E2. split.
      + apply as_good3; apply incr_le; try assumption; nra.
      + intros Q. injection Q as Q0 Q1 Q2.
        assert (Z : forall p s, incr p -> 0 <= s -> p (1 * s) = p (h x * s) -> s = 0).
        { intros p s I S EQ. destruct S as [S|S]; [exfalso|lra]. assert (p (1 * s) < p (h x * s)) by (apply I; nra). lra. }
        apply Z in Q0; try assumption. apply Z in Q1; try assumption. apply Z in Q2; try assumption.
        rewrite Q0, Q1, Q2 in A3. rewrite (pow01e 0 eq_refl) in A3. lra.
    - apply direct_enough. exact Fx.
  Qed.

  (** inverted: objective i is a positive multiple of h times (1 - share i) *)
  Variables c0 c1 c2 : R.
  Hypotheses (C0 : 0 < c0) (C1 : 0 < c1) (C2 : 0 < c2).
  Definition inverted (x : list R) : list R := [c0 * ((1 - s0 x) * h x); c1 * ((1 - s1 x) * h x); c2 * ((1 - s2 x) * h x)].
  Lemma share_le1 : forall x, feasible x -> s0 x <= 1 /\ s1 x <= 1 /\ s2 x <= 1.
  Proof.
    intros x Fx. destruct (Hs x Fx) as (A0 & A1 & A2 & A3).
    assert (Z : forall s, 0 <= s -> s ^ e <= 1 -> s <= 1).
    { intros s S E. apply Rnot_lt_le. intros L. assert (Q := pow_le1 1 s ltac:(lra) ltac:(lra)). rewrite pow1 in Q.
      assert (1 = s) by (apply pow_inj1; [lra|lra|rewrite pow1; lra]). lra. }
    assert (0 <= s0 x ^ e) by (apply pow_le; exact A0). assert (0 <= s1 x ^ e) by (apply pow_le; exact A1).
    assert (0 <= s2 x ^ e) by (apply pow_le; exact A2). repeat split; apply Z; try assumption; lra.
  Qed.
  Lemma not_all_one : forall x, feasible x -> s0 x = 1 -> s1 x = 1 -> s2 x = 1 -> False.
  Proof. intros x Fx E0 E1 E2. destruct (Hs x Fx) as (_ & _ & _ & A3). rewrite E0, E1, E2, pow1 in A3. lra. Qed.
  Lemma inverted_optimal : forall x, feasible x -> (pareto_optimal feasible inverted x <-> h x = 1).
  Proof.
    intros x Fx. destruct (Hs x Fx) as (A0 & A1 & A2 & A3). destruct (share_le1 x Fx) as (L0 & L1 & L2). assert (H1 := Hh x Fx). split.
    - intros [_ P]. destruct H1 as [H1|H1]; [exfalso|lra].
      destruct (Hm x Fx) as (Fm & E & E0 & E1 & E2). apply (P _ Fm). unfold inverted. rewrite E, E0, E1, E2. split.
      + apply as_good3; apply Rmult_le_compat_l; try lra; nra.
      + intros Q. injection Q as Q0 Q1 Q2.
        assert (Z : forall c s, 0 < c -> c * ((1 - s) * 1) = c * ((1 - s) * h x) -> s = 1).
        { intros c s C EQ. apply Rmult_eq_reg_l in EQ; [|lra]. nra. }
        apply Z in Q0; try assumption. apply Z in Q1; try assumption. apply Z in Q2; try assumption. exact (not_all_one x Fx Q0 Q1 Q2).
    - intros E. split; [exact Fx|]. intros y Fy [D ND]. destruct (Hs y Fy) as (B0 & B1 & B2 & B3). assert (H2 := Hh y Fy).
      destruct (share_le1 y Fy) as (M0 & M1 & M2).
      unfold inverted in D. rewrite E in D. inversion D as [|? ? ? ? D0 D']; subst. inversion D' as [|? ? ? ? D1 D'']; subst.
      inversion D'' as [|? ? ? ? D2 _]; subst. clear D D' D''.
      apply Rmult_le_reg_l in D0; [|exact C0]. apply Rmult_le_reg_l in D1; [|exact C1]. apply Rmult_le_reg_l in D2; [|exact C2].
      destruct (same_shares y x Fy Fx ltac:(nra) ltac:(nra) ltac:(nra)) as (E0 & E1 & E2).
      rewrite E0 in *; rewrite E1 in *; rewrite E2 in *.
      assert (HY : h y = 1).
      { destruct H2 as [H2|H2]; [exfalso|lra]. apply (not_all_one y Fy); nra. }
      apply ND. unfold inverted. rewrite E, HY, E0, E1, E2. reflexivity.
  Qed.
End Shares.

(** ** two objectives: f1 and a curve k(f1, g) that rises with g *)
Section Curve.
  Variable feasible : list R -> Prop.
  Variables f1 g : list R -> R.
  Variable k : R -> R -> R.
  Variable dom : R -> Prop.
  Hypothesis Hd : forall x, feasible x -> dom (f1 x).
  Hypothesis Hg : forall x, feasible x -> 1 <= g x.
  Hypothesis Kup : forall f a b, dom f -> 1 <= a -> a < b -> k f a < k f b.
  Variable moved : list R -> list R.
  Hypothesis Hm : forall x, feasible x -> feasible (moved x) /\ g (moved x) = 1 /\ f1 (moved x) = f1 x.
  Definition curve (x : list R) : list R := [f1 x; k (f1 x) (g x)].

  Lemma curve_above : forall x, feasible x -> k (f1 x) 1 <= k (f1 x) (g x).
  Proof.
    intros x Fx. destruct (Hg x Fx) as [L|E]; [left; apply Kup; [apply Hd; exact Fx|lra|exact L]|rewrite <- E; lra].
  Qed.
  Lemma curve_needs : forall x, feasible x -> pareto_optimal feasible curve x -> g x = 1.
  Proof.
    intros x Fx [_ P]. destruct (Hg x Fx) as [L|E]; [exfalso|lra].
    destruct (Hm x Fx) as (Fm & E & E1). assert (Q := Kup (f1 x) 1 (g x) (Hd x Fx) (Rle_refl 1) L).
    apply (P _ Fm). unfold curve. rewrite E, E1. split; [apply as_good2; lra|]. intros Q'. injection Q' as Q'. lra.
  Qed.
  Hypothesis Kdown : forall a b, dom a -> dom b -> a < b -> k b 1 < k a 1.
  Lemma curve_optimal : forall x, feasible x -> (pareto_optimal feasible curve x <-> g x = 1).
  Proof.
    intros x Fx. split; [apply curve_needs; exact Fx|]. intros E. split; [exact Fx|]. intros y Fy [D ND].
    unfold curve in D. rewrite E in D. inversion D as [|? ? ? ? D0 D']; subst. inversion D' as [|? ? ? ? D1 _]; subst.
    assert (U := curve_above y Fy).
    assert (E1 : f1 y = f1 x).
    { destruct D0 as [D0|D0]; [exfalso|exact D0]. assert (Q := Kdown _ _ (Hd y Fy) (Hd x Fx) D0). lra. }
    rewrite E1 in *. assert (G1 : g y = 1).
    { destruct (Hg y Fy) as [L|Eg]; [exfalso|lra]. assert (Q := Kup (f1 x) 1 (g y) (Hd x Fx) (Rle_refl 1) L). lra. }
    apply ND. unfold curve. rewrite E1, E, G1. reflexivity.
  Qed.
  (** a point of the curve itself is dominated by nothing feasible, attained or not *)
  Lemma curve_front : forall v y, dom v -> feasible y -> ~ dominates (curve y) [v; k v 1].
  Proof.
    intros v y Dv Fy [D ND]. unfold curve in *. inversion D as [|? ? ? ? D0 D']; subst. inversion D' as [|? ? ? ? D1 _]; subst.
    assert (U := curve_above y Fy).
    assert (E1 : f1 y = v).
    { destruct D0 as [D0|D0]; [exfalso|exact D0]. assert (Q := Kdown _ _ (Hd y Fy) Dv D0). lra. }
    rewrite E1 in *. assert (G1 : g y = 1).
    { destruct (Hg y Fy) as [L|Eg]; [exfalso|lra]. assert (Q := Kup v 1 (g y) Dv (Rle_refl 1) L). lra. }
    apply ND. rewrite G1. reflexivity.
  Qed.
End Curve.
