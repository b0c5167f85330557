From Coq Require Import List Arith Bool ZArith Reals Lia Lra.
From Verif.Base Require Import Num Vec Instances.
From Verif.Model Require Import Indicators.
From Verif.Spec Require Import LpSpec IndicatorsSpec.
From Verif.Proof Require Import LpMore LpProof ProximalProof.
Import ListNotations.
Local Open Scope R_scope.

Lemma map2_combine {A B C} (f : A -> B -> C) a b : map2 f a b = map (fun q => f (fst q) (snd q)) (combine a b).
Proof. revert b; induction a as [|x a IH]; intros [|y b]; cbn; [reflexivity..|]. rewrite IH. reflexivity. Qed.

Lemma stdmax_R mx (a b : R) : stdmax (N := RNum mx) a b = Rmax a b.
Proof.
  unfold stdmax. cbn. unfold Rmax. destruct (Rltb_spec a b), (Rle_dec a b); try reflexivity; try lra.
Qed.

Lemma distance_R mx (a z : list R) : distance (N := RNum mx) a z = dist2 a z.
Proof. unfold distance, dist2. cbn [nsqrt RNum]. f_equal. refine (eq_trans (vsum_sumR mx _) _). f_equal. exact (map2_combine (fun a z : R => (a - z) * (a - z)) a z). Qed.

Lemma distance_plus_R mx (a z : list R) : distance_plus (N := RNum mx) a z = dist2_plus a z.
Proof.
  unfold distance_plus, dist2_plus. cbn [nsqrt RNum]. f_equal. refine (eq_trans (vsum_sumR mx _) _). f_equal.
  refine (eq_trans (map2_combine _ a z) _). apply map_ext. intros q. cbn [nmul RNum].
  rewrite stdmax_R. reflexivity.
Qed.

Lemma smallest_fold mx (d : list R -> R) : forall front (m0 : R),
  let m := fold_left (fun m a => if nlt (n := RNum mx) (d a) m then d a else m) front m0 in
  m <= m0 /\ (forall a, In a front -> m <= d a) /\ (m = m0 \/ exists a, In a front /\ d a = m).
Proof.
  intros front; induction front as [|b front IH]; intros m0; cbn [fold_left].
  - split; [lra|]. split; [intros a []|left; reflexivity].
  - set (m1 := if nlt (n := RNum mx) (d b) m0 then d b else m0).
    assert (M : m1 <= m0 /\ m1 <= d b /\ (m1 = m0 \/ m1 = d b)).
    { unfold m1. cbn. destruct (Rltb_spec (d b) m0); lra. }
    destruct (IH m1) as (A & B & C). split; [exact (Rle_trans _ _ _ A (proj1 M))|]. split.
    + intros a [<-|H]; [exact (Rle_trans _ _ _ A (proj1 (proj2 M)))|apply B; exact H].
    + destruct C as [C|(a & Ha & E)].
      * destruct M as (_ & _ & [M|M]); [left; exact (eq_trans C M)|right; exists b; split; [left; reflexivity|]].
        exact (eq_trans (eq_sym M) (eq_sym C)).
      * right. exists a. split; [right; exact Ha|exact E].
Qed.

Lemma smallest_least mx (d : list R -> R) front : front <> [] -> (forall a, In a front -> d a <= mx) ->
  least d front (smallest (N := RNum mx) d front).
Proof.
  intros NE HB. destruct (smallest_fold mx d front mx) as (A & B & C). split; [|exact B].
  destruct C as [C|C]; [|exact C]. destruct front as [|b front]; [congruence|]. exists b. split; [left; reflexivity|].
  specialize (B b (or_introl eq_refl)). specialize (HB b (or_introl eq_refl)).
  apply Rle_antisym; [|exact B]. refine (Rle_trans _ _ _ HB _). apply Req_le. symmetry. exact C.
Qed.

Lemma least_fun {A} (d : A -> R) front m m' : least d front m -> least d front m' -> m = m'.
Proof.
  intros [(a & Ha & <-) H1] [(b & Hb & <-) H2]. apply Rle_antisym; auto.
Qed.

Lemma fold_sum {A} mx (g : A -> R) : forall l (acc : R), fold_left (fun acc z => nadd (n := RNum mx) acc (g z)) l acc = acc + sumR (map g l).
Proof.
  induction l as [|z l IH]; intros acc; cbn [fold_left map sumR]; [lra|]. rewrite IH. cbn. lra.
Qed.

(** ** formulas *)
Definition powN (mx : R) : RNum mx -> RNum mx -> RNum mx := powR.

Lemma igd_formula mx k front ref (p : R) : fronts k front ref ->
  (forall a z, In a front -> In z ref -> dist2 a z <= mx) ->
  exists ms, Forall2 (fun z m => least (fun a => dist2 a z) front m) ref ms /\
    igd (N := RNum mx) (powN mx) front ref p = powR (sumR (map (fun m => powR m p) ms) / INR (length ref)) (1 / p).
Proof.
  intros HF HB. exists (map (fun z => smallest (N := RNum mx) (fun a => dist2 a z) front) ref). split.
  - assert (G : forall l, incl l ref -> Forall2 (fun z m => least (fun a => dist2 a z) front m) l
        (map (fun z => smallest (N := RNum mx) (fun a => dist2 a z) front) l)).
    { intros l; induction l as [|z l IH]; intros HI; cbn [map]; constructor.
      - apply smallest_least; [apply HF|]. intros a Ha. apply HB; [exact Ha|apply HI; left; reflexivity].
      - apply IH. intros y Hy. apply HI. right; exact Hy. }
    apply G, incl_refl.
  - unfold igd, powN. cbn [ndiv n1 RNum]. f_equal. f_equal; [|unfold nofnat; rewrite nofZ_R; reflexivity].
    refine (eq_trans (fold_sum mx (fun z => powR (smallest (N := RNum mx) (fun a => distance (N := RNum mx) a z) front) p) ref 0) _).
    rewrite Rplus_0_l, map_map. f_equal. apply map_ext. intros z. f_equal. unfold smallest.
    generalize (nmax (n := RNum mx)). clear. induction front as [|a front IH]; intros m; [reflexivity|]. cbn [fold_left].
    rewrite IH. f_equal. rewrite distance_R. reflexivity.
Qed.

Lemma igd_plus_formula mx k front ref : fronts k front ref ->
  (forall a z, In a front -> In z ref -> dist2_plus a z <= mx) ->
  exists ms, Forall2 (fun z m => least (fun a => dist2_plus a z) front m) ref ms /\
    igd_plus (N := RNum mx) front ref = sumR ms / INR (length ref).
Proof.
  intros HF HB. exists (map (fun z => smallest (N := RNum mx) (fun a => dist2_plus a z) front) ref). split.
  - assert (G : forall l, incl l ref -> Forall2 (fun z m => least (fun a => dist2_plus a z) front m) l
        (map (fun z => smallest (N := RNum mx) (fun a => dist2_plus a z) front) l)).
    { intros l; induction l as [|z l IH]; intros HI; cbn [map]; constructor.
      - apply smallest_least; [apply HF|]. intros a Ha. apply HB; [exact Ha|apply HI; left; reflexivity].
      - apply IH. intros y Hy. apply HI. right; exact Hy. }
    apply G, incl_refl.
  - unfold igd_plus. cbn [ndiv RNum]. f_equal; [|unfold nofnat; rewrite nofZ_R; reflexivity].
    refine (eq_trans (fold_sum mx (fun z => smallest (N := RNum mx) (fun a => distance_plus (N := RNum mx) a z) front) ref 0) _).
    rewrite Rplus_0_l. f_equal. apply map_ext. intros z. unfold smallest.
    generalize (nmax (n := RNum mx)). clear. induction front as [|a front IH]; intros m; [reflexivity|]. cbn [fold_left].
    rewrite IH. f_equal. rewrite distance_plus_R. reflexivity.
Qed.

(** ** when are they zero? *)
Lemma sumR_zero l : (forall x, In x l -> 0 <= x) -> sumR l = 0 -> forall x, In x l -> x = 0.
Proof.
  induction l as [|a l IH]; intros HP HS x Hx; [destruct Hx|]. cbn [sumR] in HS.
  assert (0 <= sumR l) by (apply sumR_nonneg; intros y Hy; apply HP; right; exact Hy).
  assert (0 <= a) by (apply HP; left; reflexivity).
  destruct Hx as [<-|Hx]; [lra|]. apply IH; [intros y Hy; apply HP; right; exact Hy|lra|exact Hx].
Qed.

Lemma sumR_all0 {A} (f : A -> R) l : (forall x, In x l -> f x = 0) -> sumR (map f l) = 0.
Proof.
  induction l as [|a l IH]; intros H; [reflexivity|]. cbn [map sumR]. rewrite IH by (intros x Hx; apply H; right; exact Hx).
  rewrite (H a (or_introl eq_refl)). lra.
Qed.

Lemma dist2_nonneg a z : 0 <= dist2 a z. Proof. apply sqrt_pos. Qed.
Lemma dist2_plus_nonneg a z : 0 <= dist2_plus a z. Proof. apply sqrt_pos. Qed.

Lemma dist2_zero a z : length a = length z -> (dist2 a z = 0 <-> a = z).
Proof.
  intros L. unfold dist2. assert (P : 0 <= sumR (map (fun q => (fst q - snd q) * (fst q - snd q)) (combine a z))).
  { apply sumR_nonneg. intros x Hx. apply in_map_iff in Hx. destruct Hx as (q & <- & _). apply Rle_0_sqr. }
  split.
  - intros H. apply sqrt_eq_0 in H; [|exact P].
    assert (Z0 : forall q, In q (combine a z) -> fst q = snd q).
    { intros q Hq. assert (E : (fst q - snd q) * (fst q - snd q) = 0).
      { apply (sumR_zero _) with (2 := H).
        - intros x Hx. apply in_map_iff in Hx. destruct Hx as (q' & <- & _). apply Rle_0_sqr.
        - apply in_map_iff. exists q. split; [reflexivity|exact Hq]. }
      apply Rmult_integral in E. lra. }
    clear P H. revert z L Z0. induction a as [|x a IH]; intros [|y z] L Z0; try discriminate L; [reflexivity|].
    f_equal; [exact (Z0 (x, y) (or_introl eq_refl))|]. apply IH; [injection L; auto|]. intros q Hq. apply Z0. right; exact Hq.
  - intros <-. replace (sumR _) with 0; [apply sqrt_0|]. symmetry. apply sumR_all0. intros [x y] H. clear P L.
    assert (x = y); [|subst; cbn; ring]. revert H. induction a as [|b a IH]; intros H; [destruct H|].
    destruct H as [H|H]; [injection H; congruence|apply IH; exact H].
Qed.

Lemma dist2_plus_zero a z : dist2_plus a z = 0 <-> weakly_dominates a z.
Proof.
  unfold dist2_plus. assert (P : 0 <= sumR (map (fun q => Rmax (fst q - snd q) 0 * Rmax (fst q - snd q) 0) (combine a z))).
  { apply sumR_nonneg. intros x Hx. apply in_map_iff in Hx. destruct Hx as (q & <- & _). apply Rle_0_sqr. }
  split.
  - intros H q Hq. apply sqrt_eq_0 in H; [|exact P].
    assert (E : Rmax (fst q - snd q) 0 * Rmax (fst q - snd q) 0 = 0).
    { apply (sumR_zero _) with (2 := H).
      - intros x Hx. apply in_map_iff in Hx. destruct Hx as (q' & <- & _). apply Rle_0_sqr.
      - apply in_map_iff. exists q. split; [reflexivity|exact Hq]. }
    assert (E' : Rmax (fst q - snd q) 0 = 0) by (apply Rmult_integral in E; tauto). assert (X := Rmax_l (fst q - snd q) 0). lra.
  - intros H. replace (sumR _) with 0; [apply sqrt_0|]. symmetry. apply sumR_all0. intros q Hq. specialize (H q Hq).
    rewrite Rmax_right by lra. ring.
Qed.

Lemma dist2_plus_le a z : dist2_plus a z <= dist2 a z.
Proof.
  apply sqrt_le_1_alt. apply sumR_le_map. intros q _. unfold Rmax. destruct (Rle_dec (fst q - snd q) 0); nra.
Qed.

Lemma Forall2_map_all {A} (P : A -> R -> Prop) l ms : Forall2 P l ms -> (forall z m, In z l -> P z m -> m = 0) -> forall m, In m ms -> m = 0.
Proof.
  intros F H. induction F as [|z m l ms Hz F IH]; intros x Hx; [destruct Hx|]. destruct Hx as [<-|Hx].
  - apply (H z); [left; reflexivity|exact Hz].
  - apply IH; [intros; eapply H; [right|]; eassumption|exact Hx].
Qed.

Lemma Forall2_In_l {A B} (P : A -> B -> Prop) l ms z : Forall2 P l ms -> In z l -> exists m, In m ms /\ P z m.
Proof.
  intros F; induction F as [|y m l ms Hy F IH]; intros H; [destruct H|]. destruct H as [<-|H].
  - exists m. split; [left; reflexivity|exact Hy].
  - destruct (IH H) as (m' & Hm & Pm). exists m'. split; [right; exact Hm|exact Pm].
Qed.
Lemma Forall2_In_r {A B} (P : A -> B -> Prop) l ms m : Forall2 P l ms -> In m ms -> exists z, In z l /\ P z m.
Proof.
  intros F; induction F as [|y x l ms Hy F IH]; intros H; [destruct H|]. destruct H as [<-|H].
  - exists y. split; [left; reflexivity|exact Hy].
  - destruct (IH H) as (z & Hz & Pz). exists z. split; [right; exact Hz|exact Pz].
Qed.

Lemma powR_eq0 x y : 0 <= x -> powR x y = 0 -> x = 0.
Proof. intros Hx H. destruct (Rle_lt_or_eq_dec 0 x Hx) as [L|E]; [|auto]. assert (P := powR_pos x y L). lra. Qed.

Lemma INR_pos {A} (l : list A) : l <> [] -> 0 < INR (length l).
Proof. intros H. destruct l; [congruence|]. apply lt_0_INR. cbn. lia. Qed.

Theorem igd_zero mx k front ref (p : R) : fronts k front ref ->
  (forall a z, In a front -> In z ref -> dist2 a z <= mx) ->
  (igd (N := RNum mx) (powN mx) front ref p = 0 <-> forall z, In z ref -> In z front).
Proof.
  intros HF HB. destruct (igd_formula mx k front ref p HF HB) as (ms & F & ->).
  assert (NP : forall x, In x (map (fun m => powR m p) ms) -> 0 <= x).
  { intros x Hx. apply in_map_iff in Hx. destruct Hx as (m & <- & _). apply powR_nonneg. }
  assert (IP := INR_pos ref (fr_ref _ _ _ HF)).
  assert (NN : 0 <= sumR (map (fun m => powR m p) ms)) by (apply sumR_nonneg; exact NP). split.
  - intros H z Hz. destruct (Forall2_In_l _ _ _ z F Hz) as (m & Hm & [(a & Ha & E) _]).
    apply powR_eq0 in H.
    2:{ apply Rmult_le_pos; [exact NN|]. apply Rlt_le, Rinv_0_lt_compat, IP. }
    assert (S0 : sumR (map (fun m => powR m p) ms) = 0).
    { assert (X : sumR (map (fun m => powR m p) ms) / INR (length ref) * INR (length ref) = 0) by (rewrite H; ring).
      unfold Rdiv in X. rewrite Rmult_assoc, Rinv_l, Rmult_1_r in X by lra. exact X. }
    assert (M0 : powR m p = 0) by (apply (sumR_zero _ NP S0); apply in_map_iff; exists m; auto).
    assert (m = 0) by (apply (powR_eq0 m p); [rewrite <- E; apply dist2_nonneg|exact M0]).
    rewrite H0 in E. apply dist2_zero in E; [subst; exact Ha|].
    rewrite !(fr_dim _ _ _ HF); auto.
  - intros H.
    assert (M0 : forall m, In m ms -> m = 0).
    { intros m Hm. destruct (Forall2_In_r _ _ _ m F Hm) as (z & Hz & [(a & Ha & E) L]).
      apply Rle_antisym; [|rewrite <- E; apply dist2_nonneg].
      refine (Rle_trans _ _ _ (L z (H z Hz)) _). apply Req_le. apply dist2_zero; reflexivity. }
    rewrite sumR_all0 by (intros m Hm; rewrite (M0 m Hm); apply powR_0).
    unfold Rdiv. rewrite Rmult_0_l. apply powR_0.
Qed.

Theorem igd_plus_zero mx k front ref : fronts k front ref ->
  (forall a z, In a front -> In z ref -> dist2_plus a z <= mx) ->
  (igd_plus (N := RNum mx) front ref = 0 <-> forall z, In z ref -> exists a, In a front /\ weakly_dominates a z).
Proof.
  intros HF HB. destruct (igd_plus_formula mx k front ref HF HB) as (ms & F & ->).
  assert (NP : forall x, In x ms -> 0 <= x).
  { intros x Hx. destruct (Forall2_In_r _ _ _ x F Hx) as (z & Hz & [(a & Ha & <-) L]). apply dist2_plus_nonneg. }
  assert (IP := INR_pos ref (fr_ref _ _ _ HF)). split.
  - intros H z Hz. destruct (Forall2_In_l _ _ _ z F Hz) as (m & Hm & [(a & Ha & E) _]).
    assert (S0 : sumR ms = 0).
    { assert (X : sumR ms / INR (length ref) * INR (length ref) = 0) by (rewrite H; ring).
      unfold Rdiv in X. rewrite Rmult_assoc, Rinv_l, Rmult_1_r in X by lra. exact X. }
    exists a. split; [exact Ha|]. apply dist2_plus_zero. rewrite E. exact (sumR_zero _ NP S0 m Hm).
  - intros H.
    assert (M0 : forall m, In m ms -> m = 0).
    { intros m Hm. destruct (Forall2_In_r _ _ _ m F Hm) as (z & Hz & [_ L]).
      apply Rle_antisym; [|apply NP; exact Hm]. destruct (H z Hz) as (a & Ha & W).
      refine (Rle_trans _ _ _ (L a Ha) _). apply Req_le. apply dist2_plus_zero. exact W. }
    assert (S0 : sumR ms = 0) by (rewrite <- (map_id ms); apply sumR_all0; exact M0).
    rewrite S0. unfold Rdiv. apply Rmult_0_l.
Qed.

(** ** IGD+ <= IGD *)
Lemma powR_mono x y a : 0 <= x <= y -> 0 <= a -> powR x a <= powR y a.
Proof.
  intros [Hx Hxy] Ha. unfold powR. destruct (Rlt_dec 0 x), (Rlt_dec 0 y); try lra.
  - apply Rle_Rpower_l; lra.
  - apply Rlt_le. unfold Rpower. apply exp_pos.
Qed.

Lemma mean_power (p : R) ms : 1 <= p -> ms <> [] -> (forall m, In m ms -> 0 <= m) ->
  sumR ms / INR (length ms) <= powR (sumR (map (fun m => powR m p) ms) / INR (length ms)) (1 / p).
Proof.
  intros Hp NE NN. assert (IP := INR_pos ms NE). set (n := INR (length ms)) in *.
  assert (SN : 0 <= sumR ms) by (apply sumR_nonneg; exact NN).
  set (M := sumR ms / n). assert (MN : 0 <= M) by (apply Rmult_le_pos; [exact SN|apply Rlt_le, Rinv_0_lt_compat; exact IP]).
  assert (EM : sumR ms = n * M) by (unfold M; field; lra).
  assert (K : powR M p <= sumR (map (fun m => powR m p) ms) / n).
  { destruct (Req_dec p 1) as [->|Hp1].
    - rewrite powR_1r by exact MN. apply Req_le. unfold M. replace (map (fun m => powR m 1) ms) with ms; [reflexivity|].
      rewrite <- (map_id ms) at 1. apply map_ext_in. intros m Hm. symmetry. apply powR_1r, NN, Hm.
    - assert (P1 : 1 < p) by lra. set (q := p / (p - 1)).
      assert (Q : 1 / p + 1 / q = 1) by (unfold q; field; lra).
      set (w := powR M (p - 1)).
      assert (W : powR w q = powR M p).
      { unfold w. rewrite powR_powR. f_equal. unfold q. field. lra. }
      assert (MW : M * w = powR M p).
      { unfold w. rewrite <- (powR_1r M) at 1 by exact MN. rewrite powR_plus. f_equal. lra. }
      assert (Y : forall l, (forall m, In m l -> 0 <= m) ->
                  sumR l * w <= sumR (map (fun m => powR m p) l) / p + INR (length l) * (powR M p / q)).
      { intros l; induction l as [|m l IH]; intros HN.
        - cbn. unfold Rdiv. lra.
        - cbn [sumR map length]. rewrite S_INR.
          specialize (IH (fun x Hx => HN x (or_intror Hx))).
          assert (X := young m w p q P1 Q (HN m (or_introl eq_refl)) (powR_nonneg _ _)). rewrite W in X.
          unfold Rdiv in *. nra. }
      specialize (Y ms NN). fold n in Y. rewrite EM, Rmult_assoc, MW in Y.
      assert (E : powR M p / q = powR M p - powR M p / p).
      { replace (powR M p / q) with (powR M p * (1 / q)) by (unfold Rdiv; ring). replace (1 / q) with (1 - 1 / p) by lra.
        unfold Rdiv. ring. }
      rewrite E in Y. assert (Y2 : n * (powR M p / p) <= sumR (map (fun m => powR m p) ms) / p) by lra.
      apply (Rmult_le_reg_l n); [exact IP|]. replace (n * (sumR (map (fun m => powR m p) ms) / n)) with (sumR (map (fun m => powR m p) ms)) by (field; lra).
      apply (Rmult_le_reg_r (/ p)); [apply Rinv_0_lt_compat; lra|]. unfold Rdiv in Y2. lra. }
  assert (E : M = powR (powR M p) (1 / p)).
  { rewrite powR_powR. replace (p * (1 / p)) with 1 by (field; lra). symmetry. apply powR_1r, MN. }
  rewrite E. apply powR_mono; [|apply Rlt_le, Rdiv_lt_0_compat; lra]. split; [apply powR_nonneg|exact K].
Qed.

Theorem igd_plus_le mx k front ref (p : R) : fronts k front ref -> 1 <= p ->
  (forall a z, In a front -> In z ref -> dist2 a z <= mx) ->
  igd_plus (N := RNum mx) front ref <= igd (N := RNum mx) (powN mx) front ref p.
Proof.
  intros HF Hp HB. destruct (igd_formula mx k front ref p HF HB) as (ms & F & ->).
  destruct (igd_plus_formula mx k front ref HF) as (ms' & F' & ->).
  { intros a z Ha Hz. refine (Rle_trans _ _ _ (dist2_plus_le a z) (HB a z Ha Hz)). }
  assert (L : length ref = length ms) by (clear - F; induction F; cbn; congruence).
  assert (IP := INR_pos ref (fr_ref _ _ _ HF)).
  apply Rle_trans with (sumR ms / INR (length ref)).
  - apply Rmult_le_compat_r; [apply Rlt_le, Rinv_0_lt_compat; exact IP|].
    clear L IP HF HB. revert ms' F'. induction F as [|z m l ms Hz F IH]; intros ms' F'; inversion F'; subst; [lra|].
    cbn [sumR]. apply Rplus_le_compat; [|apply IH; assumption].
    destruct Hz as [(a & Ha & <-) _]. destruct H1 as [_ L]. refine (Rle_trans _ _ _ (L a Ha) (dist2_plus_le a z)).
  - rewrite L. apply mean_power; [exact Hp| |].
    + intros ->. destruct ref; [exact (fr_ref _ _ _ HF eq_refl)|discriminate L].
    + intros m Hm. destruct (Forall2_In_r _ _ _ m F Hm) as (z & Hz & [(a & Ha & <-) _]). apply dist2_nonneg.
Qed.

(** ** Epsilon *)
Lemma fold_max mx : forall (l : list R) (r : R),
  let m := fold_left (fun m x => if nlt (n := RNum mx) m x then x else m) l r in
  (m = r \/ In m l) /\ r <= m /\ forall x, In x l -> x <= m.
Proof.
  intros l; induction l as [|y l IH]; intros r; cbn [fold_left].
  - split; [left; reflexivity|]. split; [lra|intros x []].
  - set (r1 := if nlt (n := RNum mx) r y then y else r).
    assert (M : r <= r1 /\ y <= r1 /\ (r1 = r \/ r1 = y)) by (unfold r1; cbn; destruct (Rltb_spec r y); lra).
    destruct (IH r1) as (A & B & C). split; [|split].
    + destruct A as [A|A]; [|right; right; exact A]. destruct M as (_ & _ & [M|M]); [left|right; left]; [exact (eq_trans A M)|exact (eq_trans (eq_sym M) (eq_sym A))].
    + exact (Rle_trans _ _ _ (proj1 M) B).
    + intros x [<-|Hx]; [exact (Rle_trans _ _ _ (proj1 (proj2 M)) B)|apply C; exact Hx].
Qed.

Lemma largest_ok mx (z a : list R) : (1 <= length a)%nat -> length a = length z -> (forall y, In y z -> 0 < y) ->
  forall e, largest_ratio (N := RNum mx) z a <= e <-> forall q, In q (combine a z) -> fst q <= e * snd q.
Proof.
  intros La L HP e. assert (E : map2 (ratio (N := RNum mx)) a z = map (fun q => fst q / snd q) (combine a z)).
  { exact (map2_combine (fun a z : R => a / z) a z). }
  assert (P : forall q, In q (combine a z) -> 0 < snd q).
  { intros [x y] Hq. apply HP. exact (in_combine_r _ _ _ _ Hq). }
  assert (D : forall q, In q (combine a z) -> (fst q / snd q <= e <-> fst q <= e * snd q)).
  { intros q Hq. specialize (P q Hq). split; intros H.
    - replace (fst q) with (fst q / snd q * snd q) by (field; lra). apply Rmult_le_compat_r; lra.
    - apply (Rmult_le_reg_r (snd q)); [exact P|]. replace (fst q / snd q * snd q) with (fst q) by (field; lra). exact H. }
  unfold largest_ratio. rewrite E. destruct (combine a z) as [|q0 qs] eqn:C.
  - exfalso. destruct a as [|x a], z as [|y z]; cbn in *; try discriminate; lia.
  - cbn [map]. destruct (fold_max mx (map (fun q => fst q / snd q) qs) (fst q0 / snd q0)) as (A & B & G). split.
    + intros H q Hq. apply D; [exact Hq|]. destruct Hq as [<-|Hq]; [exact (Rle_trans _ _ _ B H)|].
      refine (Rle_trans _ _ _ _ H). apply G. apply in_map_iff. exists q. auto.
    + intros H. destruct A as [A|A].
      * refine (Rle_trans _ _ _ (Req_le _ _ A) _). apply D; [left; reflexivity|]. apply H. left; reflexivity.
      * apply in_map_iff in A. destruct A as (q & Eq & Hq). refine (Rle_trans _ _ _ (Req_le _ _ (eq_sym Eq)) _).
        apply D; [right; exact Hq|]. apply H. right; exact Hq.
Qed.

Lemma eps_fold mx (g : list R -> R) : forall l (e0 : R),
  let m := fold_left (fun eps z => let e := g z in if nlt (n := RNum mx) eps e then e else eps) l e0 in
  e0 <= m /\ (forall z, In z l -> g z <= m) /\ (m = e0 \/ exists z, In z l /\ g z = m).
Proof.
  intros l; induction l as [|y l IH]; intros e0; cbn [fold_left].
  - split; [lra|]. split; [intros z []|left; reflexivity].
  - cbv zeta. set (e1 := if nlt (n := RNum mx) e0 (g y) then g y else e0).
    assert (M : e0 <= e1 /\ g y <= e1 /\ (e1 = e0 \/ e1 = g y)) by (unfold e1; cbn; destruct (Rltb_spec e0 (g y)); lra).
    destruct (IH e1) as (A & B & C). cbv zeta in A, B, C. split; [exact (Rle_trans _ _ _ (proj1 M) A)|]. split.
    + intros z [<-|Hz]; [exact (Rle_trans _ _ _ (proj1 (proj2 M)) A)|apply B; exact Hz].
    + destruct C as [C|(z & Hz & E)].
      * destruct M as (_ & _ & [M|M]); [left; exact (eq_trans C M)|right; exists y; split; [left; reflexivity|exact (eq_trans (eq_sym M) (eq_sym C))]].
      * right. exists z. split; [right; exact Hz|exact E].
Qed.

Theorem epsilon_ok mx k front ref : fronts k front ref ->
  (forall z y, In z ref -> In y z -> 0 < y) ->
  (forall a z q, In a front -> In z ref -> In q (combine a z) -> fst q <= mx * snd q) ->
  let e := epsilon (N := RNum mx) front ref in
  0 <= e /\ covers front ref e /\ forall e', 0 <= e' -> covers front ref e' -> e <= e'.
Proof.
  intros HF HP HB e.
  destruct (eps_fold mx (fun z => smallest (N := RNum mx) (largest_ratio (N := RNum mx) z) front) ref 0) as (A & B & C).
  assert (LR : forall a z, In a front -> In z ref -> forall e, largest_ratio (N := RNum mx) z a <= e <-> forall q, In q (combine a z) -> fst q <= e * snd q).
  { intros a z Ha Hz. assert (La := fr_dim _ _ _ HF a (or_introl Ha)). assert (Lz := fr_dim _ _ _ HF z (or_intror Hz)).
    apply largest_ok; [rewrite La; apply HF|congruence|]. intros y Hy. apply (HP z); assumption. }
  assert (SM : forall z, In z ref -> least (largest_ratio (N := RNum mx) z) front (smallest (N := RNum mx) (largest_ratio (N := RNum mx) z) front)).
  { intros z Hz. apply smallest_least; [apply HF|]. intros a Ha. apply (proj2 (LR a z Ha Hz mx)). intros q Hq. apply (HB a z); assumption. }
  split; [exact A|]. split.
  - intros z Hz. destruct (SM z Hz) as [(a & Ha & E) _]. exists a. split; [exact Ha|].
    apply (proj1 (LR a z Ha Hz e)). refine (Rle_trans _ _ _ (Req_le _ _ E) _). exact (B z Hz).
  - intros e' He' HC. destruct C as [C|(z & Hz & E)]; [refine (Rle_trans _ _ _ (Req_le _ _ C) He')|].
    destruct (HC z Hz) as (a & Ha & Q). refine (Rle_trans _ _ _ (Req_le _ _ (eq_sym E)) _).
    destruct (SM z Hz) as [_ L]. refine (Rle_trans _ _ _ (L a Ha) _). exact (proj2 (LR a z Ha Hz e') Q).
Qed.

(* ---- better fronts ---- *)
Lemma dominates_trans_le (a b z : list R) : length a = length b -> length b = length z -> weakly_dominates a b ->
  forall q, In q (combine a z) -> exists q', In q' (combine b z) /\ fst q <= fst q' /\ snd q = snd q'.
Proof.
  revert b z. induction a as [|x a IH]; intros [|y b] [|w z] H1 H2 W q Hq; try discriminate; [destruct Hq|].
  cbn in Hq. destruct Hq as [<-|Hq].
  - exists (y, w). split; [left; reflexivity|]. split; [apply (W (x, y)); left; reflexivity|reflexivity].
  - destruct (IH b z ltac:(injection H1; auto) ltac:(injection H2; auto)) with (q := q) as (q' & A & B); [intros p Hp; apply W; right; exact Hp|exact Hq|].
    exists q'. split; [right; exact A|exact B].
Qed.
Lemma dist2_plus_mono (a b z : list R) : length a = length b -> length b = length z -> weakly_dominates a b -> dist2_plus a z <= dist2_plus b z.
Proof.
  intros H1 H2 W. unfold dist2_plus. apply sqrt_le_1_alt. revert b z H1 H2 W.
  induction a as [|x a IH]; intros [|y b] [|w z] H1 H2 W; try discriminate; [cbn; lra|]. cbn [combine map sumR fst snd].
  assert (x <= y) as L by (apply (W (x, y)); left; reflexivity).
  specialize (IH b z ltac:(injection H1; auto) ltac:(injection H2; auto) (fun p Hp => W p (or_intror Hp))).
  assert (0 <= Rmax (x - w) 0 <= Rmax (y - w) 0) as M by (split; [apply Rmax_r|apply Rle_max_compat_r; lra]).
  assert (Rmax (x - w) 0 * Rmax (x - w) 0 <= Rmax (y - w) 0 * Rmax (y - w) 0) by (apply Rmult_le_compat; lra). lra.
Qed.
Lemma igd_plus_mono mx k A B ref : fronts k A ref -> fronts k B ref ->
  (forall a z, In a A \/ In a B -> In z ref -> dist2_plus a z <= mx) ->
  (forall b, In b B -> exists a, In a A /\ weakly_dominates a b) ->
  igd_plus (N := RNum mx) A ref <= igd_plus (N := RNum mx) B ref.
Proof.
  intros FA FB M D.
  destruct (igd_plus_formula mx k A ref FA (fun a z Ha => M a z (or_introl Ha))) as (ms & LA & EA).
  destruct (igd_plus_formula mx k B ref FB (fun a z Ha => M a z (or_intror Ha))) as (ns & LB & EB).
  eapply Rle_trans; [apply Req_le; exact EA|]. eapply Rle_trans; [|apply Req_le; symmetry; exact EB].
  apply Rmult_le_compat_r; [apply Rlt_le, Rinv_0_lt_compat, INR_pos; apply (fr_ref _ _ _ FA)|].
  assert (forall z, In z ref -> length z = k) as Hz by (intros z Hz; apply (fr_dim _ _ _ FA); right; exact Hz).
  clear EA EB M. revert ns LB Hz. induction LA as [|z m ref' ms' Hm LA IH]; intros ns LB Hz; inversion LB as [|? n ? ns' Hn LB']; subst; [cbn; lra|].
  assert (sumR ms' <= sumR ns') as S.
  { clear - LA LB' FA FB D Hz IH. revert IH. intros IH.
    assert (forall rr uu vv, Forall2 (fun z m => least (fun a => dist2_plus a z) A m) rr uu -> Forall2 (fun z m => least (fun a => dist2_plus a z) B m) rr vv ->
      (forall z, In z rr -> length z = k) -> sumR uu <= sumR vv) as G.
    { intros rr uu vv HU. revert vv. induction HU as [|z0 m0 rr uu H0 HU IHU]; intros vv HV Hk; inversion HV as [|? n0 ? vv' H1 HV']; subst; [cbn; lra|].
      specialize (IHU vv' HV' (fun z Hz => Hk z (or_intror Hz))). cbn [sumR].
      destruct H1 as ((b & Hb & <-) & _). destruct (D b Hb) as (a & Ha & W). destruct H0 as (_ & H0). specialize (H0 a Ha).
      pose proof (dist2_plus_mono a b z0) as Q. rewrite (fr_dim _ _ _ FA a (or_introl Ha)), (fr_dim _ _ _ FB b (or_introl Hb)), (Hk z0 (or_introl eq_refl)) in Q.
      specialize (Q eq_refl eq_refl W). lra. }
    apply (G ref' ms' ns' LA LB'). intros z0 H0. apply Hz. right. exact H0. }
  cbn [sumR]. destruct Hn as ((b & Hb & <-) & _). destruct (D b Hb) as (a & Ha & W). destruct Hm as (_ & Hm). specialize (Hm a Ha).
  pose proof (dist2_plus_mono a b z) as Q. rewrite (fr_dim _ _ _ FA a (or_introl Ha)), (fr_dim _ _ _ FB b (or_introl Hb)), (Hz z (or_introl eq_refl)) in Q.
  specialize (Q eq_refl eq_refl W). lra.
Qed.
Lemma covers_mono k A B ref e : fronts k A ref -> fronts k B ref ->
  (forall b, In b B -> exists a, In a A /\ weakly_dominates a b) -> covers B ref e -> covers A ref e.
Proof.
  intros FA FB D C z Hz. destruct (C z Hz) as (b & Hb & Q). destruct (D b Hb) as (a & Ha & W). exists a. split; [exact Ha|].
  intros q Hq. destruct (dominates_trans_le a b z) with (q := q) as (q' & H1 & H2 & H3);
    [rewrite (fr_dim _ _ _ FA a (or_introl Ha)), (fr_dim _ _ _ FB b (or_introl Hb)); reflexivity
    |rewrite (fr_dim _ _ _ FB b (or_introl Hb)), (fr_dim _ _ _ FA z (or_intror Hz)); reflexivity|exact W|exact Hq|].
  rewrite H3. specialize (Q q' H1). lra.
Qed.
