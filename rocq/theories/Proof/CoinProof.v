From Coq Require Import List Arith Bool Reals Lra Lia Psatz.
From Verif.Base Require Import Num Vec Instances.
From Verif.Model Require Import Common SPSA.
From Verif.Spec Require Import CommonSpec Gradient ConvergeSpec SPSASpec CoinSpec.
From Verif.Proof Require Import SPSAProof ParetoProof.
Import ListNotations.
Local Open Scope R_scope.

(* ---- outcomes ---- *)
Lemma flips_in d : forall b, In b (flips d) <-> length b = d.
Proof.
  induction d as [|d IH]; intros b; cbn [flips].
  - split; [intros [<-|[]]; reflexivity|]. intros H. destruct b; [left; reflexivity|discriminate].
  - rewrite in_app_iff, !in_map_iff. split.
    + intros [(c & <- & Hc)|(c & <- & Hc)]; cbn; f_equal; apply IH; exact Hc.
    + intros H. destruct b as [|[] b]; [discriminate| |]; [left|right]; exists b; (split; [reflexivity|apply IH; injection H; auto]).
Qed.
Lemma flips_nodup d : NoDup (flips d).
Proof.
  induction d as [|d IH]; cbn [flips]; [repeat constructor; intros []|].
  assert (forall c, NoDup (map (cons c) (flips d))) as M.
  { intros c. apply FinFun.Injective_map_NoDup; [intros a b E; injection E; auto|exact IH]. }
  apply nodup_app; try apply M. intros x Hx Hy. apply in_map_iff in Hx as (u & <- & _). apply in_map_iff in Hy as (w & E & _). discriminate.
Qed.
Lemma draws_in n d : forall t, In t (draws n d) <-> length t = n /\ forall b, In b t -> length b = d.
Proof.
  induction n as [|n IH]; intros t; cbn [draws].
  - split; [intros [<-|[]]; split; [reflexivity|intros b []]|]. intros [H _]. destruct t; [left; reflexivity|discriminate].
  - rewrite in_flat_map. split.
    + intros (b & Hb & Ht). apply in_map_iff in Ht as (u & <- & Hu). apply IH in Hu as [A B]. apply flips_in in Hb.
      split; [cbn; f_equal; exact A|]. intros c [<-|Hc]; [exact Hb|apply B; exact Hc].
    + intros [A B]. destruct t as [|b t]; [discriminate|]. exists b. split; [apply flips_in, B; left; reflexivity|].
      apply in_map. apply IH. split; [injection A; auto|]. intros c Hc. apply B. right. exact Hc.
Qed.
Lemma draws_nodup n d : NoDup (draws n d).
Proof.
  induction n as [|n IH]; cbn [draws]; [repeat constructor; intros []|]. pose proof (flips_nodup d) as F. revert F.
  generalize (flips d). induction l as [|b l IHl]; intros F; cbn [flat_map]; [constructor|]. inversion F as [|? ? F1 F2]; subst.
  apply nodup_app; [apply FinFun.Injective_map_NoDup; [intros a c E; injection E; auto|exact IH]|apply IHl; exact F2|].
  intros x Hx Hy. apply in_map_iff in Hx as (u & <- & _). apply in_flat_map in Hy as (c & Hc & Hy).
  apply in_map_iff in Hy as (w & E & _). injection E as -> _. exact (F1 Hc).
Qed.
Lemma flips_len d : INR (length (flips d)) = 2 ^ d.
Proof. induction d as [|d IH]; [reflexivity|]. cbn [flips pow]. rewrite app_length, !map_length, plus_INR. lra. Qed.
Lemma pow2_pos d : 0 < 2 ^ d.
Proof. apply pow_lt. lra. Qed.

(* ---- sums ---- *)
Lemma sum_app l m : sumR (l ++ m) = sumR l + sumR m.
Proof. induction l as [|a l IH]; cbn; lra. Qed.
Lemma sum_add {A} (u v : A -> R) l : sumR (map (fun a => u a + v a) l) = sumR (map u l) + sumR (map v l).
Proof. induction l as [|a l IH]; cbn; lra. Qed.
Lemma sum_mul {A} (c : R) (v : A -> R) l : sumR (map (fun a => c * v a) l) = c * sumR (map v l).
Proof. induction l as [|a l IH]; cbn; lra. Qed.
Lemma sum_const {A} (c : R) (l : list A) : sumR (map (fun _ => c) l) = INR (length l) * c.
Proof. induction l as [|a l IH]; [cbn; lra|]. cbn [map sumR length]. rewrite IH, S_INR. lra. Qed.
Lemma sum_ext {A} (u v : A -> R) l : (forall a, In a l -> u a = v a) -> sumR (map u l) = sumR (map v l).
Proof. intros H. f_equal. apply map_ext_in. exact H. Qed.
Lemma sum_le {A} (u v : A -> R) l : (forall a, In a l -> u a <= v a) -> sumR (map u l) <= sumR (map v l).
Proof.
  induction l as [|a l IH]; intros H; cbn; [lra|]. specialize (IH (fun b Hb => H b (or_intror Hb))). specialize (H a (or_introl eq_refl)). lra.
Qed.
Lemma sum_flips d (v : list bool -> R) :
  sumR (map v (flips (S d))) = sumR (map (fun b => v (true :: b) + v (false :: b)) (flips d)).
Proof. cbn [flips]. rewrite map_app, sum_app, !map_map. symmetry. apply sum_add. Qed.

Lemma coin_nth d : forall g i, length g = d -> (i < d)%nat ->
  sumR (map (fun b => dotR g (signs b) * nth i (signs b) 0) (flips d)) = 2 ^ d * nth i g 0.
Proof.
  induction d as [|d IH]; intros g i Hg Hi; [lia|]. destruct g as [|a g]; [discriminate|]. injection Hg as Hg.
  rewrite sum_flips. destruct i as [|i]; cbn [nth].
  - etransitivity; [apply (sum_ext _ (fun _ => 2 * a)); intros b _; cbn [signs map dotR nth]; change (map (fun b : bool => if b then 1 else -1) b) with (signs b); ring|]. rewrite sum_const, flips_len. cbn. ring.
  - etransitivity; [apply (sum_ext _ (fun b => 2 * (dotR g (signs b) * nth i (signs b) 0))); intros b _; cbn [signs map dotR nth]; change (map (fun b : bool => if b then 1 else -1) b) with (signs b); ring|].
    rewrite sum_mul, IH by (assumption || lia). cbn. ring.
Qed.
Lemma coin_sq d : forall g, length g = d ->
  sumR (map (fun b => dotR g (signs b) * dotR g (signs b)) (flips d)) = 2 ^ d * sqn g.
Proof.
  induction d as [|d IH]; intros g Hg; destruct g as [|a g]; try discriminate; [cbn; lra|]. injection Hg as Hg.
  rewrite sum_flips.
  etransitivity; [apply (sum_ext _ (fun b => 2 * (a * a) + 2 * (dotR g (signs b) * dotR g (signs b)))); intros b _; cbn [signs map dotR nth]; change (map (fun b : bool => if b then 1 else -1) b) with (signs b); ring|].
  rewrite sum_add, sum_const, sum_mul, IH, flips_len by assumption. unfold sqn. cbn. ring.
Qed.

(* ---- one step ---- *)
Lemma signs_len b : length (signs b) = length b.
Proof. apply map_length. Qed.
Lemma signs_sq : forall b, sqn (signs b) = INR (length b).
Proof.
  induction b as [|a b IH]; [reflexivity|]. unfold sqn in *. cbn [signs map dotR length]. rewrite S_INR.
  change (map _ b) with (signs b). destruct a; lra.
Qed.
Lemma along_len t h x : length h = length x -> length (along x h t) = length x.
Proof. revert x. induction h as [|a h IH]; intros [|y x] H; try discriminate; [reflexivity|]. cbn. f_equal. apply IH. injection H; auto. Qed.
Lemma sign_val b i : (i < length b)%nat -> nth i (signs b) 0 = 1 \/ nth i (signs b) 0 = -1.
Proof.
  revert i. induction b as [|a b IH]; intros [|i] Hi; cbn in *; try lia; [destruct a; auto|]. apply IH. lia.
Qed.

Section Step.
  Variables (a c : nat -> R) (s : nat -> list R) (f : list R -> R).
  Lemma up_along k x : up c s k x = along x (s k) (c k).
  Proof. unfold up. generalize (s k). induction x as [|y x IH]; intros [|z l]; cbn; auto. f_equal. apply IH. Qed.
  Lemma down_along k x : down c s k x = along x (s k) (- c k).
  Proof. unfold down. generalize (s k). induction x as [|y x IH]; intros [|z l]; cbn; auto. f_equal; [ring|apply IH]. Qed.
  Lemma next_along k x b D : s k = signs b -> c k <> 0 -> f (up c s k x) - f (down c s k x) = 2 * c k * D ->
    next a c s f k x = along x (signs b) (- (a k * D)).
  Proof.
    intros E Hc Hd. unfold next. rewrite Hd, E. clear - Hc. revert x. induction b as [|z b IH]; intros [|y x]; cbn; auto.
    f_equal; [|apply IH]. destruct z; field; assumption.
  Qed.

  Variables (d : nat) (grad : list R -> list R) (curv : list R -> R) (mu L : R).
  Hypothesis Q : quadratic d f grad curv mu L.
  Lemma diff_exact k x : length x = d -> length (s k) = d ->
    f (up c s k x) - f (down c s k x) = 2 * c k * dotR (grad x) (s k).
  Proof.
    intros Hx Hs. rewrite up_along, down_along, !(q_exp _ _ _ _ _ _ Q) by assumption. ring.
  Qed.
  Lemma next_value k x b : length x = d -> s k = signs b -> length b = d -> c k <> 0 ->
    let D := dotR (grad x) (signs b) in
    f (next a c s f k x) = f x - a k * (D * D) * (1 - a k * (curv (signs b) / 2)).
  Proof.
    intros Hx E Hb Hc D. assert (length (signs b) = d) as Hs by (rewrite signs_len; exact Hb).
    rewrite (next_along k x b D E Hc) by (rewrite (diff_exact k x Hx) by (rewrite E; exact Hs); rewrite E; reflexivity).
    rewrite (q_exp _ _ _ _ _ _ Q) by assumption. fold D. ring.
  Qed.
  Lemma next_down k x b : length x = d -> s k = signs b -> length b = d -> c k <> 0 -> 0 <= a k -> a k * L * INR d <= 2 ->
    let D := dotR (grad x) (signs b) in
    f (next a c s f k x) <= f x - a k * (1 - L * a k * INR d / 2) * (D * D).
  Proof.
    intros Hx E Hb Hc Ha HL D. rewrite (next_value k x b Hx E Hb Hc). fold D.
    assert (curv (signs b) <= L * INR d) as C.
    { rewrite <- Hb, <- signs_sq. apply (q_high _ _ _ _ _ _ Q). rewrite signs_len. exact Hb. }
    assert (0 <= a k * (D * D)) as P by (apply Rmult_le_pos; [exact Ha|nra]).
    assert (a k * (curv (signs b) / 2) <= L * a k * INR d / 2) by nra. nra.
  Qed.
  Lemma next_len k x b : length x = d -> s k = signs b -> length b = d -> length (next a c s f k x) = d.
  Proof. intros Hx E Hb. unfold next. rewrite map2_length, E, signs_len. lia. Qed.
End Step.

(* strong convexity bounds the gap by the gradient *)
Lemma sqn_nonneg x : 0 <= sqn x.
Proof. induction x as [|y x IH]; unfold sqn in *; cbn; [lra|nra]. Qed.
Lemma dot_young (mu : R) : 0 < mu -> forall g h, - sqn g <= 2 * mu * dotR g h + mu * mu * sqn h.
Proof.
  intros Hm. induction g as [|a g IH]; intros [|b h]; unfold sqn in *; cbn [dotR].
  - lra.
  - pose proof (sqn_nonneg (b :: h)) as P. unfold sqn in P. cbn [dotR] in P.
    assert (0 <= mu * mu) by (apply Rle_0_sqr). assert (0 <= mu * mu * (b * b + dotR h h)) by (apply Rmult_le_pos; assumption). lra.
  - pose proof (sqn_nonneg (a :: g)) as P. unfold sqn in P. cbn [dotR] in P. lra.
  - specialize (IH h). pose proof (Rle_0_sqr (a + mu * b)) as P. unfold Rsqr in P. lra.
Qed.
Definition minusR (y x : list R) : list R := map2 Rminus y x.
Lemma along_minus : forall y x, length y = length x -> along x (minusR y x) 1 = y.
Proof. unfold minusR. induction y as [|b y IH]; intros [|a x] H; try discriminate; [reflexivity|]. cbn. f_equal; [ring|]. apply IH. injection H; auto. Qed.
Lemma gap_bound d f grad curv mu L x y : quadratic d f grad curv mu L -> 0 < mu -> length x = d -> length y = d ->
  2 * mu * (f x - f y) <= sqn (grad x).
Proof.
  intros Q Hm Hx Hy. assert (length y = length x) as E by congruence.
  assert (length (minusR y x) = d) as Hh by (unfold minusR; rewrite map2_length; lia).
  rewrite <- (along_minus y x E). rewrite (q_exp _ _ _ _ _ _ Q) by assumption.
  pose proof (q_low _ _ _ _ _ _ Q _ Hh). pose proof (dot_young mu Hm (grad x) (minusR y x)). nra.
Qed.

(* ---- averages ---- *)
Lemma mean_flips d v : mean (flips d) v = sumR (map v (flips d)) / 2 ^ d.
Proof. unfold mean. rewrite flips_len. reflexivity. Qed.
Lemma draws_len n d : INR (length (draws (S n) d)) = INR (length (flips d)) * INR (length (draws n d)).
Proof.
  rewrite <- mult_INR. f_equal. cbn [draws]. induction (flips d) as [|b l IH]; [reflexivity|].
  cbn [flat_map length]. rewrite app_length, IH, map_length. lia.
Qed.
Lemma mean_draws n d v : mean (draws (S n) d) v = mean (flips d) (fun b => mean (draws n d) (fun t => v (b :: t))).
Proof.
  unfold mean. rewrite draws_len. unfold Rdiv. rewrite Rinv_mult, (Rmult_comm (/ INR (length (flips d)))), <- Rmult_assoc. f_equal.
  cbn [draws]. induction (flips d) as [|b l IH]; [cbn; lra|]. cbn [flat_map map sumR]. rewrite map_app, sum_app, map_map, <- IH. ring.
Qed.
Lemma mean_le {A} (l : list A) u v : (forall a, In a l -> u a <= v a) -> mean l u <= mean l v.
Proof.
  intros H. unfold mean. destruct l as [|a l]; [cbn; lra|]. apply Rmult_le_compat_r; [|apply sum_le; exact H].
  apply Rlt_le, Rinv_0_lt_compat, lt_0_INR. cbn. lia.
Qed.
Lemma mean_affine {A} (l : list A) v (p q : R) : l <> [] -> mean l (fun a => p + q * v a) = p + q * mean l v.
Proof.
  intros H. unfold mean. rewrite sum_add, sum_const, sum_mul. field. apply Rgt_not_eq, lt_0_INR. destruct l; [congruence|cbn; lia].
Qed.
Lemma flips_ne d : flips d <> [].
Proof. intros E. pose proof (flips_len d) as H. rewrite E in H. cbn in H. pose proof (pow2_pos d). lra. Qed.
Lemma draws_ne n d : draws n d <> [].
Proof.
  induction n as [|n IH]; [discriminate|]. cbn [draws]. destruct (flips d) as [|b l] eqn:F; [destruct (flips_ne d F)|]. cbn [flat_map].
  destruct (draws n d); [congruence|discriminate].
Qed.

(* the gradient estimate *)
Lemma Rabs_le_inv z e : Rabs z <= e -> - e <= z <= e.
Proof. unfold Rabs. destruct (Rcase_abs z); lra. Qed.
Lemma div_close (c D G eps : R) : c <> 0 -> Rabs (D - 2 * c * G) <= 2 * Rabs c * eps -> Rabs (D / (2 * c) - G) <= eps.
Proof.
  intros Hc H. assert (0 < Rabs c) as Pc by (apply Rabs_pos_lt; exact Hc).
  replace (D / (2 * c) - G) with ((D - 2 * c * G) / (2 * c)) by (field; exact Hc). unfold Rdiv. rewrite Rabs_mult, Rabs_inv, (Rabs_mult 2 c).
  rewrite (Rabs_pos_eq 2) by lra. apply (Rmult_le_reg_r (2 * Rabs c)); [lra|]. rewrite Rmult_assoc, Rinv_l by lra. lra.
Qed.
Section Estimate.
  Variables (mx gamma ess : R) (pw : R -> R -> R) (d : nat) (f : list R -> R) (k : nat) (x : list R).
  Notation c := (ess / pw (INR (k + 1)) gamma).
  Notation estimate b := (spsa_gradient (N := RNum mx) gamma ess pw (fun _ => b) k
      (f (plus (N := RNum mx) gamma ess pw (fun _ => b) k x)) (f (minus (N := RNum mx) gamma ess pw (fun _ => b) k x))).
  Lemma estimate_nth b i : length b = d -> c <> 0 -> (i < d)%nat ->
    nth i (estimate b) 0 = (f (along x (signs b) c) - f (along x (signs b) (- c))) / (2 * c) * nth i (signs b) 0.
  Proof.
    intros Hb Hc Hi. rewrite plus_R, minus_R, up_along, down_along.
    change (c_ gamma ess pw k) with c. change (s_ (fun _ => b) k) with (signs b).
    set (p := f (along x (signs b) c)). set (q := f (along x (signs b) (- c))).
    unfold spsa_gradient. rewrite (ckl_R mx gamma ess pw k), sp_R. change (s_ (fun _ => b) k) with (signs b).
    change (c_ gamma ess pw k) with c. generalize dependent c. intros c Hc p q.
    assert (i < length (signs b))%nat as Hl by (rewrite signs_len, Hb; exact Hi).
    set (F := fun s : R => (p - q) * (1 / (2 * c * s))).
    change (nth i (map F (signs b)) 0 = (p - q) / (2 * c) * nth i (signs b) 0).
    rewrite nth_indep with (d' := F 0) by (rewrite map_length; exact Hl). rewrite (map_nth F). unfold F.
    destruct (sign_val b i) as [-> | ->]; [rewrite Hb; exact Hi| |]; field; exact Hc.
  Qed.
  Lemma estimate_bias g eps i : length g = d -> c <> 0 -> (i < d)%nat ->
    (forall b, length b = d -> Rabs (f (along x (signs b) c) - f (along x (signs b) (- c)) - 2 * c * dotR g (signs b)) <= 2 * Rabs c * eps) ->
    Rabs (mean (flips d) (fun b => nth i (estimate b) 0) - nth i g 0) <= eps.
  Proof.
    intros Hg Hc Hi H.
    assert (mean (flips d) (fun b => dotR g (signs b) * nth i (signs b) 0) = nth i g 0) as M.
    { rewrite mean_flips, coin_nth by assumption. field. apply Rgt_not_eq, pow2_pos. }
    assert (forall b, In b (flips d) -> dotR g (signs b) * nth i (signs b) 0 - eps <= nth i (estimate b) 0 <= dotR g (signs b) * nth i (signs b) 0 + eps) as B.
    { intros b Hb. apply flips_in in Hb. rewrite estimate_nth by assumption. specialize (H b Hb).
      set (D := f (along x (signs b) c) - f (along x (signs b) (- c))) in *. set (G := dotR g (signs b)) in *.
      pose proof (div_close c D G eps Hc H) as E.
      apply Rabs_le_inv in E. destruct (sign_val b i) as [-> | ->]; [rewrite Hb; exact Hi| |]; lra. }
    pose proof (mean_le (flips d) _ _ (fun b Hb => proj1 (B b Hb))) as Lo. pose proof (mean_le (flips d) _ _ (fun b Hb => proj2 (B b Hb))) as Hi'.
    assert (forall e, mean (flips d) (fun b => dotR g (signs b) * nth i (signs b) 0 + e) = nth i g 0 + e) as S.
    { intros e. rewrite <- M. etransitivity; [|rewrite Rplus_comm, <- (Rmult_1_l (mean _ _)); exact (mean_affine (flips d) (fun b => dotR g (signs b) * nth i (signs b) 0) e 1 (flips_ne d))].
      unfold mean. f_equal. apply sum_ext. intros. ring. }
    apply Rabs_le. change (fun a => dotR g (signs a) * nth i (signs a) 0 - eps) with (fun a => dotR g (signs a) * nth i (signs a) 0 + - eps) in Lo.
    rewrite S in Lo, Hi'. lra.
  Qed.
  Lemma estimate_mean grad curv mu L i : quadratic d f grad curv mu L ->
    length x = d -> c <> 0 -> (i < d)%nat ->
    mean (flips d) (fun b => nth i (estimate b) 0) = nth i (grad x) 0.
  Proof.
    intros Q Hx Hc Hi. pose proof (estimate_bias (grad x) 0 i (q_len _ _ _ _ _ _ Q x Hx) Hc Hi) as B. cbn beta in B.
    match type of B with ?P -> _ => assert P as HP end.
    { intros b Hb. rewrite !(q_exp _ _ _ _ _ _ Q) by (assumption || (rewrite signs_len; exact Hb)).
      match goal with |- Rabs ?z <= _ => replace z with 0 by ring end. rewrite Rabs_R0. lra. }
    specialize (B HP). apply Rabs_le_inv in B. lra.
  Qed.
End Estimate.

(* ---- runs ---- *)
Section Run.
  Variables (a c : nat -> R) (f : list R -> R) (d : nat) (grad : list R -> list R) (curv : list R -> R) (mu L : R).
  Hypothesis Q : quadratic d f grad curv mu L.
  Definition coins (bits : list (list bool)) (k : nat) : list bool := nth k bits [].
  (* the run whose coins are [bits], from round k *)
  Fixpoint arr (bits : list (list bool)) (k : nat) (x : list R) : list R :=
    match bits with [] => x | b :: r => arr r (S k) (next a c (fun _ => signs b) f k x) end.
  Lemma next_ext s s' k x : s k = s' k -> next a c s f k x = next a c s' f k x.
  Proof. intros E. unfold next, up, down. rewrite E. reflexivity. Qed.
  Lemma arrived_arr : forall bits s k x, (forall j, (j < length bits)%nat -> s (k + j)%nat = signs (nth j bits [])) ->
    arrived a c s f (length bits) k x = arr bits k x.
  Proof.
    induction bits as [|b bits IH]; intros s k x H; [reflexivity|]. cbn [length arrived arr].
    rewrite (next_ext s (fun _ => signs b) k x) by (specialize (H 0%nat ltac:(cbn; lia)); rewrite Nat.add_0_r in H; exact H).
    apply IH. intros j Hj. specialize (H (S j) ltac:(cbn; lia)). rewrite Nat.add_succ_r in H. exact H.
  Qed.
  Definition fine (k : nat) : Prop := 0 <= a k /\ a k * L * INR d <= 2 /\ c k <> 0.
  Lemma run_down : forall n s k x, (forall j, (k <= j < k + n)%nat -> fine j /\ exists b, s j = signs b /\ length b = d) -> length x = d ->
    length (arrived a c s f n k x) = d /\ f (arrived a c s f n k x) <= f x.
  Proof.
    induction n as [|n IH]; intros s k x F Hx; cbn [arrived]; [split; [exact Hx|lra]|].
    destruct (F k ltac:(lia)) as [(Ha & HL & Hc) (b & Eb & Hb)].
    destruct (IH s (S k) (next a c s f k x) ltac:(intros j Hj; apply F; lia) (next_len a c s f d k x b Hx Eb Hb)) as [A B].
    split; [exact A|]. pose proof (next_down a c s f d grad curv mu L Q k x b Hx Eb Hb Hc Ha HL) as D. cbn zeta in D.
    assert (0 <= a k * (1 - L * a k * INR d / 2)) as P by (apply Rmult_le_pos; [exact Ha|nra]).
    pose proof (Rle_0_sqr (dotR (grad x) (signs b))) as S. unfold Rsqr in S. nra.
  Qed.
  Hypothesis Hmu : 0 < mu.
  Hypothesis HmL : mu <= L.
  Hypothesis Hd : (0 < d)%nat.
  Definition factor (k : nat) : R := 1 - 2 * mu * a k * (1 - L * a k * INR d / 2).
  Lemma factor_pos k : fine k -> 0 <= factor k.
  Proof.
    intros (Ha & HL & _). unfold factor. assert (1 <= INR d) as D1 by (change 1 with (INR 1); apply le_INR; lia).
    set (D := INR d) in *. set (t := a k) in *.
    (* 2 mu t (1 - L t D / 2) <= 2 L t D (1 - L t D / 2) <= 1 *)
    assert (0 <= 1 - L * t * D / 2) as P by nra.
    assert (mu * t <= L * t * D) as M.
    { assert (mu * t <= L * t) by (apply Rmult_le_compat_r; assumption). assert (0 <= L * t) by (apply Rmult_le_pos; lra). nra. }
    assert (2 * (mu * t) * (1 - L * t * D / 2) <= 2 * (L * t * D) * (1 - L * t * D / 2)) by (apply Rmult_le_compat_r; [exact P|lra]).
    pose proof (Rle_0_sqr (1 - L * t * D)) as S. unfold Rsqr in S. lra.
  Qed.
  Lemma step_mean k x y : fine k -> length x = d -> length y = d ->
    mean (flips d) (fun b => f (next a c (fun _ => signs b) f k x)) - f y <= factor k * (f x - f y).
  Proof.
    intros (Ha & HL & Hc) Hx Hy. pose proof (gap_bound d f grad curv mu L x y Q Hmu Hx Hy) as G.
    assert (mean (flips d) (fun b => f (next a c (fun _ => signs b) f k x)) <= f x - a k * (1 - L * a k * INR d / 2) * sqn (grad x)) as M.
    { eapply Rle_trans; [apply mean_le; intros b Hb; apply flips_in in Hb;
        exact (next_down a c (fun _ => signs b) f d grad curv mu L Q k x b Hx eq_refl Hb Hc Ha HL)|]. cbn beta zeta.
      set (q := a k * (1 - L * a k * INR d / 2)).
      eapply Rle_trans; [apply Req_le; etransitivity; [|exact (mean_affine (flips d) (fun b => dotR (grad x) (signs b) * dotR (grad x) (signs b)) (f x) (- q) (flips_ne d))];
        unfold mean; f_equal; apply sum_ext; intros; ring|].
      rewrite mean_flips, coin_sq by (apply (q_len _ _ _ _ _ _ Q); exact Hx). apply Req_le. field. apply Rgt_not_eq, pow2_pos. }
    assert (0 <= a k * (1 - L * a k * INR d / 2)) as P by (apply Rmult_le_pos; [exact Ha|nra]).
    unfold factor. nra.
  Qed.
  Lemma run_mean : forall n k x y, (forall j, (k <= j < k + n)%nat -> fine j) -> length x = d -> length y = d ->
    mean (draws n d) (fun t => f (arr t k x)) - f y <= prodR (map factor (seq k n)) * (f x - f y).
  Proof.
    induction n as [|n IH]; intros k x y F Hx Hy.
    - unfold mean. cbn. lra.
    - rewrite mean_draws. cbn [arr seq map prodR].
      assert (0 <= prodR (map factor (seq (S k) n))) as P.
      { assert (forall m j, (k <= j)%nat -> (j + m <= k + S n)%nat -> 0 <= prodR (map factor (seq j m))) as PP.
        { induction m as [|m IHm]; intros j A B; cbn [seq map prodR]; [lra|]. apply Rmult_le_pos; [apply factor_pos, F; lia|apply IHm; lia]. }
        apply PP; lia. }
      set (p := prodR (map factor (seq (S k) n))) in *.
      assert (mean (flips d) (fun b => mean (draws n d) (fun t => f (arr t (S k) (next a c (fun _ => signs b) f k x))))
        <= mean (flips d) (fun b => (1 - p) * f y + p * f (next a c (fun _ => signs b) f k x))) as M.
      { apply mean_le. intros b Hb. apply flips_in in Hb.
        specialize (IH (S k) (next a c (fun _ => signs b) f k x) y). fold p in IH.
        specialize (IH ltac:(intros j Hj; apply F; lia) (next_len a c (fun _ => signs b) f d k x b Hx eq_refl Hb) Hy). lra. }
      rewrite (mean_affine (flips d) (fun b => f (next a c (fun _ => signs b) f k x))) in M by apply flips_ne.
      pose proof (step_mean k x y (F k ltac:(lia)) Hx Hy) as S.
      set (m := mean (flips d) (fun b => f (next a c (fun _ => signs b) f k x))) in *.
      assert (p * (m - f y) <= p * (factor k * (f x - f y))) by (apply Rmult_le_compat_l; assumption). nra.
  Qed.
End Run.

(* a run that nobody stops makes all its rounds *)
Lemma run_complete mx alpha gamma stepSize ess ak n tol pw f coin (cb : CB (RNum mx) (list R) (list R)) fuel x :
  (n <= fuel)%nat -> (forall k, length (coin k) = length x) -> (forall tr, cs_stop cb tr = false) -> tol <= 0 ->
  exists r, spsa (N := RNum mx) alpha gamma stepSize ess ak n tol pw f coin cb fuel x = Some r /\
    o_x r = arrived (a_ alpha stepSize ak pw) (c_ gamma ess pw) (s_ coin) f n 0 x /\ o_val r = f (o_x r).
Proof.
  intros Hf Hl Hs Ht. destruct (spsa_terminates (RNum mx) alpha gamma stepSize ess ak n tol pw f coin cb fuel x Hf) as [r Hr].
  exists r. split; [exact Hr|].
  destruct (spsa_ok mx alpha gamma stepSize ess ak n tol pw f coin cb fuel x r Hr Hl) as (m & tail & _ & _ & (A & B) & _).
  assert (~ asked cb (o_tr r)) as NA.
  { unfold asked, asked_at. intros H. destruct H as (h & e & rest & H). destruct H as (_ & _ & H). rewrite Hs in H. discriminate. }
  destruct B as [(_ & B & [C|C])|[(_ & _ & C)|(_ & _ & C)]]; try contradiction.
  - cbn in C. subst m. split; [exact A|]. etransitivity; [exact B|]. apply (f_equal f). symmetry. exact A.
  - exfalso. match type of C with Rabs ?z < _ => pose proof (Rabs_pos z) end. lra.
Qed.
