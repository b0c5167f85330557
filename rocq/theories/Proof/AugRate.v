(** Proofs for C96: the rate of the augmented Lagrangian method on convex problems. *)
From Coq Require Import List Arith Bool ZArith Reals Lra Lia.
From Verif.Base Require Import Num Instances Vec.
From Verif.Model Require Import Common AugLag.
From Verif.Spec Require Import AugLagSpec AugOptSpec.
From Verif.Proof Require Import AugLagProof AugOpt AugConvex.
Import ListNotations.
Local Open Scope R_scope.

(* sum of c_i(x) c_i(z) *)
Fixpoint cross (cs : list (list R -> R)) (x z : list R) : R :=
  match cs with [] => 0 | c :: cs' => c x * c z + cross cs' x z end.
Definition CS (x l : list R) (cs : list (list R -> R)) : R := csum (fun l (c : list R -> R) => l * c x) l cs.

Lemma cross_sym cs x z : cross cs x z = cross cs z x.
Proof. induction cs as [|c cs IH]; cbn; [reflexivity|]. rewrite IH. ring. Qed.
Lemma violated_cons c cs x : violated (c :: cs) x = c x ^ 2 + violated cs x.
Proof. reflexivity. Qed.

Lemma cross_le cs x z : 2 * cross cs x z <= violated cs x + violated cs z.
Proof.
  induction cs as [|c cs IH]; cbn [cross]; [change (violated [] x) with 0; change (violated [] z) with 0; lra|].
  rewrite !violated_cons. pose proof (Rle_0_sqr (c x - c z)). unfold Rsqr in *. nra.
Qed.

Lemma csum_line cs x z w t lambda : (forall c, In c cs -> c w = (1 - t) * c x + t * c z) ->
  CS w lambda cs = (1 - t) * CS x lambda cs + t * CS z lambda cs /\
  violated cs w = (1 - t) ^ 2 * violated cs x + 2 * t * (1 - t) * cross cs x z + t ^ 2 * violated cs z.
Proof.
  intros H. split.
  - revert lambda. induction cs as [|c cs IH]; intros [|l lambda]; unfold CS in *; cbn [csum]; try ring.
    rewrite IH by (intros; apply H; right; assumption). rewrite (H c (or_introl eq_refl)). ring.
  - induction cs as [|c cs IH]; [cbn; ring|]. rewrite !violated_cons. cbn [cross].
    rewrite IH by (intros; apply H; right; assumption). rewrite (H c (or_introl eq_refl)). ring.
Qed.

Lemma csum_steps sigma x z : forall cs lambda, length lambda = length cs ->
  CS z (steps sigma x lambda cs) cs = CS z lambda cs - sigma * cross cs x z.
Proof.
  induction cs as [|c cs IH]; intros [|l lambda] L; try discriminate; unfold CS in *; cbn [steps csum cross]; [ring|].
  rewrite IH by (cbn in L; congruence). ring.
Qed.
Lemma cross_self cs x : cross cs x x = violated cs x.
Proof. induction cs as [|c cs IH]; [reflexivity|]. rewrite violated_cons. cbn [cross]. rewrite IH. ring. Qed.

(* [x] minimises the augmented Lagrangian *)
Definition minimum p f cs lambda sigma x : Prop :=
  length lambda = length cs /\ length x = p /\ 0 < sigma /\
  forall z, length z = p -> augmented f cs lambda sigma x <= augmented f cs lambda sigma z + 0.

Section Convex.
  Variables (p : nat) (f : list R -> R) (cs : list (list R -> R)).
  Hypothesis CP : convex_problem p f cs.

  Lemma optimality lambda sigma x z : minimum p f cs lambda sigma x -> length z = p ->
    f x - CS x lambda cs + sigma * violated cs x <= f z - CS z lambda cs + sigma * cross cs x z.
  Proof.
    intros (L & Lx & P & M) Lz. pose proof (cross_le cs x z) as W.
    enough (K : f x - CS x lambda cs + sigma * violated cs x - (f z - CS z lambda cs + sigma * cross cs x z) <= 0) by lra.
    apply (limit_le _ (sigma / 2 * (violated cs x + violated cs z - 2 * cross cs x z))). { apply Rmult_le_pos; lra. }
    intros t [T0 T1].
    destruct (CP x z t Lx Lz ltac:(lra)) as (Fz & Cz).
    assert (Lw : length (between t x z) = p) by (rewrite between_length; congruence).
    pose proof (M _ Lw) as B. unfold augmented in B.
    fold (CS x lambda cs) in B. fold (CS (between t x z) lambda cs) in B.
    rewrite (csum_violated cs x lambda), (csum_violated cs (between t x z) lambda) in B by (rewrite L; apply le_n).
    destruct (csum_line cs x z (between t x z) t lambda Cz) as (E1 & E2). rewrite E1, E2 in B.
    set (Px := CS x lambda cs) in *. set (Pz := CS z lambda cs) in *. set (V := violated cs x) in *.
    set (U := violated cs z) in *. set (C := cross cs x z) in *.
    apply (Rmult_le_reg_l t); [exact T0|]. rewrite Rmult_0_r.
    assert (B' : f x - Px + sigma / 2 * V <= (1 - t) * f x + t * f z - ((1 - t) * Px + t * Pz)
      + sigma / 2 * ((1 - t) ^ 2 * V + 2 * t * (1 - t) * C + t ^ 2 * U)) by lra.
    apply (Rle_trans _ (f x - Px + sigma / 2 * V - ((1 - t) * f x + t * f z - ((1 - t) * Px + t * Pz)
      + sigma / 2 * ((1 - t) ^ 2 * V + 2 * t * (1 - t) * C + t ^ 2 * U)))); [|lra].
    apply Req_le. field.
  Qed.

  (* after a move of the multipliers *)
  Lemma mono_move lambda sigma x z : minimum p f cs lambda sigma x ->
    minimum p f cs (steps sigma x lambda cs) sigma z -> violated cs z <= violated cs x.
  Proof.
    intros A B. assert (Lx : length x = p) by apply A. assert (Lz : length z = p) by apply B.
    pose proof (optimality _ _ _ z A Lz) as O1. pose proof (optimality _ _ _ x B Lx) as O2.
    rewrite !csum_steps in O2 by apply A. rewrite (cross_sym cs z x), cross_self in O2.
    pose proof (cross_le cs x z) as W. destruct A as (_ & _ & P & _).
    assert (K : sigma * violated cs z <= sigma * cross cs x z) by lra.
    apply Rmult_le_reg_l in K; [|exact P]. lra.
  Qed.

  (* after an increase of the penalty parameter *)
  Lemma mono_penalty lambda sigma sigma' x z : minimum p f cs lambda sigma x ->
    minimum p f cs lambda sigma' z -> sigma < sigma' -> violated cs z <= violated cs x.
  Proof.
    intros A B S. assert (Lx : length x = p) by apply A. assert (Lz : length z = p) by apply B.
    pose proof (optimality _ _ _ z A Lz) as O1. pose proof (optimality _ _ _ x B Lx) as O2.
    rewrite (cross_sym cs z x) in O2. pose proof (cross_le cs x z) as W. destruct A as (_ & _ & P & _).
    assert (K : sigma * violated cs x + sigma' * violated cs z <= (sigma + sigma') * cross cs x z) by lra.
    assert (K2 : (sigma + sigma') * (2 * cross cs x z) <= (sigma + sigma') * (violated cs x + violated cs z))
      by (apply Rmult_le_compat_l; lra).
    apply (Rmult_le_reg_l (sigma' - sigma)); lra.
  Qed.

  Lemma violated_le best ls lambda sigma x D : multipliers p f cs best ls -> minimum p f cs lambda sigma x ->
    apart lambda ls <= D -> violated cs x <= D / sigma ^ 2.
  Proof.
    intros MU (L & Lx & P & M) A.
    pose proof (closer p f cs best ls lambda x sigma CP MU L Lx P M) as K.
    assert (A0 : forall a b, 0 <= apart a b).
    { induction a as [|u a IH]; intros [|v b]; cbn [apart]; try lra.
      pose proof (IH b). pose proof (Rle_0_sqr (u - v)). unfold Rsqr in *. nra. }
    pose proof (A0 (steps sigma x lambda cs) ls).
    assert (S2 : 0 < sigma ^ 2) by (apply pow_lt; exact P).
    apply (Rmult_le_reg_l (sigma ^ 2)); [exact S2|]. replace (sigma ^ 2 * (D / sigma ^ 2)) with D by (field; lra). lra.
  Qed.
  Lemma cauchy x lambda Q : (length cs <= length lambda)%nat -> squares lambda <= Q -> 0 <= CS x lambda cs ->
    (CS x lambda cs) ^ 2 <= Q * violated cs x.
  Proof.
    intros L HQ HS. assert (Q0 : 0 <= Q) by (pose proof (squares_nonneg lambda); lra).
    assert (V0 : 0 <= violated cs x) by apply squares_nonneg.
    assert (Y : forall t, 0 < t -> CS x lambda cs <= Q / (4 * t) + t * violated cs x).
    { intros t T. apply (Rle_trans _ _ _ (young cs x t T lambda L)). apply Rplus_le_compat_r, Rmult_le_compat_r; [|exact HQ].
      left. apply Rinv_0_lt_compat. lra. }
    set (s := CS x lambda cs) in *. set (V := violated cs x) in *. clearbody s V.
    destruct HS as [HS|<-]; [|rewrite pow_i by lia; apply Rmult_le_pos; lra].
    destruct V0 as [V0|<-].
    - pose proof (Y (s / (2 * V)) ltac:(apply Rmult_lt_0_compat; [lra|apply Rinv_0_lt_compat; lra])) as K.
      replace (Q / (4 * (s / (2 * V))) + s / (2 * V) * V) with (Q * V / (2 * s) + s / 2) in K by (field; split; lra).
      apply (Rmult_le_compat_l (2 * s)) in K; [|lra].
      replace (2 * s * (Q * V / (2 * s) + s / 2)) with (Q * V + s ^ 2) in K by (field; lra). nra.
    - exfalso. pose proof (Y ((Q + 1) / (2 * s)) ltac:(apply Rmult_lt_0_compat; [lra|apply Rinv_0_lt_compat; lra])) as K.
      replace (Q / (4 * ((Q + 1) / (2 * s))) + (Q + 1) / (2 * s) * 0) with (s * (Q / (2 * (Q + 1)))) in K by (field; split; lra).
      assert (H : Q / (2 * (Q + 1)) < 1).
      { apply (Rmult_lt_reg_l (2 * (Q + 1))); [lra|]. replace (2 * (Q + 1) * (Q / (2 * (Q + 1)))) with Q by (field; lra). lra. }
      apply (Rmult_lt_compat_l s) in H; [|exact HS]. lra.
  Qed.

  Lemma steps_length sigma x : forall l (ds : list (list R -> R)), length (steps sigma x l ds) = length l.
  Proof. induction l as [|a l IH]; intros [|c ds]; cbn; [reflexivity..|]. rewrite IH. reflexivity. Qed.

  Lemma gap best ls lambda sigma x D : multipliers p f cs best ls -> minimum p f cs lambda sigma x ->
    apart (steps sigma x lambda cs) ls <= D -> 0 <= D -> (f x - f best) ^ 2 <= 2 * (squares ls + D) * violated cs x.
  Proof.
    intros MU M A D0. pose proof M as (L & Lx & P & M'). pose proof MU as (Lb & Ll & Fb & Sa).
    pose proof (optimality lambda sigma x best M Lb) as O.
    assert (CB : CS best lambda cs = 0) by apply (csum_feasible cs best lambda Fb).
    assert (XB : cross cs x best = 0).
    { clear - Fb. induction cs as [|c l IH]; cbn [cross]; [reflexivity|].
      rewrite (Fb c (or_introl eq_refl)), IH; [ring|]. intros d I. apply Fb. right. exact I. }
    rewrite CB, XB in O.
    assert (U : f x - f best <= CS x (steps sigma x lambda cs) cs).
    { rewrite csum_steps by exact L. rewrite cross_self. lra. }
    pose proof (Sa x Lx) as W. fold (CS x ls cs) in W.
    pose proof (squares_nonneg ls) as S0. assert (V0 : 0 <= violated cs x) by apply squares_nonneg.
    destruct (Rle_dec 0 (f x - f best)) as [G|G].
    - apply (Rle_trans _ ((CS x (steps sigma x lambda cs) cs) ^ 2)); [apply pow_incr; lra|].
      apply cauchy; [rewrite steps_length, L; apply le_n| |lra].
      pose proof (squares_apart (steps sigma x lambda cs) ls ltac:(rewrite steps_length; congruence)). lra.
    - apply Rnot_le_lt in G.
      assert (N1 : CS x (map Ropp ls) cs = - CS x ls cs).
      { unfold CS. clear. revert cs. induction ls as [|l l' IH]; intros [|c ds]; cbn [map csum]; try ring. rewrite IH. ring. }
      assert (N2 : squares (map Ropp ls) = squares ls).
      { clear. induction ls as [|l l' IH]; [reflexivity|]. change (squares (map Ropp (l :: l'))) with ((- l) ^ 2 + squares (map Ropp l')).
        rewrite IH. change (squares (l :: l')) with (l ^ 2 + squares l'). ring. }
      replace ((f x - f best) ^ 2) with ((f best - f x) ^ 2) by ring.
      apply (Rle_trans _ ((CS x (map Ropp ls) cs) ^ 2)); [apply pow_incr; rewrite N1; lra|].
      apply cauchy; [rewrite map_length, Ll; apply le_n|rewrite N2; lra|rewrite N1; lra].
  Qed.
End Convex.

(* x^n with x <= q^2 *)
Lemma pow_q x q n : 0 <= x <= q * q -> x ^ n <= q ^ (2 * n).
Proof. intros H. rewrite pow_mult. apply pow_incr. replace (q ^ 2) with (q * q) by ring. exact H. Qed.
Lemma pow_down q m n : 0 < q <= 1 -> (m <= n)%nat -> q ^ n <= q ^ m.
Proof.
  intros Q H. replace n with (m + (n - m))%nat by lia. rewrite pow_add.
  assert (0 < q ^ m) by (apply pow_lt; lra).
  assert (q ^ (n - m) <= 1). { rewrite <- (pow1 (n - m)). apply pow_incr. lra. }
  rewrite <- (Rmult_1_r (q ^ m)) at 2. apply Rmult_le_compat_l; lra.
Qed.

Section Run.
  Variables (mx : R) (S : Type) (tf sf tol : R) (p : nat) (f : list R -> R) (cs : list (list R -> R)) (best ls : list R).
  Notation N := (RNum mx).
  Variable solve : list (aev N) -> S -> list R -> R -> list R -> list R * S.
  Hypotheses (CP : convex_problem p f cs) (MU : multipliers p f cs best ls) (EX : exactly p f cs solve).
  Hypotheses (SF : 1 < sf) (TF : 0 <= tf).
  Variables (x0 lambda0 : list R) (sigma0 : R) (s0 : S).
  Hypotheses (L0 : length lambda0 = length cs) (P0 : 0 < sigma0).
  Let a0 : outer N S := {| q_x := x0 : list N; q_lambda := lambda0 : list N; q_sigma := (sigma0 : N); q_thr := (mx : N);
                           q_last := (f x0 : N); q_s := s0 |}.
  Let D := apart lambda0 ls.
  Let B := D / sigma0 ^ 2.

  Lemma viol x : violation (N := N) cs x = violated cs x.
  Proof.
    unfold violation, violated. cbn [nadd nmul n0 RNum].
    assert (G : forall a, fold_left (fun a (c : list R -> R) => a + c x * c x) cs a = a + squares (map (fun c => c x) cs)).
    { clear. induction cs as [|c l IH]; intros a; cbn [fold_left map]; [cbn; ring|]. rewrite IH.
      change (squares (c x :: map (fun c0 => c0 x) l)) with (c x ^ 2 + squares (map (fun c0 => c0 x) l)). ring. }
    exact (eq_trans (G 0) (Rplus_0_l _)).
  Qed.

  Lemma inner_min (a : outer N S) x' s' : 0 < q_sigma a -> @length R (q_lambda a) = length cs -> inner (N := N) solve a x' s' ->
    minimum p f cs (q_lambda a) (q_sigma a) x'.
  Proof.
    intros P L (h & I). pose proof (f_equal fst I) as I1. cbn [fst] in I1. destruct EX as (E & LE).
    split; [exact L|]. split; [rewrite <- I1; apply LE|]. split; [exact P|].
    intros z Lz. rewrite <- I1. apply E; [rewrite L; apply le_n|exact P|exact Lz].
  Qed.

  (* [na] moves and [nb] increases so far *)
  Definition inv (k : nat) (a : outer N S) : Prop := exists na nb, (na + nb = k)%nat /\
    q_sigma a = sigma0 * sf ^ nb /\ @length R (q_lambda a) = length cs /\ apart (q_lambda a) ls <= D /\
    ((1 <= k)%nat -> exists l sg, minimum p f cs l sg (q_x a) /\
       ((q_lambda a = steps sg (q_x a) l cs /\ q_sigma a = sg) \/ (q_lambda a = l /\ q_sigma a = sg * sf))) /\
    ((1 <= na)%nat -> violated cs (q_x a) <= B * tf ^ (na - 1) /\ q_thr a <= B * tf ^ na) /\
    ((1 <= nb)%nat -> violated cs (q_x a) <= B / (sf ^ (nb - 1)) ^ 2).

  Lemma sf_pos n : 1 <= sf ^ n. Proof. apply pow_R1_Rle. lra. Qed.

  Lemma inv_sigma k a : inv k a -> 0 < q_sigma a.
  Proof. intros (na & nb & _ & E & _). rewrite E. apply Rmult_lt_0_compat; [exact P0|]. pose proof (sf_pos nb). lra. Qed.

  Lemma inv_mono k a x' s' : inv k a -> (1 <= k)%nat -> inner (N := N) solve a x' s' ->
    violated cs x' <= violated cs (q_x a).
  Proof.
    intros H K I. pose proof (inv_sigma k a H) as Sg. destruct H as (na & nb & _ & _ & L & _ & Pr & _).
    pose proof (inner_min a x' s' Sg L I) as M. destruct (Pr K) as (l & sg & M0 & [(E1 & E2)|(E1 & E2)]).
    - rewrite E1, E2 in M. exact (mono_move p f cs CP l sg (q_x a) x' M0 M).
    - rewrite E1, E2 in M. apply (mono_penalty p f cs CP l sg (sg * sf) (q_x a) x' M0 M).
      destruct M0 as (_ & _ & G & _). rewrite <- (Rmult_1_r sg) at 1. apply Rmult_lt_compat_l; assumption.
  Qed.

  Lemma inv_bound nb (a : outer N S) x' s' : q_sigma a = sigma0 * sf ^ nb -> 0 < q_sigma a -> @length R (q_lambda a) = length cs ->
    apart (q_lambda a) ls <= D -> inner (N := N) solve a x' s' -> violated cs x' <= B / (sf ^ nb) ^ 2.
  Proof.
    intros E Sg L A I. pose proof (inner_min a x' s' Sg L I) as M.
    pose proof (violated_le p f cs CP best ls _ _ x' D MU M A) as K. rewrite E in K.
    pose proof (sf_pos nb). replace (B / (sf ^ nb) ^ 2) with (D / (sigma0 * sf ^ nb) ^ 2); [exact K|].
    unfold B. field. split; lra.
  Qed.

  Lemma reach_inv k a : reach (N := N) tf sf tol f cs solve a0 k a -> inv k a.
  Proof.
    intros H. induction H as [|k a x' s' b H IH I C U].
    - exists 0%nat, 0%nat. split; [reflexivity|]. split; [cbn; exact (eq_sym (Rmult_1_r sigma0))|]. split; [exact L0|].
      split; [apply Rle_refl|]. repeat split; lia.
    - pose proof (inv_sigma k a IH) as Sg.
      assert (Mo : (1 <= k)%nat -> violated cs x' <= violated cs (q_x a)) by (intros K; exact (inv_mono k a x' s' IH K I)).
      destruct IH as (na & nb & Ek & Es & L & A & _ & Ha & Hb).
      pose proof (inner_min a x' s' Sg L I) as M.
      pose proof (inv_bound nb a x' s' Es Sg L A I) as Vb.
      assert (V0 : violated cs x' <= B).
      { apply (Rle_trans _ _ _ Vb). pose proof (sf_pos nb) as G.
        assert (G2 : 1 <= (sf ^ nb) ^ 2) by (apply pow_R1_Rle; exact G).
        assert (B0 : 0 <= B).
        { assert (Q : 0 <= violated cs x') by apply squares_nonneg.
          assert (Q2 : 0 <= B / (sf ^ nb) ^ 2) by lra.
          apply (Rmult_le_compat_l ((sf ^ nb) ^ 2)) in Q2; [|lra].
          replace ((sf ^ nb) ^ 2 * (B / (sf ^ nb) ^ 2)) with B in Q2 by (field; lra). lra. }
        apply (Rmult_le_reg_l ((sf ^ nb) ^ 2)); [lra|].
        replace ((sf ^ nb) ^ 2 * (B / (sf ^ nb) ^ 2)) with B by (field; lra). nra. }
      destruct U as (Ux & _ & _ & [(V & Mv & Sb & Th)|(V & Lb & Sb & _ & Th)]).
      + pose proof (moved_steps mx _ _ _ _ _ Mv) as Eb.
        exists (Datatypes.S na), nb. split; [lia|]. split; [rewrite Sb; exact Es|].
        split; [exact (eq_trans (moved_length (N := N) _ _ _ _ _ Mv) L)|].
        assert (Cl : apart (steps (q_sigma a) x' (q_lambda a) cs) ls + q_sigma a ^ 2 * violated cs x' <= apart (q_lambda a) ls).
        { destruct M as (_ & Lx & _ & M). apply (closer p f cs best ls); assumption. }
        assert (0 <= q_sigma a ^ 2 * violated cs x').
        { apply Rmult_le_pos; [rewrite <- Rsqr_pow2; apply Rle_0_sqr|apply squares_nonneg]. }
        split; [rewrite Eb; lra|]. rewrite Ux. split; [|split].
        * intros _. exists (q_lambda a), (q_sigma a). split; [exact M|]. left. split; [exact Eb|exact Sb].
        * intros _. replace (Datatypes.S na - 1)%nat with na by lia.
          assert (Vn : violated cs x' <= B * tf ^ na).
          { destruct na as [|na]; [cbn [pow]; lra|]. destruct (Ha ltac:(lia)) as (_ & Ht).
            rewrite viol in V. cbn in V. destruct (Rltb_spec (violated cs x') (q_thr a)) as [G|G]; [lra|discriminate]. }
          split; [exact Vn|]. rewrite Th, viol. change (nmul (n := N)) with Rmult.
          apply (Rmult_le_compat_l tf) in Vn; [|exact TF]. cbn [pow]. lra.
        * intros G. apply (Rle_trans _ (violated cs (q_x a))); [apply Mo; lia|apply Hb; exact G].
      + exists na, (Datatypes.S nb). split; [lia|].
        assert (Sb' : q_sigma b = q_sigma a * sf) by exact Sb.
        split; [rewrite Sb', Es; cbn [pow]; match goal with |- _ = ?e => change (@eq R (sigma0 * sf ^ nb * sf) e) end; ring|]. rewrite Lb. split; [exact L|]. split; [exact A|]. rewrite Ux.
        split; [|split].
        * intros _. exists (q_lambda a), (q_sigma a). split; [exact M|]. right. split; [reflexivity|exact Sb].
        * intros G. destruct (Ha G) as (H1 & H2). rewrite Th. split; [|exact H2].
          apply (Rle_trans _ (violated cs (q_x a))); [apply Mo; lia|exact H1].
        * intros _. replace (Datatypes.S nb - 1)%nat with nb by lia. exact Vb.
  Qed.

  Lemma rate_at q k (a : outer N S) : 0 < q <= 1 -> tf <= q * q -> 1 <= q * sf -> reach (N := N) tf sf tol f cs solve a0 k a ->
    (1 <= k)%nat -> q ^ 2 * violated cs (q_x a) <= B * q ^ k.
  Proof.
    intros Q QT QS Re K. pose proof (reach_inv k a Re) as (na & nb & Ek & _ & _ & _ & _ & Ha & Hb).
    assert (B0 : 0 <= B).
    { unfold B, D. apply Rmult_le_pos.
      - clear. revert ls. induction lambda0 as [|u a IH]; intros [|v b]; cbn [apart]; try lra.
        pose proof (IH b). pose proof (Rle_0_sqr (u - v)). unfold Rsqr in *. nra.
      - left. apply Rinv_0_lt_compat. apply pow_lt. exact P0. }
    assert (Q2 : 0 < q ^ 2) by (apply pow_lt; lra).
    assert (Fin : forall n, (k <= 2 * n)%nat -> violated cs (q_x a) <= B * q ^ (2 * (n - 1)) -> (1 <= n)%nat ->
      q ^ 2 * violated cs (q_x a) <= B * q ^ k).
    { intros n G V N1. apply (Rmult_le_compat_l (q ^ 2)) in V; [|lra].
      replace (q ^ 2 * (B * q ^ (2 * (n - 1)))) with (B * q ^ (2 * n)) in V.
      2:{ replace (2 * n)%nat with (2 + 2 * (n - 1))%nat by lia. rewrite pow_add. ring. }
      apply (Rle_trans _ _ _ V). apply Rmult_le_compat_l; [exact B0|]. apply pow_down; [lra|exact G]. }
    destruct (le_lt_dec nb na) as [G|G].
    - apply (Fin na); [lia| |lia]. destruct (Ha ltac:(lia)) as (V & _). apply (Rle_trans _ _ _ V).
      apply Rmult_le_compat_l; [exact B0|]. apply pow_q. lra.
    - apply (Fin nb); [lia| |lia]. apply (Rle_trans _ _ _ (Hb ltac:(lia))).
      set (m := (nb - 1)%nat). pose proof (sf_pos m) as Gm.
      assert (G2 : 0 < (sf ^ m) ^ 2) by (apply pow_lt; lra).
      assert (O : 1 <= q ^ (2 * m) * (sf ^ m) ^ 2).
      { rewrite (Nat.mul_comm 2 m), pow_mult, <- Rpow_mult_distr, <- Rpow_mult_distr. apply pow_R1_Rle, pow_R1_Rle. exact QS. }
      apply (Rmult_le_reg_l ((sf ^ m) ^ 2)); [exact G2|].
      replace ((sf ^ m) ^ 2 * (B / (sf ^ m) ^ 2)) with B by (field; lra).
      replace ((sf ^ m) ^ 2 * (B * q ^ (2 * m))) with (B * (q ^ (2 * m) * (sf ^ m) ^ 2)) by ring. nra.
  Qed.

  Lemma mono_at k (a : outer N S) x' s' : reach (N := N) tf sf tol f cs solve a0 k a -> (1 <= k)%nat -> inner (N := N) solve a x' s' ->
    violated cs x' <= violated cs (q_x a).
  Proof. intros Re. exact (inv_mono k a x' s' (reach_inv k a Re)). Qed.

  Lemma D_nonneg : 0 <= D.
  Proof.
    unfold D. clear. revert ls. induction lambda0 as [|u a IH]; intros [|v b]; cbn [apart]; try lra.
    pose proof (IH b). pose proof (Rle_0_sqr (u - v)). unfold Rsqr in *. nra.
  Qed.

  Lemma closer_at lambda sigma x : minimum p f cs lambda sigma x -> apart lambda ls <= D ->
    apart (steps sigma x lambda cs) ls <= D.
  Proof.
    intros (L & Lx & P & M) A. pose proof (closer p f cs best ls lambda x sigma CP MU L Lx P M) as K.
    assert (0 <= sigma ^ 2 * violated cs x).
    { apply Rmult_le_pos; [rewrite <- Rsqr_pow2; apply Rle_0_sqr|apply squares_nonneg]. } lra.
  Qed.

  Lemma gap_at k (a : outer N S) : reach (N := N) tf sf tol f cs solve a0 k a -> (1 <= k)%nat ->
    (f (q_x a) - f best) ^ 2 <= 2 * (squares ls + D) * violated cs (q_x a).
  Proof.
    intros Re K. destruct (reach_inv k a Re) as (na & nb & _ & _ & _ & A & Pr & _).
    destruct (Pr K) as (l & sg & M & H).
    apply (gap p f cs CP best ls l sg); [exact MU|exact M| |exact D_nonneg].
    destruct H as [(E & _)|(E & _)]; [rewrite <- E; exact A|]. apply closer_at; [exact M|]. rewrite <- E. exact A.
  Qed.

  Lemma gap_inner k (a : outer N S) x' s' : reach (N := N) tf sf tol f cs solve a0 k a -> inner (N := N) solve a x' s' ->
    (f x' - f best) ^ 2 <= 2 * (squares ls + D) * violated cs x'.
  Proof.
    intros Re I. pose proof (reach_inv k a Re) as H. pose proof (inv_sigma k a H) as Sg.
    destruct H as (na & nb & _ & _ & L & A & _). pose proof (inner_min a x' s' Sg L I) as M.
    apply (gap p f cs CP best ls (q_lambda a) (q_sigma a)); [exact MU|exact M| |exact D_nonneg].
    apply closer_at; [exact M|exact A].
  Qed.
End Run.

Lemma rate_ok mx (S : Type) maxIterations (tf sf tol : R) (f : list R -> R) (cs : list (list R -> R)) solve stop fuel
    term0 (s : S) lambda sigma x r p best ls q :
  convex_problem p f cs -> multipliers p f cs best ls -> exactly p f cs solve -> 1 < sf -> 0 <= tf -> 0 < sigma ->
  length lambda = length cs -> 0 < q <= 1 -> tf <= q * q -> 1 <= q * sf ->
  auglag (N := RNum mx) maxIterations tf sf tol f cs solve stop fuel term0 s lambda sigma x = Ret r ->
  let k := length (filter a_step (al_tr r)) in
  (1 <= k)%nat ->
  q ^ 2 * violated cs (al_x r) <= apart lambda ls / sigma ^ 2 * q ^ k /\
  (f (al_x r) - f best) ^ 2 <= 2 * (squares ls + apart lambda ls) * violated cs (al_x r).
Proof.
  intros CP MU EX SF TF S0 L0 Q QT QS E.
  assert (L : (length cs <= length lambda)%nat) by (rewrite L0; apply le_n).
  pose proof (auglag_ok (N := RNum mx) maxIterations tf sf tol f cs solve stop fuel term0 s lambda sigma x L) as P.
  rewrite E in P. destruct P as (_ & _ & k & a & Re & _ & Ek & En). cbv zeta. change (length (filter a_step (al_tr r)) = k) in Ek. rewrite Ek. intros K.
  pose proof (rate_at mx S tf sf tol p f cs best ls solve CP MU EX SF TF x lambda sigma s L0 S0 q k a Q QT QS Re K) as R0.
  destruct En as [(_ & _ & _ & X & _)|(x' & s' & I & X & _)].
  - rewrite X. split; [exact R0|].
    exact (gap_at mx S tf sf tol p f cs best ls solve CP MU EX SF TF x lambda sigma s L0 S0 k a Re K).
  - pose proof (mono_at mx S tf sf tol p f cs best ls solve CP MU EX SF TF x lambda sigma s L0 S0 k a x' s' Re K I) as Mo.
    rewrite X. split.
    2:{ exact (gap_inner mx S tf sf tol p f cs best ls solve CP MU EX SF TF x lambda sigma s L0 S0 k a x' s' Re I). }
    refine (Rle_trans _ _ _ _ R0). apply Rmult_le_compat_l; [|exact Mo]. left. apply pow_lt. lra.
Qed.

Lemma success_ok mx (S : Type) maxIterations (tf sf tol : R) (f : list R -> R) (cs : list (list R -> R)) solve stop fuel
    term0 (s : S) lambda sigma x r p best ls :
  convex_problem p f cs -> multipliers p f cs best ls -> exactly p f cs solve -> 0 < sf -> 0 < sigma ->
  length lambda = length cs ->
  auglag (N := RNum mx) maxIterations tf sf tol f cs solve stop fuel term0 s lambda sigma x = Ret r ->
  al_ret r = true ->
  exists l sg, al_members r = Some (l, sg) /\ 500000 < sg /\ apart l ls <= apart lambda ls /\
    violated cs (al_x r) <= apart lambda ls / sg ^ 2 /\
    (f (al_x r) - f best) ^ 2 <= 2 * (squares ls + apart lambda ls) * violated cs (al_x r).
Proof.
  intros CP MU EX SF S0 L0 E T.
  assert (L : (length cs <= length lambda)%nat) by (rewrite L0; apply le_n).
  pose proof (auglag_ok (N := RNum mx) maxIterations tf sf tol f cs solve stop fuel term0 s lambda sigma x L) as P.
  rewrite E in P. destruct P as (_ & _ & k & a & Re & _ & _ & En).
  destruct (reach_closer mx S tf sf tol p f cs best ls solve
    {| q_x := x; q_lambda := lambda; q_sigma := (sigma : RNum mx); q_thr := nmax; q_last := f x : RNum mx; q_s := s |}
    k a CP MU EX SF L0 S0 Re) as (Sp & La & D).
  cbn [q_lambda] in D.
  destruct En as [(F & _)|(x' & s' & I & X & [(_ & (_ & Sg) & Me)|[(F & _)|(F & _)]])]; try congruence.
  assert (G : 500000 < q_sigma a).
  { cbn in Sg. destruct (Rltb_spec 500000 (q_sigma a)) as [G|G]; [exact G|discriminate]. }
  exists (q_lambda a), (q_sigma a). split; [exact Me|]. split; [exact G|]. split; [exact D|].
  pose proof (inner_min mx S p f cs solve EX a x' s' Sp La I) as M. rewrite X.
  split; [exact (violated_le p f cs CP best ls _ _ x' _ MU M D)|].
  apply (gap p f cs CP best ls (q_lambda a) (q_sigma a)); [exact MU|exact M| |].
  - eapply closer_at; eassumption.
  - apply D_nonneg.
Qed.
