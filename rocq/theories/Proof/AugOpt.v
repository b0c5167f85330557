(** Proofs for C95: what AugLagrangian returns. *)
From Coq Require Import List Arith Bool ZArith Reals Lra Lia.
From Verif.Base Require Import Num Instances Vec.
From Verif.Model Require Import Common AugLag.
From Verif.Spec Require Import AugLagSpec AugOptSpec.
From Verif.Proof Require Import AugLagProof.
Import ListNotations.
Local Open Scope R_scope.

Lemma csum_feasible cs y lambda : feasible cs y ->
  csum (fun l (c : list R -> R) => l * c y) lambda cs = 0 /\ csum (fun _ (c : list R -> R) => c y ^ 2) lambda cs = 0.
Proof.
  revert lambda. induction cs as [|c cs IH]; intros [|l lambda] F; cbn [csum]; try (split; reflexivity).
  destruct (IH lambda) as (A & B). { intros d D. apply F. right. exact D. }
  rewrite A, B, (F c (or_introl eq_refl)). split; ring.
Qed.

Lemma squares_nonneg l : 0 <= squares l.
Proof.
  unfold squares. induction l as [|a l IH]; cbn [fold_right]; [lra|].
  assert (0 <= a ^ 2) by (rewrite <- Rsqr_pow2; apply Rle_0_sqr). lra.
Qed.

Lemma csum_violated cs x lambda : (length cs <= length lambda)%nat ->
  csum (fun _ (c : list R -> R) => c x ^ 2) lambda cs = violated cs x.
Proof.
  revert lambda. induction cs as [|c cs IH]; intros [|l lambda] L; cbn [length] in L; try (cbn; reflexivity); try lia.
  cbn [csum]. rewrite IH by lia. reflexivity.
Qed.

(* l c <= l^2 / (4 t) + t c^2, summed *)
Lemma young cs x t : 0 < t -> forall lambda, (length cs <= length lambda)%nat ->
  csum (fun l (c : list R -> R) => l * c x) lambda cs <= squares lambda / (4 * t) + t * violated cs x.
Proof.
  intros T. induction cs as [|c cs IH]; intros lambda L.
  - replace (csum _ lambda []) with 0 by (destruct lambda; reflexivity).
    change (violated [] x) with 0. rewrite Rmult_0_r, Rplus_0_r.
    apply Rmult_le_pos; [apply squares_nonneg|]. left. apply Rinv_0_lt_compat. lra.
  - destruct lambda as [|l lambda]; cbn [length] in L; [lia|]. cbn [csum].
    pose proof (IH lambda ltac:(lia)) as P.
    change (squares (l :: lambda)) with (l ^ 2 + squares lambda).
    change (violated (c :: cs) x) with (c x ^ 2 + violated cs x).
    assert (Q : l * c x <= l ^ 2 / (4 * t) + t * c x ^ 2).
    { assert (0 <= (l - 2 * t * c x) ^ 2 / (4 * t)).
      { apply Rmult_le_pos; [rewrite <- Rsqr_pow2; apply Rle_0_sqr|]. left. apply Rinv_0_lt_compat. lra. }
      replace (l ^ 2 / (4 * t) + t * c x ^ 2) with (l * c x + (l - 2 * t * c x) ^ 2 / (4 * t)) by (field; lra). lra. }
    replace ((l ^ 2 + squares lambda) / (4 * t)) with (l ^ 2 / (4 * t) + squares lambda / (4 * t)) by (field; lra).
    lra.
Qed.

Section Bound.
  Variables (p : nat) (eps sigma : R) (f : list R -> R) (cs : list (list R -> R)) (lambda x y : list R).
  Hypotheses (L : (length cs <= length lambda)%nat) (P : 0 < sigma) (F : feasible cs y).
  Hypothesis M : augmented f cs lambda sigma x <= augmented f cs lambda sigma y + eps.

  Lemma below : f x - csum (fun l (c : list R -> R) => l * c x) lambda cs + sigma / 2 * violated cs x <= f y + eps.
  Proof.
    unfold augmented in M. destruct (csum_feasible cs y lambda F) as (A & B). rewrite A, B in M.
    rewrite (csum_violated cs x lambda L) in M. lra.
  Qed.

  Lemma value_bound : f x <= f y + eps + squares lambda / (2 * sigma).
  Proof.
    pose proof below as B. pose proof (young cs x (sigma / 2) ltac:(lra) lambda L) as Y.
    replace (4 * (sigma / 2)) with (2 * sigma) in Y by field. lra.
  Qed.

  Lemma violation_bound : violated cs x <= 4 / sigma * (f y - f x + eps) + 4 * squares lambda / sigma ^ 2.
  Proof.
    pose proof below as B. pose proof (young cs x (sigma / 4) ltac:(lra) lambda L) as Y.
    replace (4 * (sigma / 4)) with sigma in Y by field.
    assert (C : sigma / 4 * violated cs x <= f y - f x + eps + squares lambda / sigma) by lra.
    assert (I : 0 < 4 / sigma) by (apply Rmult_lt_0_compat; [lra|apply Rinv_0_lt_compat; exact P]).
    apply (Rmult_le_compat_l (4 / sigma)) in C; [|lra].
    replace (4 / sigma * (sigma / 4 * violated cs x)) with (violated cs x) in C by (field; lra).
    replace (4 / sigma * (f y - f x + eps + squares lambda / sigma))
      with (4 / sigma * (f y - f x + eps) + 4 * squares lambda / sigma ^ 2) in C by (field; lra).
    exact C.
  Qed.

  Lemma feasible_bound : feasible cs x -> f x <= f y + eps.
  Proof.
    intros X. pose proof below as B. destruct (csum_feasible cs x lambda X) as (A & V).
    rewrite (csum_violated cs x lambda L) in V. rewrite A, V in B. lra.
  Qed.
End Bound.

Lemma moved_length {N : Num} (cs : list (list N -> N)) lambda sigma x lambda' :
  moved cs lambda sigma x lambda' -> length lambda' = length lambda.
Proof.
  intros M. apply Nat.le_antisymm; apply Nat.nlt_ge; intros C.
  - apply nth_error_Some in C. apply C. rewrite (M (length lambda)).
    assert (E : nth_error lambda (length lambda) = None) by (apply nth_error_None; lia).
    rewrite E. reflexivity.
  - assert (E : nth_error lambda' (length lambda') = None) by (apply nth_error_None; lia).
    rewrite (M (length lambda')) in E. apply nth_error_Some in C.
    destruct (nth_error lambda (length lambda')); [|contradiction].
    destruct (nth_error cs (length lambda')); discriminate.
Qed.

Lemma reach_length {N : Num} {S : Type} (tf sf tol : N) f cs (solve : list (aev N) -> S -> list N -> N -> list N -> list N * S) a0 k a :
  reach tf sf tol f cs solve a0 k a -> length (q_lambda a) = length (q_lambda a0).
Proof.
  intros H. induction H as [|k a x' s' b H IH I C U]; [reflexivity|].
  rewrite <- IH. destruct U as (_ & _ & _ & [(_ & M & _)|(_ & E & _)]).
  - exact (moved_length cs _ _ _ _ M).
  - rewrite E. reflexivity.
Qed.

Lemma returned_ok mx (S : Type) maxIterations (tf sf tol : R) (f : list R -> R) (cs : list (list R -> R)) solve stop fuel
    term0 (s : S) lambda sigma x r p eps :
  (length cs <= length lambda)%nat ->
  minimises p eps 500000 f cs solve ->
  auglag (N := RNum mx) maxIterations tf sf tol f cs solve stop fuel term0 s lambda sigma x = Ret r ->
  al_ret r = true ->
  exists l sg, al_members r = Some (l, sg) /\ 500000 < sg /\
    forall y, length y = p -> feasible cs y ->
      f (al_x r) <= f y + eps + squares l / (2 * sg) /\
      violated cs (al_x r) <= 4 / sg * (f y - f (al_x r) + eps) + 4 * squares l / sg ^ 2 /\
      (feasible cs (al_x r) -> f (al_x r) <= f y + eps).
Proof.
  intros L M E T.
  pose proof (auglag_ok (N := RNum mx) maxIterations tf sf tol f cs solve stop fuel term0 s lambda sigma x L) as P.
  rewrite E in P. destruct P as (_ & _ & k & a & Re & _ & _ & En).
  pose proof (reach_length _ _ _ _ _ _ _ _ _ Re) as La. cbn [q_lambda] in La.
  destruct En as [(F & _)|(x' & s' & (h & I) & X & [(_ & (_ & Sg) & Me)|[(F & _)|(F & _)]])]; try congruence.
  exists (q_lambda a), (q_sigma a). split; [exact Me|].
  assert (G : 500000 < q_sigma a).
  { cbn in Sg. destruct (Rltb_spec 500000 (q_sigma a)) as [G|G]; [exact G|discriminate]. }
  split; [exact G|]. intros y Ly Fy.
  assert (La' : (length cs <= @length R (q_lambda a))%nat) by (exact (eq_ind_r (fun n => (length cs <= n)%nat) L La)).
  pose proof (M h (q_s a) (q_lambda a) (q_sigma a) (q_x a) y La' G Ly) as B.
  assert (B' : augmented f cs (q_lambda a) (q_sigma a) (al_x r) <= augmented f cs (q_lambda a) (q_sigma a) y + eps).
  { rewrite X. pose proof (f_equal fst I) as I1. cbn [fst] in I1. rewrite <- I1. exact B. }
  assert (0 < q_sigma a) by lra.
  split; [|split].
  - apply (value_bound eps (q_sigma a) f cs (q_lambda a)); assumption.
  - apply (violation_bound eps (q_sigma a) f cs (q_lambda a)); assumption.
  - apply (feasible_bound eps (q_sigma a) f cs (q_lambda a)); assumption.
Qed.

(** ** A problem the method solves without ever saying so *)
(* (x - 3)^2 / 2 subject to x = 0, inner optimizer: the exact minimiser *)
Definition first (x : list R) : R := hd 0 x.
Definition dist3 (x : list R) : R := (first x - 3) ^ 2 / 2.
Definition exact_solve {E : Type} (h : list E) (s : unit) (lambda : list R) (sigma : R) (x : list R) : list R * unit :=
  ([(3 + hd 0 lambda) / (1 + sigma)], s).

Lemma exact_minimises E least : 0 <= least -> minimises 1 0 least dist3 [first] (@exact_solve E).
Proof.
  intros H0 h s lambda sigma x z L Hs Hz.
  destruct lambda as [|l lambda]; [cbn in L; lia|].
  destruct z as [|z [|]]; try discriminate. unfold augmented, dist3, first, exact_solve. cbn [csum hd fst].
  assert (Z0 : forall h : R -> (list R -> R) -> R, csum h lambda [] = 0) by (intros; destruct lambda; reflexivity).
  rewrite !Z0.
  set (w := (3 + l) / (1 + sigma)).
  assert (Ew : (1 + sigma) * w = 3 + l) by (unfold w; field; lra).
  assert (Q : 0 <= (1 + sigma) / 2 * (z - w) ^ 2).
  { apply Rmult_le_pos; [lra|]. rewrite <- Rsqr_pow2. apply Rle_0_sqr. }
  clearbody w. nra.
Qed.


Section Silent.
  Variables (mx tol : R).
  Hypothesis big : 1 <= mx.
  Notation N := (RNum mx).
  Let tf : R := 1 / 4.
  Let sf : R := 10.

  Let a0 : outer N unit := {| q_x := [3 : N]; q_lambda := [0 : N]; q_sigma := (10 : N); q_thr := (mx : N); q_last := (dist3 [3] : N); q_s := tt |}.

  (* after [k] iterations *)
  Definition state (k : nat) (a : outer N unit) : Prop :=
    q_x a = [3 / 11 ^ k] /\ (exists l : R, q_lambda a = [l] /\ 3 + l = 3 / 11 ^ k) /\ q_sigma a = 10 /\
    (3 / 11 ^ S k) ^ 2 < q_thr a.

  Lemma pow11 k : 0 < 11 ^ k. Proof. apply pow_lt. lra. Qed.

  Lemma inner_at (k : nat) a x' s' : state k a -> inner (N := N) exact_solve a x' s' ->
    x' = [3 / 11 ^ S k] /\ nlt (n := N) (violation (N := N) [first] x') (q_thr a) = true /\
    violation (N := N) [first] x' = (3 / 11 ^ S k) ^ 2.
  Proof.
    intros (_ & (l & El & Hl) & Es & Ht) (h & I).
    assert (X : x' = [3 / 11 ^ S k]).
    { pose proof (f_equal fst I) as I1. unfold exact_solve in I1. cbn [fst] in I1. rewrite <- I1, El, Es. cbn [hd].
      rewrite Hl. f_equal. change (11 ^ S k) with (11 * 11 ^ k). pose proof (pow11 k). field. lra. }
    assert (V : violation (N := N) [first] x' = (3 / 11 ^ S k) ^ 2).
    { rewrite X. unfold violation, first. cbn -[pow]. change (@eq R (0 + 3 / 11 ^ S k * (3 / 11 ^ S k)) ((3 / 11 ^ S k) ^ 2)). ring. }
    split; [exact X|]. split; [|exact V]. rewrite V. cbn -[pow Rltb].
    destruct (Rltb_spec ((3 / 11 ^ S k) ^ 2) (q_thr a)) as [|C]; [reflexivity|contradiction].
  Qed.

  Lemma states k a : reach (N := N) tf sf tol dist3 [first] exact_solve a0 k a -> state k a.
  Proof.
    intros H. induction H as [|k a x' s' b H IH I C U].
    - unfold state, a0. cbn [q_x q_lambda q_sigma q_thr]. split; [|split; [|split]].
      + f_equal. cbn. change (@eq R 3 (3 / 1)). field.
      + exists 0. split; [reflexivity|]. cbn. field.
      + reflexivity.
      + cbn. lra.
    - destruct (inner_at k a x' s' IH I) as (X & V & W).
      destruct IH as (_ & (l & El & Hl) & Es & _).
      destruct U as (Ux & _ & _ & [(_ & M & Sg & Th)|(V' & _)]); [|congruence].
      unfold state. rewrite Ux, X, Sg, Es. split; [reflexivity|]. split; [|split; [reflexivity|]].
      + exists (l - 10 * (3 / 11 ^ S k)). split.
        * pose proof (M 0%nat) as M0. pose proof (moved_length _ _ _ _ _ M) as Lb. rewrite El in M0, Lb.
          destruct (q_lambda b) as [|lb [|]]; cbn [length] in Lb; try discriminate.
          cbn [nth_error] in M0. injection M0 as ->. rewrite Es, X. reflexivity.
        * change (11 ^ S k) with (11 * 11 ^ k). pose proof (pow11 k).
          replace (3 + (l - 10 * (3 / (11 * 11 ^ k)))) with ((3 + l) - 10 * (3 / (11 * 11 ^ k))) by ring.
          rewrite Hl. field. lra.
      + rewrite Th, W. unfold tf. change (nmul (n := N)) with Rmult.
        change (11 ^ S (S k)) with (11 * 11 ^ S k). pose proof (pow11 (S k)) as Pk.
        set (w := 11 ^ S k) in *. clearbody w.
        replace ((3 / (11 * w)) ^ 2) with ((3 / w) ^ 2 * (1 / 121)) by (field; lra).
        assert (0 < (3 / w) ^ 2). { apply pow_lt. apply Rmult_lt_0_compat; [lra|]. apply Rinv_0_lt_compat. exact Pk. }
        lra.
  Qed.

  Lemma silent m : exists r,
    auglag (N := N) (S m) tf sf tol dist3 [first] exact_solve (fun _ => false) m false tt [0] 10 [3] = Ret r /\
    al_ret r = false /\ al_x r = [3 / 11 ^ m] /\ length (filter a_step (al_tr r)) = m.
  Proof.
    pose proof (auglag_ok (N := N) (S m) tf sf tol dist3 [first] exact_solve (fun _ => false) m false tt [0 : N] (10 : R) [3 : N]
      (le_n 1)) as P.
    destruct (auglag _ _ _ _ _ _ _ _ _ _ _ _ _ _) as [r| |]; [|contradiction|cbn in P; lia].
    exists r. split; [reflexivity|]. destruct P as (Q & _ & k & a & Re & _ & Ek & En).
    assert (NT : al_term r = false).
    { destruct (al_term r); [|reflexivity]. destruct Q as (Q & _). destruct (Q eq_refl) as [D|(? & ? & ? & _ & _ & D)]; discriminate. }
    pose proof (states k a Re) as St.
    destruct En as [(F & _ & [K|K] & X & _)|(x' & s' & I & X & D)].
    - split; [exact F|]. destruct St as (Y & _). split; [rewrite X, Y, K; reflexivity|exact (eq_trans Ek K)].
    - congruence.
    - destruct (inner_at k a x' s' St I) as (_ & V & _). destruct St as (_ & _ & Es & _).
      destruct D as [(_ & (_ & C) & _)|[(_ & _ & _ & D & _)|(_ & _ & _ & D & _)]]; try congruence.
      exfalso. rewrite Es in C. cbn in C. destruct (Rltb_spec 500000 10); [lra|discriminate].
  Qed.
End Silent.
