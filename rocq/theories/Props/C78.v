(** C78: SPSA's random directions, averaged over the coins. *)
From Coq Require Import List Arith Bool Reals Lra Lia.
From Verif.Base Require Import Num Vec Instances.
From Verif.Model Require Import Common SPSA.
From Verif.Spec Require Import Gradient ConvergeSpec CoinSpec.
From Verif.Proof Require Import SPSAProof CoinProof.
Import ListNotations.
Local Open Scope R_scope.

(** [flips] and [draws] list every outcome exactly once. *)
Theorem C78_outcomes : forall n d,
  (forall b, In b (flips d) <-> length b = d) /\ NoDup (flips d) /\
  (forall t, In t (draws n d) <-> length t = n /\ forall b, In b t -> length b = d) /\ NoDup (draws n d).
Proof. intros n d. repeat apply conj; [apply flips_in|apply flips_nodup|apply draws_in|apply draws_nodup]. Qed.
Print Assumptions C78_outcomes.

(** For a quadratic objective in d variables the estimate SPSA computes in iteration k from two
    evaluations is, averaged over the 2^d equally likely directions, the gradient. *)
Theorem C78_unbiased :
  forall (mx gamma ess : R) (pw : R -> R -> R) d f k x grad curv mu L i,
  quadratic d f grad curv mu L -> length x = d -> ess / pw (INR (k + 1)) gamma <> 0 -> (i < d)%nat ->
  mean (flips d) (fun b => nth i (spsa_gradient (N := RNum mx) gamma ess pw (fun _ => b) k
      (f (plus (N := RNum mx) gamma ess pw (fun _ => b) k x)) (f (minus (N := RNum mx) gamma ess pw (fun _ => b) k x))) 0)
  = nth i (grad x) 0.
Proof. exact estimate_mean. Qed.
Print Assumptions C78_unbiased.

(** For any objective, the average misses a vector g by no more than the symmetric differences
    of the objective miss those of the linear function g: with c_k the evaluation step of the
    iteration, an error of 2 c_k eps in the differences is an error of eps in the average. *)
Theorem C78_bias :
  forall (mx gamma ess : R) (pw : R -> R -> R) d f k x g eps i,
  let c := ess / pw (INR (k + 1)) gamma in
  length g = d -> c <> 0 -> (i < d)%nat ->
  (forall b, length b = d ->
     Rabs (f (along x (signs b) c) - f (along x (signs b) (- c)) - 2 * c * dotR g (signs b)) <= 2 * Rabs c * eps) ->
  Rabs (mean (flips d) (fun b => nth i (spsa_gradient (N := RNum mx) gamma ess pw (fun _ => b) k
      (f (plus (N := RNum mx) gamma ess pw (fun _ => b) k x)) (f (minus (N := RNum mx) gamma ess pw (fun _ => b) k x))) 0)
    - nth i g 0) <= eps.
Proof. exact estimate_bias. Qed.
Print Assumptions C78_bias.

(** The naive claim, that the average is the gradient of every smooth function, is false: for
    x^3 at 0, whose gradient is 0, it is the square of the evaluation step. *)
Theorem C78_unbiased_refuted :
  let f := fun x : list R => nth 0 x 0 * nth 0 x 0 * nth 0 x 0 in
  gradient_at f [0] [0] /\
  forall mx gamma ess k pw, ess / pw (INR (k + 1)) gamma <> 0 ->
  mean (flips 1) (fun b => nth 0 (spsa_gradient (N := RNum mx) gamma ess pw (fun _ => b) k
      (f (plus (N := RNum mx) gamma ess pw (fun _ => b) k [0])) (f (minus (N := RNum mx) gamma ess pw (fun _ => b) k [0]))) 0)
  = (ess / pw (INR (k + 1)) gamma) * (ess / pw (INR (k + 1)) gamma).
Proof.
  intros f. split.
  - split; [reflexivity|]. intros [|h [|]] Hd; try discriminate. cbn [along dotR nth f].
    assert (derivable_pt_lim (fun t => 0 + t * h) 0 h) as D.
    { intros eps He. exists (mkposreal 1 Rlt_0_1). intros t Ht _. replace ((0 + (0 + t) * h - (0 + 0 * h)) / t - h) with 0 by (field; exact Ht).
      rewrite Rabs_R0. exact He. }
    pose proof (derivable_pt_lim_mult _ _ 0 _ _ (derivable_pt_lim_mult _ _ 0 _ _ D D) D) as D3. cbn beta in D3.
    match type of D3 with derivable_pt_lim _ _ ?l => replace (0 * h + 0) with l by (unfold mult_fct; ring) end. exact D3.
  - intros mx gamma ess k pw Hc. rewrite mean_flips. cbn [flips map app sumR pow].
    rewrite !(estimate_nth mx gamma ess pw 1) by (reflexivity || assumption || lia).
    unfold f. cbn [signs map along nth]. generalize dependent (ess / pw (INR (k + 1)) gamma). intros c Hc. field. exact Hc.
Qed.
Print Assumptions C78_unbiased_refuted.

(** A run whose gains satisfy 0 <= a_k and a_k L d <= 2 never returns a larger value of a
    quadratic objective than it started with, whatever the coins, callbacks and tolerance. *)
Theorem C78_never_worse :
  forall (mx alpha gamma stepSize ess ak : R) n tol pw f coin (cb : CB (RNum mx) (list R) (list R)) fuel x r d grad curv mu L,
  quadratic d f grad curv mu L -> length x = d -> (forall k, length (coin k) = d) ->
  (forall k, (k < n)%nat ->
     let a := stepSize / pw (INR (k + 1) + ak) alpha in
     0 <= a /\ a * L * INR d <= 2 /\ ess / pw (INR (k + 1)) gamma <> 0) ->
  spsa (N := RNum mx) alpha gamma stepSize ess ak n tol pw f coin cb fuel x = Some r ->
  f (o_x r) <= f x.
Proof.
  intros mx alpha gamma stepSize ess ak n tol pw f coin cb fuel x r d grad curv mu L Q Hx Hc HF Hr.
  destruct (spsa_ok mx alpha gamma stepSize ess ak n tol pw f coin cb fuel x r Hr) as (m & tail & Hm & _ & (A & _) & _).
  { intros k. rewrite Hc. symmetry. exact Hx. }
  eapply Rle_trans; [apply Req_le, (f_equal f); exact A|].
  apply (run_down (a_ alpha stepSize ak pw) (c_ gamma ess pw) f d grad curv mu L Q m (s_ coin) 0 x); [|exact Hx].
  intros j Hj. split; [apply HF; lia|]. exists (coin j). split; [reflexivity|apply Hc].
Qed.
Print Assumptions C78_never_worse.

(** What a run of n iterations returns when nobody stops it, as a function of the coins. *)
Definition returned (mx alpha gamma stepSize ess ak : R) n pw f cb x (bits : list (list bool)) : R :=
  match spsa (N := RNum mx) alpha gamma stepSize ess ak n 0 pw f (fun k => nth k bits (repeat true (length x))) cb n x with
  | Some r => o_val r
  | None => 0
  end.

(** Convergence on average: for a quadratic objective with curvature between mu > 0 and L, the
    returned value, averaged over all the coins of the run, exceeds the value at any point y by
    at most the product of the factors 1 - 2 mu a_k (1 - L a_k d / 2) times the excess at the
    start. *)
Theorem C78_average_rate :
  forall (mx alpha gamma stepSize ess ak : R) n pw f (cb : CB (RNum mx) (list R) (list R)) x y d grad curv mu L,
  quadratic d f grad curv mu L -> 0 < mu -> mu <= L -> (0 < d)%nat -> length x = d -> length y = d ->
  (forall tr, cs_stop cb tr = false) ->
  let a := fun k => stepSize / pw (INR (k + 1) + ak) alpha in
  (forall k, (k < n)%nat -> 0 <= a k /\ a k * L * INR d <= 2 /\ ess / pw (INR (k + 1)) gamma <> 0) ->
  mean (draws n d) (returned mx alpha gamma stepSize ess ak n pw f cb x) - f y
    <= prodR (map (fun k => 1 - 2 * mu * a k * (1 - L * a k * INR d / 2)) (seq 0 n)) * (f x - f y).
Proof.
  intros mx alpha gamma stepSize ess ak n pw f cb x y d grad curv mu L Q Hmu HmL Hd Hx Hy Hs a HF.
  eapply Rle_trans; [|apply (run_mean (a_ alpha stepSize ak pw) (c_ gamma ess pw) f d grad curv mu L Q Hmu HmL Hd n 0 x y); [|assumption|assumption]].
  2:{ intros j Hj. apply HF. lia. }
  apply Rplus_le_compat_r, mean_le. intros bits Hb. apply draws_in in Hb as [Ln Hb]. subst n. unfold returned.
  destruct (run_complete mx alpha gamma stepSize ess ak (length bits) 0 pw f (fun k => nth k bits (repeat true (length x))) cb (length bits) x) as (r & -> & A & B);
    [lia| |exact Hs|lra|].
  { intros k. destruct (lt_dec k (length bits)) as [H|H]; [rewrite Hx; apply Hb, nth_In, H|].
    rewrite nth_overflow by lia. apply repeat_length. }
  apply Req_le. etransitivity; [exact B|]. apply (f_equal f). etransitivity; [exact A|].
  apply arrived_arr. intros j Hj. cbn. unfold s_. apply (f_equal signs), nth_indep. exact Hj.
Qed.
Print Assumptions C78_average_rate.

(** The theorems apply to x^2 + 2 y^2, whose curvature lies between 2 and 4; two iterations from
    (3, 1) with constant gain 1/8: each factor is 1 - 2*2*(1/8)*(1 - 4*(1/8)*2/2) = 3/4. *)
Definition bowl (x : list R) : R := match x with [a; b] => a * a + 2 * b * b | _ => 0 end.
Lemma bowl_quadratic : quadratic 2 bowl (fun x => [2 * nth 0 x 0; 4 * nth 1 x 0]) (fun h => 2 * bowl h) 2 4.
Proof.
  constructor; [reflexivity| | |].
  - intros [|a [|b [|]]] [|h [|j [|]]] t Hx Hh; try discriminate. cbn. lra.
  - intros [|h [|j [|]]] Hh; try discriminate. unfold sqn. cbn. nra.
  - intros [|h [|j [|]]] Hh; try discriminate. unfold sqn. cbn. nra.
Qed.
Example C78_ex : forall cb : CB (RNum 1000) (list R) (list R), (forall tr, cs_stop cb tr = false) ->
  mean (draws 2 2) (returned 1000 1 1 (1 / 8) 1 1 2 (fun _ _ => 1) bowl cb [3; 1]) <= 9 / 16 * 11.
Proof.
  intros cb Hs.
  pose proof (C78_average_rate 1000 1 1 (1 / 8) 1 1 2 (fun _ _ => 1) bowl cb [3; 1] [0; 0] 2 _ _ 2 4 bowl_quadratic) as H.
  cbn zeta in H. specialize (H ltac:(lra) ltac:(lra) ltac:(lia) eq_refl eq_refl Hs).
  match type of H with ?P -> _ => assert P as HP by (intros k _; cbn; lra) end. specialize (H HP).
  cbn [seq map prodR bowl INR] in H. cbv beta in H.
  match type of H with (?m - ?z <= ?r) => assert (m <= r + z) as H2 by lra; eapply Rle_trans; [exact H2|]; field_simplify; lra end.
Qed.
(** ... and a gain beyond the bound does make things worse: from 1, the step 2 on x^2 leads to -3. *)
Theorem C78_never_worse_refuted :
  exists r, spsa (N := RNum 1000) 1 1 2 1 1 1 0 (fun _ _ => 1) (fun x => nth 0 x 0 * nth 0 x 0) (fun _ => [true])
      {| cs_stop := fun _ => false; cs_grad := fun _ _ _ g => g |} 1 [1] = Some r /\
    1 < nth 0 (o_x r) 0 * nth 0 (o_x r) 0.
Proof.
  destruct (run_complete 1000 1 1 2 1 1 1 0 (fun _ _ => 1) (fun x => nth 0 x 0 * nth 0 x 0) (fun _ => [true])
    {| cs_stop := fun _ => false; cs_grad := fun _ _ _ g => g |} 1 [1]) as (r & Hr & A & _); [lia|reflexivity|reflexivity|lra|].
  exists r. split; [exact Hr|]. assert (o_x r = [-3]) as -> by (rewrite A; cbn; apply (f_equal (fun z => [z])); unfold a_, c_; field). cbn. lra.
Qed.
Print Assumptions C78_never_worse_refuted.
