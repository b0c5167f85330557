(** C86: SGD with a constant step size comes as close to the minimiser as the step size allows,
    whatever the order of the functions, and no closer. *)
From Coq Require Import List Arith Bool Reals Lra Lia.
From Verif.Base Require Import Num Vec Instances Size.
From Verif.Model Require Import Common Sgd SgdPolicies.
From Verif.Spec Require Import ConvergeSpec VrRateSpec SgdRateSpec.
From Verif.Proof Require Import SgdMore SgdRate SgdFloor SgdFloorMore SgdFloorEx VrRateEx.
Import ListNotations.
Local Open Scope R_scope.

(** For every sum of n functions whose gradients are Lipschitz with constant L and whose average F is
    strongly convex with constant mu and least at y, every order the shuffles give the functions,
    every batch size, tolerance, iteration limit and starting point, and every callback that leaves
    the gradients alone (it may stop the run anywhere): if 8 * h * n * L^2 <= mu then the e-th pass
    ends within (1 - h n mu / 4)^e |x0 - y| + 8 h L s / mu of y, where s adds up the lengths of the
    gradients at y; and the final point, which may lie inside a pass, is within 5/4 of the bound of
    the last pass that ended, plus 2 h s. *)
Theorem C86_near_the_minimiser : forall mx p L mu h (f : SepFun (RNum mx) (list R) (list R)) cb (gr : nat -> list R -> list R)
    (F : list R -> R) (y x0 : list R) batch max tol shuffle exact fuel r,
  sgd_sum mx p f gr -> each_smooth p (sf_num f) L gr ->
  smooth_on (space p) L F (avg_grad p (sf_num f) gr) -> strongly_convex_on (space p) mu F ->
  0 < mu <= L -> 0 < h -> length y = p -> (forall z, length z = p -> F y <= F z) ->
  (0 < sf_num f)%nat -> (0 < batch)%nat -> watches cb -> length x0 = p ->
  8 * (h * INR (sf_num f)) * (L * L) <= mu ->
  optimize_with (plain_sgd mx batch max tol shuffle exact) f cb fuel (sgd_vanilla_init (N := RNum mx) x0) tt h x0 = Return r ->
  let bound := floor_bound (sf_num f) L mu h (disagreement (sf_num f) gr y) (dist x0 y) in
  (forall x e o, In (EndEpoch x e o) (r_trace r) -> dist x y <= bound e) /\
  dist (r_x r) y <= 5 / 4 * bound (passes (r_trace r)) + 2 * (h * disagreement (sf_num f) gr y).
Proof. intros. eapply floor_dist; eassumption. Qed.
Print Assumptions C86_near_the_minimiser.

(** If every function is stationary at y (interpolation), nothing is left of the floor: the
    distance falls geometrically to zero with a constant step size. *)
Theorem C86_interpolation : forall mx p L mu h (f : SepFun (RNum mx) (list R) (list R)) cb (gr : nat -> list R -> list R)
    (F : list R -> R) (y x0 : list R) batch max tol shuffle exact fuel r,
  sgd_sum mx p f gr -> each_smooth p (sf_num f) L gr ->
  smooth_on (space p) L F (avg_grad p (sf_num f) gr) -> strongly_convex_on (space p) mu F ->
  0 < mu <= L -> 0 < h -> length y = p -> (forall z, length z = p -> F y <= F z) ->
  (0 < sf_num f)%nat -> (0 < batch)%nat -> watches cb -> length x0 = p ->
  8 * (h * INR (sf_num f)) * (L * L) <= mu -> (forall i, (i < sf_num f)%nat -> sqn (gr i y) = 0) ->
  optimize_with (plain_sgd mx batch max tol shuffle exact) f cb fuel (sgd_vanilla_init (N := RNum mx) x0) tt h x0 = Return r ->
  (forall x e o, In (EndEpoch x e o) (r_trace r) -> dist x y <= (1 - h * INR (sf_num f) * mu / 4) ^ e * dist x0 y) /\
  dist (r_x r) y <= 5 / 4 * ((1 - h * INR (sf_num f) * mu / 4) ^ passes (r_trace r) * dist x0 y).
Proof. intros. eapply floor_zero; eassumption. Qed.
Print Assumptions C86_interpolation.

(** Any accuracy can be had by choosing the step size: for every eps there is a step size h0 such
    that for every step size up to h0 there is a number of passes after which every pass ends within
    eps of the minimiser, whatever the run. *)
Theorem C86_any_accuracy : forall mx p L mu (f : SepFun (RNum mx) (list R) (list R)) (gr : nat -> list R -> list R)
    (F : list R -> R) (y x0 : list R) eps,
  sgd_sum mx p f gr -> each_smooth p (sf_num f) L gr ->
  smooth_on (space p) L F (avg_grad p (sf_num f) gr) -> strongly_convex_on (space p) mu F ->
  0 < mu <= L -> length y = p -> (forall z, length z = p -> F y <= F z) ->
  (0 < sf_num f)%nat -> length x0 = p -> 0 < eps ->
  exists h0, 0 < h0 /\ forall h, 0 < h <= h0 -> exists E,
    forall cb batch max tol shuffle exact fuel r, (0 < batch)%nat -> watches cb ->
      optimize_with (plain_sgd mx batch max tol shuffle exact) f cb fuel (sgd_vanilla_init (N := RNum mx) x0) tt h x0 = Return r ->
      forall x e o, In (EndEpoch x e o) (r_trace r) -> (E <= e)%nat -> dist x y <= eps.
Proof. intros. eapply floor_accuracy; eassumption. Qed.
Print Assumptions C86_any_accuracy.

(** REFUTED: with a constant step size SGD reaches the minimiser, or at least stays there.  On
    (x-1)^2/2 and (x+1)^2/2 a run started AT the minimiser 0 ends every pass at least h^2 away from
    it, however many passes it makes: the floor is really there. *)
Theorem C86_reaches_the_minimiser_refuted : forall mx h ev max tol shuffle exact (cb : Callbacks (RNum mx) (list R) (list R)) fuel r,
  0 < h <= / 16 -> watches cb ->
  optimize_with (plain_sgd mx 1 max tol shuffle exact) (pull mx ev) cb fuel [tt] tt h [0] = Return r ->
  forall x e o, In (EndEpoch x e o) (r_trace r) -> h * h <= dist x [0].
Proof. intros mx h ev max tol shuffle exact cb fuel r HH W Run. exact (never_there mx h ev max tol shuffle exact cb HH W fuel r Run). Qed.
Print Assumptions C86_reaches_the_minimiser_refuted.

(** The hypotheses can be met: x^2/2 and 3(x-2)^2/2, exchanged by every other shuffle, and the
    functions pulling apart; the runs exist, and they report passes. *)
Example C86_case : forall mx ev cb, watches cb ->
  sgd_sum mx 1 (sep_of mx 2 two_order ev two_grad) two_grad /\ 8 * (/ 72 * INR 2) * (3 * 3) <= 2 /\
  (exists r, optimize_with (plain_sgd mx 1 100 0 true true) (sep_of mx 2 two_order ev two_grad) cb 200 [tt] tt (/ 72) [10] = Return r /\
     dist (r_x r) [3 / 2] <= 5 / 4 * floor_bound 2 3 2 (/ 72) 3 (17 / 2) (passes (r_trace r)) + 2 * (/ 72 * 3)) /\
  sgd_sum mx 1 (pull mx ev) pull_grad /\ each_smooth 1 2 1 pull_grad /\
  smooth_on (space 1) 1 pull_avg (avg_grad 1 2 pull_grad) /\ strongly_convex_on (space 1) 1 pull_avg /\
  (forall z, length z = 1%nat -> pull_avg [0] <= pull_avg z) /\
  (exists r, optimize_with (plain_sgd mx 1 100 0 true true) (pull mx ev) cb 200 [tt] tt (/ 16) [0] = Return r).
Proof.
  intros mx ev cb W. split; [apply two_sep_sum|]. split; [cbn; lra|]. split.
  - assert (X : exists r, optimize_with (plain_sgd mx 1 100 0 true true) (sep_of mx 2 two_order ev two_grad) cb 200 [tt] tt (/ 72) [10] = Return r).
    { apply c02_terminates; cbn; lia. }
    destruct X as [r H]. exists r. split; [exact H|].
    assert (D : dist [10] [3 / 2] = 17 / 2).
    { unfold dist. cbn. replace ((10 - 3 / 2) * (10 - 3 / 2) + 0) with (Rsqr (17 / 2)) by (unfold Rsqr; lra). apply sqrt_Rsqr. lra. }
    assert (S : disagreement 2 two_grad [3 / 2] = 3).
    { unfold disagreement, len, sqn. cbn.
      replace (3 / 2 * (3 / 2) + 0) with (Rsqr (3 / 2)) by (unfold Rsqr; lra).
      replace (3 * (3 / 2 - 2) * (3 * (3 / 2 - 2)) + 0) with (Rsqr (3 / 2)) by (unfold Rsqr; lra). rewrite sqrt_Rsqr by lra. lra. }
    assert (B : dist (r_x r) [3 / 2] <= 5 / 4 * floor_bound 2 3 2 (/ 72) (disagreement 2 two_grad [3 / 2]) (dist [10] [3 / 2]) (passes (r_trace r)) + 2 * (/ 72 * disagreement 2 two_grad [3 / 2])).
    { refine (proj2 (C86_near_the_minimiser mx 1 3 2 (/ 72) (sep_of mx 2 two_order ev two_grad) cb two_grad two_avg [3 / 2] [10] 1 100 0 true true 200 r
        (two_sep_sum mx ev) two_smooth two_avg_smooth two_avg_strong _ _ eq_refl two_avg_min _ _ W eq_refl _ H)); cbn; try lra; lia. }
    rewrite D, S in B. exact B.
  - split; [apply pull_sum|]. split; [apply pull_smooth|]. split; [apply pull_avg_smooth|]. split; [apply pull_avg_strong|]. split; [apply pull_avg_min|].
    apply c02_terminates; cbn; lia.
Qed.
(** one pass of the functions pulling apart, from their minimiser, reported at -h^2 *)
Example C86_pass : forall mx,
  match optimize_with (plain_sgd mx 1 2 0 false false) (pull mx (fun _ _ _ _ => 0)) (Build_Callbacks _ _ _ (fun _ => false) (fun _ g => g)) 5 [tt] tt (/ 16) [0] with
  | Return r => passes (r_trace r) = 1%nat /\ exists a o, In (EndEpoch [a] 1 o) (r_trace r) /\ a = - / 256
  | _ => False
  end.
Proof.
  intros mx. unfold optimize_with. cbn.
  destruct (Rltb _ _); cbn; (split; [reflexivity|]); do 2 eexists; (split; [do 6 right; left; reflexivity|lra]).
Qed.
