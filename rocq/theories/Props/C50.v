(** C50: the documented final points and objectives of the test problems. *)
From Coq Require Import List Arith Reals Lra Lia Permutation.
From Verif.Spec Require Import ProblemsSpec.
From Verif.Model Require Import Problems ProblemsN ProblemsFinal.
From Verif.Proof Require Import ProblemsMin.
Import ListNotations.
Local Open Scope R_scope.

(** Each pair is (GetFinalPoint(), GetFinalObjective()): the objective is the value at the point,
    and no point of that size has a lower value. *)
Theorem C50_two_variables :
  (forall c, global_minimum 2 (ackley_evaluate c) ackley_final) /\
  global_minimum 2 beale_evaluate beale_final /\
  global_minimum 2 booth_evaluate booth_final /\
  global_minimum 2 bukin_evaluate bukin_final /\
  global_minimum 2 goldstein_price_evaluate goldstein_price_final /\
  global_minimum 2 levy_n13_evaluate levy_n13_final /\
  global_minimum 2 matyas_evaluate matyas_final /\
  global_minimum 2 rosenbrock_evaluate rosenbrock_final /\
  global_minimum 2 schaffer_n2_evaluate schaffer_n2_final /\
  global_minimum 2 three_hump_camel_evaluate three_hump_camel_final.
Proof.
  exact (conj ackley_min (conj beale_min (conj booth_min (conj bukin_min (conj goldstein_price_min (conj levy_n13_min
    (conj matyas_min (conj rosenbrock_min (conj schaffer_n2_min three_hump_camel_min))))))))).
Qed.
Print Assumptions C50_two_variables.
Theorem C50_more_variables :
  global_minimum 4 colville_evaluate colville_final /\
  global_minimum 4 wood_evaluate wood_final /\
  global_minimum 8 rosenbrock_wood_evaluate rosenbrock_wood_final /\
  global_minimum 3 gd_test_evaluate gd_test_final /\
  global_minimum 4 sparse_full sparse_final /\
  (forall vo, Permutation vo (seq 0 3) -> global_minimum 3 (fun x => sgd_test_evaluate vo x 0 3) sgd_test_final).
Proof. exact (conj colville_min (conj wood_min (conj rosenbrock_wood_min (conj gd_test_min (conj sparse_min sgd_test_min))))). Qed.
Print Assumptions C50_more_variables.
Theorem C50_n_variables : forall n vo, Permutation vo (seq 0 n) ->
  global_minimum n (sphere_full n vo) (sphere_final n) /\
  global_minimum n (rastrigin_full n vo) (rastrigin_final n) /\
  global_minimum n (gr_full n) (gr_final n).
Proof. exact (fun n vo P => conj (sphere_min n vo P) (conj (rastrigin_min n vo P) (gr_min n))). Qed.
Print Assumptions C50_n_variables.

(** ---- approximate ones ---- *)
(** Easom: the minimum is -1, at (pi, pi); at GetFinalPoint() = (3.14, 3.14) the value is not
    quite -1, but within 2e-5 of it. *)
Theorem C50_easom :
  global_minimum 2 easom_evaluate ([PI; PI], snd easom_final) /\
  easom_evaluate (fst easom_final) <> snd easom_final /\
  Rabs (easom_evaluate (fst easom_final) - snd easom_final) <= 2/100000.
Proof. exact (conj easom_lower (conj easom_inexact easom_final_value)). Qed.
Print Assumptions C50_easom.
(** Styblinski-Tang: the value at GetFinalPoint() is lower than GetFinalObjective(), by between
    1.7e-4 and 1.8e-4 for each entry; no value is lower than -39.1662 n. *)
Theorem C50_styblinski_tang : forall n vo, Permutation vo (seq 0 n) ->
  (exists e, 17/100000 <= e <= 18/100000 /\
     styblinski_tang_full n vo (fst (styblinski_tang_final n)) = snd (styblinski_tang_final n) - e * INR n) /\
  forall y, - (391662/10000) * INR n <= styblinski_tang_full n vo y.
Proof. exact (fun n vo P => conj (styblinski_tang_final_value n vo P) (fun y => styblinski_tang_lower n vo y P)). Qed.
Print Assumptions C50_styblinski_tang.
(** McCormick: on the points with x1 >= -1.5 and x2 >= -3 nothing is lower than
    GetFinalObjective(), and the value at GetFinalPoint() is within 2e-4 of it. *)
Theorem C50_mc_cormick :
  (forall x1 x2, -15/10 <= x1 -> -3 <= x2 -> snd mc_cormick_final <= mc_cormick_evaluate [x1; x2]) /\
  Rabs (mc_cormick_evaluate (fst mc_cormick_final) - snd mc_cormick_final) <= 2/10000.
Proof. exact (conj mc_cormick_box mc_cormick_final_value). Qed.
Print Assumptions C50_mc_cormick.

(** ---- wrong ones ---- *)
(** McCormick and Eggholder have lower values outside their usual domains; Evaluate accepts any
    point. *)
Theorem C50_plane_refuted :
  mc_cormick_evaluate [-100; -100] < snd mc_cormick_final /\
  exists y, length y = 2%nat /\ eggholder_evaluate y < snd eggholder_final.
Proof. exact (conj mc_cormick_unbounded eggholder_unbounded). Qed.
Print Assumptions C50_plane_refuted.
(** Drop wave: GetFinalObjective() is 0, but the value at GetFinalPoint() is -1, the minimum. *)
Theorem C50_drop_wave_refuted :
  global_minimum 2 drop_wave_evaluate (fst drop_wave_final, -1) /\ snd drop_wave_final = 0.
Proof. exact (conj drop_wave_min eq_refl). Qed.
Print Assumptions C50_drop_wave_refuted.
(** Schwefel: GetFinalObjective() is 0, but the value at the origin is -418.9829 n.  The sum is
    added where it should be subtracted, so that GetFinalPoint() has a higher value than the
    origin, and its mirror image a lower one. *)
Theorem C50_schwefel_refuted : forall n vo, Permutation vo (seq 0 n) ->
  schwefel_full n vo (repeat 0 n) = - (4189829/10000) * INR n /\ snd (schwefel_final n) = 0 /\
  ((0 < n)%nat -> schwefel_full n vo (map Ropp (fst (schwefel_final n))) < schwefel_full n vo (repeat 0 n) <
                  schwefel_full n vo (fst (schwefel_final n))).
Proof. exact (fun n vo P => conj (schwefel_origin n vo P) (conj eq_refl (schwefel_mirror n vo P))). Qed.
Print Assumptions C50_schwefel_refuted.

Example C50_example : snd goldstein_price_final = 3 /\ goldstein_price_evaluate (fst goldstein_price_final) = 3 /\ goldstein_price_evaluate [1; 1] = 1876.
Proof. unfold goldstein_price_evaluate, goldstein_price_final, co. cbn [nth fst snd]. lra. Qed.
Example C50_order_example : Permutation [2; 0; 1]%nat (seq 0 3).
Proof. apply (Permutation_cons_app [0; 1]%nat []). reflexivity. Qed.
