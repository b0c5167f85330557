(** Model of the test problems of fixed dimension in problems/.  Coordinates and
    objective values are real numbers (decimal literals are exact); [coordinates(i)] is the
    i-th entry (reading past the end, an exception in the code, gives 0 here and is excluded
    by the length hypotheses of the theorems).  The overloads with (begin, batchSize) ignore
    both, so one definition covers all overloads; Shuffle() does nothing.
    pow(a, 1.5) is a sqrt(a), exp(1) is exp 1, arma::datum::pi is PI. *)
From Coq Require Import List Reals.
Import ListNotations.
Local Open Scope R_scope.

Definition co (x : list R) (i : nat) : R := nth i x 0.
Definition pow15 (a : R) : R := a * sqrt a.

(** ackley_function_impl.hpp:27-45 *)
Definition ackley_evaluate (c : R) (x : list R) : R :=
  let x1 := co x 0 in let x2 := co x 1 in
  -20 * exp (- (2/10) * sqrt (5/10 * (x1 * x1 + x2 * x2))) -
  exp (5/10 * (cos (c * x1) + cos (c * x2))) + exp 1 + 20.
(** ackley_function_impl.hpp:54-76 *)
Definition ackley_gradient (c epsilon : R) (x : list R) : list R :=
  let x1 := co x 0 in let x2 := co x 1 in
  let t0 := sqrt (5/10 * (x1 * x1 + x2 * x2)) in
  let t1 := 2 * exp (- (2/10) * t0) / (t0 + epsilon) in
  let t2 := 5/10 * c * exp (5/10 * (cos (c * x1) + cos (c * x2))) in
  [x1 * t1 + t2 * sin (c * x1); x2 * t1 + t2 * sin (c * x2)].

(** beale_function_impl.hpp:25-43 *)
Definition beale_evaluate (x : list R) : R :=
  let x1 := co x 0 in let x2 := co x 1 in
  (15/10 - x1 + x1 * x2)^2 + (225/100 - x1 + x1 * x2 * x2)^2 + (2625/1000 - x1 + x1 * x2^3)^2.
(** beale_function_impl.hpp:52-76 *)
Definition beale_gradient (x : list R) : list R :=
  let x1 := co x 0 in let x2 := co x 1 in
  let x2Sq := x2 * x2 in let x2Cub := x2^3 in
  [(2 * x2 - 2) * (x1 * x2 - x1 + 15/10) + (2 * x2Sq - 2) * (x1 * x2Sq - x1 + 225/100) +
     (2 * x2Cub - 2) * (x1 * x2Cub - x1 + 2625/1000);
   6 * x1 * x2Sq * (x1 * x2Cub - x1 + 2625/1000) + 4 * x1 * x2 * (x1 * x2Sq - x1 + 225/100) +
     2 * x1 * (x1 * x2 - x1 + 15/10)].

(** booth_function_impl.hpp:25-42 *)
Definition booth_evaluate (x : list R) : R :=
  let x1 := co x 0 in let x2 := co x 1 in (x1 + 2 * x2 - 7)^2 + (2 * x1 + x2 - 5)^2.
(** booth_function_impl.hpp:51-67 *)
Definition booth_gradient (x : list R) : list R :=
  let x1 := co x 0 in let x2 := co x 1 in [10 * x1 + 8 * x2 - 34; 8 * x1 + 10 * x2 - 38].

(** bukin_function_impl.hpp:26-43 *)
Definition bukin_evaluate (x : list R) : R :=
  let x1 := co x 0 in let x2 := co x 1 in
  100 * sqrt (Rabs (x2 - 1/100 * x1^2)) + 1/100 * Rabs (x1 + 10).
(** bukin_function_impl.hpp:52-71 *)
Definition bukin_gradient (epsilon : R) (x : list R) : list R :=
  let x1 := co x 0 in let x2 := co x 1 in
  [(1/100 * (x1 + 10)) / (Rabs (x1 + 10) + epsilon) -
     (x1 * (x2 - 1/100 * x1^2)) / pow15 (Rabs (x2 - 1/100 * x1^2));
   (50 * (x2 - 1/100 * x1^2)) / pow15 (Rabs (x2 - 1/100 * x1^2))].

(** colville_function_impl.hpp:25-46 *)
Definition colville_evaluate (x : list R) : R :=
  let x1 := co x 0 in let x2 := co x 1 in let x3 := co x 2 in let x4 := co x 3 in
  100 * (x1^2 - x2)^2 + (x1 - 1)^2 + (x3 - 1)^2 + 90 * (x3^2 - x4)^2 +
  101/10 * ((x2 - 1)^2 + (x4 - 1)^2) + 198/10 * (x2 - 1) * (x4 - 1).
(** colville_function_impl.hpp:55-75 *)
Definition colville_gradient (x : list R) : list R :=
  let x1 := co x 0 in let x2 := co x 1 in let x3 := co x 2 in let x4 := co x 3 in
  [2 * (200 * x1 * (x1^2 - x2) + x1 - 1);
   198/10 * x4 - 200 * x1^2 + 2202/10 * x2 - 40;
   2 * (180 * x3 * (x3^2 - x4) + x3 - 1);
   2002/10 * x4 + 198/10 * x2 - 180 * x3^2 - 40].

(** drop_wave_function_impl.hpp:25-43 *)
Definition drop_wave_evaluate (x : list R) : R :=
  let x1 := co x 0 in let x2 := co x 1 in
  -1 * (1 + cos (12 * sqrt (x1^2 + x2^2))) / (5/10 * (x1^2 + x2^2) + 2).
(** drop_wave_function_impl.hpp:52-79 *)
Definition drop_wave_gradient (x : list R) : list R :=
  let x1 := co x 0 in let x2 := co x 1 in
  [(12 * x1 * sin (12 * sqrt (x1^2 + x2^2))) / (sqrt (x1^2 + x2^2) * (5/10 * (x1^2 + x2^2) + 2)) -
     (x1 * (-1 * cos (12 * sqrt (x1^2 + x2^2)) - 1)) / (5/10 * (x1^2 + x2^2) + 2)^2;
   (12 * x2 * sin (12 * sqrt (x1^2 + x2^2))) / (sqrt (x1^2 + x2^2) * (5/10 * (x1^2 + x2^2) + 2)) -
     (x2 * (-1 * cos (12 * sqrt (x1^2 + x2^2)) - 1)) / (5/10 * (x1^2 + x2^2) + 2)^2].

(** easom_function_impl.hpp:25-43 *)
Definition easom_evaluate (x : list R) : R :=
  let x1 := co x 0 in let x2 := co x 1 in
  - cos x1 * cos x2 * exp (-1 * (x1 - PI)^2 - (x2 - PI)^2).
(** easom_function_impl.hpp:52-81 *)
Definition easom_gradient (x : list R) : list R :=
  let x1 := co x 0 in let x2 := co x 1 in
  [2 * (x1 - PI) * exp (-1 * (x1 - PI)^2 - (x2 - PI)^2) * cos x1 * cos x2 +
     exp (-1 * (x1 - PI)^2 - (x2 - PI)^2) * sin x1 * cos x2;
   2 * (x2 - PI) * exp (-1 * (x1 - PI)^2 - (x2 - PI)^2) * cos x1 * cos x2 +
     exp (-1 * (x1 - PI)^2 - (x2 - PI)^2) * cos x1 * sin x2].

(** eggholder_function_impl.hpp:25-43 *)
Definition eggholder_evaluate (x : list R) : R :=
  let x1 := co x 0 in let x2 := co x 1 in
  -1 * (x2 + 47) * sin (sqrt (Rabs (x2 + x1 / 2 + 47))) - x1 * sin (sqrt (Rabs (x1 - (x2 + 47)))).
(** eggholder_function_impl.hpp:52-79 *)
Definition eggholder_gradient (x : list R) : list R :=
  let x1 := co x 0 in let x2 := co x 1 in
  [-1 * sin (sqrt (Rabs (x1 - x2 - 47))) -
     (x1 * (x1 - x2 - 47) * cos (sqrt (Rabs (x1 - x2 - 47)))) / pow15 (2 * Rabs (x1 - x2 - 47)) -
     ((x1 + 47) * (x1 / 2 + x2 + 47) * cos (sqrt (Rabs (x1 / 2 + x2 + 47)))) / (4 * pow15 (Rabs (x1 / 2 + x2 + 47)));
   -1 * sin (sqrt (Rabs (x1 / 2 + x2 + 47))) -
     (x1 * (x1 - x2 - 47) * cos (sqrt (Rabs (x1 - x2 - 47)))) / pow15 (2 * Rabs (x1 - x2 - 47)) -
     ((x1 + 47) * (x1 / 2 + x2 + 47) * cos (sqrt (Rabs (x1 / 2 + x2 + 47)))) / (4 * pow15 (Rabs (x1 / 2 + x2 + 47)))].

(** goldstein_price_function_impl.hpp:26-47 *)
Definition goldstein_price_evaluate (x : list R) : R :=
  let x1 := co x 0 in let x2 := co x 1 in
  let x1Sq := x1^2 in let x2Sq := x2^2 in let x1x2 := x1 * x2 in
  (1 + (x1 + x2 + 1)^2 * (19 - 14 * x1 + 3 * x1Sq - 14 * x2 + 6 * x1x2 + 3 * x2Sq)) *
  (30 + (2 * x1 - 3 * x2)^2 * (18 - 32 * x1 + 12 * x1Sq + 48 * x2 - 36 * x1x2 + 27 * x2Sq)).
(** goldstein_price_function_impl.hpp:56-86 *)
Definition goldstein_price_gradient (x : list R) : list R :=
  let x1 := co x 0 in let x2 := co x 1 in
  [((2 * x1 - 3 * x2)^2 * (24 * x1 - 36 * x2 - 32) +
      (8 * x1 - 12 * x2) * (12 * x1 * x1 - 36 * x1 * x2 - 32 * x1 + 27 * x2 * x2 + 48 * x2 + 18)) *
     ((x1 + x2 + 1)^2 * (3 * x1 * x1 + 6 * x1 * x2 - 14 * x1 + 3 * x2 * x2 - 14 * x2 + 19) + 1) +
     ((2 * x1 - 3 * x2)^2 * (12 * x1 * x1 - 36 * x1 * x2 - 32 * x1 + 27 * x2 * x2 + 48 * x2 + 18) + 30) *
     ((x1 + x2 + 1)^2 * (6 * x1 + 6 * x2 - 14) +
      (2 * x1 + 2 * x2 + 2) * (3 * x1 * x1 + 6 * x1 * x2 - 14 * x1 + 3 * x2 * x2 - 14 * x2 + 19));
   ((-12 * x1 + 18 * x2) * (12 * x1 * x1 - 36 * x1 * x2 - 32 * x1 + 27 * x2 * x2 + 48 * x2 + 18) +
      (2 * x1 - 3 * x2)^2 * (-36 * x1 + 54 * x2 + 48)) *
     ((x1 + x2 + 1)^2 * (3 * x1 * x1 + 6 * x1 * x2 - 14 * x1 + 3 * x2 * x2 - 14 * x2 + 19) + 1) +
     ((2 * x1 - 3 * x2)^2 * (12 * x1 * x1 - 36 * x1 * x2 - 32 * x1 + 27 * x2 * x2 + 48 * x2 + 18) + 30) *
     ((x1 + x2 + 1)^2 * (6 * x1 + 6 * x2 - 14) +
      (2 * x1 + 2 * x2 + 2) * (3 * x1 * x1 + 6 * x1 * x2 - 14 * x1 + 3 * x2 * x2 - 14 * x2 + 19))].

(** himmelblau_function_impl.hpp:25-41 *)
Definition himmelblau_evaluate (x : list R) : R :=
  let x1 := co x 0 in let x2 := co x 1 in (x1 * x1 + x2 - 11)^2 + (x1 + x2 * x2 - 7)^2.
(** himmelblau_function_impl.hpp:50-70 *)
Definition himmelblau_gradient (x : list R) : list R :=
  let x1 := co x 0 in let x2 := co x 1 in
  let x1Sq := x1 * x1 in let x2Sq := x2 * x2 in
  [4 * x1 * (x1Sq + x2 - 11) + 2 * (x1 + x2Sq - 7); 2 * (x1Sq + x2 - 11) + 4 * x2 * (x1 + x2Sq - 7)].

(** levy_function_n13_impl.hpp:25-45 *)
Definition levy_n13_evaluate (x : list R) : R :=
  let x1 := co x 0 in let x2 := co x 1 in
  sin (3 * PI * x1) ^ 2 + (x1 - 1)^2 * (1 + sin (3 * PI * x2) ^ 2) + (x2 - 1)^2 * (1 + sin (2 * PI * x2) ^ 2).
(** levy_function_n13_impl.hpp:54-77 *)
Definition levy_n13_gradient (x : list R) : list R :=
  let x1 := co x 0 in let x2 := co x 1 in
  [(2 * x1 - 2) * (sin (3 * PI * x2) ^ 2 + 1) + 6 * PI * sin (3 * PI * x1) * cos (3 * PI * x1);
   6 * PI * (x1 - 1)^2 * sin (3 * PI * x2) * cos (3 * PI * x2) +
     4 * PI * (x2 - 1)^2 * sin (2 * PI * x2) * cos (2 * PI * x2) +
     (2 * x2 - 2) * (sin (2 * PI * x2) ^ 2 + 1)].

(** matyas_function_impl.hpp:25-42 *)
Definition matyas_evaluate (x : list R) : R :=
  let x1 := co x 0 in let x2 := co x 1 in 26/100 * (x1^2 + x2^2) - 48/100 * x1 * x2.
(** matyas_function_impl.hpp:51-67: line 65 has 48 for 0.48 *)
Definition matyas_gradient (x : list R) : list R :=
  let x1 := co x 0 in let x2 := co x 1 in [52/100 * x1 - 48 * x2; 52/100 * x2 - 48/100 * x1].

(** mc_cormick_function_impl.hpp:25-39 *)
Definition mc_cormick_evaluate (x : list R) : R :=
  let x1 := co x 0 in let x2 := co x 1 in
  sin (x1 + x2) + (x1 - x2)^2 - 15/10 * x1 + 25/10 * x2 + 1.
(** mc_cormick_function_impl.hpp:48-61 *)
Definition mc_cormick_gradient (x : list R) : list R :=
  let x1 := co x 0 in let x2 := co x 1 in
  [cos (x1 + x2) + 2 * x1 - 2 * x2 - 15/10; cos (x1 + x2) - 2 * x1 + 2 * x2 + 25/10].

(** rosenbrock_function_impl.hpp:26-44 *)
Definition rosenbrock_evaluate (x : list R) : R :=
  let x1 := co x 0 in let x2 := co x 1 in 100 * (x2 - x1^2)^2 + (1 - x1)^2.
(** rosenbrock_function_impl.hpp:53-69 *)
Definition rosenbrock_gradient (x : list R) : list R :=
  let x1 := co x 0 in let x2 := co x 1 in
  [-2 * (1 - x1) + 400 * (x1^3 - x2 * x1); 200 * (x2 - x1^2)].

(** schaffer_function_n2_impl.hpp:25-43 *)
Definition schaffer_n2_evaluate (x : list R) : R :=
  let x1 := co x 0 in let x2 := co x 1 in
  5/10 + (sin (x1^2 - x2^2) ^ 2 - 5/10) / (1 + 1/1000 * (x1^2 + x2^2))^2.
(** schaffer_function_n2_impl.hpp:52-79 *)
Definition schaffer_n2_gradient (x : list R) : list R :=
  let x1 := co x 0 in let x2 := co x 1 in
  let x1Sq := x1 * x1 in let x2Sq := x2 * x2 in let sum1 := x1Sq - x2Sq in
  let sinSum1 := sin sum1 in let sum2 := 1/1000 * (x1Sq + x2Sq) + 1 in
  let trigExpression := 4 * sinSum1 * cos sum1 in
  let numerator1 := - (4/1000) * (sinSum1^2 - 5/10) in
  let expr1 := numerator1 / sum2^3 in
  let expr2 := trigExpression / sum2^2 in
  [x1 * (expr1 + expr2); x2 * (expr1 - expr2)].

(** three_hump_camel_function_impl.hpp:26-42 *)
Definition three_hump_camel_evaluate (x : list R) : R :=
  let x1 := co x 0 in let x2 := co x 1 in
  2 * x1^2 - 105/100 * x1^4 + x1^6 / 6 + x1 * x2 + x2^2.
(** three_hump_camel_function_impl.hpp:51-67 *)
Definition three_hump_camel_gradient (x : list R) : list R :=
  let x1 := co x 0 in let x2 := co x 1 in [x1^5 - 42/10 * x1^3 + 4 * x1 + x2; x1 + 2 * x2].

(** wood_function_impl.hpp:26-50 *)
Definition wood_evaluate (x : list R) : R :=
  let x1 := co x 0 in let x2 := co x 1 in let x3 := co x 2 in let x4 := co x 3 in
  100 * (x2 - x1^2)^2 + (1 - x1)^2 + 90 * (x4 - x3^2)^2 + (1 - x3)^2 + 10 * (x2 + x4 - 2)^2 + 1/10 * (x2 - x4)^2.
(** wood_function_impl.hpp:59-81 *)
Definition wood_gradient (x : list R) : list R :=
  let x1 := co x 0 in let x2 := co x 1 in let x3 := co x 2 in let x4 := co x 3 in
  [400 * (x1^3 - x2 * x1) - 2 * (1 - x1);
   200 * (x2 - x1^2) + 20 * (x2 + x4 - 2) + 1/5 * (x2 - x4);
   360 * (x3^3 - x4 * x3) - 2 * (1 - x3);
   180 * (x4 - x3^2) + 20 * (x2 + x4 - 2) - 1/5 * (x2 - x4)].

(** gradient_descent_test_function_impl.hpp:20-26: trans(x) * x, for a column *)
Definition gd_test_evaluate (x : list R) : R := fold_right Rplus 0 (map (fun a => a * a) x).
(** gradient_descent_test_function_impl.hpp:28-33 *)
Definition gd_test_gradient (x : list R) : list R := map (fun a => 2 * a) x.

(** fw_test_function.hpp:33-41 *)
Definition fw_test_evaluate (x : list R) : R :=
  (co x 0 - 1/10)^2 + (co x 1 - 2/10)^2 + (co x 2 - 3/10)^2.
(** fw_test_function.hpp:49-55: without the factor 2 *)
Definition fw_test_gradient (x : list R) : list R := [co x 0 - 1/10; co x 1 - 2/10; co x 2 - 3/10].

(** aug_lagrangian_test_functions_impl.hpp:36-42 *)
Definition auglag_test_evaluate (x : list R) : R := 6 * co x 0 ^ 2 + 4 * (co x 0 * co x 1) + 3 * co x 1 ^ 2.
(** aug_lagrangian_test_functions_impl.hpp:44-53 *)
Definition auglag_test_gradient (x : list R) : list R := [12 * co x 0 + 4 * co x 1; 4 * co x 0 + 6 * co x 1].
(** aug_lagrangian_test_functions_impl.hpp:55-64 (one constraint) *)
Definition auglag_test_constraint (i : nat) (x : list R) : R :=
  match i with O => co x 0 + co x 1 - 5 | _ => 0 end.
(** aug_lagrangian_test_functions_impl.hpp:66-80 *)
Definition auglag_test_constraint_gradient (i : nat) (x : list R) : list R :=
  match i with O => [1; 1] | _ => [0; 0] end.

(** aug_lagrangian_test_functions_impl.hpp:98-106 *)
Definition gockenbach_evaluate (x : list R) : R := (co x 0 - 1)^2 + 2 * (co x 1 + 2)^2 + 3 * (co x 2 + 3)^2.
(** aug_lagrangian_test_functions_impl.hpp:108-120 *)
Definition gockenbach_gradient (x : list R) : list R := [2 * (co x 0 - 1); 4 * (co x 1 + 2); 6 * (co x 2 + 3)].
(** aug_lagrangian_test_functions_impl.hpp:122-146 *)
Definition gockenbach_constraint (i : nat) (x : list R) : R :=
  match i with O => co x 2 - co x 1 - co x 0 - 1 | 1%nat => Rmin 0 (co x 2 - co x 0 ^ 2) | _ => 0 end.
(** aug_lagrangian_test_functions_impl.hpp:148-174: the inequality's gradient is not cut off at 0 *)
Definition gockenbach_constraint_gradient (i : nat) (x : list R) : list R :=
  match i with O => [-1; -1; 1] | 1%nat => [-2 * co x 0; 0; 1] | _ => [0; 0; 0] end.
