(** Model of GetFinalPoint() and GetFinalObjective() of the test problems in problems/.  Decimal
    literals are exact; [n] is the number of entries of the initial point. *)
From Coq Require Import List Reals.
Import ListNotations.
Local Open Scope R_scope.

(** ackley_function.hpp:126, 129 *)
Definition ackley_final : list R * R := ([0; 0], 0).
(** beale_function.hpp:109, 112 *)
Definition beale_final : list R * R := ([3; 5/10], 0).
(** booth_function.hpp:109, 112 *)
Definition booth_final : list R * R := ([1; 3], 0).
(** bukin_function.hpp:119, 122 *)
Definition bukin_final : list R * R := ([-10; 1], 0).
(** colville_function.hpp:110, 113 *)
Definition colville_final : list R * R := ([1; 1; 1; 1], 0).
(** drop_wave_function.hpp:109, 112 *)
Definition drop_wave_final : list R * R := ([0; 0], 0).
(** easom_function.hpp:109, 112 *)
Definition easom_final : list R * R := ([314/100; 314/100], -1).
(** eggholder_function.hpp:110, 113 *)
Definition eggholder_final : list R * R := ([512; 4042319/10000], - (9596407/10000)).
(** generalized_rosenbrock_function.hpp:121-124, 127 *)
Definition gr_final (n : nat) : list R * R := (repeat 1 n, 0).
(** goldstein_price_function.hpp:118, 121 *)
Definition goldstein_price_final : list R * R := ([0; -1], 3).
(** gradient_descent_test_function.hpp:47, 50 *)
Definition gd_test_final : list R * R := ([0; 0; 0], 0).
(** levy_function_n13.hpp:105, 108 *)
Definition levy_n13_final : list R * R := ([1; 1], 0).
(** matyas_function.hpp:109, 112 *)
Definition matyas_final : list R * R := ([0; 0], 0).
(** mc_cormick_function.hpp:109, 112 *)
Definition mc_cormick_final : list R * R := ([- (54719/100000); - (154719/100000)], - (19133/10000)).
(** rastrigin_function.hpp:115-118, 121 *)
Definition rastrigin_final (n : nat) : list R * R := (repeat 0 n, 0).
(** rosenbrock_function.hpp:119, 122 *)
Definition rosenbrock_final : list R * R := ([1; 1], 0).
(** rosenbrock_wood_function.hpp:99-102, 105: a 4 x 2 matrix column by column *)
Definition rosenbrock_wood_final : list R * R := (repeat 1 8, 0).
(** schaffer_function_n2.hpp:110, 113 *)
Definition schaffer_n2_final : list R * R := ([0; 0], 0).
(** schwefel_function.hpp:115-120, 123 *)
Definition schwefel_final (n : nat) : list R * R := (repeat (4209687/10000) n, 0).
(** sgd_test_function.hpp:64, 67 *)
Definition sgd_test_final : list R * R := ([0; 0; 0], -1).
(** sparse_test_function.hpp:71, 74 *)
Definition sparse_final : list R * R := ([2; 1; 15/10; 4], 12375/100).
(** sphere_function.hpp:116-119, 122 *)
Definition sphere_final (n : nat) : list R * R := (repeat 0 n, 0).
(** styblinski_tang_function.hpp:117-123, 126 *)
Definition styblinski_tang_final (n : nat) : list R * R := (repeat (- (2903534/1000000)) n, - (3916599/100000) * INR n).
(** three_hump_camel_function.hpp:115, 118 *)
Definition three_hump_camel_final : list R * R := ([0; 0], 0).
(** wood_function.hpp:116, 119 *)
Definition wood_final : list R * R := ([1; 1; 1; 1], 0).
