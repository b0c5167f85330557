(** Model of the separable test problems in problems/, over the real numbers.  The state of a
    problem is its visitationOrder.  visitationOrder[j] and coordinates[p] past the end
    (undefined behaviour) read as 0 here; the theorems only speak of calls in range. *)
From Coq Require Import List Arith Reals.
From Verif.Model Require Import Problems.
Import ListNotations.
Local Open Scope R_scope.

(** gradient(p) = v, gradient(p) += v *)
Fixpoint put (p : nat) (v : R) (g : list R) : list R :=
  match g, p with [], _ => [] | _ :: r, O => v :: r | a :: r, S q => a :: put q v r end.
Definition add_at (p : nat) (v : R) (g : list R) : list R := put p (co g p + v) g.
(** for (j = begin; j < begin + batchSize; ++j) objective += term(visitationOrder[j]) *)
Definition batch_sum (vo : list nat) (b s : nat) (term : nat -> R) (o : R) : R :=
  fold_left (fun o j => o + term (nth j vo 0%nat)) (seq b s) o.
(** gradient.zeros(n); for (...) gradient(visitationOrder[j]) += term(...) *)
Definition batch_add (n : nat) (vo : list nat) (b s : nat) (term : nat -> R) : list R :=
  fold_left (fun g j => add_at (nth j vo 0%nat) (term (nth j vo 0%nat)) g) (seq b s) (repeat 0 n).

(** the constructors' visitationOrder, sphere_function_impl.hpp:21-34, styblinski_tang..:21-28,
    rastrigin..:21-28, schwefel..:21-28, generalized_rosenbrock..:22-40 (n entries) *)
Definition first_order (n : nat) : list nat := seq 0 n.
(** Shuffle(), sphere_function_impl.hpp:36-40, styblinski_tang..:30-34, rastrigin..:30-34,
    schwefel..:30-34: [perm] is what arma::shuffle returns for its argument *)
Definition shuffle_order (perm : list nat -> list nat) (n : nat) : list nat := perm (seq 0 n).
(** Shuffle(), generalized_rosenbrock_function_impl.hpp:42-46: one entry per function *)
Definition gr_shuffle (perm : list nat -> list nat) (n : nat) : list nat := perm (seq 0 (n - 1)).

(** sphere_function_impl.hpp:42-56 *)
Definition sphere_evaluate (vo : list nat) (x : list R) (b s : nat) : R := batch_sum vo b s (fun p => co x p ^ 2) 0.
(** sphere_function_impl.hpp:58-63 *)
Definition sphere_full (n : nat) (vo : list nat) (x : list R) : R := sphere_evaluate vo x 0 n.
(** sphere_function_impl.hpp:65-78 *)
Definition sphere_gradient (n : nat) (vo : list nat) (x : list R) (b s : nat) : list R :=
  batch_add n vo b s (fun p => 2 * co x p).
(** sphere_function_impl.hpp:80-85 *)
Definition sphere_full_gradient (n : nat) (vo : list nat) (x : list R) : list R := sphere_gradient n vo x 0 n.

(** styblinski_tang_function_impl.hpp:36-52 *)
Definition styblinski_tang_evaluate (vo : list nat) (x : list R) (b s : nat) : R :=
  batch_sum vo b s (fun p => co x p ^ 4 - 16 * co x p ^ 2 + 5 * co x p) 0 / 2.
(** styblinski_tang_function_impl.hpp:54-59 *)
Definition styblinski_tang_full (n : nat) (vo : list nat) (x : list R) : R := styblinski_tang_evaluate vo x 0 n.
(** styblinski_tang_function_impl.hpp:61-75 *)
Definition styblinski_tang_gradient (n : nat) (vo : list nat) (x : list R) (b s : nat) : list R :=
  batch_add n vo b s (fun p => 5/10 * (4 * co x p ^ 3 - 32 * co x p + 5)).
(** styblinski_tang_function_impl.hpp:77-82 *)
Definition styblinski_tang_full_gradient (n : nat) (vo : list nat) (x : list R) : list R := styblinski_tang_gradient n vo x 0 n.

(** rastrigin_function_impl.hpp:36-55: 10 n is added for every batch *)
Definition rastrigin_evaluate (n : nat) (vo : list nat) (x : list R) (b s : nat) : R :=
  batch_sum vo b s (fun p => co x p ^ 2 - 10 * cos (2 * PI * co x p)) 0 + 10 * INR n.
(** rastrigin_function_impl.hpp:57-62 *)
Definition rastrigin_full (n : nat) (vo : list nat) (x : list R) : R := rastrigin_evaluate n vo x 0 n.
(** rastrigin_function_impl.hpp:64-78: with a factor 10 n *)
Definition rastrigin_gradient (n : nat) (vo : list nat) (x : list R) (b s : nat) : list R :=
  batch_add n vo b s (fun p => (10 * INR n) * (2 * (co x p + 10 * PI * sin (2 * PI * co x p)))).
(** rastrigin_function_impl.hpp:80-85 *)
Definition rastrigin_full_gradient (n : nat) (vo : list nat) (x : list R) : list R := rastrigin_gradient n vo x 0 n.

(** schwefel_function_impl.hpp:36-51 *)
Definition schwefel_evaluate (vo : list nat) (x : list R) (b s : nat) : R :=
  batch_sum vo b s (fun p => co x p * sin (sqrt (Rabs (co x p)))) 0 - 4189829/10000 * INR s.
(** schwefel_function_impl.hpp:53-58 *)
Definition schwefel_full (n : nat) (vo : list nat) (x : list R) : R := schwefel_evaluate vo x 0 n.
(** schwefel_function_impl.hpp:60-76 *)
Definition schwefel_gradient (n : nat) (vo : list nat) (x : list R) (b s : nat) : list R :=
  batch_add n vo b s (fun p => co x p ^ 2 * cos (sqrt (Rabs (co x p))) / (2 * pow15 (Rabs (co x p))) + sin (sqrt (Rabs (co x p)))).
(** schwefel_function_impl.hpp:78-83 *)
Definition schwefel_full_gradient (n : nat) (vo : list nat) (x : list R) : list R := schwefel_gradient n vo x 0 n.

(** generalized_rosenbrock_function_impl.hpp:48-63 (n - 1 functions) *)
Definition gr_evaluate (vo : list nat) (x : list R) (b s : nat) : R :=
  batch_sum vo b s (fun p => 100 * (co x p ^ 2 - co x (p + 1)) ^ 2 + (1 - co x p) ^ 2) 0.
(** generalized_rosenbrock_function_impl.hpp:65-77 *)
Definition gr_full (n : nat) (x : list R) : R :=
  fold_left (fun o i => o + (100 * (co x i ^ 2 - co x (i + 1)) ^ 2 + (1 - co x i) ^ 2)) (seq 0 (n - 1)) 0.
(** generalized_rosenbrock_function_impl.hpp:79-94: assigns both entries *)
Definition gr_gradient (n : nat) (vo : list nat) (x : list R) (b s : nat) : list R :=
  fold_left (fun g j => let p := nth j vo 0%nat in
    put (p + 1) (200 * (co x (p + 1) - co x p ^ 2)) (put p (400 * (co x p ^ 3 - co x p * co x (p + 1)) + 2 * (co x p - 1)) g))
    (seq b s) (repeat 0 n).
(** generalized_rosenbrock_function_impl.hpp:96-113 (for n < 2 the last line reads out of range) *)
Definition gr_full_gradient (n : nat) (x : list R) : list R :=
  let g := fold_left (fun g i =>
    let g1 := put i (400 * (co x i ^ 3 - co x i * co x (i + 1)) + 2 * (co x i - 1)) g in
    if Nat.ltb 0 i then add_at i (200 * (co x i - co x (i - 1) ^ 2)) g1 else g1) (seq 0 (n - 1)) (repeat 0 n) in
  put (n - 1) (200 * (co x (n - 1) - co x (n - 2) ^ 2)) g.

(** rosenbrock_wood_function_impl.hpp:32-46; a 4 x 2 matrix column by column *)
Definition rosenbrock_wood_evaluate (x : list R) : R := gr_full 4 (firstn 4 x) + wood_evaluate (skipn 4 x).
(** rosenbrock_wood_function_impl.hpp:48-74 *)
Definition rosenbrock_wood_gradient (x : list R) : list R := gr_full_gradient 4 (firstn 4 x) ++ wood_gradient (skipn 4 x).

(** sparse_test_function_impl.hpp:21-25 *)
Definition sparse_intercepts : list R := [20; 12; 15; 100].
Definition sparse_bi : list R := [-4; -2; -3; -8].
(** sparse_test_function_impl.hpp:28-42 *)
Definition sparse_evaluate (x : list R) (b s : nat) : R :=
  fold_left (fun r j => r + (co x j * co x j + co sparse_bi j * co x j + co sparse_intercepts j)) (seq b s) 0.
(** sparse_test_function_impl.hpp:45-57 *)
Definition sparse_full (x : list R) : R :=
  fold_left (fun r j => r + (co x j * co x j + co sparse_bi j * co x j + co sparse_intercepts j)) (seq 0 4) 0.
(** sparse_test_function_impl.hpp:60-69 *)
Definition sparse_gradient (x : list R) (b s : nat) : list R :=
  fold_left (fun g j => put j (2 * co x j + co sparse_bi j) g) (seq b s) (repeat 0 (length x)).
(** sparse_test_function_impl.hpp:72-79 *)
Definition sparse_partial_gradient (x : list R) (j : nat) : list R := put j (2 * co x j + co sparse_bi j) (repeat 0 (length x)).

(** one pass of the switch in sgd_test_function_impl.hpp:42-58 *)
Definition sgd_test_term (x : list R) (p : nat) : R :=
  match p with
  | 0%nat => - exp (- Rabs (co x 0))
  | 1%nat => co x 1 ^ 2
  | 2%nat => co x 2 ^ 4 + 3 * co x 2 ^ 2
  | _ => 0
  end.
(** sgd_test_function_impl.hpp:33-61 (no overload without begin and batchSize) *)
Definition sgd_test_evaluate (vo : list nat) (x : list R) (b s : nat) : R := batch_sum vo b s (sgd_test_term x) 0.
(** the switch in sgd_test_function_impl.hpp:72-89 *)
Definition sgd_test_slope (x : list R) (p : nat) : R :=
  match p with
  | 0%nat => if Rle_dec 0 (co x 0) then exp (- co x 0) else - exp (co x 0)
  | 1%nat => 2 * co x 1
  | 2%nat => 4 * co x 2 ^ 3 + 6 * co x 2
  | _ => 0
  end.
(** sgd_test_function_impl.hpp:63-91 *)
Definition sgd_test_gradient (vo : list nat) (x : list R) (b s : nat) : list R := batch_add 3 vo b s (sgd_test_slope x).

(** ---- logistic regression ---- *)
(** a data point: a column of [predictors] with its entry of [responses] *)
Definition point : Type := (list R * nat)%type.
Fixpoint dot_ (a b : list R) : R := match a, b with u :: a', v :: b' => u * v + dot_ a' b' | _, _ => 0 end.
(** 1 / (1 + exp(-(w0 + w' x))), logistic_regression_function_impl.hpp:110-112, 147-150, 174-175, 200-204 *)
Definition sigm (w : list R) (q : point) : R := 1 / (1 + exp (- (co w 0 + dot_ (tl w) (fst q)))).
(** arma::accu(...), lines 120-122, 153-156 *)
Definition loglik (w : list R) (pts : list point) : R :=
  fold_left Rplus (map (fun q => ln (1 - INR (snd q) + sigm w q * (2 * INR (snd q) - 1))) pts) 0.
(** predictors.cols(begin, begin + batchSize - 1) *)
Definition cols (pts : list point) (b s : nat) : list point := firstn s (skipn b pts).
(** logistic_regression_function_impl.hpp:90-126 *)
Definition lr_evaluate (lambda : R) (pts : list point) (w : list R) : R :=
  5/10 * lambda * dot_ (tl w) (tl w) - loglik w pts.
(** logistic_regression_function_impl.hpp:132-160 *)
Definition lr_batch (lambda : R) (pts : list point) (w : list R) (b s : nat) : R :=
  lambda * (INR s / (2 * INR (length pts))) * dot_ (tl w) (tl w) - loglik w (cols pts b s).
(** -accu(responses - sigmoids), (sigmoids - responses) * predictors.t() + regularization:
    lines 177-180, 206-211 *)
Definition lr_slope (w : list R) (pts : list point) (reg : list R) : list R :=
  - fold_left Rplus (map (fun q => INR (snd q) - sigm w q) pts) 0 ::
  map (fun k => fold_left Rplus (map (fun q => (sigm w q - INR (snd q)) * co (fst q) k) pts) 0 + co reg k) (seq 0 (length w - 1)).
(** logistic_regression_function_impl.hpp:163-181 *)
Definition lr_gradient (lambda : R) (pts : list point) (w : list R) : list R :=
  lr_slope w pts (map (fun a => lambda * a) (tl w)).
(** logistic_regression_function_impl.hpp:185-212 *)
Definition lr_batch_gradient (lambda : R) (pts : list point) (w : list R) (b s : nat) : list R :=
  lr_slope w (cols pts b s) (map (fun a => lambda * a / INR (length pts) * INR s) (tl w)).
(** logistic_regression_function_impl.hpp:218-240 *)
Definition lr_partial_gradient (lambda : R) (pts : list point) (w : list R) (j : nat) : R :=
  match j with
  | O => - fold_left Rplus (map (fun q => INR (snd q) - sigm w q) pts) 0
  | S k => fold_left Rplus (map (fun q => - co (fst q) k * (INR (snd q) - sigm w q)) pts) 0 + lambda * co w j
  end.
(** logistic_regression_function_impl.hpp:67-84: the same ordering for points and responses *)
Definition lr_shuffle (ordering : list nat) (pts : list point) : list point := map (fun i => nth i pts ([], 0%nat)) ordering.
(** logistic_regression_function_impl.hpp:242-276 and 278-320: the same formulas once more *)
Definition lr_evaluate_with_gradient (lambda : R) (pts : list point) (w : list R) : R * list R :=
  (lambda / 2 * dot_ (tl w) (tl w) - loglik w pts, lr_slope w pts (map (fun a => lambda * a) (tl w))).
Definition lr_batch_evaluate_with_gradient (lambda : R) (pts : list point) (w : list R) (b s : nat) : R * list R :=
  (lambda * (INR s / (2 * INR (length pts))) * dot_ (tl w) (tl w) - loglik w (cols pts b s),
   lr_slope w (cols pts b s) (map (fun a => lambda * a / INR (length pts) * INR s) (tl w))).
