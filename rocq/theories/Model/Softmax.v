(** problems/softmax_regression_function.hpp and softmax_regression_function_impl.hpp, in exact
    arithmetic.  A matrix is a function of row and column; its size is kept beside it.  [None]
    stands for the exception Armadillo raises (matrix product of incompatible sizes, row or
    location out of bounds). *)
From Coq Require Import Arith Bool List Reals.
Import ListNotations.
Local Open Scope R_scope.

Definition mat : Type := nat -> nat -> R.
(** arma::accu and the sums inside a matrix product *)
Fixpoint usum (n : nat) (f : nat -> R) : R := match n with O => 0 | S k => usum k f + f k end.

(** softmax_regression_function.hpp 185-197 *)
Record softmax : Type := {
  sm_data : mat; sm_rows : nat; sm_cols : nat;      (* features by samples *)
  sm_truth : mat;                                   (* classes by samples *)
  sm_classes : nat; sm_lambda : R; sm_intercept : bool }.

(** GetGroundTruthMatrix, 119-146: a one in the row of the label *)
Definition ground_truth (labels : nat -> nat) : mat := fun k i => if (labels i =? k)%nat then 1 else 0.
(** constructor, 21-38 *)
Definition construct (data : mat) (rows cols : nat) (labels : nat -> nat) (classes : nat) (lambda : R) (intercept : bool) : softmax :=
  {| sm_data := data; sm_rows := rows; sm_cols := cols; sm_truth := ground_truth labels;
     sm_classes := classes; sm_lambda := lambda; sm_intercept := intercept |}.
(** number of columns of the parameters: InitializeWeights, 98-112; NumFeatures() *)
Definition num_features (s : softmax) : nat := if sm_intercept s then S (sm_rows s) else sm_rows s.

(** GetProbabilitiesMatrix, 152-181: the exponents *)
Definition score (s : softmax) (par : mat) (start k i : nat) : R :=
  if sm_intercept s
  then par k 0%nat + usum (sm_rows s) (fun j => par k (S j) * sm_data s j (start + i)%nat)
  else usum (sm_rows s) (fun j => par k j * sm_data s j (start + i)%nat).
Definition probabilities (s : softmax) (par : mat) (start : nat) : mat := fun k i =>
  exp (score s par start k i) / usum (sm_classes s) (fun k => exp (score s par start k i)).
Definition accu (r c : nat) (m : mat) : R := usum c (fun j => usum r (fun i => m i j)).

(** Evaluate(parameters), 186-220 *)
Definition evaluate (s : softmax) (par : mat) : R :=
  let p := probabilities s par 0 in
  let logLikelihood := accu (sm_classes s) (sm_cols s) (fun k i => sm_truth s k i * ln (p k i)) / INR (sm_cols s) in
  let weightDecay := / 2 * sm_lambda s * accu (sm_classes s) (num_features s) (fun k j => par k j * par k j) in
  - logLikelihood + weightDecay.
(** Evaluate(parameters, start, batchSize), 225-241: the weight decay takes the matrix product
    of the parameters with themselves *)
Definition evaluate_batch (s : softmax) (par : mat) (start b : nat) : option R :=
  let p := probabilities s par start in
  let logLikelihood := accu (sm_classes s) b (fun k i => sm_truth s k (start + i)%nat * ln (p k i)) / INR b in
  if (sm_classes s =? num_features s)%nat then
    let weightDecay := / 2 * sm_lambda s *
      accu (sm_classes s) (num_features s) (fun k j => usum (sm_classes s) (fun a => par k a * par a j)) in
    Some (- logLikelihood + weightDecay)
  else None.

(** one column of inner * data.t() / b + lambda * parameters.col: [feature i] is the datum *)
Definition grad_col (s : softmax) (inner : mat) (b : nat) (par : mat) (col : nat) (feature : nat -> R) : nat -> R :=
  fun k => usum b (fun i => inner k i * feature i) / INR b + sm_lambda s * par k col.
(** Gradient(parameters, gradient), 246-277, and Gradient(parameters, start, gradient,
    batchSize), 279-307: the first is the second on all samples *)
Definition gradient_batch (s : softmax) (par : mat) (start b : nat) : mat :=
  let p := probabilities s par start in
  let inner := fun k i => p k i - sm_truth s k (start + i)%nat in
  fun k j =>
    if sm_intercept s then
      match j with
      | O => grad_col s inner b par 0 (fun _ => 1) k
      | S j' => grad_col s inner b par j (fun i => sm_data s j' (start + i)%nat) k
      end
    else grad_col s inner b par j (fun i => sm_data s j (start + i)%nat) k.
Definition gradient (s : softmax) (par : mat) : mat := gradient_batch s par 0 (sm_cols s).
(** PartialGradient(parameters, j, gradient), 309-340: data.row(j) in both cases *)
Definition partial_gradient (s : softmax) (par : mat) (j : nat) : option mat :=
  let p := probabilities s par 0 in
  let inner := fun k i => p k i - sm_truth s k i in
  let column f : mat := fun k c => if (c =? j)%nat then grad_col s inner (sm_cols s) par j f k else 0 in
  if sm_intercept s && (j =? 0)%nat then Some (column (fun _ => 1))
  else if (j <? sm_rows s)%nat then Some (column (fun i => sm_data s j i)) else None.

(** Shuffle(), 43-76, for the ordering drawn (column i of the new data is column [ord i]) and its
    inverse: the new location of an entry is (reverseOrdering(column), row), and the batch
    constructor of sp_mat refuses locations outside the matrix.  Every column holds one entry, so
    no two locations coincide; [labels] is the row of the entry. *)
Definition shuffle (s : softmax) (labels ord rev : nat -> nat) : option softmax :=
  if forallb (fun i => (rev i <? sm_classes s)%nat && (labels i <? sm_cols s)%nat) (seq 0 (sm_cols s)) then
    Some {| sm_data := fun j i => sm_data s j (ord i); sm_rows := sm_rows s; sm_cols := sm_cols s;
            sm_truth := fun r c => if existsb (fun i => (rev i =? r)%nat && (labels i =? c)%nat) (seq 0 (sm_cols s)) then 1 else 0;
            sm_classes := sm_classes s; sm_lambda := sm_lambda s; sm_intercept := sm_intercept s |}
  else None.
